(** Faces of a constructed mesh that are convex polygons; exact reals. *)
From Verif Require Import RBase MGeometry MAlgorithms MCelltree SpecTree SpecQuery SpecApi PMesh PInit PBuild PPoints PApi
  SpecPoly GTriangle GConvex GHull GRay GCcw GBuild.
Open Scope R_scope.

Lemma Ok_inj {A} (x y : A) : Ok x = Ok y -> x = y.
Proof. congruence. Qed.

Lemma poly_of_unique (vs : list pt) f p q : poly_of vs f p -> poly_of vs f q -> p = q.
Proof.
  unfold poly_of. intros H. revert q. induction H as [|i v l l' (_ & E) _ IH]; intros q Hq; inversion Hq; subst; auto.
  destruct H1 as (_ & E'). f_equal; [congruence|auto].
Qed.

Lemma poly_of_rev (vs : list pt) f poly : wf_face (length vs) f -> poly_of vs f poly ->
  poly_of vs (rev (until_fill f) ++ skipn (length (until_fill f)) f) (rev poly).
Proof.
  intros Hw Hp. unfold poly_of. destruct (wf_face_rev _ f Hw) as (_ & ->). now apply Forall2_rev.
Qed.

Lemma init_ccw g vs faces fill nb cpl (t : tree2d (T:=R)) :
  mesh_ok vs faces fill -> CellTree2d_init g vs faces fill nb cpl = Ok t ->
  counter_clockwise vs (map (with_fill fill) faces) = Ok (elements (celltree_data t)).
Proof.
  intros Hm H. unfold CellTree2d_init in H. apply bind_ok in H as (u & _ & H).
  rewrite (cast_faces_wf vs) in H by apply (mo_faces _ _ _ Hm). cbn [bind] in H.
  apply bind_ok in H as (f2 & E2 & H). apply bind_ok in H as (f3 & E3 & H).
  apply bind_ok in H as ((n & i) & E4 & H). apply bind_ok in H as (b & E5 & H).
  inversion H. subst t. cbn. auto.
Qed.

(** one face *)
Lemma ccw_face_convex vs f poly : wf_face (length vs) f -> poly_of vs f poly -> convex poly ->
  exists f' poly', ccw_face vs f = Ok f' /\ wf_face (length vs) f' /\ same_face f f'
    /\ poly_of vs f' poly' /\ convex_ccw poly' /\ (poly' = poly \/ poly' = rev poly).
Proof.
  intros Hw Hp [Hc|Hc].
  - exists f, poly. split; [eapply ccw_face_keep; eauto|]. split; auto. split; [split; auto|]. auto.
  - pose proof (ccw_face_flip vs f poly Hw Hp Hc) as E.
    destruct (ccw_face_ok vs f Hw) as (f' & E' & Hw' & Hs'). rewrite E in E'.
    apply Ok_inj in E'. subst f'.
    exists (rev (until_fill f) ++ skipn (length (until_fill f)) f), (rev poly).
    split; auto. split; auto. split; auto. split; [now apply poly_of_rev|]. auto.
Qed.

Lemma counter_clockwise_convex vs faces faces' :
  Forall (wf_face (length vs)) faces -> counter_clockwise vs faces = Ok faces' ->
  Forall2 (fun f f' => same_face f f' /\ forall poly, poly_of vs f poly -> convex poly ->
     exists poly', poly_of vs f' poly' /\ convex_ccw poly' /\ (poly' = poly \/ poly' = rev poly)) faces faces'.
Proof.
  intros Hw H. apply mapres_ok_inv in H. revert Hw. induction H as [|f f' l l' E _ IH]; intros Hw; constructor.
  - inversion Hw as [|? ? Hf Hl]; subst.
    destruct (ccw_face_ok vs f Hf) as (f1 & E1 & Hw1 & Hs1). rewrite E in E1. apply Ok_inj in E1. subst f1.
    split; auto. intros poly Hp Hc.
    destruct (ccw_face_convex vs f poly Hf Hp Hc) as (f1 & poly' & E1 & _ & _ & Hp' & Hc' & Ho).
    rewrite E in E1. apply Ok_inj in E1. subst f1. eauto.
  - apply IH. now inversion Hw.
Qed.

Lemma counter_clockwise_idem vs faces :
  Forall (wf_face (length vs)) faces -> Forall (fun f => forall poly, poly_of vs f poly -> convex_ccw poly) faces ->
  counter_clockwise vs faces = Ok faces.
Proof.
  intros Hw Hc. unfold counter_clockwise. rewrite (Base.mapres_ok _ (fun f => f)); [now rewrite map_id|].
  intros f Hf. rewrite Forall_forall in Hw, Hc. destruct (wf_poly vs f (Hw f Hf)) as (poly & Hp).
  eapply ccw_face_keep; eauto.
Qed.

(** points of the polygon are in its bounding box *)
Lemma tight_box_hull (poly : list pt) b p : tight_box poly b -> hull poly p -> in_closed_box p b.
Proof.
  intros (HF & _) (ws & Hl & Hw & Hs & ->). rewrite Forall_forall in HF.
  assert (K : forall a c d, (forall v, In v poly -> 0 <= aff a c d v) -> 0 <= aff a c d (comb ws poly)).
  { intros a c d H. rewrite comb_aff by auto. now apply wsum_nonneg. }
  split; [|split; [|split]]; apply Rle_bool_true.
  - pose proof (K 1 0 (- xmin b)) as H. unfold aff in H.
    enough (0 <= 1 * px (comb ws poly) + 0 * py (comb ws poly) + - xmin b) by lra. apply H.
    intros v Hv. destruct (HF v Hv) as (A & _). rsimp. rb. lra.
  - pose proof (K (-1) 0 (xmax b)) as H. unfold aff in H.
    enough (0 <= -1 * px (comb ws poly) + 0 * py (comb ws poly) + xmax b) by lra. apply H.
    intros v Hv. destruct (HF v Hv) as (_ & A & _). rsimp. rb. lra.
  - pose proof (K 0 1 (- ymin b)) as H. unfold aff in H.
    enough (0 <= 0 * px (comb ws poly) + 1 * py (comb ws poly) + - ymin b) by lra. apply H.
    intros v Hv. destruct (HF v Hv) as (_ & _ & A & _). rsimp. rb. lra.
  - pose proof (K 0 (-1) (ymax b)) as H. unfold aff in H.
    enough (0 <= 0 * px (comb ws poly) + -1 * py (comb ws poly) + ymax b) by lra. apply H.
    intros v Hv. destruct (HF v Hv) as (_ & _ & _ & A). rsimp. rb. lra.
Qed.

Lemma near_segment_swap r u v p : near_segment r u v p -> near_segment r v u p.
Proof.
  intros (q & (t & Ht & ->) & Hd). exists (at_ v u (1 - t)). split; [exists (1 - t); split; [lra|auto]|].
  replace (at_ v u (1 - t)) with (at_ u v t); auto. apply pt_eq; unfold at_; cbn; ring.
Qed.
Lemma near_boundary_rev r poly p : near_boundary r (rev poly) p <-> near_boundary r poly p.
Proof.
  assert (H : forall poly, near_boundary r (rev poly) p -> near_boundary r poly p).
  { intros l (u & v & He & Hn). exists v, u. split; [now apply edges_rev|now apply near_segment_swap]. }
  split; auto. intros Hn. apply H. now rewrite rev_involutive.
Qed.

(** the answers of the point test for a convex face in either orientation *)
Lemma hull_either poly poly' p : poly' = poly \/ poly' = rev poly -> (hull poly' p <-> hull poly p).
Proof. intros [->| ->]; [tauto|apply hull_rev]. Qed.
Lemma open_hull_either poly poly' p : poly' = poly \/ poly' = rev poly -> (open_hull poly' p <-> open_hull poly p).
Proof. intros [->| ->]; [tauto|apply open_hull_rev]. Qed.
Lemma near_either r poly poly' p : poly' = poly \/ poly' = rev poly -> (near_boundary r poly' p <-> near_boundary r poly p).
Proof. intros [->| ->]; [tauto|apply near_boundary_rev]. Qed.
