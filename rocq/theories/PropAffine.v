(** C76: moved, turned, mirrored, sheared or rescaled coordinates, and faces
    that start at another corner or turn the other way. *)
From Verif Require Import RBase MUtils MGeometry MAlgorithms MQuery MCelltree SpecTree SpecQuery SpecApi PMesh PInit PBuild PQuery PPoints PTreeFacts PApi
  NumSub SpecPoly SpecArea SpecMesh GTriangle GConvex GHull GRay GCcw GBuild GFaces GArea GClip GClipArea GEdges GAffine PFaces PSmall PropSmall
  Examples PropEdges PropPoints PropFaces PropArea PropClipLine PropPieces.
From Coq Require Import Permutation.
Open Scope R_scope.

(** Face [j] of the second mesh has the images of the corners of face [j] of
    the first, in any order *)
Definition image_mesh (m : affine) (vs : list pt) (faces : list (list Z)) (fill : Z)
    (vs' : list pt) (faces' : list (list Z)) (fill' : Z) : Prop :=
  (forall j poly, face_poly vs faces fill j poly ->
     exists poly', face_poly vs' faces' fill' j poly' /\ Permutation (map (amap m) poly) poly')
  /\ (forall j poly', face_poly vs' faces' fill' j poly' ->
     exists poly, face_poly vs faces fill j poly /\ Permutation (map (amap m) poly) poly').

(** ** When this is so *)

(** the vertices are mapped *)
Lemma poly_of_amap m (vs : list pt) f poly : poly_of vs f poly -> poly_of (map (amap m) vs) f (map (amap m) poly).
Proof.
  unfold poly_of. induction 1 as [|i p l l' (H0 & E) _ IH]; cbn [map]; constructor; auto. split; auto. now apply map_nth_error.
Qed.
Lemma poly_of_amap_inv m (vs : list pt) f poly' : poly_of (map (amap m) vs) f poly' -> exists poly, poly_of vs f poly /\ poly' = map (amap m) poly.
Proof.
  unfold poly_of. intros H. remember (until_fill f) as l eqn:El. clear El. induction H as [|i p l l' (H0 & E) _ IH]; [exists []; split; [constructor|reflexivity]|].
  destruct IH as (poly & HF & ->). rewrite nth_error_map in E. destruct (nth_error vs (Z.to_nat i)) as [q|] eqn:Eq; [|discriminate]. cbn in E. inversion E; subst.
  exists (q :: poly). split; [constructor; auto|reflexivity].
Qed.

Theorem C76_mapped_vertices m vs faces fill : det m <> 0 ->
  image_mesh m vs faces fill (map (amap m) vs) faces fill
  /\ (convex_mesh vs faces fill -> convex_mesh (map (amap m) vs) faces fill).
Proof.
  intros Hd.
  assert (B : forall j poly', face_poly (map (amap m) vs) faces fill j poly' -> exists poly, face_poly vs faces fill j poly /\ poly' = map (amap m) poly).
  { intros j poly' (f & H0 & En & Hp). apply poly_of_amap_inv in Hp as (poly & Hp & ->). exists poly. split; auto. exists f. auto. }
  split; [split|].
  - intros j poly (f & H0 & En & Hp). exists (map (amap m) poly). split; auto. exists f. split; auto. split; auto. now apply poly_of_amap.
  - intros j poly' Hp. destruct (B j poly' Hp) as (poly & H & ->). eauto.
  - intros Hc j poly' Hp. destruct (B j poly' Hp) as (poly & H & ->). apply convex_aff; eauto.
Qed.

(** the corners of every face are listed from another start or backwards *)
Definition relisted (f f' : list Z) : Prop :=
  exists l1 l2, until_fill f = l1 ++ l2 /\ (until_fill f' = l2 ++ l1 \/ until_fill f' = rev (l2 ++ l1)).
Definition ident : affine := Aff 1 0 0 1 0 0.
Lemma ident_id p : amap ident p = p.
Proof. unfold amap, ident. cbn [aa ab ac ad ae af]. apply pt_eq; cbn [px py]; ring. Qed.
Lemma map_ident l : map (amap ident) l = l.
Proof. rewrite (map_ext _ (fun p => p)); [apply map_id|apply ident_id]. Qed.
Lemma det_ident : det ident = 1.
Proof. unfold det, ident. cbn [aa ab ac ad]. ring. Qed.

Lemma convex_rot l1 l2 : convex (l1 ++ l2) -> convex (l2 ++ l1).
Proof.
  intros [H|H]; [left; now apply convex_ccw_rot|]. right. rewrite rev_app_distr in *. now apply convex_ccw_rot.
Qed.
Lemma convex_rev l : convex l -> convex (rev l).
Proof. intros [H|H]; [right; now rewrite rev_involutive|now left]. Qed.

Lemma relisted_poly (vs : list pt) f f' poly : relisted f f' -> poly_of vs f poly ->
  exists p1 p2 poly', poly = p1 ++ p2 /\ poly_of vs f' poly' /\ (poly' = p2 ++ p1 \/ poly' = rev (p2 ++ p1)).
Proof.
  intros (l1 & l2 & E & H) Hp. unfold poly_of in *. rewrite E in Hp. apply Forall2_app_inv_l in Hp as (p1 & p2 & F1 & F2 & ->).
  exists p1, p2. destruct H as [-> | ->].
  - exists (p2 ++ p1). split; auto. split; auto. now apply Forall2_app.
  - exists (rev (p2 ++ p1)). split; auto. split; auto. rewrite !rev_app_distr. apply Forall2_app; now apply Forall2_rev.
Qed.

Theorem C76_relisted_faces vs faces fill faces' fill' :
  Forall2 relisted (map (with_fill fill) faces) (map (with_fill fill') faces') ->
  image_mesh ident vs faces fill vs faces' fill'
  /\ (convex_mesh vs faces fill -> convex_mesh vs faces' fill').
Proof.
  intros HF.
  assert (A : forall j poly, face_poly vs faces fill j poly -> exists p1 p2 poly', poly = p1 ++ p2 /\ face_poly vs faces' fill' j poly' /\ (poly' = p2 ++ p1 \/ poly' = rev (p2 ++ p1))).
  { intros j poly (f & H0 & En & Hp).
    destruct (nth_error (map (with_fill fill') faces') (Z.to_nat j)) as [f'|] eqn:En'.
    - pose proof (Forall2_nth _ _ _ _ _ _ HF En En') as R. destruct (relisted_poly vs f f' poly R Hp) as (p1 & p2 & poly' & E & Hp' & H).
      exists p1, p2, poly'. split; auto. split; auto. exists f'. auto.
    - exfalso. apply nth_error_None in En'. rewrite <- (F2_length _ _ _ HF) in En'. assert (Z.to_nat j < length (map (with_fill fill) faces))%nat by (apply nth_error_Some; congruence). lia. }
  assert (B : forall j poly', face_poly vs faces' fill' j poly' -> exists poly, face_poly vs faces fill j poly).
  { intros j poly' (f' & H0 & En' & Hp').
    destruct (nth_error (map (with_fill fill) faces) (Z.to_nat j)) as [f|] eqn:En.
    - pose proof (Forall2_nth _ _ _ _ _ _ HF En En') as (l1 & l2 & E & R).
      assert (R' : relisted f' f).
      { destruct R as [R|R]; [exists l2, l1; auto|]. rewrite rev_app_distr in R. exists (rev l1), (rev l2). split; auto. right.
        rewrite rev_app_distr, !rev_involutive. auto. }
      destruct (relisted_poly vs f' f poly' R' Hp') as (p1 & p2 & poly & _ & Hp & _). exists poly, f. auto.
    - exfalso. apply nth_error_None in En. rewrite (F2_length _ _ _ HF) in En. assert (Z.to_nat j < length (map (with_fill fill') faces'))%nat by (apply nth_error_Some; congruence). lia. }
  assert (P : forall p1 p2 poly' : list pt, poly' = p2 ++ p1 \/ poly' = rev (p2 ++ p1) -> Permutation (p1 ++ p2) poly').
  { intros p1 p2 poly' [-> | ->]; [apply Permutation_app_comm|]. rewrite <- Permutation_rev. apply Permutation_app_comm. }
  split; [split|].
  - intros j poly Hp. destruct (A j poly Hp) as (p1 & p2 & poly' & -> & Hp' & H). exists poly'. split; auto. rewrite map_ident. auto.
  - intros j poly' Hp'. destruct (B j poly' Hp') as (poly & Hp). exists poly. split; auto. destruct (A j poly Hp) as (p1 & p2 & q & -> & Hq & H).
    rewrite (face_unique _ _ _ _ _ _ Hp' Hq). rewrite map_ident. auto.
  - intros Hc j poly' Hp'. destruct (B j poly' Hp') as (poly & Hp). destruct (A j poly Hp) as (p1 & p2 & q & -> & Hq & H).
    rewrite (face_unique _ _ _ _ _ _ Hp' Hq). pose proof (convex_rot _ _ (Hc _ _ Hp)). destruct H as [-> | ->]; auto. now apply convex_rev.
Qed.

(** a convex mesh can always be built: construction succeeds for both meshes *)
Lemma apart (f : pt -> R) u v w (l : list pt) : In u l -> In v l -> In w l -> ~ (f u = f v /\ f u = f w) ->
  exists p q, In p l /\ In q l /\ f p < f q.
Proof.
  intros Hu Hv Hw H. destruct (Rtotal_order (f u) (f v)) as [X|[X|X]]; eauto.
  destruct (Rtotal_order (f u) (f w)) as [Y|[Y|Y]]; eauto. now destruct H.
Qed.
Lemma ccw_extent poly : convex_ccw poly -> has_extent poly.
Proof.
  intros (L & N & H). destruct poly as [|u [|v [|w l]]]; cbn in L; try lia.
  assert (Hne : w <> u /\ w <> v).
  { inversion N as [|? ? N1 N2]; subst. inversion N2 as [|? ? N3 _]; subst. split; intros ->; [apply N1|apply N3]; cbn; auto. }
  assert (O : 0 < orient u v w) by (apply H; cbn; tauto). unfold orient in O.
  split; [apply (apart px u v w)|apply (apart py u v w)]; cbn [In]; auto; intros (A & B); rewrite <- A, <- B in O; lra.
Qed.
Lemma convex_extent poly : convex poly -> has_extent poly.
Proof.
  intros [H|H]; apply ccw_extent in H; auto. destruct H as ((p & q & A & B & C) & (p' & q' & A' & B' & C')).
  rewrite <- in_rev in *. split; [exists p, q|exists p', q']; auto.
Qed.
Theorem C76_convex_built g vs faces fill nb cpl : mesh_ok vs faces fill -> convex_mesh vs faces fill ->
  (2 <= nb)%Z -> (1 <= cpl)%Z -> IZR (nb * zlen faces) < FMAX -> exists t, CellTree2d_init g vs faces fill nb cpl = Ok t.
Proof.
  intros Hm Hc Hn Hl HF. apply C04_nondegenerate_succeeds; auto. apply Forall_forall. intros f Hf poly Hp. apply convex_extent.
  apply In_nth_error in Hf as (k & Ek). apply (Hc (Z.of_nat k)). exists f. rewrite Nat2Z.id. split; [lia|]. auto.
Qed.

(** ** Queries *)
Section Image.
  Variables (m : affine) (vs vs' : list pt) (faces faces' : list (list Z)) (fill fill' : Z).
  Variables (g1 g2 : garbage R) (nb nb' cpl cpl' : Z) (t t' : tree2d (T:=R)).
  Hypothesis Hd : det m <> 0.
  Hypothesis HI : image_mesh m vs faces fill vs' faces' fill'.
  Hypothesis Hm : mesh_ok vs faces fill.
  Hypothesis Hm' : mesh_ok vs' faces' fill'.
  Hypothesis Hc : convex_mesh vs faces fill.
  Hypothesis Hc' : convex_mesh vs' faces' fill'.
  Hypothesis E : CellTree2d_init g1 vs faces fill nb cpl = Ok t.
  Hypothesis E' : CellTree2d_init g2 vs' faces' fill' nb' cpl' = Ok t'.

  Lemma img_hull vs1 f1 l1 vs2 f2 l2 j a a' p : image_mesh m vs1 f1 l1 vs2 f2 l2 -> face_poly vs1 f1 l1 j a -> face_poly vs2 f2 l2 j a' ->
    (hull a' (amap m p) <-> hull a p) /\ (open_hull a' (amap m p) <-> open_hull a p).
  Proof.
    intros (H & _) Fa Fa'. destruct (H j a Fa) as (q & Fq & HP). rewrite (face_unique _ _ _ _ _ _ Fa' Fq).
    rewrite <- (hull_perm _ _ _ HP), <- (open_hull_perm _ _ _ HP). split; [now apply hull_amap|now apply open_hull_aff].
  Qed.

  Section Faces.
    Variables (ws ws' : list pt) (qs qs' : list (list Z)) (qfill qfill' : Z).
    Hypothesis HQ : image_mesh m ws qs qfill ws' qs' qfill'.
    Hypothesis Hq : faces_ok ws (map (with_fill qfill) qs).
    Hypothesis Hq' : faces_ok ws' (map (with_fill qfill') qs').
    Hypothesis Hcq : convex_mesh ws qs qfill.
    Hypothesis Hcq' : convex_mesh ws' qs' qfill'.
    Hypothesis Hs : small vs.
    Hypothesis Hs' : small vs'.
    Hypothesis Hsq : small ws.
    Hypothesis Hsq' : small ws'.

    (** the same pairs, with |det m| times the areas *)
    Theorem C76_intersect_faces : exists rows rows',
      (forall g n, (1 <= n)%nat -> CellTree2d_intersect_faces g n t ws qs qfill = Ok rows)
      /\ (forall g n, (1 <= n)%nat -> CellTree2d_intersect_faces g n t' ws' qs' qfill' = Ok rows')
      /\ (forall i j A, In ((i, j), A) rows -> In ((i, j), Rabs (det m) * A) rows')
      /\ (forall i j A', In ((i, j), A') rows' -> exists A, In ((i, j), A) rows /\ A' = Rabs (det m) * A).
    Proof.
      destruct (C25_intersect_faces_exact _ _ _ _ _ _ _ Hm Hc Hs E ws qs qfill Hq Hcq Hsq) as (rows & H1 & _ & H2).
      destruct (C25_intersect_faces_exact _ _ _ _ _ _ _ Hm' Hc' Hs' E' ws' qs' qfill' Hq' Hcq' Hsq') as (rows' & H1' & _ & H2').
      exists rows, rows'. split; auto. split; auto.
      assert (G : forall i j a b a' b' A, face_poly ws qs qfill i a -> face_poly vs faces fill j b ->
         face_poly ws' qs' qfill' i a' -> face_poly vs' faces' fill' j b' ->
         area_of (fun p => hull a p /\ hull b p) A -> area_of (fun p => hull a' p /\ hull b' p) (Rabs (det m) * A)).
      { intros i j a b a' b' A Fa Fb Fa' Fb'. apply area_aff; auto. intros p.
        rewrite (proj1 (img_hull _ _ _ _ _ _ _ _ _ p HQ Fa Fa')), (proj1 (img_hull _ _ _ _ _ _ _ _ _ p HI Fb Fb')). tauto. }
      assert (Pd : 0 < Rabs (det m)) by now apply Rabs_pos_lt.
      split.
      - intros i j A Hin. apply H2 in Hin as (a & b & Fa & Fb & HA & Hp). destruct (proj1 HQ _ _ Fa) as (a' & Fa' & _). destruct (proj1 HI _ _ Fb) as (b' & Fb' & _).
        apply H2'. exists a', b'. split; auto. split; auto. split; [eapply G; eauto|]. now apply Rmult_lt_0_compat.
      - intros i j A' Hin. apply H2' in Hin as (a' & b' & Fa' & Fb' & HA' & Hp'). destruct (proj2 HQ _ _ Fa') as (a & Fa & _). destruct (proj2 HI _ _ Fb') as (b & Fb & _).
        assert (HA : area_of (fun p => hull a p /\ hull b p) (/ Rabs (det m) * A')).
        { pose proof (area_aff (aff_inv m) (fun p => hull a' p /\ hull b' p) (fun p => hull a p /\ hull b p) A' (det_inv m Hd)) as X.
          replace (Rabs (det (aff_inv m))) with (/ Rabs (det m)) in X.
          - apply X; auto. intros p. rewrite <- (aff_inv_r m p Hd) at 3 4. set (q := amap (aff_inv m) p).
            rewrite (proj1 (img_hull _ _ _ _ _ _ _ _ _ q HQ Fa Fa')), (proj1 (img_hull _ _ _ _ _ _ _ _ _ q HI Fb Fb')). tauto.
          - rewrite <- Rabs_inv. f_equal. unfold aff_inv, det in *. cbn [aa ab ac ad]. field. exact Hd. }
        exists (/ Rabs (det m) * A'). split; [|field; lra]. apply H2. exists a, b. split; auto. split; auto. split; auto.
        apply Rmult_lt_0_compat; auto. now apply Rinv_0_lt_compat.
    Qed.
  End Faces.

  (** locate_faces takes no fill value *)
  Theorem C76_locate_faces ws qs ws' qs' : image_mesh m ws qs (-1) ws' qs' (-1) ->
    faces_ok ws qs -> faces_ok ws' qs' -> convex_mesh ws qs (-1) -> convex_mesh ws' qs' (-1) ->
    small vs -> small vs' -> small ws -> small ws' ->
    exists pairs pairs' q q',
      (forall g n, (1 <= n)%nat -> CellTree2d_locate_faces g n t ws qs = Ok (pairs, q))
      /\ (forall g n, (1 <= n)%nat -> CellTree2d_locate_faces g n t' ws' qs' = Ok (pairs', q'))
      /\ Permutation pairs pairs'.
  Proof.
    intros HQ Hq Hq' Hcq Hcq' Hs Hs' Hsq Hsq'.
    destruct (C23_locate_faces_exact _ _ _ _ _ _ _ Hm Hc Hs E ws qs Hq Hcq Hsq) as (pairs & q & H1 & N1 & H2).
    destruct (C23_locate_faces_exact _ _ _ _ _ _ _ Hm' Hc' Hs' E' ws' qs' Hq' Hcq' Hsq') as (pairs' & q' & H1' & N1' & H2').
    exists pairs, pairs', q, q'. split; auto. split; auto. apply NoDup_Permutation; auto. intros (i, j). rewrite H2, H2'. split.
    - intros (a & b & p & Fa & Fb & Oa & Ob). destruct (proj1 HQ _ _ Fa) as (a' & Fa' & _). destruct (proj1 HI _ _ Fb) as (b' & Fb' & _).
      exists a', b', (amap m p). split; auto. split; auto. split; [now apply (img_hull _ _ _ _ _ _ _ _ _ p HQ Fa Fa')|now apply (img_hull _ _ _ _ _ _ _ _ _ p HI Fb Fb')].
    - intros (a' & b' & p & Fa' & Fb' & Oa & Ob). destruct (proj2 HQ _ _ Fa') as (a & Fa & _). destruct (proj2 HI _ _ Fb') as (b & Fb & _).
      rewrite <- (aff_inv_r m p Hd) in Oa, Ob. exists a, b, (amap (aff_inv m) p). split; auto. split; auto.
      split; [now apply (img_hull _ _ _ _ _ _ _ _ _ _ HQ Fa Fa')|now apply (img_hull _ _ _ _ _ _ _ _ _ _ HI Fb Fb')].
  Qed.

  (** boxes whose images are boxes: sides of any length, axes swapped or turned around *)
  Theorem C76_intersect_boxes boxes boxes' : Forall proper_box boxes -> Forall proper_box boxes' ->
    Forall2 (fun b b' => forall p, in_box b' (amap m p) <-> in_box b p) boxes boxes' ->
    exists rows rows',
      (forall g n, (1 <= n)%nat -> CellTree2d_intersect_boxes g n t boxes = Ok rows)
      /\ (forall g n, (1 <= n)%nat -> CellTree2d_intersect_boxes g n t' boxes' = Ok rows')
      /\ (forall i j A, In ((i, j), A) rows -> In ((i, j), Rabs (det m) * A) rows')
      /\ (forall i j A', In ((i, j), A') rows' -> exists A, In ((i, j), A) rows /\ A' = Rabs (det m) * A).
  Proof.
    intros PB PB' HB.
    destruct (C25_intersect_boxes_exact _ _ _ _ _ _ _ Hm Hc E boxes PB) as (rows & H1 & _ & H2).
    destruct (C25_intersect_boxes_exact _ _ _ _ _ _ _ Hm' Hc' E' boxes' PB') as (rows' & H1' & _ & H2').
    exists rows, rows'. split; auto. split; auto.
    assert (Pd : 0 < Rabs (det m)) by now apply Rabs_pos_lt.
    assert (EB : forall i b, nth_error boxes i = Some b -> exists b', nth_error boxes' i = Some b').
    { intros i b Hi. assert (Hlt : (i < length boxes)%nat) by (apply nth_error_Some; congruence). rewrite (F2_length _ _ _ HB) in Hlt.
      destruct (nth_error boxes' i) as [b'|] eqn:X; eauto. apply nth_error_None in X. lia. }
    assert (EB' : forall i b', nth_error boxes' i = Some b' -> exists b, nth_error boxes i = Some b).
    { intros i b Hi. assert (Hlt : (i < length boxes')%nat) by (apply nth_error_Some; congruence). rewrite <- (F2_length _ _ _ HB) in Hlt.
      destruct (nth_error boxes i) as [b'|] eqn:X; eauto. apply nth_error_None in X. lia. }
    split.
    - intros i j A Hin. apply H2 in Hin as (a & b & H0 & Ea & Fb & HA & Hp). destruct (EB _ _ Ea) as (a' & Ea'). destruct (proj1 HI _ _ Fb) as (b' & Fb' & _).
      pose proof (Forall2_nth _ _ _ _ _ _ HB Ea Ea') as Hab. cbn beta in Hab.
      apply H2'. exists a', b'. split; auto. split; auto. split; auto. split; [|now apply Rmult_lt_0_compat].
      eapply (area_aff m); [auto| |exact HA]. intros p. rewrite Hab, (proj1 (img_hull _ _ _ _ _ _ _ _ _ p HI Fb Fb')). tauto.
    - intros i j A' Hin. apply H2' in Hin as (a' & b' & H0 & Ea' & Fb' & HA' & Hp'). destruct (EB' _ _ Ea') as (a & Ea). destruct (proj2 HI _ _ Fb') as (b & Fb & _).
      pose proof (Forall2_nth _ _ _ _ _ _ HB Ea Ea') as Hab. cbn beta in Hab.
      assert (HA : area_of (fun p => in_box a p /\ hull b p) (/ Rabs (det m) * A')).
      { pose proof (area_aff (aff_inv m) (fun p => in_box a' p /\ hull b' p) (fun p => in_box a p /\ hull b p) A' (det_inv m Hd)) as X.
        replace (Rabs (det (aff_inv m))) with (/ Rabs (det m)) in X.
        - apply X; auto. intros p. rewrite <- (aff_inv_r m p Hd) at 3 4. set (q := amap (aff_inv m) p).
          rewrite Hab, (proj1 (img_hull _ _ _ _ _ _ _ _ _ q HI Fb Fb')). tauto.
        - rewrite <- Rabs_inv. f_equal. unfold aff_inv, det in *. cbn [aa ab ac ad]. field. exact Hd. }
      exists (/ Rabs (det m) * A'). split; [|field; lra]. apply H2. exists a, b. split; auto. split; auto. split; auto. split; auto.
      apply Rmult_lt_0_compat; auto. now apply Rinv_0_lt_compat.
  Qed.

  (** edges: the same rows, the images of the end points; for edges whose ends
      are not in the band around a face in which the tolerances decide *)
  Definition img_ends (c : option pt * option pt) : option pt * option pt := (option_map (amap m) (fst c), option_map (amap m) (snd c)).

  Lemma clip_image (S S' : pt -> Prop) a b c1 c2 : (forall p, S' (amap m p) <-> S p) ->
    clip_result S a b (Some (c1, c2)) -> clip_result S' (amap m a) (amap m b) (Some (amap m c1, amap m c2)).
  Proof.
    intros HS (Hne & s & u & H0 & H1 & -> & -> & H). split; [intros X; now apply aff_inj in X|]. exists s, u.
    split; auto. split; auto. rewrite !at_aff. split; auto. split; auto. intros w Hw. rewrite <- at_aff, HS. auto.
  Qed.

  Theorem C76_intersect_edges edges : exists rows rows',
    (forall g csfuel n, (4 <= csfuel)%nat -> (1 <= n)%nat -> CellTree2d_intersect_edges g csfuel n t edges = Ok rows)
    /\ (forall g csfuel n, (4 <= csfuel)%nat -> (1 <= n)%nat ->
          CellTree2d_intersect_edges g csfuel n t' (map (amap2 m) edges) = Ok rows')
    /\ forall i a b, nth_error edges i = Some (a, b) -> ends_clear vs faces fill a b -> ends_clear vs' faces' fill' (amap m a) (amap m b) ->
         (forall j c, In ((Z.of_nat i, j), c) rows -> In ((Z.of_nat i, j), img_ends c) rows')
         /\ (forall j c', In ((Z.of_nat i, j), c') rows' -> exists c, In ((Z.of_nat i, j), c) rows /\ c' = img_ends c).
  Proof.
    destruct (C19_intersect_edges_geometric _ _ _ _ _ _ _ Hm Hc E edges) as (rows & H1 & _ & HE & H).
    destruct (C19_intersect_edges_geometric _ _ _ _ _ _ _ Hm' Hc' E' (map (amap2 m) edges)) as (rows' & H1' & _ & HE' & H').
    exists rows, rows'. split; auto. split; auto. intros i a b Ei Hcl Hcl'.
    assert (Ei' : nth_error (map (amap2 m) edges) i = Some (amap m a, amap m b)) by (rewrite (map_nth_error _ _ _ Ei); reflexivity).
    split.
    - intros j c Hin. destruct (HE _ _ _ Hin) as (_ & poly & _ & _ & Fp). destruct (proj1 HI _ _ Fp) as (poly' & Fp' & _).
      destruct (H i j a b poly Ei Fp) as (HR & _); [intros tol Ht; eapply Hcl; eauto|].
      destruct (H' i j _ _ poly' Ei' Fp') as (HR' & _); [intros tol Ht; eapply Hcl'; eauto|].
      destruct (proj1 (HR c) Hin) as (c1 & c2 & Ec & Cl). subst c. apply HR'. exists (amap m c1), (amap m c2). split; auto.
      eapply clip_image; eauto. intros p. apply (img_hull _ _ _ _ _ _ _ _ _ p HI Fp Fp').
    - intros j c' Hin. destruct (HE' _ _ _ Hin) as (_ & poly' & _ & _ & Fp'). destruct (proj2 HI _ _ Fp') as (poly & Fp & _).
      destruct (H i j a b poly Ei Fp) as (HR & _); [intros tol Ht; eapply Hcl; eauto|].
      destruct (H' i j _ _ poly' Ei' Fp') as (HR' & _); [intros tol Ht; eapply Hcl'; eauto|].
      destruct (proj1 (HR' c') Hin) as (c1 & c2 & Ec & Hne & s & u & A & B & -> & -> & Hu). subst c'.
      exists (Some (at_ a b s), Some (at_ a b u)). split; [|unfold img_ends; cbn; now rewrite !at_aff].
      apply HR. exists (at_ a b s), (at_ a b u). split; auto. split; [intros ->; auto|]. exists s, u. split; auto. split; auto. split; auto. split; auto.
      intros w Hw. rewrite <- (Hu w Hw), <- at_aff. symmetry. apply (img_hull _ _ _ _ _ _ _ _ _ _ HI Fp Fp').
  Qed.

  (** points: the same face, for points that are not near a side *)
  Lemma hull_open poly p r : convex poly -> hull poly p -> 0 <= r -> ~ near_boundary r poly p -> open_hull poly p.
  Proof.
    assert (G : forall poly, convex_ccw poly -> hull poly p -> 0 <= r -> ~ near_boundary r poly p -> open_hull poly p).
    { intros K HK Hh Hr Hn. apply interior_open_hull; auto. destruct (in_poly_cases K p) as [Hi|(u & v & He & H0)]; [now apply in_poly_hull|auto|].
      exfalso. apply Hn. exists u, v. split; auto. exists p. split; [|unfold dist2; nra].
      apply (on_side K); auto. now apply in_poly_hull. }
    intros [H|H] Hh Hr Hn; [now apply G|]. apply open_hull_rev, G; auto; [now apply hull_rev|]. now rewrite near_boundary_rev.
  Qed.

  Theorem C76_locate_points points tolerance tolerance' : disjoint_faces vs faces fill ->
    exists tol tol' js js', get_tolerance t tolerance = Ok tol /\ get_tolerance t' tolerance' = Ok tol'
    /\ (forall g, CellTree2d_locate_points g t points tolerance = Ok js)
    /\ (forall g, CellTree2d_locate_points g t' (map (amap m) points) tolerance' = Ok js')
    /\ forall k p, nth_error points k = Some p -> 0 <= tol -> 0 <= tol' ->
         (forall j poly, face_poly vs faces fill j poly -> ~ near_boundary (2 * tol) poly p) ->
         (forall j poly, face_poly vs' faces' fill' j poly -> ~ near_boundary (2 * tol') poly (amap m p)) ->
         nth_error js k = nth_error js' k.
  Proof.
    intros Hdis.
    pose proof (init_built _ _ _ _ _ _ _ Hm E) as Hb. pose proof (init_built _ _ _ _ _ _ _ Hm' E') as Hb'.
    destruct (points_result _ _ _ _ t tolerance Hb) as (tol & Et & X). destruct (X points) as (js & Hj & _).
    destruct (points_result _ _ _ _ t' tolerance' Hb') as (tol' & Et' & X'). destruct (X' (map (amap m) points)) as (js' & Hj' & _).
    exists tol, tol', js, js'. split; auto. split; auto. split; auto. split; auto. clear X X'.
    destruct (C10_locate_points_geometric _ _ _ _ _ _ _ Hm Hc E g1 points tolerance) as (tol1 & js1 & Et1 & Ej1 & L & H).
    rewrite Et in Et1. apply Ok_inj in Et1. subst tol1. rewrite Hj in Ej1. apply Ok_inj in Ej1. subst js1.
    destruct (C10_locate_points_geometric _ _ _ _ _ _ _ Hm' Hc' E' g1 (map (amap m) points) tolerance') as (tol1 & js1 & Et1 & Ej1 & L' & H').
    rewrite Et' in Et1. apply Ok_inj in Et1. subst tol1. rewrite Hj' in Ej1. apply Ok_inj in Ej1. subst js1. rewrite map_length in L'.
    intros k p Ep T0 T0' Hn Hn'. assert (Hk : (k < length points)%nat) by (apply nth_error_Some; congruence).
    destruct (nth_error js k) as [j|] eqn:Ej; [|apply nth_error_None in Ej; lia].
    destruct (nth_error js' k) as [j'|] eqn:Ej'; [|apply nth_error_None in Ej'; lia]. f_equal.
    destruct (H k p j Ep Ej T0) as (S & I & _). destruct (H' k (amap m p) j') as (S' & I' & _); auto; [now apply map_nth_error|].
    destruct (Z.eq_dec j (-1)) as [->|Hj1].
    - destruct (Z.eq_dec j' (-1)) as [->|Hj2]; auto. destruct (S' Hj2) as (poly' & Fp' & [Hh|Hx]); [|now destruct (Hn' _ _ Fp')].
      destruct (proj2 HI _ _ Fp') as (poly & Fp & _). exfalso. apply (I j' poly Fp); auto.
      apply (img_hull _ _ _ _ _ _ _ _ _ p HI Fp Fp'). apply (hull_open _ _ (2 * tol')); eauto; lra.
    - destruct (S Hj1) as (poly & Fp & [Hh|Hx]); [|now destruct (Hn _ _ Fp)].
      assert (Ho : open_hull poly p) by (apply (hull_open _ _ (2 * tol)); eauto; lra).
      destruct (proj1 HI _ _ Fp) as (poly' & Fp' & _).
      assert (Hj2 : j' <> (-1)%Z) by (apply (I' j poly' Fp'); now apply (img_hull _ _ _ _ _ _ _ _ _ p HI Fp Fp')).
      destruct (S' Hj2) as (q' & Fq' & [Hh'|Hx]); [|now destruct (Hn' _ _ Fq')].
      destruct (proj2 HI _ _ Fq') as (q & Fq & _). apply (img_hull _ _ _ _ _ _ _ _ _ p HI Fq Fq') in Hh'.
      assert (Ho' : open_hull q p) by (apply (hull_open _ _ (2 * tol)); eauto; lra).
      destruct (Z.eq_dec j j') as [->|Hne]; auto. exfalso. now apply (Hdis j j' poly q p).
  Qed.
End Image.

(** ** Concrete cases *)

(** the grid sheared, mirrored and stretched *)
Definition shear : affine := Aff 0 2 1 1 0 0.
Definition sheared : list pt := map (amap shear) grid.
Lemma det_shear : det shear = -2.
Proof. unfold det, shear. cbn [aa ab ac ad]. ring. Qed.
Lemma sheared_bound : Forall (fun p => -10 <= px p <= 10 /\ -10 <= py p <= 10) sheared.
Proof. unfold sheared, grid, grid_pts. cbn [map]. repeat constructor; cbn; lra. Qed.
Lemma sheared_mesh : mesh_ok (T:=R) sheared grid_faces (-1).
Proof.
  constructor.
  - pose proof FMAX_big. eapply Forall_impl; [|exact sheared_bound]. cbn beta. intros p (A & B). split; cbn; lra.
  - discriminate.
  - exact grid_faces_wf.
Qed.
Lemma sheared_small : small sheared.
Proof.
  assert (H : 100 <= IZR (2 ^ 500)) by (apply IZR_le, Z.leb_le; vm_compute; reflexivity).
  unfold small. set (M := IZR (2 ^ 500)) in *. clearbody M.
  eapply Forall_impl; [|exact sheared_bound]. cbn beta. intros p (A & B). split; apply Rabs_le; lra.
Qed.
(** the triangle and the grid, and the images of both: half the area becomes one *)
Theorem C76_example : exists t t' rows rows', CellTree2d_init (T:=R) g0 grid grid_faces (-1) 4 2 = Ok t
  /\ CellTree2d_init (T:=R) g0 sheared grid_faces (-1) 2 1 = Ok t'
  /\ CellTree2d_intersect_faces g0 2 t grid tri_query (-1) = Ok rows
  /\ CellTree2d_intersect_faces g0 1 t' sheared tri_query (-1) = Ok rows'
  /\ In ((0, 5)%Z, 1 / 2) rows /\ In ((0, 5)%Z, 1) rows'.
Proof.
  destruct C04_example as (t & E).
  assert (Hd : det shear <> 0) by (rewrite det_shear; lra).
  destruct (C76_mapped_vertices shear grid grid_faces (-1) Hd) as (I1 & C1).
  destruct (C76_convex_built g0 sheared grid_faces (-1) 2 1 sheared_mesh (C1 grid_convex)) as (t' & E'); [lia|lia| |].
  { pose proof FMAX_big. change (2 * zlen grid_faces)%Z with 14%Z. lra. }
  assert (HQ : faces_ok (@grid R _) (map (with_fill (-1)) tri_query)) by exact tri_ok.
  assert (HQ' : faces_ok sheared (map (with_fill (-1)) tri_query)).
  { constructor; [exact (mo_vertices _ _ _ sheared_mesh)|]. exact (fo_faces _ _ tri_ok). }
  destruct (C76_mapped_vertices shear grid tri_query (-1) Hd) as (I2 & C2).
  destruct (C76_intersect_faces shear grid sheared grid_faces grid_faces (-1) (-1) g0 g0 4 2 2 1 t t' Hd I1 grid_mesh_R sheared_mesh grid_convex (C1 grid_convex) E E'
    grid sheared tri_query tri_query (-1) (-1) I2 HQ HQ' tri_convex (C2 tri_convex) grid_small sheared_small grid_small sheared_small) as (rows & rows' & H1 & H2 & H3 & _).
  exists t, t', rows, rows'. split; auto. split; auto. split; [apply H1; lia|]. split; [apply H2; lia|].
  assert (Hin : In ((0, 5)%Z, 1 / 2) rows).
  { destruct (C25_intersect_faces_exact _ _ _ _ _ _ _ grid_mesh_R grid_convex grid_small E _ _ _ HQ tri_convex grid_small) as (rows0 & G1 & _ & G2).
    assert (rows0 = rows) by (apply Ok_inj; rewrite <- (H1 g0 1%nat), <- (G1 g0 1%nat); auto). subst rows0.
    apply G2. exists [ptZ (2, 1); ptZ (3, 1); ptZ (3, 2)]%Z, [ptZ (2, 1); ptZ (3, 1); ptZ (3, 2)]%Z.
    split; [exact tri_a|]. split; [exists [6; 7; 11; -1]%Z; (split; [lia|]); (split; [reflexivity|]); unfold poly_of; cbn; repeat constructor; auto; lia|].
    split; [|lra]. left. exists [ptZ (2, 1); ptZ (3, 1); ptZ (3, 2)]%Z. split; [convex_check|]. split; [tauto|]. unfold shoelace. cbn. lra. }
  split; auto. specialize (H3 _ _ _ Hin). rewrite det_shear, Rabs_left in H3 by lra. replace 1 with (- (-2) * (1 / 2)) by lra. exact H3.
Qed.

(** other start corners, some faces turned around *)
Definition turned_faces : list (list Z) := [[5;4;0;1];[5;6;2;1];[7;3;2;6];[4;8;9;5];[5;6;10;9];[7;11;6;-1];[11;10;6;-1]]%Z.
Theorem C76_relisted_example : Forall2 relisted (map (with_fill (-1)) grid_faces) (map (with_fill (-1)) turned_faces)
  /\ mesh_ok (T:=R) grid turned_faces (-1) /\ convex_mesh grid turned_faces (-1)
  /\ exists t, CellTree2d_init (T:=R) g0 grid turned_faces (-1) 4 2 = Ok t.
Proof.
  assert (HR : Forall2 relisted (map (with_fill (-1)) grid_faces) (map (with_fill (-1)) turned_faces)).
  { unfold grid_faces, turned_faces. cbn [map]. repeat constructor.
    - exists [0; 1]%Z, [5; 4]%Z. split; [reflexivity|now left].
    - exists [1; 2; 6; 5]%Z, []. split; [reflexivity|now right].
    - exists [2; 6]%Z, [7; 3]%Z. split; [reflexivity|now left].
    - exists [4]%Z, [5; 9; 8]%Z. split; [reflexivity|now right].
    - exists []%Z, [5; 6; 10; 9]%Z. split; [reflexivity|now left].
    - exists [6]%Z, [7; 11]%Z. split; [reflexivity|now left].
    - exists []%Z, [6; 10; 11]%Z. split; [reflexivity|now right]. }
  assert (M : mesh_ok (T:=R) grid turned_faces (-1)).
  { constructor; [exact (mo_vertices _ _ _ grid_mesh_R)|discriminate|]. repeat constructor; cbn; lia. }
  assert (C : convex_mesh grid turned_faces (-1)) by exact (proj2 (C76_relisted_faces grid grid_faces (-1) turned_faces (-1) HR) grid_convex).
  split; auto. split; auto. split; auto. apply C76_convex_built; [exact M|exact C|lia|lia|exact FMAX_28].
Qed.

Print Assumptions C76_mapped_vertices.
Print Assumptions C76_relisted_faces.
Print Assumptions C76_convex_built.
Print Assumptions C76_locate_points.
Print Assumptions C76_locate_faces.
Print Assumptions C76_intersect_faces.
Print Assumptions C76_intersect_boxes.
Print Assumptions C76_intersect_edges.
Print Assumptions C76_example.
Print Assumptions C76_relisted_example.
