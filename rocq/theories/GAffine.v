(** Affine maps of the plane and convex polygons: hulls, orientation, area. *)
From Verif Require Import RBase SpecPoly SpecArea GTriangle GConvex GHull GArea.
Open Scope R_scope.

(** (x, y) -> (a x + b y + e, c x + d y + f) *)
Record affine : Type := Aff { aa : R; ab : R; ac : R; ad : R; ae : R; af : R }.
Definition amap (m : affine) (p : pt) : pt :=
  Pt (aa m * px p + ab m * py p + ae m) (ac m * px p + ad m * py p + af m).
(** the factor by which areas change; negative for mirror images *)
Definition det (m : affine) : R := aa m * ad m - ab m * ac m.

Definition aff_inv (m : affine) : affine :=
  Aff (ad m / det m) (- ab m / det m) (- ac m / det m) (aa m / det m)
      ((ab m * af m - ad m * ae m) / det m) ((ac m * ae m - aa m * af m) / det m).

Lemma aff_inv_l m p : det m <> 0 -> amap (aff_inv m) (amap m p) = p.
Proof. intros H. unfold amap, aff_inv, det in *. cbn [aa ab ac ad ae af px py] in *. apply pt_eq; cbn [px py]; field; exact H. Qed.
Lemma aff_inv_r m p : det m <> 0 -> amap m (amap (aff_inv m) p) = p.
Proof. intros H. unfold amap, aff_inv, det in *. cbn [aa ab ac ad ae af px py] in *. apply pt_eq; cbn [px py]; field; exact H. Qed.
Lemma det_inv m : det m <> 0 -> det (aff_inv m) <> 0.
Proof.
  intros H. replace (det (aff_inv m)) with (/ det m); [now apply Rinv_neq_0_compat|].
  unfold aff_inv, det in *. cbn [aa ab ac ad]. field. exact H.
Qed.
Lemma aff_inj m p q : det m <> 0 -> amap m p = amap m q -> p = q.
Proof. intros H E. rewrite <- (aff_inv_l m p H), E. now apply aff_inv_l. Qed.

Lemma orient_amap m u v w : orient (amap m u) (amap m v) (amap m w) = det m * orient u v w.
Proof. unfold orient, amap, det. cbn [px py]. ring. Qed.

Lemma at_aff m a b t : amap m (at_ a b t) = at_ (amap m a) (amap m b) t.
Proof. unfold amap, at_. apply pt_eq; cbn [px py]; ring. Qed.

(** ** Hulls *)
Lemma comb_aff m ws vs : length ws = length vs -> sumR ws = 1 -> amap m (comb ws vs) = comb ws (map (amap m) vs).
Proof.
  intros Hl Hs.
  assert (H : forall ws vs, length ws = length vs ->
    wsum px ws (map (amap m) vs) = aa m * wsum px ws vs + ab m * wsum py ws vs + ae m * sumR ws
    /\ wsum py ws (map (amap m) vs) = ac m * wsum px ws vs + ad m * wsum py ws vs + af m * sumR ws).
  { induction ws0 as [|w ws0 IH]; intros [|v vs0] Hl0; try discriminate; [cbn; lra|].
    cbn [map]. rewrite !wsum_cons. destruct (IH vs0) as (A & B); [now inversion Hl0|]. rewrite A, B. cbn [sumR]. unfold amap. cbn [px py]. lra. }
  destruct (H ws vs Hl) as (A & B). apply pt_eq; rewrite ?comb_px, ?comb_py, ?A, ?B; unfold amap; cbn [px py]; rewrite comb_px, comb_py, Hs; lra.
Qed.

Lemma hull_aff1 m vs p : hull vs p -> hull (map (amap m) vs) (amap m p).
Proof. intros (ws & Hl & Hw & Hs & ->). exists ws. rewrite map_length. split; auto. split; auto. split; auto. now apply comb_aff. Qed.
Lemma open_hull_aff1 m vs p : open_hull vs p -> open_hull (map (amap m) vs) (amap m p).
Proof. intros (ws & Hl & Hw & Hs & ->). exists ws. rewrite map_length. split; auto. split; auto. split; auto. now apply comb_aff. Qed.

Lemma map_aff_inv m vs : det m <> 0 -> map (amap (aff_inv m)) (map (amap m) vs) = vs.
Proof. intros H. rewrite map_map. rewrite (map_ext _ (fun p => p)); [apply map_id|]. intros p. now apply aff_inv_l. Qed.

Lemma hull_amap m vs p : det m <> 0 -> (hull (map (amap m) vs) (amap m p) <-> hull vs p).
Proof.
  intros H. split; [|apply hull_aff1]. intros Hh. apply (hull_aff1 (aff_inv m)) in Hh. now rewrite map_aff_inv, aff_inv_l in Hh.
Qed.
Lemma open_hull_aff m vs p : det m <> 0 -> (open_hull (map (amap m) vs) (amap m p) <-> open_hull vs p).
Proof.
  intros H. split; [|apply open_hull_aff1]. intros Hh. apply (open_hull_aff1 (aff_inv m)) in Hh. now rewrite map_aff_inv, aff_inv_l in Hh.
Qed.

(** the order of the vertices does not matter for the hull *)
Lemma combine_perm (vs vs' : list pt) : Permutation vs vs' -> forall ws : list R, length ws = length vs ->
  exists ws', length ws' = length vs' /\ Permutation ws ws' /\ Permutation (combine ws vs) (combine ws' vs').
Proof.
  induction 1 as [|x l l' _ IH|x y l|l l' l'' _ IH1 _ IH2]; intros ws Hl.
  - exists ws. auto.
  - destruct ws as [|w ws]; [discriminate|]. destruct (IH ws) as (ws' & A & B & C); [now inversion Hl|].
    exists (w :: ws'). cbn [length combine]. split; [now rewrite A|]. split; now constructor.
  - destruct ws as [|w [|w2 ws]]; try discriminate. exists (w2 :: w :: ws). cbn [length combine]. split; [now inversion Hl|].
    split; apply perm_swap.
  - destruct (IH1 ws Hl) as (ws' & A & B & C). destruct (IH2 ws' A) as (ws'' & A' & B' & C').
    exists ws''. split; auto. split; etransitivity; eauto.
Qed.
Lemma comb_perm ws vs ws' vs' : Permutation (combine ws vs) (combine ws' vs') -> comb ws vs = comb ws' vs'.
Proof. intros H. unfold comb. f_equal; apply sumR_perm; now apply Permutation_map. Qed.
Lemma hull_perm vs vs' p : Permutation vs vs' -> (hull vs p <-> hull vs' p).
Proof.
  assert (G : forall vs vs', Permutation vs vs' -> hull vs p -> hull vs' p).
  { intros l l' HP (ws & Hl & Hw & Hs & ->). destruct (combine_perm _ _ HP ws Hl) as (ws' & A & B & C).
    exists ws'. split; auto. split; [eapply Permutation_Forall; eauto|]. split; [rewrite <- Hs; apply sumR_perm; now symmetry|]. now apply comb_perm. }
  intros H. split; apply G; auto. now symmetry.
Qed.
Lemma open_hull_perm vs vs' p : Permutation vs vs' -> (open_hull vs p <-> open_hull vs' p).
Proof.
  assert (G : forall vs vs', Permutation vs vs' -> open_hull vs p -> open_hull vs' p).
  { intros l l' HP (ws & Hl & Hw & Hs & ->). destruct (combine_perm _ _ HP ws Hl) as (ws' & A & B & C).
    exists ws'. split; auto. split; [eapply Permutation_Forall; eauto|]. split; [rewrite <- Hs; apply sumR_perm; now symmetry|]. now apply comb_perm. }
  intros H. split; apply G; auto. now symmetry.
Qed.

(** ** Sides *)
Definition amap2 (m : affine) (e : pt * pt) : pt * pt := (amap m (fst e), amap m (snd e)).
Lemma chain_aff m l : forall v0, chain (amap m v0) (map (amap m) l) = map (amap2 m) (chain v0 l).
Proof. induction l as [|v l IH]; intros v0; cbn [map chain]; auto. now rewrite IH. Qed.
Lemma last_map {A B} (f : A -> B) l : forall d, last (map f l) (f d) = f (last l d).
Proof. induction l as [|x l IH]; intros d; auto. cbn [map]. rewrite !last_cons. apply IH. Qed.
Lemma edges_aff m poly : poly_edges (map (amap m) poly) = map (amap2 m) (poly_edges poly).
Proof.
  destruct poly as [|v l]; auto. cbn [map]. rewrite !edges_cons. cbn [map]. rewrite chain_aff, last_map. reflexivity.
Qed.

Lemma convex_aff_pos m poly : 0 < det m -> convex_ccw poly -> convex_ccw (map (amap m) poly).
Proof.
  intros Hd (Hl & Hn & H). split; [now rewrite map_length|]. split.
  - apply FinFun.Injective_map_NoDup; auto. intros x y. apply aff_inj. lra.
  - intros u v w. rewrite edges_aff, !in_map_iff. intros ((u0, v0) & Euv & Huv) (w0 & <- & Hw) Hwu Hwv. inversion Euv; subst.
    rewrite orient_amap. apply Rmult_lt_0_compat; auto. apply H; auto; intros ->; auto.
Qed.

(** turning the other way *)
Lemma convex_aff_neg m poly : det m < 0 -> convex_ccw poly -> convex_ccw (rev (map (amap m) poly)).
Proof.
  intros Hd (Hl & Hn & H). split; [now rewrite rev_length, map_length|]. split.
  - apply NoDup_rev, FinFun.Injective_map_NoDup; auto. intros x y. apply aff_inj. lra.
  - intros u v w Huv Hw Hwu Hwv. apply edges_rev_in in Huv. apply in_rev in Hw. revert Huv Hw.
    rewrite edges_aff, !in_map_iff. intros ((u0, v0) & Euv & Huv) (w0 & <- & Hw). inversion Euv; subst.
    rewrite orient_swap, orient_amap. cbn [fst snd].
    assert (0 < orient u0 v0 w0) by (apply H; auto; intros ->; auto). nra.
Qed.

Lemma convex_aff m poly : det m <> 0 -> convex poly -> convex (map (amap m) poly).
Proof.
  intros Hd [H|H]; destruct (Rtotal_order (det m) 0) as [Hn|[Hn|Hn]]; try contradiction.
  - right. now apply convex_aff_neg.
  - left. now apply convex_aff_pos.
  - left. rewrite <- (rev_involutive (map _ _)), <- map_rev. now apply convex_aff_neg.
  - right. rewrite <- map_rev. now apply convex_aff_pos.
Qed.

(** ** Area *)
Lemma chain_cross m l : forall v0,
  sumR (map (fun e => px (fst e) * py (snd e) - px (snd e) * py (fst e)) (map (amap2 m) (chain v0 l)))
  = det m * sumR (map (fun e => px (fst e) * py (snd e) - px (snd e) * py (fst e)) (chain v0 l))
    + (ae m * (ac m * (px (last l v0) - px v0) + ad m * (py (last l v0) - py v0))
       - af m * (aa m * (px (last l v0) - px v0) + ab m * (py (last l v0) - py v0))).
Proof.
  induction l as [|v l IH]; intros v0; [cbn; ring|]. cbn [chain map sumR]. rewrite IH, last_cons.
  unfold amap2, amap, det. cbn [fst snd px py]. ring.
Qed.
Lemma shoelace_aff m poly : shoelace (map (amap m) poly) = det m * shoelace poly.
Proof.
  unfold shoelace. rewrite edges_aff. unfold poly_edges. rewrite chain_cross.
  destruct poly as [|v l]; [cbn; ring|]. rewrite !last_cons. ring.
Qed.

(** The image of a set has |det| times its area *)
Lemma area_aff m (S S' : pt -> Prop) A : det m <> 0 -> (forall p, S' (amap m p) <-> S p) -> area_of S A -> area_of S' (Rabs (det m) * A).
Proof.
  intros Hd HS [(K & HC & HK & ->)|((u & v & Hne & Hf) & ->)].
  - left. destruct (Rtotal_order (det m) 0) as [Hn|[Hn|Hn]]; try contradiction.
    + exists (rev (map (amap m) K)). split; [now apply convex_aff_neg|]. split.
      * intros q. rewrite hull_rev, <- (aff_inv_r m q Hd), hull_amap, HS by auto. apply HK.
      * rewrite shoelace_rev, shoelace_aff, Rabs_left by auto. ring.
    + exists (map (amap m) K). split; [now apply convex_aff_pos|]. split.
      * intros q. rewrite <- (aff_inv_r m q Hd), hull_amap, HS by auto. apply HK.
      * rewrite shoelace_aff, Rabs_pos_eq by lra. reflexivity.
  - right. split; [|ring]. exists (amap m u), (amap m v). split; [intros E; now apply aff_inj in E|].
    intros q Hq. rewrite <- (aff_inv_r m q Hd) in *. apply HS in Hq. rewrite orient_amap, (Hf _ Hq). ring.
Qed.
