(** Property theorems over exact reals: interpolation with the weights of
    compute_barycentric_weights (C65). *)
From Verif Require Import RBase NumSub MGeometry MAlgorithms MCreation MQuery MCelltree SpecTree SpecQuery SpecApi SpecGeom SpecPoly SpecMesh
  PMesh PInit PPoints PApi GTriangle GConvex GHull GFaces
  PropSmall Examples PropEdges PropPoints PropWach PropArea.
Open Scope R_scope.

(** ** C65 *)

(** the value interpolated from values at the nodes, with the weights [row] and
    the face [f] (node numbers) *)
Definition interpolate (values : Z -> R) (f : list Z) (row : list R) : R :=
  sumR (map (fun wn => fst wn * values (snd wn)) (combine row (until_fill f))).

(** n1 and n2 follow each other in the face, in one of the two directions *)
Definition side_nodes (vs : list pt) (f : list Z) (n1 n2 : Z) (u v : pt) : Prop :=
  exists poly, poly_of vs f poly /\ (In (u, v) (poly_edges poly) \/ In (v, u) (poly_edges poly))
    /\ In (n1, u) (combine (until_fill f) poly) /\ In (n2, v) (combine (until_fill f) poly).

(** *** sums *)
Lemma sum_zero : forall l : list R, (forall x, In x l -> 0 <= x) -> sumR l = 0 -> forall x, In x l -> x = 0.
Proof.
  induction l as [|y l IH]; intros Hp Hs x Hx; [destruct Hx|]. cbn in Hs.
  assert (P : 0 <= sumR l).
  { clear - Hp. assert (Q : forall z, In z l -> 0 <= z) by (intros; apply Hp; now right). clear Hp.
    induction l as [|z l IH]; cbn; [lra|]. pose proof (Q z (or_introl eq_refl)). assert (0 <= sumR l) by (apply IH; intros; apply Q; now right). lra. }
  pose proof (Hp y (or_introl eq_refl)). destruct Hx as [->|Hx]; [lra|].
  apply IH; auto; [intros; apply Hp; now right|lra].
Qed.

  Lemma interp_eq (values : Z -> R) (G : pt -> R) : forall (row : list R) (ns : list Z) (poly : list pt),
    length ns = length poly -> (length poly <= length row)%nat ->
    (forall w n q, In (w, (n, q)) (combine row (combine ns poly)) -> w * values n = w * G q) ->
    sumR (map (fun wn => fst wn * values (snd wn)) (combine row ns)) = sumR (map (fun wq => fst wq * G (snd wq)) (combine row poly)).
  Proof.
    induction row as [|w row IH]; intros [|n ns] [|q poly] H1 H2 H3; try discriminate; auto.
    cbn [combine map sumR fst snd]. rewrite (IH ns poly); [|cbn in H1; lia|cbn in H2; lia|].
    - f_equal. apply H3. now left.
    - intros w' n' q' Hin. apply H3. now right.
  Qed.
Lemma sum_aff (A B C : R) : forall (row : list R) (poly : list pt),
  (forall i x, (length poly <= i)%nat -> nth_error row i = Some x -> x = 0) -> (length poly <= length row)%nat ->
  sumR (map (fun wq => fst wq * (A * px (snd wq) + B * py (snd wq) + C)) (combine row poly))
    = A * px (comb row poly) + B * py (comb row poly) + C * sumR row.
Proof.
  unfold comb. cbn [px py]. induction row as [|w row IH]; intros [|q poly] HZ Hl.
  - cbn. ring.
  - cbn in Hl. lia.
  - assert (Z : forall l : list R, (forall i x, nth_error l i = Some x -> x = 0) -> sumR l = 0).
    { induction l as [|x l IHl]; intros H; cbn; [auto|]. rewrite (H O x eq_refl), IHl; [ring|]. intros i y E. exact (H (S i) y E). }
    rewrite (Z (w :: row)) by (intros i x E; apply (HZ i x); cbn; [lia|auto]). cbn. ring.
  - cbn [combine map sumR fst snd]. rewrite IH; [ring| |cbn in Hl; lia].
    intros i x Hi E. apply (HZ (S i) x); cbn; [lia|auto].
Qed.

Lemma poly_pair (vs : list pt) f poly n q : poly_of vs f poly -> In (n, q) (combine (until_fill f) poly) ->
  (0 <= n)%Z /\ nth_error vs (Z.to_nat n) = Some q.
Proof.
  unfold poly_of. induction 1 as [|i r l l' H HF IH]; cbn; [tauto|]. intros [E|Hin]; [inversion E; subst; auto|auto].
Qed.

(** A polygon, the row of weights of one of its points: *)
Section One.
  Variables (vs : list pt) (f : list Z) (poly : list pt) (row : list R) (p : pt).
  Hypothesis Hp : poly_of vs f poly.
  Hypothesis HC : convex_ccw poly.
  Hypothesis Hl : (length poly <= length row)%nat.
  Hypothesis HZ : forall i x, (length poly <= i)%nat -> nth_error row i = Some x -> x = 0.
  Hypothesis HS : sumR row = 1.
  Hypothesis HP : Forall (fun w => 0 <= w) row.
  Hypothesis HE : comb row poly = p.

  Lemma nodes_length : length (until_fill f) = length poly.
  Proof. symmetry. eapply poly_of_length; eauto. Qed.

  Lemma one_affine values A B C :
    (forall n q, In (n, q) (combine (until_fill f) poly) -> values n = A * px q + B * py q + C) ->
    interpolate values f row = A * px p + B * py p + C.
  Proof.
    intros Hv. unfold interpolate. rewrite (interp_eq values (fun q => A * px q + B * py q + C) row _ poly nodes_length Hl).
    - rewrite sum_aff by auto. rewrite HE, HS. ring.
    - intros w n q Hin. apply in_combine_r in Hin. now rewrite (Hv n q Hin).
  Qed.

  Lemma one_bounds values m M : (forall n, In n (until_fill f) -> m <= values n <= M) -> m <= interpolate values f row <= M.
  Proof.
    intros Hv. unfold interpolate. pose proof nodes_length as Hn.
    assert (G : forall (r : list R) (ns : list Z), (length ns <= length r)%nat -> Forall (fun w => 0 <= w) r ->
      (forall i x, (length ns <= i)%nat -> nth_error r i = Some x -> x = 0) -> (forall n, In n ns -> m <= values n <= M) ->
      m * sumR r <= sumR (map (fun wn => fst wn * values (snd wn)) (combine r ns)) <= M * sumR r).
    { clear. induction r as [|w r IH]; intros [|n ns] Hlen Hr Hz Hv.
      - cbn. lra.
      - cbn in Hlen. lia.
      - assert (Z : forall l : list R, (forall i x, nth_error l i = Some x -> x = 0) -> sumR l = 0).
        { induction l as [|x l IHl]; intros H; cbn; [auto|]. rewrite (H O x eq_refl), IHl; [ring|]. intros i y E. exact (H (S i) y E). }
        rewrite (Z (w :: r)) by (intros i x E; apply (Hz i x); cbn; [lia|auto]). cbn. lra.
      - inversion Hr as [|? ? W0 Hr']; subst. destruct (IH ns) as (I1 & I2); auto.
        { cbn in Hlen. lia. }
        { intros i x Hi E. apply (Hz (S i) x); cbn; [lia|auto]. }
        { intros k Hk. apply Hv. now right. }
        cbn [combine map sumR fst snd]. destruct (Hv n (or_introl eq_refl)) as (V1 & V2).
        pose proof (Rmult_le_compat_l w _ _ W0 V1). pose proof (Rmult_le_compat_l w _ _ W0 V2). lra. }
    destruct (G row (until_fill f)) as (G1 & G2); auto.
    - rewrite Hn. auto.
    - rewrite Hn. auto.
    - rewrite HS in G1, G2. lra.
  Qed.

  (** on a side only its two ends count *)
  Lemma one_side values n1 n2 u v s : In (u, v) (poly_edges poly) ->
    In (n1, u) (combine (until_fill f) poly) -> In (n2, v) (combine (until_fill f) poly) -> p = at_ u v s ->
    interpolate values f row = (1 - s) * values n1 + s * values n2.
  Proof.
    intros Hside I1 I2 Es. pose proof HC as (H3 & ND & HO).
    assert (Hne : u <> v) by (eapply edges_neq; eauto; lia).
    assert (HD : 0 < (px v - px u) * (px v - px u) + (py v - py u) * (py v - py u)).
    { pose proof (Rle_0_sqr (px v - px u)) as A1. pose proof (Rle_0_sqr (py v - py u)) as A2. unfold Rsqr in *.
      destruct (Req_dec (px v) (px u)) as [X|X]; [destruct (Req_dec (py v) (py u)) as [Y|Y]|].
      - destruct Hne. now apply pt_eq.
      - assert (0 < (py v - py u) * (py v - py u)) by (apply Rsqr_pos_lt; lra). lra.
      - assert (0 < (px v - px u) * (px v - px u)) by (apply Rsqr_pos_lt; lra). lra. }
    set (D := (px v - px u) * (px v - px u) + (py v - py u) * (py v - py u)) in *.
    set (d := (values n2 - values n1) / D).
    set (A := d * (px v - px u)). set (B := d * (py v - py u)).
    set (C := values n1 - (A * px u + B * py u)).
    assert (Ed : d * D = values n2 - values n1) by (unfold d; field; lra).
    (* nodes at the ends of the side *)
    assert (Huniq : forall n q m, In (n, q) (combine (until_fill f) poly) -> In (m, q) (combine (until_fill f) poly) -> n = m).
    { clear - ND. generalize (until_fill f). revert ND. induction poly as [|q0 l IH]; intros ND ns n q m A B.
      - destruct ns; destruct A.
      - destruct ns as [|n0 ns]; [destruct A|]. inversion ND as [|? ? N1 N2]; subst. cbn in A, B.
        destruct A as [A|A], B as [B|B]; try (inversion A; subst); try (inversion B; subst); auto.
        + apply in_combine_r in B. contradiction.
        + apply in_combine_r in A. contradiction.
        + eapply IH; eauto. }
    (* the other weights are zero *)
    assert (Hz : forall w q, In (w, q) (combine row poly) -> w * orient u v q = 0).
    { intros w q Hin.
      set (a := - (py v - py u)). set (b := px v - px u). set (c := - (a * px u + b * py u)).
      assert (Eo : forall q, orient u v q = a * px q + b * py q + c) by (intros q0; unfold orient, c, a, b; ring).
      assert (E0 : sumR (map (fun wq => fst wq * (a * px (snd wq) + b * py (snd wq) + c)) (combine row poly)) = 0).
      { rewrite sum_aff by auto. rewrite HE, HS, Es. unfold at_, c, a, b. cbn [px py]. ring. }
      rewrite Eo. apply (sum_zero _) with (x := w * (a * px q + b * py q + c)) in E0; auto.
      - intros x Hx. apply in_map_iff in Hx as ((w', q') & <- & Hx). cbn [fst snd]. rewrite <- Eo.
        apply Rmult_le_pos.
        + rewrite Forall_forall in HP. apply HP. now apply in_combine_l in Hx.
        + apply (hull_in_poly poly q' HC); auto. apply hull_vertex. now apply in_combine_r in Hx.
      - apply in_map_iff. exists (w, q). auto. }
    unfold interpolate. rewrite (interp_eq values (fun q => A * px q + B * py q + C) row _ poly nodes_length Hl).
    - rewrite sum_aff by auto. rewrite HE, HS, Es. unfold at_. cbn [px py].
      replace (A * (px u + s * (px v - px u)) + B * (py u + s * (py v - py u)) + C * 1) with (values n1 + s * (d * D)) by (unfold C, A, B, D; ring).
      rewrite Ed. ring.
    - intros w n q Hin.
      assert (Iwq : In (w, q) (combine row poly)).
      { clear - Hin. revert Hin. generalize (until_fill f). generalize row. induction poly as [|q0 l IH]; intros r ns Hin.
        - destruct r; destruct ns; cbn in Hin; contradiction.
        - destruct r as [|w0 r], ns as [|n0 ns]; cbn in Hin; try contradiction.
          destruct Hin as [E|Hin]; [inversion E; now left|right; eauto]. }
      assert (Inq : In (n, q) (combine (until_fill f) poly)) by (now apply in_combine_r in Hin).
      destruct (pt_dec q u) as [->|Nu].
      + rewrite (Huniq _ _ _ Inq I1). f_equal. unfold C. ring.
      + destruct (pt_dec q v) as [->|Nv].
        * rewrite (Huniq _ _ _ Inq I2). f_equal.
          replace (A * px v + B * py v + C) with (values n1 + d * D) by (unfold C, A, B, D; ring). lra.
        * assert (0 < orient u v q) by (apply HO; auto; now apply in_combine_r in Inq).
          specialize (Hz w q Iwq). apply Rmult_integral in Hz as [->|Hz]; [ring|lra].
  Qed.
End One.

(** What a row of weights means for interpolation: a located point that is in its
    face and on every side whose line is within the tolerance. *)
Definition settled (vs : list pt) (tol : R) (f : list Z) (p : pt) : Prop :=
  exists poly, poly_of vs f poly /\ hull poly p
    /\ forall u v, In (u, v) (poly_edges poly) -> line_near tol u v p -> on_segment u v p.

Lemma row_facts g vs faces fill nb cpl (t : tree2d (T:=R)) :
  mesh_ok vs faces fill -> convex_mesh vs faces fill -> CellTree2d_init g vs faces fill nb cpl = Ok t ->
  forall g' n points tolerance tol, (3 <= n)%nat -> Forall (fun f => (length f <= n)%nat) faces ->
  get_tolerance t tolerance = Ok tol -> 0 < tol ->
  exists js rows, CellTree2d_compute_barycentric_weights g' t n points tolerance = Ok (js, rows)
    /\ forall k p j row, nth_error points k = Some p -> nth_error js k = Some j -> nth_error rows k = Some row -> j <> (-1)%Z ->
         exists f poly, nth_error (elements (celltree_data t)) (Z.to_nat j) = Some f /\ poly_of vs f poly /\ convex_ccw poly
           /\ (length poly <= length row)%nat
           /\ (forall i x, (length poly <= i)%nat -> nth_error row i = Some x -> x = 0)
           /\ sumR row = 1
           /\ (settled vs tol f p -> Forall (fun w => 0 <= w) row /\ comb row poly = p).
Proof.
  intros Hm Hc E g' n points tolerance tol Hn Hw Et Ht.
  destruct (C31_compute_barycentric_weights _ _ _ _ _ _ _ Hm Hc E g' n points tolerance tol Hn Hw Et Ht) as (js & rows & Er & _ & _ & H).
  exists js, rows. split; [exact Er|]. intros k p j row Ek Ej Ew Nj.
  destruct (H _ _ _ _ Ek Ej Ew Nj) as (f & poly & En & Hp & HC & Hl & HS & HP).
  destruct (C33_weight_rows _ _ _ _ _ _ _ Hm E _ _ _ _ _ _ Hn Er) as (_ & _ & H3).
  destruct (H3 _ _ _ Ej Ew) as (_ & _ & Hz). destruct (Hz Nj) as (f' & En' & Hz'). rewrite En in En'. inversion En'; subst f'.
  exists f, poly. split; [exact En|]. split; [exact Hp|]. split; [exact HC|]. split; [|split; [|split; [exact HS|]]].
  - pose proof (init_built _ _ _ _ _ _ _ Hm E) as Hb. rewrite Hl.
    pose proof (Forall2_nth_r _ _ _ _ _ (bt_elements _ _ _ _ _ Hb) En) as (f0 & En0 & Hsame).
    assert (El : length (until_fill f) = length (until_fill f0)).
    { destruct Hsame as (_ & [->| ->]); auto. apply rev_length. }
    rewrite (poly_of_length _ _ _ Hp), El. apply nth_error_In in En0. apply in_map_iff in En0 as (f1 & <- & Hf1).
    rewrite Forall_forall in Hw. specialize (Hw f1 Hf1).
    eapply Nat.le_trans; [apply until_fill_length|]. unfold with_fill. rewrite map_length. exact Hw.
  - intros i x Hi Ex. rewrite (poly_of_length _ _ _ Hp) in Hi. exact (Hz' i x Hi Ex).
  - intros (poly' & Hp' & Hh & Hs). assert (poly' = poly) by (eapply poly_of_unique; eauto). subst poly'. apply HP; auto.
Qed.

(** Values given at the nodes and interpolated to a located point with the row of
    compute_barycentric_weights and the nodes of tree.faces:
    a linear field is reproduced at the point;
    the result lies between the smallest and the largest value of the face;
    on a side it is the linear interpolation between the two ends of the side. *)
Theorem C65_interpolation g vs faces fill nb cpl (t : tree2d (T:=R)) :
  mesh_ok vs faces fill -> convex_mesh vs faces fill -> CellTree2d_init g vs faces fill nb cpl = Ok t ->
  forall g' n points tolerance tol, (3 <= n)%nat -> Forall (fun f => (length f <= n)%nat) faces ->
  get_tolerance t tolerance = Ok tol -> 0 < tol ->
  exists js rows, CellTree2d_compute_barycentric_weights g' t n points tolerance = Ok (js, rows)
    /\ forall k p j row, nth_error points k = Some p -> nth_error js k = Some j -> nth_error rows k = Some row -> j <> (-1)%Z ->
         exists f, nth_error (elements (celltree_data t)) (Z.to_nat j) = Some f
           /\ (settled vs tol f p -> forall values,
                (forall A B C, (forall i q, nth_error vs i = Some q -> values (Z.of_nat i) = A * px q + B * py q + C) ->
                   interpolate values f row = A * px p + B * py p + C)
                /\ (forall m M, (forall i, In i (until_fill f) -> m <= values i <= M) -> m <= interpolate values f row <= M)
                /\ (forall n1 n2 u v s, side_nodes vs f n1 n2 u v -> p = at_ u v s ->
                   interpolate values f row = (1 - s) * values n1 + s * values n2)).
Proof.
  intros Hm Hc E g' n points tolerance tol Hn Hw Et Ht.
  destruct (row_facts _ _ _ _ _ _ _ Hm Hc E g' n points tolerance tol Hn Hw Et Ht) as (js & rows & Er & H).
  exists js, rows. split; [exact Er|]. intros k p j row Ek Ej Ew Nj.
  destruct (H _ _ _ _ Ek Ej Ew Nj) as (f & poly & En & Hp & HC & Hl & HZ & HS & HP).
  exists f. split; [exact En|]. intros Hset values. destruct (HP Hset) as (HP1 & HE). split; [|split].
  - intros A B C Hv. eapply one_affine; eauto. intros i q Hin.
    destruct (poly_pair _ _ _ _ _ Hp Hin) as (Hi & Hq). rewrite <- (Z2Nat.id i) by lia. now apply Hv.
  - intros m M Hv. eapply one_bounds; eauto.
  - intros n1 n2 u v s (poly' & Hp' & Hside & I1 & I2) Es.
    assert (poly' = poly) by (eapply poly_of_unique; eauto). subst poly'. destruct Hside as [Hside|Hside].
    + eapply one_side; eauto.
    + rewrite (one_side vs f poly row p Hp HC Hl HZ HS HP1 HE values n2 n1 v u (1 - s)); auto; [ring|].
      rewrite Es. unfold at_. apply pt_eq; cbn [px py]; ring.
Qed.

(** So the two faces of a shared side give the same value on it: an interpolated
    field has no jumps.  The trees may hold different meshes over the same
    vertices, as two orders of the faces, which decide the face of a point on a
    shared side. *)
Theorem C65_no_jump g vs faces fill nb cpl (t : tree2d (T:=R)) faces2 fill2 nb2 cpl2 (t2 : tree2d (T:=R)) :
  mesh_ok vs faces fill -> convex_mesh vs faces fill -> CellTree2d_init g vs faces fill nb cpl = Ok t ->
  mesh_ok vs faces2 fill2 -> convex_mesh vs faces2 fill2 -> CellTree2d_init g vs faces2 fill2 nb2 cpl2 = Ok t2 ->
  forall g' n p tol, (3 <= n)%nat -> Forall (fun f => (length f <= n)%nat) faces -> Forall (fun f => (length f <= n)%nat) faces2 ->
  0 < tol ->
  exists j row j2 row2,
    CellTree2d_compute_barycentric_weights g' t n [p] (Some tol) = Ok ([j], [row])
    /\ CellTree2d_compute_barycentric_weights g' t2 n [p] (Some tol) = Ok ([j2], [row2])
    /\ forall f f2, j <> (-1)%Z -> nth_error (elements (celltree_data t)) (Z.to_nat j) = Some f ->
         j2 <> (-1)%Z -> nth_error (elements (celltree_data t2)) (Z.to_nat j2) = Some f2 ->
         settled vs tol f p -> settled vs tol f2 p ->
         forall n1 n2 u v, side_nodes vs f n1 n2 u v -> side_nodes vs f2 n1 n2 u v -> on_segment u v p ->
         forall values, interpolate values f row = interpolate values f2 row2.
Proof.
  intros Hm Hc E Hm2 Hc2 E2 g' n p tol Hn Hw Hw2 Ht.
  destruct (C65_interpolation _ _ _ _ _ _ _ Hm Hc E g' n [p] (Some tol) tol Hn Hw eq_refl Ht) as (js & rows & Er & H).
  destruct (C65_interpolation _ _ _ _ _ _ _ Hm2 Hc2 E2 g' n [p] (Some tol) tol Hn Hw2 eq_refl Ht) as (js2 & rows2 & Er2 & H2).
  assert (L : length js = 1%nat /\ length rows = 1%nat).
  { destruct (C33_weight_rows _ _ _ _ _ _ _ Hm E _ _ _ _ _ _ Hn Er) as (El & Lr & _).
    unfold CellTree2d_locate_points in El. cbn [get_tolerance bind] in El. apply mapres_length in El. auto. }
  assert (L2 : length js2 = 1%nat /\ length rows2 = 1%nat).
  { destruct (C33_weight_rows _ _ _ _ _ _ _ Hm2 E2 _ _ _ _ _ _ Hn Er2) as (El & Lr & _).
    unfold CellTree2d_locate_points in El. cbn [get_tolerance bind] in El. apply mapres_length in El. auto. }
  destruct L as (L & Lr), L2 as (L2 & Lr2).
  destruct js as [|j [|]]; try discriminate. destruct rows as [|row [|]]; try discriminate.
  destruct js2 as [|j2 [|]]; try discriminate. destruct rows2 as [|row2 [|]]; try discriminate.
  exists j, row, j2, row2. split; [exact Er|]. split; [exact Er2|].
  intros f f2 Nj Ej Nj2 Ej2 S S2 n1 n2 u v D D2 (s & _ & Es) values.
  destruct (H 0%nat p j row eq_refl eq_refl eq_refl Nj) as (f' & Ef & HI). rewrite Ej in Ef. inversion Ef; subst f'.
  destruct (H2 0%nat p j2 row2 eq_refl eq_refl eq_refl Nj2) as (f' & Ef2 & HI2). rewrite Ej2 in Ef2. inversion Ef2; subst f'.
  destruct (HI S values) as (_ & _ & H3). destruct (HI2 S2 values) as (_ & _ & H3').
  now rewrite (H3 _ _ _ _ _ D Es), (H3' _ _ _ _ _ D2 Es).
Qed.

(** *** The order of the weights *)

Definition tri_vs : list pt := [Pt 0 0; Pt 0 1; Pt 1 0].
Definition tri_faces : list (list Z) := [[0; 1; 2]]%Z.

Lemma tri_mesh : mesh_ok (T:=R) tri_vs tri_faces (-1).
Proof.
  constructor.
  - pose proof FMAX_big. repeat constructor; cbn; lra.
  - discriminate.
  - repeat constructor; cbn; try lia; try discriminate.
Qed.

Lemma tri_face_poly j poly : face_poly tri_vs tri_faces (-1) j poly -> j = 0%Z /\ poly = tri_vs.
Proof.
  intros (f & Hj & Ef & Hp). assert (Hf := Ef). apply nth_error_In in Hf. cbn in Hf. destruct Hf as [<-|[]].
  split; [assert (X : (Z.to_nat j < 1)%nat) by (apply (nth_error_Some (map (with_fill (-1)) tri_faces)); congruence); lia|].
  unfold poly_of in Hp. cbn in Hp. invert_poly. reflexivity.
Qed.

Lemma tri_rev_ccw : convex_ccw (rev tri_vs).
Proof. unfold tri_vs. cbn [rev app]. convex_check. Qed.

(** The nodes of the weights are those of [tree.faces], where clockwise faces have
    been turned around.  Taken in the caller's order the weights of a clockwise
    face reproduce neither a linear field nor the point: here the field x, which
    is 1/2 at the point, is interpolated as 1/4. *)
Theorem C65_caller_order_refuted : exists (t : tree2d (T:=R)) row,
  CellTree2d_init g0 tri_vs tri_faces (-1) 4 2 = Ok t
  /\ CellTree2d_compute_barycentric_weights g0 t 3 [Pt (1/2) (1/4)] (Some (1/1000)) = Ok ([0%Z], [row])
  /\ elements (celltree_data t) = [[2; 1; 0]]%Z
  /\ interpolate (fun i => if (i =? 2)%Z then 1 else 0) [2; 1; 0]%Z row = 1/2
  /\ interpolate (fun i => if (i =? 2)%Z then 1 else 0) [0; 1; 2]%Z row = 1/4.
Proof.
  destruct (C04_nondegenerate_succeeds g0 tri_vs tri_faces (-1) 4 2 tri_mesh) as (t & E); try lia.
  { pose proof FMAX_big. cbn. lra. }
  { unfold tri_faces. cbn [map]. apply Forall_cons; [|apply Forall_nil].
    intros poly Hp. unfold poly_of in Hp. cbn in Hp. invert_poly; extent. }
  assert (HC : convex_mesh tri_vs tri_faces (-1)).
  { intros j poly Hp. apply tri_face_poly in Hp as (_ & ->). right. exact tri_rev_ccw. }
  exists t.
  destruct (C31_compute_barycentric_weights _ _ _ _ _ _ _ tri_mesh HC E g0 3 [Pt (1/2) (1/4)] (Some (1/1000)) (1/1000))
    as (js & rows & H & Hj & Hl & HR); auto.
  { repeat constructor. }
  { lra. }
  destruct rows as [|row [|]]; try discriminate.
  destruct (C10_locate_points_geometric _ _ _ _ _ _ _ tri_mesh HC E g0 [Pt (1/2) (1/4)] (Some (1/1000)))
    as (tol & js' & Et & Hj' & Hl' & HG). rewrite Hj in Hj'. apply Ok_inj in Hj'. subst js'.
  cbn in Et. apply Ok_inj in Et. subst tol.
  destruct js as [|j [|]]; try discriminate.
  assert (Hp0 : face_poly tri_vs tri_faces (-1) 0 tri_vs).
  { exists [0; 1; 2]%Z. split; [lia|]. split; [reflexivity|]. unfold poly_of. cbn. repeat constructor; auto; lia. }
  assert (Ho : open_hull tri_vs (Pt (1/2) (1/4))).
  { exists [1/4; 1/4; 1/2]. split; [reflexivity|]. split; [repeat constructor; lra|]. split; [cbn; lra|]. apply pt_eq; cbn; lra. }
  destruct (HG 0%nat _ j eq_refl eq_refl ltac:(lra)) as (_ & _ & _ & H4).
  assert (j = 0%Z).
  { apply H4; [eauto|]. intros j'' poly Hp'' _. now apply tri_face_poly in Hp''. }
  subst j.
  pose proof (init_built _ _ _ _ _ _ _ tri_mesh E) as Hb.
  destruct (HR 0%nat _ 0%Z row eq_refl eq_refl eq_refl ltac:(lia)) as (f & poly & En & Hp & HCC & L & S & HW).
  pose proof (bt_elements _ _ _ _ _ Hb) as HE. cbn in HE. inversion HE as [|x y l l' Hsame HF Ex Ey]; subst.
  inversion HF; subst. rewrite <- Ey in En. cbn in En. inversion En; subst y.
  assert (f = [2; 1; 0]%Z).
  { destruct Hsame as (Hrest & Hs). cbn in Hrest, Hs.
    assert (Hf : f = until_fill f).
    { destruct f as [|a [|b [|c [|d r]]]]; cbn in Hrest; try discriminate; cbn in Hs |- *;
        repeat (destruct (_ =? _)%Z); auto; destruct Hs as [Hs|Hs]; discriminate. }
    destruct Hs as [Hs|Hs]; [exfalso|now rewrite Hf, Hs].
    rewrite Hf, Hs in Hp. unfold poly_of in Hp. cbn in Hp. invert_poly.
    destruct HCC as (_ & _ & HO).
    specialize (HO (Pt 0 0) (Pt 0 1) (Pt 1 0) ltac:(cbn; tauto) ltac:(cbn; tauto)).
    unfold orient in HO. cbn in HO. assert (0 < -1); [|lra]. eapply Rlt_le_trans; [apply HO|].
    - intros X. inversion X. lra.
    - intros X. inversion X. lra.
    - lra. }
  subst f. unfold poly_of in Hp. cbn in Hp. invert_poly.
  destruct HW as (_ & HK).
  { apply open_hull_hull. exists [1/2; 1/4; 1/4]. split; [reflexivity|]. split; [repeat constructor; lra|]. split; [cbn; lra|]. apply pt_eq; cbn; lra. }
  { intros u v Huv Hn. exfalso. cbn in Huv. unfold line_near, orient, dist2 in Hn.
    repeat destruct Huv as [Huv|Huv]; try contradiction; inversion Huv; subst u v; cbn [px py] in Hn; lra. }
  destruct row as [|w0 [|w1 [|w2 [|]]]]; try discriminate. unfold comb in HK. cbn in HK, S.
  assert (K1 := f_equal px HK). assert (K2 := f_equal py HK). cbn in K1, K2.
  exists [w0; w1; w2]. split; [exact E|]. split; [exact H|]. split; [auto|]. unfold interpolate. cbn. lra.
Qed.

(** Two squares with a common side, and the middle of that side *)
Definition two_vs : list pt := [Pt 0 0; Pt 1 0; Pt 2 0; Pt 0 1; Pt 1 1; Pt 2 1].
Definition two_faces : list (list Z) := [[0; 1; 4; 3]; [1; 2; 5; 4]]%Z.

Lemma two_mesh : mesh_ok (T:=R) two_vs two_faces (-1).
Proof.
  constructor.
  - pose proof FMAX_big. repeat constructor; cbn; lra.
  - discriminate.
  - repeat constructor; cbn; try lia; try discriminate.
Qed.

Lemma two_index j poly : face_poly two_vs two_faces (-1) j poly -> (j = 0 \/ j = 1)%Z.
Proof. intros H. apply face_range in H. unfold two_faces, zlen in H. cbn in H. lia. Qed.

Lemma two_convex : convex_mesh two_vs two_faces (-1).
Proof.
  intros j poly H. pose proof (two_index _ _ H) as Hj. destruct H as (f & _ & En & Hb).
  destruct Hj as [-> | ->]; cbn in En; inversion En; subst f; clear En; unfold poly_of in Hb; cbn in Hb; invert_poly; left; convex_check.
Qed.

Lemma two_full f : wf_face 6 f -> forall a b c d, skipn 4 f = [] -> until_fill f = [a; b; c; d] -> f = [a; b; c; d].
Proof.
  intros _ a b c d H1 H2. destruct f as [|x0 [|x1 [|x2 [|x3 [|x4 r]]]]]; cbn in H1; try discriminate; cbn in H2;
    repeat (destruct (_ =? _)%Z); try discriminate; auto.
Qed.

Ltac two_settled := let u := fresh "u" in let v := fresh "v" in let Huv := fresh in let Hn := fresh in
  eexists; split; [unfold poly_of; cbn; repeat (apply Forall2_cons; [split; [lia|reflexivity]|]); apply Forall2_nil|]; split;
  [|intros u v Huv Hn; cbn in Huv; unfold line_near, orient, dist2 in Hn;
    repeat destruct Huv as [Huv|Huv]; try contradiction; inversion Huv; subst u v; cbn [px py] in Hn; try (exfalso; lra);
    exists (1/2); (split; [lra|]); apply pt_eq; cbn; lra].
Ltac two_side := eexists; split; [unfold poly_of; cbn; repeat (apply Forall2_cons; [split; [lia|reflexivity]|]); apply Forall2_nil|];
  cbn; split; [|split]; tauto.

Theorem C65_example : exists (t : tree2d (T:=R)) j row f,
  CellTree2d_init g0 two_vs two_faces (-1) 4 2 = Ok t
  /\ CellTree2d_compute_barycentric_weights g0 t 4 [Pt 1 (1/2)] (Some (1/1000)) = Ok ([j], [row])
  /\ j <> (-1)%Z /\ nth_error (elements (celltree_data t)) (Z.to_nat j) = Some f
  /\ settled two_vs (1/1000) f (Pt 1 (1/2)) /\ side_nodes two_vs f 1 4 (Pt 1 0) (Pt 1 1)
  /\ forall values, interpolate values f row = (values 1%Z + values 4%Z) / 2.
Proof.
  destruct (C04_nondegenerate_succeeds g0 two_vs two_faces (-1) 4 2 two_mesh) as (t & E); try lia.
  { pose proof FMAX_big. cbn. lra. }
  { unfold two_faces. cbn [map]. repeat (apply Forall_cons; [intros poly Hp; unfold poly_of in Hp; cbn in Hp; invert_poly; extent|]).
    apply Forall_nil. }
  exists t.
  destruct (C65_interpolation _ _ _ _ _ _ _ two_mesh two_convex E g0 4 [Pt 1 (1/2)] (Some (1/1000)) (1/1000)) as (js & rows & H & HR); auto.
  { repeat constructor. }
  { lra. }
  destruct (C33_weight_rows _ _ _ _ _ _ _ two_mesh E g0 4 _ _ _ _ ltac:(lia) H) as (Hj & Hl & _).
  destruct rows as [|row [|]]; try discriminate.
  destruct (C10_locate_points_geometric _ _ _ _ _ _ _ two_mesh two_convex E g0 [Pt 1 (1/2)] (Some (1/1000)))
    as (tol & js' & Et & Hj' & Hl' & HG). rewrite Hj in Hj'. apply Ok_inj in Hj'. subst js'.
  cbn in Et. apply Ok_inj in Et. subst tol.
  destruct js as [|j [|]]; try discriminate.
  destruct (HG 0%nat _ j eq_refl eq_refl ltac:(lra)) as (H1 & _ & H3 & _).
  assert (Nj : j <> (-1)%Z).
  { apply (H3 ltac:(lra) 0%Z [Pt 0 0; Pt 1 0; Pt 1 1; Pt 0 1]).
    - exists [0; 1; 4; 3]%Z. split; [lia|]. split; [reflexivity|]. unfold poly_of. cbn. repeat constructor; auto; lia.
    - exists [0; 1/2; 1/2; 0]. split; [reflexivity|]. split; [repeat constructor; lra|]. split; [cbn; lra|]. apply pt_eq; cbn; lra. }
  destruct (H1 Nj) as (poly0 & Hp0 & _). apply two_index in Hp0.
  destruct (HR 0%nat _ j row eq_refl eq_refl eq_refl Nj) as (f & En & HI).
  exists j, row, f. split; [exact E|]. split; [exact H|]. split; [exact Nj|]. split; [exact En|].
  pose proof (init_built _ _ _ _ _ _ _ two_mesh E) as Hb.
  pose proof (Forall2_nth_r _ _ _ _ _ (bt_elements _ _ _ _ _ Hb) En) as (f0 & En0 & Hrest & Hs).
  assert (HF : (f = [0; 1; 4; 3] \/ f = [3; 4; 1; 0] \/ f = [1; 2; 5; 4] \/ f = [4; 5; 2; 1])%Z).
  { assert (W : wf_face 6 f).
    { pose proof (mt_faces _ (bt_mesh _ _ _ _ _ Hb)) as Hwf. rewrite (bt_vertices _ _ _ _ _ Hb) in Hwf.
      rewrite Forall_forall in Hwf. apply Hwf. eapply nth_error_In; eauto. }
    destruct Hp0 as [-> | ->]; cbn in En0; inversion En0; subst f0; cbn in Hrest, Hs; destruct Hs as [Hs|Hs];
      rewrite (two_full f W _ _ _ _ Hrest Hs); tauto. }
  assert (S : settled two_vs (1/1000) f (Pt 1 (1/2))).
  { destruct HF as [-> |[-> |[-> | ->]]]; two_settled.
    - exists [0; 1/2; 1/2; 0]. split; [reflexivity|]. split; [repeat constructor; lra|]. split; [cbn; lra|]. apply pt_eq; cbn; lra.
    - exists [0; 1/2; 1/2; 0]. split; [reflexivity|]. split; [repeat constructor; lra|]. split; [cbn; lra|]. apply pt_eq; cbn; lra.
    - exists [1/2; 0; 0; 1/2]. split; [reflexivity|]. split; [repeat constructor; lra|]. split; [cbn; lra|]. apply pt_eq; cbn; lra.
    - exists [1/2; 0; 0; 1/2]. split; [reflexivity|]. split; [repeat constructor; lra|]. split; [cbn; lra|]. apply pt_eq; cbn; lra. }
  assert (D : side_nodes two_vs f 1 4 (Pt 1 0) (Pt 1 1)).
  { destruct HF as [-> |[-> |[-> | ->]]]; two_side. }
  split; [exact S|]. split; [exact D|]. intros values.
  destruct (HI S values) as (_ & _ & H5). rewrite (H5 _ _ _ _ (1/2) D); [lra|]. apply pt_eq; cbn; lra.
Qed.

Print Assumptions C65_interpolation.
Print Assumptions C65_no_jump.
Print Assumptions C65_caller_order_refuted.
Print Assumptions C65_example.
