(** Property theorems: points in faces with horizontal and vertical sides only, in binary64 (C85). *)
From Coq Require Import Permutation.
From Flocq Require Import Core BinarySingleNaN.
From Verif Require Import RBase NumB64 NumSub NumRoom FBase FBuild MUtils MGeometry MCreation MAlgorithms MQuery MCelltree SpecTree SpecQuery SpecApi
  SpecPoly SpecMesh SpecHang SpecConcave PMesh PInit PBuild PPoints PApi PNumber GTriangle GConvex GHull GRay GArea GFaces GHang GConcave
  FMesh FPoint FLocate FConcave Examples PropEdges PropPoints PropFloat PropFloatPoints PropConcave PropFloatConcave PropCorners PropFloatMidpoint.
Open Scope R_scope.

(** a horizontal or vertical side, at least 2^-400 long *)
Definition axis_side (u v : pt) : Prop :=
  (px u = px v /\ bpow radix2 (-400) <= Rabs (py v - py u)) \/ (py u = py v /\ bpow radix2 (-400) <= Rabs (px v - px u)).
Definition axis_mesh (vs : list pt) (faces : list (list Z)) (fill : Z) : Prop :=
  forall j poly u v, face_poly vs faces fill j poly -> In (u, v) (poly_edges poly) -> axis_side u v.

Lemma axis_side_sym u v : axis_side u v -> axis_side v u.
Proof. intros [(A & B)|(A & B)]; [left|right]; (split; [auto|rewrite Rabs_minus_sym; exact B]). Qed.
Lemma axis_either poly poly' : poly' = poly \/ poly' = rev poly ->
  (forall u v, In (u, v) (poly_edges poly) -> axis_side u v) -> forall u v, In (u, v) (poly_edges poly') -> axis_side u v.
Proof. intros [->| ->] H u v He; [auto|]. apply edges_rev_in in He. apply axis_side_sym. now apply H. Qed.

Section Side.
  Variables (p u v : point b64).
  Hypothesis Bp : bpt 240 p.
  Hypothesis Bu : bpt 240 u.
  Hypothesis Bv : bpt 240 v.
  Hypothesis HS : axis_side (rp u) (rp v).

  Lemma side_neq : rp u <> rp v.
  Proof.
    intros E. assert (0 < bpow radix2 (-400)) by apply bpow_gt_0.
    destruct HS as [(_ & H1)|(_ & H1)]; rewrite E, Rminus_eq_0, Rabs_R0 in H1; lra.
  Qed.
  Lemma side_eqb : point_eqb v u = false.
  Proof.
    destruct (point_eqb v u) eqn:E; auto. exfalso. apply side_neq. symmetry. apply (eqb_rp v u); auto; split; first [apply Bv|apply Bu].
  Qed.

  (** the crossing with the ray is exact *)
  Lemma side_crosses : crosses p u v = Ok (crossb (rp p) (rp u, rp v)).
  Proof.
    destruct Bp as ((Px & PX) & (Py & PY)), Bu as ((Ux & UX) & (Uy & UY)), Bv as ((Vx & VX) & (Vy & VY)).
    unfold crosses. rewrite (nltb_B _ _ Py Uy), (nltb_B _ _ Py Vy).
    unfold crossb, upx, downx, up, down. cbn [fst snd].
    change (py (rp p)) with (B2R (py p)). change (py (rp u)) with (B2R (py u)). change (py (rp v)) with (B2R (py v)).
    destruct HS as [(E & _)|(E & _)].
    - change (B2R (px u) = B2R (px v)) in E.
      assert (EO : orient (rp u) (rp v) (rp p) = (B2R (py v) - B2R (py u)) * (B2R (px u) - B2R (px p))).
      { unfold orient, rp. cbn [px py]. rewrite <- E. ring. }
      rewrite EO. clear EO.
      assert (ST : B2R (py u) <> B2R (py v) -> (let* q := ndiv (nmul (nsub (px v) (px u)) (nsub (py p) (py u))) (nsub (py v) (py u)) in Ok (nltb (px p) (nadd q (px u)))) = Ok (Rlt_bool (B2R (px p)) (B2R (px u)))).
      { intros N. destruct (sub_zero (px v) (px u) Vx Ux (eq_sym E)) as (F1 & Z1).
        pose proof (bounded_minus 240 (py p) (py u) ltac:(lia) (conj Py PY) (conj Uy UY)) as B1. change (bounded 241 (nsub (py p) (py u))) in B1.
        destruct (zero_mul (nsub (px v) (px u)) (nsub (py p) (py u))) as (F2 & Z2); [apply (bounded_mono 241); [lia|exact B1]|exact F1|exact Z1|].
        pose proof (bounded_minus 240 (py v) (py u) ltac:(lia) (conj Vy VY) (conj Uy UY)) as B2. change (bounded 241 (nsub (py v) (py u))) in B2.
        assert (N2 : B2R (nsub (py v) (py u)) <> 0).
        { intros Z. pose proof (ne0_sub (py v) (py u) Vy Uy (fun e => N (eq_sym e))) as X. rewrite (eq0_B _ (proj1 B2) Z) in X. discriminate. }
        set (m := nmul (nsub (px v) (px u)) (nsub (py p) (py u))) in *. set (d := nsub (py v) (py u)) in *.
        assert (Q : B2R m / B2R d = 0) by (rewrite Z2; unfold Rdiv; apply Rmult_0_l).
        destruct (div_val 0 m d ltac:(lia) F2 (proj1 B2) N2) as (E1 & E2 & (F3 & _)); [rewrite Q, Rabs_R0; apply bpow_ge_0|].
        rewrite Q, rnd_0 in E2. rewrite E1. cbn [bind].
        destruct (plus_val 240 (ndivraw m d) (px u) ltac:(lia) F3 Ux) as (E3 & (F4 & _)); [rewrite E2, Rplus_0_l; exact UX|].
        rewrite (nltb_B _ _ Px F4), E3, E2, Rplus_0_l. rewrite (rnd_B (px u)). reflexivity. }
      set (y := B2R (py p)) in *. set (yu := B2R (py u)) in *. set (yv := B2R (py v)) in *. set (x := B2R (px p)) in *. set (xu := B2R (px u)) in *.
      destruct (Rlt_bool_spec y yu) as [L1|L1], (Rlt_bool_spec y yv) as [L2|L2]; cbn [Bool.eqb negb].
      + rewrite (Rle_bool_false yu y), (Rle_bool_false yv y) by lra. reflexivity.
      + rewrite ST by lra. rewrite (Rle_bool_false yu y), (Rle_bool_true yv y) by lra. cbn [andb]. rewrite Bool.xorb_false_l. f_equal.
        destruct (Rlt_bool_spec x xu) as [K|K].
        * symmetry. apply Rlt_bool_true. assert (0 < (yu - yv) * (xu - x)) by (apply Rmult_lt_0_compat; lra). lra.
        * symmetry. apply Rlt_bool_false. assert (0 <= (yu - yv) * (x - xu)) by (apply Rmult_le_pos; lra). lra.
      + rewrite ST by lra. rewrite (Rle_bool_true yu y), (Rle_bool_false yv y) by lra. cbn [andb]. rewrite Bool.xorb_false_r. f_equal.
        destruct (Rlt_bool_spec x xu) as [K|K].
        * symmetry. apply Rlt_bool_true. apply Rmult_lt_0_compat; lra.
        * symmetry. apply Rlt_bool_false. assert (0 <= (yv - yu) * (x - xu)) by (apply Rmult_le_pos; lra). lra.
      + rewrite !Bool.andb_false_r. reflexivity.
    - change (B2R (py u) = B2R (py v)) in E. rewrite <- E. rewrite Bool.eqb_reflx. cbn [negb].
      destruct (Rle_bool_spec (B2R (py u)) (B2R (py p))), (Rlt_bool_spec (B2R (py p)) (B2R (py u))); cbn [andb xorb]; try lra; reflexivity.
  Qed.

  (** a point on the side is found on it *)
  Lemma side_found (tol : b64) : bounded 250 tol -> bpow radix2 (-100) <= B2R tol -> on_segment (rp u) (rp v) (rp p) ->
    within_perpendicular_distance (cross_product (to_vector p u) (to_vector p v)) (to_vector u v) tol = true /\ in_bounds p u v = true.
  Proof.
    intros Bt Ht (s & Hs & Es).
    pose proof Bp as (Px & Py). pose proof Bu as (Ux & Uy). pose proof Bv as (Vx & Vy).
    assert (D : forall x y : b64, bounded 240 x -> bounded 240 y -> bounded 251 (nsub x y)).
    { intros x y X Y. apply (bounded_mono 241); [lia|]. exact (bounded_minus 240 x y ltac:(lia) X Y). }
    assert (SX : B2R (px p) = B2R (px u) + s * (B2R (px v) - B2R (px u))) by (apply (f_equal px) in Es; exact Es).
    assert (SY : B2R (py p) = B2R (py u) + s * (B2R (py v) - B2R (py u))) by (apply (f_equal py) in Es; exact Es).
    split.
    - assert (U250 : forall x : b64, bounded 240 x -> bounded 250 x) by (intros x X; apply (bounded_mono 240); [lia|exact X]).
      destruct (length_val (to_vector u v)) as (BL & GL); [apply D; assumption|apply D; assumption| |].
      { cbn [to_vector px py]. destruct (diff_bounded (px v) (px u) (U250 _ Vx) (U250 _ Ux)) as (_ & ->). destruct (diff_bounded (py v) (py u) (U250 _ Vy) (U250 _ Uy)) as (_ & ->).
        destruct HS as [(_ & H)|(_ & H)]; [right|left]; (apply rnd_bpow_abs; [lia|exact H]). }
      destruct (cross_axis (to_vector p u) (to_vector p v)) as (F & Z & _).
      + split; cbn [to_vector px py]; apply D; assumption.
      + split; cbn [to_vector px py]; apply D; assumption.
      + cbn [to_vector px py].
        destruct HS as [(E & _)|(E & _)]; [right|left]; unfold rp in E; cbn [px py] in E.
        * split; apply sub_zero; try apply Ux; try apply Vx; try apply Px; rewrite SX, <- E; ring.
        * split; apply sub_zero; try apply Uy; try apply Vy; try apply Py; rewrite SY, <- E; ring.
      + apply zero_within; auto.
    - assert (BT : forall a b, between a b (a + s * (b - a))).
      { intros a b. unfold between. destruct (Rle_lt_dec a b) as [H|H].
        - rewrite Rmin_left, Rmax_right by lra. assert (0 <= s * (b - a)) by (apply Rmult_le_pos; lra). assert (0 <= (1 - s) * (b - a)) by (apply Rmult_le_pos; lra). lra.
        - rewrite Rmin_right, Rmax_left by lra. assert (0 <= s * (a - b)) by (apply Rmult_le_pos; lra). assert (0 <= (1 - s) * (a - b)) by (apply Rmult_le_pos; lra). lra. }
      pose proof (BT (B2R (px u)) (B2R (px v))) as (X1 & X2). pose proof (BT (B2R (py u)) (B2R (py v))) as (X3 & X4). rewrite <- SX in X1, X2. rewrite <- SY in X3, X4.
      destruct Px as (Fpx & _), Py as (Fpy & _), Ux as (Fux & _), Uy as (Fuy & _), Vx as (Fvx & _), Vy as (Fvy & _).
      destruct (nmin_B (px u) (px v) Fux Fvx) as (E1 & G1), (nmax_B (px u) (px v) Fux Fvx) as (E2 & G2).
      destruct (nmin_B (py u) (py v) Fuy Fvy) as (E3 & G3), (nmax_B (py u) (py v) Fuy Fvy) as (E4 & G4).
      assert (Y1 : nleb (nmin (px u) (px v)) (px p) = true) by (rewrite (nleb_B _ _ G1 Fpx), E1; now apply Rle_bool_true).
      assert (Y2 : nleb (px p) (nmax (px u) (px v)) = true) by (rewrite (nleb_B _ _ Fpx G2), E2; now apply Rle_bool_true).
      assert (Y3 : nleb (nmin (py u) (py v)) (py p) = true) by (rewrite (nleb_B _ _ G3 Fpy), E3; now apply Rle_bool_true).
      assert (Y4 : nleb (py p) (nmax (py u) (py v)) = true) by (rewrite (nleb_B _ _ Fpy G4), E4; now apply Rle_bool_true).
      unfold in_bounds. cbv zeta. rewrite Y1, Y2, Y3, Y4. cbn [andb]. rewrite !Bool.andb_true_r. apply Bool.orb_negb_r.
  Qed.

  (** with tolerance zero no side is near *)
  Lemma side_zero (tol : b64) : is_finite tol = true -> B2R tol = 0 ->
    within_perpendicular_distance (cross_product (to_vector p u) (to_vector p v)) (to_vector u v) tol = false.
  Proof.
    intros Ft Et. pose proof Bp as (Px & Py). pose proof Bu as (Ux & Uy). pose proof Bv as (Vx & Vy).
    assert (D : forall x y : b64, bounded 240 x -> bounded 240 y -> bounded 241 (nsub x y)) by (intros x y X Y; exact (bounded_minus 240 x y ltac:(lia) X Y)).
    assert (P2 : forall w z : b64, bounded 241 w -> bounded 241 z -> bounded 482 (nmul w z)).
    { intros w z W Z. change 482%Z with (241 + 241)%Z. apply bounded_prod; auto. lia. }
    assert (BC : bounded 483 (cross_product (to_vector p u) (to_vector p v))).
    { unfold cross_product, to_vector. cbn [px py]. apply (bounded_minus 482); [lia| |]; apply P2; apply D; assumption. }
    assert (BL : bounded 483 (length_squared (to_vector u v))).
    { unfold length_squared, to_vector. cbn [px py]. apply (bounded_plus 482); [lia| |]; apply P2; apply D; assumption. }
    unfold within_perpendicular_distance. set (c := cross_product _ _) in *. set (l := length_squared _) in *.
    destruct (mult_val 966 c c ltac:(lia) (proj1 BC) (proj1 BC)) as (E1 & (F1 & _)).
    { rewrite Rabs_mult. change 966%Z with (483 + 483)%Z. rewrite bpow_plus. apply Rmult_le_compat; try apply Rabs_pos; apply BC. }
    destruct (mult_val 0 tol l ltac:(lia) Ft (proj1 BL)) as (E2 & (F2 & _)); [rewrite Et, Rmult_0_l, Rabs_R0; apply bpow_ge_0|].
    destruct (mult_val 0 (nmul tol l) tol ltac:(lia) F2 Ft) as (E3 & (F3 & _)); [rewrite Et, Rmult_0_r, Rabs_R0; apply bpow_ge_0|].
    rewrite (nltb_B _ _ F1 F3). apply Rlt_bool_false. rewrite E1, E3, Et, Rmult_0_r. apply rnd_mono. apply Rle_0_sqr.
  Qed.
End Side.

(** ** Polygons *)
Lemma axis_loop (p : point b64) (tol : b64) : bpt 240 p ->
  forall l v0 c, bpt 240 v0 -> Forall (bpt 240) l -> (forall u v, In (u, v) (chain (rp v0) (map rp l)) -> axis_side u v) ->
  (bounded 250 tol -> bpow radix2 (-100) <= B2R tol ->
     exists b, pip_or_edge_loop p tol v0 (to_vector p v0) l c = Ok b
       /\ (b = xorb c (par (crossb (rp p)) (chain (rp v0) (map rp l))) \/ b = true)
       /\ ((exists u v, In (u, v) (chain (rp v0) (map rp l)) /\ on_segment u v (rp p)) -> b = true))
  /\ (is_finite tol = true -> B2R tol = 0 ->
     pip_or_edge_loop p tol v0 (to_vector p v0) l c = Ok (xorb c (par (crossb (rp p)) (chain (rp v0) (map rp l))))).
Proof.
  intros Bp. induction l as [|v1 l IH]; intros v0 c B0 BL HA.
  - cbn [map chain par fold_right pip_or_edge_loop]. rewrite Bool.xorb_false_r. split; [|auto]. intros _ _. exists c. split; auto. split; auto.
    intros (u & v & [] & _).
  - inversion BL as [|? ? B1 BL']; subst. cbn [map chain] in *.
    assert (S : axis_side (rp v0) (rp v1)) by (apply HA; now left).
    assert (HA' : forall u v, In (u, v) (chain (rp v1) (map rp l)) -> axis_side u v) by (intros u v H; apply HA; now right).
    cbn [pip_or_edge_loop]. rewrite (side_eqb v0 v1 B0 B1 S), (side_crosses p v0 v1 Bp B0 B1 S). cbn [bind].
    set (x := crossb (rp p) (rp v0, rp v1)).
    assert (EP : forall c, xorb c (par (crossb (rp p)) ((rp v0, rp v1) :: chain (rp v1) (map rp l))) = xorb (if x then negb c else c) (par (crossb (rp p)) (chain (rp v1) (map rp l)))).
    { intros d. cbn [par fold_right]. fold (par (crossb (rp p)) (chain (rp v1) (map rp l))). fold x. destruct x, d, (par (crossb (rp p)) (chain (rp v1) (map rp l))); reflexivity. }
    rewrite EP. destruct (IH v1 (if x then negb c else c) B1 BL' HA') as (I1 & I2). split.
    + intros Bt Ht. destruct (within_perpendicular_distance _ _ _ && in_bounds p v0 v1)%bool eqn:W.
      * exists true. auto.
      * destruct (I1 Bt Ht) as (b & Eb & Hb & Hon). exists b. split; [exact Eb|]. split; [exact Hb|].
        intros (u & v & [He|He] & Ho); [|apply Hon; eauto]. exfalso. injection He as <- <-.
        destruct (side_found p v0 v1 Bp B0 B1 S tol Bt Ht Ho) as (W1 & W2). rewrite W1, W2 in W. discriminate.
    + intros Ft Et. rewrite (side_zero p v0 v1 Bp B0 B1 tol Ft Et). cbn [andb]. now apply I2.
Qed.

Lemma axis_polygon (p : point b64) (tol : b64) (poly : list (point b64)) : bpt 240 p -> poly <> [] -> Forall (bpt 240) poly ->
  (forall u v, In (u, v) (poly_edges (map rp poly)) -> axis_side u v) ->
  (bounded 250 tol -> bpow radix2 (-100) <= B2R tol ->
     (on_outline (map rp poly) (rp p) \/ inside (rp p) (poly_edges (map rp poly)) = true) -> point_in_polygon_or_on_edge p poly tol = Ok true)
  /\ (is_finite tol = true -> B2R tol = 0 -> point_in_polygon_or_on_edge p poly tol = Ok (inside (rp p) (poly_edges (map rp poly)))).
Proof.
  intros Bp Hn HB HA. destruct (exists_last Hn) as (l & z & ->). unfold point_in_polygon_or_on_edge. rewrite aget_last. cbn [bind].
  assert (EE : poly_edges (map rp (l ++ [z])) = chain (rp z) (map rp (l ++ [z]))) by (unfold poly_edges; rewrite map_app; cbn [map]; rewrite last_last; reflexivity).
  unfold on_outline. rewrite inside_par, EE in *.
  assert (Bz : bpt 240 z) by (rewrite Forall_forall in HB; apply HB; apply in_or_app; right; now left).
  destruct (axis_loop p tol Bp (l ++ [z]) z false Bz HB HA) as (I1 & I2). rewrite Bool.xorb_false_l in I1, I2. split; [|exact I2].
  intros Bt Ht H. destruct (I1 Bt Ht) as (b & -> & Hb & Ho). f_equal. destruct H as [H|H]; [auto|]. rewrite H in Hb. destruct Hb; auto.
Qed.

Lemma outline_dec Q p : on_outline Q p \/ ~ on_outline Q p.
Proof. apply Classical_Prop.classic. Qed.

(** a tolerance of exactly zero *)
Definition zero_tolerance (tolerance : option b64) : Prop := match tolerance with None => False | Some x => is_finite x = true /\ B2R x = 0 end.

(** ** locate_points: no margins *)
Theorem C85_axis_points g (vs : list (point b64)) faces fill nb cpl t :
  mesh_ok vs faces fill -> bounded_vertices 240 vs -> simple_mesh (map rp vs) faces fill -> axis_mesh (map rp vs) faces fill ->
  CellTree2d_init g vs faces fill nb cpl = Ok t ->
  forall g' points tolerance, exists js,
    CellTree2d_locate_points g' t points tolerance = Ok js /\ length js = length points
    /\ forall i p j, nth_error points i = Some p -> nth_error js i = Some j -> bpt 240 p ->
         (* every point of a face, on its boundary or not, is assigned a face *)
         (tolerance_ok tolerance -> forall j' poly Ps, face_poly (map rp vs) faces fill j' poly -> pieces poly Ps -> region Ps (rp p) -> j <> (-1)%Z)
         (* with tolerance zero the assigned face contains the point *)
         /\ (zero_tolerance tolerance ->
             (j <> (-1)%Z -> exists poly, face_poly (map rp vs) faces fill j poly /\ forall Ps, pieces poly Ps -> region Ps (rp p))
             /\ (forall j' poly Ps, face_poly (map rp vs) faces fill j' poly -> pieces poly Ps -> region Ps (rp p) -> ~ on_outline poly (rp p) -> j <> (-1)%Z)
             /\ (forall j' poly Ps, face_poly (map rp vs) faces fill j' poly -> pieces poly Ps -> region Ps (rp p) -> ~ on_outline poly (rp p) ->
                  (forall j'' poly Ps, face_poly (map rp vs) faces fill j'' poly -> pieces poly Ps -> region Ps (rp p) -> j'' = j') -> j = j')).
Proof.
  intros Hm Hbd Hc HA E g' points tolerance. pose proof (init_built _ _ _ _ _ _ _ Hm E) as Hb.
  destruct (points_result _ _ _ _ t tolerance Hb) as (tol & Et & H). destruct (H points) as (js & Hj & HF).
  exists js. split; auto. split; [symmetry; eapply F2_length; eauto|].
  assert (HB : forall b, In b (bb_coords (celltree_data t)) -> bounded 250 (xmin b) /\ bounded 250 (xmax b) /\ bounded 250 (ymin b) /\ bounded 250 (ymax b)).
  { intros b Hin. apply In_nth_error in Hin as (n & En).
    destruct (Forall2_nth_r _ _ _ _ _ (mt_boxes _ (bt_mesh _ _ _ _ _ Hb)) En) as (f & _ & poly & Hp & HT).
    rewrite (bt_vertices _ _ _ _ _ Hb) in Hp. eapply tight_bounded; [|exact HT]. eapply poly_of_bounded; eauto. apply (bounded_vertices_mono 240); [lia|exact Hbd]. }
  intros i p j Ep Ej Bp. pose proof (Forall2_nth _ _ _ _ _ _ HF Ep Ej) as A.
  assert (C : forall j' poly Ps, face_poly (map rp vs) faces fill j' poly -> pieces poly Ps -> region Ps (rp p) ->
              (forall poly' Ps', pieces (map rp poly') Ps' -> region Ps' (rp p) -> Forall (bpt 240) poly' -> poly' <> [] ->
                 (map rp poly' = poly \/ map rp poly' = rev poly) ->
                 (forall u v, In (u, v) (poly_edges (map rp poly')) -> axis_side u v) ->
                 point_in_polygon_or_on_edge p poly' tol = Ok true) -> j <> (-1)%Z).
  { intros j' poly Ps Hpoly HP Hr Hpip ->. destruct A as [(f' & poly' & H0 & _)|(_ & Hn)]; [lia|].
    destruct (stored_float 240 _ _ _ _ _ _ _ Hb Hbd Hpoly) as (f2 & poly2 & b & H0 & En2 & Eb & Hp2 & Hb2 & Ho & HT).
    destruct (pieces_either _ _ _ Ho HP) as (Ps' & HP' & HR). pose proof (proj2 (HR _) Hr) as Hr'.
    apply (Hn j').
    - exists f2, poly2. split; auto. split; auto. rewrite (bt_vertices _ _ _ _ _ Hb). split; auto.
      apply (Hpip poly2 Ps'); auto; [eapply pieces_poly; exact HP'|]. eapply axis_either; [exact Ho|]. intros u v. apply (HA j' poly u v Hpoly).
    - exists b. split; auto. split; auto. destruct (tight_bounded 240 poly2 b Hb2 HT) as (B1 & B2 & B3 & B4).
      apply (closed_box_B 240); auto. eapply tight_box_hull; [eapply tight_box_B; eauto|].
      apply (pieces_hull _ Ps'); auto. apply HP'. }
  split.
  - intros Ht j' poly Ps Hpoly HP Hr. destruct (tolerance_facts t tolerance tol (bt_dist _ _ _ _ _ Hb) HB Et Ht) as (Bt & Pt0).
    apply (C j' poly Ps Hpoly HP Hr). intros poly' Ps' HP' Hr' Hb' Hne Ho Ha'.
    destruct (axis_polygon p tol poly' Bp Hne Hb' Ha') as (I1 & _). apply I1; auto.
    destruct (outline_dec (map rp poly') (rp p)) as [HO|HO]; [now left|right]. exact (pieces_complete _ _ _ HP' Hr' HO).
  - intros Hz. assert (Zt : is_finite tol = true /\ B2R tol = 0).
    { destruct tolerance as [x|]; [|destruct Hz]. cbn [get_tolerance] in Et. apply Ok_inj in Et. subst tol. exact Hz. }
    destruct Zt as (Ft & Ezt).
    assert (S : j <> (-1)%Z -> exists poly, face_poly (map rp vs) faces fill j poly /\ forall Ps, pieces poly Ps -> region Ps (rp p)).
    { intros Hj1. destruct A as [(f' & poly' & H0 & En & Hp' & Hpass)|(-> & _)]; [|congruence].
      destruct (stored_back_float _ _ _ _ _ _ _ Hm Hb H0 En) as (poly & Hpoly).
      destruct (stored_float 240 _ _ _ _ _ _ _ Hb Hbd Hpoly) as (f2 & poly2 & b & _ & En2 & _ & Hp2 & Hb2 & Ho & _).
      rewrite En in En2. inversion En2; subst f2. rewrite (bt_vertices _ _ _ _ _ Hb) in Hp'.
      assert (poly2 = poly').
      { clear - Hp2 Hp'. unfold poly_of in *. revert poly2 Hp2. induction Hp' as [|z q l l' (_ & E) _ IH]; intros poly2 H; inversion H; subst; auto.
        destruct H2 as (_ & E2). f_equal; [congruence|auto]. }
      subst poly2. exists poly. split; auto. intros Ps HP. destruct (pieces_either _ _ _ Ho HP) as (Ps' & HP' & HR).
      apply HR. apply (pieces_sound _ _ _ HP').
      assert (Ha' : forall u v, In (u, v) (poly_edges (map rp poly')) -> axis_side u v) by (eapply axis_either; [exact Ho|]; intros u v; apply (HA j poly u v Hpoly)).
      destruct (axis_polygon p tol poly' Bp (pieces_poly poly' Ps' HP') Hb2 Ha') as (_ & I2). rewrite (I2 Ft Ezt) in Hpass. now apply Ok_inj in Hpass. }
    assert (I : forall j' poly Ps, face_poly (map rp vs) faces fill j' poly -> pieces poly Ps -> region Ps (rp p) -> ~ on_outline poly (rp p) -> j <> (-1)%Z).
    { intros j' poly Ps Hpoly HP Hr HO. apply (C j' poly Ps Hpoly HP Hr). intros poly' Ps' HP' Hr' Hb' Hne Ho Ha'.
      destruct (axis_polygon p tol poly' Bp Hne Hb' Ha') as (_ & I2). rewrite (I2 Ft Ezt). f_equal. apply (pieces_complete _ _ _ HP' Hr').
      intros X. apply HO. destruct Ho as [<-|Ho]; auto. rewrite Ho in X. exact (proj1 (on_outline_rev poly (rp p)) X). }
    split; [exact S|]. split; [exact I|].
    intros j' poly Ps Hpoly HP Hr HO Hu. destruct (S (I j' poly Ps Hpoly HP Hr HO)) as (poly2 & Hp2 & H2). destruct (Hc _ _ Hp2) as (Ps2 & HP2). eauto.
Qed.

(** ** Concrete case: the L and its notch of C69 *)
Lemma axis_ptZ a b c d : (a = c /\ b <> d \/ b = d /\ a <> c)%Z -> axis_side (ptZ (a, b)) (ptZ (c, d)).
Proof.
  assert (S : forall m n, m <> n -> bpow radix2 (-400) <= Rabs (IZR n - IZR m)).
  { intros m n H. apply Rle_trans with 1; [change 1 with (bpow radix2 0); apply bpow_le; lia|].
    rewrite <- minus_IZR, <- abs_IZR. apply IZR_le. lia. }
  intros [(-> & H)|(-> & H)]; [left|right]; (split; [reflexivity|]); unfold ptZ; cbn [px py fst snd]; apply S; exact H.
Qed.
Lemma ell_axis : axis_mesh (@grid R _) ell_faces (-1).
Proof.
  intros j poly u v Hf He. apply ell_face in Hf as [(_ & ->)|(_ & ->)]; unfold ell, notch in He;
    cbn -[ptZ] in He; repeat destruct He as [He|He]; try contradiction; apply pair_equal_spec in He as (<- & <-); apply axis_ptZ; lia.
Qed.

(** Every point of the L, its corners and sides included, is assigned a face; with tolerance zero the
    points assigned to the L and to the notch are points of the L and of the notch. *)
Theorem C85_example : exists t, CellTree2d_init (T:=b64) g0 grid ell_faces (-1) 4 2 = Ok t
  /\ (forall points, exists js, CellTree2d_locate_points g0 t points None = Ok js
       /\ forall i p j, nth_error points i = Some p -> nth_error js i = Some j -> bpt 240 p ->
            region [ell_lower; ell_upper] (rp p) -> j <> (-1)%Z)
  /\ (forall points, exists js, CellTree2d_locate_points g0 t points (Some (Zb 0)) = Ok js
       /\ forall i p j, nth_error points i = Some p -> nth_error js i = Some j -> bpt 240 p ->
            (j = 0%Z -> region [ell_lower; ell_upper] (rp p)) /\ (j = 1%Z -> region [notch] (rp p))
            /\ (region [notch] (rp p) -> ~ on_outline notch (rp p) -> j <> (-1)%Z)).
Proof.
  destruct ell_tree_B as (t & E). exists t. split; [exact E|].
  assert (BG : bounded_vertices 240 (@grid b64 _)) by (apply (bounded_vertices_mono 3); [lia|]; apply zbounded; [lia|vm_compute; reflexivity]).
  assert (H : forall g' points tolerance, _) by exact (C85_axis_points g0 grid ell_faces (-1) 4 2 t ell_mesh_B BG
     ltac:(rewrite grid_rp; exact ell_simple) ltac:(rewrite grid_rp; exact ell_axis) E).
  rewrite grid_rp in H. split; intros points.
  - destruct (H g0 points None) as (js & Hj & _ & K). exists js. split; [exact Hj|]. intros i p j Ep Ej Bp Hr.
    destruct (K i p j Ep Ej Bp) as (K1 & _). exact (K1 I 0%Z ell _ ell_first ell_pieces Hr).
  - destruct (H g0 points (Some (Zb 0))) as (js & Hj & _ & K). exists js. split; [exact Hj|]. intros i p j Ep Ej Bp.
    destruct (K i p j Ep Ej Bp) as (_ & K2). destruct (K2 (Zb_exact 0 ltac:(lia))) as (S & C & _). split; [|split].
    + intros ->. destruct (S ltac:(discriminate)) as (poly & Hp & HS). apply ell_face in Hp as [(_ & ->)|(X & _)]; [|discriminate X]. exact (HS _ ell_pieces).
    + intros ->. destruct (S ltac:(discriminate)) as (poly & Hp & HS). apply ell_face in Hp as [(X & _)|(_ & ->)]; [discriminate X|]. exact (HS _ notch_pieces).
    + intros Hr Ho. exact (C 1%Z notch _ ell_second notch_pieces Hr Ho).
Qed.

Print Assumptions C85_axis_points.
Print Assumptions C85_example.
