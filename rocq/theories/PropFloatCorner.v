(** Property theorems: Wachspress weights at the corners of a face, in binary64 (C82). *)
From Coq Require Import Reals Lra Psatz.
From Flocq Require Import IEEE754.BinarySingleNaN Core.
From Verif Require Import RBase NumB64 NumSub NumRoom FBase FBuild MUtils MGeometry MCreation MAlgorithms MQuery MCelltree FPoint FCut FLocate FWeights
  SpecTree SpecQuery SpecApi SpecPoly SpecGeom SpecMesh PMesh PInit PBuild PPoints PApi PPartition GTriangle GConvex GFaces GHull GWach GWachSpec PropWach SpecWach FWach FWachSide FWachLoop FWachPoly FWachLocate Examples
  PFaces GCcw FMesh FOrient PropEdges PropPoints PropFloat PropFloatPoints PropFloatWeights PropFloatWach PropCorners.
Open Scope R_scope.

(** ** Values of the operations, by the values of the arguments *)
Lemma sub_val (x y : b64) : bounded 250 x -> bounded 250 y -> bounded 251 (nsub x y) /\ B2R (nsub x y) = rnd (B2R x - B2R y).
Proof. apply diff_bounded. Qed.
Lemma mul_val (x y : b64) : bounded 251 x -> bounded 251 y -> bounded 502 (nmul x y) /\ B2R (nmul x y) = rnd (B2R x * B2R y).
Proof.
  intros (Fx & Bx) (Fy & By). destruct (mult_val 502 x y ltac:(lia) Fx Fy) as (E & B); auto.
  rewrite Rabs_mult. change 502%Z with (251 + 251)%Z. rewrite bpow_plus. apply Rmult_le_compat; auto using Rabs_pos.
Qed.
Lemma add_val (x y : b64) : bounded 502 x -> bounded 502 y -> bounded 503 (nadd x y) /\ B2R (nadd x y) = rnd (B2R x + B2R y).
Proof.
  intros (Fx & Bx) (Fy & By). destruct (plus_val 503 x y ltac:(lia) Fx Fy) as (E & B); auto.
  change 503%Z with (502 + 1)%Z. rewrite bpow_plus. change (bpow radix2 1) with 2. revert Bx By. unfold Rabs; repeat destruct Rcase_abs; lra.
Qed.
Lemma length_of_values (u p : point b64) : bpt 250 u -> bpt 250 p ->
  B2R (nsqrt (dot_product (to_vector u p) (to_vector u p)))
  = rnd (sqrt (rnd (rnd (rnd (B2R (px p) - B2R (px u)) * rnd (B2R (px p) - B2R (px u))) + rnd (rnd (B2R (py p) - B2R (py u)) * rnd (B2R (py p) - B2R (py u)))))).
Proof.
  intros (Ux & Uy) (Px & Py). unfold dot_product, to_vector. cbn [px py].
  destruct (sub_val _ _ Px Ux) as (B1 & E1). destruct (sub_val _ _ Py Uy) as (B2 & E2).
  destruct (mul_val _ _ B1 B1) as (B3 & E3). destruct (mul_val _ _ B2 B2) as (B4 & E4).
  destruct (add_val _ _ B3 B4) as (_ & E5). 
  destruct (Bsqrt_correct prec emax prec_gt prec_lt mode_NE (nadd (nmul (nsub (px p) (px u)) (nsub (px p) (px u))) (nmul (nsub (py p) (py u)) (nsub (py p) (py u))))) as (E & _).
  cbn [nsqrt NumB64] in *. rewrite E, E5, E3, E4, E1, E2. reflexivity.
Qed.

(** the weight on a side, at its ends *)
Lemma end_weight k u v p : (-150 <= k <= 250)%Z -> bpt k u -> bpt k v -> bpt k p -> bpow radix2 (-490) <= dist2 (rp v) (rp u) ->
  exists w : b64, ndiv (nsqrt (dot_product (to_vector u p) (to_vector u p))) (nsqrt (dot_product (to_vector u v) (to_vector u v))) = Ok w
    /\ is_finite w = true /\ is_finite (nsub (nofZ 1) w) = true
    /\ (rp p = rp u -> B2R w = 0 /\ B2R (nsub (nofZ 1) w) = 1)
    /\ (rp p = rp v -> B2R w = 1 /\ B2R (nsub (nofZ 1) w) = 0).
Proof.
  intros Hk Bu Bv Bp Hq. destruct (side_weight k Hk u v p Bu Bv Bp Hq) as (w & Ew & Fw & _ & F1 & _). cbv zeta in *.
  exists w. split; auto. split; auto. split; auto.
  assert (UP : forall x, bpt k x -> bpt 250 x) by (intros x (A & B); split; apply (bounded_mono k); auto; lia).
  pose proof (length_of_values u p (UP _ Bu) (UP _ Bp)) as LV. pose proof (length_of_values u v (UP _ Bu) (UP _ Bv)) as LU.
  destruct (sqrt_err k Hk u p Bu Bp) as ((FV & _) & _). destruct (sqrt_err k Hk u v Bu Bv) as ((FU & _) & EU & _). cbv zeta in *.
  specialize (EU ltac:(eapply Rle_trans; [|exact Hq]; apply bpow_le; lia)).
  set (sv := nsqrt (dot_product (to_vector u p) (to_vector u p))) in *. set (su := nsqrt (dot_product (to_vector u v) (to_vector u v))) in *.
  assert (NU : B2R su <> 0).
  { pose proof (bpow_gt_0 radix2 (-490)). assert (Ps : 0 < sqrt (dist2 (rp v) (rp u))) by (apply sqrt_lt_R0; lra).
    pose proof uro_small. intros X. rewrite X in EU. apply Rabs_le_iff in EU.
    assert (5.3 * uro * sqrt (dist2 (rp v) (rp u)) <= 0.5 * sqrt (dist2 (rp v) (rp u))) by (apply Rmult_le_compat_r; lra). lra. }
  assert (ONE : B2R (nofZ 1 : b64) = 1 /\ is_finite (nofZ 1 : b64) = true).
  { cbn [nofZ NumB64]. destruct (Zb_exact 1 ltac:(lia)) as (A & B). split; auto. }
  destruct ONE as (E1 & FO).
  assert (R1 : rnd 1 = 1) by (rewrite <- E1; apply round_generic; [exact _|apply generic_format_B2R]).
  assert (DV : forall x, Rabs (B2R sv / B2R su) <= bpow radix2 0 -> B2R sv / B2R su = x -> rnd x = x -> B2R w = x).
  { intros x H <- Hx. destruct (div_val 0 sv su ltac:(lia) FV FU NU H) as (E & EV & _). rewrite E in Ew. apply Ok_inj in Ew. subst w. now rewrite EV. }
  assert (SV : forall x, B2R w = x -> Rabs (1 - x) <= bpow radix2 0 -> rnd (1 - x) = 1 - x -> B2R (nsub (nofZ 1) w) = 1 - x).
  { intros x <- H Hx. destruct (minus_val 0 (nofZ 1) w ltac:(lia) FO Fw) as (E & _); rewrite E1 in *; auto. now rewrite E. }
  change (bpow radix2 0) with 1 in *. split; intros Hp; apply rp_eq in Hp as (Hx & Hy); rewrite Hx, Hy in LV.
  - assert (Z : B2R sv = 0) by (rewrite LV, !Rminus_diag_eq, !rnd_0, Rmult_0_l, rnd_0, Rplus_0_l, rnd_0, sqrt_0 by reflexivity; apply rnd_0).
    assert (W0 : B2R w = 0).
    { apply DV; [| |apply rnd_0]; rewrite Z; unfold Rdiv; rewrite Rmult_0_l; [rewrite Rabs_R0; lra|reflexivity]. }
    split; auto. rewrite (SV 0 W0); rewrite Rminus_0_r; [reflexivity|rewrite Rabs_R1; lra|auto].
  - assert (Z : B2R sv = B2R su) by (rewrite LV, LU; reflexivity).
    assert (Q : B2R sv / B2R su = 1) by (rewrite Z; now field).
    assert (W1 : B2R w = 1) by (apply DV; rewrite ?Q, ?Rabs_R1; auto; lra).
    split; auto. rewrite (SV 1 W1); rewrite Rminus_diag_eq by reflexivity; [reflexivity|rewrite Rabs_R0; lra|apply rnd_0].
Qed.

Lemma bchain_first (z : point b64) : forall l v0 u, In u (v0 :: l) -> exists v, In (u, v) (bchain v0 (l ++ [z])).
Proof.
  induction l as [|x l IH]; intros v0 u Hu; cbn [app bchain].
  - destruct Hu as [<-|[]]. exists z. now left.
  - destruct Hu as [<-|Hu]; [exists x; now left|]. destruct (IH x u Hu) as (v & Hv). exists v. now right.
Qed.

(** the row of corner [c]: exactly one there, exactly zero elsewhere *)
Definition unit_row (n c : nat) (row : list b64) : Prop :=
  length row = n /\ forall e z, nth_error row e = Some z -> is_finite z = true /\ (e = c -> B2R z = 1) /\ (e <> c -> B2R z = 0).

Section Poly.
  Context (k : Z) (Hk : (-150 <= k <= 250)%Z).
  Variable p : point b64.
  Variable tol : b64.
  Hypothesis Bp : bpt k p.
  Hypothesis Bt : bounded k tol.
  Hypothesis Pt : 0 <= B2R tol.
  Variables W D : R.
  Variable v0 : point b64.
  Variable l : list (point b64).
  Let poly := v0 :: l.
  Hypothesis BP : Forall (bpt k) poly.
  Hypothesis HC : clear_weights W D (B2R tol) (map rp poly) (rp p).
  Let t := B2R tol.
  Let a0 := last l v0.
  Let cs := l ++ [v0].

  Lemma corner_weights row c q : NoDup (map rp poly) -> (2 <= length poly)%nat -> (length poly <= length row)%nat ->
    nth_error poly c = Some q -> rp q = rp p ->
    (forall u v, In (u, v) (poly_edges (map rp poly)) -> line_near (1.01 * t) u v (rp p) -> u = rp p \/ v = rp p) ->
    exists out, wachspress_weights poly p row tol = Ok out /\ unit_row (length row) c out.
  Proof.
    intros HN Hl2 Hr Hc Eq Hsides.
    assert (Hlc : length cs = length poly) by (unfold cs, poly; rewrite app_length; cbn; lia).
    assert (UNIQ : forall i u, nth_error poly i = Some u -> rp u = rp p -> i = c).
    { intros i u Hi Hu. assert (A : nth_error (map rp poly) i = Some (rp p)) by (rewrite nth_error_map, Hi; cbn; congruence).
      assert (B : nth_error (map rp poly) c = Some (rp p)) by (rewrite nth_error_map, Hc; cbn; congruence).
      apply (proj1 (NoDup_nth_error (map rp poly)) HN); [apply nth_error_Some; congruence|congruence]. }
    assert (OTHER : forall i u, nth_error poly i = Some u -> rp u <> rp p -> i <> c).
    { intros i u Hi Hu ->. apply Hu. rewrite Hc in Hi. injection Hi as <-. exact Eq. }
    assert (IDX : forall u v i j, In (rp u, rp v) (poly_edges (map rp poly)) -> nth_error poly i = Some u -> nth_error poly j = Some v -> i <> j /\ rp u <> rp v).
    { intros u v i j He Hi Hj. pose proof (edges_neq _ _ _ HN ltac:(rewrite map_length; lia) He) as Hne. split; auto. intros ->. congruence. }
    (* what an interpolation on a side gives *)
    assert (SIDE : forall u v i j ws', In (u, v) ((a0, v0) :: bchain v0 cs) -> withinB p tol u v = true ->
      nth_error poly i = Some u -> nth_error poly j = Some v -> length ws' = length row ->
      exists out, interp_edge_case u (to_vector u v) p ws' (Z.of_nat i) (Z.of_nat j) = Ok out /\ unit_row (length row) c out).
    { intros u v i j ws' Huv Hw Hi Hj L. apply (loop_pair k p tol W D v0 l BP HC) in Huv. destruct Huv as (Iu & Iv & He). fold poly in Iu, Iv, He.
      destruct (side_facts k Hk p tol Bp Bt Pt W D v0 l BP HC u v Iu Iv He) as (Hq & _ & HT). specialize (HT Hw).
      pose proof (Hsides _ _ He HT) as Hend.
      rewrite Forall_forall in BP. pose proof (BP _ Iu) as Bu. pose proof (BP _ Iv) as Bv.
      destruct (end_weight k u v p Hk Bu Bv Bp Hq) as (w & Ew & Fw & F1 & H0 & H1).
      assert (Ki : (i < length ws')%nat) by (assert (i < length poly)%nat by (apply nth_error_Some; congruence); lia).
      assert (Kj : (j < length ws')%nat) by (assert (j < length poly)%nat by (apply nth_error_Some; congruence); lia).
      destruct (IDX u v i j He Hi Hj) as (Hne & Hne').
      destruct (twoB_spec (length ws') i j (nsub (nofZ 1) w) w Ki Kj Hne) as (LO & N1 & N2 & N3).
      exists (twoB (length ws') i j (nsub (nofZ 1) w) w). split; [now apply interpB|]. split; [congruence|].
      intros e z Hz. destruct (Zb_exact 0 ltac:(lia)) as (F0 & E0).
      destruct (Nat.eq_dec e i) as [->|Ni]; [|destruct (Nat.eq_dec e j) as [->|Nj]].
      - rewrite N1 in Hz. injection Hz as <-. split; auto. destruct Hend as [Hu|Hv].
        + destruct (H0 (eq_sym Hu)) as (_ & X). pose proof (UNIQ i u Hi Hu). split; [auto|congruence].
        + destruct (H1 (eq_sym Hv)) as (_ & X). pose proof (OTHER i u Hi ltac:(congruence)). split; [congruence|auto].
      - rewrite N2 in Hz. injection Hz as <-. split; auto. destruct Hend as [Hu|Hv].
        + destruct (H0 (eq_sym Hu)) as (X & _). pose proof (OTHER j v Hj ltac:(congruence)). split; [congruence|auto].
        + destruct (H1 (eq_sym Hv)) as (X & _). pose proof (UNIQ j v Hj Hv). split; [auto|congruence].
      - rewrite (N3 e z Ni Nj Hz). split; auto. split; [|auto].
        intros ->. exfalso. destruct Hend as [Hu|Hv]; [apply Ni; symmetry; apply (UNIQ i u Hi Hu)|apply Nj; symmetry; apply (UNIQ j v Hj Hv)]. }
    assert (Ha : nth_error poly (length l) = Some a0).
    { unfold a0, poly. clear. revert v0. induction l as [|x r IH]; intros y; auto. cbn [length nth_error]. rewrite (last_cons r x y). apply IH. }
    assert (EQ : wachspress_weights poly p row tol =
      if withinB p tol a0 v0 then interp_edge_case a0 (to_vector a0 v0) p row (zlen poly - 1)%Z 0%Z
      else let* r := wachspress_loop poly p tol (zlen poly) (length cs) 0%Z row (nofZ 0) a0 v0 (to_vector a0 v0) (areaB a0 v0 p) in
        match r with
        | inl ws => Ok ws
        | inr (weights, w_sum) =>
            for_range 0 (zlen poly) (fun i weights => let* w := aget weights i in let* w := ndiv w w_sum in aset weights i w) weights
        end).
    { unfold wachspress_weights. replace (aget poly (-1)%Z) with (Ok (A:=point b64) a0) by (symmetry; apply last_vertexB).
      cbn [bind]. change (aget poly 0%Z) with (Ok (A:=point b64) v0). cbn [bind]. rewrite Hlc. reflexivity. }
    destruct (withinB p tol a0 v0) eqn:Wa.
    { destruct (SIDE a0 v0 (length l) O row ltac:(now left) Wa Ha eq_refl eq_refl) as (out & E & H).
      replace (zlen poly - 1)%Z with (Z.of_nat (length l)) in EQ by (unfold zlen, poly; cbn [length]; lia).
      change (Z.of_nat 0) with 0%Z in E. rewrite E in EQ. exists out. auto. }
    (* the side that starts at the corner is within the tolerance *)
    assert (HE : exists u v, In (u, v) (bchain v0 cs) /\ withinB p tol u v = true).
    { destruct (bchain_first v0 l v0 q (nth_error_In _ _ Hc)) as (v & Hv). exists q, v. split; auto.
      destruct (loop_pair k p tol W D v0 l BP HC q v (or_intror Hv)) as (Iu & Iv & He). fold poly in Iu, Iv, He.
      destruct (side_facts k Hk p tol Bp Bt Pt W D v0 l BP HC q v Iu Iv He) as (Hq & HF & _).
      destruct (withinB p tol q v); auto. exfalso. destruct (HF eq_refl) as (_ & X). apply X. unfold line_near.
      replace (orient (rp q) (rp v) (rp p)) with 0 by (rewrite Eq; unfold orient; ring). rewrite Rmult_0_l.
      destruct HC as (HW & HD & _ & _ & HE). specialize (HE _ _ He). pose proof (D_pos W D HW HD) as PD.
      assert (0 < D * D) by now apply Rmult_lt_0_compat.
      set (x := B2R tol) in *. set (d := dist2 (rp v) (rp q)) in *. replace (0.98 * x * (0.98 * x) * d) with (0.9604 * (x * x * d)) by lra. lra. }
    destruct (loopB_edge p tol poly (zlen poly) cs 0%Z a0 v0 row (nofZ 0)) as (ws' & j & u & v & E & L & Hj & Hnj & Hw); auto.
    - lia.
    - unfold zlen. lia.
    - intros j z Hj. now apply next_vertexB.
    - apply (all_quots k Hk p tol Bp Bt Pt W D v0 l BP HC).
    - rewrite Z.sub_0_r in Hnj. pose proof (nth_error_In _ _ Hnj) as Hin. apply bchain_nth in Hnj. destruct Hnj as (Hu & Hv).
      assert (Hu' : nth_error poly (Z.to_nat j) = Some u).
      { change (v0 :: cs) with (poly ++ [v0]) in Hu. rewrite nth_error_app1 in Hu; auto. unfold zlen in Hj. rewrite Hlc in Hj. lia. }
      assert (Hv' : aget poly ((j + 1) mod zlen poly)%Z = Ok v).
      { apply next_vertexB in Hv. rewrite Z2Nat.id in Hv by lia. exact Hv. }
      assert (Hb : (0 <= (j + 1) mod zlen poly < zlen poly)%Z) by (apply Z.mod_pos_bound; unfold zlen, poly; cbn [length]; lia).
      destruct (aget_ok_pos poly ((j + 1) mod zlen poly)%Z Hb) as (v' & Ev & Hv2).
      rewrite Hv' in Ev. inversion Ev; subst v'.
      destruct (SIDE u v (Z.to_nat j) (Z.to_nat ((j + 1) mod zlen poly)) ws' ltac:(now right) Hw Hu' Hv2 L) as (out & EO & H).
      rewrite !Z2Nat.id in EO by lia. exists out. rewrite E, EO in EQ. cbn [bind] in EQ. auto.
  Qed.
End Poly.

(** one face: a side whose line is within the tolerance of the corner must end there *)
Theorem C82_corner_weights k poly p (tol : b64) W D n c q : (-150 <= k <= 250)%Z ->
  Forall (bpt k) poly -> bpt k p -> bounded k tol -> 0 <= B2R tol ->
  NoDup (map rp poly) -> (2 <= length poly <= n)%nat -> clear_weights W D (B2R tol) (map rp poly) (rp p) ->
  nth_error poly c = Some q -> rp q = rp p ->
  (forall u v, In (u, v) (poly_edges (map rp poly)) -> line_near (1.01 * B2R tol) u v (rp p) -> u = rp p \/ v = rp p) ->
  exists row, wachspress_weights poly p (repeat (Zb 0) n) tol = Ok row /\ unit_row n c row.
Proof.
  intros Hk BP Bp Bt Pt HN (H2 & Hn) HC Hc Eq Hs. destruct poly as [|v0 l]; [cbn in H2; lia|].
  destruct (corner_weights k Hk p tol Bp Bt Pt W D v0 l BP HC (repeat (Zb 0) n) c q HN H2 ltac:(now rewrite repeat_length) Hc Eq Hs) as (out & E & H).
  rewrite repeat_length in H. eauto.
Qed.

(** a mesh: the row of a point that is a corner of the face it is assigned to *)
Theorem C82_mesh_corner_weights k g (vs : list (point b64)) faces fill nb cpl t (W D : Z -> R) :
  (-150 <= k <= 250)%Z -> mesh_ok vs faces fill -> bounded_vertices k vs ->
  convex_mesh (map rp vs) faces fill -> sides_ok (map rp vs) faces fill ->
  CellTree2d_init g vs faces fill nb cpl = Ok t ->
  forall g' n points tolerance tol, (4 <= n)%nat -> (Z.of_nat n <= 2 ^ 40)%Z -> Forall (fun f => (length f <= n)%nat) faces ->
  Forall (bpt k) points -> get_tolerance t tolerance = Ok tol -> bounded k tol -> 0 <= B2R tol ->
  (forall j poly, face_poly (map rp vs) faces fill j poly -> clear_polygon (W j) (D j) (B2R tol) (2 * B2R tol + bpow radix2 (k - 48)) poly) ->
  exists js rows, CellTree2d_compute_barycentric_weights g' t n points tolerance = Ok (js, rows)
    /\ CellTree2d_locate_points g' t points tolerance = Ok js /\ length rows = length points
    /\ forall i p j row, nth_error points i = Some p -> nth_error js i = Some j -> nth_error rows i = Some row -> j <> (-1)%Z ->
         exists f poly, nth_error (elements (celltree_data t)) (Z.to_nat j) = Some f /\ poly_of vs f poly
           /\ forall c q, nth_error poly c = Some q -> rp q = rp p ->
              (forall u v, In (u, v) (poly_edges (map rp poly)) -> line_near (1.01 * B2R tol) u v (rp p) -> u = rp p \/ v = rp p) ->
              unit_row n c row.
Proof.
  intros Hk Hm HB Hc Hs E g' n points tolerance tol Hn Hn40 Hw HP Et Bt Pt0 HCl.
  destruct (C60_float_wachspress_weights k g vs faces fill nb cpl t W D Hk Hm HB Hc Hs E g' n points tolerance tol Hn Hn40 Hw HP Et Bt Pt0 HCl)
    as (js & rows & EC & EJ & HL & H60). exists js, rows. split; auto. split; auto. split; auto.
  intros i p j row Ep Ej Er Hj.
  pose proof (init_built _ _ _ _ _ _ _ Hm E) as Hb.
  (* the face *)
  destruct (points_result _ _ _ _ t tolerance Hb) as (tol' & Et' & H). rewrite Et in Et'. apply Ok_inj in Et'. subst tol'.
  destruct (H points) as (js' & Hj' & HF). clear H. specialize (Hj' g'). rewrite EJ in Hj'. apply Ok_inj in Hj'. subst js'.
  assert (Bp : bpt k p) by (rewrite Forall_forall in HP; apply HP; eapply nth_error_In; eauto).
  pose proof (PApi.Forall2_nth _ _ _ _ _ _ HF Ep Ej) as HA. destruct HA as [(f & poly & H0 & En & Hp & Hpass)|(-> & _)]; [|congruence].
  destruct (stored_back_float _ _ _ _ _ _ _ Hm Hb H0 En) as (polyR & Hpoly).
  destruct (stored_float k _ _ _ _ _ _ _ Hb HB Hpoly) as (f2 & poly2 & bb & _ & En2 & _ & Hp2 & Bf & Hsame & _).
  rewrite En in En2. inversion En2; subst f2. rewrite (bt_vertices _ _ _ _ _ Hb) in Hp.
  assert (poly2 = poly).
  { clear - Hp2 Hp. unfold poly_of in *. revert poly2 Hp2. induction Hp as [|z q l l' (_ & E) _ IH]; intros poly2 H; inversion H; subst; auto.
    destruct H2 as (_ & E2). f_equal; [congruence|auto]. }
  subst poly2. exists f, poly. split; auto. split; auto. intros c q Hcq Eq Hends.
  assert (HCv : convex (map rp poly)) by (eapply convex_either; eauto).
  assert (HSd : forall u v, In (u, v) (poly_edges (map rp poly)) -> side_ok u v) by (eapply sides_either; eauto).
  assert (H3 : (3 <= length poly)%nat /\ NoDup (map rp poly)).
  { destruct HCv as [(A & B & _)|(A & B & _)].
    - rewrite map_length in A. auto.
    - rewrite rev_length, map_length in A. split; auto. rewrite <- (rev_involutive (map rp poly)). now apply NoDup_rev. }
  destruct H3 as (H3 & HN).
  assert (Hlen : (length poly <= n)%nat).
  { pose proof (PropWach.Forall2_nth_r _ _ _ _ _ (bt_elements _ _ _ _ _ Hb) En) as (f0 & En0 & Hsf).
    assert (El : length (until_fill f) = length (until_fill f0)).
    { destruct Hsf as (_ & [->| ->]); auto. apply rev_length. }
    assert (Ell : length poly = length (until_fill f)) by (unfold poly_of in Hp; symmetry; eapply F2_length; eauto).
    rewrite Ell, El. apply nth_error_In in En0. apply in_map_iff in En0 as (f1 & <- & Hf1).
    rewrite Forall_forall in Hw. specialize (Hw f1 Hf1).
    eapply Nat.le_trans; [apply until_fill_length|]. unfold with_fill. rewrite map_length. exact Hw. }
  pose proof (bpow_gt_0 radix2 (k - 48)) as P48.
  assert (HCW : clear_weights (W j) (D j) (B2R tol) (map rp poly) (rp p)).
  { apply (clear_located _ _ _ (2 * B2R tol + bpow radix2 (k - 48))); [lra| |].
    - eapply clear_polygon_either; [exact Hsame|]. now apply HCl.
    - apply (pip_float_sound k Hk p tol Bp Bt Pt0 poly); auto. }
  assert (Hwf : wf_face (length vs) f).
  { pose proof (mt_faces _ (bt_mesh _ _ _ _ _ Hb)) as Hwf. rewrite (bt_vertices _ _ _ _ _ Hb) in Hwf.
    rewrite Forall_forall in Hwf. apply Hwf. eapply nth_error_In; eauto. }
  destruct (C82_corner_weights k poly p tol (W j) (D j) n c q Hk Bf Bp Bt Pt0 HN ltac:(lia) HCW Hcq Eq Hends) as (out & EO & HU).
  (* the row that was computed *)
  enough (row = out) by (subst; exact HU).
  unfold CellTree2d_compute_barycentric_weights in EC. rewrite Et in EC. cbn [bind] in EC.
  unfold CellTree2d_locate_points in EC, EJ. rewrite Et in EJ. cbn [bind get_tolerance] in EC, EJ. rewrite EJ in EC. cbn [bind] in EC.
  replace (3 <? n)%nat with true in EC by (symmetry; apply Nat.ltb_lt; lia).
  apply bind_ok in EC as (rows' & EW & EC). apply Ok_inj in EC. injection EC as ->.
  unfold barycentric_wachspress_weights in EW. apply PCollect.mapres_inv in EW.
  assert (Hi : (i < length points)%nat) by (apply nth_error_Some; congruence).
  pose proof (PApi.Forall2_nth _ _ _ _ _ _ EW (iota_nth _ _ Hi) Er) as EI. cbv beta in EI.
  rewrite (aget_nat _ _ _ Ej) in EI. cbn [bind] in EI. rewrite (aget_nat _ _ _ Ep) in EI. cbn [bind] in EI.
  unfold barycentric_wachspress_one in EI. replace (j =? -1)%Z with false in EI by (symmetry; apply Z.eqb_neq; lia).
  replace (aget (elements (celltree_data t)) j) with (Ok (A:=list Z) f) in EI by (symmetry; rewrite <- (Z2Nat.id j) by lia; now apply aget_nat).
  cbn [bind] in EI. rewrite (bt_vertices _ _ _ _ _ Hb) in EI. rewrite (copy_vertices_ok _ _ _ _ Hwf Hp) in EI. cbn [bind] in EI.
  change (nofZ 0) with (Zb 0) in EI. congruence.
Qed.

(** ** A concrete case: the corners of the square of the kite *)
Example C82_example : exists t a b c d, CellTree2d_init (T:=b64) g0 (map ptZ kite_pts) kite_faces (-1) 4 2 = Ok t
  /\ CellTree2d_compute_barycentric_weights g0 t 4 [ptZ (0, 64)%Z] (Some (Zb 1)) = Ok ([0%Z], [[a; b; c; d]])
  /\ B2R a = 0 /\ B2R b = 0 /\ B2R c = 0 /\ B2R d = 1.
Proof.
  assert (Er : map rp (map (ptZ (T:=b64)) kite_pts) = map (ptZ (T:=R)) kite_pts) by (apply rp_ptZ; vm_compute; reflexivity).
  assert (H : match CellTree2d_init (T:=b64) g0 (map ptZ kite_pts) kite_faces (-1) 4 2 with
    | Ok t => match CellTree2d_locate_points g0 t [ptZ (0, 64)]%Z (Some (Zb 1)) with
              | Ok js => (elements (celltree_data t), js) | _ => ([], []) end
    | _ => ([], []) end = (kite_faces, [0]%Z)) by (vm_compute; reflexivity).
  destruct (CellTree2d_init g0 (map ptZ kite_pts) kite_faces (-1) 4 2) as [t|] eqn:Et; [|discriminate H].
  destruct (CellTree2d_locate_points g0 t [ptZ (0, 64)]%Z (Some (Zb 1))) as [js|] eqn:Ej; [|discriminate H].
  injection H as He ->.
  assert (BP : forall z, (Z.abs z <= 128)%Z -> bounded 7 (Zb z)) by (intros z Hz; apply bounded_Zb; lia).
  assert (E1 : B2R (Zb 1) = 1) by (rewrite (proj2 (Zb_exact 1 ltac:(lia))); reflexivity).
  destruct (C82_mesh_corner_weights 7 g0 (map ptZ kite_pts) kite_faces (-1) 4 2 t (fun _ => 68) (fun _ => 50) ltac:(lia) kite_mesh
              ltac:(apply zbounded; [lia|vm_compute; reflexivity]) ltac:(rewrite Er; exact kite_convex)
              ltac:(rewrite Er; apply sides_ok_Z; exact kite_convex) Et
              g0 4%nat [ptZ (0, 64)]%Z (Some (Zb 1)) (Zb 1)) as (js & rows & Ew & Ejs & Hl & HR).
  { lia. }
  { lia. }
  { repeat constructor. }
  { apply Forall_cons; [split; apply BP; vm_compute; discriminate|]. apply Forall_nil. }
  { reflexivity. }
  { apply BP; lia. }
  { rewrite E1. lra. }
  { rewrite Er, E1. intros j poly Hj. exact (kite_clear j poly Hj). }
  rewrite Ej in Ejs. apply Ok_inj in Ejs. subst js.
  destruct rows as [|row [|]]; try discriminate Hl.
  destruct (HR 0%nat _ _ _ eq_refl eq_refl eq_refl ltac:(discriminate)) as (f & poly & Ef & Pf & HQ).
  rewrite He in Ef. cbn in Ef. injection Ef as <-. unfold poly_of in Pf. cbn in Pf. invert_poly. rewrite E1 in HQ.
  assert (RP : forall x y, (Z.abs x <= 128)%Z -> (Z.abs y <= 128)%Z -> rp (ptZ (T:=b64) (x, y)) = ptZ (x, y)).
  { intros x' y' Hx' Hy'. unfold rp, ptZ. cbn [px py fst snd]. change (@nofZ b64 _) with Zb.
    rewrite !(fun n H => proj2 (Zb_exact n H)) by lia. reflexivity. }
  destruct (HQ 3%nat _ eq_refl eq_refl) as (L & HU).
  { intros u v Hin Hn. cbn [map] in Hin. rewrite !RP in * by lia. unfold line_near in Hn. cbn [poly_edges chain last In] in Hin.
    destruct Hin as [Hin|[Hin|[Hin|[Hin|[]]]]]; pose proof (f_equal fst Hin) as Q1; pose proof (f_equal snd Hin) as Q2; cbn [fst snd] in Q1, Q2; subst u v;
      [left; reflexivity|exfalso|exfalso|right; reflexivity]; unfold orient, dist2 in Hn; cbn [px py ptZ fst snd nofZ NumR] in Hn; lra. }
  destruct row as [|a [|b [|c [|d [|]]]]]; try discriminate L.
  destruct (HU 0%nat a eq_refl) as (_ & _ & Ha). destruct (HU 1%nat b eq_refl) as (_ & _ & Hb0). destruct (HU 2%nat c eq_refl) as (_ & _ & Hc0). destruct (HU 3%nat d eq_refl) as (_ & Hd & _).
  exists t, a, b, c, d. repeat split; auto.
Qed.

Print Assumptions C82_corner_weights.
Print Assumptions C82_mesh_corner_weights.
