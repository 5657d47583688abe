(** counter_clockwise in binary64: it does what it would do without rounding as
    long as the sign of every turn it looks at is computed correctly. *)
From Coq Require Import Reals Lra Psatz.
From Flocq Require Import IEEE754.BinarySingleNaN Core.
From Verif Require Import RBase NumB64 NumRoom FBase FBuild MGeometry MAlgorithms MCelltree FPoint FLocate FCut FClip FArea
  SpecTree SpecQuery SpecApi SpecMesh SpecPoly PMesh PInit PBuild PApi GTriangle GConvex GHull GCcw GFaces FMesh.
Open Scope R_scope.

(** the computed sign of the turn a, b, c *)
Definition turn_ok (a b c : point b64) : Prop :=
  neqb (cross_product (to_vector a b) (to_vector a c)) (nofZ 0) = Req_bool (orient (rp a) (rp b) (rp c)) 0
  /\ nltb (cross_product (to_vector a b) (to_vector a c)) (nofZ 0) = Rlt_bool (orient (rp a) (rp b) (rp c)) 0.
Definition turns_ok (l : list (point b64)) : Prop := forall a b c, In a l -> In b l -> In c l -> turn_ok a b c.

Lemma aget_map_rp (vs : list (point b64)) i x : aget vs i = Ok x -> aget (map rp vs) i = Ok (rp x).
Proof.
  unfold aget. rewrite map_length. destruct (norm_idx (length vs) i) as [n|]; [|discriminate].
  intros H. destruct (nth_error vs n) as [y|] eqn:E; [|discriminate]. injection H as ->. now rewrite (map_nth_error rp _ _ E).
Qed.

Lemma ccw_loop_float (vs : list (point b64)) S : turns_ok S ->
  forall fuel i (u t : list Z) (a b : point b64), In a S -> In b S ->
  Forall (fun i => (0 <= i)%Z /\ exists q, nth_error vs (Z.to_nat i) = Some q /\ In q S) u ->
  (0 <= i)%Z -> (i + Z.of_nat fuel <= zlen u)%Z ->
  ccw_loop vs (length u) fuel i (u ++ t) a b = ccw_loop (map rp vs) (length u) fuel i (u ++ t) (rp a) (rp b).
Proof.
  intros HS. induction fuel as [|fuel IH]; intros i u t a b Ia Ib Hu H0 Hi; [reflexivity|].
  cbn [ccw_loop].
  assert (Eg : exists x c, aget (u ++ t) i = Ok x /\ aget vs x = Ok c /\ In c S).
  { destruct (aget_ok_pos u i) as (x & E & En); [lia|]. rewrite Forall_forall in Hu.
    destruct (Hu x (nth_error_In _ _ En)) as (Hx & c & Ec & Hc).
    exists x, c. split; [|split; auto; now apply aget_pos]. apply aget_pos; auto.
    rewrite nth_error_app1; auto. apply nth_error_Some. congruence. }
  destruct Eg as (x & c & Ex & Ec & Ic). rewrite Ex. cbn [bind]. rewrite Ec, (aget_map_rp _ _ _ Ec). cbn [bind]. cbv zeta.
  destruct (HS a b c Ia Ib Ic) as (T1 & T2). rewrite T1, T2, product_orient.
  change (neqb (orient (rp a) (rp b) (rp c)) (nofZ 0)) with (Req_bool (orient (rp a) (rp b) (rp c)) 0).
  change (nltb (orient (rp a) (rp b) (rp c)) (nofZ 0)) with (Rlt_bool (orient (rp a) (rp b) (rp c)) 0).
  destruct (Req_bool _ _); [apply IH; auto; lia|]. destruct (Rlt_bool _ _); auto.
  fold (zlen u). rewrite flip_ok. cbn [bind].
  replace (length u) with (length (rev u)) by apply rev_length. apply IH; auto.
  - now apply Forall_rev.
  - lia.
  - unfold zlen in *. rewrite rev_length. lia.
Qed.

Lemma ccw_face_float (vs : list (point b64)) f poly : wf_face (length vs) f -> poly_of vs f poly -> turns_ok poly ->
  ccw_face vs f = ccw_face (map rp vs) f.
Proof.
  intros (H3 & H32 & Hr & Hfill) Hp HT. unfold ccw_face. rewrite polygon_length_ok by auto.
  assert (HU : Forall (fun i => (0 <= i)%Z /\ exists q, nth_error vs (Z.to_nat i) = Some q /\ In q poly) (until_fill f)).
  { unfold poly_of in Hp. clear - Hp. induction Hp as [|i q l l' (H0 & E) _ IH]; constructor.
    - split; auto. exists q. split; auto. now left.
    - eapply Forall_impl; [|exact IH]. intros j (H1 & q' & E' & I'). split; auto. exists q'. split; auto. now right. }
  assert (Eg : forall i, (0 <= i < zlen (until_fill f))%Z ->
    exists x c, aget f i = Ok x /\ aget vs x = Ok c /\ In c poly).
  { intros i Hi. destruct (aget_ok_pos (until_fill f) i) as (x & E & En); [lia|].
    rewrite Forall_forall in HU. destruct (HU x (nth_error_In _ _ En)) as (Hx & c & Ec & Ic).
    exists x, c. split; [|split; auto; now apply aget_pos]. apply aget_pos; [lia|].
    rewrite (until_fill_prefix f), nth_error_app1; auto. apply nth_error_Some. congruence. }
  destruct (Eg (Z.of_nat (length (until_fill f)) - 2)%Z) as (xa & a & Exa & Ea & Ia); [unfold zlen; lia|].
  destruct (Eg (Z.of_nat (length (until_fill f)) - 1)%Z) as (xb & b & Exb & Eb & Ib); [unfold zlen; lia|].
  rewrite Exa. cbn [bind]. rewrite Exb. cbn [bind]. rewrite Ea, (aget_map_rp _ _ _ Ea). cbn [bind]. rewrite Eb, (aget_map_rp _ _ _ Eb). cbn [bind].
  pose proof (ccw_loop_float vs poly HT (length (until_fill f)) 0 (until_fill f) (skipn (length (until_fill f)) f) a b Ia Ib HU ltac:(lia) ltac:(unfold zlen; lia)) as G.
  now rewrite <- until_fill_prefix in G.
Qed.

(** the stored face is the caller's face, counter-clockwise *)
Lemma init_ccw_float g (vs : list (point b64)) faces fill nb cpl (t : tree2d (T:=b64)) :
  mesh_ok vs faces fill -> CellTree2d_init g vs faces fill nb cpl = Ok t ->
  counter_clockwise vs (map (with_fill fill) faces) = Ok (elements (celltree_data t)).
Proof.
  intros Hm H. unfold CellTree2d_init in H. apply bind_ok in H as (u & _ & H).
  rewrite (cast_faces_wf vs) in H by apply (mo_faces _ _ _ Hm). cbn [bind] in H.
  apply bind_ok in H as (f2 & E2 & H). apply bind_ok in H as (f3 & E3 & H).
  apply bind_ok in H as ((n & i) & E4 & H). apply bind_ok in H as (b & E5 & H).
  inversion H. subst t. cbn. auto.
Qed.

Lemma ccw_face_float_convex (vs : list (point b64)) f poly : wf_face (length vs) f -> poly_of vs f poly -> turns_ok poly ->
  convex (map rp poly) ->
  exists f' poly', ccw_face vs f = Ok f' /\ wf_face (length vs) f' /\ same_face f f' /\ poly_of vs f' poly'
    /\ convex_ccw (map rp poly') /\ (poly' = poly \/ poly' = rev poly).
Proof.
  intros Hw Hp HT Hc.
  destruct (ccw_face_convex (map rp vs) f (map rp poly)) as (f' & polyR & E & Hw' & Hs & Hp' & Hc' & Ho); auto.
  { now rewrite map_length. }
  { now apply poly_of_map. }
  destruct (ccw_face_ok vs f Hw) as (f1 & E1 & Hw1 & Hs1). rewrite (ccw_face_float vs f poly Hw Hp HT) in E1 |- *.
  rewrite E in E1. apply Ok_inj in E1. subst f1.
  destruct (wf_poly vs f' Hw1) as (poly' & HP'). exists f', poly'. split; auto. split; auto. split; auto. split; auto.
  assert (EP : map rp poly' = polyR). { apply (poly_of_unique (map rp vs) f'); auto. now apply poly_of_map. }
  split; [now rewrite EP|].
  destruct Hs1 as (_ & Hu). unfold poly_of in *. destruct Hu as [Hu|Hu].
  - left. rewrite Hu in HP'. clear - Hp HP'. revert poly' HP'. induction Hp as [|i q l l' (_ & E) _ IH]; intros p' H; inversion H; subst; auto.
    destruct H2 as (_ & E2). f_equal; [congruence|auto].
  - right. rewrite Hu in HP'. apply Forall2_rev in Hp. clear - Hp HP'. revert poly' HP'. induction Hp as [|i q l l' (_ & E) _ IH]; intros p' H; inversion H; subst; auto.
    destruct H2 as (_ & E2). f_equal; [congruence|auto].
Qed.

Lemma stored_ccw g (vs : list (point b64)) faces fill nb cpl t j polyR :
  mesh_ok vs faces fill -> CellTree2d_init g vs faces fill nb cpl = Ok t ->
  face_poly (map rp vs) faces fill j polyR -> convex polyR ->
  (forall poly, map rp poly = polyR -> Forall (fun p => In p vs) poly -> turns_ok poly) ->
  exists f' poly' b, (0 <= j)%Z /\ nth_error (elements (celltree_data t)) (Z.to_nat j) = Some f'
    /\ nth_error (bb_coords (celltree_data t)) (Z.to_nat j) = Some b
    /\ wf_face (length vs) f' /\ poly_of vs f' poly' /\ convex_ccw (map rp poly')
    /\ (map rp poly' = polyR \/ map rp poly' = rev polyR) /\ tight_box poly' b.
Proof.
  intros Hm E (f & H0 & En & Hp) Hc HT. pose proof (init_built _ _ _ _ _ _ _ Hm E) as Hb.
  pose proof (init_ccw_float _ _ _ _ _ _ _ Hm E) as Hcc. unfold counter_clockwise in Hcc. apply mapres_ok_inv in Hcc.
  destruct (Forall2_nth_l _ _ _ _ _ Hcc En) as (f' & En' & Ef).
  pose proof (mo_faces _ _ _ Hm) as Hw. rewrite Forall_forall in Hw. specialize (Hw f (nth_error_In _ _ En)).
  destruct (wf_poly vs f Hw) as (poly & Hpoly).
  assert (EP : map rp poly = polyR) by (apply (poly_of_unique (map rp vs) f); auto; now apply poly_of_map).
  assert (HI : Forall (fun p => In p vs) poly).
  { clear - Hpoly. unfold poly_of in Hpoly. induction Hpoly as [|i q l l' (_ & Eq) _ IH]; constructor; auto. eapply nth_error_In; eauto. }
  destruct (ccw_face_float_convex vs f poly Hw Hpoly) as (f1 & poly' & E1 & Hw' & _ & Hp' & Hc' & Ho); auto.
  { now rewrite EP. }
  rewrite Ef in E1. apply Ok_inj in E1. subst f1.
  destruct (Forall2_nth_l _ _ _ _ _ (mt_boxes _ (bt_mesh _ _ _ _ _ Hb)) En') as (b & Eb & poly2 & Hp2 & HTb).
  rewrite (bt_vertices _ _ _ _ _ Hb) in Hp2.
  assert (poly2 = poly').
  { clear - Hp2 Hp'. unfold poly_of in *. revert poly2 Hp2. induction Hp' as [|z q l l' (_ & E) _ IH]; intros p2 H; inversion H; subst; auto.
    destruct H2 as (_ & E2). f_equal; [congruence|auto]. }
  subst poly2. exists f', poly', b. repeat (split; auto). destruct Ho as [->| ->]; [left; auto|right]. now rewrite map_rev, EP.
Qed.

(** ** When the sign of a turn is computed correctly *)
Section Turn.
  Local Notation bounded := NumRoom.bounded.
  Variable k : Z.
  Hypothesis Hk : (-251 <= k <= 400)%Z.
  Notation bpt := (bpt k).

  Lemma sign_turn (a b c : point b64) (z := cross_product (to_vector a b) (to_vector a c)) (o := orient (rp a) (rp b) (rp c)) :
    is_finite z = true -> (0 < o -> 0 < B2R z) -> (o < 0 -> B2R z < 0) -> (o = 0 -> B2R z = 0) -> turn_ok a b c.
  Proof.
    intros F H1 H2 H3. unfold turn_ok. fold z o.
    destruct (Zb_exact 0 ltac:(cbv; discriminate)) as (F0 & E0).
    rewrite neqb_B, nltb_B by (first [exact F|exact F0]). change (nofZ 0 : b64) with (Zb 0). rewrite E0.
    destruct (Rtotal_order o 0) as [Ho|[Ho|Ho]].
    - pose proof (H2 Ho). rewrite !Req_bool_false, !Rlt_bool_true by lra. auto.
    - pose proof (H3 Ho). rewrite !Req_bool_true, !Rlt_bool_false by lra. auto.
    - pose proof (H1 Ho). rewrite !Req_bool_false, !Rlt_bool_false by lra. auto.
  Qed.

  Lemma orient_uv (a b c : point b64) : orient (rp a) (rp b) (rp c)
    = (B2R (px b) - B2R (px a)) * (B2R (py c) - B2R (py a)) - (B2R (py b) - B2R (py a)) * (B2R (px c) - B2R (px a)).
  Proof. unfold orient, rp. cbn [px py]. ring. Qed.

  (** a clear turn: twice the area of the triangle is above the rounding error *)
  Lemma turn_clear (a b c : point b64) W : bpow radix2 (-400) <= W <= bpow radix2 (k + 1) -> bpt a -> bpt b -> bpt c ->
    Rabs (B2R (px b) - B2R (px a)) <= W -> Rabs (B2R (py b) - B2R (py a)) <= W ->
    Rabs (B2R (px c) - B2R (px a)) <= W -> Rabs (B2R (py c) - B2R (py a)) <= W ->
    9 * (uro * (W * W)) < Rabs (orient (rp a) (rp b) (rp c)) -> turn_ok a b c.
  Proof.
    intros HW Ba Bb Bc H1 H2 H3 H4 HO.
    assert (Up : forall p, bpt p -> FPoint.bpt (k + 1) p) by (intros p Hp; now apply bpt_up).
    pose proof (vec_diff k W Hk b a (Up _ Bb) (Up _ Ba) H1 H2) as VU. pose proof (vec_diff k W Hk c a (Up _ Bc) (Up _ Ba) H3 H4) as VV.
    destruct (cross_ok k W Hk HW _ _ _ _ VU VV) as (F & N & _). cbn [px py] in N. rewrite <- orient_uv in N.
    apply Rabs_le_iff in N. apply sign_turn.
    - exact F.
    - intros Ho. rewrite Rabs_pos_eq in HO by lra. unfold to_vector. lra.
    - intros Ho. rewrite Rabs_left in HO by lra. unfold to_vector. lra.
    - intros Ho. rewrite Ho, Rabs_R0 in HO. exfalso. pose proof uro_pos. pose proof (bpow_gt_0 radix2 (-400)).
      assert (0 <= uro * (W * W)) by (apply Rmult_le_pos; [lra|apply Rmult_le_pos; lra]). lra.
  Qed.

  (** the last two points the same *)
  Lemma turn_same (a b c : point b64) : bpt a -> bpt b -> bpt c -> rp b = rp c -> turn_ok a b c.
  Proof.
    intros (A1 & A2) (B1 & B2) (C1 & C2) E. unfold rp in E. injection E as E1 E2.
    destruct (diff_val k Hk _ _ B1 A1) as (D1 & V1 & _). destruct (diff_val k Hk _ _ B2 A2) as (D2 & V2 & _).
    destruct (diff_val k Hk _ _ C1 A1) as (D3 & V3 & _). destruct (diff_val k Hk _ _ C2 A2) as (D4 & V4 & _).
    rewrite <- E1 in V3. rewrite <- E2 in V4.
    destruct (mul_val2 k Hk _ _ D1 D4) as (M1 & N1). destruct (mul_val2 k Hk _ _ D2 D3) as (M2 & N2).
    rewrite V1, V4 in M1. rewrite V2, V3, Rmult_comm in M2.
    destruct (minus_val 0 (nmul (nsub (px b) (px a)) (nsub (py c) (py a))) (nmul (nsub (py b) (py a)) (nsub (px c) (px a)))) as (Es & Bs);
      [lia|apply N1|apply N2| |].
    { rewrite M1, M2. rewrite Rminus_diag_eq, Rabs_R0 by reflexivity. apply bpow_ge_0. }
    assert (Ez : B2R (cross_product (to_vector a b) (to_vector a c)) = 0).
    { unfold cross_product, to_vector. cbn [px py]. rewrite Es, M1, M2, Rminus_diag_eq by reflexivity. apply rnd_0. }
    apply sign_turn.
    - apply Bs.
    - intros Ho. exfalso. unfold orient, rp in Ho. cbn [px py] in Ho. rewrite <- E1, <- E2 in Ho. lra.
    - intros Ho. exfalso. unfold orient, rp in Ho. cbn [px py] in Ho. rewrite <- E1, <- E2 in Ho. lra.
    - auto.
  Qed.

  (** the sign of a product of two differences that are zero or not tiny *)
  Lemma mul_diff_sign (s r p c : b64) : bounded k s -> bounded k r -> bounded k p -> bounded k c ->
    (B2R s = B2R r \/ bpow radix2 (-250) <= Rabs (B2R s - B2R r)) -> (B2R p = B2R c \/ bpow radix2 (-250) <= Rabs (B2R p - B2R c)) ->
    let z := nmul (nsub s r) (nsub p c) in let x := (B2R s - B2R r) * (B2R p - B2R c) in
    bounded (k + k + 4) z /\ (0 < x -> 0 < B2R z) /\ (x < 0 -> B2R z < 0) /\ (x = 0 -> B2R z = 0).
  Proof.
    intros Bs Br Bp Bc H1 H2. cbn zeta.
    destruct (diff_val k Hk _ _ Bs Br) as (D1 & V1 & _). destruct (diff_val k Hk _ _ Bp Bc) as (D2 & V2 & _).
    destruct (mul_val2 k Hk _ _ D1 D2) as (M1 & N1). split; auto. rewrite M1, V1, V2. clear M1 N1.
    destruct (rnd_minus s r) as (e1 & He1 & ->). destruct (rnd_minus p c) as (e2 & He2 & ->).
    set (X := B2R s - B2R r) in *. set (Y := B2R p - B2R c) in *. pose proof uro_small. apply Rabs_le_iff in He1, He2.
    set (w := (1 + e1) * (1 + e2)). assert (Hw : / 4 <= w).
    { unfold w. pose proof (Rmult_le_compat (/ 2) (1 + e1) (/ 2) (1 + e2) ltac:(lra) ltac:(lra) ltac:(lra) ltac:(lra)). lra. }
    replace (X * (1 + e1) * (Y * (1 + e2))) with (X * Y * w) by (unfold w; ring).
    assert (Z0 : X * Y = 0 -> rnd (X * Y * w) = 0) by (intros ->; rewrite Rmult_0_l; apply rnd_0).
    assert (NZ : X * Y <> 0 -> bpow radix2 (-1074) <= Rabs (rnd (X * Y * w))).
    { intros HN. apply rnd_abs_tiny.
      assert (HX : bpow radix2 (-250) <= Rabs X) by (destruct H1 as [E|E]; auto; exfalso; apply HN; unfold X; rewrite E; ring).
      assert (HY : bpow radix2 (-250) <= Rabs Y) by (destruct H2 as [E|E]; auto; exfalso; apply HN; unfold Y; rewrite E; ring).
      apply Rle_trans with ((bpow radix2 (-250) * bpow radix2 (-250)) * / 4).
      - change (/ 4) with (bpow radix2 (-2)). rewrite <- !bpow_plus. apply bpow_le. lia.
      - rewrite !Rabs_mult, (Rabs_pos_eq w) by lra. pose proof (bpow_gt_0 radix2 (-250)). pose proof (Rabs_pos X). pose proof (Rabs_pos Y).
        apply Rmult_le_compat; [apply Rmult_le_pos; lra|lra|apply Rmult_le_compat; lra|auto]. }
    pose proof (bpow_gt_0 radix2 (-1074)).
    assert (SZ : forall z, (0 <= z -> 0 <= rnd z) /\ (z <= 0 -> rnd z <= 0)) by (intros z; split; intros; rewrite <- rnd_0; now apply rnd_mono).
    split; [|split; auto]; intros Hx; specialize (NZ ltac:(lra)).
    - assert (0 <= X * Y * w) by (apply Rmult_le_pos; lra). apply SZ in H3. rewrite Rabs_pos_eq in NZ by auto. lra.
    - assert (0 <= - (X * Y) * w) by (apply Rmult_le_pos; lra). assert (G : X * Y * w <= 0) by lra. apply SZ in G.
      destruct (Req_dec (rnd (X * Y * w)) 0) as [E|E]; [rewrite E, Rabs_R0 in NZ; lra|lra].
  Qed.

  (** one of the two products vanishes *)
  Definition zero_or_long (x : R) : Prop := x = 0 \/ bpow radix2 (-250) <= Rabs x.
  Lemma turn_one (a b c : point b64) : bpt a -> bpt b -> bpt c ->
    zero_or_long (B2R (px b) - B2R (px a)) -> zero_or_long (B2R (py b) - B2R (py a)) ->
    zero_or_long (B2R (px c) - B2R (px a)) -> zero_or_long (B2R (py c) - B2R (py a)) ->
    (B2R (px b) - B2R (px a)) * (B2R (py c) - B2R (py a)) = 0 \/ (B2R (py b) - B2R (py a)) * (B2R (px c) - B2R (px a)) = 0 ->
    turn_ok a b c.
  Proof.
    intros (A1 & A2) (B1 & B2) (C1 & C2) Z1 Z2 Z3 Z4 HZ.
    assert (Cv : forall x y : b64, zero_or_long (B2R x - B2R y) -> B2R x = B2R y \/ bpow radix2 (-250) <= Rabs (B2R x - B2R y))
      by (intros x y [E|E]; [left; lra|auto]).
    apply Cv in Z1, Z2, Z3, Z4.
    destruct (mul_diff_sign (px b) (px a) (py c) (py a)) as (M1 & P1 & N1 & Q1); auto.
    destruct (mul_diff_sign (py b) (py a) (px c) (px a)) as (M2 & P2 & N2 & Q2); auto.
    set (z1 := nmul (nsub (px b) (px a)) (nsub (py c) (py a))) in *. set (z2 := nmul (nsub (py b) (py a)) (nsub (px c) (px a))) in *.
    pose proof (orient_uv a b c) as EO.
    set (x1 := (B2R (px b) - B2R (px a)) * (B2R (py c) - B2R (py a))) in *. set (x2 := (B2R (py b) - B2R (py a)) * (B2R (px c) - B2R (px a))) in *.
    assert (HV : is_finite (nsub z1 z2) = true /\ B2R (nsub z1 z2) = B2R z1 - B2R z2).
    { destruct HZ as [E|E]; [pose proof (Q1 E) as E'|pose proof (Q2 E) as E'].
      - destruct (minus_val (k + k + 4) z1 z2) as (Es & Bs); [lia|apply M1|apply M2| |].
        + rewrite E', Rminus_0_l, Rabs_Ropp. apply M2.
        + split; [apply Bs|]. rewrite Es, E', Rminus_0_l, rnd_opp, rnd_float. reflexivity.
      - destruct (minus_val (k + k + 4) z1 z2) as (Es & Bs); [lia|apply M1|apply M2| |].
        + rewrite E', Rminus_0_r. apply M1.
        + split; [apply Bs|]. rewrite Es, E', Rminus_0_r, rnd_float. reflexivity. }
    destruct HV as (F & EV).
    apply sign_turn; [exact F| | |]; rewrite EO; intros Ho; change (cross_product (to_vector a b) (to_vector a c)) with (nsub z1 z2); rewrite EV.
    - destruct HZ as [E|E]; [rewrite (Q1 E); specialize (N2 ltac:(lra)); lra|rewrite (Q2 E); specialize (P1 ltac:(lra)); lra].
    - destruct HZ as [E|E]; [rewrite (Q1 E); specialize (P2 ltac:(lra)); lra|rewrite (Q2 E); specialize (N1 ltac:(lra)); lra].
    - destruct HZ as [E|E]; [rewrite (Q1 E), (Q2 ltac:(lra)); lra|rewrite (Q2 E), (Q1 ltac:(lra)); lra].
  Qed.

  (** corners of a rectangle with sides along the axes *)
  Definition corner (x0 x1 y0 y1 : R) (p : pt) : Prop := (px p = x0 \/ px p = x1) /\ (py p = y0 \/ py p = y1).
  Lemma two_values v0 v1 x y : bpow radix2 (-250) <= Rabs (v1 - v0) -> x = v0 \/ x = v1 -> y = v0 \/ y = v1 -> zero_or_long (x - y).
  Proof.
    intros H [->| ->] [->| ->]; unfold zero_or_long; [left; ring|right; now rewrite Rabs_minus_sym|now right|left; ring].
  Qed.
  Lemma turn_corner x0 x1 y0 y1 (a b c : point b64) : bpow radix2 (-250) <= Rabs (x1 - x0) -> bpow radix2 (-250) <= Rabs (y1 - y0) ->
    bpt a -> bpt b -> bpt c -> corner x0 x1 y0 y1 (rp a) -> corner x0 x1 y0 y1 (rp b) -> corner x0 x1 y0 y1 (rp c) -> turn_ok a b c.
  Proof.
    intros HX HY Ba Bb Bc (A1 & A2) (B1 & B2) (C1 & C2). unfold rp in *. cbn [px py] in *.
    pose proof (two_values _ _ _ _ HX B1 A1) as Z1. pose proof (two_values _ _ _ _ HY B2 A2) as Z2.
    pose proof (two_values _ _ _ _ HX C1 A1) as Z3. pose proof (two_values _ _ _ _ HY C2 A2) as Z4.
    destruct (Req_dec ((B2R (px b) - B2R (px a)) * (B2R (py c) - B2R (py a))) 0) as [E1|E1]; [apply turn_one; auto|].
    destruct (Req_dec ((B2R (py b) - B2R (py a)) * (B2R (px c) - B2R (px a))) 0) as [E2|E2]; [apply turn_one; auto|].
    apply turn_same; auto. unfold rp.
    assert (Nz : forall x y, x * y <> 0 -> x <> 0 /\ y <> 0) by (intros x y H; split; intros ->; apply H; ring).
    apply Nz in E1 as (N1 & N2). apply Nz in E2 as (N3 & N4).
    assert (G : forall v0 v1 x y z, x = v0 \/ x = v1 -> y = v0 \/ y = v1 -> z = v0 \/ z = v1 -> y - x <> 0 -> z - x <> 0 -> y = z).
    { intros v0 v1 x y z [->| ->] [->| ->] [->| ->] M1 M2; auto; exfalso; (apply M1; ring) || (apply M2; ring). }
    f_equal; [exact (G x0 x1 (B2R (px a)) _ _ A1 B1 C1 N1 N4)|exact (G y0 y1 (B2R (py a)) _ _ A2 B2 C2 N3 N2)].
  Qed.
End Turn.

(** a rectangle given by four axis-parallel sides *)
Lemma rect_corners poly : convex poly -> length poly = 4%nat -> (forall u v, In (u, v) (poly_edges poly) -> axis_side u v) ->
  exists x0 x1 y0 y1, bpow radix2 (-250) <= Rabs (x1 - x0) /\ bpow radix2 (-250) <= Rabs (y1 - y0)
    /\ forall p, In p poly -> corner x0 x1 y0 y1 p.
Proof.
  assert (G : forall poly, convex_ccw poly -> length poly = 4%nat -> (forall u v, In (u, v) (poly_edges poly) -> axis_side u v) ->
    exists x0 x1 y0 y1, bpow radix2 (-250) <= Rabs (x1 - x0) /\ bpow radix2 (-250) <= Rabs (y1 - y0)
    /\ forall p, In p poly -> corner x0 x1 y0 y1 p).
  { clear poly. intros poly (_ & HN & HC) L HE. destruct poly as [|a [|b [|c [|d [|x l]]]]]; try discriminate. clear L.
    unfold poly_edges in *. cbn [last chain] in *.
    pose proof (HE d a ltac:(cbn; auto)) as S1. pose proof (HE a b ltac:(cbn; auto)) as S2.
    pose proof (HE b c ltac:(cbn; auto)) as S3. pose proof (HE c d ltac:(cbn; auto 6)) as S4.
    assert (ND : a <> b /\ a <> c /\ a <> d /\ b <> c /\ b <> d /\ c <> d).
    { inversion HN as [|? ? N1 HN1]. inversion HN1 as [|? ? N2 HN2]. inversion HN2 as [|? ? N3 _]. cbn in N1, N2, N3. intuition. }
    destruct ND as (Nab & Nac & Nad & Nbc & Nbd & Ncd).
    pose proof (HC d a b ltac:(cbn; auto) ltac:(cbn; auto) ltac:(auto) ltac:(auto)) as T1.
    pose proof (HC a b c ltac:(cbn; auto) ltac:(cbn; auto) ltac:(auto) ltac:(auto)) as T2.
    pose proof (HC b c d ltac:(cbn; auto) ltac:(cbn; auto) ltac:(auto) ltac:(auto)) as T3.
    pose proof (HC c d a ltac:(cbn; auto 6) ltac:(cbn; auto) ltac:(auto) ltac:(auto)) as T4.
    assert (F1 : forall u v w, py v = py u -> py w = py v -> 0 < orient u v w -> False).
    { intros u v w E1 E2 T. unfold orient in T. rewrite E2, E1 in T. replace (py u - py u) with 0 in T by ring. lra. }
    assert (F2 : forall u v w, px v = px u -> px w = px v -> 0 < orient u v w -> False).
    { intros u v w E1 E2 T. unfold orient in T. rewrite E2, E1 in T. replace (px u - px u) with 0 in T by ring. lra. }
    destruct S1 as [(E1 & L1 & _)|(E1 & L1 & _)]; destruct S2 as [(E2 & L2 & _)|(E2 & L2 & _)];
      try (exfalso; first [solve [apply (F1 d a b); auto]|solve [apply (F2 d a b); auto]]);
      destruct S3 as [(E3 & L3 & _)|(E3 & L3 & _)]; try (exfalso; first [solve [apply (F1 a b c); auto]|solve [apply (F2 a b c); auto]]);
      destruct S4 as [(E4 & L4 & _)|(E4 & L4 & _)]; try (exfalso; first [solve [apply (F1 b c d); auto]|solve [apply (F2 b c d); auto]]).
    - exists (px d), (px a), (py a), (py b). split; auto. split; auto.
      intros p [<-|[<-|[<-|[<-|[]]]]]; unfold corner; split; auto; try (left; congruence); try (right; congruence).
    - exists (px a), (px b), (py d), (py a). split; auto. split; auto.
      intros p [<-|[<-|[<-|[<-|[]]]]]; unfold corner; split; auto; try (left; congruence); try (right; congruence). }
  intros [Hc|Hc] L HE; [now apply G|].
  destruct (G (rev poly) Hc) as (x0 & x1 & y0 & y1 & H1 & H2 & H3).
  - now rewrite rev_length.
  - intros u v Huv. apply edges_rev_in in Huv. specialize (HE _ _ Huv).
    unfold axis_side in *. rewrite (Rabs_minus_sym (px v)), (Rabs_minus_sym (py v)).
    destruct HE as [(E1 & E2 & E3)|(E1 & E2 & E3)]; [left|right]; rewrite E1 in *; auto.
  - exists x0, x1, y0, y1. split; auto. split; auto. intros p Hp. apply H3. now apply in_rev in Hp.
Qed.
