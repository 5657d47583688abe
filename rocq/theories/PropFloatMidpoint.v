(** Property theorems: segments on one horizontal or vertical line, and the midpoint of an
    overlap, in binary64 (C84). *)
From Coq Require Import Sorted.
From Flocq Require Import Core BinarySingleNaN Mult_error.
From Verif Require Import RBase NumB64 NumSub NumRoom MGeometry MCreation MAlgorithms MQuery MCelltree SpecTree SpecQuery SpecApi SpecMesh SpecGeom
  PMesh PInit PApi PTreeBox FBase FBuild FPoint FMesh FArea FLocate FBoxClip FLines FEdgeTree FNetEdges Examples PropFloat PropFloatPoints PropFloatEdges PropCorners.
Open Scope R_scope.

(** ** Rounding keeps half of a sum between the summands *)
Lemma format_B (x : b64) : generic_format radix2 (FLT_exp (3 - emax - prec) prec) (B2R x).
Proof. apply generic_format_B2R. Qed.
Lemma rnd_B (x : b64) : rnd (B2R x) = B2R x.
Proof. apply round_generic; [exact _|]. apply generic_format_B2R. Qed.
Lemma rnd_double (x : b64) : rnd (2 * B2R x) = 2 * B2R x.
Proof.
  apply round_generic; [exact _|]. change (SpecFloat.fexp prec emax) with (FLT_exp (3 - emax - prec) prec).
  rewrite Rmult_comm. change 2 with (bpow radix2 1). apply mult_bpow_pos_exact_FLT; [apply format_B|lia].
Qed.

Lemma half_sum (s e : b64) : bounded 1000 s -> bounded 1000 e -> B2R s <= B2R e ->
  let r := nmul nhalf (nadd s e) in
  bounded 1000 r /\ B2R s <= B2R r <= B2R e
  /\ Rabs (B2R r - (B2R s + B2R e) / 2) <= 2 * uro * Rabs (B2R s + B2R e) + eta.
Proof.
  intros (Fs & Bs) (Fe & Be) H r. destruct half_B as (Fh & Eh).
  assert (B2 : bpow radix2 1001 = 2 * bpow radix2 1000) by (change 1001%Z with (1 + 1000)%Z; rewrite bpow_plus; reflexivity).
  destruct (plus_val 1001 s e ltac:(lia) Fs Fe) as (E & (F & B)).
  { rewrite B2. revert Bs Be. unfold Rabs; repeat destruct Rcase_abs; lra. }
  assert (L : 2 * B2R s <= rnd (B2R s + B2R e)) by (rewrite <- rnd_double; apply rnd_mono; lra).
  assert (U : rnd (B2R s + B2R e) <= 2 * B2R e) by (rewrite <- rnd_double; apply rnd_mono; lra).
  destruct (mult_val 1000 nhalf (nadd s e) ltac:(lia) Fh F) as (E2 & B3).
  { rewrite Eh, Rabs_mult, Rabs_pos_eq by lra. rewrite B2 in B. lra. }
  change (nmul nhalf (nadd s e)) with r in E2, B3. split; [exact B3|]. rewrite E2, Eh, E. split.
  - split.
    + rewrite <- (rnd_B s) at 1. apply rnd_mono. lra.
    + rewrite <- (rnd_B e) at 2. apply rnd_mono. lra.
  - destruct (rnd_plus s e) as (e1 & H1 & ->). destruct (rnd_any (/ 2 * ((B2R s + B2R e) * (1 + e1)))) as (e2 & h & H2 & H3 & ->).
    set (m := B2R s + B2R e). replace (/ 2 * (m * (1 + e1)) * (1 + e2) + h - m / 2) with (m * ((e1 + e2 + e1 * e2) / 2) + h) by field.
    eapply Rle_trans; [apply Rabs_triang|]. apply Rplus_le_compat; [|exact H3]. rewrite Rabs_mult, (Rmult_comm (Rabs m)).
    apply Rmult_le_compat_r; [apply Rabs_pos|]. assert (X : Rabs (e1 * e2) <= uro * 1).
    { rewrite Rabs_mult. apply Rmult_le_compat; auto using Rabs_pos. eapply Rle_trans; [exact H2|]. rewrite uro_val. lra. }
    revert H1 H2 X. unfold Rabs; repeat destruct Rcase_abs; lra.
Qed.

Lemma some_inj {A} (x y : A) : Some x = Some y -> x = y.
Proof. now intros [= ->]. Qed.

Definition between (a b x : R) : Prop := Rmin a b <= x <= Rmax a b.

Lemma gtb_B (x y : b64) : is_finite x = true -> is_finite y = true -> nltb y x = false -> B2R x <= B2R y.
Proof. intros A B. rewrite (nltb_B _ _ B A). destruct (Rlt_bool_spec (B2R y) (B2R x)); [discriminate|lra]. Qed.

(** ** The reported point of an overlap is finite and in the boxes of both segments *)
Theorem C84_midpoint_between (a b p q r : point b64) :
  bpt 1000 a -> bpt 1000 b -> bpt 1000 p -> bpt 1000 q ->
  midpoint_collinear_lines a b p q = Some r ->
  bpt 1000 r
  /\ between (B2R (px a)) (B2R (px b)) (B2R (px r)) /\ between (B2R (py a)) (B2R (py b)) (B2R (py r))
  /\ between (B2R (px p)) (B2R (px q)) (B2R (px r)) /\ between (B2R (py p)) (B2R (py q)) (B2R (py r)).
Proof.
  intros Ha Hb Hp Hq. unfold midpoint_collinear_lines. cbv zeta.
  set (sab := (nltb (px b) (px a)) || _). set (spq := (nltb (px q) (px p)) || _).
  set (a' := if sab then b else a). set (b' := if sab then a else b).
  set (p' := if spq then q else p). set (q' := if spq then p else q).
  assert (Ba : bpt 1000 a' /\ bpt 1000 b') by (unfold a', b'; destruct sab; auto).
  assert (Bp : bpt 1000 p' /\ bpt 1000 q') by (unfold p', q'; destruct spq; auto).
  destruct Ba as ((A1 & A2) & (B1 & B2)), Bp as ((P1 & P2) & (Q1 & Q2)).
  assert (MX : forall x y : b64, bounded 1000 x -> bounded 1000 y -> bounded 1000 (nmin x y)) by (intros; unfold nmin; destruct (nltb y x); auto).
  pose proof (bounded_nmax 1000 _ _ A1 P1) as S1. pose proof (bounded_nmax 1000 _ _ A2 P2) as S2.
  pose proof (MX _ _ B1 Q1) as E1. pose proof (MX _ _ B2 Q2) as E2.
  destruct (nmax_B _ _ (proj1 A1) (proj1 P1)) as (VS1 & _). destruct (nmax_B _ _ (proj1 A2) (proj1 P2)) as (VS2 & _).
  destruct (nmin_B _ _ (proj1 B1) (proj1 Q1)) as (VE1 & _). destruct (nmin_B _ _ (proj1 B2) (proj1 Q2)) as (VE2 & _).
  set (sx := nmax (px a') (px p')) in *. set (sy := nmax (py a') (py p')) in *. set (ex := nmin (px b') (px q')) in *. set (ey := nmin (py b') (py q')) in *.
  destruct (nltb ex sx) eqn:Tx; [cbn [orb]; intros X; discriminate X|]. destruct (nltb ey sy) eqn:Ty; [cbn [orb]; intros X; discriminate X|]. cbn [orb].
  intros Er. apply some_inj in Er. rewrite <- Er. clear Er r. cbn [px py].
  apply (gtb_B _ _ (proj1 S1) (proj1 E1)) in Tx. apply (gtb_B _ _ (proj1 S2) (proj1 E2)) in Ty.
  destruct (half_sum sx ex S1 E1 Tx) as (R1 & I1 & _). destruct (half_sum sy ey S2 E2 Ty) as (R2 & I2 & _).
  assert (X : B2R (px a') <= B2R (nmul nhalf (nadd sx ex)) <= B2R (px b') /\ B2R (px p') <= B2R (nmul nhalf (nadd sx ex)) <= B2R (px q')).
  { revert I1. rewrite VS1, VE1. pose proof (Rmax_l (B2R (px a')) (B2R (px p'))). pose proof (Rmax_r (B2R (px a')) (B2R (px p'))).
    pose proof (Rmin_l (B2R (px b')) (B2R (px q'))). pose proof (Rmin_r (B2R (px b')) (B2R (px q'))). lra. }
  assert (Y : B2R (py a') <= B2R (nmul nhalf (nadd sy ey)) <= B2R (py b') /\ B2R (py p') <= B2R (nmul nhalf (nadd sy ey)) <= B2R (py q')).
  { revert I2. rewrite VS2, VE2. pose proof (Rmax_l (B2R (py a')) (B2R (py p'))). pose proof (Rmax_r (B2R (py a')) (B2R (py p'))).
    pose proof (Rmin_l (B2R (py b')) (B2R (py q'))). pose proof (Rmin_r (B2R (py b')) (B2R (py q'))). lra. }
  split; [split; auto|]. revert X Y. generalize (B2R (nmul nhalf (nadd sx ex))) (B2R (nmul nhalf (nadd sy ey))). intros x y X Y.
  assert (G : forall u v w, u <= w <= v -> between u v w /\ between v u w).
  { intros u v w H. unfold between. rewrite (Rmin_comm v u), (Rmax_comm v u). rewrite Rmin_left, Rmax_right by lra. lra. }
  unfold a', b', p', q' in X, Y.
  assert (GA : between (B2R (px a)) (B2R (px b)) x /\ between (B2R (py a)) (B2R (py b)) y).
  { destruct sab; destruct (G _ _ _ (proj1 X)), (G _ _ _ (proj1 Y)); split; assumption. }
  assert (GP : between (B2R (px p)) (B2R (px q)) x /\ between (B2R (py p)) (B2R (py q)) y).
  { destruct spq; destruct (G _ _ _ (proj2 X)), (G _ _ _ (proj2 Y)); split; assumption. }
  destruct GA as (G1 & G2), GP as (G3 & G4). split; [exact G1|]. split; [exact G2|]. split; [exact G3|exact G4].
Qed.

(** ** Segments on one horizontal or vertical line *)
Definition horizontal (a b p q : point b64) : Prop := B2R (py a) = B2R (py b) /\ B2R (py p) = B2R (py q).
Definition vertical (a b p q : point b64) : Prop := B2R (px a) = B2R (px b) /\ B2R (px p) = B2R (px q).

Lemma eq0_B (x : b64) : is_finite x = true -> B2R x = 0 -> neqb x (nofZ 0) = true.
Proof. intros F E. destruct (Zb_exact 0 ltac:(lia)) as (F0 & E0). change (nofZ 0 : b64) with (Zb 0). rewrite (neqb_B _ _ F F0), E, E0. now apply Req_bool_true. Qed.
Lemma eq_B (x y : b64) : is_finite x = true -> is_finite y = true -> B2R x = B2R y -> neqb x y = true.
Proof. intros F G E. rewrite (neqb_B _ _ F G). now apply Req_bool_true. Qed.
Lemma ne_B (x y : b64) : is_finite x = true -> is_finite y = true -> B2R x <> B2R y -> neqb x y = false.
Proof. intros F G E. rewrite (neqb_B _ _ F G). now apply Req_bool_false. Qed.
Lemma ne0_sub (x y : b64) : is_finite x = true -> is_finite y = true -> B2R x <> B2R y -> neqb (nsub x y) (nofZ 0) = false.
Proof. exact (Bminus_neq0 x y). Qed.

(** on different lines: never *)
Theorem C84_other_line (a b p q : point b64) : finite_point a -> finite_point b -> finite_point p -> finite_point q ->
  (horizontal a b p q /\ B2R (py a) <> B2R (py p)) \/ (vertical a b p q /\ B2R (px a) <> B2R (px p)) ->
  lines_intersect a b p q = Ok (false, None).
Proof.
  intros (A1 & A2) (B1 & B2) (P1 & P2) (Q1 & Q2) H. unfold lines_intersect. cbv zeta. unfold to_vector. cbn [px py].
  destruct ((_ || _)%bool); [reflexivity|]. destruct H as [((H1 & H2) & H3)|((H1 & H2) & H3)].
  - destruct ((_ && _ && _)%bool); [reflexivity|].
    destruct (sub_zero (py q) (py p) Q2 P2 (eq_sym H2)) as (FU & ZU). destruct (sub_zero (py b) (py a) B2 A2 (eq_sym H1)) as (FV & ZV).
    rewrite (eq0_B _ FU ZU), (eq0_B _ FV ZV), (ne_B _ _ A2 P2 H3). reflexivity.
  - destruct (sub_zero (px q) (px p) Q1 P1 (eq_sym H2)) as (FU & ZU). destruct (sub_zero (px b) (px a) B1 A1 (eq_sym H1)) as (FV & ZV).
    rewrite (eq0_B _ FU ZU), (eq0_B _ FV ZV), (ne_B _ _ A1 P1 H3). reflexivity.
Qed.

Lemma seg_tolerance (x y : b64) : bounded 241 x -> bounded 241 y ->
  bounded 250 (nmax nmintol (nmul ntolfac (nmax (nabs x) (nabs y))))
  /\ bpow radix2 (-100) <= B2R (nmax nmintol (nmul ntolfac (nmax (nabs x) (nabs y)))).
Proof.
  intros Bx By.
  assert (AB : forall z : b64, bounded 241 z -> bounded 241 (nabs z)).
  { intros z (F & B). destruct (nabs_B z) as (E & F'). split; [now rewrite F'|]. rewrite E, Rabs_Rabsolu. exact B. }
  pose proof (bounded_nmax 241 _ _ (AB _ Bx) (AB _ By)) as Bm.
  pose proof (bounded_prod (-39) 241 _ _ tolfac_small Bm ltac:(lia)) as Bp.
  split.
  - apply bounded_nmax; [eapply bounded_mono; [|exact mintol_small]; lia|eapply bounded_mono; [|exact Bp]; lia].
  - eapply Rle_trans; [|apply nmax_ge_l; [apply mintol_pos|apply Bp]]. eapply Rle_trans; [|exact mintol_ge]. apply bpow_le. lia.
Qed.

Lemma nmin_bounded k (x y : b64) : bounded k x -> bounded k y -> bounded k (nmin x y).
Proof. intros. unfold nmin. destruct (nltb y x); auto. Qed.

Lemma overlap_true (a b p q tol : b64) : bounded 240 a -> bounded 240 b -> bounded 240 p -> bounded 240 q ->
  is_finite tol = true -> 0 < B2R tol ->
  Rmax (Rmin (B2R a) (B2R b)) (Rmin (B2R p) (B2R q)) <= Rmin (Rmax (B2R a) (B2R b)) (Rmax (B2R p) (B2R q)) ->
  has_overlap a b p q tol = true.
Proof.
  intros Ba Bb Bp Bq Ft Ht H.
  assert (G : forall x y : b64, bounded 240 x -> bounded 240 y -> B2R x <= B2R y -> nltb (nsub x y) tol = true).
  { intros x y Bx By Hxy. destruct (minus_val 241 x y ltac:(lia) (proj1 Bx) (proj1 By)) as (E & (F & _)).
    { change 241%Z with (240 + 1)%Z. rewrite bpow_plus. change (bpow radix2 1) with 2. destruct Bx as (_ & Bx), By as (_ & By). revert Bx By. unfold Rabs; repeat destruct Rcase_abs; lra. }
    rewrite (nltb_B _ _ F Ft). apply Rlt_bool_true. rewrite E.
    apply Rle_lt_trans with 0; [|exact Ht]. rewrite <- rnd_0. apply rnd_mono. lra. }
  unfold has_overlap.
  destruct (nmin_B a b (proj1 Ba) (proj1 Bb)) as (E1 & _). destruct (nmax_B a b (proj1 Ba) (proj1 Bb)) as (E2 & _).
  destruct (nmin_B p q (proj1 Bp) (proj1 Bq)) as (E3 & _). destruct (nmax_B p q (proj1 Bp) (proj1 Bq)) as (E4 & _).
  pose proof (Rmax_l (Rmin (B2R a) (B2R b)) (Rmin (B2R p) (B2R q))). pose proof (Rmax_r (Rmin (B2R a) (B2R b)) (Rmin (B2R p) (B2R q))).
  pose proof (Rmin_l (Rmax (B2R a) (B2R b)) (Rmax (B2R p) (B2R q))). pose proof (Rmin_r (Rmax (B2R a) (B2R b)) (Rmax (B2R p) (B2R q))).
  rewrite !G; auto using nmin_bounded, bounded_nmax; rewrite ?E1, ?E2, ?E3, ?E4; lra.
Qed.

(** the order of a comparison of two zero products *)
Lemma zeros_not_lt (x y : b64) : is_finite x = true -> is_finite y = true -> B2R x = 0 -> B2R y = 0 -> nltb x y = false.
Proof. intros F G X Y. rewrite (nltb_B _ _ F G), X, Y. apply Rlt_bool_false. lra. Qed.

Definition overlap (a b p q : R) : Prop := Rmax (Rmin a b) (Rmin p q) <= Rmin (Rmax a b) (Rmax p q).
Definition middle (a b p q : R) : R := (Rmax (Rmin a b) (Rmin p q) + Rmin (Rmax a b) (Rmax p q)) / 2.

(** the reported coordinate: in both segments and one rounding away from the middle of the overlap *)
Definition near_middle (a b p q x : R) : Prop :=
  between a b x /\ between p q x /\ Rabs (x - middle a b p q) <= 4 * uro * Rabs (middle a b p q) + eta.

Lemma half_middle (s e : b64) (a b p q : R) : bounded 1000 s -> bounded 1000 e -> overlap a b p q ->
  B2R s = Rmax (Rmin a b) (Rmin p q) -> B2R e = Rmin (Rmax a b) (Rmax p q) ->
  is_finite (nmul nhalf (nadd s e)) = true /\ near_middle a b p q (B2R (nmul nhalf (nadd s e))).
Proof.
  intros Bs Be HO Es Ee. destruct (half_sum s e Bs Be) as ((F & _) & I & X); [rewrite Es, Ee; exact HO|].
  split; [exact F|]. revert I X. generalize (B2R (nmul nhalf (nadd s e))). intros x I X. unfold near_middle, between, middle.
  rewrite <- Es, <- Ee. split; [|split].
  - pose proof (Rmax_l (Rmin a b) (Rmin p q)). pose proof (Rmin_l (Rmax a b) (Rmax p q)). lra.
  - pose proof (Rmax_r (Rmin a b) (Rmin p q)). pose proof (Rmin_r (Rmax a b) (Rmax p q)). lra.
  - unfold Rdiv at 2. rewrite Rabs_mult, (Rabs_pos_eq (/ 2)) by lra. lra.
Qed.

(** the ends of a segment whose other coordinates are equal, in the order of [midpoint_collinear_lines] *)
Lemma swap_x (a b : point b64) : finite_point a -> finite_point b -> B2R (py a) = B2R (py b) ->
  let s := nltb (px b) (px a) || (neqb (px a) (px b) && nltb (py b) (py a)) in
  B2R (px (if s then b else a)) = Rmin (B2R (px a)) (B2R (px b)) /\ B2R (px (if s then a else b)) = Rmax (B2R (px a)) (B2R (px b))
  /\ B2R (py (if s then b else a)) = B2R (py a) /\ B2R (py (if s then a else b)) = B2R (py a).
Proof.
  intros (A1 & A2) (B1 & B2) E s. unfold s. rewrite (nltb_B _ _ B1 A1), (nltb_B _ _ B2 A2), E, (Rlt_bool_false (B2R (py b)) (B2R (py b))) by lra.
  rewrite Bool.andb_false_r, Bool.orb_false_r. destruct (Rlt_bool_spec (B2R (px b)) (B2R (px a))).
  - rewrite Rmin_right, Rmax_left by lra. auto.
  - rewrite Rmin_left, Rmax_right by lra. auto.
Qed.
Lemma swap_y (a b : point b64) : finite_point a -> finite_point b -> B2R (px a) = B2R (px b) ->
  let s := nltb (px b) (px a) || (neqb (px a) (px b) && nltb (py b) (py a)) in
  B2R (py (if s then b else a)) = Rmin (B2R (py a)) (B2R (py b)) /\ B2R (py (if s then a else b)) = Rmax (B2R (py a)) (B2R (py b))
  /\ B2R (px (if s then b else a)) = B2R (px a) /\ B2R (px (if s then a else b)) = B2R (px a).
Proof.
  intros (A1 & A2) (B1 & B2) E s. unfold s. rewrite (nltb_B _ _ B1 A1), (nltb_B _ _ B2 A2), (neqb_B _ _ A1 B1), E, (Rlt_bool_false (B2R (px b)) (B2R (px b))) by lra.
  rewrite Req_bool_true by reflexivity. cbn [orb andb]. destruct (Rlt_bool_spec (B2R (py b)) (B2R (py a))).
  - rewrite Rmin_right, Rmax_left by lra. auto.
  - rewrite Rmin_left, Rmax_right by lra. auto.
Qed.

Lemma half_same (s e : b64) : bounded 1000 s -> bounded 1000 e -> B2R s = B2R e -> is_finite (nmul nhalf (nadd s e)) = true /\ B2R (nmul nhalf (nadd s e)) = B2R s.
Proof. intros Bs Be E. destruct (half_sum s e Bs Be ltac:(lra)) as ((F & _) & I & _). split; [exact F|]. lra. Qed.

Lemma midpoint_ok (a b p q : point b64) : bpt 240 a -> bpt 240 b -> bpt 240 p -> bpt 240 q ->
  (horizontal a b p q /\ B2R (py a) = B2R (py p) /\ overlap (B2R (px a)) (B2R (px b)) (B2R (px p)) (B2R (px q)) ->
     exists r, midpoint_collinear_lines a b p q = Some r /\ finite_point r /\ B2R (py r) = B2R (py a)
       /\ near_middle (B2R (px a)) (B2R (px b)) (B2R (px p)) (B2R (px q)) (B2R (px r)))
  /\ (vertical a b p q /\ B2R (px a) = B2R (px p) /\ overlap (B2R (py a)) (B2R (py b)) (B2R (py p)) (B2R (py q)) ->
     exists r, midpoint_collinear_lines a b p q = Some r /\ finite_point r /\ B2R (px r) = B2R (px a)
       /\ near_middle (B2R (py a)) (B2R (py b)) (B2R (py p)) (B2R (py q)) (B2R (py r))).
Proof.
  intros Ha Hb Hp Hq.
  assert (UP : forall u : point b64, bpt 240 u -> bpt 1000 u /\ finite_point u).
  { intros u (X & Y). split; [split; eapply bounded_mono; try eassumption; lia|split; [apply X|apply Y]]. }
  destruct (UP _ Ha) as (Ka & Fa), (UP _ Hb) as (Kb & Fb), (UP _ Hp) as (Kp & Fp), (UP _ Hq) as (Kq & Fq).
  unfold midpoint_collinear_lines. cbv zeta.
  set (sab := (nltb (px b) (px a)) || _). set (spq := (nltb (px q) (px p)) || _).
  set (a' := if sab then b else a). set (b' := if sab then a else b).
  set (p' := if spq then q else p). set (q' := if spq then p else q).
  assert (Ba : bpt 1000 a' /\ bpt 1000 b') by (unfold a', b'; destruct sab; auto).
  assert (Bp : bpt 1000 p' /\ bpt 1000 q') by (unfold p', q'; destruct spq; auto).
  destruct Ba as ((A1 & A2) & (B1 & B2)), Bp as ((P1 & P2) & (Q1 & Q2)).
  pose proof (bounded_nmax 1000 _ _ A1 P1) as S1. pose proof (bounded_nmax 1000 _ _ A2 P2) as S2.
  pose proof (nmin_bounded 1000 _ _ B1 Q1) as E1. pose proof (nmin_bounded 1000 _ _ B2 Q2) as E2.
  destruct (nmax_B _ _ (proj1 A1) (proj1 P1)) as (VS1 & _). destruct (nmax_B _ _ (proj1 A2) (proj1 P2)) as (VS2 & _).
  destruct (nmin_B _ _ (proj1 B1) (proj1 Q1)) as (VE1 & _). destruct (nmin_B _ _ (proj1 B2) (proj1 Q2)) as (VE2 & _).
  set (sx := nmax (px a') (px p')) in *. set (sy := nmax (py a') (py p')) in *. set (ex := nmin (px b') (px q')) in *. set (ey := nmin (py b') (py q')) in *.
  assert (NG : forall s e : b64, bounded 1000 s -> bounded 1000 e -> B2R s <= B2R e -> nltb e s = false).
  { intros s e Bs Be H. rewrite (nltb_B _ _ (proj1 Be) (proj1 Bs)). now apply Rlt_bool_false. }
  split; intros ((H1 & H2) & H3 & HO).
  - destruct (swap_x a b Fa Fb H1) as (X1 & X2 & X3 & X4). destruct (swap_x p q Fp Fq H2) as (Y1 & Y2 & Y3 & Y4).
    change (B2R (px a') = Rmin (B2R (px a)) (B2R (px b))) in X1. change (B2R (px b') = Rmax (B2R (px a)) (B2R (px b))) in X2.
    change (B2R (px p') = Rmin (B2R (px p)) (B2R (px q))) in Y1. change (B2R (px q') = Rmax (B2R (px p)) (B2R (px q))) in Y2.
    change (B2R (py a') = B2R (py a)) in X3. change (B2R (py b') = B2R (py a)) in X4. change (B2R (py p') = B2R (py p)) in Y3. change (B2R (py q') = B2R (py p)) in Y4.
    rewrite X1, Y1 in VS1. rewrite X2, Y2 in VE1. rewrite X3, Y3, H3, Rmax_left in VS2 by lra. rewrite X4, Y4, H3, Rmin_left in VE2 by lra.
    rewrite (NG sx ex S1 E1) by (rewrite VS1, VE1; exact HO). rewrite (NG sy ey S2 E2) by (rewrite VS2, VE2; lra). cbn [orb].
    destruct (half_middle sx ex _ _ _ _ S1 E1 HO VS1 VE1) as (F1 & M1). destruct (half_same sy ey S2 E2 ltac:(congruence)) as (F2 & M2).
    eexists. split; [reflexivity|]. split; [split; cbn [px py]; assumption|]. cbn [px py]. split; [rewrite M2, VS2; congruence|exact M1].
  - destruct (swap_y a b Fa Fb H1) as (X1 & X2 & X3 & X4). destruct (swap_y p q Fp Fq H2) as (Y1 & Y2 & Y3 & Y4).
    change (B2R (py a') = Rmin (B2R (py a)) (B2R (py b))) in X1. change (B2R (py b') = Rmax (B2R (py a)) (B2R (py b))) in X2.
    change (B2R (py p') = Rmin (B2R (py p)) (B2R (py q))) in Y1. change (B2R (py q') = Rmax (B2R (py p)) (B2R (py q))) in Y2.
    change (B2R (px a') = B2R (px a)) in X3. change (B2R (px b') = B2R (px a)) in X4. change (B2R (px p') = B2R (px p)) in Y3. change (B2R (px q') = B2R (px p)) in Y4.
    rewrite X1, Y1 in VS2. rewrite X2, Y2 in VE2. rewrite X3, Y3, H3, Rmax_left in VS1 by lra. rewrite X4, Y4, H3, Rmin_left in VE1 by lra.
    rewrite (NG sy ey S2 E2) by (rewrite VS2, VE2; exact HO). rewrite (NG sx ex S1 E1) by (rewrite VS1, VE1; lra). cbn [orb].
    destruct (half_middle sy ey _ _ _ _ S2 E2 HO VS2 VE2) as (F1 & M1). destruct (half_same sx ex S1 E1 ltac:(congruence)) as (F2 & M2).
    eexists. split; [reflexivity|]. split; [split; cbn [px py]; assumption|]. cbn [px py]. split; [rewrite M2, VS1; congruence|exact M1].
Qed.

(** a cross product and the sides of a line, when the two vectors are on one axis *)
Lemma cross_axis (u v : point b64) : bpt 251 u -> bpt 251 v ->
  (B2R (py u) = 0 /\ B2R (py v) = 0) \/ (B2R (px u) = 0 /\ B2R (px v) = 0) ->
  is_finite (cross_product u v) = true /\ B2R (cross_product u v) = 0 /\ nltb (nmul (py u) (px v)) (nmul (px u) (py v)) = false.
Proof.
  intros (U1 & U2) (V1 & V2) H. unfold cross_product.
  assert (X : (is_finite (nmul (px u) (py v)) = true /\ B2R (nmul (px u) (py v)) = 0) /\ (is_finite (nmul (py u) (px v)) = true /\ B2R (nmul (py u) (px v)) = 0)).
  { destruct H as [(H1 & H2)|(H1 & H2)]; split.
    - apply mul_zero; [exact U1|apply V2|exact H2].
    - apply zero_mul; [exact V1|apply U2|exact H1].
    - apply zero_mul; [exact V2|apply U1|exact H1].
    - apply mul_zero; [exact U2|apply V1|exact H2]. }
  destruct X as ((F1 & Z1) & (F2 & Z2)). destruct (sub_zero _ _ F1 F2 ltac:(congruence)) as (F & Z).
  split; [exact F|]. split; [exact Z|]. now apply zeros_not_lt.
Qed.

(** ** Overlapping segments on one horizontal or vertical line *)
Theorem C84_axis_overlap (a b p q : point b64) : bpt 240 a -> bpt 240 b -> bpt 240 p -> bpt 240 q ->
  rp a <> rp b -> apart a b -> rp p <> rp q ->
  (horizontal a b p q /\ B2R (py a) = B2R (py p) /\ overlap (B2R (px a)) (B2R (px b)) (B2R (px p)) (B2R (px q)) ->
     exists r, lines_intersect a b p q = Ok (true, Some r) /\ finite_point r /\ B2R (py r) = B2R (py a)
       /\ near_middle (B2R (px a)) (B2R (px b)) (B2R (px p)) (B2R (px q)) (B2R (px r)))
  /\ (vertical a b p q /\ B2R (px a) = B2R (px p) /\ overlap (B2R (py a)) (B2R (py b)) (B2R (py p)) (B2R (py q)) ->
     exists r, lines_intersect a b p q = Ok (true, Some r) /\ finite_point r /\ B2R (px r) = B2R (px a)
       /\ near_middle (B2R (py a)) (B2R (py b)) (B2R (py p)) (B2R (py q)) (B2R (py r))).
Proof.
  intros Ha Hb Hp Hq Nab Aab Npq.
  pose proof Ha as (Ax & Ay). pose proof Hb as (Bx & By). pose proof Hp as (Px & Py). pose proof Hq as (Qx & Qy).
  assert (D : forall x y : b64, bounded 240 x -> bounded 240 y -> bounded 241 (nsub x y) /\ bounded 251 (nsub x y)).
  { intros x y X Y. pose proof (bounded_minus 240 x y ltac:(lia) X Y) as Z. split; [exact Z|]. eapply bounded_mono; [|exact Z]. lia. }
  assert (VV : forall u v : point b64, bpt 240 u -> bpt 240 v -> bpt 251 (to_vector u v)).
  { intros u v (U1 & U2) (V1 & V2). split; cbn [to_vector px py]; apply D; assumption. }
  assert (SZ : forall x y : b64, bounded 240 x -> bounded 240 y -> B2R x = B2R y -> B2R (nsub x y) = 0).
  { intros x y X Y E. apply sub_zero; [apply X|apply Y|exact E]. }
  assert (LEN : bounded 503 (length_squared (to_vector a b)) /\ bpow radix2 (-800) <= B2R (length_squared (to_vector a b))).
  { apply length_val; [apply (VV a b Ha Hb)|apply (VV a b Ha Hb)|]. cbn [to_vector px py].
    destruct Aab as [Aab|Aab]; [contradiction|].
    assert (U : forall x : b64, bounded 240 x -> bounded 250 x) by (intros x X; eapply bounded_mono; [|exact X]; lia).
    destruct (diff_bounded (px b) (px a) (U _ Bx) (U _ Ax)) as (_ & E1). destruct (diff_bounded (py b) (py a) (U _ By) (U _ Ay)) as (_ & E2).
    rewrite E1, E2. destruct Aab as [Aab|Aab]; [left|right]; apply rnd_bpow_abs; auto; lia. }
  assert (NUL : forall u v : point b64, bpt 240 u -> bpt 240 v -> rp u <> rp v -> (neqb (nsub (px v) (px u)) (nofZ 0) && neqb (nsub (py v) (py u)) (nofZ 0))%bool = false).
  { intros u v (U1 & U2) (V1 & V2) N. destruct (Req_dec (B2R (px v)) (B2R (px u))) as [E|E].
    - rewrite (ne0_sub (py v) (py u) (proj1 V2) (proj1 U2)); [apply Bool.andb_false_r|]. intros E'. apply N. apply rp_eq. auto.
    - rewrite (ne0_sub (px v) (px u) (proj1 V1) (proj1 U1) E). reflexivity. }
  destruct (seg_tolerance (nsub (px q) (px p)) (nsub (py q) (py p))) as (Bt & Gt); [apply D; assumption|apply D; assumption|].
  set (tol := nmax nmintol (nmul ntolfac (nmax (nabs (nsub (px q) (px p))) (nabs (nsub (py q) (py p)))))) in *.
  assert (Pt : 0 < B2R tol) by (pose proof (bpow_gt_0 radix2 (-100)); lra).
  destruct (midpoint_ok a b p q Ha Hb Hp Hq) as (MH & MV).
  assert (CORE : (horizontal a b p q /\ B2R (py a) = B2R (py p) /\ overlap (B2R (px a)) (B2R (px b)) (B2R (px p)) (B2R (px q)))
      \/ (vertical a b p q /\ B2R (px a) = B2R (px p) /\ overlap (B2R (py a)) (B2R (py b)) (B2R (py p)) (B2R (py q))) ->
      lines_intersect a b p q = Ok (true, midpoint_collinear_lines a b p q)).
  { intros H.
    assert (AX : forall u v w z : point b64, In u [a; b; p; q] -> In v [a; b; p; q] -> In w [a; b; p; q] -> In z [a; b; p; q] ->
       bpt 251 (to_vector u v) /\ bpt 251 (to_vector w z)
       /\ ((B2R (py (to_vector u v)) = 0 /\ B2R (py (to_vector w z)) = 0) \/ (B2R (px (to_vector u v)) = 0 /\ B2R (px (to_vector w z)) = 0))).
    { assert (BB : forall u, In u [a; b; p; q] -> bpt 240 u) by (intros u [<-|[<-|[<-|[<-|[]]]]]; assumption).
      intros u v w z Iu Iv Iw Iz. split; [apply VV; auto|]. split; [apply VV; auto|]. destruct H as [((H1 & H2) & H3 & _)|((H1 & H2) & H3 & _)].
      - left. assert (Q : forall x, In x [a; b; p; q] -> B2R (py x) = B2R (py a)) by (intros x [<-|[<-|[<-|[<-|[]]]]]; congruence).
        split; apply SZ; try apply BB; auto; (transitivity (B2R (py a)); [|symmetry]; apply Q; auto).
      - right. assert (Q : forall x, In x [a; b; p; q] -> B2R (px x) = B2R (px a)) by (intros x [<-|[<-|[<-|[<-|[]]]]]; congruence).
        split; apply SZ; try apply BB; auto; (transitivity (B2R (px a)); [|symmetry]; apply Q; auto). }
    assert (Ia : In a [a; b; p; q]) by now left. assert (Ib : In b [a; b; p; q]) by (right; now left).
    assert (Ip : In p [a; b; p; q]) by (do 2 right; now left). assert (Iq : In q [a; b; p; q]) by (do 3 right; now left).
    assert (LO : forall u v w z, In u [a; b; p; q] -> In v [a; b; p; q] -> In w [a; b; p; q] -> In z [a; b; p; q] ->
       nltb (nmul (py (to_vector u v)) (px (to_vector w z))) (nmul (px (to_vector u v)) (py (to_vector w z))) = false).
    { intros u v w z Iu Iv Iw Iz. destruct (AX u v w z Iu Iv Iw Iz) as (V1 & V2 & V3). apply (cross_axis _ _ V1 V2 V3). }
    assert (CR : forall u v w z, In u [a; b; p; q] -> In v [a; b; p; q] -> In w [a; b; p; q] -> In z [a; b; p; q] ->
       is_finite (cross_product (to_vector u v) (to_vector w z)) = true /\ B2R (cross_product (to_vector u v) (to_vector w z)) = 0).
    { intros u v w z Iu Iv Iw Iz. destruct (AX u v w z Iu Iv Iw Iz) as (V1 & V2 & V3). destruct (cross_axis _ _ V1 V2 V3) as (F & Z & _). auto. }
    assert (OV : has_overlap (px a) (px b) (px p) (px q) tol = true /\ has_overlap (py a) (py b) (py p) (py q) tol = true).
    { assert (same : forall y1 y2 y3 y4 : R, y1 = y2 -> y3 = y4 -> y1 = y3 -> overlap y1 y2 y3 y4).
      { intros y1 y2 y3 y4 <- <- <-. unfold overlap. rewrite !Rmin_left, !Rmax_left by (rewrite ?Rmin_left, ?Rmax_left; lra). lra. }
      destruct H as [((H1 & H2) & H3 & HO)|((H1 & H2) & H3 & HO)]; split; apply overlap_true; auto; try apply Bt; apply same; auto. }
    destruct OV as (OX & OY).
    unfold lines_intersect. cbv zeta.
    change (px (to_vector p q)) with (nsub (px q) (px p)). change (py (to_vector p q)) with (nsub (py q) (py p)).
    change (px (to_vector a b)) with (nsub (px b) (px a)). change (py (to_vector a b)) with (nsub (py b) (py a)).
    fold tol. rewrite (NUL p q Hp Hq Npq), (NUL a b Ha Hb Nab). cbn [orb].
    assert (T2 : (neqb (nsub (px q) (px p)) (nofZ 0) && neqb (nsub (px b) (px a)) (nofZ 0) && negb (neqb (px a) (px p)))%bool = false).
    { destruct H as [((H1 & H2) & H3 & _)|((H1 & H2) & H3 & _)].
      - assert (X : B2R (px b) <> B2R (px a)) by (intros E; apply Nab; apply rp_eq; auto).
        rewrite (ne0_sub (px b) (px a) (proj1 Bx) (proj1 Ax) X), Bool.andb_false_r. reflexivity.
      - rewrite (eq_B (px a) (px p) (proj1 Ax) (proj1 Px) H3). apply Bool.andb_false_r. }
    assert (T3 : (neqb (nsub (py q) (py p)) (nofZ 0) && neqb (nsub (py b) (py a)) (nofZ 0) && negb (neqb (py a) (py p)))%bool = false).
    { destruct H as [((H1 & H2) & H3 & _)|((H1 & H2) & H3 & _)].
      - rewrite (eq_B (py a) (py p) (proj1 Ay) (proj1 Py) H3). apply Bool.andb_false_r.
      - assert (X : B2R (py b) <> B2R (py a)) by (intros E; apply Nab; apply rp_eq; auto).
        rewrite (ne0_sub (py b) (py a) (proj1 By) (proj1 Ay) X), Bool.andb_false_r. reflexivity. }
    rewrite T2, T3, OX, OY. cbn [negb orb].
    assert (L1 : left_of a p (to_vector p q) = false) by exact (LO p q p a Ip Iq Ip Ia).
    assert (L2 : left_of b p (to_vector p q) = false) by exact (LO p q p b Ip Iq Ip Ib).
    assert (L3 : left_of p a (to_vector a b) = false) by exact (LO a b a p Ia Ib Ia Ip).
    assert (L4 : left_of q a (to_vector a b) = false) by exact (LO a b a q Ia Ib Ia Iq).
    rewrite L1, L2. cbn [Bool.eqb negb andb].
    destruct LEN as (Bl & Gl). destruct (CR a b a p Ia Ib Ia Ip) as (F1 & Z1). destruct (CR a b a q Ia Ib Ia Iq) as (F2 & Z2).
    rewrite (zero_within _ tol (to_vector a b) F1 Z1 Bl Gl Bt Gt), (zero_within _ tol (to_vector a b) F2 Z2 Bl Gl Bt Gt). reflexivity. }
  split; intros H.
  - rewrite CORE by (left; exact H). destruct (MH H) as (r & -> & Hr). exists r. split; [reflexivity|exact Hr].
  - rewrite CORE by (right; exact H). destruct (MV H) as (r & -> & Hr). exists r. split; [reflexivity|exact Hr].
Qed.

(** ** EdgeCellTree2d.intersect_edges *)
Lemma on_segment_x (a b : pt) x : px a <> px b -> py a = py b -> between (px a) (px b) x -> on_segment a b (Pt x (py a)).
Proof.
  intros N E (L & U). exists ((x - px a) / (px b - px a)).
  assert (S : 0 <= (x - px a) / (px b - px a) <= 1).
  { destruct (Rlt_le_dec (px a) (px b)) as [H|H].
    - rewrite Rmin_left in L by lra. rewrite Rmax_right in U by lra. split.
      + apply Rmult_le_pos; [lra|]. apply Rlt_le, Rinv_0_lt_compat. lra.
      + apply Rmult_le_reg_r with (px b - px a); [lra|]. unfold Rdiv. rewrite Rmult_assoc, Rinv_l by lra. lra.
    - rewrite Rmin_right in L by lra. rewrite Rmax_left in U by lra. replace ((x - px a) / (px b - px a)) with ((px a - x) / (px a - px b)) by (field; lra). split.
      + apply Rmult_le_pos; [lra|]. apply Rlt_le, Rinv_0_lt_compat. lra.
      + apply Rmult_le_reg_r with (px a - px b); [lra|]. unfold Rdiv. rewrite Rmult_assoc, Rinv_l by lra. lra. }
  split; [exact S|]. unfold at_. rewrite E. f_equal; [field; lra|ring].
Qed.
Lemma on_segment_y (a b : pt) y : py a <> py b -> px a = px b -> between (py a) (py b) y -> on_segment a b (Pt (px a) y).
Proof.
  intros N E H. destruct (on_segment_x (Pt (py a) (px a)) (Pt (py b) (px b)) y N E H) as (s & Hs & E').
  exists s. split; [exact Hs|]. unfold at_ in *. cbn [px py] in E'. injection E' as -> E2. f_equal. exact E2.
Qed.

Theorem C84_network_overlap k g (vs : list (point b64)) edges nb cpl t :
  (-40 <= k <= 240)%Z -> network_ok vs edges -> bounded_vertices k vs -> spread (bpow radix2 (k - 4)) vs ->
  EdgeCellTree2d_init g vs edges nb cpl = Ok t ->
  forall queries, Forall (query_ok k (celltree_data t)) queries ->
  exists rows,
    (forall g' csfuel n_threads, (4 <= csfuel)%nat -> (1 <= n_threads)%nat ->
       EdgeCellTree2d_intersect_edges g' csfuel n_threads t queries = Ok rows)
    /\ forall i j a b e p q, (0 <= i)%Z -> nth_error queries (Z.to_nat i) = Some (a, b) ->
         (0 <= j)%Z -> nth_error edges (Z.to_nat j) = Some e -> edge_of vs e p q -> rp a <> rp b -> rp p <> rp q ->
         (horizontal a b p q /\ B2R (py a) = B2R (py p) /\ overlap (B2R (px a)) (B2R (px b)) (B2R (px p)) (B2R (px q)) ->
            exists r, In ((i, j), Some r) rows /\ finite_point r /\ B2R (py r) = B2R (py a)
              /\ near_middle (B2R (px a)) (B2R (px b)) (B2R (px p)) (B2R (px q)) (B2R (px r)))
         /\ (vertical a b p q /\ B2R (px a) = B2R (px p) /\ overlap (B2R (py a)) (B2R (py b)) (B2R (py p)) (B2R (py q)) ->
            exists r, In ((i, j), Some r) rows /\ finite_point r /\ B2R (px r) = B2R (px a)
              /\ near_middle (B2R (py a)) (B2R (py b)) (B2R (py p)) (B2R (py q)) (B2R (py r)))
         /\ ((horizontal a b p q /\ B2R (py a) <> B2R (py p)) \/ (vertical a b p q /\ B2R (px a) <> B2R (px p)) ->
            forall c, ~ In ((i, j), c) rows).
Proof.
  intros Hk Hm Hbd Hsp E queries HQ. pose proof (init_built_edges _ _ _ _ _ _ Hm E) as Hb.
  destruct (be_net _ _ _ _ Hb) as (gt & Hgt & Hn).
  destruct (net_edges k Hk vs edges (celltree_data t) gt Hbd Hsp Hgt Hn (be_vertices _ _ _ _ Hb) (be_elements _ _ _ _ Hb)
              (network_tight _ _ _ _ _ _ Hm E) queries HQ) as (rows & H1 & _ & _ & H4 & H5).
  rewrite Forall_forall in HQ.
  exists (map (fun r => (fst r, fst (snd r))) rows). split.
  { intros g' cs n Hcs Hn'. unfold EdgeCellTree2d_intersect_edges. rewrite (H1 g' cs n Hcs Hn'). reflexivity. }
  intros i j a b e p q Hi Ei Hj Ee He Nab Npq.
  pose proof (HQ _ (nth_error_In _ _ Ei)) as (Ba & Bb & PS & _). cbn [fst snd] in *.
  destruct (edge_of_bpt k _ _ _ _ Hbd He) as (Bp & Bq).
  assert (UP : forall u : point b64, bpt k u -> bpt 240 u /\ finite_point u).
  { intros u (X & Y). split; [split; eapply bounded_mono; try eassumption; lia|split; [apply X|apply Y]]. }
  destruct (UP _ Ba) as (Ka & Fa), (UP _ Bb) as (Kb & Fb), (UP _ Bp) as (Kp & Fp), (UP _ Bq) as (Kq & Fq).
  assert (Aab : apart a b).
  { assert (S : bpow radix2 (-400) <= bpow radix2 (-250)) by (apply bpow_le; lia).
    destruct PS as ([X|X] & [Y|Y]); unfold rp in X, Y; cbn [px py] in X, Y.
    - left. apply rp_eq. auto.
    - right; right; lra.
    - right; left; lra.
    - right; left; lra. }
  assert (Row : forall r x, lines_intersect a b p q = Ok (true, Some r) -> on_segment (rp a) (rp b) x -> on_segment (rp p) (rp q) x ->
     In ((i, j), Some r) (map (fun r => (fst r, fst (snd r))) rows)).
  { intros r x El Sa Sp. apply in_map_iff. exists ((i, j), (Some r, Some r)). split; [reflexivity|]. apply (H5 i j a b p q (Some r) x); eauto. }
  destruct (C84_axis_overlap a b p q Ka Kb Kp Kq Nab Aab Npq) as (GH & GV). split; [|split].
  - intros H. destruct (GH H) as (r & El & Fr & Er & Hr). exists r. split; [|auto]. destruct H as ((X1 & X2) & X3 & _), Hr as (Y1 & Y2 & _).
    apply (Row r (Pt (B2R (px r)) (B2R (py a))) El).
    + apply (on_segment_x (rp a) (rp b)); [|exact X1|exact Y1]. intros X. apply Nab. apply rp_eq. auto.
    + rewrite X3. apply (on_segment_x (rp p) (rp q)); [|exact X2|exact Y2]. intros X. apply Npq. apply rp_eq. auto.
  - intros H. destruct (GV H) as (r & El & Fr & Er & Hr). exists r. split; [|auto]. destruct H as ((X1 & X2) & X3 & _), Hr as (Y1 & Y2 & _).
    apply (Row r (Pt (B2R (px a)) (B2R (py r))) El).
    + apply (on_segment_y (rp a) (rp b)); [|exact X1|exact Y1]. intros X. apply Nab. apply rp_eq. auto.
    + rewrite X3. apply (on_segment_y (rp p) (rp q)); [|exact X2|exact Y2]. intros X. apply Npq. apply rp_eq. auto.
  - intros H c Hin. apply in_map_iff in Hin as ((ij, c2) & Eq & Hin). cbn [fst snd] in Eq. injection Eq as -> _.
    destruct (H4 _ _ _ Hin) as (a' & b' & p' & q' & x & _ & Ei' & He' & Bp' & Bq' & El & _). rewrite Ei in Ei'. injection Ei' as <- <-.
    destruct He' as (e' & _ & Ee' & He'). rewrite Ee in Ee'. injection Ee' as <-.
    destruct (edge_of_map_inv _ _ _ _ He') as (w0 & w1 & Hw & E0 & E1). destruct (edge_of_unique _ _ _ _ _ _ He Hw) as (-> & ->).
    apply rp_eq in E0 as (Z1 & Z2). apply rp_eq in E1 as (Z3 & Z4).
    rewrite (C84_other_line a b p' q' Fa Fb (proj2 (UP _ Bp')) (proj2 (UP _ Bq'))) in El; [discriminate|].
    unfold horizontal, vertical in *. rewrite Z1, Z2, Z3, Z4. exact H.
Qed.

(** ** Concrete cases *)

(** A query along y = 1 overlaps pipe 2, from (1, 1) to (2, 1), and one along x = 1 pipe 1, from (1, 0)
    to (1, 1).  Pipes 0 and 5 are on other horizontal lines. *)
Definition c84_queries : list (point b64 * point b64) :=
  [(Pt (Zb (-3)) (Zb 1), Pt (Zb 6) (Zb 1)); (Pt (Zb 1) (Zb 6), Pt (Zb 1) (Zb (-3)))].

Example C84_example : exists t rows r s,
  EdgeCellTree2d_init (T:=b64) g0 grid pipes 4 2 = Ok t
  /\ EdgeCellTree2d_intersect_edges g0 4 2 t c84_queries = Ok rows
  /\ In ((0, 2)%Z, Some r) rows /\ B2R (py r) = 1 /\ Rabs (B2R (px r) - 3 / 2) <= 6 * uro + eta
  /\ In ((1, 1)%Z, Some s) rows /\ B2R (px s) = 1 /\ Rabs (B2R (py s) - 1 / 2) <= 2 * uro + eta
  /\ (forall c, ~ In ((0, 0)%Z, c) rows) /\ (forall c, ~ In ((0, 5)%Z, c) rows).
Proof.
  destruct pipes_built_B64 as (t & E & _). pose proof (c56_box t E) as HK. cbv zeta in HK.
  set (K := rbox (bbox (celltree_data t))) in *. destruct HK as (K1 & K2 & K3 & K4).
  assert (V : forall n, (Z.abs n <= 8)%Z -> B2R (Zb n) = IZR n) by (intros n Hn; apply Zb_exact; lia).
  assert (SM : bpow radix2 (3 - 44) <= / 1000) by (change (bpow radix2 (3 - 44)) with (/ IZR (2 ^ 41)); change (2 ^ 41)%Z with 2199023255552%Z; lra).
  assert (S250 : bpow radix2 (-250) <= 1) by (change 1 with (bpow radix2 0); apply bpow_le; lia).
  assert (HQ : Forall (query_ok 3 (celltree_data t)) c84_queries).
  { assert (G : forall x1 y1 x2 y2 : Z, (Z.abs x1 <= 8)%Z -> (Z.abs y1 <= 8)%Z -> (Z.abs x2 <= 8)%Z -> (Z.abs y2 <= 8)%Z ->
       plain_segment (Pt (IZR x1) (IZR y1)) (Pt (IZR x2) (IZR y2)) -> corners_clear (bpow radix2 (3 - 44)) (Pt (IZR x1) (IZR y1)) (Pt (IZR x2) (IZR y2)) K ->
       query_ok 3 (celltree_data t) (Pt (Zb x1) (Zb y1), Pt (Zb x2) (Zb y2))).
    { intros x1 y1 x2 y2 B1 B2 B3 B4 PS CC. unfold query_ok, rp. cbn [fst snd px py]. rewrite !V by assumption.
      split; [split; apply bounded_Zb; lia|]. split; [split; apply bounded_Zb; lia|]. split; [exact PS|exact CC]. }
    constructor; [|constructor; [|constructor]]; apply G; try lia.
    - split; [right|left]; cbn [px py]; [rewrite Rabs_pos_eq; lra|reflexivity].
    - intros x v (s & Hs & ->) (Hx & Hy) (C1 & C2). apply Rabs_le_iff in C1, C2. cbn [px py at_] in *. destruct Hx as [Hx|Hx], Hy as [Hy|Hy]; lra.
    - split; [left|right]; cbn [px py]; [reflexivity|]. replace (-3 - 6) with (- (9)) by ring. rewrite Rabs_Ropp, Rabs_pos_eq; lra.
    - intros x v (s & Hs & ->) (Hx & Hy) (C1 & C2). apply Rabs_le_iff in C1, C2. cbn [px py at_] in *. destruct Hx as [Hx|Hx], Hy as [Hy|Hy]; lra. }
  assert (BG : bounded_vertices 3 (@grid b64 _)) by (apply zbounded; [lia|vm_compute; reflexivity]).
  assert (SG : spread (bpow radix2 (3 - 4)) (@grid b64 _)).
  { exists (ptZ (0, 0)%Z), (ptZ (3, 2)%Z). split; [now left|]. split; [apply (nth_error_In _ 11); reflexivity|].
    left. cbn [ptZ px py fst snd nofZ NumB64]. rewrite !V by lia. change (bpow radix2 (3 - 4)) with (/ 2). lra. }
  destruct (C84_network_overlap 3 g0 grid pipes 4 2 t ltac:(lia) pipes_network_B64 BG SG E c84_queries HQ) as (rows & HR & HX).
  assert (RP : forall x1 y1 x2 y2 : Z, (Z.abs x1 <= 8)%Z -> (Z.abs y1 <= 8)%Z -> (Z.abs x2 <= 8)%Z -> (Z.abs y2 <= 8)%Z ->
     (x1 <> x2 \/ y1 <> y2) -> rp (Pt (Zb x1) (Zb y1)) <> rp (Pt (Zb x2) (Zb y2))).
  { intros x1 y1 x2 y2 B1 B2 B3 B4 N X. apply rp_eq in X. cbn [px py] in X. rewrite !V in X by assumption. destruct X as (X & Y). apply eq_IZR in X, Y. lia. }
  assert (EO : forall (i j : Z) x1 y1 x2 y2, (0 <= i)%Z -> (0 <= j)%Z ->
     nth_error (@grid b64 _) (Z.to_nat i) = Some (Pt (Zb x1) (Zb y1)) -> nth_error (@grid b64 _) (Z.to_nat j) = Some (Pt (Zb x2) (Zb y2)) ->
     edge_of (@grid b64 _) [i; j] (Pt (Zb x1) (Zb y1)) (Pt (Zb x2) (Zb y2))).
  { intros i j x1 y1 x2 y2 Hi Hj E1 E2. exists i, j. auto. }
  destruct (HX 0%Z 2%Z (Pt (Zb (-3)) (Zb 1)) (Pt (Zb 6) (Zb 1)) [5; 6]%Z (Pt (Zb 1) (Zb 1)) (Pt (Zb 2) (Zb 1))) as (H1 & _);
    [lia|reflexivity|lia|reflexivity|apply EO; [lia|lia|reflexivity|reflexivity]|apply RP; lia|apply RP; lia|].
  destruct (HX 1%Z 1%Z (Pt (Zb 1) (Zb 6)) (Pt (Zb 1) (Zb (-3))) [1; 5]%Z (Pt (Zb 1) (Zb 0)) (Pt (Zb 1) (Zb 1))) as (_ & H2 & _);
    [lia|reflexivity|lia|reflexivity|apply EO; [lia|lia|reflexivity|reflexivity]|apply RP; lia|apply RP; lia|].
  destruct (HX 0%Z 0%Z (Pt (Zb (-3)) (Zb 1)) (Pt (Zb 6) (Zb 1)) [0; 1]%Z (Pt (Zb 0) (Zb 0)) (Pt (Zb 1) (Zb 0))) as (_ & _ & H3);
    [lia|reflexivity|lia|reflexivity|apply EO; [lia|lia|reflexivity|reflexivity]|apply RP; lia|apply RP; lia|].
  destruct (HX 0%Z 5%Z (Pt (Zb (-3)) (Zb 1)) (Pt (Zb 6) (Zb 1)) [8; 9]%Z (Pt (Zb 0) (Zb 2)) (Pt (Zb 1) (Zb 2))) as (_ & _ & H4);
    [lia|reflexivity|lia|reflexivity|apply EO; [lia|lia|reflexivity|reflexivity]|apply RP; lia|apply RP; lia|].
  unfold horizontal, vertical in H1, H2, H3, H4. cbn [px py] in H1, H2, H3, H4. rewrite !V in H1, H2, H3, H4 by lia.
  assert (M1 : Rmax (Rmin (-3) 6) (Rmin 1 2) = 1 /\ Rmin (Rmax (-3) 6) (Rmax 1 2) = 2).
  { rewrite (Rmin_left (-3) 6), (Rmin_left 1 2), (Rmax_right (-3) 6), (Rmax_right 1 2), Rmax_right, Rmin_right by lra. auto. }
  assert (M2 : Rmax (Rmin 6 (-3)) (Rmin 0 1) = 0 /\ Rmin (Rmax 6 (-3)) (Rmax 0 1) = 1).
  { rewrite (Rmin_right 6 (-3)), (Rmin_left 0 1), (Rmax_left 6 (-3)), (Rmax_right 0 1), Rmax_right, Rmin_right by lra. auto. }
  destruct M1 as (M1 & M1'), M2 as (M2 & M2').
  destruct H1 as (r & R1 & _ & R2 & R3). { split; [split; reflexivity|]. split; [reflexivity|]. unfold overlap. rewrite M1, M1'. lra. }
  destruct H2 as (s & S1 & _ & S2 & S3). { split; [split; reflexivity|]. split; [reflexivity|]. unfold overlap. rewrite M2, M2'. lra. }
  exists t, rows, r, s. split; [exact E|]. split; [apply HR; lia|]. split; [exact R1|]. split; [exact R2|]. split.
  { destruct R3 as (_ & _ & R3). unfold middle in R3. rewrite M1, M1' in R3. replace ((1 + 2) / 2) with (3 / 2) in R3 by lra. rewrite (Rabs_pos_eq (3 / 2)) in R3 by lra. lra. }
  split; [exact S1|]. split; [exact S2|]. split.
  { destruct S3 as (_ & _ & S3). unfold middle in S3. rewrite M2, M2' in S3. replace ((0 + 1) / 2) with (1 / 2) in S3 by lra. rewrite (Rabs_pos_eq (1 / 2)) in S3 by lra. lra. }
  split; [apply H3|apply H4]; left; (split; [split; reflexivity|]); lra.
Qed.

(** The midpoint of a descending overlap is not reported, although the overlap is: the segments from
    (0, 3) to (2, 1) and from (1, 2) to (3, 0). *)
Theorem C84_descending_refuted : exists a b p q m : point b64,
  bpt 2 a /\ bpt 2 b /\ bpt 2 p /\ bpt 2 q /\ on_segment (rp a) (rp b) (rp m) /\ on_segment (rp p) (rp q) (rp m)
  /\ lines_intersect a b p q = Ok (true, None).
Proof.
  assert (V : forall n, (Z.abs n <= 8)%Z -> B2R (Zb n) = IZR n) by (intros n Hn; apply Zb_exact; lia).
  exists (Pt (Zb 0) (Zb 3)), (Pt (Zb 2) (Zb 1)), (Pt (Zb 1) (Zb 2)), (Pt (Zb 3) (Zb 0)), (Pt (Zb 1) (Zb 2)).
  split; [split; apply bounded_Zb; lia|]. split; [split; apply bounded_Zb; lia|]. split; [split; apply bounded_Zb; lia|].
  split; [split; apply bounded_Zb; lia|]. unfold rp. cbn [px py]. rewrite !V by lia. split; [|split].
  - exists (/ 2). split; [lra|]. unfold at_. cbn [px py]. f_equal; lra.
  - exists 0. split; [lra|]. unfold at_. cbn [px py]. f_equal; lra.
  - vm_compute. reflexivity.
Qed.

Print Assumptions C84_midpoint_between.
Print Assumptions C84_other_line.
Print Assumptions C84_axis_overlap.
Print Assumptions C84_network_overlap.
Print Assumptions C84_descending_refuted.
Print Assumptions C84_example.
