(** Magnitudes: for moderate coordinates, widening a box stays finite. *)
From Coq Require Import Reals Lra Psatz.
From Flocq Require Import IEEE754.BinarySingleNaN Core.
From Verif Require Import Base Num NumR NumB64 MUtils SpecQuery SpecApi.
Open Scope Z_scope.

(** finite and at most 2^k in magnitude *)
Definition bounded (k : Z) (x : b64) : Prop :=
  is_finite x = true /\ (Rabs (B2R x) <= bpow radix2 k)%R.

Lemma round_bound (z : R) k : -1074 <= k < 1024 -> (Rabs z <= bpow radix2 k)%R ->
  (Rabs (round radix2 (SpecFloat.fexp prec emax) (round_mode mode_NE) z) <= bpow radix2 k)%R.
Proof.
  intros Hk Hz. apply abs_round_le_generic; auto.
  - apply fexp_correct. exact prec_gt.
  - exact _.
  - apply generic_format_bpow. unfold SpecFloat.fexp, SpecFloat.emin, prec, emax. lia.
Qed.

Lemma no_overflow (z : R) k : -1074 <= k < 1024 -> (Rabs z <= bpow radix2 k)%R ->
  Rlt_bool (Rabs (round radix2 (SpecFloat.fexp prec emax) (round_mode mode_NE) z)) (bpow radix2 emax) = true.
Proof.
  intros Hk Hz. apply Rlt_bool_true.
  eapply Rle_lt_trans; [apply (round_bound z k Hk Hz)|]. apply bpow_lt. unfold emax. lia.
Qed.

Lemma bounded_minus k x y : -1074 <= k < 1023 -> bounded k x -> bounded k y ->
  bounded (k + 1) (Bminus mode_NE x y).
Proof.
  intros Hk (Fx & Bx) (Fy & By).
  assert (Hz : (Rabs (B2R x - B2R y) <= bpow radix2 (k + 1))%R).
  { rewrite bpow_plus. change (bpow radix2 1) with 2%R. revert Bx By.
    unfold Rabs; repeat destruct Rcase_abs; lra. }
  pose proof (Bminus_correct prec emax prec_gt prec_lt mode_NE x y Fx Fy) as H.
  rewrite (no_overflow _ (k + 1)) in H; auto; try lia. destruct H as (HR & HF & _).
  split; auto. rewrite HR. apply round_bound; auto; lia.
Qed.

Lemma bounded_plus k x y : -1074 <= k < 1023 -> bounded k x -> bounded k y ->
  bounded (k + 1) (Bplus mode_NE x y).
Proof.
  intros Hk (Fx & Bx) (Fy & By).
  assert (Hz : (Rabs (B2R x + B2R y) <= bpow radix2 (k + 1))%R).
  { rewrite bpow_plus. change (bpow radix2 1) with 2%R. revert Bx By.
    unfold Rabs; repeat destruct Rcase_abs; lra. }
  pose proof (Bplus_correct prec emax prec_gt prec_lt mode_NE x y Fx Fy) as H.
  rewrite (no_overflow _ (k + 1)) in H; auto; try lia. destruct H as (HR & HF & _).
  split; auto. rewrite HR. apply round_bound; auto; lia.
Qed.

Lemma bounded_mult k x y : -1074 <= k < 1024 -> bounded 0 x -> bounded k y ->
  bounded k (Bmult mode_NE x y).
Proof.
  intros Hk (Fx & Bx) (Fy & By). simpl in Bx.
  assert (Hz : (Rabs (B2R x * B2R y) <= bpow radix2 k)%R).
  { rewrite Rabs_mult. replace (bpow radix2 k) with (1 * bpow radix2 k)%R by ring.
    apply Rmult_le_compat; auto using Rabs_pos. }
  pose proof (Bmult_correct prec emax prec_gt prec_lt mode_NE x y) as H.
  rewrite (no_overflow _ k) in H; auto. destruct H as (HR & HF & _).
  split; [rewrite HF, Fx, Fy; reflexivity|]. rewrite HR. apply round_bound; auto.
Qed.

Lemma bounded_nmax k (x y : b64) : bounded k x -> bounded k y -> bounded k (nmax x y).
Proof. intros. unfold nmax. destruct (nltb x y); auto. Qed.

Lemma bounded_mono k k' x : k <= k' -> bounded k x -> bounded k' x.
Proof. intros H (F & B). split; auto. eapply Rle_trans; [exact B|]. now apply bpow_le. Qed.

Lemma mintol_bounded : bounded 0 (@nmintol _ NumB64).
Proof.
  split; [vm_compute; reflexivity|].
  replace (@nmintol _ NumB64) with (B754_finite (prec:=prec) (emax:=emax) false 5070602400912918 (-102) eq_refl).
  - cbn [B2R cond_Zopp]. apply Rlt_le. apply (F2R_lt_bpow radix2 (Float radix2 5070602400912918 (-102)) 0). vm_compute. reflexivity.
  - apply B2SF_inj. vm_compute. reflexivity.
Qed.
Lemma tolfac_bounded : bounded 0 (@ntolfac _ NumB64).
Proof.
  split; [vm_compute; reflexivity|].
  replace (@ntolfac _ NumB64) with (B754_finite (prec:=prec) (emax:=emax) false 4951760157141521 (-92) eq_refl).
  - cbn [B2R cond_Zopp]. apply Rlt_le. apply (F2R_lt_bpow radix2 (Float radix2 4951760157141521 (-92)) 0). vm_compute. reflexivity.
  - apply B2SF_inj. vm_compute. reflexivity.
Qed.

Lemma bounded_canonical_digits m e : SpecFloat.bounded prec emax m e = true ->
  Z.pos (digits2_pos m) <= 53.
Proof.
  unfold SpecFloat.bounded, SpecFloat.canonical_mantissa. intros H. apply andb_prop in H as (H & _).
  apply Zeq_bool_eq in H. unfold SpecFloat.fexp, SpecFloat.emin, prec, emax in H.
  change digits2_pos with SpecFloat.digits2_pos. lia.
Qed.

(** a computable sufficient condition *)
Definition smallb (x : b64) : bool :=
  match x with
  | B754_zero _ => true
  | B754_finite _ m e _ => e <=? 900
  | _ => false
  end.
Lemma smallb_bounded x : smallb x = true -> bounded 1000 x.
Proof.
  destruct x as [s| | |s m e H]; simpl; try discriminate.
  - intros _. split; auto. cbn [B2R]. rewrite Rabs_R0. apply bpow_ge_0.
  - intros He. split; auto. cbn [B2R].
    apply Rlt_le. apply F2R_lt_bpow. cbn [Fnum Fexp]. rewrite abs_cond_Zopp.
    assert (Hd : Z.pos (digits2_pos m) <= 53).
    { pose proof (bounded_canonical_digits _ _ H). assumption. }
    cbn [Z.abs]. pose proof (Zpos_digits2_pos m) as Hz. rewrite Hz in Hd.
    pose proof (Zdigits_correct radix2 (Z.pos m)) as (_ & Hu). cbn [Z.abs] in Hu.
    eapply Z.lt_le_trans; [exact Hu|]. apply Zpower_le. lia.
Qed.

(** Vertex coordinates up to 2^1000 leave room *)
Definition moderate (vs : list (point b64)) : Prop :=
  Forall (fun p => bounded 1000 (px p) /\ bounded 1000 (py p)) vs.

Lemma moderate_room vs tol : moderate vs -> extent_tol vs tol -> room tol vs.
Proof.
  intros Hm (x0 & x1 & y0 & y1 & I1 & I2 & I3 & I4 & _ & ->).
  assert (Hx : forall x, In x (map px vs) -> bounded 1000 x).
  { intros x H. apply in_map_iff in H as (p & <- & Hp). unfold moderate in Hm.
    rewrite Forall_forall in Hm. now apply Hm. }
  assert (Hy : forall y, In y (map py vs) -> bounded 1000 y).
  { intros x H. apply in_map_iff in H as (p & <- & Hp). unfold moderate in Hm.
    rewrite Forall_forall in Hm. now apply Hm. }
  set (tol := nmax _ _).
  assert (Ht : bounded 1001 tol).
  { apply bounded_nmax; [apply (bounded_mono 0); [lia|apply mintol_bounded]|].
    apply bounded_mult; [lia|apply tolfac_bounded|].
    apply bounded_nmax; apply (bounded_minus 1000); auto; lia. }
  unfold room. rewrite Forall_forall. intros p Hp. unfold moderate in Hm. rewrite Forall_forall in Hm.
  destruct (Hm p Hp) as (A & B).
  apply (bounded_mono 1000 1001) in A; [|lia]. apply (bounded_mono 1000 1001) in B; [|lia].
  repeat split.
  - apply (bounded_minus 1001); auto; lia.
  - apply (bounded_plus 1001); auto; lia.
  - apply (bounded_minus 1001); auto; lia.
  - apply (bounded_plus 1001); auto; lia.
Qed.

(** The same over the reals, up to FMAX / 4 *)
Open Scope R_scope.
Definition moderate_R (vs : list (point R)) : Prop :=
  Forall (fun p => - (FMAX / 4) <= px p <= FMAX / 4 /\ - (FMAX / 4) <= py p <= FMAX / 4) vs.

Lemma FMAX_ge1 : 100 <= FMAX.
Proof. unfold FMAX. apply IZR_le. apply Z.leb_le. vm_compute. reflexivity. Qed.

Lemma moderate_room_R vs tol : moderate_R vs -> extent_tol vs tol -> room tol vs.
Proof.
  pose proof FMAX_ge1 as HF.
  intros Hm (x0 & x1 & y0 & y1 & I1 & I2 & I3 & I4 & _ & ->).
  assert (Hx : forall x, In x (map px vs) -> - (FMAX / 4) <= x <= FMAX / 4).
  { intros x H. apply in_map_iff in H as (p & <- & Hp). unfold moderate_R in Hm.
    rewrite Forall_forall in Hm. now apply Hm. }
  assert (Hy : forall y, In y (map py vs) -> - (FMAX / 4) <= y <= FMAX / 4).
  { intros x H. apply in_map_iff in H as (p & <- & Hp). unfold moderate_R in Hm.
    rewrite Forall_forall in Hm. now apply Hm. }
  apply Hx in I1, I2. apply Hy in I3, I4.
  set (tol := nmax _ _).
  assert (Ht : - (FMAX / 2) <= tol <= FMAX / 2).
  { unfold tol, nmax. cbn. destruct (Rlt_bool (x1 - x0) (y1 - y0));
      destruct (Rlt_bool _ _); lra. }
  unfold room. rewrite Forall_forall. intros p Hp. unfold moderate_R in Hm. rewrite Forall_forall in Hm.
  destruct (Hm p Hp) as (A & B). cbn. lra.
Qed.
