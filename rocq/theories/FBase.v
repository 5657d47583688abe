(** Rounding errors of the binary64 operations, away from overflow. *)
From Coq Require Import Reals Lra Psatz.
From Flocq Require Import IEEE754.BinarySingleNaN Core Plus_error Relative.
From Verif Require Import Base Num NumR NumB64 NumRoom.
Open Scope R_scope.

(** unit roundoff, and the largest error of an underflowing operation *)
Definition uro : R := bpow radix2 (-53).
Definition eta : R := bpow radix2 (-1075).

Lemma uro_val : uro = / 9007199254740992.
Proof. reflexivity. Qed.
Lemma uro_pos : 0 < uro.
Proof. apply bpow_gt_0. Qed.
Lemma eta_pos : 0 < eta.
Proof. apply bpow_gt_0. Qed.

Notation rnd := (round radix2 (SpecFloat.fexp prec emax) (round_mode mode_NE)).

Lemma rnd_plus (x y : b64) : exists e, Rabs e <= uro /\ rnd (B2R x + B2R y) = (B2R x + B2R y) * (1 + e).
Proof.
  destruct (FLT_plus_error_N_ex radix2 (3 - emax - prec) prec (fun x => negb (Z.even x)) (B2R x) (B2R y)) as (e & He & E).
  - apply (generic_format_B2R prec emax x).
  - apply (generic_format_B2R prec emax y).
  - exists e. split; [|exact E]. eapply Rle_trans; [exact He|].
    unfold u_ro. replace (/ 2 * bpow radix2 (- prec + 1)) with uro by (rewrite uro_val; simpl; lra).
    rewrite uro_val. apply Rmult_le_reg_r with (1 + / 9007199254740992); [lra|].
    unfold Rdiv. rewrite Rmult_assoc, Rinv_l; lra.
Qed.

Lemma rnd_minus (x y : b64) : exists e, Rabs e <= uro /\ rnd (B2R x - B2R y) = (B2R x - B2R y) * (1 + e).
Proof.
  destruct (rnd_plus x (Bopp y)) as (e & He & E). rewrite B2R_Bopp in E. exists e. split; auto.
Qed.

Lemma rnd_any (z : R) : exists e h, Rabs e <= uro /\ Rabs h <= eta /\ rnd z = z * (1 + e) + h.
Proof.
  destruct (error_N_FLT radix2 (3 - emax - prec) prec prec_gt (fun x => negb (Z.even x)) z) as (e & h & He & Hh & _ & E).
  exists e, h. split; [|split; [|exact E]].
  - eapply Rle_trans; [exact He|]. rewrite uro_val. simpl. lra.
  - eapply Rle_trans; [exact Hh|]. unfold eta. replace (-1075)%Z with (-1 + (3 - emax - prec))%Z by reflexivity.
    rewrite bpow_plus. right. reflexivity.
Qed.

Lemma rnd_ge (z : R) (x : b64) : B2R x <= z -> B2R x <= rnd z.
Proof.
  intros H. rewrite <- (round_generic radix2 (SpecFloat.fexp prec emax) (round_mode mode_NE) (B2R x)).
  - apply round_le; auto; [apply fexp_correct; exact prec_gt|exact _].
  - apply generic_format_B2R.
Qed.
Lemma rnd_le (z : R) (x : b64) : z <= B2R x -> rnd z <= B2R x.
Proof.
  intros H. rewrite <- (round_generic radix2 (SpecFloat.fexp prec emax) (round_mode mode_NE) (B2R x)).
  - apply round_le; auto; [apply fexp_correct; exact prec_gt|exact _].
  - apply generic_format_B2R.
Qed.
Lemma rnd_mono (z z' : R) : z <= z' -> rnd z <= rnd z'.
Proof. intros H. apply round_le; auto; [apply fexp_correct; exact prec_gt|exact _]. Qed.
Lemma rnd_0 : rnd 0 = 0.
Proof. apply round_0. exact _. Qed.

Section Ops.
  Local Notation bounded := NumRoom.bounded.

  (** the value of an operation that does not overflow *)
  Lemma plus_val k (x y : b64) : (-1074 <= k < 1024)%Z -> is_finite x = true -> is_finite y = true ->
    Rabs (B2R x + B2R y) <= bpow radix2 k ->
    B2R (nadd x y) = rnd (B2R x + B2R y) /\ bounded k (nadd x y).
  Proof.
    intros Hk Fx Fy Hz. pose proof (Bplus_correct prec emax prec_gt prec_lt mode_NE x y Fx Fy) as H.
    rewrite (no_overflow _ k) in H; auto. destruct H as (HR & HF & _).
    split; [exact HR|]. split; [exact HF|]. cbn [nadd NumB64]. rewrite HR. apply round_bound; auto.
  Qed.
  Lemma minus_val k (x y : b64) : (-1074 <= k < 1024)%Z -> is_finite x = true -> is_finite y = true ->
    Rabs (B2R x - B2R y) <= bpow radix2 k ->
    B2R (nsub x y) = rnd (B2R x - B2R y) /\ bounded k (nsub x y).
  Proof.
    intros Hk Fx Fy Hz. pose proof (Bminus_correct prec emax prec_gt prec_lt mode_NE x y Fx Fy) as H.
    rewrite (no_overflow _ k) in H; auto. destruct H as (HR & HF & _).
    split; [exact HR|]. split; [exact HF|]. cbn [nsub NumB64]. rewrite HR. apply round_bound; auto.
  Qed.
  Lemma mult_val k (x y : b64) : (-1074 <= k < 1024)%Z -> is_finite x = true -> is_finite y = true ->
    Rabs (B2R x * B2R y) <= bpow radix2 k ->
    B2R (nmul x y) = rnd (B2R x * B2R y) /\ bounded k (nmul x y).
  Proof.
    intros Hk Fx Fy Hz. pose proof (Bmult_correct prec emax prec_gt prec_lt mode_NE x y) as H.
    rewrite (no_overflow _ k) in H; auto. destruct H as (HR & HF & _). rewrite Fx, Fy in HF.
    split; [exact HR|]. split; [exact HF|]. cbn [nmul NumB64]. rewrite HR. apply round_bound; auto.
  Qed.
  Lemma div_val k (x y : b64) : (-1074 <= k < 1024)%Z -> is_finite x = true -> is_finite y = true -> B2R y <> 0 ->
    Rabs (B2R x / B2R y) <= bpow radix2 k ->
    ndiv x y = Ok (ndivraw x y) /\ B2R (ndivraw x y) = rnd (B2R x / B2R y) /\ bounded k (ndivraw x y).
  Proof.
    intros Hk Fx Fy Hy Hz. pose proof (Bdiv_correct prec emax prec_gt prec_lt mode_NE x y Hy) as H.
    rewrite (no_overflow _ k) in H; auto. destruct H as (HR & HF & _). rewrite Fx in HF.
    split; [|split; [exact HR|]].
    - unfold ndiv. cbn [neqb nofZ NumB64]. rewrite Beqb_correct; auto.
      rewrite Raux.Req_bool_false; auto.
    - split; [exact HF|]. cbn [ndivraw NumB64]. rewrite HR. apply round_bound; auto.
  Qed.

  (** the same with relative errors *)
  Lemma plus_err k (x y : b64) : (-1074 <= k < 1024)%Z -> is_finite x = true -> is_finite y = true ->
    Rabs (B2R x + B2R y) <= bpow radix2 k ->
    bounded k (nadd x y) /\ exists e, Rabs e <= uro /\ B2R (nadd x y) = (B2R x + B2R y) * (1 + e).
  Proof.
    intros Hk Fx Fy Hz. destruct (plus_val k x y Hk Fx Fy Hz) as (E & B). split; auto.
    rewrite E. apply rnd_plus.
  Qed.
  Lemma minus_err k (x y : b64) : (-1074 <= k < 1024)%Z -> is_finite x = true -> is_finite y = true ->
    Rabs (B2R x - B2R y) <= bpow radix2 k ->
    bounded k (nsub x y) /\ exists e, Rabs e <= uro /\ B2R (nsub x y) = (B2R x - B2R y) * (1 + e).
  Proof.
    intros Hk Fx Fy Hz. destruct (minus_val k x y Hk Fx Fy Hz) as (E & B). split; auto.
    rewrite E. apply rnd_minus.
  Qed.
  Lemma mult_err k (x y : b64) : (-1074 <= k < 1024)%Z -> is_finite x = true -> is_finite y = true ->
    Rabs (B2R x * B2R y) <= bpow radix2 k ->
    bounded k (nmul x y) /\ exists e h, Rabs e <= uro /\ Rabs h <= eta /\ B2R (nmul x y) = B2R x * B2R y * (1 + e) + h.
  Proof.
    intros Hk Fx Fy Hz. destruct (mult_val k x y Hk Fx Fy Hz) as (E & B). split; auto.
    rewrite E. apply rnd_any.
  Qed.
  Lemma div_err k (x y : b64) : (-1074 <= k < 1024)%Z -> is_finite x = true -> is_finite y = true -> B2R y <> 0 ->
    Rabs (B2R x / B2R y) <= bpow radix2 k ->
    ndiv x y = Ok (ndivraw x y) /\ bounded k (ndivraw x y)
    /\ exists e h, Rabs e <= uro /\ Rabs h <= eta /\ B2R (ndivraw x y) = B2R x / B2R y * (1 + e) + h.
  Proof.
    intros Hk Fx Fy Hy Hz. destruct (div_val k x y Hk Fx Fy Hy Hz) as (D & E & B). split; auto. split; auto.
    rewrite E. apply rnd_any.
  Qed.

  (** comparisons of finite numbers *)
  Lemma nleb_B (x y : b64) : is_finite x = true -> is_finite y = true -> nleb x y = Rle_bool (B2R x) (B2R y).
  Proof. intros. cbn. now apply Bleb_correct. Qed.
  Lemma nltb_B (x y : b64) : is_finite x = true -> is_finite y = true -> nltb x y = Rlt_bool (B2R x) (B2R y).
  Proof. intros. cbn. now apply Bltb_correct. Qed.
  Lemma neqb_B (x y : b64) : is_finite x = true -> is_finite y = true -> neqb x y = Req_bool (B2R x) (B2R y).
  Proof. intros. cbn. now apply Beqb_correct. Qed.

  (** integers up to 2^53 are exact *)
  Lemma Zb_exact n : (Z.abs n <= 2 ^ 53)%Z -> is_finite (Zb n) = true /\ B2R (Zb n) = IZR n.
  Proof.
    intros Hn.
    pose proof (binary_normalize_correct prec emax prec_gt prec_lt mode_NE n 0 false) as H.
    assert (Hg : generic_format radix2 (SpecFloat.fexp prec emax) (F2R (Float radix2 n 0))).
    { apply generic_format_FLT. destruct (Z.eq_dec (Z.abs n) (2 ^ 53)) as [E|E].
      - assert (Hs : n = (Z.sgn n * 2 ^ 53)%Z) by (rewrite <- E; rewrite Z.mul_comm; symmetry; apply Z.abs_sgn).
        apply (FLT_spec _ _ _ _ (Float radix2 (Z.sgn n * 2 ^ 52) 1)).
        + rewrite Hs at 1. unfold F2R. cbn [Fnum Fexp]. change (bpow radix2 0) with 1. change (bpow radix2 1) with 2.
          rewrite Rmult_1_r, <- mult_IZR. f_equal. ring.
        + cbn [Fnum]. destruct n; cbn [Z.sgn]; vm_compute; reflexivity.
        + cbn [Fexp]. unfold SpecFloat.emin, emax, prec. lia.
      - apply (FLT_spec _ _ _ _ (Float radix2 n 0)); [reflexivity| |].
        + cbn [Fnum]. change (Zpower radix2 prec) with (2 ^ 53)%Z. lia.
        + cbn [Fexp]. unfold SpecFloat.emin, emax, prec. lia. }
    cbv zeta in H. rewrite (round_generic radix2 (SpecFloat.fexp prec emax) (round_mode mode_NE) _ Hg) in H.
    assert (E0 : F2R (Float radix2 n 0) = IZR n) by (unfold F2R; cbn [Fnum Fexp]; change (bpow radix2 0) with 1; ring).
    rewrite E0 in H. rewrite Rlt_bool_true in H.
    - destruct H as (H & HF & _). split; [exact HF|]. exact H.
    - eapply Rle_lt_trans with (bpow radix2 53); [|apply bpow_lt; reflexivity].
      rewrite <- abs_IZR. change (bpow radix2 53) with (IZR (2 ^ 53)). now apply IZR_le.
  Qed.

  Lemma half_B : is_finite (nhalf : b64) = true /\ B2R (nhalf : b64) = / 2.
  Proof.
    split; [vm_compute; reflexivity|].
    replace (nhalf : b64) with (B754_finite (prec:=prec) (emax:=emax) false 4503599627370496 (-53) eq_refl).
    - cbn [B2R cond_Zopp]. unfold F2R. cbn [Fnum Fexp]. simpl. lra.
    - apply B2SF_inj. vm_compute. reflexivity.
  Qed.
End Ops.
