(** Subtraction of different numbers is not zero (gradual underflow). *)
From Coq Require Import Reals Lra Psatz.
From Flocq Require Import IEEE754.BinarySingleNaN Core Plus_error.
From Verif Require Import Base Num NumR NumB64.
Open Scope Z_scope.

(** If a number separates two finite numbers, their difference is not zero *)
Class NumSub (T : Type) {NT : Num T} {NO : NumOrd T} := {
  nsub_neq : forall p x y : T, fin x -> fin y -> nltb p x <> nltb p y ->
             neqb (nsub y x) (nofZ 0) = false
}.

#[export] Instance NumSubR : NumSub R.
Proof.
  constructor. intros p x y _ _ H. simpl in *. apply Req_bool_false. intros E. apply H.
  replace y with x by lra. reflexivity.
Qed.

Lemma Beqb_zero_false (x : b64) : is_finite x = true -> B2R x <> 0%R -> Beqb x (Zb 0) = false.
Proof.
  intros Hx H. rewrite Beqb_correct; auto. apply Raux.Req_bool_false.
  replace (B2R (Zb 0)) with 0%R; auto.
Qed.

Lemma Bminus_neq0 (x y : b64) : is_finite x = true -> is_finite y = true -> B2R x <> B2R y ->
  Beqb (Bminus mode_NE x y) (Zb 0) = false.
Proof.
  intros Hx Hy Hne.
  pose proof (Bminus_correct prec emax prec_gt prec_lt mode_NE x y Hx Hy) as H.
  destruct (Rlt_bool _ _) eqn:E in H.
  - destruct H as (HR & Hf & _). apply Beqb_zero_false; auto.
    rewrite HR. unfold Rminus.
    apply round_plus_neq_0; try exact _; try lra.
    + apply generic_format_B2R.
    + apply generic_format_opp. apply generic_format_B2R.
  - destruct H as (HS & _). destruct (Bminus mode_NE x y); simpl in HS; try discriminate.
    destruct s; reflexivity.
Qed.

#[export] Instance NumSubB64 : NumSub b64.
Proof.
  constructor. intros p x y Hx Hy H. change (fin x) with (is_finite x = true) in Hx.
  change (fin y) with (is_finite y = true) in Hy. simpl nltb in H. simpl.
  apply Bminus_neq0; auto. intros E. apply H. rewrite !Bltb_key.
  assert (bkey x = bkey y) as ->.
  { destruct x, y; try discriminate; simpl in *; auto. }
  assert (bnum x = bnum y) as ->.
  { destruct x, y; try discriminate; reflexivity. }
  reflexivity.
Qed.
