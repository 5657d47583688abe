(** Exact real arithmetic instance of the number class. *)
From Coq Require Export Reals.
From Coq Require Import Lra.
From Flocq Require Import Core.Raux.
From Verif Require Import Base Num.
Open Scope R_scope.

(** FLOAT_MAX of binary64: (2 - 2^-52) * 2^1023 = 2^1024 - 2^971 *)
Definition FMAX : R := IZR (2 ^ 1024 - 2 ^ 971)%Z.

#[export] Instance NumR : Num R := {
  nadd := Rplus;
  nsub := Rminus;
  nmul := Rmult;
  ndivraw := Rdiv;
  nopp := Ropp;
  nabs := Rabs;
  nsqrt := sqrt;
  nltb := Rlt_bool;
  nleb := Rle_bool;
  neqb := Req_bool;
  nofZ := IZR;
  nhalf := / 2;
  nfmax := FMAX;
  nfmin := - FMAX;
  nmintol := / 1000000000000000;
  ntolfac := / 1000000000000
}.

#[export] Instance NumOrdR : NumOrd R.
Proof.
  refine (Build_NumOrd R NumR (fun x => - FMAX <= x <= FMAX) _ _ _ _ _ _ _ _ _ _ _ _).
  - intros x y z. simpl. do 3 case Rle_bool_spec; intros; auto; try discriminate. lra.
  - intros x y. simpl. case Rle_bool_spec; case Rlt_bool_spec; intros; auto; try discriminate. lra.
  - intros x y z. simpl. case Rle_bool_spec; do 2 case Rlt_bool_spec; intros; auto; try discriminate. lra.
  - intros x y z. simpl. case Rle_bool_spec; do 2 case Rlt_bool_spec; intros; auto; try discriminate. lra.
  - intros x _. apply Rle_bool_true, Rle_refl.
  - intros x _. simpl. now apply Req_bool_true.
  - intros x y _ _. simpl. case Rlt_bool_spec; case Rle_bool_spec; intros; auto; lra.
  - intros x y _ _. simpl. do 2 case Rle_bool_spec; intros; auto; lra.
  - assert (0 <= FMAX) by (unfold FMAX; apply IZR_le; vm_compute; discriminate).
    simpl. lra.
  - assert (0 <= FMAX) by (unfold FMAX; apply IZR_le; vm_compute; discriminate).
    simpl. lra.
  - intros x H. simpl. apply Rle_bool_true. lra.
  - intros x H. simpl. apply Rle_bool_true. lra.
Defined.

(** Reading boolean comparisons as propositions *)
Lemma Rltb_iff (x y : R) : Rlt_bool x y = true <-> x < y.
Proof. case Rlt_bool_spec; intros; split; intros; auto; try discriminate; lra. Qed.
Lemma Rltb_false (x y : R) : Rlt_bool x y = false <-> y <= x.
Proof. case Rlt_bool_spec; intros; split; intros; auto; try discriminate; lra. Qed.
Lemma Rleb_iff (x y : R) : Rle_bool x y = true <-> x <= y.
Proof. case Rle_bool_spec; intros; split; intros; auto; try discriminate; lra. Qed.
Lemma Rleb_false (x y : R) : Rle_bool x y = false <-> y < x.
Proof. case Rle_bool_spec; intros; split; intros; auto; try discriminate; lra. Qed.
Lemma Reqb_iff (x y : R) : Req_bool x y = true <-> x = y.
Proof. case Req_bool_spec; intros; split; intros; auto; try discriminate; lra. Qed.
Lemma Reqb_false (x y : R) : Req_bool x y = false <-> x <> y.
Proof. case Req_bool_spec; intros; split; intros; auto; try discriminate; congruence. Qed.

Lemma ndiv_R (x y : R) : y <> 0 -> ndiv x y = Ok (x / y).
Proof. intros H. unfold ndiv. simpl. rewrite Req_bool_false; auto. Qed.
