(** The abstract number type of the model.

    The library computes with numpy.float64 (constants.py:27-28).  The model is
    written once over a class of operations without any laws and is
    instantiated with exact reals (NumR.v) and IEEE binary64 (NumB64.v). *)
From Verif Require Import Base.

Class Num (T : Type) := {
  nadd : T -> T -> T;
  nsub : T -> T -> T;
  nmul : T -> T -> T;
  ndivraw : T -> T -> T;       (* float division, no exception *)
  nopp : T -> T;
  nabs : T -> T;
  nsqrt : T -> T;
  nltb : T -> T -> bool;       (* x < y,  false on NaN *)
  nleb : T -> T -> bool;       (* x <= y, false on NaN *)
  neqb : T -> T -> bool;       (* x == y, false on NaN *)
  nofZ : Z -> T;               (* int -> float conversion *)
  nhalf : T;                   (* 0.5 *)
  nfmax : T;                   (* constants.py:150 FLOAT_MAX *)
  nfmin : T;                   (* constants.py:149 FLOAT_MIN *)
  nmintol : T;                 (* constants.py:146 MIN_TOLERANCE = 1e-15 *)
  ntolfac : T                  (* constants.py:147 TOLERANCE_FACTOR = 1e-12 *)
}.

Declare Scope num_scope.
Delimit Scope num_scope with num.
Notation "x + y" := (nadd x y) : num_scope.
Notation "x - y" := (nsub x y) : num_scope.
Notation "x * y" := (nmul x y) : num_scope.
Notation "- x" := (nopp x) : num_scope.
Notation "x <? y" := (nltb x y) : num_scope.
Notation "x <=? y" := (nleb x y) : num_scope.
Notation "x >? y" := (nltb y x) (only parsing) : num_scope.
Notation "x >=? y" := (nleb y x) (only parsing) : num_scope.
Notation "x =? y" := (neqb x y) : num_scope.
Notation "0" := (nofZ 0) : num_scope.
Notation "1" := (nofZ 1) : num_scope.
Notation "2" := (nofZ 2) : num_scope.

Section Ops.
  Context {T : Type} {NT : Num T}.

  (** Float division as compiled by numba with its default error model
      ("python"): a zero divisor raises ZeroDivisionError. *)
  Definition ndiv (x y : T) : res T :=
    if neqb y (nofZ 0) then Err EZeroDiv else Ok (ndivraw x y).

  (** Python / numba builtin [min], [max] of two values: the second value is
      taken only if it compares strictly smaller (larger). *)
  Definition nmin (a b : T) : T := if nltb b a then b else a.
  Definition nmax (a b : T) : T := if nltb a b then b else a.
End Ops.

(** Laws used by the tree theorems: comparisons are transitive (also for
    NaN and infinities, on which they are false or as expected), the finite
    values are totally preordered by [nleb], [nltb] is its strict part, and
    FLOAT_MIN / FLOAT_MAX bound them.  Nothing is assumed about arithmetic. *)
Class NumOrd (T : Type) {NT : Num T} := {
  fin : T -> Prop;
  nle_trans : forall x y z, nleb x y = true -> nleb y z = true -> nleb x z = true;
  nlt_le : forall x y, nltb x y = true -> nleb x y = true;
  nlt_le_trans : forall x y z, nltb x y = true -> nleb y z = true -> nltb x z = true;
  nle_lt_trans : forall x y z, nleb x y = true -> nltb y z = true -> nltb x z = true;
  fin_le_refl : forall x, fin x -> nleb x x = true;
  fin_eq_refl : forall x, fin x -> neqb x x = true;
  fin_lt_le : forall x y, fin x -> fin y -> nltb x y = negb (nleb y x);
  fin_le_total : forall x y, fin x -> fin y -> nleb x y = true \/ nleb y x = true;
  fin_fmax : fin nfmax;
  fin_fmin : fin nfmin;
  fin_le_fmax : forall x, fin x -> nleb x nfmax = true;
  fin_fmin_le : forall x, fin x -> nleb nfmin x = true
}.

Lemma fin_le_trans {T} {NT : Num T} {NO : NumOrd T} x y z : fin x -> fin y -> fin z ->
  nleb x y = true -> nleb y z = true -> nleb x z = true.
Proof. intros _ _ _. apply nle_trans. Qed.
