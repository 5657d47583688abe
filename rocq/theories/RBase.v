(** Tactics for the exact real instance. *)
From Coq Require Export Reals Lra Psatz.
From Flocq Require Export Core.Raux.
From Verif Require Export Base Num NumR MUtils SpecGeom.
Open Scope R_scope.

Ltac rsimp := cbn [nadd nsub nmul ndivraw nopp nabs nsqrt nltb nleb neqb nofZ nhalf nfmax nfmin
                   nmintol ntolfac NumR px py xmin xmax ymin ymax fst snd negb andb orb] in *.

(** turn boolean hypotheses into propositions *)
Ltac rb :=
  repeat match goal with
  | H : Rlt_bool _ _ = true |- _ => apply Rltb_iff in H
  | H : Rlt_bool _ _ = false |- _ => apply Rltb_false in H
  | H : Rle_bool _ _ = true |- _ => apply Rleb_iff in H
  | H : Rle_bool _ _ = false |- _ => apply Rleb_false in H
  | H : Req_bool _ _ = true |- _ => apply Reqb_iff in H
  | H : Req_bool _ _ = false |- _ => apply Reqb_false in H
  | H : (_ && _)%bool = true |- _ => apply andb_prop in H; destruct H
  | H : (_ || _)%bool = false |- _ => apply orb_false_iff in H; destruct H
  | H : negb _ = true |- _ => apply negb_true_iff in H
  | H : negb _ = false |- _ => apply negb_false_iff in H
  end.

(** case analysis on the first comparison of the goal *)
Ltac rcase :=
  match goal with
  | |- context [Rlt_bool ?a ?b] => destruct (Rlt_bool_spec a b)
  | |- context [Rle_bool ?a ?b] => destruct (Rle_bool_spec a b)
  | |- context [Req_bool ?a ?b] => destruct (Req_bool_spec a b)
  end.

Lemma pt_eq (a b : pt) : px a = px b -> py a = py b -> a = b.
Proof. destruct a, b; simpl; congruence. Qed.

Lemma pt_dec (a b : pt) : {a = b} + {a <> b}.
Proof.
  destruct (Req_EM_T (px a) (px b)); [destruct (Req_EM_T (py a) (py b))|].
  - left. now apply pt_eq.
  - right. congruence.
  - right. congruence.
Qed.

Lemma at_0 a b : at_ a b 0 = a. Proof. apply pt_eq; simpl; ring. Qed.
Lemma at_1 a b : at_ a b 1 = b. Proof. apply pt_eq; simpl; ring. Qed.
Lemma at_same a t : at_ a a t = a. Proof. apply pt_eq; simpl; ring. Qed.
Lemma at_at a b s t u : at_ (at_ a b s) (at_ a b t) u = at_ a b (s + u * (t - s)).
Proof. apply pt_eq; simpl; ring. Qed.

Lemma at_inj a b s t : a <> b -> at_ a b s = at_ a b t -> s = t.
Proof.
  intros H E. inversion E as [[E1 E2]].
  destruct (Req_dec (px b) (px a)) as [Ex|Ex].
  - destruct (Req_dec (py b) (py a)) as [Ey|Ey].
    + destruct H. now apply pt_eq.
    + apply (Rmult_eq_reg_r (py b - py a)); lra.
  - apply (Rmult_eq_reg_r (px b - px a)); lra.
Qed.

Lemma diff_zero a b : (px b - px a = 0 /\ py b - py a = 0) <-> a = b.
Proof. split; [intros (? & ?); apply pt_eq; lra|intros ->; lra]. Qed.

(** values between two numbers *)
Lemma comb_lt x y c u : 0 <= u <= 1 -> x < c -> y < c -> x + u * (y - x) < c.
Proof.
  intros Hu Hx Hy. destruct (Req_dec u 0) as [->|Hn]; [lra|].
  assert (0 < u * (c - y)) by (apply Rmult_lt_0_compat; lra).
  assert (0 <= (1 - u) * (c - x)) by (apply Rmult_le_pos; lra). nra.
Qed.
Lemma comb_gt x y c u : 0 <= u <= 1 -> c < x -> c < y -> c < x + u * (y - x).
Proof.
  intros Hu Hx Hy. destruct (Req_dec u 0) as [->|Hn]; [lra|].
  assert (0 < u * (y - c)) by (apply Rmult_lt_0_compat; lra).
  assert (0 <= (1 - u) * (x - c)) by (apply Rmult_le_pos; lra). nra.
Qed.
Lemma comb_le x y c u : 0 <= u <= 1 -> x <= c -> y <= c -> x + u * (y - x) <= c.
Proof.
  intros Hu Hx Hy. assert (0 <= u * (c - y)) by (apply Rmult_le_pos; lra).
  assert (0 <= (1 - u) * (c - x)) by (apply Rmult_le_pos; lra). nra.
Qed.
Lemma comb_ge x y c u : 0 <= u <= 1 -> c <= x -> c <= y -> c <= x + u * (y - x).
Proof.
  intros Hu Hx Hy. assert (0 <= u * (y - c)) by (apply Rmult_le_pos; lra).
  assert (0 <= (1 - u) * (x - c)) by (apply Rmult_le_pos; lra). nra.
Qed.
