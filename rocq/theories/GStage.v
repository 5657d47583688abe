(** One exact clipping step by a line that no vertex lies on, and corners. *)
From Coq Require Import Permutation.
From Verif Require Import RBase SpecPoly SpecClear GTriangle GConvex GHull GArea GRay GClip GMeasure.
Open Scope R_scope.

(** the two sides at a vertex *)
Lemma two_sides K x : convex_ccw K -> In x K -> exists u w, In (u, x) (poly_edges K) /\ In (x, w) (poly_edges K) /\ 0 < orient u x w.
Proof.
  intros (L & N & C) Hx. apply in_split in Hx as (l1 & l2 & E).
  assert (HR : forall e, In e (poly_edges K) <-> In e (poly_edges ((x :: l2) ++ l1))).
  { intros e. rewrite E. apply edges_rot_in. }
  assert (Hin : forall y, In y K <-> In y (x :: l2 ++ l1)).
  { intros y. rewrite E, !in_app_iff. cbn. rewrite in_app_iff. tauto. }
  assert (L' : length (l2 ++ l1) = (length K - 1)%nat) by (rewrite E, !app_length; cbn; lia).
  assert (N' : NoDup (x :: l2 ++ l1)).
  { rewrite E in N. apply NoDup_remove in N as (N1 & N2). constructor.
    - rewrite in_app_iff in *. tauto.
    - apply (Permutation_NoDup (Permutation_app_comm l1 l2) N1). }
  destruct (l2 ++ l1) as [|w l] eqn:El; [cbn in L'; lia|].
  assert (Er : poly_edges ((x :: l2) ++ l1) = (last (w :: l) x, x) :: (x, w) :: chain w l).
  { cbn [app]. rewrite El, edges_cons. cbn [chain last]. f_equal. }
  exists (last (w :: l) x), w. rewrite !HR, Er. split; [now left|]. split; [right; now left|].
  destruct l as [|y l]; [cbn in L'; lia|].
  assert (Iu : In (last (w :: y :: l) x) (y :: l)).
  { rewrite last_cons. rewrite <- (last_default (y :: l) x w) by discriminate. apply last_in. discriminate. }
  rewrite orient_rot. apply C.
  - rewrite HR, Er. right. now left.
  - rewrite Hin. right. now right.
  - intros E1. inversion N' as [|? ? G _]; subst. apply G. right. rewrite E1 in Iu. exact Iu.
  - intros E1. inversion N' as [|? ? _ G]; subst. inversion G as [|? ? G' _]; subst. apply G'. rewrite E1 in Iu. exact Iu.
Qed.

Lemma line_meet (u x w p : pt) : 0 < orient u x w -> orient u x p = 0 -> orient x w p = 0 -> p = x.
Proof.
  intros H H1 H2. unfold orient in *.
  set (a := px x - px u) in *. set (b := py x - py u) in *. set (c := px p - px x). set (d := py p - py x).
  set (e := px w - px x) in *. set (g := py w - py x) in *.
  assert (A1 : a * d - b * c = 0). { unfold c, d, a, b in *. lra. }
  assert (A2 : e * d - g * c = 0). { unfold c, d, e, g in *. lra. }
  assert (A3 : 0 < a * g - b * e). { unfold a, b, e, g in *. lra. }
  assert (C0 : c * (a * g - b * e) = 0) by (replace (c * (a * g - b * e)) with (e * (a * d - b * c) - a * (e * d - g * c)) by ring; rewrite A1, A2; ring).
  assert (D0 : d * (a * g - b * e) = 0) by (replace (d * (a * g - b * e)) with (g * (a * d - b * c) - b * (e * d - g * c)) by ring; rewrite A1, A2; ring).
  apply Rmult_integral in C0 as [C0|C0]; [|lra]. apply Rmult_integral in D0 as [D0|D0]; [|lra].
  apply pt_eq; unfold c, d in *; lra.
Qed.

Lemma corner_vertex K x : convex_ccw K -> In x K -> corner (in_poly K) x.
Proof.
  intros HC Hx. split; [intros u v He; now apply (orient_vertex K)|]. intros p q t Hp Hq Ht E.
  destruct (two_sides K x HC Hx) as (u & w & H1 & H2 & Ho).
  assert (G : forall u v, In (u, v) (poly_edges K) -> orient u v x = 0 -> orient u v p = 0 /\ orient u v q = 0).
  { intros u' v' He Z. pose proof (Hp _ _ He) as P1. pose proof (Hq _ _ He) as Q1. rewrite E, orient_at in Z.
    pose proof (Rmult_le_pos (1 - t) _ ltac:(lra) P1) as G1. pose proof (Rmult_le_pos t _ ltac:(lra) Q1) as G2.
    split; apply Rle_antisym; auto.
    - apply (Rmult_le_reg_l (1 - t)); [lra|]. lra.
    - apply (Rmult_le_reg_l t); [lra|]. lra. }
  destruct (G u x H1 (orient_22 u x)) as (P1 & Q1). destruct (G x w H2 (orient_12 x w)) as (P2 & Q2).
  rewrite (line_meet u x w p Ho P1 P2), (line_meet u x w q Ho Q1 Q2). reflexivity.
Qed.

Section Clear.
  Variables r s : pt.
  Notation f := (orient r s).

  Lemma sh_clear K : convex_ccw K -> (forall v, In v K -> f v <> 0) ->
    (sh r s K = [] /\ forall v, In v K -> f v < 0)
    \/ (convex_ccw (sh r s K) /\ (length (sh r s K) <= length K + 1)%nat
        /\ forall p, in_poly (sh r s K) p <-> in_poly K p /\ 0 <= f p).
  Proof.
    intros HC HN.
    assert (Kne : K <> []) by (destruct HC as (L & _); destruct K; [cbn in L; lia|discriminate]).
    assert (DK : dd K = K) by (apply dd_id; [apply HC|destruct HC; lia]).
    assert (NE : forall u v, In (u, v) (poly_edges K) -> neqe (u, v) = true).
    { intros u v He. unfold neqe. cbn. destruct (pt_dec u v) as [E|]; auto. exfalso. revert E.
      destruct HC as (L & N & _). apply (edges_neq K u v N); [lia|exact He]. }
    destruct (sides r s K Kne) as [H|[H|(x & y & Hx & Hy & Fx & Fy)]].
    - left. split; [|intros v Hv; specialize (H v Hv); specialize (HN v Hv); lra].
      apply she_all_out. intros (u, v) He. apply edges_in in He as (Hu & Hv). cbn. auto.
    - right. assert (E : sh r s K = K).
      { unfold sh. rewrite she_all_in; [apply edges_snd|]. intros (u, v) He. split; [now apply NE|]. apply edges_in in He as (Hu & Hv). cbn. auto. }
      rewrite E. split; auto. split; [lia|]. intros p. split; [|tauto]. intros Hp. split; auto.
      apply in_poly_hull in Hp; auto. destruct Hp as (ws & El & Hpos & Hs & ->).
      rewrite (comb_orient r s ws _ El Hs). apply wsum_nonneg; auto. intros v Hv. specialize (H v Hv). lra.
    - right. destruct (mixed_rotate r s K x y HC Hx Hy Fx Fy) as (l1 & l2 & fA & A' & fB & B' & E1 & E2 & HA & HB).
      assert (HC' : convex_ccw ((fA :: A') ++ fB :: B')) by (rewrite <- E2; apply convex_ccw_rot; now rewrite <- E1).
      assert (Hin : forall v, In v (fB :: B') -> In v K).
      { intros v Hv. rewrite E1. apply in_app_iff. assert (G : In v (l2 ++ l1)) by (rewrite E2; apply in_app_iff; now right).
        apply in_app_iff in G. tauto. }
      assert (NXY : cutp r s (last A' fA) fB <> cutp r s (last B' fB) fA).
      { intros E. destruct (cuts_equal r s fA A' fB B' HC' HA HB E) as (_ & _ & Z). now apply (HN fB); [apply Hin; now left|]. }
      pose proof (K2_convex r s fA A' fB B' HC' HA HB NXY) as C2.
      pose proof (K2_region r s fA A' fB B' HC' HA HB NXY) as R2.
      pose proof (sh_mixed r s fA A' fB B' HC' HA HB) as S2.
      destruct (sh_rot r s l1 l2) as (m1 & m2 & F1 & F2). rewrite E2, S2 in F2. rewrite <- E1 in F1.
      rewrite F1. rewrite F2 in C2. split; [now apply convex_ccw_rot|]. split.
      + assert (EL : length (m1 ++ m2) = length (m2 ++ m1)) by (rewrite !app_length; lia). rewrite EL, <- F2. rewrite E1.
        assert (EK : length (l1 ++ l2) = length ((fA :: A') ++ fB :: B')) by (rewrite <- E2, !app_length; lia).
        rewrite EK. cbn [app length]. rewrite !app_length. cbn. lia.
      + intros p. rewrite (in_poly_rot m1 m2), <- F2, R2, <- E2, E1. rewrite (in_poly_rot l2 l1). reflexivity.
  Qed.
End Clear.
