(** Cyrus-Beck in binary64: a query segment in general position with respect to
    the face. *)
From Coq Require Import Reals Lra Psatz.
From Flocq Require Import IEEE754.BinarySingleNaN Core.
From Verif Require Import RBase NumB64 NumRoom FBase FBuild GLines MGeometry MAlgorithms FPoint FLocate FCut FArea FMesh
  FBoxClip NumSub PPoints SpecGeom SpecPoly SpecQuery GTriangle GConvex GHull GFaces GCyrus GClipLine FLines.
Open Scope R_scope.

(** the line through a and b meets the side uv between its ends *)
Definition crossed (a b u v : pt) : Prop := orient a b u < 0 < orient a b v \/ orient a b v < 0 < orient a b u.

(** No vertex is near the line through a and b, and a and b are not near the
    lines through the sides which that line crosses. *)
Definition clear_line (W : R) (a b : pt) (poly : list pt) : Prop :=
  let d := 32 * (uro * (W * W)) in
  (forall v, In v poly -> d < Rabs (orient a b v))
  /\ forall u v, In (u, v) (poly_edges poly) -> crossed a b u v -> d < Rabs (orient u v a) /\ d < Rabs (orient u v b).

(** The crossings are not too flat: the cross product of the side and the
    segment is at least [dl]. *)
Definition steep (dl : R) (a b : pt) (poly : list pt) : Prop :=
  forall u v, In (u, v) (poly_edges poly) -> crossed a b u v -> dl <= Rabs (cross_uv a b u v).

(** the point is in the face or out of it, and not near its sides *)
Definition placed (k : Z) (tol : R) (poly : list pt) (x : pt) : Prop :=
  open_hull poly x /\ ~ near_boundary (bpow radix2 (k - 49)) poly x
  \/ ~ hull poly x /\ ~ near_boundary (2 * tol + bpow radix2 (k - 48)) poly x.

(** the common part of a segment and a set, up to a distance [e] *)
Definition clip_close (e : R) (S : pt -> Prop) (a b : pt) (r : option (pt * pt)) : Prop :=
  match r with
  | None => forall x y, on_segment a b x -> on_segment a b y -> S x -> S y -> close (2 * e) x y
  | Some (c, d) => exists c' d', clip_result S a b (Some (c', d')) /\ close e c c' /\ close e d d'
  end.

(** the error of a computed end *)
Definition cyrus_err (k : Z) (W dl : R) (a b : pt) : R :=
  22 * (uro * (W * W)) / dl * reach a b + 23 * (uro * bpow radix2 k).

Lemma clear_steep W a b poly : clear_line W a b poly -> steep (64 * (uro * (W * W))) a b poly.
Proof.
  intros (HV & _) u v He Hc. apply edges_in in He as (Iu & Iv). pose proof (HV u Iu) as Hu. pose proof (HV v Iv) as Hv.
  replace (cross_uv a b u v) with (orient a b v - orient a b u) by (unfold cross_uv, orient; ring).
  destruct Hc as [(P1 & P2)|(P1 & P2)].
  - rewrite Rabs_left in Hu by auto. rewrite Rabs_pos_eq in Hv by lra. rewrite Rabs_pos_eq; lra.
  - rewrite Rabs_left in Hv by auto. rewrite Rabs_pos_eq in Hu by lra. rewrite Rabs_left; lra.
Qed.

Lemma aget_map {A B} (f : A -> B) (l : list A) i : aget (map f l) i = match aget l i with Ok x => Ok (f x) | Err e => Err e end.
Proof.
  unfold aget. rewrite map_length. destruct (norm_idx _ _) as [j|]; auto.
  destruct (nth_error l j) eqn:E; [rewrite (map_nth_error f _ _ E)|]; auto.
  apply nth_error_None in E. rewrite <- (map_length f) in E. apply nth_error_None in E. now rewrite E.
Qed.

(** a parameter and its computed value: both before the segment, both on it and
    near each other, or both after it *)
Definition tclass (tau t tf : R) : Prop :=
  (t < 0 /\ tf < 0) \/ (0 < t < 1 /\ 0 < tf < 1 /\ Rabs (tf - t) <= tau) \/ (1 < t /\ 1 < tf).

Lemma tclass_min tau t t' f f' : tclass tau t f -> tclass tau t' f' -> tclass tau (Rmin t t') (Rmin f f').
Proof.
  intros H H'. unfold Rmin. destruct (Rle_dec t t'), (Rle_dec f f'); auto; unfold tclass in *;
    destruct H as [H|[(H1 & H2 & H3)|H]], H' as [H'|[(H1' & H2' & H3')|H']]; try lra;
    right; left; apply Rabs_le_iff in H3, H3'; (split; [lra|split; [lra|apply Rabs_le_iff; lra]]).
Qed.
Lemma tclass_max tau t t' f f' : tclass tau t f -> tclass tau t' f' -> tclass tau (Rmax t t') (Rmax f f').
Proof.
  intros H H'. unfold Rmax. destruct (Rle_dec t t'), (Rle_dec f f'); auto; unfold tclass in *;
    destruct H as [H|[(H1 & H2 & H3)|H]], H' as [H'|[(H1' & H2' & H3')|H']]; try lra;
    right; left; apply Rabs_le_iff in H3, H3'; (split; [lra|split; [lra|apply Rabs_le_iff; lra]]).
Qed.

Lemma ratio_pos (N K Nf Kf Q WW u : R) : 0 < Q -> Q = u * WW -> 0 < u <= / 1000000 -> K <= 2 * WW -> Rabs N <= 2 * WW -> 64 * Q < K ->
  32 * Q < Rabs N -> 32 * Q < Rabs (N - K) -> Rabs (Nf - N) <= 9 * Q -> Rabs (Kf - K) <= 9 * Q ->
  0 < Kf /\ Rabs (Nf / Kf) <= / u /\
  ((N / K < 0 /\ Nf / Kf <= - u) \/ (0 < N / K < 1 /\ u <= Nf / Kf <= 1 - 4 * u /\ Rabs (Nf / Kf - N / K) <= 21 * Q / K)
   \/ (1 < N / K /\ 1 + 4 * u <= Nf / Kf)).
Proof.
  intros HQ EQ Hu HK HN HK1 HN1 HNK DN DK. apply Rabs_le_iff in DN, DK, HN.
  assert (PW : 0 < WW) by (apply (Rmult_lt_reg_l u); lra).
  assert (QW : Q <= / 1000000 * WW) by (rewrite EQ; apply Rmult_le_compat_r; lra).
  assert (PK : 0 < Kf) by lra. split; auto. pose proof (Rinv_0_lt_compat _ PK) as IK.
  assert (uK : u * Kf <= 2.1 * Q) by (rewrite EQ; replace (2.1 * (u * WW)) with (u * (2.1 * WW)) by ring; apply Rmult_le_compat_l; lra).
  assert (uK0 : 0 <= u * Kf) by (apply Rmult_le_pos; lra).
  assert (LE : forall r, r * Kf <= Nf -> r <= Nf / Kf).
  { intros r H. apply (Rmult_le_reg_r Kf); auto. unfold Rdiv. rewrite Rmult_assoc, Rinv_l; lra. }
  assert (GE : forall r, Nf <= r * Kf -> Nf / Kf <= r).
  { intros r H. apply (Rmult_le_reg_r Kf); auto. unfold Rdiv. rewrite Rmult_assoc, Rinv_l; lra. }
  split.
  { assert (/ u * Kf >= 55 * WW).
    { apply Rle_ge, (Rmult_le_reg_l u); [lra|]. replace (u * (/ u * Kf)) with Kf by (field; lra). lra. }
    apply Rabs_le_iff. split; [apply LE|apply GE]; lra. }
  assert (K0 : 0 < K) by lra. pose proof (Rinv_0_lt_compat _ K0) as IK0.
  destruct (Rle_or_lt N 0) as [Hn|Hn].
  - rewrite Rabs_left1 in HN1 by auto. left. split.
    + apply Ropp_lt_cancel. rewrite Ropp_0. unfold Rdiv. rewrite Ropp_mult_distr_l. apply Rmult_lt_0_compat; lra.
    + apply GE. lra.
  - rewrite Rabs_pos_eq in HN1 by lra.
    assert (T0 : 0 < N / K) by (apply Rmult_lt_0_compat; auto).
    destruct (Rle_or_lt (N - K) 0) as [Hk|Hk].
    + rewrite Rabs_left1 in HNK by auto. right. left.
      assert (T1 : N / K < 1) by (apply (Rmult_lt_reg_r K); auto; unfold Rdiv; rewrite Rmult_assoc, Rinv_l; lra).
      split; auto. split; [split; [apply LE|apply GE]; lra|].
      set (t := N / K) in *. assert (EN : N = t * K) by (unfold t; field; lra).
      assert (G : Rabs ((Nf - N) - t * (Kf - K)) <= 18 * Q).
      { assert (Rabs (t * (Kf - K)) <= 1 * (9 * Q)).
        { rewrite Rabs_mult. apply Rmult_le_compat; auto using Rabs_pos; [rewrite Rabs_pos_eq; lra|apply Rabs_le_iff; lra]. }
        apply Rabs_le_iff in H. apply Rabs_le_iff. lra. }
      replace (Nf / Kf - t) with (((Nf - N) - t * (Kf - K)) * / Kf) by (rewrite EN; field; lra).
      rewrite Rabs_mult, (Rabs_pos_eq (/ Kf)) by lra.
      apply Rle_trans with (18 * Q * / (55 / 64 * K)).
      * apply Rmult_le_compat; auto using Rabs_pos; [lra|]. apply Rinv_le; lra.
      * replace (18 * Q * / (55 / 64 * K)) with (1152 / 55 * (Q * / K)) by (field; lra).
        replace (21 * Q / K) with (21 * (Q * / K)) by (field; lra).
        assert (0 < Q * / K) by (apply Rmult_lt_0_compat; auto). lra.
    + rewrite Rabs_pos_eq in HNK by lra. right. right. split.
      * apply (Rmult_lt_reg_r K); auto. unfold Rdiv. rewrite Rmult_assoc, Rinv_l; lra.
      * apply LE. lra.
Qed.

Lemma ratio_class (N K Nf Kf Q WW u : R) : 0 < Q -> Q = u * WW -> 0 < u <= / 1000000 -> Rabs K <= 2 * WW -> Rabs N <= 2 * WW -> 64 * Q < Rabs K ->
  32 * Q < Rabs N -> 32 * Q < Rabs (N - K) -> Rabs (Nf - N) <= 9 * Q -> Rabs (Kf - K) <= 9 * Q ->
  Kf <> 0 /\ Rabs (Nf / Kf) <= / u /\
  ((N / K < 0 /\ Nf / Kf <= - u) \/ (0 < N / K < 1 /\ u <= Nf / Kf <= 1 - 4 * u /\ Rabs (Nf / Kf - N / K) <= 21 * Q / Rabs K)
   \/ (1 < N / K /\ 1 + 4 * u <= Nf / Kf)).
Proof.
  intros HQ EQ Hu HK HN HK1 HN1 HNK DN DK. destruct (Rle_or_lt K 0) as [H|H].
  - rewrite Rabs_left1 in HK, HK1 by auto.
    destruct (ratio_pos (- N) (- K) (- Nf) (- Kf) Q WW u) as (P & A); auto.
    { now rewrite Rabs_Ropp. } { now rewrite Rabs_Ropp. }
    { replace (- N - - K) with (- (N - K)) by ring. now rewrite Rabs_Ropp. }
    { replace (- Nf - - N) with (- (Nf - N)) by ring. now rewrite Rabs_Ropp. }
    { replace (- Kf - - K) with (- (Kf - K)) by ring. now rewrite Rabs_Ropp. }
    replace (- N / - K) with (N / K) in A by (field; lra). replace (- Nf / - Kf) with (Nf / Kf) in A by (field; lra).
    rewrite (Rabs_left1 K) by auto. split; [lra|auto].
  - rewrite (Rabs_pos_eq K) in HK, HK1 by lra. destruct (ratio_pos N K Nf Kf Q WW u) as (P & A); auto.
    rewrite (Rabs_pos_eq K) by lra. split; [lra|auto].
Qed.

(** the lines through two sides meet the line ab at different places *)
Lemma params_differ (a b : pt) poly i0 i1 v0 v01 v1 v11 : convex poly -> (i0 < i1)%Z ->
  edge_at poly i0 v0 v01 -> edge_at poly i1 v1 v11 -> crossed a b v0 v01 -> crossed a b v1 v11 ->
  param a b v0 v01 <> param a b v1 v11.
Proof.
  intros HC Hlt E0 E1 C0 C1 E.
  assert (H3 : (3 <= length poly)%nat /\ NoDup poly).
  { destruct HC as [(H & H' & _)|(H & H' & _)]; auto. rewrite rev_length in H. split; auto.
    rewrite <- (rev_involutive poly). now apply NoDup_rev. }
  destruct H3 as (H3 & ND).
  assert (Inj : forall i j x, (0 <= i < zlen poly)%Z -> (0 <= j < zlen poly)%Z -> aget poly i = Ok x -> aget poly j = Ok x -> i = j).
  { intros i j x Hi Hj Ei Ej. apply aget_pos_inv in Ei, Ej; try lia.
    assert (Z.to_nat i = Z.to_nat j); [|lia]. apply (proj1 (NoDup_nth_error poly) ND); [unfold zlen in Hi; lia|congruence]. }
  pose proof (edge_at_in _ _ _ _ E0) as I0. pose proof (edge_at_in _ _ _ _ E1) as I1.
  destruct E0 as (R0 & A0 & A1), E1 as (R1 & B0 & B1).
  assert (Hn : (3 <= zlen poly)%Z) by (unfold zlen; lia).
  assert (M0 : (0 <= (i0 + 1) mod zlen poly < zlen poly)%Z) by (apply Z.mod_pos_bound; lia).
  assert (M1 : (0 <= (i1 + 1) mod zlen poly < zlen poly)%Z) by (apply Z.mod_pos_bound; lia).
  assert (S0 : ((i0 + 1) mod zlen poly = i0 + 1)%Z) by (apply Z.mod_small; lia).
  assert (S1 : ((i1 + 1) mod zlen poly = i1 + 1 \/ (i1 + 1 = zlen poly /\ (i1 + 1) mod zlen poly = 0))%Z).
  { destruct (Z.eq_dec (i1 + 1) (zlen poly)) as [En|]; [right; split; auto; rewrite En; apply Z_mod_same_full|left; apply Z.mod_small; lia]. }
  assert (N1 : v1 <> v0) by (intros ->; pose proof (Inj _ _ _ R0 R1 A0 B0); lia).
  assert (N2 : v11 <> v01) by (intros ->; pose proof (Inj _ _ _ M0 M1 A1 B1); lia).
  assert (N3 : v1 <> v01 \/ v11 <> v0).
  { destruct (Z.eq_dec i1 (i0 + 1)) as [E1'|N].
    - right. intros ->. pose proof (Inj _ _ _ R0 M1 A0 B1). lia.
    - left. intros ->. pose proof (Inj _ _ _ M0 R1 A1 B0). lia. }
  assert (IN : In v1 poly /\ In v11 poly).
  { split; [apply aget_pos_inv in B0|apply aget_pos_inv in B1]; try lia; eapply nth_error_In; eauto. }
  destruct IN as (In1 & In11).
  assert (HL : (forall w, In w poly -> w <> v0 -> w <> v01 -> 0 < orient v0 v01 w)
               \/ (forall w, In w poly -> w <> v0 -> w <> v01 -> 0 < - orient v0 v01 w)).
  { destruct HC as [(_ & _ & HL)|(_ & _ & HL)]; [left|right]; intros w Iw W0 W1; [now apply HL|].
    replace (- orient v0 v01 w) with (orient v01 v0 w) by (unfold orient; ring). apply HL; auto; [|now apply in_rev in Iw].
    apply (edges_rev_in (rev poly)). now rewrite rev_involutive. }
  assert (HG : exists sg, (sg = 1 \/ sg = -1) /\ forall w, In w poly -> w <> v0 -> w <> v01 -> 0 < sg * orient v0 v01 w).
  { destruct HL as [HL|HL]; [exists 1|exists (-1)]; (split; [lra|]); intros w Iw W0 W1; specialize (HL w Iw W0 W1); lra. }
  destruct HG as (sg & Hsg & HG). clear HL.
  assert (L1 : 0 <= sg * orient v0 v01 v1 /\ (v1 <> v01 -> 0 < sg * orient v0 v01 v1)).
  { split; [|intros; apply HG; auto]. destruct (Req_dec (orient v0 v01 v1) 0) as [->|N0]; [lra|].
    left. apply HG; auto. intros ->. apply N0. unfold orient. ring. }
  assert (L2 : 0 <= sg * orient v0 v01 v11 /\ (v11 <> v0 -> 0 < sg * orient v0 v01 v11)).
  { split; [|intros; apply HG; auto]. destruct (Req_dec (orient v0 v01 v11) 0) as [->|N0]; [lra|].
    left. apply HG; auto. intros ->. apply N0. unfold orient. ring. }
  (* the point on the line ab is on v0 v01, and strictly between v1 and v11 *)
  assert (Z0 : forall u v, crossed a b u v -> orient u v (at_ a b (param a b u v)) = 0).
  { intros u v C. unfold param. rewrite !side_orient.
    assert (D0 : - orient a b u - - orient a b v <> 0) by (unfold crossed in C; lra).
    rewrite orient_at. set (D := - orient a b u - - orient a b v) in *.
    assert (ED : D = orient u v a - orient u v b) by (unfold D, orient; ring).
    set (t := orient u v a / D). assert (Et : t * D = orient u v a) by (unfold t; field; auto).
    replace (orient u v b) with (orient u v a - D) by lra. lra. }
  pose proof (Z0 _ _ C0) as X0. rewrite E in X0.
  set (r := orient a b v1 / (orient a b v1 - orient a b v11)).
  assert (Hr : 0 < r < 1).
  { unfold r. destruct C1 as [(P1 & P2)|(P1 & P2)].
    - replace (orient a b v1 / (orient a b v1 - orient a b v11)) with ((- orient a b v1) / (orient a b v11 - orient a b v1)) by (field; lra).
      split; [apply Rmult_lt_0_compat; [lra|apply Rinv_0_lt_compat; lra]|].
      apply (Rmult_lt_reg_r (orient a b v11 - orient a b v1)); [lra|]. unfold Rdiv. rewrite Rmult_assoc, Rinv_l; lra.
    - split; [apply Rmult_lt_0_compat; [lra|apply Rinv_0_lt_compat; lra]|].
      apply (Rmult_lt_reg_r (orient a b v1 - orient a b v11)); [lra|]. unfold Rdiv. rewrite Rmult_assoc, Rinv_l; lra. }
  assert (EX : at_ a b (param a b v1 v11) = at_ v1 v11 r).
  { unfold r, param. rewrite !side_orient. assert (D0 : orient a b v1 - orient a b v11 <> 0) by (unfold crossed in C1; lra).
    unfold at_. apply pt_eq; cbn [px py]; apply (Rmult_eq_reg_r (orient a b v1 - orient a b v11)); auto; unfold orient in *; field; lra. }
  rewrite EX, orient_at in X0.
  assert (X1 : (1 - r) * (sg * orient v0 v01 v1) + r * (sg * orient v0 v01 v11) = 0).
  { replace ((1 - r) * (sg * orient v0 v01 v1) + r * (sg * orient v0 v01 v11))
      with (sg * (orient v0 v01 v1 + r * (orient v0 v01 v11 - orient v0 v01 v1))) by ring. rewrite X0. ring. }
  assert (A : 0 <= (1 - r) * (sg * orient v0 v01 v1)) by (apply Rmult_le_pos; lra).
  assert (B : 0 <= r * (sg * orient v0 v01 v11)) by (apply Rmult_le_pos; lra).
  destruct N3 as [N|N].
  - assert (0 < (1 - r) * (sg * orient v0 v01 v1)) by (apply Rmult_lt_0_compat; [lra|apply L1; auto]). lra.
  - assert (0 < r * (sg * orient v0 v01 v11)) by (apply Rmult_lt_0_compat; [lra|apply L2; auto]). lra.
Qed.

Lemma param_sym a b u v : crossed a b u v -> param a b v u = param a b u v.
Proof.
  intros C. unfold param. rewrite !side_orient. replace (orient v u a) with (- orient u v a) by (unfold orient; ring).
  unfold crossed in C. field. lra.
Qed.
Lemma ccw_version P : convex P -> exists Pc, convex_ccw Pc /\ (P = Pc \/ P = rev Pc).
Proof. intros [H|H]; [exists P; auto|]. exists (rev P). rewrite rev_involutive. auto. Qed.

(** the part of the line ab in the polygon lies between the two crossings *)
Lemma chord_any (a b : pt) P i0 i1 v0 v01 v1 v11 : convex P -> (i0 < i1)%Z ->
  edge_at P i0 v0 v01 -> edge_at P i1 v1 v11 -> crossed a b v0 v01 -> crossed a b v1 v11 ->
  changes a b v0 v01 -> changes a b v1 v11 -> (forall i, (0 <= i < i1)%Z -> i <> i0 -> quiet_at a b P i) ->
  forall t, hull P (at_ a b t) <-> Rmin (param a b v0 v01) (param a b v1 v11) <= t <= Rmax (param a b v0 v01) (param a b v1 v11).
Proof.
  intros HC Hlt E0 E1 K0 K1 C0 C1 HQ t.
  pose proof (edge_at_in _ _ _ _ E0) as I0. pose proof (edge_at_in _ _ _ _ E1) as I1.
  assert (F : forall lo hi, lo <= hi -> (lo = param a b v0 v01 /\ hi = param a b v1 v11 \/ lo = param a b v1 v11 /\ hi = param a b v0 v01) ->
    lo <= t <= hi <-> Rmin (param a b v0 v01) (param a b v1 v11) <= t <= Rmax (param a b v0 v01) (param a b v1 v11)).
  { intros lo hi Hl [(-> & ->)|(-> & ->)]; [rewrite Rmin_left, Rmax_right by auto|rewrite Rmin_right, Rmax_left by auto]; reflexivity. }
  pose proof (two_changes a b P i0 i1 v0 v01 v1 v11 Hlt E0 E1 C0 C1 HQ) as HT.
  destruct (ccw_version P HC) as (Pc & Hc & [HE|HE]).
  - subst Pc. destruct HT as [(X & Y)|(X & Y)].
    + destruct (between_two a b P Hc v0 v01 v1 v11 I0 I1 X Y) as (Hl & HH). rewrite <- (F _ _ Hl ltac:(auto)), <- HH.
      symmetry. now apply in_poly_hull.
    + destruct (between_two a b P Hc v1 v11 v0 v01 I1 I0 Y X) as (Hl & HH). rewrite <- (F _ _ Hl ltac:(auto)), <- HH.
      symmetry. now apply in_poly_hull.
  - rewrite (hull_either Pc P) by auto. rewrite HE in I0, I1. apply edges_rev_in in I0, I1.
    assert (R1 : forall u v, crossed a b u v -> enters a b u v -> leaves a b v u).
    { intros u v C X. unfold enters, leaves in *. rewrite !side_orient in *. unfold crossed in C. lra. }
    assert (R2 : forall u v, crossed a b u v -> leaves a b u v -> enters a b v u).
    { intros u v C X. unfold enters, leaves in *. rewrite !side_orient in *. unfold crossed in C. lra. }
    destruct HT as [(X & Y)|(X & Y)].
    + destruct (between_two a b Pc Hc v11 v1 v01 v0 I1 I0 (R2 _ _ K1 Y) (R1 _ _ K0 X)) as (Hl & HH).
      rewrite (param_sym a b v0 v01 K0), (param_sym a b v1 v11 K1) in *. rewrite <- (F _ _ Hl ltac:(auto)), <- HH.
      symmetry. now apply in_poly_hull.
    + destruct (between_two a b Pc Hc v01 v0 v11 v1 I0 I1 (R2 _ _ K0 X) (R1 _ _ K1 Y)) as (Hl & HH).
      rewrite (param_sym a b v0 v01 K0), (param_sym a b v1 v11 K1) in *. rewrite <- (F _ _ Hl ltac:(auto)), <- HH.
      symmetry. now apply in_poly_hull.
Qed.

Lemma same_side (a b : pt) poly : poly <> [] -> (forall i, (0 <= i < zlen poly)%Z -> quiet_at a b poly i) ->
  (forall w, In w poly -> side a b w < 0) \/ (forall w, In w poly -> 0 <= side a b w).
Proof.
  intros HN HQ. assert (Hn : (0 < zlen poly)%Z) by (destruct poly; [easy|unfold zlen; cbn [length]; lia]).
  destruct (aget_ok_pos poly 0 ltac:(lia)) as (first & Ef & _).
  assert (G : forall m v, (m < length poly)%nat -> aget poly (Z.of_nat m) = Ok v -> neg a b v = neg a b first).
  { induction m as [|m IH]; intros v Hm Hv; [change (Z.of_nat 0) with 0%Z in Hv; congruence|].
    destruct (HQ (Z.of_nat m)) as (w0 & w1 & (_ & W0 & W1) & Hnc & _); [unfold zlen; lia|].
    rewrite <- (IH w0 ltac:(lia) W0). rewrite Z.mod_small in W1 by (unfold zlen; lia).
    replace (Z.of_nat m + 1)%Z with (Z.of_nat (S m)) in W1 by lia. assert (w1 = v) by congruence. subst w1.
    destruct (xorb (neg a b w0) (neg a b v)) eqn:X; [destruct Hnc; now apply neg_changes|].
    apply xorb_eq in X. auto. }
  assert (G' : forall w, In w poly -> neg a b w = neg a b first).
  { intros w Hw. apply In_nth_error in Hw as (k & Hk). apply (G k); [apply nth_error_Some; congruence|now apply aget_nat]. }
  destruct (neg a b first) eqn:Ef'; [left|right]; intros w Hw; specialize (G' w Hw); unfold neg in G'; rb; lra.
Qed.

(** all vertices on one side: the line misses the polygon *)
Lemma one_side_misses (a b : pt) P : convex P -> (forall v, In v P -> orient a b v <> 0) ->
  (forall i, (0 <= i < zlen P)%Z -> quiet_at a b P i) -> forall t, ~ hull P (at_ a b t).
Proof.
  intros HC HZ HQ t HH. destruct (ccw_version P HC) as (Pc & Hc & HE).
  assert (HI : forall v, In v Pc -> In v P) by (intros v Iv; destruct HE as [<-| ->]; [auto|now apply in_rev in Iv]).
  apply (hull_either Pc P) in HH; auto. apply in_poly_hull in HH; auto.
  assert (SZ : side a b (at_ a b t) = 0) by apply side_L.
  assert (KK : forall v, side a b v = aff (py b - py a) (- (px b - px a)) (- ((py b - py a) * px a - (px b - px a) * py a)) v)
    by (intros v; rewrite side_orient; unfold orient, aff; ring).
  assert (KN : forall v, - side a b v = aff (- (py b - py a)) (px b - px a) ((py b - py a) * px a - (px b - px a) * py a) v)
    by (intros v; rewrite side_orient; unfold orient, aff; ring).
  assert (N : P <> []) by (intros ->; destruct HC as [(H & _)|(H & _)]; cbn in H; lia).
  destruct (same_side a b P N HQ) as [HN|HP].
  - assert (side a b (at_ a b t) < 0); [|lra]. rewrite KK. apply (in_poly_aff_lt Pc); auto.
    intros v Iv. rewrite <- KK. apply HN. auto.
  - assert (- side a b (at_ a b t) < 0); [|lra]. rewrite KN. apply (in_poly_aff_lt Pc); auto.
    intros v Iv. rewrite <- KN. specialize (HP v (HI v Iv)). specialize (HZ v (HI v Iv)). rewrite side_orient in *. lra.
Qed.

Section Cyrus64.
  Local Notation bounded := NumRoom.bounded.
  Variables (k : Z) (W dl : R).
  Hypothesis Hk : (-40 <= k <= 240)%Z.
  Hypothesis HW : bpow radix2 (-250) <= W <= bpow radix2 (k + 1).
  Hypothesis Hdl : 0 < dl.
  Let M := bpow radix2 k.
  Let m := uro * M.
  Let Q := uro * (W * W).
  Variables (a b : point b64) (poly : list (point b64)).
  Hypothesis HB : Forall (bpt k) (a :: b :: poly).
  Notation pts := (rp a :: rp b :: map rp poly).
  Hypothesis HS : all_near W pts.
  Notation P := (map rp poly).
  Notation s := (to_vector a b).

  Lemma ck1 : (-251 <= k <= 400)%Z. Proof. lia. Qed.
  Lemma cW1 : bpow radix2 (-400) <= W <= bpow radix2 (k + 1).
  Proof. split; [|apply HW]. eapply Rle_trans; [|apply HW]. apply bpow_le. lia. Qed.
  Lemma cQ : 0 < Q. Proof. exact (qpos k W cW1). Qed.
  Lemma cWW : Q <= / 1000000 * (W * W) /\ 0 < W * W.
  Proof.
    pose proof cQ as PQ. pose proof uro_small. pose proof uro_pos. unfold Q in *.
    assert (0 < W * W) by (apply (Rmult_lt_reg_l uro); lra). split; auto. apply Rmult_le_compat_r; lra.
  Qed.

  Lemma cvec (x y : point b64) : bpt k x -> bpt k y -> In (rp x) pts -> In (rp y) pts ->
    vec_ok k W (to_vector x y) (Pt (B2R (px y) - B2R (px x)) (B2R (py y) - B2R (py x))).
  Proof.
    intros Bx By Ix Iy. destruct (HS (rp y) (rp x) Iy Ix) as (X & Y).
    apply (vec_diff k W ck1); auto; apply (bpt_up k); auto.
  Qed.

  (** the side of a vertex *)
  Lemma side_val v : bpt k v -> In (rp v) pts ->
    is_finite (cross_product (to_vector a v) s) = true
    /\ Rabs (B2R (cross_product (to_vector a v) s) - side (rp a) (rp b) (rp v)) <= 9 * Q.
  Proof.
    intros Bv Iv. inversion HB as [|? ? Ba HB']. inversion HB' as [|? ? Bb _].
    destruct (cross_ok k W ck1 cW1 _ _ _ _ (cvec a v Ba Bv ltac:(cbn [In]; auto) Iv) (cvec a b Ba Bb ltac:(cbn [In]; auto) ltac:(cbn [In]; auto))) as (F & N & _).
    cbn [px py] in N. split; [exact F|exact N].
  Qed.

  (** the two products behind a crossing *)
  Definition nrm (v0 v1 : point b64) : point b64 := Pt (nopp (nsub (py v1) (py v0))) (nsub (px v1) (px v0)).
  Lemma dot_val v0 v1 x y : bpt k v0 -> bpt k v1 -> bpt k x -> bpt k y ->
    In (rp v0) pts -> In (rp v1) pts -> In (rp x) pts -> In (rp y) pts ->
    is_finite (dot_product (nrm v0 v1) (to_vector x y)) = true
    /\ Rabs (B2R (dot_product (nrm v0 v1) (to_vector x y)) - cross_uv (rp v0) (rp v1) (rp x) (rp y)) <= 9 * Q
    /\ Rabs (cross_uv (rp v0) (rp v1) (rp x) (rp y)) <= 2 * (W * W).
  Proof.
    intros B0 B1 Bx By I0 I1 Ix Iy.
    destruct (cvec v0 v1 B0 B1 I0 I1) as (U1 & U2 & U3 & U4 & U5 & U6).
    destruct (cvec x y Bx By Ix Iy) as (V1 & V2 & V3 & V4 & V5 & V6).
    destruct (cross_ok k W ck1 cW1 _ _ _ _ (cvec v0 v1 B0 B1 I0 I1) (cvec x y Bx By Ix Iy)) as (_ & _ & HC).
    cbn [px py] in U3, U4, U5, U6, V3, V4, V5, V6, HC. unfold dot_product, nrm. cbn [px py].
    change (px (to_vector v0 v1)) with (nsub (px v1) (px v0)) in *. change (py (to_vector v0 v1)) with (nsub (py v1) (py v0)) in *.
    set (ex := nsub (px v1) (px v0)) in *. set (ey := nsub (py v1) (py v0)) in *.
    set (vx := px (to_vector x y)) in *. set (vy := py (to_vector x y)) in *.
    assert (EO : B2R (nopp ey) = - B2R ey) by apply B2R_Bopp.
    assert (BO : bounded (k + 2) (nopp ey)).
    { destruct U2 as (F & U2). split; [|rewrite EO, Rabs_Ropp; auto]. rewrite <- F. apply is_finite_Bopp. }
    destruct (prod_ok k W ck1 cW1 (nopp ey) vx (- (B2R (py v1) - B2R (py v0))) (B2R (px y) - B2R (px x))) as (F1 & N1); auto.
    { now rewrite Rabs_Ropp. }
    { rewrite EO. replace (- B2R ey - - (B2R (py v1) - B2R (py v0))) with (- (B2R ey - (B2R (py v1) - B2R (py v0)))) by ring. now rewrite Rabs_Ropp. }
    destruct (prod_ok k W ck1 cW1 ex vy (B2R (px v1) - B2R (px v0)) (B2R (py y) - B2R (py x))) as (F2 & N2); auto.
    set (f1 := nmul (nopp ey) vx) in *. set (f2 := nmul ex vy) in *. fold Q in N1, N2.
    set (C := cross_uv (rp v0) (rp v1) (rp x) (rp y)) in *.
    assert (EC : C = - (B2R (py v1) - B2R (py v0)) * (B2R (px y) - B2R (px x)) + (B2R (px v1) - B2R (px v0)) * (B2R (py y) - B2R (py x))).
    { unfold C, cross_uv. cbn [px py rp]. ring. }
    assert (HC' : Rabs C <= 2 * (W * W)) by (eapply Rle_trans; [|exact HC]; right; f_equal; rewrite EC; ring).
    assert (HD : Rabs ((B2R f1 + B2R f2) - C) <= 6.2 * Q).
    { rewrite EC. apply Rabs_le_iff in N1, N2. apply Rabs_le_iff. lra. }
    destruct cWW as (QW & PW). pose proof cQ as PQ. pose proof uro_small as Su. pose proof uro_pos as Pu.
    assert (HS' : Rabs (B2R f1 + B2R f2) <= 2.1 * (W * W)) by (apply Rabs_le_iff in HD, HC'; apply Rabs_le_iff; lra).
    destruct (plus_val (k + k + 4) f1 f2) as (E & B); [lia|auto|auto| |].
    { pose proof (W_top k W cW1) as HT. replace (k + k + 4)%Z with (2 + (k + k + 2))%Z by lia. rewrite bpow_plus. change (bpow radix2 2) with 4. lra. }
    split; [apply B|]. split; auto. rewrite E. destruct (rnd_any (B2R f1 + B2R f2)) as (e & h & He & Hh & ->).
    assert (G : Rabs ((B2R f1 + B2R f2) * e) <= 2.1 * Q).
    { rewrite Rabs_mult. apply Rle_trans with (2.1 * (W * W) * uro); [apply Rmult_le_compat; auto using Rabs_pos|unfold Q; lra]. }
    pose proof (eta_q k W cW1) as Eq. fold Q in Eq.
    apply Rabs_le_iff in G, Hh, HD. apply Rabs_le_iff.
    replace ((B2R f1 + B2R f2) * (1 + e) + h) with ((B2R f1 + B2R f2) + (B2R f1 + B2R f2) * e + h) by ring. lra.
  Qed.

  Lemma in_bpt v : In v (a :: b :: poly) -> bpt k v /\ In (rp v) pts.
  Proof.
    intros H. split; [rewrite Forall_forall in HB; now apply HB|].
    change pts with (map rp (a :: b :: poly)). now apply in_map.
  Qed.

  Let tau := 21 * Q / dl + 1.1 * uro.
  Lemma crossing_val v0 v1 : In v0 poly -> In v1 poly -> crossed (rp a) (rp b) (rp v0) (rp v1) ->
    32 * Q < Rabs (orient (rp a) (rp b) (rp v0)) -> 32 * Q < Rabs (orient (rp a) (rp b) (rp v1)) ->
    32 * Q < Rabs (orient (rp v0) (rp v1) (rp a)) -> 32 * Q < Rabs (orient (rp v0) (rp v1) (rp b)) ->
    dl <= Rabs (cross_uv (rp a) (rp b) (rp v0) (rp v1)) ->
    exists tf, compute_intersection a s v0 v1 = Ok (Rlt_bool (orient (rp v0) (rp v1) (rp a)) 0, tf)
      /\ is_finite tf = true /\ tclass tau (param (rp a) (rp b) (rp v0) (rp v1)) (B2R tf).
  Proof.
    intros I0 I1 HC H0 H1 HA Hb HD.
    destruct (in_bpt v0 ltac:(cbn [In]; auto)) as (B0 & J0). destruct (in_bpt v1 ltac:(cbn [In]; auto)) as (B1 & J1).
    destruct (in_bpt a ltac:(cbn [In]; auto)) as (Ba & Ja). destruct (in_bpt b ltac:(cbn [In]; auto)) as (Bb & Jb).
    destruct (dot_val v0 v1 a v0 B0 B1 Ba B0 J0 J1 Ja J0) as (FN & DN & LN).
    destruct (dot_val v0 v1 a b B0 B1 Ba Bb J0 J1 Ja Jb) as (FK & DK & LK).
    set (N := cross_uv (rp v0) (rp v1) (rp a) (rp v0)) in *. set (K := cross_uv (rp v0) (rp v1) (rp a) (rp b)) in *.
    unfold compute_intersection. fold (nrm v0 v1).
    set (Nf := dot_product (nrm v0 v1) (to_vector a v0)) in *. set (Kf := dot_product (nrm v0 v1) s) in *.
    assert (EN : N = - orient (rp v0) (rp v1) (rp a)) by (unfold N, cross_uv, orient; ring).
    assert (EK : K = - orient (rp a) (rp b) (rp v1) - - orient (rp a) (rp b) (rp v0)) by (unfold K, cross_uv, orient; ring).
    assert (ENK : N - K = - orient (rp v0) (rp v1) (rp b)) by (unfold N, K, cross_uv, orient; ring).
    assert (EKD : K = - cross_uv (rp a) (rp b) (rp v0) (rp v1)) by (unfold K, cross_uv; ring).
    pose proof cQ as PQ. destruct cWW as (QW & PW). pose proof uro_small as Su. pose proof uro_pos as Pu.
    assert (HK : 64 * Q < Rabs K).
    { rewrite EK. destruct HC as [(P1 & P2)|(P1 & P2)].
      - rewrite Rabs_left in H0 by auto. rewrite Rabs_pos_eq in H1 by lra. rewrite Rabs_left; lra.
      - rewrite Rabs_left in H1 by auto. rewrite Rabs_pos_eq in H0 by lra. rewrite Rabs_pos_eq; lra. }
    destruct (ratio_class N K (B2R Nf) (B2R Kf) Q (W * W) uro) as (NZ & HR & HT); auto.
    { rewrite EN, Rabs_Ropp. auto. } { rewrite ENK, Rabs_Ropp. auto. }
    assert (EU : / uro = bpow radix2 53) by (unfold uro; symmetry; apply (bpow_opp radix2 (-53))).
    destruct (div_val 53 Nf Kf) as (ED & EV & BV); auto; [lia|now rewrite <- EU|].
    rewrite ED. cbn [bind]. exists (ndivraw Nf Kf). split.
    { do 2 f_equal. destruct (Zb_exact 0 ltac:(lia)) as (FZ & EZ).
      change (nltb (Zb 0) Nf = Rlt_bool (orient (rp v0) (rp v1) (rp a)) 0). rewrite nltb_B by auto. rewrite EZ.
      apply Rabs_le_iff in DN. rewrite EN in DN.
      destruct (Rle_or_lt 0 (orient (rp v0) (rp v1) (rp a))) as [G|G].
      - rewrite Rabs_pos_eq in HA by auto. rewrite !Rlt_bool_false; auto; lra.
      - rewrite Rabs_left in HA by auto. rewrite !Rlt_bool_true; auto; lra. }
    split; [apply BV|]. rewrite EV.
    replace (param (rp a) (rp b) (rp v0) (rp v1)) with (N / K).
    2:{ assert (K <> 0) by (intros E; rewrite E, Rabs_R0 in HK; lra).
        unfold param. rewrite !side_orient, EN. replace (- orient (rp a) (rp b) (rp v0) - - orient (rp a) (rp b) (rp v1)) with (- K) by lra.
        field; auto. }
    assert (Ee : eta <= 0.1 * uro).
    { unfold eta, uro. apply Rle_trans with (bpow radix2 (-10 + -53)); [apply bpow_le; lia|].
      rewrite bpow_plus. change (bpow radix2 (-10)) with (/ IZR 1024). pose proof (bpow_gt_0 radix2 (-53)). lra. }
    set (r := B2R Nf / B2R Kf) in *.
    destruct HT as [(T1 & T2)|[(T1 & T2 & T3)|(T1 & T2)]].
    - left. split; auto. assert (G : uro <= rnd (- r)) by (unfold uro; apply rnd_bpow; [lia|fold uro; lra]).
      rewrite rnd_opp in G. lra.
    - right. left. assert (G : uro <= rnd r) by (unfold uro; apply rnd_bpow; [lia|fold uro; lra]).
      pose proof (rnd_abs r 1 ltac:(apply Rabs_le_iff; lra)) as E1. apply Rabs_le_iff in E1.
      split; auto. split; [lra|]. apply Rabs_le_iff in T3. unfold tau.
      assert (21 * Q / Rabs K <= 21 * Q / dl).
      { unfold Rdiv. apply Rmult_le_compat_l; [lra|]. rewrite EKD, Rabs_Ropp. apply Rinv_le; auto. }
      apply Rabs_le_iff. lra.
    - right. right. split; auto. apply Rlt_le_trans with (rnd (1 + 4 * uro)); [|now apply rnd_mono].
      pose proof (rnd_abs (1 + 4 * uro) 2 ltac:(apply Rabs_le_iff; lra)) as E1. apply Rabs_le_iff in E1. lra.
  Qed.

  (** the search finds the same sides as over exact reals *)
  Notation sR := (to_vector (rp a) (rp b)).
  Definition same_sign (xf : b64) (x : R) : Prop := is_finite xf = true /\ (B2R xf < 0 /\ x < 0 \/ 0 < B2R xf /\ 0 < x).

  Lemma search_agree (HV : forall v, In v P -> 32 * Q < Rabs (orient (rp a) (rp b) v)) n : forall m0 i kk i0 i1 ksif ksi r,
    same_sign ksif ksi -> cb_search (rp a) (rp b) sR P n m0 i kk i0 i1 ksi = Ok r ->
    exists x, r = inr x /\ cb_search a b s poly n m0 i kk i0 i1 ksif = Ok (inr x).
  Proof.
    induction m0 as [|m0 IH]; intros i kk i0 i1 ksif ksi r HK E; cbn [cb_search] in *.
    - inversion E; subst. eauto.
    - destruct (kk <? 2)%Z; [|inversion E; subst; eauto].
      rewrite !aget_map in E. destruct (aget poly i) as [v0|]; [|discriminate]. cbn [bind] in *.
      destruct (aget poly ((i + 1) mod n)%Z) as [v1|] eqn:E1; [|discriminate]. cbn [bind] in *.
      assert (I1 : In v1 poly) by (eapply aget_in; eauto).
      destruct (in_bpt v1 ltac:(cbn [In]; auto)) as (B1 & J1). destruct (side_val v1 B1 J1) as (F & N).
      specialize (HV (rp v1) (in_map rp _ _ I1)). pose proof cQ as PQ.
      change (cross_product (to_vector (rp a) (rp v1)) sR) with (side (rp a) (rp b) (rp v1)) in E.
      assert (HS1 : same_sign (cross_product (to_vector a v1) s) (side (rp a) (rp b) (rp v1))).
      { split; auto. rewrite side_orient in *. apply Rabs_le_iff in N.
        destruct (Rle_or_lt 0 (orient (rp a) (rp b) (rp v1))) as [G|G]; [rewrite Rabs_pos_eq in HV by auto|rewrite Rabs_left in HV by auto]; lra. }
      set (etf := cross_product (to_vector a v1) s) in *. set (et := side (rp a) (rp b) (rp v1)) in *.
      destruct (Zb_exact 0 ltac:(lia)) as (FZ & EZ).
      assert (A : forall xf x, same_sign xf x -> nltb xf (nofZ 0) = nltb x (nofZ 0) /\ neqb xf (nofZ 0) = false /\ neqb x (nofZ 0) = false).
      { intros xf x (Fx & Hx). change (@nofZ b64 _ 0%Z) with (Zb 0). rewrite nltb_B, neqb_B by auto. rewrite EZ. rsimp.
        destruct Hx as [(X1 & X2)|(X1 & X2)]; [rewrite !Rlt_bool_true by auto|rewrite !Rlt_bool_false by lra]; rewrite !Req_bool_false by lra; auto. }
      destruct (A _ _ HK) as (A1 & A2 & A3). destruct (A _ _ HS1) as (A4 & A5 & A6).
      rewrite A1, A2, A4. rewrite A3 in E. cbn [andb] in *.
      destruct (xorb _ _); [destruct (kk =? 0)%Z|]; eapply IH; eauto.
  Qed.

  (** ** The last step *)
  Let e := cyrus_err k W dl (rp a) (rp b).
  Lemma e_eq : e = 22 * Q / dl * reach (rp a) (rp b) + 23 * m. Proof. reflexivity. Qed.
  Notation L := (at_ (rp a) (rp b)).
  Lemma m_pos : 0 < m. Proof. apply Rmult_lt_0_compat; [apply uro_pos|apply bpow_gt_0]. Qed.
  Lemma reach_pos u v : 0 <= reach u v.
  Proof. unfold reach. eapply Rle_trans; [apply (Rabs_pos (px v - px u))|apply Rmax_l]. Qed.
  Lemma taudl : 0 <= 21 * Q / dl.
  Proof. pose proof cQ. apply Rmult_le_pos; [lra|left; now apply Rinv_0_lt_compat]. Qed.
  Lemma e_tau : tau * reach (rp a) (rp b) <= e /\ 0 < e.
  Proof.
    pose proof taudl as T. pose proof m_pos as Pm. pose proof (reach_pos (rp a) (rp b)) as R0. pose proof uro_pos as Pu.
    assert (HR : reach (rp a) (rp b) <= 2 * M).
    { destruct (in_bpt a ltac:(cbn [In]; auto)) as ((A1 & A2) & _). destruct (in_bpt b ltac:(cbn [In]; auto)) as ((B1 & B2) & _).
      unfold reach. apply Rmax_lub; [apply (diff_bound k (px b) (px a)); auto|apply (diff_bound k (py b) (py a)); auto]. }
    assert (U : uro * reach (rp a) (rp b) <= 2 * m) by (unfold m; replace (2 * (uro * M)) with (uro * (2 * M)) by ring; apply Rmult_le_compat_l; lra).
    assert (T' : 0 <= 21 * Q / dl * reach (rp a) (rp b)) by (apply Rmult_le_pos; auto).
    rewrite e_eq; unfold tau. replace (22 * Q / dl * reach (rp a) (rp b)) with (22 / 21 * (21 * Q / dl * reach (rp a) (rp b))) by (field; lra). lra.
  Qed.

  Lemma point_val (tf : b64) t : is_finite tf = true -> 0 < B2R tf < 1 -> 0 < t < 1 -> Rabs (B2R tf - t) <= tau ->
    close e (rp (to_point tf a s)) (L t).
  Proof.
    intros F Hf Ht HT. destruct (in_bpt a ltac:(cbn [In]; auto)) as (Ba & _). destruct (in_bpt b ltac:(cbn [In]; auto)) as (Bb & _).
    assert (BT : bounded 2 tf) by (split; auto; change (bpow radix2 2) with 4; rewrite Rabs_pos_eq; lra).
    pose proof m_pos as Pm. pose proof uro_pos as Pu. pose proof taudl as T.
    assert (K : forall xa xb : b64, bounded k xa -> bounded k xb -> Rabs (B2R xb - B2R xa) <= reach (rp a) (rp b) ->
        Rabs (B2R (nadd xa (nmul tf (nsub xb xa))) - (B2R xa + t * (B2R xb - B2R xa))) <= e).
    { intros xa xb Bxa Bxb Hr.
      destruct (diff_err k ltac:(lia) xb xa Bxb Bxa) as (Bv & e1 & He1 & E1).
      pose proof (diff_bound k xb xa Bxb Bxa) as Hb. fold M in Hb.
      destruct (coord_err k Hk (B2R xa) (B2R xb - B2R xa) (B2R tf) tau t xa (nsub xb xa) tf) as (_ & C); auto; try lra.
      { exists e1. auto. }
      eapply Rle_trans; [exact C|]. fold M m. set (v := Rabs (B2R xb - B2R xa)) in *. assert (Pv : 0 <= v) by apply Rabs_pos.
      assert (A1 : uro * v <= 2 * m) by (unfold m; apply Rle_trans with (uro * (2 * M)); [apply Rmult_le_compat_l; lra|lra]).
      assert (A2 : 21 * Q / dl * v <= 21 * Q / dl * reach (rp a) (rp b)) by (apply Rmult_le_compat_l; lra).
      assert (A3 : 0 <= 21 * Q / dl * v) by (apply Rmult_le_pos; lra).
      rewrite e_eq; unfold tau. replace (22 * Q / dl * reach (rp a) (rp b)) with (22 / 21 * (21 * Q / dl * reach (rp a) (rp b))) by (field; lra). lra. }
    destruct Ba as (A1 & A2), Bb as (B1 & B2).
    split; cbn [px py rp at_ to_vector to_point]; apply K; auto; [apply Rmax_l|apply Rmax_r].
  Qed.

  Lemma at_close t t' : Rabs (t - t') * reach (rp a) (rp b) <= 2 * e -> close (2 * e) (L t) (L t').
  Proof.
    intros H. assert (G : forall x y, Rabs (y - x) <= reach (rp a) (rp b) -> Rabs ((x + t * (y - x)) - (x + t' * (y - x))) <= 2 * e).
    { intros x y Hr. replace ((x + t * (y - x)) - (x + t' * (y - x))) with ((t - t') * (y - x)) by ring. rewrite Rabs_mult.
      eapply Rle_trans; [|exact H]. apply Rmult_le_compat_l; auto using Rabs_pos. }
    split; apply G; [apply Rmax_l|apply Rmax_r].
  Qed.

  Lemma finish_64 (S : pt -> Prop) ia ib t0f t1f t0 t1 : rp a <> rp b ->
    is_finite t0f = true -> is_finite t1f = true -> tclass tau t0 (B2R t0f) -> tclass tau t1 (B2R t1f) -> t0 <> t1 ->
    (forall t, S (L t) <-> Rmin t0 t1 <= t <= Rmax t0 t1) ->
    (ia = true <-> S (rp a)) -> (ib = true <-> S (rp b)) -> (ia && ib)%bool = false ->
    clip_close e S (rp a) (rp b) (rclip (cb_finish a b s ia ib t0f t1f)).
  Proof.
    intros Hab F0 F1 C0 C1 Hne HP Ia Ib Hi. destruct e_tau as (ET & Pe). pose proof (reach_pos (rp a) (rp b)) as R0.
    assert (Pa : ia = true <-> Rmin t0 t1 <= 0 <= Rmax t0 t1) by (rewrite Ia, <- HP, at_0; reflexivity).
    assert (Pb : ib = true <-> Rmin t0 t1 <= 1 <= Rmax t0 t1) by (rewrite Ib, <- HP, at_1; reflexivity).
    pose proof (tclass_min _ _ _ _ _ C0 C1) as CL. pose proof (tclass_max _ _ _ _ _ C0 C1) as CH.
    assert (Hlh : Rmin t0 t1 < Rmax t0 t1) by (unfold Rmin, Rmax; destruct (Rle_dec t0 t1); lra).
    destruct (Zb_exact 0 ltac:(lia)) as (FZ & EZ). destruct (Zb_exact 1 ltac:(lia)) as (FO & EO).
    unfold cb_finish. change (@nofZ b64 _) with Zb in *.
    set (lo := Rmin t0 t1) in *. set (hi := Rmax t0 t1) in *.
    rewrite (neqb_B t0f t1f) by auto. case Req_bool_spec; intros Eq.
    - (* the two parameters are the same number *)
      assert (EL : Rmin (B2R t0f) (B2R t1f) = B2R t0f) by (rewrite Eq; apply Rmin_left; lra).
      assert (EH : Rmax (B2R t0f) (B2R t1f) = B2R t0f) by (rewrite Eq; apply Rmax_left; lra).
      rewrite EL in CL. rewrite EH in CH.
      assert (Na : ia = false) by (destruct ia; auto; destruct (proj1 Pa eq_refl); unfold tclass in CL, CH; lra).
      assert (Nb : ib = false) by (destruct ib; auto; destruct (proj1 Pb eq_refl); unfold tclass in CL, CH; lra).
      rewrite Na, Nb. cbn [andb rclip clip_close].
      intros x y (u & Hu & ->) (v & Hv & ->) Sx Sy. apply HP in Sx, Sy. apply at_close.
      destruct CL as [CL|[(L1 & L2 & L3)|CL]], CH as [CH|[(H1 & H2 & H3)|CH]]; try lra.
      apply Rle_trans with (2 * tau * reach (rp a) (rp b)); [|lra]. apply Rmult_le_compat_r; auto.
      apply Rabs_le_iff in L3, H3. apply Rabs_le_iff. lra.
    - cbv zeta.
      match goal with |- context [Some (to_point ?x a s, to_point ?y a s)] => set (u0 := x); set (u1 := y) end.
      assert (E0 : B2R u0 = Rmin (B2R t0f) (B2R t1f) /\ is_finite u0 = true).
      { unfold u0. rewrite nltb_B by auto. case Rlt_bool_spec; intros H; split; auto; [rewrite Rmin_right; lra|rewrite Rmin_left; lra]. }
      assert (E1 : B2R u1 = Rmax (B2R t0f) (B2R t1f) /\ is_finite u1 = true).
      { unfold u1. rewrite nltb_B by auto. case Rlt_bool_spec; intros H; split; auto; [rewrite Rmax_left; lra|rewrite Rmax_right; lra]. }
      destruct E0 as (E0 & G0), E1 as (E1 & G1). rewrite <- E0 in CL. rewrite <- E1 in CH. clearbody u0 u1. clear E0 E1.
      rewrite (nleb_B (Zb 0) u0), (nltb_B u0 (Zb 1)), (nltb_B (Zb 0) u1), (nleb_B u1 (Zb 1)) by auto. rewrite EZ, EO.
      pose proof (clipI_result (rp a) (rp b) Hab S lo hi HP) as CR. unfold clipI in CR.
      destruct (Rmax_cases 0 lo) as ((M1 & M2) & M3). destruct (Rmin_cases 1 hi) as ((N1 & N2) & N3).
      destruct CL as [(L1 & L2)|[(L1 & L2 & L3)|(L1 & L2)]], CH as [(H1 & H2)|[(H1 & H2 & H3)|(H1 & H2)]]; try (exfalso; lra).
      + (* both before a *)
        rewrite (Rle_bool_false 0 (B2R u0)), (Rlt_bool_false 0 (B2R u1)) by lra. cbn [andb rclip clip_close].
        rewrite Rlt_bool_false in CR by lra. intros x y Hx Hy Sx Sy. rewrite (CR x y) by auto. apply close_refl. lra.
      + (* a inside *)
        rewrite (Rle_bool_false 0 (B2R u0)), (Rlt_bool_true 0 (B2R u1)), (Rle_bool_true (B2R u1) 1) by lra. cbn [andb rclip clip_close].
        rewrite Rlt_bool_true in CR by lra. do 2 eexists. split; [exact CR|]. split.
        * replace (Rmax 0 lo) with 0 by lra. rewrite at_0. apply close_refl. lra.
        * replace (Rmin 1 hi) with hi by lra. now apply point_val.
      + (* both inside *)
        assert (ia = true) by (apply Pa; lra). assert (ib = true) by (apply Pb; lra). subst. discriminate.
      + (* both outside *)
        rewrite (Rle_bool_true 0 (B2R u0)), (Rlt_bool_true (B2R u0) 1), (Rlt_bool_true 0 (B2R u1)), (Rle_bool_true (B2R u1) 1) by lra.
        cbn [andb rclip clip_close]. rewrite Rlt_bool_true in CR by lra. do 2 eexists. split; [exact CR|]. split.
        * replace (Rmax 0 lo) with lo by lra. now apply point_val.
        * replace (Rmin 1 hi) with hi by lra. now apply point_val.
      + (* b inside *)
        rewrite (Rle_bool_true 0 (B2R u0)), (Rlt_bool_true (B2R u0) 1), (Rlt_bool_true 0 (B2R u1)), (Rle_bool_false (B2R u1) 1) by lra.
        cbn [andb rclip clip_close]. rewrite Rlt_bool_true in CR by lra. do 2 eexists. split; [exact CR|]. split.
        * replace (Rmax 0 lo) with lo by lra. now apply point_val.
        * replace (Rmin 1 hi) with 1 by lra. rewrite at_1. apply close_refl. lra.
      + (* both after b *)
        rewrite (Rle_bool_true 0 (B2R u0)), (Rlt_bool_false (B2R u0) 1), (Rlt_bool_true 0 (B2R u1)), (Rle_bool_false (B2R u1) 1) by lra.
        cbn [andb rclip clip_close]. rewrite Rlt_bool_false in CR by lra. intros x y Hx Hy Sx Sy. rewrite (CR x y) by auto. apply close_refl. lra.
  Qed.

  (** ** The whole function *)
  Variable tol : b64.
  Hypothesis (Bt : bounded k tol) (Ht : 0 <= B2R tol).
  Hypothesis HC : convex P.
  Hypothesis HO : forall u v, In (u, v) (poly_edges P) -> side_ok u v.

  Lemma flag_64 x : bpt k x -> placed k (B2R tol) P (rp x) ->
    exists i, point_in_polygon_or_on_edge x poly tol = Ok i /\ (i = true <-> hull P (rp x)).
  Proof.
    intros Bx HP. assert (Bp : Forall (bpt k) poly) by (inversion HB as [|? ? _ H]; inversion H; auto).
    assert (Hn : poly <> []) by (intros ->; destruct HC as [(H & _)|(H & _)]; cbn in H; lia).
    destruct HP as [(H1 & H2)|(H1 & H2)].
    - exists true. split; [apply (pip_float_complete k ltac:(lia) x tol); auto|].
      split; auto. intros _. now apply open_hull_hull.
    - destruct (pip_total x poly tol Hn) as (i & E).
      { eapply Forall_impl; [|exact Bp]. intros q ((A & _) & (B & _)). now split. }
      exists i. split; auto. split; [|contradiction]. intros ->.
      destruct (pip_float_sound k ltac:(lia) x tol Bx Bt Ht poly HC Bp HO E); contradiction.
  Qed.

  Theorem cyrus_64 : clear_line W (rp a) (rp b) P -> steep dl (rp a) (rp b) P -> placed k (B2R tol) P (rp a) -> placed k (B2R tol) P (rp b) ->
    exists r, cyrus_beck_line_polygon_clip a b poly tol = Ok r /\ clip_close e (hull P) (rp a) (rp b) (rclip r).
  Proof.
    intros (HV & HE) HT PA PB. cbv zeta in HV, HE. fold Q in HV, HE.
    destruct (in_bpt a ltac:(cbn [In]; auto)) as (Ba & _). destruct (in_bpt b ltac:(cbn [In]; auto)) as (Bb & _).
    pose proof cQ as PQ. destruct e_tau as (_ & Pe).
    destruct (aget_ok_pos poly 0) as (v & Ev & _).
    { assert (H : (3 <= length P)%nat) by (destruct HC as [(H & _)|(H & _)]; [auto|now rewrite rev_length in H]).
      rewrite map_length in H. unfold zlen. lia. }
    assert (Iv : In v poly) by (eapply aget_in; eauto).
    assert (Hab : rp a <> rp b).
    { intros E. specialize (HV _ (in_map rp _ _ Iv)). rewrite E in HV.
      replace (orient (rp b) (rp b) (rp v)) with 0 in HV by (unfold orient; ring). rewrite Rabs_R0 in HV. lra. }
    unfold cyrus_beck_line_polygon_clip.
    assert (Es : (neqb (px s) (nofZ 0) && neqb (py s) (nofZ 0))%bool = false).
    { destruct Ba as (A1 & A2), Bb as (B1 & B2). apply andb_false_iff.
      destruct (neqb (px s) (nofZ 0)) eqn:E1; auto. destruct (neqb (py s) (nofZ 0)) eqn:E2; auto.
      destruct Hab. apply pt_eq; cbn [px py rp].
      - apply (sub0 k Hk (px a) (px b) A1 B1). exact E1.
      - apply (sub0 k Hk (py a) (py b) A2 B2). exact E2. }
    rewrite Es. destruct (flag_64 a Ba PA) as (ia & -> & Ia). destruct (flag_64 b Bb PB) as (ib & -> & Ib). cbn [bind].
    destruct (ia && ib)%bool eqn:Ei.
    { apply andb_true_iff in Ei as (-> & ->). exists (Some (a, b)). split; auto. cbn [rclip clip_close].
      exists (rp a), (rp b). split; [|split; apply close_refl; lra]. split; auto. exists 0, 1.
      rewrite at_0, at_1. split; [lra|]. split; [lra|]. split; auto. split; auto. intros u Hu. split; auto. intros _.
      destruct (ccw_version P HC) as (Pc & Hc & HE'). apply (hull_either Pc P); auto. apply in_poly_hull; auto.
      apply in_poly_at; auto; apply in_poly_hull; auto; apply (hull_either Pc P); auto; [now apply Ia|now apply Ib]. }
    rewrite Ev. cbn [bind].
    assert (EvR : aget P 0%Z = Ok (rp v)) by (rewrite aget_map, Ev; reflexivity).
    destruct (in_bpt v ltac:(cbn [In]; auto)) as (Bv & Jv). destruct (side_val v Bv Jv) as (Fv & Nv).
    destruct (search_ok (rp a) (rp b) P (rp v) EvR) as (r & Er & Hr).
    assert (Ezl : zlen P = zlen poly) by (unfold zlen; now rewrite map_length). rewrite Ezl in *. rewrite map_length in Er.
    destruct (search_agree HV (zlen poly) (length poly) 0 0 (-1) (-1) (cross_product (to_vector a v) s) (side (rp a) (rp b) (rp v)) r) as (((kk & i0) & i1) & -> & ->); auto.
    { split; auto. specialize (HV _ (in_map rp _ _ Iv)). rewrite side_orient in *. apply Rabs_le_iff in Nv.
      destruct (Rle_or_lt 0 (orient (rp a) (rp b) (rp v))) as [G|G]; [rewrite Rabs_pos_eq in HV by auto|rewrite Rabs_left in HV by auto]; lra. }
    cbn [bind]. destruct Hr as [(-> & HQ)|(-> & Hlt & (v0 & v01 & E0 & C0) & (v1 & v11 & E1 & C1) & HQ)]; cbn [Z.eqb].
    - exists None. split; auto. cbn [rclip clip_close]. intros x y (t & _ & ->) (t' & _ & ->) Hx Hy.
      exfalso. revert Hx. apply (one_side_misses (rp a) (rp b) P HC); auto.
      intros v' Iv' E'. specialize (HV v' Iv'). rewrite E', Rabs_R0 in HV. lra.
    - assert (CR : forall u w, In u P -> In w P -> changes (rp a) (rp b) u w -> crossed (rp a) (rp b) u w).
      { intros u w Iu Iw Hc. unfold changes in Hc. rewrite !side_orient in Hc. pose proof (HV u Iu) as Vu. pose proof (HV w Iw) as Vw.
        unfold crossed. destruct (Req_dec (orient (rp a) (rp b) u) 0) as [Z0|]; [rewrite Z0, Rabs_R0 in Vu; lra|].
        destruct (Req_dec (orient (rp a) (rp b) w) 0) as [Z0|]; [rewrite Z0, Rabs_R0 in Vw; lra|]. lra. }
      assert (AT : forall i u w, edge_at P i u w -> exists u' w', u = rp u' /\ w = rp w' /\ aget poly i = Ok u' /\ aget poly ((i + 1) mod zlen poly)%Z = Ok w'
                      /\ In u' poly /\ In w' poly).
      { intros i u w (_ & A & B). rewrite aget_map in A, B. rewrite Ezl in B.
        destruct (aget poly i) as [u'|] eqn:Eu; [|discriminate]. destruct (aget poly ((i + 1) mod zlen poly)%Z) as [w'|] eqn:Ew; [|discriminate].
        inversion A; inversion B; subst. exists u', w'. repeat split; auto; eapply aget_in; eauto. }
      pose proof (edge_at_in _ _ _ _ E0) as I0. pose proof (edge_at_in _ _ _ _ E1) as I1.
      destruct (AT _ _ _ E0) as (w0 & w01 & -> & -> & A0 & A01 & J0 & J01). destruct (AT _ _ _ E1) as (w1 & w11 & -> & -> & A1 & A11 & J1 & J11).
      pose proof (chord_any (rp a) (rp b) P i0 i1 _ _ _ _ HC Hlt E0 E1 (CR _ _ (in_map rp _ _ J0) (in_map rp _ _ J01) C0)
                    (CR _ _ (in_map rp _ _ J1) (in_map rp _ _ J11) C1) C0 C1 HQ) as HP.
      apply CR in C0; auto using in_map. apply CR in C1; auto using in_map.
      destruct (HE _ _ I0 C0) as (X1 & X2). destruct (HE _ _ I1 C1) as (Y1 & Y2). pose proof (HT _ _ I0 C0) as X3. pose proof (HT _ _ I1 C1) as Y3.
      destruct (crossing_val w0 w01) as (t0f & Q0 & F0 & K0); auto using in_map.
      destruct (crossing_val w1 w11) as (t1f & Q1 & F1 & K1); auto using in_map.
      pose proof (params_differ _ _ _ _ _ _ _ _ _ HC Hlt E0 E1 C0 C1) as ND.
      unfold intersections. rewrite A0. cbn [bind]. rewrite A01. cbn [bind]. rewrite A1. cbn [bind]. rewrite A11. cbn [bind].
      rewrite Q0. cbn [bind]. rewrite Q1. cbn [bind snd fst].
      destruct (Rlt_bool (orient (rp w1) (rp w11) (rp a)) 0); cbn [fst snd]; (eexists; split; [reflexivity|]); eapply finish_64; eauto.
      intros t. rewrite (Rmin_comm (param _ _ _ _)), (Rmax_comm (param _ _ _ _)). apply HP.
  Qed.
End Cyrus64.
