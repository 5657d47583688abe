(** Cohen-Sutherland clipping of a segment by a box, in binary64. *)
From Coq Require Import Reals Lra Psatz.
From Flocq Require Import IEEE754.BinarySingleNaN Core.
From Verif Require Import RBase NumB64 NumRoom FBase FBuild MGeometry MAlgorithms FPoint FLocate FCut
  SpecGeom GBox.
Open Scope R_scope.

(** no coordinate differs by more than [e] *)
Definition close (e : R) (p q : pt) : Prop := Rabs (px p - px q) <= e /\ Rabs (py p - py q) <= e.
(** a corner of a box *)
Definition corner (K : bx) (v : pt) : Prop :=
  (px v = xmin K \/ px v = xmax K) /\ (py v = ymin K \/ py v = ymax K).
(** the segment keeps away from the corners of the box *)
Definition corners_clear (r : R) (a b : pt) (K : bx) : Prop :=
  forall x v, on_segment a b x -> corner K v -> ~ close r x v.
(** more than [d] inside *)
Definition deep (d : R) (K : bx) (x : pt) : Prop :=
  xmin K + d < px x < xmax K - d /\ ymin K + d < py x < ymax K - d.
(** a coordinate difference is zero or at least 2^-250 *)
Definition zero_or_plain (x y : R) : Prop := x = y \/ bpow radix2 (-250) <= Rabs (y - x).
Definition plain_segment (a b : pt) : Prop := zero_or_plain (px a) (px b) /\ zero_or_plain (py a) (py b).
Definition plain_box (K : bx) : Prop :=
  bpow radix2 (-250) <= xmax K - xmin K /\ bpow radix2 (-250) <= ymax K - ymin K.

(** what a clip has to deliver *)
Definition clips_near (e : R) (A B : pt) (K : bx) (r : option (pt * pt)) : Prop :=
  match r with
  | None => forall x, on_segment A B x -> ~ deep e K x
  | Some (c, d) => in_box K c /\ in_box K d
      /\ (exists c', on_segment A B c' /\ close e c c') /\ (exists d', on_segment A B d' /\ close e d d')
      /\ forall x, on_segment A B x -> deep e K x -> exists y, on_segment c d y /\ close e x y
  end.

Definition rclip (r : option (point b64 * point b64)) : option (pt * pt) :=
  match r with None => None | Some (c, d) => Some (rp c, rp d) end.

Lemma close_sym e p q : close e p q -> close e q p.
Proof. intros (H & H'). split; rewrite Rabs_minus_sym; auto. Qed.
Lemma close_trans e e' p q r : close e p q -> close e' q r -> close (e + e') p r.
Proof.
  intros (H1 & H2) (H3 & H4). apply Rabs_le_iff in H1, H2, H3, H4. split; apply Rabs_le_iff; lra.
Qed.
Lemma close_le e e' p q : e <= e' -> close e p q -> close e' p q.
Proof. intros H (H1 & H2). split; lra. Qed.
Lemma close_at e a b a' b' t : 0 <= t <= 1 -> close e a a' -> close e b b' -> close e (at_ a b t) (at_ a' b' t).
Proof.
  intros Ht (H1 & H2) (H3 & H4). apply Rabs_le_iff in H1, H2, H3, H4.
  split; apply Rabs_le_iff; cbn [px py at_]; split; nra.
Qed.
Lemma close_refl e p : 0 <= e -> close e p p.
Proof. intros H. split; rewrite Rminus_diag_eq, Rabs_R0; auto. Qed.
Lemma close_deep e d K p q : e <= d -> close e p q -> deep d K p -> in_box K q.
Proof.
  intros Hd (H1 & H2) (D1 & D2). apply Rabs_le_iff in H1, H2. split; lra.
Qed.

Lemma comb_low x y c u : 0 <= u <= 1 -> c <= x -> x + u * (y - x) < c -> y < c.
Proof. intros. apply Rnot_le_lt. intros H2. nra. Qed.
Lemma comb_high x y c u : 0 <= u <= 1 -> x <= c -> c < x + u * (y - x) -> c < y.
Proof. intros. apply Rnot_le_lt. intros H2. nra. Qed.

Section Move.
  Local Notation bounded := NumRoom.bounded.
  Variable k : Z.
  Hypothesis Hk : (-150 <= k <= 250)%Z.
  Let M := bpow radix2 k.
  Let m := uro * M.

  (** the crossing of the segment with a line parallel to an axis *)
  Lemma move_core (ax bx ay by_ c : b64) : bounded k ax -> bounded k bx -> bounded k ay -> bounded k by_ -> bounded k c ->
    bpow radix2 (-250) <= Rabs (B2R by_ - B2R ay) ->
    0 <= (B2R c - B2R ay) / (B2R by_ - B2R ay) <= 1 ->
    exists q : b64, ndiv (nmul (nsub bx ax) (nsub c ay)) (nsub by_ ay) = Ok q /\ is_finite (nadd ax q) = true
      /\ Rabs (B2R (nadd ax q) - (B2R ax + (B2R c - B2R ay) / (B2R by_ - B2R ay) * (B2R bx - B2R ax))) <= 16 * m.
  Proof.
    intros Ux Vx Uy Vy Py Hdy Hs01.
    pose proof (m_pos' k) as Pm; pose proof (m_M' k) as HmM; pose proof (M_pos' k) as PM; pose proof (eta_m2 k Hk) as He; pose proof (eta_m' k Hk) as He'.
    fold M in Pm, HmM, PM, He, He'. fold m in Pm, HmM, He, He'.
    pose proof uro_pos as Pu; pose proof uro_small as Su; pose proof eta_pos as Pe.
    pose proof (bpow_gt_0 radix2 (-250)) as P250.
    set (d := B2R bx - B2R ax) in *; set (h := B2R c - B2R ay) in *;
         set (dy := B2R by_ - B2R ay) in *.
    assert (Hdy0 : dy <> 0) by (intros E; rewrite E, Rabs_R0 in Hdy; lra).
    destruct (diff_err k Hk bx ax Vx Ux) as (B1 & e1 & He1 & E1); fold d in E1.
    destruct (diff_err k Hk c ay Py Uy) as (B2 & e2 & He2 & E2); fold h in E2.
    destruct (diff_err k Hk by_ ay Vy Uy) as (B4 & e4 & He4 & E4); fold dy in E4.
    set (a1 := nsub bx ax) in *; set (a2 := nsub c ay) in *; set (a4 := nsub by_ ay) in *.
    assert (HB : Rabs (B2R a1 * B2R a2) <= bpow radix2 ((k + 1) + (k + 1)))
      by (rewrite Rabs_mult, bpow_plus; apply Rmult_le_compat; auto using Rabs_pos; [apply B1|apply B2]).
    destruct (mult_err ((k + 1) + (k + 1)) a1 a2) as (B3 & e3 & h3 & He3 & Hh3 & E3);
      [lia|apply B1|apply B2|exact HB|]. set (a3 := nmul a1 a2) in *.
    assert (P4 : 0 < 1 + e4) by (apply Rabs_le_iff in He4; lra).
    assert (Hz4 : B2R a4 <> 0).
    { rewrite E4; apply Rmult_integral_contrapositive; split; [exact Hdy0|lra]. }
    set (z := d * (h / dy)).
    assert (Hz : Rabs z <= 2 * M).
    { unfold z; rewrite Rabs_mult; rewrite <- (Rmult_1_r (2 * M)); apply Rmult_le_compat; auto using Rabs_pos;
         [apply (diff_bound k); auto|rewrite Rabs_pos_eq; lra]. }
    set (Er := (1 + e1) * (1 + e2) * (1 + e3) / (1 + e4)).
    assert (HEr : Rabs (Er - 1) <= 5 * uro).
    { unfold Er. eapply Rle_trans; [apply (rel_div _ (3.01 * uro)); auto|lra].
      eapply Rle_trans; [apply (rel_mul _ (2.001 * uro)); auto; [|lra]|lra].
      eapply Rle_trans; [apply (rel_mul _ uro); auto; [|lra]|lra]. replace (1 + e1 - 1) with e1 by ring; auto. }
    set (hq := h3 / (dy * (1 + e4))).
    assert (Pdy : 0 < Rabs dy) by lra.
    assert (Hhq : Rabs hq <= m / 500).
    { unfold hq, Rdiv; rewrite Rabs_mult; apply Rle_trans with (eta * bpow radix2 251); [|lra].
      apply Rmult_le_compat; auto using Rabs_pos. rewrite Rabs_inv, Rabs_mult, (Rabs_pos_eq (1 + e4)) by lra.
      assert (0 < Rabs dy * (1 + e4)) by (apply Rmult_lt_0_compat; auto).
      apply (Rmult_le_reg_r (Rabs dy * (1 + e4))); auto.
      rewrite Rinv_l by lra.
      apply Rle_trans with (bpow radix2 251 * (bpow radix2 (-250) * / 2)).
      - rewrite <- Rmult_assoc, <- bpow_plus; change (bpow radix2 (251 + -250)) with 2; lra.
      - apply Rmult_le_compat_l; [apply bpow_ge_0|]; apply Rmult_le_compat; [apply bpow_ge_0|lra|auto|].
        apply Rabs_le_iff in He4; lra. }
    assert (Eq : B2R a3 / B2R a4 = z * Er + hq).
    { rewrite E3, E1, E2, E4; unfold z, Er, hq; field; split; [lra|auto]. }
    assert (HzE : Rabs (z * Er - z) <= 10 * m).
    { replace (z * Er - z) with (z * (Er - 1)) by ring; rewrite Rabs_mult;
         apply Rle_trans with (2 * M * (5 * uro)); [apply Rmult_le_compat; auto using Rabs_pos|unfold m; right; ring]. }
    destruct (div_err (k + 2) a3 a4) as (Ed & B5 & e5 & h5 & He5 & Hh5 & E5); [lia|apply B3|apply B4|exact Hz4| |].
    { rewrite Eq, bpow_plus; change (bpow radix2 2) with 4; fold M; apply Rabs_le_iff in Hz, HzE, Hhq; apply Rabs_le_iff; lra. }
    rewrite Ed; set (a5 := ndivraw a3 a4) in *; rewrite Eq in E5.
    assert (HQ : Rabs (B2R a5 - z) <= 13 * m).
    { rewrite E5; replace ((z * Er + hq) * (1 + e5) + h5 - z) with ((z * Er - z) + hq + ((z * Er + hq) * e5) + h5) by ring.
      assert (T1 : Rabs ((z * Er + hq) * e5) <= 2.1 * m).
      { rewrite Rabs_mult; apply Rle_trans with (2.1 * M * uro); [|unfold m; right; ring].
        apply Rmult_le_compat; auto using Rabs_pos; apply Rabs_le_iff in Hz, HzE, Hhq; apply Rabs_le_iff; lra. }
      apply Rabs_le_iff in T1, HzE, Hhq, Hh5; apply Rabs_le_iff; lra. }
    set (X := B2R ax + h / dy * d).
    assert (EX : X = B2R ax + z) by (unfold X, z; ring).
    assert (HXM1 : Rabs X <= M).
    { rewrite EX; unfold z, d; destruct Ux as (_ & Ux), Vx as (_ & Vx); fold M in Ux, Vx; apply Rabs_le_iff in Ux, Vx; apply Rabs_le_iff.
      set (s := h / dy) in *. clear - Ux Vx Hs01. split; nra. }
    rewrite EX in HXM1.
    destruct (plus_err (k + 2) ax a5) as (B6 & e6 & He6 & E6); [lia|apply Ux|apply B5| |].
    { rewrite bpow_plus; change (bpow radix2 2) with 4; fold M; apply Rabs_le_iff in HXM1, HQ; apply Rabs_le_iff; lra. }
    exists a5; split; [reflexivity|]; split; [apply B6|]; rewrite E6, EX.
    replace ((B2R ax + B2R a5) * (1 + e6) - (B2R ax + z))
           with ((B2R a5 - z) + (B2R a5 - z) * e6 + (B2R ax + z) * e6) by ring.
    assert (T2 : Rabs ((B2R ax + z) * e6) <= m)
           by (rewrite Rabs_mult; unfold m; rewrite (Rmult_comm uro); apply Rmult_le_compat; auto using Rabs_pos).
    assert (T3 : Rabs ((B2R a5 - z) * e6) <= m).
    { rewrite Rabs_mult; apply Rle_trans with (13 * m * uro); [apply Rmult_le_compat; auto using Rabs_pos|].
      replace m with (m * 1) at 2 by ring; rewrite (Rmult_comm 13 m), Rmult_assoc; apply Rmult_le_compat_l; lra. }
    apply Rabs_le_iff in T2, T3, HQ; apply Rabs_le_iff; lra.
  Qed.

  Lemma diff_eqb (a b : point b64) : bpt k a -> bpt k b ->
    (neqb (nsub (px b) (px a)) (nofZ 0) && neqb (nsub (py b) (py a)) (nofZ 0))%bool = true <-> rp a = rp b.
  Proof.
    intros (Ax & Ay) (Bx & By).
    destruct (diff_err k Hk _ _ Bx Ax) as ((F1 & _) & e1 & He1 & E1).
    destruct (diff_err k Hk _ _ By Ay) as ((F2 & _) & e2 & He2 & E2).
    destruct (Zb_exact 0 ltac:(cbn; lia)) as (F0 & E0). change (Zb 0) with (nofZ 0 : b64) in *.
    pose proof uro_small. apply Rabs_le_iff in He1, He2.
    rewrite andb_true_iff, !neqb_B, E0, E1, E2 by auto. unfold rp. split.
    - intros (H1 & H2). apply Reqb_iff in H1, H2. f_equal.
      + apply Rmult_integral in H1. lra.
      + apply Rmult_integral in H2. lra.
    - intros E. injection E as Ex Ey. rewrite Ex, Ey. split; apply Reqb_iff; ring.
  Qed.
End Move.

Section CS64.
  Local Notation bounded := NumRoom.bounded.
  Variable k : Z.
  Hypothesis Hk : (-150 <= k <= 249)%Z.
  Let M := bpow radix2 k.
  (** the error of one move *)
  Definition eps_of : R := 16 * (uro * bpow radix2 (k + 1)).
  Let eps := eps_of.
  Variable K : box b64.
  Hypothesis HK : bounded k (xmin K) /\ bounded k (xmax K) /\ bounded k (ymin K) /\ bounded k (ymax K).
  Let Kr := rbox K.
  Hypothesis PB : plain_box Kr.
  Variables A B : point b64.
  Hypothesis HA : bpt k A.
  Hypothesis HB : bpt k B.
  Hypothesis PS : plain_segment (rp A) (rp B).
  Hypothesis CL : corners_clear (8 * eps) (rp A) (rp B) Kr.

  Lemma k1 : (-150 <= k + 1 <= 250)%Z. Proof. lia. Qed.
  Lemma eps_pos : 0 < eps.
  Proof. unfold eps, eps_of. pose proof (m_pos' (k + 1)). lra. Qed.
  Lemma eps_M : 8 * eps <= M / 1000.
  Proof.
    unfold eps, eps_of. pose proof (m_M' (k + 1)) as H. rewrite bpow_plus in *.
    change (bpow radix2 1) with 2 in *. fold M in H |- *. pose proof (M_pos' k) as PM. fold M in PM. lra.
  Qed.
  Lemma eps_gap : bpow radix2 (-250) <= eps.
  Proof.
    unfold eps, eps_of. rewrite (m_eq' (k + 1)).
    apply Rle_trans with (bpow radix2 (k + 1 - 53)); [apply bpow_le; lia|].
    pose proof (bpow_gt_0 radix2 (k + 1 - 53)). lra.
  Qed.
  Lemma WFr : wf_box Kr.
  Proof. destruct PB as (P1 & P2). pose proof (bpow_gt_0 radix2 (-250)). split; lra. Qed.

  Lemma clip_B p : bpt (k + 1) p -> get_clip p K = get_clip (rp p) Kr.
  Proof.
    intros ((F1 & _) & (F2 & _)). destruct HK as ((G1 & _) & (G2 & _) & (G3 & _) & (G4 & _)).
    unfold get_clip. rewrite !nltb_B by auto. reflexivity.
  Qed.
  Lemma boxb : bounded (k + 1) (xmin K) /\ bounded (k + 1) (xmax K) /\ bounded (k + 1) (ymin K) /\ bounded (k + 1) (ymax K).
  Proof. destruct HK as (? & ? & ? & ?). split; [|split; [|split]]; apply (bounded_mono k); auto; lia. Qed.

  (** the running segment stays within [e] of the given one, and keeps its part inside the box *)
  Definition inv (e : R) (a b : point b64) : Prop :=
    (is_finite (px a) = true /\ is_finite (py a) = true /\ is_finite (px b) = true /\ is_finite (py b) = true)
    /\ (exists s, on_segment (rp A) (rp B) s /\ close e (rp a) s)
    /\ (exists t, on_segment (rp A) (rp B) t /\ close e (rp b) t)
    /\ forall x, on_segment (rp A) (rp B) x -> deep (4 * eps) Kr x ->
         exists y, on_segment (rp a) (rp b) y /\ close e x y.

  Lemma seg_bound s : on_segment (rp A) (rp B) s -> Rabs (px s) <= M /\ Rabs (py s) <= M.
  Proof.
    intros (t & Ht & ->). destruct HA as ((_ & A1) & (_ & A2)), HB as ((_ & B1) & (_ & B2)). fold M in A1, A2, B1, B2.
    apply Rabs_le_iff in A1, A2, B1, B2. split; apply Rabs_le_iff; cbn [px py at_ rp]; split; nra.
  Qed.
  Lemma near_bounded p s e : on_segment (rp A) (rp B) s -> close e (rp p) s -> e <= 4 * eps ->
    is_finite (px p) = true -> is_finite (py p) = true -> bpt (k + 1) p.
  Proof.
    intros Hs (C1 & C2) He F1 F2. destruct (seg_bound s Hs) as (S1 & S2). pose proof eps_M. pose proof eps_pos.
    pose proof (M_pos' k) as PM. fold M in PM.
    apply Rabs_le_iff in C1, C2, S1, S2. cbn [px py rp] in *.
    repeat split; auto; rewrite bpow_plus; change (bpow radix2 1) with 2; fold M; apply Rabs_le_iff; lra.
  Qed.
  Lemma inv_bpt e a b : e <= 4 * eps -> inv e a b -> bpt (k + 1) a /\ bpt (k + 1) b.
  Proof.
    intros He ((F1 & F2 & F3 & F4) & (s & Hs & Cs) & (t & Ht & Ct) & _).
    split; [apply (near_bounded a s e)|apply (near_bounded b t e)]; auto.
  Qed.
  Lemma seg_sub s t u : on_segment (rp A) (rp B) s -> on_segment (rp A) (rp B) t -> 0 <= u <= 1 ->
    on_segment (rp A) (rp B) (at_ s t u).
  Proof.
    intros (x & Hx & ->) (y & Hy & ->) Hu. rewrite at_at. exists (x + u * (y - x)). split; auto. nra.
  Qed.
  Lemma inv_seg e a b u : inv e a b -> 0 <= u <= 1 ->
    exists y, on_segment (rp A) (rp B) y /\ close e (at_ (rp a) (rp b) u) y.
  Proof.
    intros (_ & (s & Hs & Cs) & (t & Ht & Ct) & _) Hu. exists (at_ s t u). split; [now apply seg_sub|].
    now apply close_at.
  Qed.

  (** corners are clear of all points near the segment *)
  Lemma clear_pt e p y v : on_segment (rp A) (rp B) y -> close e p y -> corner Kr v -> 
    forall d, d + e <= 8 * eps -> ~ close d p v.
  Proof.
    intros Hy Cy Hv d Hd Hc. apply (CL y v Hy Hv). apply (close_le (e + d)); [lra|].
    apply close_trans with p; auto using close_sym.
  Qed.

  Definition good64 (fuel : nat) (a b : point b64) : Prop :=
    exists r, cs_loop K fuel a b (get_clip a K) (get_clip b K) = Ok r /\ clips_near (4 * eps) (rp A) (rp B) Kr (rclip r).

  Lemma loop_inside64 fuel e a b : e <= 4 * eps -> inv e a b -> in_box Kr (rp a) -> in_box Kr (rp b) -> good64 fuel a b.
  Proof.
    intros He I Ha Hb. destruct (inv_bpt e a b He I) as (Ba & Bb). exists (Some (a, b)). split.
    - assert (E1 : get_clip a K = 0%Z) by (rewrite clip_B by auto; now apply code_0).
      assert (E2 : get_clip b K = 0%Z) by (rewrite clip_B by auto; now apply code_0).
      rewrite E1, E2. destruct fuel; reflexivity.
    - destruct I as (_ & (s & Hs & Cs) & (t & Ht & Ct) & D). cbn [rclip clips_near].
      repeat (split; [first [assumption | exists s; split; auto; now apply (close_le e)
                     | exists t; split; auto; now apply (close_le e)]|]).
      intros x Hx Dx. destruct (D x Hx Dx) as (y & Hy & Cy). exists y. split; auto. now apply (close_le e).
  Qed.

  Lemma not_deep e a b : e <= 4 * eps -> inv e a b -> (forall u, 0 <= u <= 1 -> ~ in_box Kr (at_ (rp a) (rp b) u)) ->
    clips_near (4 * eps) (rp A) (rp B) Kr None.
  Proof.
    intros He (_ & _ & _ & D) H x Hx Dx. destruct (D x Hx Dx) as (y & (u & Hu & ->) & Cy).
    apply (H u Hu). apply (close_deep e (4 * eps) Kr x); auto.
  Qed.

  Lemma loop_shared64 fuel e a b : e <= 4 * eps -> inv e a b -> Z.land (get_clip a K) (get_clip b K) <> 0%Z -> good64 (S fuel) a b.
  Proof.
    intros He I H. destruct (inv_bpt e a b He I) as (Ba & Bb). exists None. split.
    - cbn [cs_loop]. destruct (Z.lor _ _ =? 0)%Z eqn:E.
      + apply Z.eqb_eq in E. apply Z.lor_eq_0_iff in E as (E & _). rewrite E in H. destruct H. reflexivity.
      + now apply Z.eqb_neq in H as ->.
    - apply (not_deep e a b He I). intros u Hu Hin. rewrite !clip_B in H by auto.
      revert H. rewrite !(get_clip_code Kr). destruct Hin as ((X1 & X2) & (Y1 & Y2)). cbn [px py at_] in *. intros H.
      destruct (xcode_cases Kr (rp a)) as [(P & Ea)|[(P & P' & Ea)|(P & Ea)]]; rewrite Ea in H; clear Ea;
        destruct (xcode_cases Kr (rp b)) as [(Q & Eb)|[(Q & Q' & Eb)|(Q & Eb)]]; rewrite Eb in H; clear Eb;
        try (pose proof (comb_lt _ _ _ u Hu P Q); lra);
        try (pose proof (comb_gt _ _ _ u Hu P Q); lra);
      destruct (ycode_cases Kr (rp a)) as [(C & Ea)|[(C & C' & Ea)|(C & Ea)]]; rewrite Ea in H; clear Ea;
        destruct (ycode_cases Kr (rp b)) as [(D & Eb)|[(D & D' & Eb)|(D & Eb)]]; rewrite Eb in H; clear Eb;
        try (pose proof (comb_lt _ _ _ u Hu C D); lra);
        try (pose proof (comb_gt _ _ _ u Hu C D); lra);
        destruct H; reflexivity.
  Qed.

  (** a point on a line of the box *)
  Definition on_line (p : pt) : Prop :=
    px p = xmin Kr \/ px p = xmax Kr \/ py p = ymin Kr \/ py p = ymax Kr.
  Lemma deep_line e x p : e <= 4 * eps -> on_line p -> close e x p -> ~ deep (4 * eps) Kr x.
  Proof.
    intros He Hl (C1 & C2) (D1 & D2). apply Rabs_le_iff in C1, C2. destruct Hl as [E|[E|[E|E]]]; lra.
  Qed.

  (** the invariant after moving one end *)
  Lemma inv_move_a e a b p s : 0 <= e -> inv e a b -> is_finite (px p) = true -> is_finite (py p) = true ->
    0 <= s <= 1 -> close eps (rp p) (at_ (rp a) (rp b) s) -> e <= 3 * eps ->
    (forall u, 0 <= u <= 1 -> in_box Kr (at_ (rp a) (rp b) u) -> s <= u) ->
    inv (e + eps) p b.
  Proof.
    intros He0 I F1 F2 Hs Cp He Hin. pose proof eps_pos as Pe.
    destruct (inv_seg e a b s I Hs) as (y & Hy & Cy).
    destruct I as ((_ & _ & F3 & F4) & _ & (t & Ht & Ct) & D).
    split; [auto|]. split; [|split].
    - exists y. split; auto. rewrite Rplus_comm. now apply close_trans with (at_ (rp a) (rp b) s).
    - exists t. split; auto. apply (close_le e); auto. lra.
    - intros x Hx Dx. destruct (D x Hx Dx) as (z & (u & Hu & ->) & Cz).
      assert (Hsu : s <= u) by (apply Hin; auto; apply (close_deep e (4 * eps) Kr x); auto; lra).
      destruct (Req_dec s 1) as [->|Hs1].
      + exists (rp b). split; [exists 1; rewrite at_1; split; auto; lra|].
        assert (u = 1) by lra. subst u. rewrite at_1 in Cz. apply (close_le e); auto. lra.
      + set (w := (u - s) / (1 - s)).
        assert (Hw : 0 <= w <= 1).
        { unfold w. split; [apply Rmult_le_pos; [lra|left; apply Rinv_0_lt_compat; lra]|]. apply (Rmult_le_reg_r (1 - s)); [lra|].
          unfold Rdiv. rewrite Rmult_assoc, Rinv_l by lra. lra. }
        exists (at_ (rp p) (rp b) w). split; [exists w; auto|].
        apply close_trans with (at_ (rp a) (rp b) u); auto.
        assert (E : at_ (rp a) (rp b) u = at_ (at_ (rp a) (rp b) s) (rp b) w).
        { rewrite <- (at_1 (rp a) (rp b)) at 3. rewrite at_at. f_equal. unfold w. field. lra. }
        rewrite E. apply close_at; auto using close_sym. apply close_refl. lra.
  Qed.

  Lemma inv_move_b e a b p s : 0 <= e -> inv e a b -> is_finite (px p) = true -> is_finite (py p) = true ->
    0 <= s <= 1 -> close eps (rp p) (at_ (rp a) (rp b) s) -> e <= 3 * eps ->
    (forall u, 0 <= u <= 1 -> in_box Kr (at_ (rp a) (rp b) u) -> u <= s) ->
    inv (e + eps) a p.
  Proof.
    intros He0 I F1 F2 Hs Cp He Hin. pose proof eps_pos as Pe.
    destruct (inv_seg e a b s I Hs) as (y & Hy & Cy).
    destruct I as ((F3 & F4 & _ & _) & (t & Ht & Ct) & _ & D).
    split; [auto|]. split; [|split].
    - exists t. split; auto. apply (close_le e); auto. lra.
    - exists y. split; auto. rewrite Rplus_comm. now apply close_trans with (at_ (rp a) (rp b) s).
    - intros x Hx Dx. destruct (D x Hx Dx) as (z & (u & Hu & ->) & Cz).
      assert (Hsu : u <= s) by (apply Hin; auto; apply (close_deep e (4 * eps) Kr x); auto; lra).
      destruct (Req_dec s 0) as [->|Hs1].
      + exists (rp a). split; [exists 0; rewrite at_0; split; auto; lra|].
        assert (u = 0) by lra. subst u. rewrite at_0 in Cz. apply (close_le e); auto. lra.
      + set (w := u / s).
        assert (Hw : 0 <= w <= 1).
        { unfold w. split; [apply Rmult_le_pos; [lra|left; apply Rinv_0_lt_compat; lra]|]. apply (Rmult_le_reg_r s); [lra|].
          unfold Rdiv. rewrite Rmult_assoc, Rinv_l by lra. lra. }
        exists (at_ (rp a) (rp p) w). split; [exists w; auto|].
        apply close_trans with (at_ (rp a) (rp b) u); auto.
        assert (E : at_ (rp a) (rp b) u = at_ (rp a) (at_ (rp a) (rp b) s) w).
        { rewrite <- (at_0 (rp a) (rp b)) at 2. rewrite at_at. f_equal. unfold w. field. lra. }
        rewrite E. apply close_at; auto using close_sym. apply close_refl. lra.
  Qed.

  (** one round moving a *)
  Lemma loop_move_a64 fuel e a b p s : 0 <= e -> e <= 3 * eps -> inv e a b ->
    get_clip a K <> 0%Z -> Z.land (get_clip a K) (get_clip b K) = 0%Z ->
    cs_move a (nsub (px b) (px a)) (nsub (py b) (py a)) K (get_clip a K) = Ok p ->
    is_finite (px p) = true -> is_finite (py p) = true -> on_line (rp p) ->
    0 <= s <= 1 -> close eps (rp p) (at_ (rp a) (rp b) s) ->
    (forall u, 0 <= u <= 1 -> in_box Kr (at_ (rp a) (rp b) u) -> s <= u) ->
    (inv (e + eps) p b -> good64 fuel p b) -> good64 (S fuel) a b.
  Proof.
    intros He0 He I Hk1 Hs Em F1 F2 Hl Hs01 Cp Hin IH. pose proof eps_pos as Pe.
    pose proof (inv_move_a e a b p s He0 I F1 F2 Hs01 Cp He Hin) as I'.
    destruct (inv_bpt (e + eps) p b ltac:(lra) I') as (Bp & Bb).
    unfold good64. cbn [cs_loop].
    destruct (Z.lor (get_clip a K) (get_clip b K) =? 0)%Z eqn:E0.
    { apply Z.eqb_eq in E0. apply Z.lor_eq_0_iff in E0 as (E0 & _). contradiction. }
    rewrite Hs. cbn [negb Z.eqb]. apply Z.eqb_neq in Hk1 as Hk'. rewrite Hk'. cbn [negb].
    rewrite Em. cbn [bind]. rewrite Z.eqb_refl.
    destruct (neqb (nsub (px b) (px p)) (nofZ 0) && neqb (nsub (py b) (py p)) (nofZ 0))%bool eqn:Eq.
    - apply (diff_eqb (k + 1) k1) in Eq; auto. exists None. split; auto.
      intros x Hx Dx. destruct I' as (_ & _ & _ & D). destruct (D x Hx Dx) as (y & (u & Hu & ->) & Cy).
      rewrite <- Eq, at_same in Cy. apply (deep_line (e + eps) x (rp p)); auto. lra.
    - apply IH, I'.
  Qed.

  Lemma loop_move_b64 fuel e a b p s : 0 <= e -> e <= 3 * eps -> inv e a b ->
    get_clip a K = 0%Z -> get_clip b K <> 0%Z ->
    cs_move a (nsub (px b) (px a)) (nsub (py b) (py a)) K (get_clip b K) = Ok p ->
    is_finite (px p) = true -> is_finite (py p) = true -> on_line (rp p) ->
    0 <= s <= 1 -> close eps (rp p) (at_ (rp a) (rp b) s) ->
    (forall u, 0 <= u <= 1 -> in_box Kr (at_ (rp a) (rp b) u) -> u <= s) ->
    (inv (e + eps) a p -> good64 fuel a p) -> good64 (S fuel) a b.
  Proof.
    intros He0 He I Hk1 Hk2 Em F1 F2 Hl Hs01 Cp Hin IH. pose proof eps_pos as Pe.
    pose proof (inv_move_b e a b p s He0 I F1 F2 Hs01 Cp He Hin) as I'.
    destruct (inv_bpt (e + eps) a p ltac:(lra) I') as (Ba & Bp).
    unfold good64 in *. cbn [cs_loop].
    destruct (Z.lor (get_clip a K) (get_clip b K) =? 0)%Z eqn:E0.
    { apply Z.eqb_eq in E0. apply Z.lor_eq_0_iff in E0 as (_ & E0). contradiction. }
    rewrite Hk1 in *. cbn [negb Z.eqb Z.land].
    rewrite Em. cbn [bind]. apply Z.eqb_neq in Hk2 as ->.
    destruct (neqb (nsub (px p) (px a)) (nofZ 0) && neqb (nsub (py p) (py a)) (nofZ 0))%bool eqn:Eq.
    - apply (diff_eqb (k + 1) k1) in Eq; auto. exists None. split; auto.
      intros x Hx Dx. destruct I' as (_ & _ & _ & D). destruct (D x Hx Dx) as (y & (u & Hu & ->) & Cy).
      rewrite Eq, at_same in Cy. apply (deep_line (e + eps) x (rp p)); auto. lra.
    - apply IH, I'.
  Qed.

  Definition btw (a b c : R) : Prop := a <= c <= b \/ b <= c <= a.
  Lemma btw_ratio a b c : a <> b -> btw a b c -> 0 <= (c - a) / (b - a) <= 1.
  Proof.
    intros Hab [H|H].
    - split; [apply Rmult_le_pos; [lra|left; apply Rinv_0_lt_compat; lra]|].
      apply (Rmult_le_reg_r (b - a)); [lra|]. unfold Rdiv. rewrite Rmult_assoc, Rinv_l by lra. lra.
    - replace ((c - a) / (b - a)) with ((a - c) / (a - b)) by (field; lra).
      split; [apply Rmult_le_pos; [lra|left; apply Rinv_0_lt_compat; lra]|].
      apply (Rmult_le_reg_r (a - b)); [lra|]. unfold Rdiv. rewrite Rmult_assoc, Rinv_l by lra. lra.
  Qed.
  Lemma plain_ne x y : bpow radix2 (-250) <= Rabs (y - x) -> x <> y.
  Proof. intros H ->. rewrite Rminus_diag_eq, Rabs_R0 in H by auto. pose proof (bpow_gt_0 radix2 (-250)). lra. Qed.

  Lemma move_y64 (a b q : point b64) : bpt (k + 1) a -> bpt (k + 1) b -> bpt (k + 1) q ->
    ~ ygood Kr (rp q) -> bpow radix2 (-250) <= Rabs (py (rp b) - py (rp a)) ->
    (ymax Kr < py (rp q) -> btw (py (rp a)) (py (rp b)) (ymax Kr)) ->
    (py (rp q) < ymin Kr -> btw (py (rp a)) (py (rp b)) (ymin Kr)) ->
    exists p s, cs_move a (nsub (px b) (px a)) (nsub (py b) (py a)) K (get_clip q K) = Ok p
      /\ is_finite (px p) = true /\ is_finite (py p) = true /\ 0 <= s <= 1 /\ close eps (rp p) (at_ (rp a) (rp b) s)
      /\ ((ymax Kr < py (rp q) /\ py (rp p) = ymax Kr /\ py (at_ (rp a) (rp b) s) = ymax Kr)
          \/ (py (rp q) < ymin Kr /\ py (rp p) = ymin Kr /\ py (at_ (rp a) (rp b) s) = ymin Kr)).
  Proof.
    intros (Ax & Ay) (Bx & By) Hq Hn Hg H1 H2. pose proof eps_pos as Pe.
    pose proof (plain_ne _ _ Hg) as Hne. destruct boxb as (G1 & G2 & G3 & G4).
    rewrite (clip_B q Hq), (get_clip_code Kr). unfold cs_move, UPPER, LOWER, LEFT, RIGHT.
    destruct (ycode_cases Kr (rp q)) as [(C & ->)|[(C & C' & ->)|(C & _)]]; [| |contradiction].
    - assert (E : negb (Z.land (Z.lor (xcode Kr (rp q)) 4) 8 =? 0)%Z = false
                  /\ negb (Z.land (Z.lor (xcode Kr (rp q)) 4) 4 =? 0)%Z = true).
      { destruct (xcode_cases Kr (rp q)) as [(_ & ->)|[(_ & _ & ->)|(_ & ->)]]; auto. }
      destruct E as (-> & ->).
      pose proof (btw_ratio _ _ _ Hne (H2 C)) as Hr.
      destruct (move_core (k + 1) k1 (px a) (px b) (py a) (py b) (ymin K) Ax Bx Ay By G3 Hg Hr) as (v & Ev & Fv & Hv).
      rewrite Ev. cbn [bind]. exists (Pt (nadd (px a) v) (ymin K)). eexists. split; [reflexivity|].
      split; [exact Fv|]. split; [apply G3|]. split; [exact Hr|].
      assert (Ey : py (at_ (rp a) (rp b) ((ymin Kr - py (rp a)) / (py (rp b) - py (rp a)))) = ymin Kr).
      { cbn [py at_]. field. lra. }
      split; [|right; repeat split; auto].
      split; [exact Hv|]. change (py (rp (Pt (nadd (px a) v) (ymin K)))) with (ymin Kr).
      change (B2R (ymin K)) with (ymin Kr). change (B2R (py a)) with (py (rp a)). change (B2R (py b)) with (py (rp b)).
      rewrite Ey, Rminus_diag_eq, Rabs_R0 by auto. lra.
    - assert (E : negb (Z.land (Z.lor (xcode Kr (rp q)) 8) 8 =? 0)%Z = true).
      { destruct (xcode_cases Kr (rp q)) as [(_ & ->)|[(_ & _ & ->)|(_ & ->)]]; auto. }
      rewrite E.
      pose proof (btw_ratio _ _ _ Hne (H1 C)) as Hr.
      destruct (move_core (k + 1) k1 (px a) (px b) (py a) (py b) (ymax K) Ax Bx Ay By G4 Hg Hr) as (v & Ev & Fv & Hv).
      rewrite Ev. cbn [bind]. exists (Pt (nadd (px a) v) (ymax K)). eexists. split; [reflexivity|].
      split; [exact Fv|]. split; [apply G4|]. split; [exact Hr|].
      assert (Ey : py (at_ (rp a) (rp b) ((ymax Kr - py (rp a)) / (py (rp b) - py (rp a)))) = ymax Kr).
      { cbn [py at_]. field. lra. }
      split; [|left; repeat split; auto].
      split; [exact Hv|]. change (py (rp (Pt (nadd (px a) v) (ymax K)))) with (ymax Kr).
      change (B2R (ymax K)) with (ymax Kr). change (B2R (py a)) with (py (rp a)). change (B2R (py b)) with (py (rp b)).
      rewrite Ey, Rminus_diag_eq, Rabs_R0 by auto. lra.
  Qed.

  Lemma move_x64 (a b q : point b64) : bpt (k + 1) a -> bpt (k + 1) b -> bpt (k + 1) q ->
    ygood Kr (rp q) -> ~ xgood Kr (rp q) -> bpow radix2 (-250) <= Rabs (px (rp b) - px (rp a)) ->
    (xmax Kr < px (rp q) -> btw (px (rp a)) (px (rp b)) (xmax Kr)) ->
    (px (rp q) < xmin Kr -> btw (px (rp a)) (px (rp b)) (xmin Kr)) ->
    exists p s, cs_move a (nsub (px b) (px a)) (nsub (py b) (py a)) K (get_clip q K) = Ok p
      /\ is_finite (px p) = true /\ is_finite (py p) = true /\ 0 <= s <= 1 /\ close eps (rp p) (at_ (rp a) (rp b) s)
      /\ ((xmax Kr < px (rp q) /\ px (rp p) = xmax Kr /\ px (at_ (rp a) (rp b) s) = xmax Kr)
          \/ (px (rp q) < xmin Kr /\ px (rp p) = xmin Kr /\ px (at_ (rp a) (rp b) s) = xmin Kr)).
  Proof.
    intros (Ax & Ay) (Bx & By) Hq Hy Hn Hg H1 H2. pose proof eps_pos as Pe.
    pose proof (plain_ne _ _ Hg) as Hne. destruct boxb as (G1 & G2 & G3 & G4).
    rewrite (clip_B q Hq), (get_clip_code Kr). unfold cs_move, UPPER, LOWER, LEFT, RIGHT.
    destruct (ycode_cases Kr (rp q)) as [(B0 & _)|[(B0 & B' & _)|(_ & ->)]]; unfold ygood in *; try lra.
    destruct (xcode_cases Kr (rp q)) as [(C & ->)|[(C & C' & ->)|(C & _)]]; [| |contradiction].
    - change (negb (Z.land (Z.lor 1 0) 8 =? 0)%Z) with false. change (negb (Z.land (Z.lor 1 0) 4 =? 0)%Z) with false.
      change (negb (Z.land (Z.lor 1 0) 2 =? 0)%Z) with false. change (negb (Z.land (Z.lor 1 0) 1 =? 0)%Z) with true.
      cbn iota.
      pose proof (btw_ratio _ _ _ Hne (H2 C)) as Hr.
      destruct (move_core (k + 1) k1 (py a) (py b) (px a) (px b) (xmin K) Ay By Ax Bx G1 Hg Hr) as (v & Ev & Fv & Hv).
      rewrite Ev. cbn [bind]. exists (Pt (xmin K) (nadd (py a) v)). eexists. split; [reflexivity|].
      split; [apply G1|]. split; [exact Fv|]. split; [exact Hr|].
      assert (Ex : px (at_ (rp a) (rp b) ((xmin Kr - px (rp a)) / (px (rp b) - px (rp a)))) = xmin Kr).
      { cbn [px at_]. field. lra. }
      split; [|right; repeat split; auto].
      split; [|exact Hv]. change (px (rp (Pt (xmin K) (nadd (py a) v)))) with (xmin Kr).
      change (B2R (xmin K)) with (xmin Kr). change (B2R (px a)) with (px (rp a)). change (B2R (px b)) with (px (rp b)).
      rewrite Ex, Rminus_diag_eq, Rabs_R0 by auto. lra.
    - change (negb (Z.land (Z.lor 2 0) 8 =? 0)%Z) with false. change (negb (Z.land (Z.lor 2 0) 4 =? 0)%Z) with false.
      change (negb (Z.land (Z.lor 2 0) 2 =? 0)%Z) with true.
      cbn iota.
      pose proof (btw_ratio _ _ _ Hne (H1 C)) as Hr.
      destruct (move_core (k + 1) k1 (py a) (py b) (px a) (px b) (xmax K) Ay By Ax Bx G2 Hg Hr) as (v & Ev & Fv & Hv).
      rewrite Ev. cbn [bind]. exists (Pt (xmax K) (nadd (py a) v)). eexists. split; [reflexivity|].
      split; [apply G2|]. split; [exact Fv|]. split; [exact Hr|].
      assert (Ex : px (at_ (rp a) (rp b) ((xmax Kr - px (rp a)) / (px (rp b) - px (rp a)))) = xmax Kr).
      { cbn [px at_]. field. lra. }
      split; [|left; repeat split; auto].
      split; [|exact Hv]. change (px (rp (Pt (xmax K) (nadd (py a) v)))) with (xmax Kr).
      change (B2R (xmax K)) with (xmax Kr). change (B2R (px a)) with (px (rp a)). change (B2R (px b)) with (px (rp b)).
      rewrite Ex, Rminus_diag_eq, Rabs_R0 by auto. lra.
  Qed.

  (** how far an end that has been moved to a line of the box is from the corners *)
  Lemma far_x e a b u v : e <= 4 * eps -> inv e a b -> 0 <= u <= 1 -> corner Kr v ->
    Rabs (py (at_ (rp a) (rp b) u) - py v) <= 4 * eps -> 4 * eps < Rabs (px (at_ (rp a) (rp b) u) - px v).
  Proof.
    intros He I Hu Hv Hy. destruct (inv_seg e a b u I Hu) as (y & Sy & Cy).
    apply Rnot_le_lt. intros Hx. apply (clear_pt e _ y v Sy Cy Hv (4 * eps)); [lra|]. split; auto.
  Qed.
  Lemma far_y e a b u v : e <= 4 * eps -> inv e a b -> 0 <= u <= 1 -> corner Kr v ->
    Rabs (px (at_ (rp a) (rp b) u) - px v) <= 4 * eps -> 4 * eps < Rabs (py (at_ (rp a) (rp b) u) - py v).
  Proof.
    intros He I Hu Hv Hy. destruct (inv_seg e a b u I Hu) as (y & Sy & Cy).
    apply Rnot_le_lt. intros Hx. apply (clear_pt e _ y v Sy Cy Hv (4 * eps)); [lra|]. split; auto.
  Qed.

  Lemma zero_le_4 : Rabs 0 <= 4 * eps.
  Proof. rewrite Rabs_R0. pose proof eps_pos. lra. Qed.
  (** an end on a line of the box is more than [4 * eps] from the other two *)
  Lemma end_on_y e a b u : e <= 4 * eps -> inv e a b -> 0 <= u <= 1 ->
    py (at_ (rp a) (rp b) u) = ymax Kr \/ py (at_ (rp a) (rp b) u) = ymin Kr ->
    4 * eps < Rabs (px (at_ (rp a) (rp b) u) - xmin Kr) /\ 4 * eps < Rabs (px (at_ (rp a) (rp b) u) - xmax Kr).
  Proof.
    intros He I Hu [E|E]; split.
    - apply (far_x e a b u (Pt (xmin Kr) (ymax Kr))); auto; [split; auto|]. cbn [py] in *. rewrite E, Rminus_diag_eq; auto using zero_le_4.
    - apply (far_x e a b u (Pt (xmax Kr) (ymax Kr))); auto; [split; auto|]. cbn [py] in *. rewrite E, Rminus_diag_eq; auto using zero_le_4.
    - apply (far_x e a b u (Pt (xmin Kr) (ymin Kr))); auto; [split; auto|]. cbn [py] in *. rewrite E, Rminus_diag_eq; auto using zero_le_4.
    - apply (far_x e a b u (Pt (xmax Kr) (ymin Kr))); auto; [split; auto|]. cbn [py] in *. rewrite E, Rminus_diag_eq; auto using zero_le_4.
  Qed.
  Lemma end_on_x e a b u : e <= 4 * eps -> inv e a b -> 0 <= u <= 1 ->
    px (at_ (rp a) (rp b) u) = xmax Kr \/ px (at_ (rp a) (rp b) u) = xmin Kr ->
    4 * eps < Rabs (py (at_ (rp a) (rp b) u) - ymin Kr) /\ 4 * eps < Rabs (py (at_ (rp a) (rp b) u) - ymax Kr).
  Proof.
    intros He I Hu [E|E]; split.
    - apply (far_y e a b u (Pt (xmax Kr) (ymin Kr))); auto; [split; auto|]. cbn [px] in *. rewrite E, Rminus_diag_eq; auto using zero_le_4.
    - apply (far_y e a b u (Pt (xmax Kr) (ymax Kr))); auto; [split; auto|]. cbn [px] in *. rewrite E, Rminus_diag_eq; auto using zero_le_4.
    - apply (far_y e a b u (Pt (xmin Kr) (ymin Kr))); auto; [split; auto|]. cbn [px] in *. rewrite E, Rminus_diag_eq; auto using zero_le_4.
    - apply (far_y e a b u (Pt (xmin Kr) (ymax Kr))); auto; [split; auto|]. cbn [px] in *. rewrite E, Rminus_diag_eq; auto using zero_le_4.
  Qed.
  Lemma abs_far c x y : c < Rabs (x - y) -> c < x - y \/ c < y - x.
  Proof. intros H. unfold Rabs in H. destruct (Rcase_abs (x - y)); lra. Qed.
  Lemma plain_pos x y : x <> y -> zero_or_plain x y -> bpow radix2 (-250) <= Rabs (y - x).
  Proof. intros H [E|E]; auto. contradiction. Qed.
  Lemma gap_pos x y : eps <= y - x -> bpow radix2 (-250) <= Rabs (y - x).
  Proof. intros H. pose proof eps_gap. pose proof eps_pos. rewrite Rabs_pos_eq; lra. Qed.
  Lemma gap_neg x y : eps <= x - y -> bpow radix2 (-250) <= Rabs (y - x).
  Proof. intros H. rewrite Rabs_minus_sym. now apply gap_pos. Qed.

  (** where the ends have come from *)
  Definition from_a (a b : point b64) : Prop :=
    a = A \/ (py (rp a) = ymax Kr /\ py (rp b) <= ymax Kr) \/ (py (rp a) = ymin Kr /\ ymin Kr <= py (rp b))
    \/ (px (rp a) = xmax Kr /\ px (rp b) <= xmax Kr) \/ (px (rp a) = xmin Kr /\ xmin Kr <= px (rp b)).
  Definition on_y (p : point b64) : Prop := py (rp p) = ymax Kr \/ py (rp p) = ymin Kr.

  Lemma gap_b_x e a b : e <= 4 * eps -> inv e a b -> in_box Kr (rp a) -> ~ xgood Kr (rp b) ->
    (b = B /\ from_a a b) \/ on_y b -> bpow radix2 (-250) <= Rabs (px (rp b) - px (rp a)).
  Proof.
    intros He I (Ax & Ay) Hx H. destruct PB as (PBx & PBy). pose proof eps_pos as Pe. pose proof eps_gap as Ge. unfold xgood in Hx.
    pose proof (end_on_y e a b 1 He I ltac:(lra)) as Y1. rewrite at_1 in Y1.
    pose proof (end_on_y e a b 0 He I ltac:(lra)) as Y0. rewrite at_0 in Y0.
    destruct H as [(-> & [->|[(E & _)|[(E & _)|[(E & H)|(E & H)]]]])|H].
    - apply plain_pos; [|apply PS]. lra.
    - destruct Y0 as (Q1 & Q2); [auto|]. apply abs_far in Q1, Q2.
      destruct (Rle_dec (xmin Kr) (px (rp B))); [apply gap_pos|apply gap_neg]; lra.
    - destruct Y0 as (Q1 & Q2); [auto|]. apply abs_far in Q1, Q2.
      destruct (Rle_dec (xmin Kr) (px (rp B))); [apply gap_pos|apply gap_neg]; lra.
    - rewrite Rabs_minus_sym, Rabs_pos_eq; lra.
    - rewrite Rabs_pos_eq; lra.
    - destruct Y1 as (Q1 & Q2); [auto|]. apply abs_far in Q1, Q2.
      destruct (Rle_dec (xmin Kr) (px (rp b))); [apply gap_pos|apply gap_neg]; lra.
  Qed.
  Lemma gap_b_y e a : e <= 4 * eps -> inv e a B -> in_box Kr (rp a) -> ~ ygood Kr (rp B) ->
    from_a a B -> bpow radix2 (-250) <= Rabs (py (rp B) - py (rp a)).
  Proof.
    intros He I (Ax & Ay) Hy H. destruct PB as (PBx & PBy). pose proof eps_pos as Pe. pose proof eps_gap as Ge. unfold ygood in Hy.
    pose proof (end_on_x e a B 0 He I ltac:(lra)) as X0. rewrite at_0 in X0.
    destruct H as [->|[(E & H)|[(E & H)|[(E & H)|(E & H)]]]].
    - apply plain_pos; [|apply PS]. lra.
    - rewrite Rabs_minus_sym, Rabs_pos_eq; lra.
    - rewrite Rabs_pos_eq; lra.
    - destruct X0 as (Q1 & Q2); [auto|]. apply abs_far in Q1, Q2.
      destruct (Rle_dec (ymin Kr) (py (rp B))); [apply gap_pos|apply gap_neg]; lra.
    - destruct X0 as (Q1 & Q2); [auto|]. apply abs_far in Q1, Q2.
      destruct (Rle_dec (ymin Kr) (py (rp B))); [apply gap_pos|apply gap_neg]; lra.
  Qed.
  Lemma gap_a_x e a : e <= 4 * eps -> inv e a B -> ~ xgood Kr (rp a) ->
    ~ (xmax Kr < px (rp a) /\ xmax Kr < px (rp B)) -> ~ (px (rp a) < xmin Kr /\ px (rp B) < xmin Kr) ->
    a = A \/ on_y a -> bpow radix2 (-250) <= Rabs (px (rp B) - px (rp a)).
  Proof.
    intros He I Hx N1 N2 H. destruct PB as (PBx & PBy). pose proof eps_pos as Pe. pose proof eps_gap as Ge. unfold xgood in Hx.
    pose proof (end_on_y e a B 0 He I ltac:(lra)) as Y0. rewrite at_0 in Y0.
    pose proof (bpow_gt_0 radix2 (-250)).
    destruct H as [->|H].
    - apply plain_pos; [|apply PS]. lra.
    - destruct Y0 as (Q1 & Q2); [auto|]. apply abs_far in Q1, Q2.
      destruct (Rle_dec (xmin Kr) (px (rp a))); [apply gap_neg|apply gap_pos]; lra.
  Qed.

  (** a crossing with a side of the box that lies clearly off the corners is not moved past them *)
  Lemma cross_x_good e a b s p : e <= 4 * eps -> inv e a b -> 0 <= s <= 1 -> close eps (rp p) (at_ (rp a) (rp b) s) ->
    px (at_ (rp a) (rp b) s) = xmax Kr \/ px (at_ (rp a) (rp b) s) = xmin Kr ->
    ygood Kr (at_ (rp a) (rp b) s) -> ygood Kr (rp p).
  Proof.
    intros He I Hs (_ & C) Hx (Y1 & Y2). pose proof eps_pos as Pe.
    destruct (end_on_x e a b s He I Hs Hx) as (Q1 & Q2). apply abs_far in Q1, Q2. apply Rabs_le_iff in C.
    unfold ygood. lra.
  Qed.

  (** stage 1: a inside, b out in x only *)
  Lemma stage1_64 fuel e a b : 0 <= e -> e <= 3 * eps -> inv e a b -> in_box Kr (rp a) -> ygood Kr (rp b) ->
    (b = B /\ from_a a b) \/ on_y b -> good64 (S fuel) a b.
  Proof.
    intros He0 He I Ha Hb Hfr. pose proof eps_pos as Pe.
    destruct (good_dec_x Kr (rp b)) as [Hx|Hx].
    { apply (loop_inside64 _ e); auto; [lra|split; auto]. }
    destruct (inv_bpt e a b ltac:(lra) I) as (Ba & Bb).
    pose proof (gap_b_x e a b ltac:(lra) I Ha Hx Hfr) as G.
    destruct Ha as (Ha1 & Ha2). unfold ygood in Hb.
    destruct (move_x64 a b b Ba Bb Bb Hb Hx G) as (p & s & Em & F1 & F2 & Hs & Cp & Hp).
    { intros H. left. lra. }
    { intros H. right. lra. }
    assert (Hxs : px (at_ (rp a) (rp b) s) = xmax Kr \/ px (at_ (rp a) (rp b) s) = xmin Kr) by tauto.
    assert (Hxp : px (rp p) = xmax Kr \/ px (rp p) = xmin Kr) by tauto.
    apply (loop_move_b64 fuel e a b p s); auto.
    - rewrite clip_B by auto. apply code_0. split; auto.
    - rewrite clip_B by auto. now apply bad_code_x.
    - destruct Hxp; unfold on_line; auto.
    - intros u Hu ((X1 & X2) & _). cbn [px at_] in *. nra.
    - intros I'. destruct WFr as (W1 & W2). apply (loop_inside64 _ (e + eps)); auto; [lra|split; auto|].
      split; [destruct Hxp as [->| ->]; lra|].
      apply (cross_x_good e a b s p ltac:(lra) I Hs Cp Hxs). unfold ygood. cbn [py at_]. nra.
  Qed.

  (** stage 2: a inside *)
  Lemma stage2_64 fuel e a : 0 <= e -> e <= 2 * eps -> inv e a B -> in_box Kr (rp a) -> from_a a B -> good64 (S (S fuel)) a B.
  Proof.
    intros He0 He I Ha Hfr. pose proof eps_pos as Pe.
    destruct (good_dec_y Kr (rp B)) as [Hb|Hb]; [apply (stage1_64 _ e); auto; lra|].
    destruct (inv_bpt e a B ltac:(lra) I) as (Ba & Bb).
    pose proof (gap_b_y e a ltac:(lra) I Ha Hb Hfr) as G.
    destruct Ha as (Ha1 & Ha2).
    destruct (move_y64 a B B Ba Bb Bb Hb G) as (p & s & Em & F1 & F2 & Hs & Cp & Hp).
    { intros H. left. lra. }
    { intros H. right. lra. }
    assert (Hyp : on_y p) by (unfold on_y; tauto).
    apply (loop_move_b64 (S fuel) e a B p s); auto; try lra.
    - rewrite clip_B by auto. apply code_0. split; auto.
    - rewrite clip_B by auto. now apply bad_code_y.
    - destruct Hyp; unfold on_line; auto.
    - intros u Hu (_ & (Y1 & Y2)). cbn [py at_] in *. nra.
    - intros I'. destruct WFr as (W1 & W2). apply (stage1_64 _ (e + eps)); auto; try lra.
      + split; auto.
      + unfold ygood. destruct Hyp as [->| ->]; lra.
  Qed.

  (** stage 3: a out in x only *)
  Lemma stage3_64 fuel e a : 0 <= e -> e <= eps -> inv e a B -> ygood Kr (rp a) -> a = A \/ (on_y a /\ from_a a B) ->
    good64 (S (S (S fuel))) a B.
  Proof.
    intros He0 He I Ha Hfr. pose proof eps_pos as Pe.
    assert (Hfa : from_a a B) by (destruct Hfr as [->|(_ & H)]; auto; left; auto).
    destruct (good_dec_x Kr (rp a)) as [Hx|Hx]; [apply (stage2_64 _ e); auto; [lra|split; auto]|].
    destruct (inv_bpt e a B ltac:(lra) I) as (Ba & Bb).
    destruct (Z.eq_dec (Z.land (get_clip a K) (get_clip B K)) 0) as [Hs|Hs]; [|apply (loop_shared64 _ e); auto; lra].
    pose proof Hs as Hs'. rewrite !clip_B in Hs' by auto.
    destruct (not_shared_y Kr WFr _ _ Hs') as (_ & _ & N1 & N2).
    assert (G : bpow radix2 (-250) <= Rabs (px (rp B) - px (rp a))) by (apply (gap_a_x e a); auto; [lra|tauto]).
    destruct WFr as (W1 & W2).
    destruct (move_x64 a B a Ba Bb Ba Ha Hx G) as (p & s & Em & F1 & F2 & Hs01 & Cp & Hp).
    { intros H. right. lra. }
    { intros H. left. lra. }
    assert (Hxs : px (at_ (rp a) (rp B) s) = xmax Kr \/ px (at_ (rp a) (rp B) s) = xmin Kr) by tauto.
    assert (Hxp : px (rp p) = xmax Kr \/ px (rp p) = xmin Kr) by tauto.
    unfold ygood in Ha.
    apply (loop_move_a64 (S (S fuel)) e a B p s); auto; try lra.
    - rewrite clip_B by auto. now apply bad_code_x.
    - destruct Hxp; unfold on_line; auto.
    - intros u Hu ((X1 & X2) & _). cbn [px at_] in *. destruct Hp as [(P & _ & Q)|(P & _ & Q)]; nra.
    - intros I'. destruct (inv_bpt (e + eps) p B ltac:(lra) I') as (Bp & _).
      destruct (good_dec_y Kr (rp p)) as [Hy|Hy].
      + apply (stage2_64 _ (e + eps)); auto; try lra.
        * split; auto. destruct Hxp as [->| ->]; lra.
        * unfold from_a. destruct Hp as [(P & E & _)|(P & E & _)]; [right; right; right; left|right; right; right; right]; split; auto; lra.
      + apply (loop_shared64 _ (e + eps)); auto; [lra|].
        assert (Hny : ~ ygood Kr (at_ (rp a) (rp B) s)).
        { intros H. apply Hy. apply (cross_x_good e a B s p ltac:(lra) I Hs01 Cp Hxs H). }
        rewrite !clip_B by auto. intros E. apply (not_shared_y Kr WFr) in E as (M1 & M2 & _).
        destruct (end_on_x e a B s ltac:(lra) I Hs01 Hxs) as (Q1 & Q2). apply abs_far in Q1, Q2.
        destruct Cp as (_ & Cp). apply Rabs_le_iff in Cp.
        unfold ygood in *. cbn [py at_] in *.
        set (Y := py (rp a) + s * (py (rp B) - py (rp a))) in *.
        destruct (Rle_dec (ymin Kr) Y) as [L1|L1].
        * destruct (Rle_dec Y (ymax Kr)) as [L2|L2]; [lra|].
          apply M1. split; [lra|]. apply (comb_high _ _ _ s Hs01 (proj2 Ha)). fold Y. lra.
        * apply M2. split; [lra|]. apply (comb_low _ _ _ s Hs01 (proj1 Ha)). fold Y. lra.
  Qed.

  (** stage 4: the given segment *)
  Lemma inv_start : inv 0 A B.
  Proof.
    destruct HA as ((F1 & _) & (F2 & _)), HB as ((F3 & _) & (F4 & _)).
    split; [auto|]. split; [|split].
    - exists (rp A). split; [exists 0; rewrite at_0; split; auto; lra|apply close_refl; lra].
    - exists (rp B). split; [exists 1; rewrite at_1; split; auto; lra|apply close_refl; lra].
    - intros x Hx _. exists x. split; auto. apply close_refl. lra.
  Qed.

  Lemma stage4_64 fuel : good64 (S (S (S (S fuel)))) A B.
  Proof.
    pose proof eps_pos as Pe. pose proof inv_start as I.
    destruct (good_dec_y Kr (rp A)) as [Ha|Ha]; [apply (stage3_64 _ 0); auto; lra|].
    destruct (inv_bpt 0 A B ltac:(lra) I) as (Ba & Bb).
    destruct (Z.eq_dec (Z.land (get_clip A K) (get_clip B K)) 0) as [Hs|Hs]; [|apply (loop_shared64 _ 0); auto; lra].
    pose proof Hs as Hs'. rewrite !clip_B in Hs' by auto.
    destruct (not_shared_y Kr WFr _ _ Hs') as (N1 & N2 & _). destruct WFr as (W1 & W2).
    assert (G : bpow radix2 (-250) <= Rabs (py (rp B) - py (rp A))).
    { apply plain_pos; [|apply PS]. unfold ygood in Ha. lra. }
    destruct (move_y64 A B A Ba Bb Ba Ha G) as (p & s & Em & F1 & F2 & Hs01 & Cp & Hp).
    { intros H. right. lra. }
    { intros H. left. lra. }
    assert (Hyp : on_y p) by (unfold on_y; tauto).
    apply (loop_move_a64 (S (S (S fuel))) 0 A B p s); auto; try lra.
    - rewrite clip_B by auto. now apply bad_code_y.
    - destruct Hyp; unfold on_line; auto.
    - intros u Hu (_ & (Y1 & Y2)). cbn [py at_] in *. destruct Hp as [(P & _ & Q)|(P & _ & Q)]; nra.
    - intros I'. apply (stage3_64 _ (0 + eps)); auto; try lra.
      + unfold ygood. destruct Hyp as [->| ->]; lra.
      + right. split; auto. unfold from_a. destruct Hp as [(P & E & _)|(P & E & _)]; [right; left|right; right; left]; split; auto; lra.
  Qed.

  Theorem cohen_sutherland_64 fuel : (4 <= fuel)%nat -> rp A <> rp B ->
    exists r, cohen_sutherland_line_box_clip fuel A B K = Ok r /\ clips_near (4 * eps) (rp A) (rp B) Kr (rclip r).
  Proof.
    intros Hf Hne. unfold cohen_sutherland_line_box_clip.
    destruct (inv_bpt 0 A B ltac:(pose proof eps_pos; lra) inv_start) as (Ba & Bb).
    destruct (neqb _ _ && neqb _ _)%bool eqn:E.
    - apply (diff_eqb (k + 1) k1) in E; auto. contradiction.
    - do 4 (destruct fuel as [|fuel]; [lia|]). apply stage4_64.
  Qed.
End CS64.
