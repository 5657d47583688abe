(** Helly's theorem in the plane for finitely many convex sets. *)
From Verif Require Import RBase.
Open Scope R_scope.

Definition cvx (C : pt -> Prop) : Prop :=
  forall p q t, C p -> C q -> 0 <= t <= 1 -> C (at_ p q t).

(** weighted sums over a list of weighted points *)
Fixpoint ssum (l : list (R * pt)) : R := match l with [] => 0 | (w, _) :: t => w + ssum t end.
Fixpoint xsum (l : list (R * pt)) : R := match l with [] => 0 | (w, p) :: t => w * px p + xsum t end.
Fixpoint ysum (l : list (R * pt)) : R := match l with [] => 0 | (w, p) :: t => w * py p + ysum t end.

Lemma ssum_zero l : Forall (fun wx => 0 <= fst wx) l -> ssum l = 0 ->
  Forall (fun wx => fst wx = 0) l.
Proof.
  induction l as [|(w, x) l IH]; intros H E; constructor.
  - cbn. inversion H; subst. cbn in *. assert (0 <= ssum l); [|lra].
    clear - H3. induction H3 as [|(w', x') l Hw _ IHl]; cbn in *; lra.
  - inversion H; subst. cbn in *. assert (0 <= ssum l).
    { clear - H3. induction H3 as [|(w', x') l Hw _ IHl]; cbn in *; lra. }
    apply IH; auto. lra.
Qed.
Lemma ssum_pos l : Forall (fun wx => 0 <= fst wx) l -> 0 <= ssum l.
Proof. induction 1 as [|(w', x') l Hw _ IHl]; cbn in *; lra. Qed.
Lemma xysum_zero l : Forall (fun wx => fst wx = 0) l -> xsum l = 0 /\ ysum l = 0.
Proof.
  induction 1 as [|(w, x) l Hw _ (IH1 & IH2)]; [cbn; lra|]. cbn in *. subst w. rewrite IH1, IH2. lra.
Qed.

Lemma cvx_sum C : cvx C -> forall l, Forall (fun wx => 0 <= fst wx /\ (0 < fst wx -> C (snd wx))) l ->
  0 < ssum l -> C (Pt (xsum l / ssum l) (ysum l / ssum l)).
Proof.
  intros HC. induction l as [|(w, x) l IH]; intros H Hs; [cbn in Hs; lra|].
  inversion H as [|? ? (Hw & Hx) Hl]; subst. cbn in Hw, Hx. cbn [ssum xsum ysum] in *.
  assert (Hn : Forall (fun wx => 0 <= fst wx) l) by (eapply Forall_impl; [|exact Hl]; cbn; intros ? (A & _); exact A).
  pose proof (ssum_pos _ Hn) as Hsp.
  destruct (Req_dec (ssum l) 0) as [E0|E0].
  - pose proof (ssum_zero _ Hn E0) as Hz. destruct (xysum_zero _ Hz) as (-> & ->). rewrite E0 in *.
    replace (Pt _ _) with x; [apply Hx; lra|]. apply pt_eq; cbn; field; lra.
  - specialize (IH Hl ltac:(lra)). destruct (Req_dec w 0) as [->|Hw0].
    + replace (Pt _ _) with (Pt (xsum l / ssum l) (ysum l / ssum l)); auto.
      apply pt_eq; cbn; f_equal; try lra; f_equal; lra.
    + replace (Pt _ _) with (at_ x (Pt (xsum l / ssum l) (ysum l / ssum l)) (ssum l / (w + ssum l))).
      * apply HC; auto; [apply Hx; lra|].
        assert (E : ssum l / (w + ssum l) * (w + ssum l) = ssum l) by (field; lra).
        split; apply (Rmult_le_reg_r (w + ssum l)); lra.
      * apply pt_eq; unfold at_; cbn; field; lra.
Qed.

(** ** An affine dependence of four points *)
Lemma dependence (x1 x2 x3 x4 : pt) : exists w1 w2 w3 w4,
  (w1 <> 0 \/ w2 <> 0 \/ w3 <> 0 \/ w4 <> 0) /\ w1 + w2 + w3 + w4 = 0
  /\ w1 * px x1 + w2 * px x2 + w3 * px x3 + w4 * px x4 = 0
  /\ w1 * py x1 + w2 * py x2 + w3 * py x3 + w4 * py x4 = 0.
Proof.
  destruct (Req_dec (orient x1 x2 x3) 0) as [E|E].
  - destruct (pt_dec x1 x2) as [->|Hn].
    + exists 1, (-1), 0, 0. split; [left; lra|]. lra.
    + unfold orient in E. destruct (Req_dec (px x2) (px x1)) as [Ex|Ex].
      * assert (Ey : py x2 <> py x1) by (intros Ey; apply Hn; apply pt_eq; auto).
        exists (- (1 - (py x3 - py x1) / (py x2 - py x1))), (- ((py x3 - py x1) / (py x2 - py x1))), 1, 0.
        split; [right; right; left; lra|]. split; [ring|]. split; [|field; lra].
        assert (px x3 = px x1).
        { rewrite Ex in E. assert (E' : (py x2 - py x1) * (px x3 - px x1) = 0) by lra.
          apply Rmult_integral in E' as [E'|E']; lra. }
        rewrite H, Ex. ring.
      * exists (- (1 - (px x3 - px x1) / (px x2 - px x1))), (- ((px x3 - px x1) / (px x2 - px x1))), 1, 0.
        split; [right; right; left; lra|]. split; [ring|]. split; [field; lra|].
        assert (py x3 = py x1 + (py x2 - py x1) * (px x3 - px x1) / (px x2 - px x1)).
        { apply (Rmult_eq_reg_r (px x2 - px x1)); [|lra]. field_simplify; lra. }
        rewrite H. field. lra.
  - exists (orient x2 x3 x4), (- orient x1 x3 x4), (orient x1 x2 x4), (- orient x1 x2 x3).
    split; [right; right; right; lra|]. unfold orient. repeat split; ring.
Qed.

(** ** Helly for four sets *)
Lemma pos_part w : 0 <= Rmax w 0 /\ Rmax w 0 - Rmax (- w) 0 = w /\ (0 < Rmax w 0 -> 0 < w).
Proof. unfold Rmax. repeat destruct Rle_dec; lra. Qed.

Lemma helly4 (C1 C2 C3 C4 : pt -> Prop) : cvx C1 -> cvx C2 -> cvx C3 -> cvx C4 ->
  (exists p, C2 p /\ C3 p /\ C4 p) -> (exists p, C1 p /\ C3 p /\ C4 p) ->
  (exists p, C1 p /\ C2 p /\ C4 p) -> (exists p, C1 p /\ C2 p /\ C3 p) ->
  exists p, C1 p /\ C2 p /\ C3 p /\ C4 p.
Proof.
  intros V1 V2 V3 V4 (x1 & A12 & A13 & A14) (x2 & A21 & A23 & A24) (x3 & A31 & A32 & A34) (x4 & A41 & A42 & A43).
  destruct (dependence x1 x2 x3 x4) as (w1 & w2 & w3 & w4 & Hn & Hs & Hx & Hy).
  set (u w := Rmax w 0). set (n w := Rmax (- w) 0).
  pose (lp := [(u w1, x1); (u w2, x2); (u w3, x3); (u w4, x4)]).
  pose (ln := [(n w1, x1); (n w2, x2); (n w3, x3); (n w4, x4)]).
  assert (Pp : forall w, 0 <= u w /\ 0 <= n w /\ u w - n w = w /\ (0 < u w -> 0 < w) /\ (0 < n w -> w < 0)).
  { intros w. unfold u, n, Rmax. repeat destruct Rle_dec; lra. }
  assert (Es : ssum lp = ssum ln).
  { cbn. destruct (Pp w1), (Pp w2), (Pp w3), (Pp w4). lra. }
  assert (Ex : xsum lp = xsum ln).
  { cbn. assert (E : forall w c, u w * c - n w * c = w * c).
    { intros w c. destruct (Pp w) as (_ & _ & E & _). rewrite <- E at 3. ring. }
    pose proof (E w1 (px x1)). pose proof (E w2 (px x2)). pose proof (E w3 (px x3)). pose proof (E w4 (px x4)). lra. }
  assert (Ey : ysum lp = ysum ln).
  { cbn. assert (E : forall w c, u w * c - n w * c = w * c).
    { intros w c. destruct (Pp w) as (_ & _ & E & _). rewrite <- E at 3. ring. }
    pose proof (E w1 (py x1)). pose proof (E w2 (py x2)). pose proof (E w3 (py x3)). pose proof (E w4 (py x4)). lra. }
  assert (Hpos : 0 < ssum lp).
  { rewrite Es. destruct (Rlt_dec 0 (ssum ln)) as [|Hno]; auto. exfalso.
    assert (Es' := Es). cbn in Hno, Es'.
    destruct (Pp w1) as (P1 & P1' & P1'' & _), (Pp w2) as (P2 & P2' & P2'' & _),
             (Pp w3) as (P3 & P3' & P3'' & _), (Pp w4) as (P4 & P4' & P4'' & _). lra. }
  exists (Pt (xsum lp / ssum lp) (ysum lp / ssum lp)).
  assert (UP : forall C, cvx C -> (0 < w1 -> C x1) -> (0 < w2 -> C x2) -> (0 < w3 -> C x3) -> (0 < w4 -> C x4) ->
               C (Pt (xsum lp / ssum lp) (ysum lp / ssum lp))).
  { intros C HC H1 H2 H3 H4. apply cvx_sum; auto.
    repeat apply Forall_cons; try apply Forall_nil; cbn;
      match goal with |- 0 <= u ?w /\ _ => destruct (Pp w) as (? & ? & ? & ? & ?); split; auto end. }
  assert (UN : forall C, cvx C -> (w1 < 0 -> C x1) -> (w2 < 0 -> C x2) -> (w3 < 0 -> C x3) -> (w4 < 0 -> C x4) ->
               C (Pt (xsum lp / ssum lp) (ysum lp / ssum lp))).
  { intros C HC H1 H2 H3 H4. rewrite Es, Ex, Ey. apply cvx_sum; auto; [|lra].
    repeat apply Forall_cons; try apply Forall_nil; cbn;
      match goal with |- 0 <= n ?w /\ _ => destruct (Pp w) as (? & ? & ? & ? & ?); split; auto end. }
  split; [|split; [|split]].
  - destruct (Rle_dec w1 0); [apply UP|apply UN]; auto; intros; exfalso; lra.
  - destruct (Rle_dec w2 0); [apply UP|apply UN]; auto; intros; exfalso; lra.
  - destruct (Rle_dec w3 0); [apply UP|apply UN]; auto; intros; exfalso; lra.
  - destruct (Rle_dec w4 0); [apply UP|apply UN]; auto; intros; exfalso; lra.
Qed.

(** ** Helly for any finite number of sets *)
Theorem helly : forall Cs : list (pt -> Prop), Forall cvx Cs ->
  (forall C1 C2 C3, In C1 Cs -> In C2 Cs -> In C3 Cs -> exists p, C1 p /\ C2 p /\ C3 p) ->
  exists p, Forall (fun C => C p) Cs.
Proof.
  intros Cs. remember (length Cs) as n. revert Cs Heqn.
  induction n as [|n IH]; intros [|C1 Cs] Hl HV H3; try discriminate.
  - exists (Pt 0 0). constructor.
  - destruct Cs as [|C2 Cs].
    + destruct (H3 C1 C1 C1) as (p & A & _); try now left. exists p. constructor; auto.
    + inversion HV as [|? ? V1 HV']; subst. inversion HV' as [|? ? V2 HV2]; subst.
      assert (I1 : In C1 (C1 :: C2 :: Cs)) by now left.
      assert (I2 : In C2 (C1 :: C2 :: Cs)) by (right; now left).
      assert (Ir : forall C, In C Cs -> In C (C1 :: C2 :: Cs)) by (intros; right; now right).
      rewrite Forall_forall in HV2.
      (* three sets of which some are C1 /\ C2 *)
      assert (K2 : forall D E, In D Cs -> In E Cs -> exists p, (C1 p /\ C2 p) /\ D p /\ E p).
      { intros D E HD HE. destruct (helly4 C1 C2 D E) as (p & A & B & C & F); auto. exists p. auto. }
      assert (K1 : forall D, In D Cs -> exists p, (C1 p /\ C2 p) /\ D p).
      { intros D HD. destruct (H3 C1 C2 D) as (p & A & B & C); auto. exists p. auto. }
      assert (K0 : exists p, C1 p /\ C2 p).
      { destruct (H3 C1 C2 C2) as (p & A & B & C); auto. exists p. auto. }
      destruct (IH ((fun p => C1 p /\ C2 p) :: Cs)) as (p & Hp).
      * cbn in *. lia.
      * constructor; [|now apply Forall_forall]. intros p q t (A & B) (A' & B') Ht. split; [apply V1|apply V2]; auto.
      * intros D1 D2 D3 H1 H2 H4.
        destruct H1 as [<-|H1], H2 as [<-|H2], H4 as [<-|H4].
        -- destruct K0 as (p & A & B). exists p. auto.
        -- destruct (K1 D3 H4) as (p & (A & B) & C). exists p. auto.
        -- destruct (K1 D2 H2) as (p & (A & B) & C). exists p. auto.
        -- destruct (K2 D2 D3 H2 H4) as (p & (A & B) & C & D). exists p. auto.
        -- destruct (K1 D1 H1) as (p & (A & B) & C). exists p. auto.
        -- destruct (K2 D1 D3 H1 H4) as (p & (A & B) & C & D). exists p. auto.
        -- destruct (K2 D1 D2 H1 H2) as (p & (A & B) & C & D). exists p. auto.
        -- apply H3; auto.
      * exists p. pose proof (Forall_inv Hp) as (A & B). pose proof (Forall_inv_tail Hp). repeat constructor; auto.
Qed.
