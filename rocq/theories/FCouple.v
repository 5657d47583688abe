(** A clipping step in binary64 beside the exact step, on a slightly different
    polygon: the same decisions, and vertices that stay near the exact lines. *)
From Coq Require Import Reals Lra Psatz.
From Flocq Require Import IEEE754.BinarySingleNaN Core.
From Verif Require Import RBase NumB64 NumRoom FBase FBuild MGeometry MAlgorithms FPoint FCut FClip FSlant
  SpecPoly SpecClear GTriangle GConvex GArea GClip GMeasure GClose PClip PClipRun.
Open Scope R_scope.

Definition near (eps : R) (x y : pt) : Prop := Rabs (px y - px x) <= eps /\ Rabs (py y - py x) <= eps.
(** two points near the line through a and b *)
Definition edge_ok (rho : R) (a b x y : pt) : Prop :=
  Rabs (orient a b x) <= rho * side_size a b /\ Rabs (orient a b y) <= rho * side_size a b.

Lemma near_refl eps x : 0 <= eps -> near eps x x.
Proof. intros H. unfold near. rewrite !Rminus_diag_eq by reflexivity. rewrite Rabs_R0. auto. Qed.

Lemma size_pos a b : 0 <= side_size a b.
Proof. unfold side_size. eapply Rle_trans; [apply Rabs_pos|apply Rmax_l]. Qed.

Lemma size_scale a b c d t : px d - px c = t * (px b - px a) -> py d - py c = t * (py b - py a) -> side_size c d = Rabs t * side_size a b.
Proof.
  intros H1 H2. unfold side_size. rewrite H1, H2, !Rabs_mult. apply RmaxRmult. apply Rabs_pos.
Qed.

Lemma sub_edge rho a b t p : 0 <= t <= 1 -> Rabs (orient a b p) <= rho * side_size a b ->
  Rabs (orient a (at_ a b t) p) <= rho * side_size a (at_ a b t) /\ Rabs (orient (at_ a b t) b p) <= rho * side_size (at_ a b t) b.
Proof.
  intros Ht H.
  rewrite (size_scale a b a (at_ a b t) t), (size_scale a b (at_ a b t) b (1 - t)) by (unfold at_; cbn [px py]; ring).
  rewrite (Rabs_pos_eq t), (Rabs_pos_eq (1 - t)) by lra.
  replace (orient a (at_ a b t) p) with (t * orient a b p) by (unfold orient, at_; cbn [px py]; ring).
  replace (orient (at_ a b t) b p) with ((1 - t) * orient a b p) by (unfold orient, at_; cbn [px py]; ring).
  rewrite !Rabs_mult, (Rabs_pos_eq t), (Rabs_pos_eq (1 - t)) by lra. split.
  - replace (rho * (t * side_size a b)) with (t * (rho * side_size a b)) by ring. apply Rmult_le_compat_l; lra.
  - replace (rho * ((1 - t) * side_size a b)) with ((1 - t) * (rho * side_size a b)) by ring. apply Rmult_le_compat_l; lra.
Qed.

Lemma on_line r s z x p c : 0 < side_size r s -> orient r s z = 0 -> orient r s x = 0 -> Rabs (orient r s p) <= c * side_size r s ->
  Rabs (orient z x p) <= c * side_size z x.
Proof.
  intros HL Hz Hx Hp.
  assert (E : exists t, px x - px z = t * (px s - px r) /\ py x - py z = t * (py s - py r)).
  { assert (G : (px s - px r) * (py x - py z) = (py s - py r) * (px x - px z)) by (unfold orient in *; lra).
    destruct (Req_dec (px s - px r) 0) as [E1|E1].
    - destruct (Req_dec (py s - py r) 0) as [E2|E2].
      + unfold side_size in HL. rewrite E1, E2, Rabs_R0, Rmax_left in HL; lra.
      + exists ((py x - py z) / (py s - py r)). split; [|field; auto].
        rewrite E1 in *. rewrite Rmult_0_l in G. symmetry in G. apply Rmult_integral in G as [G|G]; [contradiction|]. rewrite G. ring.
    - exists ((px x - px z) / (px s - px r)). split; [field; auto|]. apply (Rmult_eq_reg_l (px s - px r)); auto. rewrite G. field. auto. }
  destruct E as (t & E1 & E2). rewrite (size_scale r s z x t E1 E2).
  replace (orient z x p) with (t * orient r s p).
  - rewrite Rabs_mult. replace (c * (Rabs t * side_size r s)) with (Rabs t * (c * side_size r s)) by ring.
    apply Rmult_le_compat_l; auto. apply Rabs_pos.
  - unfold orient at 2. rewrite E1, E2.
    replace (orient r s p) with (orient r s p - orient r s z) by lra. unfold orient. ring.
Qed.

(** a point near two lines that cross well is near the crossing *)
Lemma meet_near r s a b x y c1 c2 h : 0 < h -> orient r s x = 0 -> orient a b x = 0 ->
  Rabs (orient r s y) <= c1 * side_size r s -> Rabs (orient a b y) <= c2 * side_size a b ->
  h * side_size r s <= Rabs (orient r s b - orient r s a) -> 0 < side_size r s ->
  near ((c1 + c2) * side_size a b / h) x y.
Proof.
  intros Hh Hx1 Hx2 H1 H2 Hc HL.
  set (ux := px s - px r). set (uy := py s - py r). set (vx := px b - px a). set (vy := py b - py a).
  set (ex := px y - px x). set (ey := py y - py x).
  assert (C1 : ux * ey - uy * ex = orient r s y).
  { replace (orient r s y) with (orient r s y - orient r s x) by lra. unfold orient, ux, uy, ex, ey. ring. }
  assert (C2 : vx * ey - vy * ex = orient a b y).
  { replace (orient a b y) with (orient a b y - orient a b x) by lra. unfold orient, vx, vy, ex, ey. ring. }
  set (W := ux * vy - uy * vx).
  assert (CW : W = orient r s b - orient r s a) by (unfold W, orient, ux, uy, vx, vy; ring).
  assert (X1 : ex * W = - orient a b y * ux + orient r s y * vx) by (rewrite <- C1, <- C2; unfold W; ring).
  assert (Y1 : ey * W = - orient a b y * uy + orient r s y * vy) by (rewrite <- C1, <- C2; unfold W; ring).
  rewrite <- CW in Hc. set (S1 := side_size r s) in *. set (S2 := side_size a b) in *.
  assert (Ux : Rabs ux <= S1) by apply Rmax_l. assert (Uy : Rabs uy <= S1) by apply Rmax_r.
  assert (Vx : Rabs vx <= S2) by apply Rmax_l. assert (Vy : Rabs vy <= S2) by apply Rmax_r.
  assert (PW : 0 < Rabs W) by (apply Rlt_le_trans with (h * S1); auto; now apply Rmult_lt_0_compat).
  assert (G : forall e u v, e * W = - orient a b y * u + orient r s y * v -> Rabs u <= S1 -> Rabs v <= S2 -> Rabs e <= (c1 + c2) * S2 / h).
  { intros e u v E Hu Hv. apply (Rmult_le_reg_r (Rabs W)); auto. rewrite <- Rabs_mult, E.
    apply Rle_trans with ((c1 + c2) * S2 * S1).
    - pose proof (mul_abs (- orient a b y) u (c2 * S2) S1 ltac:(now rewrite Rabs_Ropp) Hu) as G1.
      pose proof (mul_abs (orient r s y) v (c1 * S1) S2 H1 Hv) as G2.
      eapply Rle_trans; [apply Rabs_triang|]. lra.
    - assert (P0 : 0 <= (c1 + c2) * S2).
      { assert (0 <= c1) by (apply (Rmult_le_reg_r S1); auto; pose proof (Rabs_pos (orient r s y)); lra).
        assert (P1 : 0 <= c2 * S2) by (pose proof (Rabs_pos (orient a b y)); lra).
        assert (0 <= S2) by apply size_pos. pose proof (Rmult_le_pos c1 S2). lra. }
      replace ((c1 + c2) * S2 * S1) with ((c1 + c2) * S2 / h * (h * S1)) by (field; lra).
      apply Rmult_le_compat_l; auto. apply Rmult_le_pos; auto. left. now apply Rinv_0_lt_compat. }
  split; [now apply (G ex ux vx)|now apply (G ey uy vy)].
Qed.

Lemma near_orient r s x y eps : near eps x y -> Rabs (orient r s y - orient r s x) <= 2 * (side_size r s * eps).
Proof.
  intros (H1 & H2). replace (orient r s y - orient r s x) with ((px s - px r) * (py y - py x) + - ((py s - py r) * (px y - px x))) by (unfold orient; ring).
  eapply Rle_trans; [apply Rabs_triang|]. rewrite Rabs_Ropp.
  pose proof (mul_abs (px s - px r) (py y - py x) (side_size r s) eps (Rmax_l _ _) H2).
  pose proof (mul_abs (py s - py r) (px y - px x) (side_size r s) eps (Rmax_r _ _) H1). lra.
Qed.

(** The exact chain from a beside the computed one from [a']: several exact
    vertices may share a computed one *)
Inductive coup (rho eps : R) : pt -> point b64 -> list pt -> list (point b64) -> Prop :=
| coup_nil a a' : coup rho eps a a' [] []
| coup_cons a a' b b' l l' : near eps b (rp b') -> edge_ok rho a b (rp a') (rp b') -> coup rho eps b b' l l' -> coup rho eps a a' (b :: l) (b' :: l')
| coup_same a a' b l l' : near eps b (rp a') -> edge_ok rho a b (rp a') (rp a') -> coup rho eps b a' l l' -> coup rho eps a a' (b :: l) l'.

Lemma coup_rp rho eps a a' l l' : coup rho eps a a' l l' -> forall a'', rp a'' = rp a' -> coup rho eps a a'' l l'.
Proof.
  induction 1 as [a a'|a a' b b' l l' H1 H2 H IH|a a' b l l' H1 H2 H IH]; intros a'' E; [constructor| |].
  - apply coup_cons; auto. now rewrite E.
  - apply coup_same; [now rewrite E|now rewrite E|auto].
Qed.

Lemma coup_length rho eps a a' l l' : coup rho eps a a' l l' -> (length l' <= length l)%nat.
Proof. induction 1; cbn; lia. Qed.

Lemma coup_in rho eps a a' l l' : coup rho eps a a' l l' -> forall y, In y l' -> exists x, In x l /\ near eps x (rp y).
Proof.
  induction 1 as [a a'|a a' b b' l l' H1 H2 H IH|a a' b l l' H1 H2 H IH]; intros y Hy; [destruct Hy| |].
  - destruct Hy as [<-|Hy]; [exists b; split; [now left|auto]|]. destruct (IH y Hy) as (x & Hx & N). exists x. split; [now right|auto].
  - destruct (IH y Hy) as (x & Hx & N). exists x. split; [now right|auto].
Qed.

Lemma coup_self : forall l a, coup 0 0 (rp a) a (map rp l) l.
Proof.
  induction l as [|b l IH]; intros a; cbn [map]; constructor; auto.
  - apply near_refl. lra.
  - unfold edge_ok. rewrite orient_12, orient_22, Rabs_R0, Rmult_0_l. lra.
Qed.

Lemma coup_weaken rho eps rho' eps' a a' l l' : rho <= rho' -> eps <= eps' -> coup rho eps a a' l l' -> coup rho' eps' a a' l l'.
Proof.
  intros H1 H2.
  assert (N : forall x y, near eps x y -> near eps' x y) by (intros x y (A & B); split; lra).
  assert (O : forall a b x y, edge_ok rho a b x y -> edge_ok rho' a b x y).
  { intros u v x y (A & B). assert (rho * side_size u v <= rho' * side_size u v) by (apply Rmult_le_compat_r; [apply size_pos|auto]). split; lra. }
  induction 1; constructor; auto.
Qed.

Section Couple.
  Local Notation bounded := NumRoom.bounded.
  Variable k : Z.
  Hypothesis Hk : (-251 <= k <= 400)%Z.
  Let M := bpow radix2 k.
  Let m := uro * M.
  Notation bpt := (bpt k).
  Variables r s : point b64.
  Hypothesis (Br : bpt r) (Bs : bpt s).
  Hypothesis HL : bpow radix2 (-250) <= slen r s.
  Notation U := (Pt (nsub (px s) (px r)) (nsub (py s) (py r))).
  Notation N := (Pt (nopp (py U)) (px U)).
  Notation f := (orient (rp r) (rp s)).
  Notation L := (slen r s).
  (** the distance of the exact vertices to the line, the extent of the exact polygon *)
  Variables (d G rho eps : R).
  Hypothesis Hd : 2 * eps + 100 * m <= d.
  Hypothesis Hrho : 64 * m <= rho.
  Hypothesis Heps : (64 * m + (rho + 12 * m)) * G / (2 * d) <= eps.
  Hypothesis HG : 0 <= G.
  Hypothesis Hep : 0 <= eps.

  Notation rho' := (rho + 12 * m).
  Notation clearv v := (d * L <= Rabs (f v)).

  Lemma m_pos3 : 0 < m. Proof. apply (mp k). Qed.
  Lemma d_pos : 0 < d. Proof. pose proof m_pos3. lra. Qed.
  Lemma L_pos3 : 0 < L. Proof. now apply L_pos. Qed.

  Lemma flag_near v y : clearv v -> near eps v y -> 100 * (L * m) <= Rabs (f y) /\ ins (rp r) (rp s) y = ins (rp r) (rp s) v.
  Proof.
    intros Hv Hn. pose proof (near_orient (rp r) (rp s) v y eps Hn) as H. change (side_size (rp r) (rp s)) with L in H.
    pose proof L_pos3 as PL. pose proof m_pos3.
    assert (HX : L * (2 * eps + 100 * m) <= L * d) by (apply Rmult_le_compat_l; lra).
    assert (PLm : 0 < L * m) by (now apply Rmult_lt_0_compat).
    rewrite Rmult_plus_distr_l in HX. apply Rabs_le_iff in H. unfold Rabs in *. unfold ins.
    destruct (Rcase_abs (f v)) as [C|C], (Rcase_abs (f y)) as [C'|C']; (split; [lra|]); apply Rltb_ext; split; lra.
  Qed.

  (** the last point put out, against the current vertex *)
  Definition prev (z : pt) (z' : point b64) (a : pt) (a' : point b64) : Prop :=
    near eps z (rp z') /\ if ins (rp r) (rp s) a then z = a /\ rp z' = rp a' else f z = 0 /\ Rabs (f (rp z')) <= 64 * m * L.

  Lemma prev_rp z z' a a' a'' : prev z z' a a' -> rp a'' = rp a' -> prev z z' a a''.
  Proof. intros (H1 & H2) E. split; auto. destruct (ins (rp r) (rp s) a); auto. now rewrite E. Qed.

  Lemma cut_close a b x : edge_ok rho a b (rp x) (rp x) -> edge_ok rho' a b (rp x) (rp x).
  Proof.
    intros (A & B). pose proof m_pos3. assert (rho * side_size a b <= rho' * side_size a b) by (apply Rmult_le_compat_r; [apply size_pos|lra]). split; lra.
  Qed.

  Lemma closep_line a b a' b' x : edge_ok rho a b a' b' -> closep (6 * m) a' b' x -> Rabs (orient a b x) <= rho' * side_size a b.
  Proof.
    intros (H1 & H2) (x' & (t & Ht & ->) & E1 & E2).
    pose proof (near_orient a b (at_ a' b' t) x (6 * m) (conj E1 E2)) as H3.
    assert (H4 : Rabs (orient a b (at_ a' b' t)) <= rho * side_size a b).
    { rewrite orient_at. apply Rabs_le_iff in H1, H2. apply Rabs_le_iff. set (c := rho * side_size a b) in *.
      pose proof (Rmult_le_pos t (c - orient a b b') ltac:(lra) ltac:(lra)). pose proof (Rmult_le_pos t (c + orient a b b') ltac:(lra) ltac:(lra)).
      pose proof (Rmult_le_pos (1 - t) (c - orient a b a') ltac:(lra) ltac:(lra)). pose proof (Rmult_le_pos (1 - t) (c + orient a b a') ltac:(lra) ltac:(lra)). lra. }
    replace (rho' * side_size a b) with (rho * side_size a b + 2 * (side_size a b * (6 * m))) by ring.
    apply Rabs_le_iff in H3, H4. apply Rabs_le_iff. lra.
  Qed.

  (** the computed crossing against the exact one *)
  Lemma cut_pair a b a' b' x : clearv a -> clearv b -> (f a < 0 < f b \/ f b < 0 < f a) -> side_size a b <= G ->
    edge_ok rho a b (rp a') (rp b') -> closep (6 * m) (rp a') (rp b') (rp x) -> Rabs (f (rp x)) <= L * (64 * m) ->
    f (cutp (rp r) (rp s) a b) = 0 /\ near eps (cutp (rp r) (rp s) a b) (rp x)
    /\ Rabs (f (rp x)) <= 64 * m * L /\ Rabs (orient a b (rp x)) <= rho' * side_size a b
    /\ exists t, 0 <= t <= 1 /\ cutp (rp r) (rp s) a b = at_ a b t.
  Proof.
    intros Ca Cb Hab HS He Hc Hx. pose proof (closep_line a b _ _ _ He Hc) as H1.
    pose proof L_pos3 as PL. pose proof d_pos as Pd. pose proof m_pos3 as Pm.
    assert (Ex : exists t, 0 <= t <= 1 /\ cutp (rp r) (rp s) a b = at_ a b t /\ f (cutp (rp r) (rp s) a b) = 0).
    { destruct Hab as [(A & B)|(A & B)].
      - destruct (cut_up (rp r) (rp s) a b ltac:(lra) B) as (t & Ht & E & F). exists t. split; [lra|auto].
      - destruct (cut_down (rp r) (rp s) a b B ltac:(lra)) as (t & Ht & E & F). exists t. split; [lra|auto]. }
    destruct Ex as (t & Ht & E & F). split; auto. split.
    - pose proof (meet_near (rp r) (rp s) a b (cutp (rp r) (rp s) a b) (rp x) (64 * m) rho' (2 * d) ltac:(lra) F) as G1.
      assert (Z : orient a b (cutp (rp r) (rp s) a b) = 0) by (rewrite E, orient_at, orient_12, orient_22; ring).
      specialize (G1 Z ltac:(change (side_size (rp r) (rp s)) with L; lra) H1).
      assert (G2 : 2 * d * side_size (rp r) (rp s) <= Rabs (f b - f a)).
      { change (side_size (rp r) (rp s)) with L. unfold Rabs in *. destruct Hab as [(A & B)|(A & B)];
          destruct (Rcase_abs (f a)), (Rcase_abs (f b)), (Rcase_abs (f b - f a)); lra. }
      specialize (G1 G2 ltac:(change (side_size (rp r) (rp s)) with L; lra)).
      assert (G3 : (64 * m + rho') * side_size a b / (2 * d) <= eps).
      { eapply Rle_trans; [|exact Heps]. apply Rmult_le_compat_r; [left; apply Rinv_0_lt_compat; lra|]. apply Rmult_le_compat_l; lra. }
      destruct G1 as (G4 & G5). split; lra.
    - split; [lra|]. split; auto. exists t. auto.
  Qed.

  Lemma coup_step : forall l a a' l', coup rho eps a a' l l' ->
    forall E st z z' a1, rp a1 = rp a' -> clearv a -> Forall (fun v => clearv v) l -> near eps a (rp a1) ->
    (forall u v, In (u, v) (chain a l) -> u <> v /\ side_size u v <= G) -> bpt a1 -> Forall bpt l' ->
    prev z z' a a1 -> edges_out r U N a1 (ins (rp r) (rp s) a) l' = (E, st) ->
    coup rho' eps z z' (flat_map (she (rp r) (rp s)) (chain a l)) E
    /\ prev (last (flat_map (she (rp r) (rp s)) (chain a l)) z) (last E z') (last l a) (fst st)
    /\ snd st = ins (rp r) (rp s) (last l a).
  Proof.
    pose proof L_pos3 as PL. pose proof m_pos3 as Pm. pose proof d_pos as Pd.
    assert (PLd : 0 < d * L) by (now apply Rmult_lt_0_compat).
    assert (Wk : forall u v c, Rabs (orient u v c) <= rho * side_size u v -> Rabs (orient u v c) <= rho' * side_size u v).
    { intros u v c Hc. assert (rho * side_size u v <= rho' * side_size u v) by (apply Rmult_le_compat_r; [apply size_pos|lra]). lra. }
    (* an exact vertex that shares its computed point with the one before *)
    assert (Same : forall a b a' z z' X E (y : pt) (c : point b64), ins (rp r) (rp s) b = ins (rp r) (rp s) a -> a <> b ->
      near eps b (rp a') -> edge_ok rho a b (rp a') (rp a') -> prev z z' a a' ->
      (forall z2, prev z2 z' b a' -> coup rho' eps z2 z' X E /\ prev (last X z2) (last E z') y c) ->
      coup rho' eps z z' (she (rp r) (rp s) (a, b) ++ X) E
      /\ prev (last (she (rp r) (rp s) (a, b) ++ X) z) (last E z') y c).
    { intros a b a' z z' X E y c Ei Nab Nb Oe (P1 & P2) K. unfold she. destruct (neqe_cases a b) as [(Q & _)|(_ & ->)]; [contradiction|]. cbn [fst snd].
      unfold prev in K at 1. rewrite Ei in *. destruct (ins (rp r) (rp s) a) eqn:Ia.
      - destruct P2 as (-> & Ez). destruct (K b) as (K1 & K2); [rewrite Ez; auto|]. cbn [app]. rewrite last_cons. split; auto.
        apply coup_same; auto; rewrite Ez; auto. destruct Oe as (O1 & O2). split; now apply Wk.
      - cbn [app]. apply K. auto. }
    induction 1 as [a a'|a a' b b' l l' Nb Oe H IH|a a' b l l' Nb Oe H IH]; intros E st z z' a1 Ea Ca Cl Na HE Ba Bl Pv HO.
    - cbn in HO. inversion HO; subst. cbn. split; [constructor|]. split; auto.
    - apply Forall_cons_iff in Cl as (Cb & Cl). apply Forall_cons_iff in Bl as (Bb & Bl).
      destruct (HE a b (or_introl eq_refl)) as (Nab & Sab).
      assert (HE' : forall u v, In (u, v) (chain b l) -> u <> v /\ side_size u v <= G) by (intros u v Huv; apply HE; now right).
      cbn [edges_out] in HO. destruct (edge_out r U N a1 (ins (rp r) (rp s) a) b') as (E1, (a2, ai2)) eqn:Ee.
      destruct (edges_out r U N a2 ai2 l') as (E2, st2) eqn:El. injection HO as <- <-.
      destruct (flag_near a (rp a1) Ca Na) as (Fa & Ia). destruct (flag_near b (rp b') Cb Nb) as (Fb & Ib).
      cbn [chain flat_map]. rewrite last_cons. rewrite <- Ea in Oe.
      unfold edge_out in Ee. cbn [px py] in Ee. destruct Ba as (Ax & Ay). pose proof Bb as (Bx & By).
      rewrite (zero_diff k Hk _ _ Bx Ax), (zero_diff k Hk _ _ By Ay) in Ee.
      destruct (Req_bool (B2R (px b')) (B2R (px a1)) && Req_bool (B2R (py b')) (B2R (py a1))) eqn:EV.
      { (* the same computed point *)
        inversion Ee; subst E1 a2 ai2; clear Ee. apply andb_true_iff in EV as (V1 & V2). revert V1 V2. case Req_bool_spec; [|discriminate]. case Req_bool_spec; [|discriminate].
        intros V2 V1 _ _. assert (Er : rp a1 = rp b') by (symmetry; now apply rp_eq). rewrite <- Er in *.
        assert (Ei : ins (rp r) (rp s) b = ins (rp r) (rp s) a) by congruence. rewrite <- Ei in El. cbn [app].
        assert (K : forall z2, prev z2 z' b a1 -> coup rho' eps z2 z' (flat_map (she (rp r) (rp s)) (chain b l)) E2
            /\ prev (last (flat_map (she (rp r) (rp s)) (chain b l)) z2) (last E2 z') (last l b) (fst st2) /\ snd st2 = ins (rp r) (rp s) (last l b)).
        { intros z2 P2. apply (IH E2 st2 z2 z' a1); auto. split; auto. }
        destruct (Same a b a1 z z' (flat_map (she (rp r) (rp s)) (chain b l)) E2 (last l b) (fst st2) Ei Nab Nb Oe Pv) as (S1 & S2).
        { intros z2 P2. destruct (K z2 P2) as (K1 & K2 & _). auto. }
        split; auto. split; auto.
        destruct Pv as (Pn & Pv). destruct (ins (rp r) (rp s) a) eqn:Iaa.
        - destruct Pv as (-> & Ez). destruct (K b) as (_ & _ & K3); auto. split; [rewrite Ez; auto|]. rewrite Ei. auto.
        - destruct (K z) as (_ & _ & K3); auto. split; auto. rewrite Ei. auto. }
      assert (E13 : 13 * (L * m) <= Rabs (f (rp b'))).
      { assert (0 < L * m) by (now apply Rmult_lt_0_compat). lra. }
      rewrite (inside_clear k Hk r s Br Bs HL b' Bb E13), Ib in Ee.
      assert (Ha2 : a2 = b' /\ ai2 = ins (rp r) (rp s) b
        /\ forall z2 z2', prev z2 z2' b b' -> coup rho' eps z2 z2' (flat_map (she (rp r) (rp s)) (chain b l)) E2
            /\ prev (last (flat_map (she (rp r) (rp s)) (chain b l)) z2) (last E2 z2') (last l b) (fst st2) /\ snd st2 = ins (rp r) (rp s) (last l b)).
      { assert (Q : a2 = b' /\ ai2 = ins (rp r) (rp s) b).
        { destruct (ins (rp r) (rp s) b) eqn:Ibb; destruct (ins (rp r) (rp s) a) eqn:Iaa; cbn [app] in Ee; try (inversion Ee; subst; auto; fail).
          apply ins_iff in Ia. apply ins_false in Ib.
          destruct (cut_clear k Hk r s Br Bs HL a1 b' (conj Ax Ay) Bb Fa Fb) as (x & Ex & _).
          { right. split; auto. destruct Ib as [Ib|Ib]; auto. exfalso. rewrite Ib, Rabs_R0 in Fb. assert (0 < L * m) by (now apply Rmult_lt_0_compat). lra. }
          cbn [px py] in Ex. rewrite Ex in Ee. inversion Ee; subst; auto. }
        destruct Q as (-> & ->). split; auto. split; auto. intros z2 z2' P2. apply (IH E2 st2 z2 z2' b'); auto. }
      destruct Ha2 as (-> & -> & K). unfold she at 1 3. destruct (neqe_cases a b) as [(Q & _)|(_ & ->)]; [contradiction|]. cbn [fst snd].
      destruct Pv as (Pn & Pv).
      assert (Clr : forall v, clearv v -> ins (rp r) (rp s) v = false -> f v < 0).
      { intros v Hv Hi. apply ins_false in Hi. destruct Hi as [Hi|Hi]; auto. exfalso. rewrite Hi, Rabs_R0 in Hv. lra. }
      assert (Clr' : forall v : pt, 100 * (L * m) <= Rabs (f v) -> ins (rp r) (rp s) v = false -> f v < 0).
      { intros v Hv Hi. apply ins_false in Hi. destruct Hi as [Hi|Hi]; auto. exfalso. rewrite Hi, Rabs_R0 in Hv. assert (0 < L * m) by (now apply Rmult_lt_0_compat). lra. }
      destruct (ins (rp r) (rp s) b) eqn:Ibb; destruct (ins (rp r) (rp s) a) eqn:Iaa; cbn [app] in Ee.
      + (* in, in *)
        inversion Ee; subst E1; clear Ee. destruct Pv as (-> & Ez). cbn [app]. rewrite !last_cons.
        destruct (K b b') as (K1 & K2 & K3); [split; [auto|rewrite Ibb; auto]|]. split; [|auto].
        apply coup_cons; auto. rewrite Ez. destruct Oe as (O1 & O2). split; now apply Wk.
      + (* entering *)
        pose proof (Clr a Ca Iaa) as Ga. pose proof (Clr' (rp a1) Fa Ia) as Ga'. apply ins_iff in Ib.
        assert (Gb : 0 < f b) by (now apply ins_iff).
        destruct (cut_clear k Hk r s Br Bs HL a1 b' (conj Ax Ay) Bb Fa Fb (or_introl (conj Ga' Ib))) as (x & Ex & _ & _ & Cx & Nx). fold M m in Cx, Nx.
        cbn [px py] in Ex. rewrite Ex in Ee. cbn [app] in Ee. inversion Ee; subst E1; clear Ee.
        destruct (cut_pair a b a1 b' x Ca Cb (or_introl (conj Ga Gb)) Sab Oe Cx Nx) as (C1 & C2 & C3 & C4 & t & Ht & Et).
        destruct Pv as (Pz & Pz'). cbn [app]. rewrite !last_cons.
        destruct (K b b') as (K1 & K2 & K3); [split; [auto|rewrite Ibb; auto]|]. split; [|auto].
        apply coup_cons; auto.
        { assert (W64 : forall p, Rabs (f p) <= 64 * m * L -> Rabs (orient z (cutp (rp r) (rp s) a b) p) <= rho' * side_size z (cutp (rp r) (rp s) a b)).
          { intros p Hp. eapply Rle_trans; [apply (on_line (rp r) (rp s) z _ p (64 * m)); auto|]. apply Rmult_le_compat_r; [apply size_pos|lra]. }
          split; now apply W64. }
        apply coup_cons; auto. rewrite Et. destruct Oe as (O1 & O2).
        split; [now apply (sub_edge rho' a b t (rp x))|apply (sub_edge rho' a b t (rp b')); auto].
      + (* leaving *)
        apply ins_iff in Ia. pose proof (Clr' (rp b') Fb Ib) as Gb'. pose proof (Clr b Cb Ibb) as Gb.
        assert (Ga : 0 < f a) by (now apply ins_iff).
        destruct (cut_clear k Hk r s Br Bs HL a1 b' (conj Ax Ay) Bb Fa Fb (or_intror (conj Gb' Ia))) as (x & Ex & _ & _ & Cx & Nx). fold M m in Cx, Nx.
        cbn [px py] in Ex. rewrite Ex in Ee. inversion Ee; subst E1; clear Ee.
        destruct (cut_pair a b a1 b' x Ca Cb (or_intror (conj Gb Ga)) Sab Oe Cx Nx) as (C1 & C2 & C3 & C4 & t & Ht & Et).
        destruct Pv as (-> & Ez). cbn [app]. rewrite !last_cons.
        destruct (K (cutp (rp r) (rp s) a b) x) as (K1 & K2 & K3); [split; [auto|rewrite Ibb; auto]|]. split; [|auto].
        apply coup_cons; auto. rewrite Et, Ez. destruct Oe as (O1 & O2).
        split; [apply (sub_edge rho' a b t (rp a1)); auto|now apply (sub_edge rho' a b t (rp x))].
      + (* out, out *)
        inversion Ee; subst E1; clear Ee. cbn [app]. apply K. split; auto. rewrite Ibb. auto.
    - apply Forall_cons_iff in Cl as (Cb & Cl).
      destruct (HE a b (or_introl eq_refl)) as (Nab & Sab).
      assert (HE' : forall u v, In (u, v) (chain b l) -> u <> v /\ side_size u v <= G) by (intros u v Huv; apply HE; now right).
      rewrite <- Ea in Nb, Oe.
      destruct (flag_near a (rp a1) Ca Na) as (Fa & Ia). destruct (flag_near b (rp a1) Cb Nb) as (Fb & Ib).
      assert (Ei : ins (rp r) (rp s) b = ins (rp r) (rp s) a) by congruence. rewrite <- Ei in HO.
      cbn [chain flat_map]. rewrite last_cons.
      assert (K : forall z2, prev z2 z' b a1 -> coup rho' eps z2 z' (flat_map (she (rp r) (rp s)) (chain b l)) E
          /\ prev (last (flat_map (she (rp r) (rp s)) (chain b l)) z2) (last E z') (last l b) (fst st) /\ snd st = ins (rp r) (rp s) (last l b)).
      { intros z2 P2. apply (IH E st z2 z' a1); auto. }
      destruct (Same a b a1 z z' (flat_map (she (rp r) (rp s)) (chain b l)) E (last l b) (fst st) Ei Nab Nb Oe Pv) as (S1 & S2).
      { intros z2 P2. destruct (K z2 P2) as (K1 & K2 & _). auto. }
      split; auto. split; auto.
      destruct Pv as (Pn & Pv). destruct (ins (rp r) (rp s) a) eqn:Iaa.
      + destruct Pv as (-> & Ez). destruct (K b) as (_ & _ & K3); auto. split; [rewrite Ez; auto|]. rewrite Ei. auto.
      + destruct (K z) as (_ & _ & K3); auto. split; auto. rewrite Ei. auto.
  Qed.
End Couple.
