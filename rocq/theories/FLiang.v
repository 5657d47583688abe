(** Liang-Barsky clipping of a segment by a box, in binary64. *)
From Coq Require Import Reals Lra Psatz.
From Flocq Require Import IEEE754.BinarySingleNaN Core.
From Verif Require Import RBase NumB64 NumRoom FBase FBuild MGeometry MAlgorithms FPoint FLocate FCut FBoxClip
  FEdgeTree SpecGeom.
Open Scope R_scope.

(** within [e] of the box *)
Definition near_box (e : R) (K : bx) (x : pt) : Prop :=
  xmin K - e <= px x <= xmax K + e /\ ymin K - e <= py x <= ymax K + e.

(** what a clip has to deliver, up to [e]: nothing when the segment has no point
    more than [e] inside the box; otherwise the piece between two parameters [s]
    and [t], which stays within [e] of the box and holds all the points more than
    [e] inside *)
Definition clips_close (e : R) (A B : pt) (K : bx) (r : option (pt * pt)) : Prop :=
  match r with
  | None => forall u, 0 <= u <= 1 -> ~ deep e K (at_ A B u)
  | Some (c, d) => exists s t, 0 <= s < t /\ t <= 1 /\ close e c (at_ A B s) /\ close e d (at_ A B t)
      /\ (forall u, s <= u <= t -> near_box e K (at_ A B u))
      /\ (forall u, 0 <= u <= 1 -> deep e K (at_ A B u) -> s <= u <= t)
  end.

(** ** Comparing a quotient, also when it overflows *)
Lemma cmp_inf (x : b64) : is_finite x = true ->
  nltb x (B754_infinity false : b64) = true /\ nltb (B754_infinity false : b64) x = false
  /\ nltb x (B754_infinity true : b64) = false /\ nltb (B754_infinity true : b64) x = true.
Proof. destruct x as [s|s| |s m e Hb]; intros F; try discriminate; repeat split; destruct s; reflexivity. Qed.

Lemma div_cmp (q p : b64) : is_finite q = true -> is_finite p = true -> B2R p <> 0 ->
  let T := rnd (B2R q / B2R p) in
  (forall x : b64, is_finite x = true -> Rabs (B2R x) <= 1 ->
    nltb x (ndivraw q p) = Rlt_bool (B2R x) T /\ nltb (ndivraw q p) x = Rlt_bool T (B2R x))
  /\ (Rabs T <= 1 -> is_finite (ndivraw q p) = true /\ B2R (ndivraw q p) = T).
Proof.
  intros Fq Fp Hp T. pose proof (Bdiv_correct prec emax prec_gt prec_lt mode_NE q p Hp) as H.
  destruct (Rlt_bool _ _) eqn:E in H.
  - destruct H as (HR & HF & _). rewrite Fq in HF. change (Bdiv mode_NE q p) with (ndivraw q p) in *.
    split; [|auto]. intros x Fx _. rewrite !nltb_B by auto. now rewrite HR.
  - cbn in H. apply is_inf in H. change (Bdiv mode_NE q p) with (ndivraw q p) in *.
    assert (HT : bpow radix2 emax <= Rabs T) by (revert E; case Rlt_bool_spec; [discriminate|auto]).
    assert (L1 : 1 < bpow radix2 emax) by (change 1 with (bpow radix2 0); apply bpow_lt; reflexivity).
    split; [|intros; exfalso; lra]. intros x Fx Hx. apply Rabs_le_iff in Hx.
    assert (N : B2R q <> 0).
    { intros Z. unfold T in HT. rewrite Z in HT. unfold Rdiv in HT. rewrite Rmult_0_l, rnd_0, Rabs_R0 in HT. lra. }
    destruct (rnd_sign (B2R q / B2R p)) as (S1 & S2). fold T in S1, S2.
    destruct (cmp_inf x Fx) as (C1 & C2 & C3 & C4). rewrite H.
    assert (SX : forall y : b64, is_finite y = true -> B2R y <> 0 -> (Bsign y = true /\ B2R y < 0) \/ (Bsign y = false /\ 0 < B2R y)).
    { intros y Fy Ny. destruct (Bsign y) eqn:Sy; [pose proof (sign_neg y Fy Sy)|pose proof (sign_pos y Fy Sy)]; [left|right]; split; auto; lra. }
    assert (SS : (xorb (Bsign q) (Bsign p) = true /\ T <= 0) \/ (xorb (Bsign q) (Bsign p) = false /\ 0 <= T)).
    { unfold Rdiv in *.
      destruct (SX q Fq N) as [(-> & Q)|(-> & Q)], (SX p Fp Hp) as [(-> & P)|(-> & P)]; cbn [xorb].
      - right. split; auto. apply S1. pose proof (Rinv_lt_0_compat _ P). nra.
      - left. split; auto. apply S2. pose proof (Rinv_0_lt_compat _ P). nra.
      - left. split; auto. apply S2. pose proof (Rinv_lt_0_compat _ P). nra.
      - right. split; auto. apply S1. pose proof (Rinv_0_lt_compat _ P). nra. }
    destruct SS as [(-> & Q)|(-> & Q)].
    + rewrite Rabs_left1 in HT by lra. rewrite C3, C4. split; symmetry; [apply Rlt_bool_false|apply Rlt_bool_true]; lra.
    + rewrite Rabs_pos_eq in HT by lra. rewrite C1, C2. split; symmetry; [apply Rlt_bool_true|apply Rlt_bool_false]; lra.
Qed.

Section Liang.
  Local Notation bounded := NumRoom.bounded.
  Variable k : Z.
  Hypothesis Hk : (-251 <= k <= 400)%Z.
  Let M := bpow radix2 k.
  Let m := uro * M.

  (** a pair of floats with the exact difference it stands for *)
  Definition stands (x : b64) (X : R) : Prop :=
    is_finite x = true /\ Rabs X <= 2 * M /\ exists e, Rabs e <= uro /\ B2R x = X * (1 + e).

  Lemma stands_sub (x y : b64) : bounded k x -> bounded k y -> stands (nsub x y) (B2R x - B2R y).
  Proof.
    intros Hx Hy. destruct (diff_val k Hk x y Hx Hy) as ((F & _) & E & _). split; auto. split.
    - now apply (diff_bd k).
    - rewrite E. destruct (rnd_minus x y) as (e & He & Ee). exists e. auto.
  Qed.
  Lemma stands_opp x X : stands x X -> stands (nopp x) (- X).
  Proof.
    intros (F & H & e & He & E). split; [|split; [now rewrite Rabs_Ropp|exists e; split; auto]].
    - cbn [nopp NumB64]. now rewrite is_finite_Bopp.
    - cbn [nopp NumB64]. rewrite B2R_Bopp, E. ring.
  Qed.
  Lemma stands_sign x X : stands x X -> (B2R x < 0 <-> X < 0) /\ (0 < B2R x <-> 0 < X).
  Proof.
    intros (_ & _ & e & He & E). pose proof uro_small. apply Rabs_le_iff in He. rewrite E.
    split; split; intros H'; nra.
  Qed.

  (** the error of a quotient, in units of the slack *)
  Lemma quot_err q p Q P : stands q Q -> stands p P -> P <> 0 ->
    Rabs (P * rnd (B2R q / B2R p) - Q) <= 7 * m.
  Proof.
    intros (Fq & HQ & e1 & He1 & E1) (Fp & HP & e2 & He2 & E2) N.
    pose proof (Mp k) as PM. pose proof (mp k) as Pm. pose proof (eta_M2 k) as HeM. fold M in PM, Pm, HeM. fold m in Pm, HeM.
    pose proof uro_pos as Pu. pose proof uro_small as Su. pose proof eta_pos as Pe.
    destruct (rnd_any (B2R q / B2R p)) as (e & h & He & Hh & ->). rewrite E1, E2.
    apply Rabs_le_iff in He1, He2, He.
    set (w := (1 + e1) * (1 + e) / (1 + e2) - 1).
    assert (Hw : Rabs w <= 3.1 * uro).
    { unfold w. apply Rabs_le_iff.
      assert (W : (1 + e1) * (1 + e) / (1 + e2) * (1 + e2) = (1 + e1) * (1 + e)) by (field; lra).
      set (v := (1 + e1) * (1 + e) / (1 + e2)) in *. split; nra. }
    replace (P * (Q * (1 + e1) / (P * (1 + e2)) * (1 + e) + h) - Q) with (Q * w + P * h) by (unfold w; field; split; [lra|auto]).
    eapply Rle_trans; [apply Rabs_triang|]. rewrite !Rabs_mult.
    assert (Rabs Q * Rabs w <= 2 * M * (3.1 * uro)) by (apply Rmult_le_compat; auto using Rabs_pos).
    assert (Rabs P * Rabs h <= 2 * M * eta) by (apply Rmult_le_compat; auto using Rabs_pos).
    unfold m in *. lra.
  Qed.

  Definition slack (PQ : R * R) (u : R) : R := snd PQ - u * fst PQ.

  Lemma lb_loop_64 l : forall L (t0 t1 : b64),
    Forall2 (fun pq PQ => stands (fst pq) (fst PQ) /\ stands (snd pq) (snd PQ)) l L ->
    is_finite t0 = true -> is_finite t1 = true -> 0 <= B2R t0 <= B2R t1 -> B2R t1 <= 1 ->
    exists r, lb_loop l t0 t1 = Ok r /\
      match r with
      | None => forall u, B2R t0 <= u <= B2R t1 -> ~ Forall (fun PQ => 8 * m < slack PQ u) L
      | Some (s, t) => is_finite s = true /\ is_finite t = true /\ B2R t0 <= B2R s <= B2R t /\ B2R t <= B2R t1
          /\ (forall u, B2R s <= u <= B2R t -> Forall (fun PQ => - 7 * m <= slack PQ u) L)
          /\ (forall u, B2R t0 <= u <= B2R t1 -> Forall (fun PQ => 8 * m < slack PQ u) L -> B2R s <= u <= B2R t)
      end.
  Proof.
    pose proof (mp k) as Pm. fold M in Pm. fold m in Pm.
    induction l as [|(p, q) l IH]; intros L t0 t1 HL F0 F1 H01 H1; inversion HL as [|a (P, Q) b L' (Sp & Sq) HL' E1 E2]; subst.
    { exists (Some (t0, t1)). split; [reflexivity|]. repeat split; auto; lra. }
    cbn [fst snd] in Sp, Sq. destruct (stands_sign p P Sp) as (SN & SP). destruct (stands_sign q Q Sq) as (QN & QP).
    pose proof Sp as (Fp & _). pose proof Sq as (Fq & _). destruct zb0 as (FZ & EZ).
    cbn [lb_loop]. change (@nofZ b64 _) with Zb.
    rewrite neqb_B by auto. rewrite EZ.
    case Req_bool_spec; intros Cp.
    - assert (P0 : P = 0) by lra. rewrite nltb_B by auto. rewrite EZ. case Rlt_bool_spec; intros Cq.
      + exists None. split; auto. intros u Hu HF. inversion HF as [|a b G1 G2 E1]; subst. unfold slack in G1. cbn [fst snd] in G1. lra.
      + destruct (IH L' t0 t1 HL' F0 F1 H01 H1) as (r & Er & Hr). exists r. split; auto.
        destruct r as [(s, t)|].
        * destruct Hr as (Fs & Ft & R1 & R2 & R3 & R4). repeat (split; [assumption|]). split.
          -- intros u Hu. constructor; auto. unfold slack. cbn [fst snd]. rewrite P0. lra.
          -- intros u Hu HF. apply R4; auto. now inversion HF.
        * intros u Hu HF. apply (Hr u Hu). now inversion HF.
    - assert (P0 : P <> 0) by (intros Z; destruct (Rtotal_order (B2R p) 0) as [C|[C|C]]; lra).
      pose proof (quot_err q p Q P Sq Sp P0) as HE.
      destruct (div_cmp q p Fq Fp Cp) as (CMP & FIN). set (T := rnd (B2R q / B2R p)) in *. cbv zeta in CMP, FIN.
      assert (D : ndiv q p = Ok (ndivraw q p)).
      { unfold ndiv. change (@nofZ b64 _) with Zb. rewrite neqb_B by auto. rewrite EZ. now rewrite Req_bool_false. }
      rewrite D. cbn [bind]. set (t := ndivraw q p) in *. apply Rabs_le_iff in HE.
      destruct (CMP t0 F0) as (A1 & A2); [apply Rabs_le_iff; lra|].
      destruct (CMP t1 F1) as (A3 & A4); [apply Rabs_le_iff; lra|].
      rewrite !nltb_B with (y := Zb 0) by auto. rewrite EZ.
      case Rlt_bool_spec; intros Cn.
      + (* entering *)
        assert (HP : P < 0) by (now apply SN). rewrite A3. case Rlt_bool_spec; intros C1.
        { exists None. split; auto. intros u Hu HF. inversion HF as [|a b G1 G2 E1]; subst. unfold slack in G1. cbn [fst snd] in G1. nra. }
        rewrite A1. case Rlt_bool_spec; intros C0.
        * destruct FIN as (Ft & Et); [apply Rabs_le_iff; lra|].
          destruct (IH L' t t1 HL' Ft F1) as (r & Er & Hr); [lra|lra|]. exists r. split; auto.
          assert (OUT : forall u, u < T -> ~ 8 * m < slack (P, Q) u).
          { intros u Hu. unfold slack. cbn [fst snd]. nra. }
          destruct r as [(s, t')|].
          -- destruct Hr as (Fs & Ft' & R1 & R2 & R3 & R4). split; [auto|split; [auto|split; [lra|split; [auto|split]]]].
             ++ intros u Hu. constructor; auto. unfold slack. cbn [fst snd]. nra.
             ++ intros u Hu HF. inversion HF as [|a b G1 G2 E1]; subst. apply R4; auto.
                destruct (Rle_or_lt T u); [lra|]. exfalso. eapply OUT; eauto.
          -- intros u Hu HF. inversion HF as [|a b G1 G2 E1]; subst.
             destruct (Rle_or_lt T u); [|eapply OUT; eauto]. apply (Hr u); auto. lra.
        * destruct (IH L' t0 t1 HL' F0 F1 H01 H1) as (r & Er & Hr). exists r. split; auto.
          destruct r as [(s, t')|].
          -- destruct Hr as (Fs & Ft & R1 & R2 & R3 & R4). repeat (split; [assumption|]). split.
             ++ intros u Hu. constructor; auto. unfold slack. cbn [fst snd]. nra.
             ++ intros u Hu HF. apply R4; auto. now inversion HF.
          -- intros u Hu HF. apply (Hr u Hu). now inversion HF.
      + (* leaving *)
        assert (HP : 0 < P) by (apply SP; lra). rewrite (nltb_B (Zb 0) p) by auto. rewrite EZ, Rlt_bool_true by lra.
        rewrite A2. case Rlt_bool_spec; intros C1.
        { exists None. split; auto. intros u Hu HF. inversion HF as [|a b G1 G2 E1]; subst. unfold slack in G1. cbn [fst snd] in G1. nra. }
        rewrite A4. case Rlt_bool_spec; intros C0.
        * destruct FIN as (Ft & Et); [apply Rabs_le_iff; lra|].
          destruct (IH L' t0 t HL' F0 Ft) as (r & Er & Hr); [lra|lra|]. exists r. split; auto.
          assert (OUT : forall u, T < u -> ~ 8 * m < slack (P, Q) u).
          { intros u Hu. unfold slack. cbn [fst snd]. nra. }
          destruct r as [(s, t')|].
          -- destruct Hr as (Fs & Ft' & R1 & R2 & R3 & R4). split; [auto|split; [auto|split; [lra|split; [lra|split]]]].
             ++ intros u Hu. constructor; auto. unfold slack. cbn [fst snd]. nra.
             ++ intros u Hu HF. inversion HF as [|a b G1 G2 E1]; subst. apply R4; auto.
                destruct (Rle_or_lt u T); [lra|]. exfalso. eapply OUT; eauto.
          -- intros u Hu HF. inversion HF as [|a b G1 G2 E1]; subst.
             destruct (Rle_or_lt u T); [|eapply OUT; eauto]. apply (Hr u); auto. lra.
        * destruct (IH L' t0 t1 HL' F0 F1 H01 H1) as (r & Er & Hr). exists r. split; auto.
          destruct r as [(s, t')|].
          -- destruct Hr as (Fs & Ft & R1 & R2 & R3 & R4). repeat (split; [assumption|]). split.
             ++ intros u Hu. constructor; auto. unfold slack. cbn [fst snd]. nra.
             ++ intros u Hu HF. apply R4; auto. now inversion HF.
          -- intros u Hu HF. apply (Hr u Hu). now inversion HF.
  Qed.

  Lemma liang_barsky_64 (A B : point b64) (K : box b64) :
    bounded k (xmin K) -> bounded k (xmax K) -> bounded k (ymin K) -> bounded k (ymax K) ->
    bpt k A -> bpt k B -> rp A <> rp B ->
    exists r, liang_barsky_line_box_clip A B K = Ok r
      /\ clips_close (16 * m) (rp A) (rp B) (rbox K) (rclip r).
  Proof.
    intros K1 K2 K3 K4 (A1 & A2) (B1 & B2) Hne.
    pose proof (mp k) as Pm. pose proof (Mp k) as PM. fold M in Pm, PM. fold m in Pm.
    pose proof (stands_sub _ _ B1 A1) as SX. pose proof (stands_sub _ _ B2 A2) as SY.
    unfold liang_barsky_line_box_clip. cbv zeta. change (@nofZ b64 _) with Zb.
    destruct zb0 as (FZ & EZ). destruct zb1 as (F1 & E1).
    set (dx := nsub (px B) (px A)) in *. set (dy := nsub (py B) (py A)) in *.
    destruct (stands_sign _ _ SX) as (SX1 & SX2). destruct (stands_sign _ _ SY) as (SY1 & SY2).
    assert (NZ : (neqb dx (Zb 0) && neqb dy (Zb 0))%bool = false).
    { rewrite !neqb_B by (auto; apply SX || apply SY). rewrite EZ.
      case Req_bool_spec; intros C1; auto. case Req_bool_spec; intros C2; auto. exfalso. apply Hne.
      unfold rp. f_equal; [destruct (Rtotal_order (B2R (px B)) (B2R (px A)))|destruct (Rtotal_order (B2R (py B)) (B2R (py A)))]; lra. }
    rewrite NZ.
    destruct (point_inside_box A K && point_inside_box B K)%bool eqn:EI.
    { exists (Some (A, B)). split; auto. cbn [rclip clips_close]. exists 0, 1.
      apply andb_prop in EI. destruct EI as (IA & IB). unfold point_inside_box in IA, IB.
      rewrite !nltb_B in IA, IB by (apply A1 || apply A2 || apply B1 || apply B2 || apply K1 || apply K2 || apply K3 || apply K4).
      repeat match goal with H : (_ && _)%bool = true |- _ => apply andb_prop in H; destruct H end.
      repeat match goal with H : Rlt_bool _ _ = true |- _ => revert H; case Rlt_bool_spec; [intros ? _|discriminate] end.
      split; [lra|split; [lra|split; [|split; [|split]]]].
      - split; apply Rabs_le_iff; cbn [rp px py at_]; lra.
      - split; apply Rabs_le_iff; cbn [rp px py at_]; lra.
      - intros u Hu. split; cbn [rp rbox xmin xmax ymin ymax px py at_]; split; nra.
      - auto. }
    pose proof (stands_sub _ _ A1 K1) as S1. pose proof (stands_sub _ _ K2 A1) as S2.
    pose proof (stands_sub _ _ A2 K3) as S3. pose proof (stands_sub _ _ K4 A2) as S4.
    set (X := B2R (px B) - B2R (px A)) in *. set (Y := B2R (py B) - B2R (py A)) in *.
    edestruct (lb_loop_64 [ (nopp dx, nsub (px A) (xmin K)); (dx, nsub (xmax K) (px A));
        (nopp dy, nsub (py A) (ymin K)); (dy, nsub (ymax K) (py A)) ]
      [ (- X, B2R (px A) - B2R (xmin K)); (X, B2R (xmax K) - B2R (px A));
        (- Y, B2R (py A) - B2R (ymin K)); (Y, B2R (ymax K) - B2R (py A)) ] (Zb 0) (Zb 1)) as (r & Er & Hr); auto.
    { repeat (apply Forall2_cons; [split; cbn [fst snd]; auto using stands_opp|]). apply Forall2_nil. }
    { lra. }
    { lra. }
    rewrite Er. cbn [bind]. rewrite EZ, E1 in Hr.
    assert (DEEP : forall c u, deep c (rbox K) (at_ (rp A) (rp B) u) ->
      Forall (fun PQ => c < slack PQ u)
      [ (- X, B2R (px A) - B2R (xmin K)); (X, B2R (xmax K) - B2R (px A));
        (- Y, B2R (py A) - B2R (ymin K)); (Y, B2R (ymax K) - B2R (py A)) ]).
    { intros c u (D1 & D2). cbn [rp rbox xmin xmax ymin ymax px py at_] in D1, D2. fold X in D1. fold Y in D2.
      repeat constructor; unfold slack; cbn [fst snd]; lra. }
    assert (DLE : forall c c' x, c' <= c -> deep c (rbox K) x -> deep c' (rbox K) x).
    { intros c c' x Hc (D1 & D2). split; lra. }
    destruct r as [(s, t)|].
    - destruct Hr as (Fs & Ft & R1 & R2 & R3 & R4). rewrite neqb_B by auto.
      case Req_bool_spec; intros Cst.
      + exists None. split; auto. cbn [rclip clips_close]. intros u Hu D.
        pose proof uro_pos as Pu. pose proof uro_small as Su.
        assert (D8 : forall v, Rabs (v - u) <= 4 * uro -> deep (8 * m) (rbox K) (at_ (rp A) (rp B) v)).
        { intros v Hv. destruct D as (D1 & D2).
          cbn [rp rbox xmin xmax ymin ymax px py at_] in D1, D2.
          destruct SX as (_ & BX & _). destruct SY as (_ & BY & _). fold X in BX, D1. fold Y in BY, D2.
          assert (HX : Rabs ((v - u) * X) <= 8 * m).
          { rewrite Rabs_mult. apply Rle_trans with (4 * uro * (2 * M)); [apply Rmult_le_compat; auto using Rabs_pos|unfold m; lra]. }
          assert (HY : Rabs ((v - u) * Y) <= 8 * m).
          { rewrite Rabs_mult. apply Rle_trans with (4 * uro * (2 * M)); [apply Rmult_le_compat; auto using Rabs_pos|unfold m; lra]. }
          apply Rabs_le_iff in HX, HY.
          split; cbn [rp rbox xmin xmax ymin ymax px py at_]; fold X; fold Y; split; lra. }
        set (v := if Rle_bool u (/ 2) then u + 4 * uro else u - 4 * uro).
        assert (Hv : Rabs (v - u) <= 4 * uro /\ v <> u /\ 0 <= v <= 1).
        { unfold v. case Rle_bool_spec; intros C; (split; [apply Rabs_le_iff; lra|split; lra]). }
        destruct Hv as (Hv1 & Hv2 & Hv3).
        assert (M8 : 8 * m <= 16 * m) by lra. pose proof (R4 u Hu (DEEP _ _ (DLE _ _ _ M8 D))).
        pose proof (R4 v Hv3 (DEEP _ _ (D8 v Hv1))). lra.
      + eexists. split; [reflexivity|]. cbn [rclip clips_close]. exists (B2R s), (B2R t).
        split; [lra|split; [lra|split; [|split; [|split]]]].
        * destruct (coord_cut k Hk (px A) (px B) s A1 B1 Fs) as (_ & G1); [lra|].
          destruct (coord_cut k Hk (py A) (py B) s A2 B2 Fs) as (_ & G2); [lra|].
          fold M in G1, G2. fold m in G1, G2. split; cbn [rp px py at_]; [apply Rle_trans with (1 := G1)|apply Rle_trans with (1 := G2)]; lra.
        * destruct (coord_cut k Hk (px A) (px B) t A1 B1 Ft) as (_ & G1); [lra|].
          destruct (coord_cut k Hk (py A) (py B) t A2 B2 Ft) as (_ & G2); [lra|].
          fold M in G1, G2. fold m in G1, G2. split; cbn [rp px py at_]; [apply Rle_trans with (1 := G1)|apply Rle_trans with (1 := G2)]; lra.
        * intros u Hu. pose proof (R3 u Hu) as G. unfold slack in G.
          repeat match goal with H : Forall _ (_ :: _) |- _ => let a := fresh in let b := fresh in
            apply Forall_cons_iff in H; destruct H as (a & b) end. cbn [fst snd] in *.
          split; cbn [rp rbox xmin xmax ymin ymax px py at_]; fold X; fold Y; lra.
        * intros u Hu D. apply R4; auto. apply DEEP. eapply DLE; [|exact D]. lra.
    - exists None. split; auto. cbn [rclip clips_close]. intros u Hu D. apply (Hr u Hu). apply DEEP.
      eapply DLE; [|exact D]. lra.
  Qed.
End Liang.
