(** The area after clipping by the sides of a convex polygon, in binary64, when
    the exact polygons keep clear of the sides. *)
From Coq Require Import Reals Lra Psatz.
From Flocq Require Import IEEE754.BinarySingleNaN Core.
From Verif Require Import RBase NumB64 NumRoom FBase FBuild MUtils MGeometry MAlgorithms FPoint FCut FClip FArea FSlant FCouple
  SpecPoly SpecArea SpecClear GTriangle GConvex GHull GArea GClip GMeasure GClose GClipArea GStage PClip PClipRun PClipFwd FOverlap.
Open Scope R_scope.

Section Run.
  Local Notation bounded := NumRoom.bounded.
  Variable k : Z.
  Hypothesis Hk : (-251 <= k <= 400)%Z.
  Let M := bpow radix2 k.
  Let m := uro * M.
  Notation bpt := (bpt k).

  Section Side.
    Variables r s : point b64.
    Hypothesis (Br : bpt r) (Bs : bpt s).
    Hypothesis HL : bpow radix2 (-250) <= slen r s.
    Notation U := (Pt (nsub (px s) (px r)) (nsub (py s) (py r))).
    Notation N := (Pt (nopp (py U)) (px U)).
    Notation f := (orient (rp r) (rp s)).
    Definition far (p : point b64) : Prop := 100 * (slen r s * m) <= Rabs (f (rp p)).

    Lemma Lm_pos4 : 0 < slen r s * m. Proof. apply (Lm_pos k r s HL). Qed.
    Lemma far13 p : far p -> 13 * (slen r s * m) <= Rabs (f (rp p)).
    Proof. unfold far. pose proof Lm_pos4. lra. Qed.
    Lemma far_neg p : far p -> f (rp p) <= 0 -> f (rp p) < 0.
    Proof. unfold far. intros H [H1|H1]; auto. exfalso. rewrite H1, Rabs_R0 in H. pose proof Lm_pos4. lra. Qed.
    Lemma e_pos4 : 0 <= slen r s * (64 * m).
    Proof. pose proof Lm_pos4. lra. Qed.

    (** *** One side of the subject, and all of them (compare FClip) *)
    Variable D : R.
    Notation eps := (6 * m).
    Notation e := (slen r s * (64 * m)).
    Notation kap := (4 * (D * eps)).
    Notation thin := (2 * (D * eps)).





    Lemma edge_emit_clear d a b E a' ai' : bpt a -> bpt b -> far a -> far b -> win (rp r) d (rp a) -> win (rp r) d (rp b) -> d + eps <= D ->
      edge_out r U N a (ins (rp r) (rp s) (rp a)) b = (E, (a', ai')) ->
      rp a' = rp b /\ bpt a' /\ ai' = ins (rp r) (rp s) (rp b)
      /\ emit (rp r) (rp s) e D thin (rp a) (ins (rp r) (rp s) (rp a)) (rp b) (map rp E) ai'
      /\ Forall (fun x => is_finite (px x) = true /\ is_finite (py x) = true /\ closep eps (rp a) (rp b) (rp x)) E
      /\ (forall l Q, follows (rp r) D kap (rp b) l Q -> follows (rp r) D kap (rp a) (rp b :: l) (map rp E ++ Q)).
    Proof.
      intros Ba Bb Ha Hb Wa Wb HD H. pose proof (mp k) as Pm. fold M m in Pm. pose proof e_pos4 as Pe.
      assert (WaD : win (rp r) D (rp a)) by (destruct Wa; split; lra). assert (WbD : win (rp r) D (rp b)) by (destruct Wb; split; lra).
      assert (Cb : is_finite (px b) = true /\ is_finite (py b) = true /\ closep eps (rp a) (rp b) (rp b)).
      { split; [apply Bb|]. split; [apply Bb|]. exists (rp b). split; [exists 1; split; [lra|]; symmetry; apply at_1|].
        rewrite !Rminus_diag_eq by reflexivity. rewrite Rabs_R0. split; lra. }
      unfold edge_out in H. cbn [px py] in H. destruct Ba as (Ax & Ay). destruct Bb as (Bx & By).
      rewrite (zero_diff k Hk _ _ Bx Ax), (zero_diff k Hk _ _ By Ay) in H.
      destruct (Req_bool (B2R (px b)) (B2R (px a)) && Req_bool (B2R (py b)) (B2R (py a))) eqn:EV.
      { inversion H; subst. apply andb_true_iff in EV as (V1 & V2). revert V1 V2. case Req_bool_spec; [|discriminate]. case Req_bool_spec; [|discriminate].
        intros V2 V1 _ _. assert (Er : rp a' = rp b) by (symmetry; now apply rp_eq). rewrite <- Er.
        split; auto. split; [split; auto|]. split; auto. split; [constructor|]. split; [constructor|].
        intros l Q HQ. cbn [map app]. now constructor. }
      rewrite (inside_clear k Hk r s Br Bs HL b (conj Bx By)) in H by (apply far13; exact Hb).
      destruct (ins (rp r) (rp s) (rp b)) eqn:Ib; destruct (ins (rp r) (rp s) (rp a)) eqn:Ia; cbn [app] in H.
      - inversion H; subst. apply ins_iff in Ib. split; auto. split; [split; auto|]. split; auto. cbn [map]. split; [constructor; lra|].
        split; [constructor; auto; constructor|]. intros l Q HQ. cbn [app]. apply fol_skip. now apply fol_here.
      - apply ins_iff in Ib. apply ins_false in Ia.
        destruct (cut_clear k Hk r s Br Bs HL a b (conj Ax Ay) (conj Bx By) Ha Hb (or_introl (conj (far_neg a Ha Ia) Ib))) as (x & Ex & Fx & Fy & Cx & Nx).
        cbn [px py] in Ex. rewrite Ex in H. inversion H; subst.
        pose proof (win_move k r D d _ _ _ Wa Wb Cx HD) as Wx.
        split; auto. split; [split; auto|]. split; auto. cbn [map app]. split.
        { constructor; auto; [lra|]. now apply (close_thin (rp r) D). }
        split; [constructor; auto; constructor; auto; constructor|].
        intros l Q HQ. cbn [app]. apply fol_side; [now apply close_side|]. now apply fol_here.
      - apply ins_iff in Ia. apply ins_false in Ib.
        destruct (cut_clear k Hk r s Br Bs HL a b (conj Ax Ay) (conj Bx By) Ha Hb (or_intror (conj (far_neg b Hb Ib) Ia))) as (x & Ex & Fx & Fy & Cx & Nx).
        cbn [px py] in Ex. rewrite Ex in H. inversion H; subst.
        pose proof (win_move k r D d _ _ _ Wa Wb Cx HD) as Wx.
        split; auto. split; [split; auto|]. split; auto. cbn [map app]. split.
        { constructor; auto; [lra|]. now apply (close_thin (rp r) D). }
        split; [constructor; auto; constructor; auto; constructor|].
        intros l Q HQ. cbn [app]. apply fol_side; auto. now apply close_side.
      - inversion H; subst. apply ins_false in Ib. split; auto. split; [split; auto|]. split; auto. cbn [map]. split; [constructor; lra|].
        split; [constructor|]. intros l Q HQ. cbn [app]. now constructor.
    Qed.

    Lemma edges_run_clear d : d + eps <= D -> forall l a E st, bpt a -> Forall bpt l -> far a -> Forall far l -> win (rp r) d (rp a) -> Forall (fun p => win (rp r) d (rp p)) l ->
      edges_out r U N a (ins (rp r) (rp s) (rp a)) l = (E, st) ->
      snd st = ins (rp r) (rp s) (last (map rp l) (rp a))
      /\ run (rp r) (rp s) e D thin (rp a) (ins (rp r) (rp s) (rp a)) (map rp l) (map rp E) (snd st)
      /\ follows (rp r) D kap (rp a) (map rp l) (map rp E)
      /\ Forall (fun x => is_finite (px x) = true /\ is_finite (py x) = true
                 /\ exists u v, In u (map rp (a :: l)) /\ In v (map rp (a :: l)) /\ closep eps u v (rp x)) E.
    Proof.
      intros HD. induction l as [|b l IH]; intros a E st Ba Bl Ka Kl Wa Wl H.
      - cbn in H. inversion H; subst. cbn. split; auto. split; [constructor|]. split; [constructor|constructor].
      - apply Forall_cons_iff in Bl as (Bb & Bl). apply Forall_cons_iff in Wl as (Wb & Wl). apply Forall_cons_iff in Kl as (Kb & Kl). cbn [edges_out] in H.
        destruct (edge_out r U N a (ins (rp r) (rp s) (rp a)) b) as (E1, (a1, ai1)) eqn:Ee.
        destruct (edges_out r U N a1 ai1 l) as (E2, st2) eqn:El. injection H as <- <-.
        destruct (edge_emit_clear d a b E1 a1 ai1 Ba Bb Ka Kb Wa Wb HD Ee) as (Ra & B1 & -> & Hem & HF & Hfol).
        assert (Wa1 : win (rp r) d (rp a1)) by (now rewrite Ra).
        rewrite <- Ra in El. destruct (IH a1 E2 st2 B1 Bl ltac:(unfold far; rewrite Ra; exact Kb) Kl Wa1 Wl El) as (Hs & Hr & Hf & HF2).
        rewrite Ra in Hs, Hr, Hf. cbn [map]. rewrite last_cons, map_app. split; auto. split; [econstructor; eauto|]. split; [now apply Hfol|].
        apply Forall_app. split.
        + eapply Forall_impl; [|exact HF]. cbn beta. intros x (F1 & F2 & C). split; auto. split; auto. exists (rp a), (rp b).
          split; [now left|]. split; [right; now left|auto].
        + eapply Forall_impl; [|exact HF2]. cbn beta. intros x (F1 & F2 & u & v & Hu & Hv & C). split; auto. split; auto. exists u, v.
          cbn [map In] in Hu, Hv |- *. rewrite Ra in Hu, Hv. split; [now right|]. split; [now right|auto].
    Qed.
  End Side.
End Run.

Lemma fst_edges (r U N : point b64) k (Hk : (-251 <= k <= 400)%Z) : forall l a ai E st, bpt k a -> Forall (bpt k) l ->
  edges_out r U N a ai l = (E, st) -> rp (fst st) = rp (last l a).
Proof.
  induction l as [|b l IH]; intros a ai E st Ba Bl H; [cbn in H; inversion H; subst; reflexivity|].
  apply Forall_cons_iff in Bl as (Bb & Bl). cbn [edges_out] in H. destruct (edge_out r U N a ai b) as (E1, (a1, ai1)) eqn:Ee.
  destruct (edges_out r U N a1 ai1 l) as (E2, st2) eqn:El. injection H as <- <-. rewrite last_cons.
  assert (Q : bpt k a1 /\ rp a1 = rp b).
  { unfold edge_out in Ee. cbn [px py] in Ee. rewrite (zero_diff k Hk _ _ (proj1 Bb) (proj1 Ba)), (zero_diff k Hk _ _ (proj2 Bb) (proj2 Ba)) in Ee.
    destruct (Req_bool (B2R (px b)) (B2R (px a)) && Req_bool (B2R (py b)) (B2R (py a))) eqn:EV.
    - apply andb_true_iff in EV as (V1 & V2). revert V1 V2. case Req_bool_spec; [|discriminate]. case Req_bool_spec; [|discriminate].
      intros V2 V1 _ _. inversion Ee; subst. split; auto. symmetry. now apply rp_eq.
    - destruct (inside b r U).
      + destruct ai; inversion Ee; subst; auto.
      + destruct ai; [|inversion Ee; subst; auto]. destruct intersection as [[?|]|]; inversion Ee; subst; auto. }
  destruct Q as (B1 & R1). rewrite (IH a1 ai1 E2 st2 B1 Bl El).
  destruct l as [|c l]; [exact R1|]. rewrite (last_default (c :: l) a1 b) by discriminate. reflexivity.
Qed.

Lemma corner_ext (S S' : pt -> Prop) x : (forall p, S p <-> S' p) -> corner S x -> corner S' x.
Proof. intros E (H1 & H2). split; [now apply E|]. intros p q t Hp Hq. apply H2; now apply E. Qed.

(** ** One clip of a coupled polygon *)
Section Stage.
  Variable k : Z.
  Hypothesis Hk : (-251 <= k <= 400)%Z.
  Let m := uro * bpow radix2 k.
  Variables r s : point b64.
  Hypothesis (Br : bpt k r) (Bs : bpt k s).
  Hypothesis HL : bpow radix2 (-250) <= slen r s.
  Notation U := (Pt (nsub (px s) (px r)) (nsub (py s) (py r))).
  Notation N := (Pt (nopp (py U)) (px U)).
  Notation f := (orient (rp r) (rp s)).
  Notation L := (slen r s).
  Variables (d G rho eps : R).
  Hypothesis Hd : 2 * eps + 100 * m <= d.
  Hypothesis Hrho : 64 * m <= rho.
  Hypothesis Heps : (64 * m + (rho + 12 * m)) * G / (2 * d) <= eps.
  Hypothesis HG : 0 <= G.
  Hypothesis Hep : 0 <= eps.
  Notation z0 := (Pt (nofZ 0) (nofZ 0) : point b64).

  (** the exact polygon beside the computed one, all the way round *)
  Definition coupled (rho eps : R) (P : list pt) (P' : list (point b64)) : Prop :=
    near eps (last P (Pt 0 0)) (rp (last P' z0)) /\ coup rho eps (last P (Pt 0 0)) (last P' z0) P P'.

  Lemma coupled_step P P' E st : P <> [] -> P' <> [] -> coupled rho eps P P' -> (forall v, In v P -> d * L <= Rabs (f v)) ->
    (forall u v, In (u, v) (poly_edges P) -> u <> v /\ side_size u v <= G) -> Forall (bpt k) P' ->
    edges_out r U N (last P' z0) (ins (rp r) (rp s) (rp (last P' z0))) P' = (E, st) ->
    (forall p, In p P' -> 100 * (L * m) <= Rabs (f (rp p)))
    /\ (length E <= length (sh (rp r) (rp s) P))%nat
    /\ (E <> [] -> coupled (rho + 12 * m) eps (sh (rp r) (rp s) P) E).
  Proof.
    intros NP NP' (Nl & HC) Cl HE BP HO.
    set (a := last P (Pt 0 0)) in *. set (a' := last P' z0) in *.
    assert (Ina : In a P) by (unfold a; destruct (exists_last NP) as (l' & x & ->); rewrite last_last; apply in_or_app; right; now left).
    assert (Ina' : In a' P') by (unfold a'; destruct (exists_last NP') as (l' & x & ->); rewrite last_last; apply in_or_app; right; now left).
    assert (Ba : bpt k a') by (rewrite Forall_forall in BP; auto).
    destruct (flag_near k r s HL d eps Hd a (rp a') (Cl a Ina) Nl) as (Fa & Ia). rewrite Ia in HO.
    assert (CF : Forall (fun v => d * L <= Rabs (f v)) P) by (apply Forall_forall; auto).
    assert (PL : 0 < L) by (pose proof (bpow_gt_0 radix2 (-250)); lra).
    pose proof (mp k) as Pm. fold m in Pm.
    assert (K : forall z z', prev k r s eps z z' a a' ->
      coup (rho + 12 * m) eps z z' (sh (rp r) (rp s) P) E /\ prev k r s eps (last (sh (rp r) (rp s) P) z) (last E z') a a').
    { intros z z' Hp. destruct (coup_step k Hk r s Br Bs HL d G rho eps Hd Hrho Heps Hep P a a' P' HC E st z z' a' eq_refl (Cl a Ina) CF Nl HE Ba BP Hp HO) as (K1 & K2 & _).
      split; auto. pose proof (fst_edges r U N k Hk P' a' _ E st Ba BP HO) as HF.
      assert (El : last P a = a) by (unfold a at 2; now apply last_default). assert (El' : last P' a' = a') by (unfold a' at 2; now apply last_default).
      rewrite El in K2. rewrite El' in HF. apply (prev_rp k r s eps _ _ _ (fst st)); auto. }
    assert (X : exists z z', prev k r s eps z z' a a').
    { destruct (ins (rp r) (rp s) a) eqn:Iaa.
      - exists a, a'. split; auto. rewrite Iaa. auto.
      - exists (rp r), r. split; [now apply near_refl|]. rewrite Iaa. rewrite orient_12, Rabs_R0. split; auto.
        assert (0 < m * L) by (now apply Rmult_lt_0_compat). fold m. lra. }
    destruct X as (z & z' & Hz). destruct (K z z' Hz) as (K1 & K2). split; [|split].
    - intros p Hp. destruct (coup_in _ _ _ _ _ _ HC p Hp) as (x & Hx & Hn). apply (flag_near k r s HL d eps Hd x (rp p) (Cl x Hx) Hn).
    - apply (coup_length _ _ _ _ _ _ K1).
    - intros NE. assert (NQ : sh (rp r) (rp s) P <> []) by (intros EQ; rewrite EQ in K1; pose proof (coup_length _ _ _ _ _ _ K1); destruct E; [congruence|cbn in *; lia]).
      rewrite (last_default _ z (Pt 0 0) NQ), (last_default E z' z0 NE) in K2.
      destruct (K _ _ K2) as (K3 & _). split; [apply K2|exact K3].
  Qed.
End Stage.

(** ** All the sides *)
Section Loop.
  Variables (k : Z) (X0 X1 Y0 Y1 H D d R0 ep : R).
  Hypothesis Hk : (-251 <= k <= 400)%Z.
  Let m := uro * bpow radix2 k.
  Let eps := 6 * m.
  Hypothesis HX : - bpow radix2 k <= X0 - H /\ X1 + H <= bpow radix2 k.
  Hypothesis HY : - bpow radix2 k <= Y0 - H /\ Y1 + H <= bpow radix2 k.
  Hypothesis HD : X1 - X0 + 2 * H <= D /\ Y1 - Y0 + 2 * H <= D.
  Hypothesis HDk : bpow radix2 (-400) <= D <= bpow radix2 (k + 1).
  Hypothesis H0 : 0 <= H.
  Hypothesis Hep : 0 <= ep.
  Hypothesis Hd : 2 * ep + 100 * m <= d.
  Hypothesis Heps : (64 * m + R0) * D / (2 * d) <= ep.
  Notation inb := (inb X0 X1 Y0 Y1).
  Notation finb := (finb X0 X1 Y0 Y1).
  Notation z0 := (Pt (nofZ 0) (nofZ 0) : point b64).

  Definition cost2 (n : nat) (eta0 : R) : R :=
    INR n * (64 * (204 * (D * m))) + 64 * (eta0 + INR n * (72 * (D * m))) + 5000 * (uro * (D * D)).

  Definition stay_clear (E : list (pt * pt)) (S : pt -> Prop) : Prop :=
    forall pre u v post, E = pre ++ (u, v) :: post ->
    forall x, corner (fun p => S p /\ forall u' v', In (u', v') pre -> 0 <= orient u' v' p) x -> d * side_size u v <= Rabs (orient u v x).

  Lemma clip_loop_clear : forall l r P P' subject out h eta0 rho,
    Forall (finb 0) (r :: l) -> (forall u v, In (u, v) (chain (rp r) (map rp l)) -> bpow radix2 (-250) <= side_size u v) ->
    convex_ccw P -> (forall p, in_poly P p -> inb 0 p) ->
    Forall (finb h) P' -> 0 <= h -> h + INR (length l) * eps <= H ->
    (length P + length l <= 64)%nat -> (3 <= length P')%nat ->
    coupled rho ep P P' -> 64 * m <= rho -> rho + INR (length l) * (12 * m) <= R0 ->
    firstn (length P') out = P' -> length out = 64%nat -> length subject = 64%nat -> 0 <= eta0 -> nearly eta0 (map rp P') ->
    stay_clear (chain (rp r) (map rp l)) (in_poly P) ->
    exists A, clip_loop r l subject out (zlen P') = Ok A
    /\ is_finite A = true /\ Rabs (B2R A - area_in (chain (rp r) (map rp l)) (map rp P')) <= cost2 (length l) eta0.
  Proof.
    assert (Pm : 0 < m) by apply (mp k). assert (PD : 0 < D) by (pose proof (bpow_gt_0 radix2 (-400)); lra). pose proof uro_pos as Pu.
    assert (PDm : 0 < D * m) by (now apply Rmult_lt_0_compat).
    assert (PDD : 0 <= uro * (D * D)) by (apply Rmult_le_pos; [lra|apply Rmult_le_pos; lra]).
    assert (Pd : 0 < d) by lra.
    induction l as [|s l IH]; intros r P P' subject out h eta0 rho HR HS CP InP HP Hh HH LP LP' HC Hrho HR0 HF LO LS He HN HST.
    - cbn [length] in HH. rewrite Rmult_0_l in HH. cbn [clip_loop]. unfold zlen. rewrite Nat2Z.id, HF.
      destruct HC as (_ & HC). pose proof (coup_length _ _ _ _ _ _ HC) as LC. cbn [length] in LP.
      destruct (polygon_area_ok k D Hk HDk P') as (A' & EA & FA & a & Ha & Hdd & HB).
      + lia.
      + eapply Forall_impl; [|exact HP]. intros p Hp. apply bpt_up. eapply finb_bpt; [exact HX|exact HY| |exact Hp]. lra.
      + intros p p' Hp Hp'. rewrite Forall_forall in HP. destruct (HP p Hp) as (_ & _ & P1 & P2). destruct (HP p' Hp') as (_ & _ & P3 & P4).
        unfold rp in P1, P2, P3, P4. cbn [px py] in *. split; apply Rabs_le_iff; lra.
      + exists A'. split; auto. split; auto. cbn [map chain]. rewrite area_in_shoelace.
        pose proof (nearly_area eta0 _ a He HN Hdd) as HS'. rewrite map_length in HS'.
        assert (INR (length P') * eta0 <= 64 * eta0). { apply Rmult_le_compat_r; auto. replace 64 with (INR 64) by (cbn; lra). apply le_INR. lia. }
        unfold cost2. cbn [length INR]. apply Rabs_le_iff in HB, HS'. apply Rabs_le_iff. lra.
    - cbn [length] in HH, LP, HR0. rewrite S_INR in HH, HR0.
      assert (Pn : 0 <= INR (length l)) by apply pos_INR.
      assert (Pe : 0 < eps) by (unfold eps; lra).
      assert (Hhe : h + eps <= H). { assert (0 <= INR (length l) * eps) by (apply Rmult_le_pos; lra). lra. }
      assert (Hr1 : rho + 12 * m <= R0). { assert (0 <= INR (length l) * (12 * m)) by (apply Rmult_le_pos; lra). lra. }
      apply Forall_cons_iff in HR as (Fr & HR). pose proof HR as HRs. apply Forall_cons_iff in HR as (Fs & HR).
      assert (Br : bpt k r) by (eapply finb_bpt; [exact HX|exact HY| |exact Fr]; lra).
      assert (Bs : bpt k s) by (eapply finb_bpt; [exact HX|exact HY| |exact Fs]; lra).
      assert (HL : bpow radix2 (-250) <= slen r s) by (apply (HS (rp r) (rp s)); now left).
      assert (SL : 0 < slen r s) by (pose proof (bpow_gt_0 radix2 (-250)); lra).
      cbn [clip_loop].
      assert (EU : neqb (nsub (px s) (px r)) (nofZ 0) && neqb (nsub (py s) (py r)) (nofZ 0) = false).
      { rewrite (zero_diff k Hk _ _ (proj1 Bs) (proj1 Br)), (zero_diff k Hk _ _ (proj2 Bs) (proj2 Br)).
        apply andb_false_iff. unfold slen in SL.
        destruct (Req_bool_spec (B2R (px s)) (B2R (px r))) as [E1|E1]; [|now left].
        destruct (Req_bool_spec (B2R (py s)) (B2R (py r))) as [E2|E2]; [|now right]. exfalso.
        rewrite E1, E2 in SL. replace (B2R (px r) - B2R (px r)) with 0 in SL by ring. replace (B2R (py r) - B2R (py r)) with 0 in SL by ring.
        rewrite Rabs_R0, Rmax_left in SL by lra. lra. }
      cbn [px py]. rewrite EU. clear EU.
      set (U := Pt (nsub (px s) (px r)) (nsub (py s) (py r))) in *.
      assert (Pne' : P' <> []) by (intros ->; cbn in LP'; lia).
      assert (Pne : P <> []) by (destruct CP as (L3 & _); intros ->; cbn in L3; lia).
      set (a := last P' z0) in *.
      assert (Ina : In a P') by (unfold a; destruct (exists_last Pne') as (l' & x & ->); rewrite last_last; apply in_or_app; right; now left).
      assert (BP : Forall (bpt k) P') by (eapply Forall_impl; [|exact HP]; intros p Hp; eapply finb_bpt; [exact HX|exact HY| |exact Hp]; lra).
      assert (Ba : bpt k a) by (rewrite Forall_forall in BP; auto).
      assert (WP : Forall (fun p => win (rp r) (D - 2 * H + h) (rp p)) P').
      { eapply Forall_impl; [|exact HP]. intros p (_ & _ & Hp). eapply inb_win2; [exact HD|exact Hh|apply Fr|exact Hp]. }
      (* the exact vertices *)
      assert (VC : forall v, In v P -> d * slen r s <= Rabs (orient (rp r) (rp s) v)).
      { intros v Hv. apply (HST [] (rp r) (rp s) (chain (rp s) (map rp l)) eq_refl). eapply corner_ext; [|apply (corner_vertex P v CP Hv)].
        intros p. split; [intros Hp; split; [auto|intros ? ? []]|tauto]. }
      assert (VN : forall v, In v P -> orient (rp r) (rp s) v <> 0).
      { intros v Hv E0. specialize (VC v Hv). rewrite E0, Rabs_R0 in VC. assert (0 < d * slen r s) by (now apply Rmult_lt_0_compat). lra. }
      assert (VB : forall v, In v P -> inb 0 v).
      { intros v Hv. apply InP. apply (in_poly_hull P v CP). now apply hull_vertex. }
      assert (VE : forall u v, In (u, v) (poly_edges P) -> u <> v /\ side_size u v <= D).
      { intros u v Huv. destruct CP as (L3 & N3 & _). split; [apply (edges_neq P u v N3); [lia|exact Huv]|].
        destruct (edges_in P u v Huv) as (Iu & Iv). destruct (VB u Iu) as (U1 & U2). destruct (VB v Iv) as (V1 & V2).
        apply Rmax_lub; apply Rabs_le_iff; lra. }
      destruct (edges_out r U (Pt (nopp (py U)) (px U)) a (ins (rp r) (rp s) (rp a)) P') as (Q', st) eqn:EO.
      destruct (coupled_step k Hk r s Br Bs HL d D rho ep Hd Hrho) with (P := P) (P' := P') (E := Q') (st := st) as (FAR & LQ & HQ); auto.
      { eapply Rle_trans; [|exact Heps]. apply Rmult_le_compat_r; [left; apply Rinv_0_lt_compat; lra|]. apply Rmult_le_compat_r; [lra|]. fold m. lra. }
      fold m in FAR, HQ.
      assert (FF : Forall (far k r s) P') by (apply Forall_forall; exact FAR).
      assert (Fa : far k r s a) by (apply FAR; auto).
      assert (Ei : inside a r U = ins (rp r) (rp s) (rp a)) by (apply (inside_clear k Hk r s Br Bs HL a Ba); apply (far13 k r s HL); auto).
      assert (LQ64 : (length Q' <= 64)%nat).
      { destruct (sh_clear (rp r) (rp s) P CP VN) as [(SE & _)|(_ & LQ2 & _)]; [rewrite SE in LQ; cbn in LQ; lia|lia]. }
      pose proof EO as EO'. rewrite <- Ei in EO'.
      destruct (clip_by_edge_fwd r U subject out P' z0 Q' st Pne' HF ltac:(lia) EO' ltac:(unfold zlen; lia)) as (sub' & out' & EC & L1 & L2 & L3).
      rewrite EC. cbn [bind]. clear EC EO'.
      destruct (edges_run_clear k Hk r s Br Bs HL D (D - 2 * H + h) ltac:(fold m; fold eps; lra) P' a Q' st Ba BP Fa FF) as (R1 & R2 & R3 & R4); auto.
      { rewrite Forall_forall in WP. now apply WP. }
      fold m in R2, R3, R4.
      assert (EaR : last (map rp P') (Pt 0 0) = rp a).
      { unfold a. destruct (exists_last Pne') as (l' & x & ->). rewrite map_app. cbn [map]. now rewrite !last_last. }
      assert (mne : map rp P' <> []) by (destruct P'; [congruence|discriminate]).
      assert (WR : Forall (win (rp r) D) (map rp P')).
      { apply Forall_map. eapply Forall_impl; [|exact WP]. intros p (W1 & W2). split; lra. }
      assert (Hside : slen r s <= Rabs (px (rp s) - px (rp r)) \/ slen r s <= Rabs (py (rp s) - py (rp r))).
      { unfold slen, rp. cbn [px py]. unfold Rmax. destruct Rle_dec; [right|left]; lra. }
      assert (P64 : 0 <= slen r s * (64 * m)) by (apply Rmult_le_pos; lra).
      pose proof (step_close (rp r) (rp s) (chain (rp s) (map rp l)) (slen r s * (64 * m)) D (slen r s) (2 * (D * (6 * m)))
        P64 SL ltac:(lra) Hside (map rp P') (map rp Q') (ins (rp r) (rp s) (rp a)) (snd st) mne) as SC.
      rewrite EaR in SC. specialize (SC R2).
      match type of SC with ?A -> _ => assert (HA1 : A) end.
      { unfold flag_ok. destruct (ins (rp r) (rp s) (rp a)) eqn:Eia; unfold ins in Eia; rb; lra. }
      specialize (SC HA1). clear HA1.
      match type of SC with ?A -> _ => assert (HA1 : A) end.
      { intros Hi. rewrite R1. rewrite (last_default _ (rp a) (Pt 0 0)) by auto. now rewrite EaR. }
      specialize (SC HA1). clear HA1.
      assert (Wr : win (rp r) D (rp r)) by (split; replace (px (rp r) - px (rp r)) with 0 by ring; replace (py (rp r) - py (rp r)) with 0 by ring; rewrite Rabs_R0; lra).
      specialize (SC Wr WR). rewrite map_length in SC.
      replace (D * (slen r s * (64 * m)) / slen r s) with (64 * (D * m)) in SC by (field; lra).
      assert (LPP : (length P' <= length P)%nat) by (destruct HC as (_ & HC); apply (coup_length _ _ _ _ _ _ HC)).
      assert (SC2 : Rabs (area_in (chain (rp s) (map rp l)) (map rp Q') - area_in ((rp r, rp s) :: chain (rp s) (map rp l)) (map rp P')) <= 64 * (204 * (D * m))).
      { eapply Rle_trans; [exact SC|]. replace (3 * (64 * (D * m)) + 2 * (D * (6 * m))) with (204 * (D * m)) by ring.
        apply Rmult_le_compat_r; [lra|]. replace 64 with (INR 64) by (cbn; lra). apply le_INR. lia. }
      clear SC. cbn [map chain].
      destruct (zlen Q' <? 3)%Z eqn:E3.
      + exists (nofZ 0). split; auto. destruct (Zb_exact 0 ltac:(cbv; discriminate)) as (F0 & E0). change (nofZ 0 : b64) with (Zb 0).
        split; auto. replace (B2R (Zb 0)) with 0 by (symmetry; exact E0). rewrite area_in_short in SC2 by (rewrite map_length; apply Z.ltb_lt in E3; unfold zlen in E3; lia).
        eapply Rle_trans; [exact SC2|]. unfold cost2. cbn [length]. rewrite S_INR.
        assert (0 <= INR (length l) * (64 * (204 * (D * m)))) by (apply Rmult_le_pos; lra).
        assert (0 <= INR (length l) * (72 * (D * m))) by (apply Rmult_le_pos; lra). lra.
      + apply Z.ltb_ge in E3. unfold zlen in E3.
        assert (Q'ne : Q' <> []) by (intros ->; cbn in E3; lia).
        destruct (sh_clear (rp r) (rp s) P CP VN) as [(SE & _)|(CQ & LQ2 & RQ)]; [rewrite SE in LQ; cbn in LQ; lia|].
        destruct (IH s (sh (rp r) (rp s) P) Q' sub' out' (h + eps) (eta0 + 72 * (D * m)) (rho + 12 * m)) as (A & EA & FA & HB); auto; try lia; try lra.
        * intros u v Huv. apply HS. now right.
        * intros p Hp. apply InP. now apply RQ.
        * eapply Forall_impl; [|exact R4]. intros x (F1 & F2 & u & v & Hu & Hv & Hc). split; auto. split; auto.
          assert (Hin : forall w, In w (map rp (a :: P')) -> inb h w).
          { intros w Hw. rewrite Forall_forall in HP. apply in_map_iff in Hw as (p & <- & [<-|Hp]); apply HP; auto. }
          apply (inb_close k X0 X1 Y0 Y1 h u v); auto.
        * replace (eta0 + 72 * (D * m)) with (eta0 + 3 * (4 * (D * (6 * m)))) by ring.
          apply (follows_3 (rp r) D (4 * (D * (6 * m))) ltac:(lra) eta0 (rp a) (map rp P') (map rp Q')); auto.
          -- rewrite Forall_forall in WR. apply WR. now apply in_map.
          -- rewrite <- EaR. now apply nearly_last.
        * intros pre u v post Epre x Hx. apply (HST ((rp r, rp s) :: pre) u v post); [cbn [map chain app]; now rewrite Epre|].
          eapply corner_ext; [|exact Hx]. intros p. cbn beta. rewrite RQ. split.
          -- intros ((I1 & I2) & I3). split; auto. intros u' v' [E'|I']; [injection E' as <- <-; auto|auto].
          -- intros (I1 & I2). split; [split; auto; apply I2; now left|]. intros u' v' I'. apply I2. now right.
        * exists A. split; auto. split; auto. eapply Rle_trans; [|apply Req_le; instantiate (1 := 64 * (204 * (D * m)) + cost2 (length l) (eta0 + 72 * (D * m)))].
          -- apply Rabs_le_iff in SC2, HB. apply Rabs_le_iff. lra.
          -- unfold cost2. cbn [length]. rewrite S_INR. ring.
  Qed.
End Loop.
