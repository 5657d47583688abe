(** counter_clockwise in binary64 looks at two turns of a strictly convex face;
    when their signs are computed correctly the face is stored
    counter-clockwise. *)
From Coq Require Import Reals Lra Psatz.
From Flocq Require Import IEEE754.BinarySingleNaN Core.
From Verif Require Import RBase NumB64 NumRoom FBase FBuild MGeometry MAlgorithms MCelltree FPoint FLocate FCut FClip FArea
  SpecTree SpecQuery SpecApi SpecMesh SpecPoly PMesh PInit PBuild PApi GTriangle GConvex GHull GCcw GFaces FMesh FOrient.
Open Scope R_scope.

(** three corners that turn by more than the rounding error: twice the area of
    their triangle against the square of its extent *)
Definition clear_corner (a b c : pt) : Prop := exists W, bpow radix2 (-400) <= W
  /\ (forall p q, In p [a; b; c] -> In q [a; b; c] -> Rabs (px p - px q) <= W /\ Rabs (py p - py q) <= W)
  /\ 9 * (uro * (W * W)) < Rabs (orient a b c).

Lemma clear_corner_rev a b c : clear_corner a b c -> clear_corner c b a.
Proof.
  intros (W & HW & HS & HO). exists W. split; auto. split.
  - intros p q Hp Hq. apply HS; cbn in *; tauto.
  - replace (orient c b a) with (- orient a b c) by (unfold orient; ring). now rewrite Rabs_Ropp.
Qed.

Section Turns.
  Variable k : Z.
  Hypothesis Hk : (-251 <= k <= 400)%Z.
  Notation bpt := (bpt k).

  Lemma corner_turn (a b c : point b64) : bpt a -> bpt b -> bpt c -> clear_corner (rp a) (rp b) (rp c) -> turn_ok a b c.
  Proof.
    intros Ba Bb Bc (W & HW & HS & HO).
    assert (HS' : forall p q, In p [rp a; rp b; rp c] -> In q [rp a; rp b; rp c] ->
      Rabs (px p - px q) <= Rmin W (bpow radix2 (k + 1)) /\ Rabs (py p - py q) <= Rmin W (bpow radix2 (k + 1))).
    { intros p q Hp Hq. destruct (HS p q Hp Hq) as (S1 & S2).
      assert (Hb : forall r, In r [rp a; rp b; rp c] -> Rabs (px r) <= bpow radix2 k /\ Rabs (py r) <= bpow radix2 k).
      { intros r Hr. cbn in Hr. destruct Hr as [<-|[<-|[<-|[]]]]; [destruct Ba as ((_ & ?) & (_ & ?))|destruct Bb as ((_ & ?) & (_ & ?))|destruct Bc as ((_ & ?) & (_ & ?))]; split; assumption. }
      destruct (Hb p Hp) as (P1 & P2), (Hb q Hq) as (Q1 & Q2). apply Rabs_le_iff in P1, P2, Q1, Q2.
      assert (E2 : bpow radix2 (k + 1) = 2 * bpow radix2 k) by (rewrite bpow_plus; change (bpow radix2 1) with 2; ring).
      split; apply Rmin_glb; auto; rewrite E2; apply Rabs_le_iff; lra. }
    assert (HM : bpow radix2 (-400) <= Rmin W (bpow radix2 (k + 1)) <= bpow radix2 (k + 1)).
    { split; [apply Rmin_glb; auto; apply bpow_le; lia|apply Rmin_r]. }
    destruct (HS' (rp b) (rp a)) as (S1 & S2); [cbn; tauto|cbn; tauto|].
    destruct (HS' (rp c) (rp a)) as (S3 & S4); [cbn; tauto|cbn; tauto|].
    apply (turn_clear k Hk a b c (Rmin W (bpow radix2 (k + 1)))); auto.
    eapply Rle_lt_trans; [|exact HO]. pose proof uro_pos. pose proof (Rmin_l W (bpow radix2 (k + 1))). pose proof (bpow_gt_0 radix2 (-400)).
    apply Rmult_le_compat_l; [lra|]. apply Rmult_le_compat_l; [lra|]. apply Rmult_le_compat; lra.
  Qed.

  (** back to where it started: no turn *)
  Lemma turn_back (a b : point b64) : bpt a -> bpt b -> turn_ok a b a.
  Proof.
    intros (A1 & A2) (B1 & B2).
    destruct (diff_val k Hk _ _ B1 A1) as (D1 & V1 & _). destruct (diff_val k Hk _ _ B2 A2) as (D2 & V2 & _).
    destruct (diff_val k Hk _ _ A1 A1) as (D3 & V3 & _). destruct (diff_val k Hk _ _ A2 A2) as (D4 & V4 & _).
    rewrite Rminus_diag_eq, rnd_0 in V3, V4 by reflexivity.
    destruct (mul_val2 k Hk _ _ D1 D4) as (M1 & N1). destruct (mul_val2 k Hk _ _ D2 D3) as (M2 & N2).
    rewrite V4, Rmult_0_r, rnd_0 in M1. rewrite V3, Rmult_0_r, rnd_0 in M2.
    destruct (minus_val 0 (nmul (nsub (px b) (px a)) (nsub (py a) (py a))) (nmul (nsub (py b) (py a)) (nsub (px a) (px a)))) as (Es & Bs);
      [lia|apply N1|apply N2| |].
    { rewrite M1, M2. rewrite Rminus_diag_eq, Rabs_R0 by reflexivity. apply bpow_ge_0. }
    assert (Ez : B2R (cross_product (to_vector a b) (to_vector a a)) = 0).
    { unfold cross_product, to_vector. cbn [px py]. rewrite Es, M1, M2, Rminus_diag_eq by reflexivity. apply rnd_0. }
    apply (sign_turn a b a).
    - apply Bs.
    - intros Ho. exfalso. unfold orient in Ho. lra.
    - intros Ho. exfalso. unfold orient in Ho. lra.
    - auto.
  Qed.
End Turns.

Section Face.
  Variable vs : list (point b64).

  Lemma read_vertex_b u t (poly : list (point b64)) k c :
    Forall2 (fun i p => (0 <= i)%Z /\ nth_error vs (Z.to_nat i) = Some p) u poly ->
    nth_error poly k = Some c ->
    exists i, aget (u ++ t) (Z.of_nat k) = Ok i /\ aget vs i = Ok c.
  Proof.
    intros HF Hk.
    assert (Hlt : (k < length u)%nat) by (rewrite (F2_length _ _ _ HF); apply nth_error_Some; congruence).
    destruct (nth_error u k) as [i|] eqn:Ei; [|apply nth_error_None in Ei; lia].
    destruct (Forall2_nth _ _ _ _ _ _ HF Ei Hk) as (H0 & Hv).
    exists i. split.
    - apply aget_pos; [lia|]. rewrite Nat2Z.id, nth_error_app1 by auto. auto.
    - now apply aget_pos.
  Qed.

  (** the corners the loop looks at: the last three and the first *)
  Definition last_turns_ok (poly : list (point b64)) : Prop := forall a b c d,
    nth_error poly (length poly - 2) = Some a -> nth_error poly (length poly - 1) = Some b -> nth_error poly 0 = Some c ->
    nth_error poly (length poly - 3) = Some d -> turn_ok a b c /\ turn_ok a b a /\ turn_ok b a d.

  Lemma ccw_keep_float f poly : wf_face (length vs) f -> poly_of vs f poly -> convex_ccw (map rp poly) -> last_turns_ok poly ->
    ccw_face vs f = Ok f.
  Proof.
    intros Hw Hp (Hl & Hn & Hc) HT. pose proof Hw as (H3 & H32 & Hr & Hf). rewrite map_length in Hl.
    pose proof (poly_of_length _ _ _ Hp) as El.
    pose proof (until_fill_prefix f) as Ef. set (u := until_fill f) in *. set (t := skipn (length u) f) in *.
    unfold ccw_face. rewrite polygon_length_ok by auto. fold u. unfold poly_of in Hp. fold u in Hp.
    set (n := length u) in *.
    destruct (nth_error poly (n - 2)) as [a|] eqn:Ea; [|apply nth_error_None in Ea; lia].
    destruct (nth_error poly (n - 1)) as [b|] eqn:Eb; [|apply nth_error_None in Eb; lia].
    destruct (nth_error poly 0) as [c|] eqn:Ec; [|apply nth_error_None in Ec; lia].
    destruct (nth_error poly (n - 3)) as [d|] eqn:Ed; [|apply nth_error_None in Ed; lia].
    destruct (read_vertex_b u t poly _ _ Hp Ea) as (ia & Ra & Va).
    destruct (read_vertex_b u t poly _ _ Hp Eb) as (ib & Rb & Vb).
    destruct (read_vertex_b u t poly _ _ Hp Ec) as (ic & Rc & Vc).
    rewrite <- Ef in *.
    replace (Z.of_nat n - 2)%Z with (Z.of_nat (n - 2)) by lia.
    replace (Z.of_nat n - 1)%Z with (Z.of_nat (n - 1)) by lia.
    rewrite Ra. cbn [bind]. rewrite Rb. cbn [bind]. rewrite Va. cbn [bind]. rewrite Vb. cbn [bind].
    destruct (HT a b c d) as ((T1 & T2) & _); [rewrite El; auto|rewrite El; auto|auto|rewrite El; auto|].
    pose proof (map_nth_error rp _ _ Ea) as Ma. pose proof (map_nth_error rp _ _ Eb) as Mb. pose proof (map_nth_error rp _ _ Ec) as Mc.
    destruct n as [|n']; [lia|]. cbn [ccw_loop]. change (aget f 0%Z) with (aget f (Z.of_nat 0)).
    rewrite Rc. cbn [bind]. rewrite Vc. cbn [bind]. cbv zeta.
    assert (HO : 0 < orient (rp a) (rp b) (rp c)).
    { apply Hc.
      - apply (edge_nth (map rp poly) (S n' - 2)); auto. replace (S (S n' - 2)) with (S n' - 1)%nat by lia. auto.
      - eapply nth_error_In; eauto.
      - eapply nodup_nth; eauto. lia.
      - eapply nodup_nth; eauto. lia. }
    rewrite T1, T2. rewrite Req_bool_false by lra. rewrite Rlt_bool_false by lra. reflexivity.
  Qed.

  Lemma ccw_flip_float f poly : wf_face (length vs) f -> poly_of vs f poly -> convex_ccw (map rp (rev poly)) -> last_turns_ok poly ->
    ccw_face vs f = Ok (rev (until_fill f) ++ skipn (length (until_fill f)) f).
  Proof.
    intros Hw Hp (Hl & Hn & Hc) HT. pose proof Hw as (H3 & H32 & Hr & Hf).
    pose proof (poly_of_length _ _ _ Hp) as El. rewrite map_length, rev_length in Hl.
    pose proof (until_fill_prefix f) as Ef. set (u := until_fill f) in *. set (t := skipn (length u) f) in *.
    unfold ccw_face. rewrite polygon_length_ok by auto. fold u. unfold poly_of in Hp. fold u in Hp.
    set (n := length u) in *. pose proof (Forall2_rev _ _ _ Hp) as Hp'.
    destruct (nth_error (rev poly) 1) as [a|] eqn:Ea; [|apply nth_error_None in Ea; rewrite rev_length in Ea; lia].
    destruct (nth_error (rev poly) 0) as [b|] eqn:Eb; [|apply nth_error_None in Eb; rewrite rev_length in Eb; lia].
    destruct (nth_error (rev poly) (n - 1)) as [c|] eqn:Ec; [|apply nth_error_None in Ec; rewrite rev_length in Ec; lia].
    destruct (nth_error (rev poly) 2) as [d|] eqn:Ed; [|apply nth_error_None in Ed; rewrite rev_length in Ed; lia].
    destruct (read_vertex_b (rev u) t (rev poly) _ _ Hp' Ea) as (ja & Ra' & Va').
    destruct (read_vertex_b (rev u) t (rev poly) _ _ Hp' Ed) as (jd & Rd' & Vd').
    pose proof Ea as Ea'. pose proof Eb as Eb'. pose proof Ec as Ec'. pose proof Ed as Ed'.
    rewrite nth_error_rev in Ea', Eb', Ec', Ed' by lia.
    destruct (read_vertex_b u t poly _ _ Hp Ea') as (ia & Ra & Va).
    destruct (read_vertex_b u t poly _ _ Hp Eb') as (ib & Rb & Vb).
    destruct (read_vertex_b u t poly _ _ Hp Ec') as (ic & Rc & Vc).
    rewrite <- Ef in Ra, Rb, Rc.
    replace (Z.of_nat n - 2)%Z with (Z.of_nat (length poly - 2)) by lia.
    replace (Z.of_nat n - 1)%Z with (Z.of_nat (length poly - 1)) by lia.
    rewrite Ra. cbn [bind]. rewrite Rb. cbn [bind]. rewrite Va. cbn [bind]. rewrite Vb. cbn [bind].
    replace (length poly - S (n - 1))%nat with 0%nat in Rc, Ec' by lia.
    destruct (HT a b c d Ea' Eb' Ec' Ed') as ((T1 & T2) & (T3 & T4) & (T5 & T6)).
    pose proof (map_nth_error rp _ _ Ea) as Ma. pose proof (map_nth_error rp _ _ Eb) as Mb.
    pose proof (map_nth_error rp _ _ Ec) as Mc. pose proof (map_nth_error rp _ _ Ed) as Md.
    assert (HO : orient (rp a) (rp b) (rp c) < 0).
    { assert (0 < orient (rp b) (rp a) (rp c)).
      { apply Hc.
        - apply (edge_nth (map rp (rev poly)) 0); auto.
        - eapply nth_error_In; eauto.
        - eapply nodup_nth; eauto. lia.
        - eapply nodup_nth; eauto. lia. }
      rewrite (orient_swap (rp b) (rp a)). lra. }
    assert (HO2 : 0 < orient (rp b) (rp a) (rp d)).
    { apply Hc.
      - apply (edge_nth (map rp (rev poly)) 0); auto.
      - eapply nth_error_In; eauto.
      - eapply nodup_nth; eauto.
      - eapply nodup_nth; eauto. }
    assert (En : exists m, n = S (S (S m))) by (exists (n - 3)%nat; lia). destruct En as (m & En).
    replace (ccw_loop vs n n 0%Z f a b) with (ccw_loop vs n (S (S (S m))) 0%Z f a b) by now rewrite <- En.
    cbn [ccw_loop]. change (aget f 0%Z) with (aget f (Z.of_nat 0)).
    rewrite Rc. cbn [bind]. rewrite Vc. cbn [bind]. cbv zeta. rewrite T1, T2.
    rewrite Req_bool_false by lra. rewrite Rlt_bool_true by lra.
    replace (Z.of_nat n) with (zlen u) by reflexivity. rewrite Ef at 1. rewrite flip_ok. cbn [bind].
    change (0 + 1)%Z with (Z.of_nat 1). change (Z.of_nat 1 + 1)%Z with (Z.of_nat 2).
    rewrite Ra'. cbn [bind]. rewrite Va'. cbn [bind]. rewrite T3.
    rewrite (orient_12 (rp a) (rp b)). rewrite Req_bool_true by reflexivity.
    rewrite Rd'. cbn [bind]. rewrite Vd'. cbn [bind]. rewrite T5, T6.
    rewrite Req_bool_false by lra. rewrite Rlt_bool_false by lra. reflexivity.
  Qed.
End Face.

(** every corner of the face is clear *)
Definition clear_face (poly : list pt) : Prop := forall a b c,
  In (a, b) (poly_edges poly) -> In (b, c) (poly_edges poly) -> clear_corner a b c.

Lemma last_edge (poly : list pt) b c : nth_error poly (length poly - 1) = Some b -> nth_error poly 0 = Some c -> In (b, c) (poly_edges poly).
Proof.
  intros Hb Hc. unfold poly_edges. destruct poly as [|x l]; [discriminate|]. cbn in Hc. injection Hc as ->.
  assert (E : last (c :: l) (Pt 0 0) = b).
  { replace (length (c :: l) - 1)%nat with (length l) in Hb by (cbn; lia). clear - Hb. revert c b Hb.
    induction l as [|y l IH]; intros c b Hb; cbn in Hb; [injection Hb as <-; reflexivity|]. cbn in IH. apply (IH y b Hb). }
  rewrite E. left. reflexivity.
Qed.

Lemma clear_last_turns k (poly : list (point b64)) : (-251 <= k <= 400)%Z -> Forall (bpt k) poly -> (3 <= length poly)%nat ->
  clear_face (map rp poly) -> last_turns_ok poly.
Proof.
  intros Hk HB H3 HC a b c d Ea Eb Ec Ed. rewrite Forall_forall in HB.
  pose proof (HB _ (nth_error_In _ _ Ea)). pose proof (HB _ (nth_error_In _ _ Eb)).
  pose proof (HB _ (nth_error_In _ _ Ec)). pose proof (HB _ (nth_error_In _ _ Ed)).
  pose proof (map_nth_error rp _ _ Ea) as Ma. pose proof (map_nth_error rp _ _ Eb) as Mb.
  pose proof (map_nth_error rp _ _ Ec) as Mc. pose proof (map_nth_error rp _ _ Ed) as Md.
  assert (I1 : In (rp a, rp b) (poly_edges (map rp poly))).
  { apply (edge_nth _ (length poly - 2)); auto. replace (S (length poly - 2)) with (length poly - 1)%nat by lia. auto. }
  assert (I2 : In (rp b, rp c) (poly_edges (map rp poly))) by (apply last_edge; rewrite ?map_length; auto).
  assert (I3 : In (rp d, rp a) (poly_edges (map rp poly))).
  { apply (edge_nth _ (length poly - 3)); auto. replace (S (length poly - 3)) with (length poly - 2)%nat by lia. auto. }
  split; [apply (corner_turn k); auto|]. split; [apply (turn_back k); auto|].
  apply (corner_turn k); auto. apply clear_corner_rev. auto.
Qed.

Lemma clear_ccw_face k (vs : list (point b64)) f poly : (-251 <= k <= 400)%Z -> Forall (bpt k) poly ->
  wf_face (length vs) f -> poly_of vs f poly -> convex (map rp poly) -> clear_face (map rp poly) ->
  exists f' poly', ccw_face vs f = Ok f' /\ wf_face (length vs) f' /\ same_face f f' /\ poly_of vs f' poly'
    /\ convex_ccw (map rp poly') /\ (poly' = poly \/ poly' = rev poly).
Proof.
  intros Hk HB Hw Hp Hc HC.
  assert (H3 : (3 <= length poly)%nat).
  { destruct Hc as [(H & _)|(H & _)]; [now rewrite map_length in H|]. now rewrite rev_length, map_length in H. }
  pose proof (clear_last_turns k poly Hk HB H3 HC) as HT.
  destruct Hc as [Hc|Hc].
  - exists f, poly. split; [eapply ccw_keep_float; eauto|]. split; auto. split; [split; auto|]. auto.
  - rewrite <- map_rev in Hc. pose proof (ccw_flip_float vs f poly Hw Hp Hc HT) as E.
    destruct (ccw_face_ok vs f Hw) as (f' & E' & Hw' & Hs'). rewrite E in E'.
    apply Ok_inj in E'. subst f'.
    exists (rev (until_fill f) ++ skipn (length (until_fill f)) f), (rev poly).
    split; auto. split; auto. split; auto. split; auto.
    unfold poly_of. destruct (wf_face_rev _ f Hw) as (_ & ->). now apply Forall2_rev.
Qed.
