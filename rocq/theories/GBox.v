(** Cohen-Sutherland and Liang-Barsky in exact arithmetic. *)
From Verif Require Import RBase MGeometry MAlgorithms.
Open Scope R_scope.

(** ** Narrowing a segment *)
Lemma trim_left (S : pt -> Prop) a b s r : 0 <= s < 1 -> a <> b ->
  (forall u, 0 <= u <= 1 -> S (at_ a b u) -> s <= u) ->
  clip_result S (at_ a b s) b r -> clip_result S a b r.
Proof.
  intros Hs Hab Hin Hr.
  assert (E : forall u, at_ (at_ a b s) b u = at_ a b (s + u * (1 - s))).
  { intros u. rewrite <- (at_1 a b) at 2. apply at_at. }
  assert (Q : forall u, s <= u <= 1 -> 0 <= (u - s) / (1 - s) <= 1 /\ s + (u - s) / (1 - s) * (1 - s) = u).
  { intros u Hu. assert (Eu : s + (u - s) / (1 - s) * (1 - s) = u) by (field; lra). split; auto. nra. }
  destruct r as [[c d]|]; simpl in *.
  - destruct Hr as (Hne & s1 & t1 & H1 & H2 & -> & -> & H3). split; auto.
    exists (s + s1 * (1 - s)), (s + t1 * (1 - s)). rewrite !E.
    split; [nra|]. split; [nra|]. split; auto. split; auto.
    intros u Hu. split.
    + intros Su. assert (s <= u) by auto. destruct (Q u) as (Q1 & Q2); [lra|].
      pose proof (H3 _ Q1) as H4. rewrite E, Q2 in H4. apply H4 in Su. nra.
    + intros Hst. assert (s <= u <= 1) by nra. destruct (Q u) as (Q1 & Q2); [lra|].
      pose proof (H3 _ Q1) as H4. rewrite E, Q2 in H4. apply H4. nra.
  - intros x y (u & Hu & ->) (v & Hv & ->) Sx Sy.
    assert (Hsu := Hin u Hu Sx). assert (Hsv := Hin v Hv Sy).
    apply Hr; auto.
    + exists ((u - s) / (1 - s)). destruct (Q u) as (Q1 & Q2); [lra|]. rewrite E, Q2. auto.
    + exists ((v - s) / (1 - s)). destruct (Q v) as (Q1 & Q2); [lra|]. rewrite E, Q2. auto.
Qed.

Lemma trim_right (S : pt -> Prop) a b t r : 0 < t <= 1 -> a <> b ->
  (forall u, 0 <= u <= 1 -> S (at_ a b u) -> u <= t) ->
  clip_result S a (at_ a b t) r -> clip_result S a b r.
Proof.
  intros Ht Hab Hin Hr.
  assert (E : forall u, at_ a (at_ a b t) u = at_ a b (u * t)).
  { intros u. rewrite <- (at_0 a b) at 1. rewrite at_at. f_equal. ring. }
  assert (Q : forall u, 0 <= u <= t -> 0 <= u / t <= 1 /\ u / t * t = u).
  { intros u Hu. assert (u / t * t = u) by (field; lra). split; auto. nra. }
  destruct r as [[c d]|]; simpl in *.
  - destruct Hr as (Hne & s1 & t1 & H1 & H2 & -> & -> & H3). split; auto.
    exists (s1 * t), (t1 * t). rewrite !E.
    split; [nra|]. split; [nra|]. split; auto. split; auto.
    intros u Hu. split.
    + intros Su. assert (u <= t) by auto. destruct (Q u) as (Q1 & Q2); [lra|].
      pose proof (H3 (u / t) Q1) as H4. rewrite E, Q2 in H4. apply H4 in Su. nra.
    + intros Hst. assert (0 <= u <= t) by nra. destruct (Q u) as (Q1 & Q2); [lra|].
      pose proof (H3 (u / t) Q1) as H4. rewrite E, Q2 in H4. apply H4. nra.
  - intros x y (u & Hu & ->) (v & Hv & ->) Sx Sy.
    assert (Hsu := Hin u Hu Sx). assert (Hsv := Hin v Hv Sy).
    apply Hr; auto.
    + exists (u / t). destruct (Q u) as (Q1 & Q2); [lra|]. rewrite E, Q2. auto.
    + exists (v / t). destruct (Q v) as (Q1 & Q2); [lra|]. rewrite E, Q2. auto.
Qed.

Lemma touch_b (S : pt -> Prop) a b : (forall u, 0 <= u <= 1 -> S (at_ a b u) -> u = 1) -> clip_result S a b None.
Proof. intros H x y (u & Hu & ->) (v & Hv & ->) Sx Sy. now rewrite (H u Hu Sx), (H v Hv Sy). Qed.
Lemma touch_a (S : pt -> Prop) a b : (forall u, 0 <= u <= 1 -> S (at_ a b u) -> u = 0) -> clip_result S a b None.
Proof. intros H x y (u & Hu & ->) (v & Hv & ->) Sx Sy. now rewrite (H u Hu Sx), (H v Hv Sy). Qed.
Lemma apart (S : pt -> Prop) a b : (forall u, 0 <= u <= 1 -> ~ S (at_ a b u)) -> clip_result S a b None.
Proof. intros H x y (u & Hu & ->) (v & Hv & ->) Sx Sy. destruct (H u Hu Sx). Qed.

(** ** Cohen-Sutherland *)
Section CS.
  Variable K : bx.
  Hypothesis WF : wf_box K.

  Definition ygood (p : pt) : Prop := ymin K <= py p <= ymax K.
  Definition xgood (p : pt) : Prop := xmin K <= px p <= xmax K.

  (** outcodes by position *)
  Definition xcode (p : pt) : Z := if Rlt_bool (px p) (xmin K) then 1 else if Rlt_bool (xmax K) (px p) then 2 else 0.
  Definition ycode (p : pt) : Z := if Rlt_bool (py p) (ymin K) then 4 else if Rlt_bool (ymax K) (py p) then 8 else 0.

  Lemma get_clip_code p : get_clip p K = Z.lor (xcode p) (ycode p).
  Proof. unfold get_clip, xcode, ycode. rsimp. repeat (rcase; cbn; auto). Qed.

  Lemma xcode_cases p :
    (px p < xmin K /\ xcode p = 1%Z) \/ (xmax K < px p /\ xmin K <= px p /\ xcode p = 2%Z)
    \/ (xgood p /\ xcode p = 0%Z).
  Proof.
    unfold xcode, xgood. repeat rcase;
      first [left; split; [lra|reflexivity] | right; left; repeat split; lra
            | right; right; repeat split; lra].
  Qed.
  Lemma ycode_cases p :
    (py p < ymin K /\ ycode p = 4%Z) \/ (ymax K < py p /\ ymin K <= py p /\ ycode p = 8%Z)
    \/ (ygood p /\ ycode p = 0%Z).
  Proof.
    unfold ycode, ygood. repeat rcase;
      first [left; split; [lra|reflexivity] | right; left; repeat split; lra
            | right; right; repeat split; lra].
  Qed.

  Lemma good_code p : xgood p -> ygood p -> get_clip p K = 0%Z.
  Proof.
    intros Hx Hy. rewrite get_clip_code. unfold xgood, ygood in *.
    destruct (xcode_cases p) as [(A & ->)|[(A & A' & ->)|(A & ->)]];
      destruct (ycode_cases p) as [(B & ->)|[(B & B' & ->)|(B & ->)]]; simpl; auto; lra.
  Qed.
  Lemma code_0 p : get_clip p K = 0%Z <-> in_box K p.
  Proof.
    split; [|intros (A & B); now apply good_code].
    rewrite get_clip_code.
    destruct (xcode_cases p) as [(A & ->)|[(A & A' & ->)|(A & ->)]];
      destruct (ycode_cases p) as [(B & ->)|[(B & B' & ->)|(B & ->)]]; simpl; try discriminate.
    intros _. split; auto.
  Qed.

  (** the moved point, if a point q is out in y *)
  Lemma move_y (a b q : pt) : ~ ygood q -> py a <> py b ->
    exists r, cs_move a (px b - px a) (py b - py a) K (get_clip q K) = Ok (at_ a b r)
      /\ ((ymax K < py q /\ py (at_ a b r) = ymax K) \/ (py q < ymin K /\ py (at_ a b r) = ymin K)).
  Proof.
    intros Hq Hab. rewrite get_clip_code. unfold cs_move, UPPER, LOWER, LEFT, RIGHT.
    destruct (ycode_cases q) as [(B & ->)|[(B & B' & ->)|(B & _)]]; [| |contradiction].
    - assert (E : negb (Z.land (Z.lor (xcode q) 4) 8 =? 0)%Z = false
                  /\ negb (Z.land (Z.lor (xcode q) 4) 4 =? 0)%Z = true).
      { destruct (xcode_cases q) as [(_ & ->)|[(_ & _ & ->)|(_ & ->)]]; auto. }
      destruct E as (-> & ->). rewrite ndiv_R by lra. cbn [bind]. rsimp.
      exists ((ymin K - py a) / (py b - py a)). split.
      + f_equal. apply pt_eq; simpl; field; lra.
      + right. split; auto. simpl. field. lra.
    - assert (E : negb (Z.land (Z.lor (xcode q) 8) 8 =? 0)%Z = true).
      { destruct (xcode_cases q) as [(_ & ->)|[(_ & _ & ->)|(_ & ->)]]; auto. }
      rewrite E. rewrite ndiv_R by lra. cbn [bind]. rsimp.
      exists ((ymax K - py a) / (py b - py a)). split.
      + f_equal. apply pt_eq; simpl; field; lra.
      + left. split; auto. simpl. field. lra.
  Qed.

  Lemma move_x (a b q : pt) : ygood q -> ~ xgood q -> px a <> px b ->
    exists r, cs_move a (px b - px a) (py b - py a) K (get_clip q K) = Ok (at_ a b r)
      /\ ((xmax K < px q /\ px (at_ a b r) = xmax K) \/ (px q < xmin K /\ px (at_ a b r) = xmin K)).
  Proof.
    intros Hy Hq Hab. rewrite get_clip_code. unfold cs_move, UPPER, LOWER, LEFT, RIGHT.
    destruct (ycode_cases q) as [(B & _)|[(B & B' & _)|(_ & ->)]]; unfold ygood in *; try lra.
    destruct (xcode_cases q) as [(A & ->)|[(A & A' & ->)|(A & _)]]; [| |contradiction]; cbn.
    - rewrite ndiv_R by lra. cbn [bind]. rsimp.
      exists ((xmin K - px a) / (px b - px a)). split.
      + f_equal. apply pt_eq; simpl; field; lra.
      + right. split; auto. simpl. field. lra.
    - rewrite ndiv_R by lra. cbn [bind]. rsimp.
      exists ((xmax K - px a) / (px b - px a)). split.
      + f_equal. apply pt_eq; simpl; field; lra.
      + left. split; auto. simpl. field. lra.
  Qed.

  (** sharing a code bit means being apart *)
  Lemma shared_apart a b : Z.land (get_clip a K) (get_clip b K) <> 0%Z ->
    clip_result (in_box K) a b None.
  Proof.
    rewrite !get_clip_code. intros H. apply apart. intros u Hu ((X1 & X2) & (Y1 & Y2)). simpl in *.
    destruct (xcode_cases a) as [(A & Ea)|[(A & A' & Ea)|(A & Ea)]]; rewrite Ea in H; clear Ea;
      destruct (xcode_cases b) as [(B & Eb)|[(B & B' & Eb)|(B & Eb)]]; rewrite Eb in H; clear Eb;
      try (pose proof (comb_lt _ _ _ u Hu A B); lra);
      try (pose proof (comb_gt _ _ _ u Hu A B); lra);
    destruct (ycode_cases a) as [(C & Ea)|[(C & C' & Ea)|(C & Ea)]]; rewrite Ea in H; clear Ea;
      destruct (ycode_cases b) as [(D & Eb)|[(D & D' & Eb)|(D & Eb)]]; rewrite Eb in H; clear Eb;
      try (pose proof (comb_lt _ _ _ u Hu C D); lra);
      try (pose proof (comb_gt _ _ _ u Hu C D); lra);
      destruct H; reflexivity.
  Qed.

  Lemma not_shared_y a b : Z.land (get_clip a K) (get_clip b K) = 0%Z ->
    ~ (ymax K < py a /\ ymax K < py b) /\ ~ (py a < ymin K /\ py b < ymin K)
    /\ ~ (xmax K < px a /\ xmax K < px b) /\ ~ (px a < xmin K /\ px b < xmin K).
  Proof.
    destruct WF as (W1 & W2).
    rewrite !get_clip_code. intros H. repeat split; intros (P & Q); revert H;
    destruct (xcode_cases a) as [(A & ->)|[(A & A' & ->)|(A & ->)]];
    destruct (xcode_cases b) as [(B & ->)|[(B & B' & ->)|(B & ->)]];
    destruct (ycode_cases a) as [(C & ->)|[(C & C' & ->)|(C & ->)]];
    destruct (ycode_cases b) as [(D & ->)|[(D & D' & ->)|(D & ->)]];
    unfold xgood, ygood in *; try lra; discriminate.
  Qed.

  Definition good (fuel : nat) (a b : pt) : Prop :=
    exists r, cs_loop K fuel a b (get_clip a K) (get_clip b K) = Ok r /\ clip_result (in_box K) a b r.

  Lemma loop_inside fuel a b : a <> b -> in_box K a -> in_box K b -> good fuel a b.
  Proof.
    intros Hab (Ha1 & Ha2) (Hb1 & Hb2). exists (Some (a, b)). split.
    - destruct fuel; simpl; rewrite (good_code a), (good_code b); auto.
    - simpl. split; auto. exists 0, 1. rewrite at_0, at_1. repeat split; try lra.
      + simpl. nra.
      + simpl. nra.
      + simpl. nra.
      + simpl. nra.
  Qed.

  Lemma loop_shared fuel a b : Z.land (get_clip a K) (get_clip b K) <> 0%Z -> good (S fuel) a b.
  Proof.
    intros H. exists None. split; [|now apply shared_apart].
    cbn [cs_loop].
    destruct (Z.lor _ _ =? 0)%Z eqn:E.
    - apply Z.eqb_eq in E. apply Z.lor_eq_0_iff in E as (E & _). rewrite E in H. destruct H. reflexivity.
    - now apply Z.eqb_neq in H as ->.
  Qed.

  (** one round moving a *)
  Lemma loop_move_a fuel a b r : a <> b -> get_clip a K <> 0%Z ->
    Z.land (get_clip a K) (get_clip b K) = 0%Z ->
    cs_move a (px b - px a) (py b - py a) K (get_clip a K) = Ok (at_ a b r) ->
    0 < r <= 1 -> (forall u, 0 <= u <= 1 -> in_box K (at_ a b u) -> r <= u) ->
    (r < 1 -> good fuel (at_ a b r) b) -> good (S fuel) a b.
  Proof.
    intros Hab Hk Hs Em Hr Hin IH. unfold good. cbn [cs_loop].
    destruct (Z.lor (get_clip a K) (get_clip b K) =? 0)%Z eqn:E0.
    { apply Z.eqb_eq in E0. apply Z.lor_eq_0_iff in E0 as (E0 & _). contradiction. }
    rewrite Hs. cbn [negb Z.eqb]. apply Z.eqb_neq in Hk as Hk'. rewrite Hk'. cbn [negb]. rsimp.
    rewrite Em. cbn [bind]. rewrite Z.eqb_refl.
    set (a' := at_ a b r) in *.
    destruct (Req_bool (px b - px a') 0 && Req_bool (py b - py a') 0) eqn:Eq.
    - rb. exists None. split; auto. apply touch_b. intros u Hu Su.
      assert (a' = b) by (apply diff_zero; auto).
      assert (r = 1) by (apply (at_inj a b); auto; rewrite at_1; auto).
      apply Hin in Su; auto; lra.
    - assert (r <> 1).
      { intros ->. unfold a' in Eq. rewrite at_1, !Rminus_diag_eq, !Req_bool_true in Eq; auto. discriminate. }
      destruct IH as (res & E & Hres); [lra|]. exists res. split; auto.
      apply (trim_left _ _ _ r); auto. lra.
  Qed.

  (** one round moving b *)
  Lemma loop_move_b fuel a b r : a <> b -> get_clip a K = 0%Z -> get_clip b K <> 0%Z ->
    cs_move a (px b - px a) (py b - py a) K (get_clip b K) = Ok (at_ a b r) ->
    0 <= r < 1 -> (forall u, 0 <= u <= 1 -> in_box K (at_ a b u) -> u <= r) ->
    (0 < r -> good fuel a (at_ a b r)) -> good (S fuel) a b.
  Proof.
    intros Hab Ha Hk Em Hr Hin IH. unfold good. cbn [cs_loop].
    destruct (Z.lor (get_clip a K) (get_clip b K) =? 0)%Z eqn:E0.
    { apply Z.eqb_eq in E0. apply Z.lor_eq_0_iff in E0 as (_ & E0). contradiction. }
    rewrite Ha. cbn [negb Z.eqb Z.land]. rsimp.
    rewrite Em. cbn [bind]. apply Z.eqb_neq in Hk as ->.
    set (b' := at_ a b r) in *.
    destruct (Req_bool (px b' - px a) 0 && Req_bool (py b' - py a) 0) eqn:Eq.
    - rb. exists None. split; auto. apply touch_a. intros u Hu Su.
      assert (a = b') by (apply diff_zero; auto).
      assert (0 = r) by (apply (at_inj a b); auto; rewrite at_0; auto).
      apply Hin in Su; auto; lra.
    - assert (r <> 0).
      { intros ->. unfold b' in Eq. rewrite at_0, !Rminus_diag_eq, !Req_bool_true in Eq; auto. discriminate. }
      destruct IH as (res & E & Hres); [lra|]. rewrite Ha in E. exists res. split; auto.
      apply (trim_right _ _ _ r); auto. lra.
  Qed.

  Lemma good_dec_x p : {xgood p} + {~ xgood p}.
  Proof.
    unfold xgood. destruct (Rle_dec (xmin K) (px p)); [destruct (Rle_dec (px p) (xmax K))|];
    [left|right|right]; lra.
  Qed.
  Lemma good_dec_y p : {ygood p} + {~ ygood p}.
  Proof.
    unfold ygood. destruct (Rle_dec (ymin K) (py p)); [destruct (Rle_dec (py p) (ymax K))|];
    [left|right|right]; lra.
  Qed.
  Lemma bad_code_y p : ~ ygood p -> get_clip p K <> 0%Z.
  Proof. intros H E. apply code_0 in E. destruct E. contradiction. Qed.
  Lemma bad_code_x p : ~ xgood p -> get_clip p K <> 0%Z.
  Proof. intros H E. apply code_0 in E. destruct E. contradiction. Qed.

  (** stage 1: a inside, b out in x only *)
  Lemma stage1 fuel a b : a <> b -> in_box K a -> ygood b -> good (S fuel) a b.
  Proof.
    intros Hab Ha Hb. destruct (good_dec_x b) as [Hx|Hx].
    { apply loop_inside; auto. split; auto. }
    destruct Ha as (Ha1 & Ha2). unfold ygood in Hb.
    assert (px a <> px b). { intros E. apply Hx. unfold xgood. lra. }
    destruct (move_x a b b) as (r & Em & Hr); auto.
    assert (0 <= r < 1) by (simpl in Hr; nra).
    apply (loop_move_b fuel a b r); auto.
    - apply good_code; auto.
    - now apply bad_code_x.
    - intros u Hu ((X1 & X2) & _). simpl in *. nra.
    - intros Hr0. apply loop_inside.
      + intros E. assert (0 = r) by (apply (at_inj a b); auto; rewrite at_0; auto). lra.
      + split; auto.
      + split; simpl in *; [destruct Hr; nra|nra].
  Qed.

  (** stage 2: a inside *)
  Lemma stage2 fuel a b : a <> b -> in_box K a -> good (S (S fuel)) a b.
  Proof.
    intros Hab Ha. destruct (good_dec_y b) as [Hb|Hb]; [now apply stage1|].
    destruct Ha as (Ha1 & Ha2).
    assert (py a <> py b). { intros E. apply Hb. unfold ygood. lra. }
    destruct (move_y a b b) as (r & Em & Hr); auto.
    assert (0 <= r < 1) by (simpl in Hr; nra).
    apply (loop_move_b (S fuel) a b r); auto.
    - apply good_code; auto.
    - now apply bad_code_y.
    - intros u Hu (_ & (Y1 & Y2)). simpl in *. nra.
    - intros Hr0. apply stage1.
      + intros E. assert (0 = r) by (apply (at_inj a b); auto; rewrite at_0; auto). lra.
      + split; auto.
      + unfold ygood. destruct WF. destruct Hr as [(_ & ->)|(_ & ->)]; lra.
  Qed.

  (** stage 3: a out in x only *)
  Lemma stage3 fuel a b : a <> b -> ygood a -> good (S (S (S fuel))) a b.
  Proof.
    intros Hab Ha. destruct (good_dec_x a) as [Hx|Hx]; [apply stage2; auto; split; auto|].
    destruct (Z.eq_dec (Z.land (get_clip a K) (get_clip b K)) 0) as [Hs|Hs]; [|now apply loop_shared].
    destruct (not_shared_y _ _ Hs) as (_ & _ & N1 & N2).
    assert (px a <> px b). { intros E. unfold xgood in Hx. destruct WF. lra. }
    destruct (move_x a b a) as (r & Em & Hr); auto.
    assert (0 < r <= 1) by (simpl in Hr; destruct Hr as [(P & Q)|(P & Q)]; nra).
    apply (loop_move_a (S (S fuel)) a b r); auto.
    - now apply bad_code_x.
    - intros u Hu ((X1 & X2) & _). simpl in *. destruct Hr as [(P & Q)|(P & Q)]; nra.
    - intros Hr1.
      assert (Hne : at_ a b r <> b).
      { intros E. assert (r = 1) by (apply (at_inj a b); auto; rewrite at_1; auto). lra. }
      assert (Hxg : xgood (at_ a b r)).
      { unfold xgood. destruct WF. destruct Hr as [(_ & ->)|(_ & ->)]; lra. }
      destruct (good_dec_y (at_ a b r)) as [Hy|Hy]; [apply stage2; auto; split; auto|].
      apply loop_shared. intros E. apply not_shared_y in E as (M1 & M2 & _).
      unfold ygood in *. simpl in *.
      destruct (Rle_dec (ymin K) (py a + r * (py b - py a))); [|apply M2; split; nra].
      destruct (Rle_dec (py a + r * (py b - py a)) (ymax K)); [lra|]. apply M1; split; nra.
  Qed.

  (** stage 4: any segment *)
  Lemma stage4 fuel a b : a <> b -> good (S (S (S (S fuel)))) a b.
  Proof.
    intros Hab. destruct (good_dec_y a) as [Ha|Ha]; [now apply stage3|].
    destruct (Z.eq_dec (Z.land (get_clip a K) (get_clip b K)) 0) as [Hs|Hs]; [|now apply loop_shared].
    destruct (not_shared_y _ _ Hs) as (N1 & N2 & _).
    assert (py a <> py b). { intros E. unfold ygood in Ha. destruct WF. lra. }
    destruct (move_y a b a) as (r & Em & Hr); auto.
    assert (0 < r <= 1) by (simpl in Hr; destruct Hr as [(P & Q)|(P & Q)]; nra).
    apply (loop_move_a (S (S (S fuel))) a b r); auto.
    - now apply bad_code_y.
    - intros u Hu (_ & (Y1 & Y2)). simpl in *. destruct Hr as [(P & Q)|(P & Q)]; nra.
    - intros Hr1. apply stage3.
      + intros E. assert (r = 1) by (apply (at_inj a b); auto; rewrite at_1; auto). lra.
      + unfold ygood. destruct WF. destruct Hr as [(_ & ->)|(_ & ->)]; lra.
  Qed.

  Theorem cohen_sutherland_exact fuel a b : (4 <= fuel)%nat ->
    exists r, cohen_sutherland_line_box_clip fuel a b K = Ok r /\ clip_result (in_box K) a b r.
  Proof.
    intros Hf. unfold cohen_sutherland_line_box_clip. rsimp.
    destruct (Req_bool (px b - px a) 0 && Req_bool (py b - py a) 0) eqn:E.
    - rb. assert (a = b) by (apply diff_zero; auto). subst. exists None. split; auto.
      intros x y (u & _ & ->) (v & _ & ->) _ _. now rewrite !at_same.
    - assert (a <> b).
      { intros ->. rewrite !Rminus_diag_eq, !Req_bool_true in E; auto. discriminate. }
      destruct fuel as [|[|[|[|f]]]]; try lia. apply stage4. auto.
  Qed.
End CS.

(** ** Liang-Barsky *)
Definition meets (l : list (R * R)) (t : R) : Prop := Forall (fun pq => fst pq * t <= snd pq) l.

Lemma lb_loop_ok l : forall t0 t1, t0 <= t1 ->
  exists r, lb_loop l t0 t1 = Ok r /\
    match r with
    | None => forall t, t0 <= t <= t1 -> ~ meets l t
    | Some (u0, u1) => u0 <= u1 /\ forall t, (t0 <= t <= t1 /\ meets l t) <-> u0 <= t <= u1
    end.
Proof.
  induction l as [|(p, q) l IH]; intros t0 t1 Ht; cbn [lb_loop].
  - eexists. split; [reflexivity|]. simpl. split; auto. intros t. split; [tauto|].
    intros H. split; auto. constructor.
  - rsimp.
    assert (cons : forall t, meets ((p, q) :: l) t <-> p * t <= q /\ meets l t).
    { intros t. unfold meets. split; [intros H; inversion H; auto|intros (A & B); constructor; auto]. }
    destruct (Req_bool_spec p 0) as [->|Hp].
    + destruct (Rlt_bool_spec q 0).
      * eexists. split; [reflexivity|]. intros t _ H1. apply cons in H1 as (H1 & _). lra.
      * destruct (IH _ _ Ht) as (r & E & Hr). rewrite E. eexists. split; [reflexivity|].
        destruct r as [[u0 u1]|].
        -- destruct Hr as (A & B). split; auto. intros t. rewrite <- B, cons. split; intros; intuition lra.
        -- intros t Hin H1. apply cons in H1 as (_ & H1). eapply Hr; eauto.
    + rewrite ndiv_R by auto. cbn [bind]. rsimp.
      assert (Ep : forall t, p * t <= q <-> (p > 0 /\ t <= q / p) \/ (p < 0 /\ q / p <= t)).
      { intros t. assert (E : q = p * (q / p)) by (field; auto). set (w := q / p) in *. clearbody w. subst q.
        destruct (Rlt_le_dec p 0); split; intros.
        - right. split; auto. nra.
        - nra.
        - left. split; [lra|]. nra.
        - nra. }
      set (w := q / p) in *. clearbody w.
      assert (Hstep : forall v0 v1, v0 <= v1 ->
        (forall t, (t0 <= t <= t1 /\ p * t <= q) <-> v0 <= t <= v1) ->
        exists r, lb_loop l v0 v1 = Ok r /\
          match r with
          | None => forall t, t0 <= t <= t1 -> ~ meets ((p, q) :: l) t
          | Some (u0, u1) => u0 <= u1 /\ forall t, (t0 <= t <= t1 /\ meets ((p, q) :: l) t) <-> u0 <= t <= u1
          end).
      { intros v0 v1 Hv Hiff. destruct (IH _ _ Hv) as (r & E & Hr). exists r. split; auto.
        destruct r as [[u0 u1]|].
        - destruct Hr as (A & B). split; auto. intros t. rewrite <- B, <- Hiff, cons. tauto.
        - intros t Hin H1. apply cons in H1 as (H1 & H2). apply (Hr t); auto. apply Hiff. auto. }
      destruct (Rlt_bool_spec p 0).
      * destruct (Rlt_bool_spec t1 w).
        -- eexists. split; [reflexivity|]. intros t Hin H1. apply cons in H1 as (H1 & _). apply Ep in H1. lra.
        -- destruct (Rlt_bool_spec t0 w); apply Hstep; auto; intros t; rewrite Ep; lra.
      * destruct (Rlt_bool_spec 0 p); [|lra].
        destruct (Rlt_bool_spec w t0).
        -- eexists. split; [reflexivity|]. intros t Hin H2. apply cons in H2 as (H2 & _). apply Ep in H2. lra.
        -- destruct (Rlt_bool_spec w t1); apply Hstep; auto; intros t; rewrite Ep; lra.
Qed.

Theorem liang_barsky_exact (a b : pt) (K : bx) : wf_box K ->
  exists r, liang_barsky_line_box_clip a b K = Ok r /\ clip_result (in_box K) a b r.
Proof.
  intros WF. unfold liang_barsky_line_box_clip. rsimp.
  destruct (Req_bool (px b - px a) 0 && Req_bool (py b - py a) 0) eqn:E.
  { rb. assert (a = b) by (apply diff_zero; auto). subst. exists None. split; auto.
    intros x y (u & _ & ->) (v & _ & ->) _ _. now rewrite !at_same. }
  assert (Hab : a <> b).
  { intros ->. rewrite !Rminus_diag_eq, !Req_bool_true in E; auto. discriminate. }
  destruct (point_inside_box a K && point_inside_box b K) eqn:Ein.
  - exists (Some (a, b)). split; auto. unfold point_inside_box in Ein. rsimp. rb.
    split; auto. exists 0, 1. rewrite at_0, at_1. do 4 (split; [lra || auto|]).
    intros u Hu. split; [lra|]. intros _. unfold in_box. simpl.
    repeat split; (apply comb_le || apply comb_ge); lra.
  - set (l := [_; _; _; _]). destruct (lb_loop_ok l 0 1 ltac:(lra)) as (r & Er & Hr).
    rewrite Er. cbn [bind].
    assert (Hm : forall t, meets l t <-> in_box K (at_ a b t)).
    { intros t. unfold meets, l, in_box. rewrite !Forall_cons_iff. simpl. split; intros H; decompose [and] H; repeat split; auto; lra. }
    destruct r as [[u0 u1]|].
    + destruct Hr as (Hu & Hr). rsimp.
      assert (H01 : 0 <= u0 /\ u1 <= 1).
      { split; [apply (Hr u0)|apply (Hr u1)]; lra. }
      destruct (Req_bool_spec u0 u1) as [Eu|Eu].
      * exists None. split; auto. intros x y (u & Hu1 & ->) (v & Hv1 & ->) Sx Sy. f_equal.
        apply Hm in Sx, Sy. assert (u0 <= u <= u1) by (apply Hr; auto).
        assert (u0 <= v <= u1) by (apply Hr; auto). lra.
      * eexists. split; [reflexivity|]. split; auto. exists u0, u1.
        do 4 (split; [lra || reflexivity|]). intros u Hu1. rewrite <- Hm. specialize (Hr u). tauto.
    + exists None. split; auto. intros x y (u & Hu1 & ->) (v & Hv1 & ->) Sx Sy.
      apply Hm in Sx. destruct (Hr u); auto.
Qed.

(** Clipping has one possible result *)
Lemma clip_result_fun S a b r r' : clip_result S a b r -> clip_result S a b r' -> r = r'.
Proof.
  destruct r as [[c d]|], r' as [[c' d']|]; simpl; auto.
  - intros (Hab & s & t & H1 & H2 & -> & -> & H3) (_ & s' & t' & H1' & H2' & -> & -> & H3').
    assert (A : s' <= s <= t') by (apply H3'; [lra|apply H3; lra]).
    assert (B : s' <= t <= t') by (apply H3'; [lra|apply H3; lra]).
    assert (A' : s <= s' <= t) by (apply H3; [lra|apply H3'; lra]).
    assert (B' : s <= t' <= t) by (apply H3; [lra|apply H3'; lra]).
    replace s' with s by lra. replace t' with t by lra. reflexivity.
  - intros (Hab & s & t & H1 & H2 & -> & -> & H3) Hn. exfalso.
    assert (E : at_ a b s = at_ a b t).
    { apply Hn; [exists s; split; auto; lra|exists t; split; auto; lra|apply H3; lra|apply H3; lra]. }
    apply at_inj in E; auto. lra.
  - intros Hn (Hab & s & t & H1 & H2 & -> & -> & H3). exfalso.
    assert (E : at_ a b s = at_ a b t).
    { apply Hn; [exists s; split; auto; lra|exists t; split; auto; lra|apply H3; lra|apply H3; lra]. }
    apply at_inj in E; auto. lra.
Qed.
