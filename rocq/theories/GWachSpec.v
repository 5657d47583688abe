(** The exact weights computed by the loop are the Wachspress weights, whichever
    way round the polygon runs. *)
From Verif Require Import RBase MUtils MGeometry MAlgorithms SpecPoly PPartition GConvex GHull GTriangle GWach SpecWach.
Open Scope R_scope.

Section Spec.
  Variable p : pt.
  Notation A u v := (orient u v p).

  Lemma wt_identity_s s a b c : s = 1 \/ s = -1 -> 0 < s * A a b -> 0 < s * A b c -> 0 < s * orient a b c ->
    wt p a b c * (px b - px p) = 2 * s * (gx p a b - gx p b c) /\ wt p a b c * (py b - py p) = 2 * s * (gy p a b - gy p b c).
  Proof.
    intros Hs H1 H2 H3.
    assert (E : forall x, 0 < s * x -> Rabs x = s * x).
    { intros x Hx. destruct Hs as [-> | ->]; [rewrite Rabs_pos_eq; lra|rewrite Rabs_left; lra]. }
    assert (N1 : A a b <> 0) by (intros X; rewrite X in H1; lra). assert (N2 : A b c <> 0) by (intros X; rewrite X in H2; lra).
    unfold wt, gx, gy. rewrite !E by auto.
    assert (Es : s * s = 1) by (destruct Hs as [-> | ->]; lra). assert (Ns : s <> 0) by (intros X; rewrite X in Es; lra).
    replace (2 * (s * orient a b c) / (s * A a b * (s * A b c))) with (2 * s * (orient a b c / (A a b * A b c))) by
      (transitivity (2 * s * orient a b c / (s * s) / (A a b * A b c)); [rewrite Es; field; auto|field; auto]).
    split.
    - replace (2 * s * (orient a b c / (A a b * A b c)) * (px b - px p)) with (2 * s * (orient a b c * (px b - px p) / (A a b * A b c))) by (field; auto).
      f_equal. apply (Rmult_eq_reg_r (A a b * A b c)); [|now apply Rmult_integral_contrapositive_currified].
      field_simplify; auto. unfold orient. ring.
    - replace (2 * s * (orient a b c / (A a b * A b c)) * (py b - py p)) with (2 * s * (orient a b c * (py b - py p) / (A a b * A b c))) by (field; auto).
      f_equal. apply (Rmult_eq_reg_r (A a b * A b c)); [|now apply Rmult_integral_contrapositive_currified].
      field_simplify; auto. unfold orient. ring.
  Qed.

  Lemma wts_telescope_s s (Hs : s = 1 \/ s = -1) cs : forall a b,
    (forall u v, In (u, v) ((a, b) :: chain b cs) -> 0 < s * A u v) ->
    (forall k x y z, nth_error (a :: b :: cs) k = Some x -> nth_error (a :: b :: cs) (S k) = Some y ->
        nth_error (a :: b :: cs) (S (S k)) = Some z -> 0 < s * orient x y z) ->
    cs <> [] ->
    wsum (fun v => px v - px p) (wts p a b cs) (b :: removelast cs) = 2 * s * (gx p a b - gx p (last (removelast cs) b) (last cs b))
    /\ wsum (fun v => py v - py p) (wts p a b cs) (b :: removelast cs) = 2 * s * (gy p a b - gy p (last (removelast cs) b) (last cs b)).
  Proof.
    induction cs as [|c cs IH]; intros a b HA HC Hne; [congruence|].
    assert (H1 : 0 < s * A a b) by (apply HA; now left). assert (H2 : 0 < s * A b c) by (apply HA; right; now left).
    assert (H3 : 0 < s * orient a b c) by (apply (HC O); reflexivity).
    destruct (wt_identity_s s a b c Hs H1 H2 H3) as (Ex & Ey).
    destruct cs as [|d cs].
    - cbn [wts removelast last]. rewrite !wsum_cons, Ex, Ey. cbn. split; ring.
    - destruct (IH b c) as (IX & IY); [| |discriminate|].
      { intros u v Huv. apply HA. destruct Huv as [E|E]; [inversion E; subst; right; now left|right; now right]. }
      { intros k x y z Hx Hy Hz. apply (HC (S k)); [exact Hx|exact Hy|exact Hz]. }
      change (removelast (c :: d :: cs)) with (c :: removelast (d :: cs)).
      change (wts p a b (c :: d :: cs)) with (wt p a b c :: wts p b c (d :: cs)).
      rewrite !wsum_cons, IX, IY, Ex, Ey.
      rewrite (last_cons (removelast (d :: cs)) c b), (last_cons (d :: cs) c b). split; ring.
  Qed.

  (** every side and every corner has the same sign *)
  Definition signs (s : R) (poly : list pt) : Prop :=
    (s = 1 \/ s = -1) /\ (forall u v, In (u, v) (poly_edges poly) -> 0 < s * A u v)
    /\ (forall a b c, In (a, b) (poly_edges poly) -> In (b, c) (poly_edges poly) -> 0 < s * orient a b c).

  Lemma rot_triple v0 l k x y z :
    nth_error (last l v0 :: v0 :: l ++ [v0]) k = Some x -> nth_error (last l v0 :: v0 :: l ++ [v0]) (S k) = Some y ->
    nth_error (last l v0 :: v0 :: l ++ [v0]) (S (S k)) = Some z ->
    In (x, y) (poly_edges (v0 :: l)) /\ In (y, z) (poly_edges (v0 :: l)).
  Proof.
    intros Hx Hy Hz. split; apply rot_edges; change ((last l v0, v0) :: chain v0 (l ++ [v0])) with (chain (last l v0) (v0 :: l ++ [v0]));
      eapply nth_error_In; apply chain_nth2; eauto.
  Qed.

  Lemma wts_comb s v0 l : signs s (v0 :: l) ->
    let W := wts p (last l v0) v0 (l ++ [v0]) in
    sumR W <> 0 -> comb (map (fun w => w / sumR W) W) (v0 :: l) = p.
  Proof.
    intros (Hs & HA & HC) W HS.
    assert (HlW : length W = length (v0 :: l)) by (unfold W; rewrite wts_length, app_length; cbn; lia).
    assert (Hcs : l ++ [v0] <> []) by (intros H; apply app_eq_nil in H; destruct H; discriminate).
    destruct (wts_telescope_s s Hs (l ++ [v0]) (last l v0) v0) as (TX & TY); auto.
    { intros u v H. apply HA. now apply rot_edges. }
    { intros k x y z Hx Hy Hz. destruct (rot_triple v0 l k x y z Hx Hy Hz). now apply HC. }
    rewrite removelast_last, last_last in TX, TY. fold W in TX, TY.
    assert (EX : wsum (fun v => px v - px p) W (v0 :: l) = 0) by (rewrite TX; ring).
    assert (EY : wsum (fun v => py v - py p) W (v0 :: l) = 0) by (rewrite TY; ring).
    rewrite wsum_shift in EX, EY by exact HlW.
    destruct p as [x y]. unfold comb. fold (wsum px (map (fun w => w / sumR W) W) (v0 :: l)) (wsum py (map (fun w => w / sumR W) W) (v0 :: l)).
    rewrite !wsum_scale. cbn [px py] in EX, EY.
    f_equal; [replace (wsum px W (v0 :: l)) with (x * sumR W) by lra|replace (wsum py W (v0 :: l)) with (y * sumR W) by lra]; field; auto.
  Qed.

  Lemma wts_nth cs : forall a b i w, nth_error (wts p a b cs) i = Some w ->
    exists x y z, nth_error (a :: b :: cs) i = Some x /\ nth_error (a :: b :: cs) (S i) = Some y
      /\ nth_error (a :: b :: cs) (S (S i)) = Some z /\ w = wt p x y z.
  Proof.
    induction cs as [|c cs IH]; intros a b [|i] w H; cbn [wts nth_error] in H; try discriminate.
    - inversion H. exists a, b, c. repeat split; auto.
    - destruct (IH b c i w H) as (x & y & z & H1 & H2 & H3 & E). exists x, y, z. repeat split; auto.
  Qed.

  (** in a polygon without repeated corners the neighbours of a corner are determined *)
  Lemma chain_fst_unique l : forall v0 u v v', NoDup (removelast (v0 :: l)) -> In (u, v) (chain v0 l) -> In (u, v') (chain v0 l) -> v = v'.
  Proof.
    induction l as [|x l IH]; intros v0 u v v' HN H H'; [destruct H|].
    assert (Hin : forall a b, In (a, b) (chain x l) -> In a (removelast (x :: l))).
    { clear. revert x. induction l as [|y l IH]; intros x a b H; [destruct H|].
      cbn [chain] in H. change (removelast (x :: y :: l)) with (x :: removelast (y :: l)). destruct H as [H|H]; [inversion H; now left|right; eauto]. }
    change (removelast (v0 :: x :: l)) with (v0 :: removelast (x :: l)) in HN. inversion HN as [|? ? N1 N2]; subst.
    destruct H as [H|H], H' as [H'|H'].
    - congruence.
    - inversion H; subst. destruct (N1 (Hin _ _ H')).
    - inversion H'; subst. destruct (N1 (Hin _ _ H)).
    - eapply IH; eauto.
  Qed.
  Lemma chain_snd_unique l : forall v0 u u' v, NoDup l -> In (u, v) (chain v0 l) -> In (u', v) (chain v0 l) -> u = u'.
  Proof.
    induction l as [|x l IH]; intros v0 u u' v HN H H'; [destruct H|]. inversion HN as [|? ? N1 N2]; subst.
    assert (Hin : forall a b, In (a, b) (chain x l) -> In b l).
    { clear. revert x. induction l as [|y l IH]; intros x a b H; [destruct H|]. destruct H as [H|H]; [inversion H; now left|right; eauto]. }
    destruct H as [H|H], H' as [H'|H'].
    - congruence.
    - inversion H; subst. destruct (N1 (Hin _ _ H')).
    - inversion H'; subst. destruct (N1 (Hin _ _ H)).
    - eapply IH; eauto.
  Qed.
  Lemma edges_snd_unique poly u u' v : NoDup poly -> In (u, v) (poly_edges poly) -> In (u', v) (poly_edges poly) -> u = u'.
  Proof.
    destruct poly as [|v0 l]; [intros _ []|]. intros HN H H'. rewrite edges_cons in H, H'.
    change ((last l v0, v0) :: chain v0 l) with (chain (last l v0) (v0 :: l)) in H, H'. eapply chain_snd_unique; eauto.
  Qed.
  Lemma edges_fst_unique poly u v v' : NoDup poly -> In (u, v) (poly_edges poly) -> In (u, v') (poly_edges poly) -> v = v'.
  Proof.
    destruct poly as [|v0 l]; [intros _ []|]. intros HN H H'. apply rot_edges in H, H'.
    assert (HL : forall w, In (u, w) ((last l v0, v0) :: chain v0 (l ++ [v0])) -> In (u, w) (chain v0 (l ++ [v0]))).
    { intros w [E|E]; auto. inversion E; subst. rewrite chain_app. apply in_or_app. right. now left. }
    eapply chain_fst_unique; [|apply HL; exact H|apply HL; exact H'].
    change (v0 :: l ++ [v0]) with ((v0 :: l) ++ [v0]). now rewrite removelast_last.
  Qed.

  Lemma wts_wachspress v0 l (W := wts p (last l v0) v0 (l ++ [v0])) : NoDup (v0 :: l) ->
    (forall u v, In (u, v) (poly_edges (v0 :: l)) -> A u v <> 0) -> 0 < sumR W ->
    wachspress (v0 :: l) p (map (fun w => w / sumR W) W).
  Proof.
    intros HN HA HS.
    assert (HlW : length W = length (v0 :: l)) by (unfold W; rewrite wts_length, app_length; cbn; lia).
    split; [now rewrite map_length|]. split; [rewrite sumR_scale; field; lra|].
    exists (2 / sumR W). split; [apply Rdiv_lt_0_compat; lra|].
    intros i a b c w H1 H2 Hb Hw. rewrite nth_error_map in Hw.
    destruct (nth_error W i) as [w0|] eqn:E; cbn in Hw; [|discriminate]. inversion Hw; subst w.
    destruct (wts_nth _ _ _ _ _ E) as (x & y & z & Hx & Hy & Hz & ->).
    destruct (rot_triple v0 l i x y z Hx Hy Hz) as (E1 & E2).
    assert (Ey : y = b).
    { change (nth_error ((v0 :: l) ++ [v0]) i = Some y) in Hy. rewrite nth_error_app1 in Hy; [congruence|]. apply nth_error_Some. congruence. }
    subst y. assert (x = a) by (eapply edges_snd_unique; eauto). assert (z = c) by (eapply edges_fst_unique; eauto). subst x z.
    unfold wt. pose proof (Rabs_no_R0 _ (HA _ _ H1)). pose proof (Rabs_no_R0 _ (HA _ _ H2)). field. split; auto. lra.
  Qed.
End Spec.
