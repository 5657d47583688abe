(** Convex combinations of the vertices of a polygon, over exact reals. *)
From Verif Require Import RBase SpecPoly GTriangle GConvex.
Open Scope R_scope.

(** sum_i w_i F(v_i) *)
Definition wsum (F : pt -> R) (ws : list R) (vs : list pt) : R :=
  sumR (map (fun wv => fst wv * F (snd wv)) (combine ws vs)).

Lemma wsum_cons F w ws v vs : wsum F (w :: ws) (v :: vs) = w * F v + wsum F ws vs.
Proof. reflexivity. Qed.
Lemma comb_px ws vs : px (comb ws vs) = wsum px ws vs. Proof. reflexivity. Qed.
Lemma comb_py ws vs : py (comb ws vs) = wsum py ws vs. Proof. reflexivity. Qed.

Lemma wsum_aff a b c : forall ws vs, length ws = length vs ->
  wsum (aff a b c) ws vs = a * wsum px ws vs + b * wsum py ws vs + c * sumR ws.
Proof.
  induction ws as [|w ws IH]; intros [|v vs] H; try discriminate.
  - unfold wsum. cbn. ring.
  - rewrite !wsum_cons, IH by (cbn in H; lia). cbn [sumR]. unfold aff. ring.
Qed.
Lemma comb_aff a b c ws vs : length ws = length vs -> sumR ws = 1 ->
  aff a b c (comb ws vs) = wsum (aff a b c) ws vs.
Proof.
  intros Hl Hs. rewrite wsum_aff, Hs by auto. unfold aff. rewrite comb_px, comb_py. ring.
Qed.
Lemma wsum_ext F G : forall ws vs, (forall v, F v = G v) -> wsum F ws vs = wsum G ws vs.
Proof.
  intros ws vs H. unfold wsum. f_equal. apply map_ext. intros (w, v). cbn. now rewrite H.
Qed.
Lemma comb_orient u v ws vs : length ws = length vs -> sumR ws = 1 ->
  orient u v (comb ws vs) = wsum (orient u v) ws vs.
Proof.
  intros Hl Hs. rewrite orient_aff, comb_aff by auto. apply wsum_ext. intros w. now rewrite orient_aff.
Qed.

Lemma wsum_nonneg F : forall ws vs, Forall (fun w => 0 <= w) ws -> (forall v, In v vs -> 0 <= F v) ->
  0 <= wsum F ws vs.
Proof.
  induction ws as [|w ws IH]; intros [|v vs] Hw HF; try (unfold wsum; cbn; lra).
  rewrite wsum_cons. inversion Hw; subst.
  assert (0 <= w * F v) by (apply Rmult_le_pos; auto; apply HF; now left).
  assert (0 <= wsum F ws vs) by (apply IH; auto; intros; apply HF; now right). lra.
Qed.
Lemma wsum_pos F : forall ws vs, length ws = length vs -> Forall (fun w => 0 < w) ws ->
  (forall v, In v vs -> 0 <= F v) -> (exists v, In v vs /\ 0 < F v) -> 0 < wsum F ws vs.
Proof.
  induction ws as [|w ws IH]; intros [|v vs] Hl Hw HF (x & Hx & Fx); try discriminate; [destruct Hx|].
  rewrite wsum_cons. inversion Hw; subst.
  assert (0 <= w * F v) by (apply Rmult_le_pos; [lra|]; apply HF; now left).
  assert (0 <= wsum F ws vs).
  { apply wsum_nonneg; [eapply Forall_impl; [|eauto]; cbn; intros; lra|]. intros; apply HF; now right. }
  destruct Hx as [->|Hx].
  - assert (0 < w * F x) by (apply Rmult_lt_0_compat; auto). lra.
  - assert (0 < wsum F ws vs); [|lra]. apply IH; eauto. intros; apply HF; now right.
Qed.

Lemma hull_in_poly poly p : convex_ccw poly -> hull poly p -> in_poly poly p.
Proof.
  intros Hc (ws & Hl & Hw & Hs & ->) u v He. rewrite comb_orient by auto. apply wsum_nonneg; auto.
  intros w Hin. eapply orient_vertex; eauto.
Qed.

(** mixing two lists of weights *)
Fixpoint mix (t : R) (ws ws' : list R) : list R :=
  match ws, ws' with
  | w :: ws, w' :: ws' => (w + t * (w' - w)) :: mix t ws ws'
  | _, _ => []
  end.
Lemma mix_length t : forall ws ws', length ws = length ws' -> length (mix t ws ws') = length ws.
Proof. induction ws; intros [|] H; try discriminate; cbn in *; auto. Qed.
Lemma mix_sum t : forall ws ws', length ws = length ws' ->
  sumR (mix t ws ws') = sumR ws + t * (sumR ws' - sumR ws).
Proof. induction ws; intros [|] H; try discriminate; cbn in *; [lra|]. rewrite IHws by lia. ring. Qed.
Lemma mix_wsum t F : forall ws ws' vs, length ws = length ws' ->
  wsum F (mix t ws ws') vs = wsum F ws vs + t * (wsum F ws' vs - wsum F ws vs).
Proof.
  induction ws; intros [|] [|] H; try discriminate; cbn [mix]; try (unfold wsum; cbn; lra).
  rewrite !wsum_cons, IHws by (cbn in H; lia). ring.
Qed.
Lemma mix_nonneg t : 0 <= t <= 1 -> forall ws ws', Forall (fun w => 0 <= w) ws -> Forall (fun w => 0 <= w) ws' ->
  Forall (fun w => 0 <= w) (mix t ws ws').
Proof.
  intros Ht. induction ws; intros [|] H H'; cbn; auto. inversion H; inversion H'; subst.
  constructor; auto. apply comb_ge; auto.
Qed.
Lemma mix_pos t : 0 < t <= 1 -> forall ws ws', Forall (fun w => 0 <= w) ws -> Forall (fun w => 0 < w) ws' ->
  Forall (fun w => 0 < w) (mix t ws ws').
Proof.
  intros Ht. induction ws; intros [|] H H'; cbn; auto. inversion H; inversion H'; subst.
  constructor; auto.
  assert (0 <= (1 - t) * a) by (apply Rmult_le_pos; lra).
  assert (0 < t * r) by (apply Rmult_lt_0_compat; lra). lra.
Qed.
Lemma mix_comb t ws ws' vs : length ws = length ws' ->
  comb (mix t ws ws') vs = at_ (comb ws vs) (comb ws' vs) t.
Proof.
  intros H. apply pt_eq; unfold at_; cbn [px py]; rewrite ?comb_px, ?comb_py, mix_wsum by auto; reflexivity.
Qed.

Lemma hull_at vs p q t : hull vs p -> hull vs q -> 0 <= t <= 1 -> hull vs (at_ p q t).
Proof.
  intros (ws & Hl & Hw & Hs & ->) (ws' & Hl' & Hw' & Hs' & ->) Ht. exists (mix t ws ws').
  split; [rewrite mix_length; congruence|]. split; [apply mix_nonneg; auto|].
  split; [rewrite mix_sum by congruence; rewrite Hs, Hs'; ring|]. rewrite mix_comb; congruence.
Qed.

Lemma sumR_repeat0 n : sumR (repeat 0 n) = 0.
Proof. induction n; cbn; lra. Qed.
Lemma wsum_repeat0 F : forall n vs, wsum F (repeat 0 n) vs = 0.
Proof. induction n; intros [|v vs]; try reflexivity. cbn [repeat]. rewrite wsum_cons, IHn. ring. Qed.

Lemma hull_vertex vs v : In v vs -> hull vs v.
Proof.
  induction vs as [|x vs IH]; intros H; [destruct H|]. destruct H as [->|H].
  - exists (1 :: repeat 0 (length vs)). split; [cbn; now rewrite repeat_length|]. split; [|split].
    + constructor; [lra|]. apply Forall_forall. intros w Hw. apply repeat_spec in Hw. lra.
    + cbn. rewrite sumR_repeat0. lra.
    + apply pt_eq; rewrite ?comb_px, ?comb_py, wsum_cons, wsum_repeat0; ring.
  - destruct (IH H) as (ws & Hl & Hw & Hs & E). exists (0 :: ws). split; [cbn; now rewrite Hl|].
    split; [constructor; [lra|auto]|]. split; [cbn; lra|].
    rewrite E. apply pt_eq; rewrite ?comb_px, ?comb_py, wsum_cons; ring.
Qed.

Lemma hull_triangle vs a b c p : In a vs -> In b vs -> In c vs -> in_triangle a b c p -> hull vs p.
Proof.
  intros Ha Hb Hc (u & v & w & Hu & Hv & Hw & E & Ex & Ey).
  apply hull_vertex in Ha, Hb, Hc.
  destruct (Req_dec (v + w) 0) as [H0|H0].
  - replace p with a; auto. assert (v = 0) by lra. assert (w = 0) by lra. subst. apply pt_eq; rewrite ?Ex, ?Ey; replace u with 1 by lra; ring.
  - assert (Hq : hull vs (at_ b c (w / (v + w)))).
    { apply hull_at; auto. assert (Ew : w / (v + w) * (v + w) = w) by (field; auto).
      split; apply (Rmult_le_reg_r (v + w)); lra. }
    replace p with (at_ a (at_ b c (w / (v + w))) (v + w)).
    + apply hull_at; auto. lra.
    + apply pt_eq; unfold at_; cbn [px py]; rewrite ?Ex, ?Ey; replace u with (1 - v - w) by lra; field; auto.
Qed.

Theorem in_poly_hull poly p : convex_ccw poly -> (in_poly poly p <-> hull poly p).
Proof.
  intros Hc. split; [|intros Hp; now apply hull_in_poly].
  intros Hp. destruct (in_poly_fan _ _ Hc Hp) as (a & b & c & Ha & Hb & Hc' & Ht).
  exact (hull_triangle poly a b c p Ha Hb Hc' Ht).
Qed.

(** the order of the vertices does not matter for the hull *)
Lemma combine_app' {A B} (l1 : list A) (m1 : list B) l2 m2 : length l1 = length m1 ->
  combine (l1 ++ l2) (m1 ++ m2) = combine l1 m1 ++ combine l2 m2.
Proof.
  revert m1. induction l1; intros [|] H; try discriminate; auto. cbn. now rewrite IHl1 by (cbn in H; lia).
Qed.
Lemma wsum_app F ws vs ws' vs' : length ws = length vs ->
  wsum F (ws ++ ws') (vs ++ vs') = wsum F ws vs + wsum F ws' vs'.
Proof. intros H. unfold wsum. rewrite combine_app', map_app, sumR_app by auto. reflexivity. Qed.
Lemma wsum_rev F : forall ws vs, length ws = length vs -> wsum F (rev ws) (rev vs) = wsum F ws vs.
Proof.
  induction ws as [|w ws IH]; intros [|v vs] H; try discriminate; auto.
  cbn [rev]. rewrite wsum_app, IH, wsum_cons by (rewrite ?rev_length; cbn in H; lia).
  rewrite wsum_cons. replace (wsum F [] []) with 0 by reflexivity. ring.
Qed.
Lemma sumR_rev ws : sumR (rev ws) = sumR ws.
Proof. induction ws; cbn; auto. rewrite sumR_app. cbn. lra. Qed.
Lemma hull_rev vs p : hull (rev vs) p <-> hull vs p.
Proof.
  assert (H : forall vs p, hull vs p -> hull (rev vs) p).
  { intros vs' p' (ws & Hl & Hw & Hs & E). exists (rev ws).
    rewrite !rev_length, sumR_rev. split; auto. split; [now apply Forall_rev|]. split; auto.
    rewrite E. apply pt_eq; rewrite ?comb_px, ?comb_py, wsum_rev; auto. }
  split; auto. intros Hr. apply H in Hr. now rewrite rev_involutive in Hr.
Qed.

(** ** The open hull: all weights positive *)
Lemma open_hull_hull vs p : open_hull vs p -> hull vs p.
Proof.
  intros (ws & Hl & Hw & Hs & E). exists ws. split; auto. split; auto.
  eapply Forall_impl; [|eauto]; cbn; intros; lra.
Qed.
Lemma open_hull_rev vs p : open_hull (rev vs) p <-> open_hull vs p.
Proof.
  assert (H : forall vs p, open_hull vs p -> open_hull (rev vs) p).
  { intros vs' p' (ws & Hl & Hw & Hs & E). exists (rev ws).
    rewrite !rev_length, sumR_rev. split; auto. split; [now apply Forall_rev|]. split; auto.
    rewrite E. apply pt_eq; rewrite ?comb_px, ?comb_py, wsum_rev; auto. }
  split; auto. intros Hr. apply H in Hr. now rewrite rev_involutive in Hr.
Qed.

Lemma third_vertex poly u v : convex_ccw poly -> exists w, In w poly /\ w <> u /\ w <> v.
Proof.
  intros (Hl & Hn & _). destruct poly as [|a [|b [|c l]]]; try (cbn in Hl; lia).
  inversion Hn as [|? ? N0 Hn1]; subst. inversion Hn1 as [|? ? N1 Hn2]; subst.
  assert (Nab : a <> b) by (intros ->; apply N0; now left).
  assert (Nac : a <> c) by (intros ->; apply N0; right; now left).
  assert (Nbc : b <> c) by (intros ->; apply N1; now left).
  destruct (pt_dec a u) as [->|Ea].
  - destruct (pt_dec b v) as [->|Eb].
    + exists c. split; [right; right; now left|auto].
    + exists b. split; [right; now left|auto].
  - destruct (pt_dec a v) as [->|Ea'].
    + destruct (pt_dec b u) as [->|Eb].
      * exists c. split; [right; right; now left|auto].
      * exists b. split; [right; now left|auto].
    + exists a. split; [now left|auto].
Qed.

Lemma sumR_repeat c n : sumR (repeat c n) = INR n * c.
Proof. induction n; [cbn; lra|]. cbn [repeat sumR]. rewrite IHn, S_INR. ring. Qed.

Theorem interior_open_hull poly p : convex_ccw poly -> (interior poly p <-> open_hull poly p).
Proof.
  intros Hc. split.
  - intros Hp. set (n := length poly).
    assert (Hn : 0 < INR n) by (apply lt_0_INR; destruct Hc; unfold n; lia).
    set (ws0 := repeat (/ INR n) n).
    assert (P0 : Forall (fun w => 0 < w) ws0).
    { apply Forall_forall. intros w Hw. apply repeat_spec in Hw. subst. now apply Rinv_0_lt_compat. }
    assert (S0 : sumR ws0 = 1) by (unfold ws0; rewrite sumR_repeat; field; lra).
    set (g := comb ws0 poly).
    (* q beyond p as seen from g *)
    destruct (interior_open poly p (Pt (2 * px p - px g) (2 * py p - py g)) Hp) as (e & He & Ho).
    specialize (Ho e ltac:(lra)). apply interior_in_poly, in_poly_hull in Ho; auto.
    destruct Ho as (ws & Hl & Hw & Hs & Eq).
    set (t := e / (1 + e)).
    assert (Et : t * (1 + e) = e) by (unfold t; field; lra).
    assert (Ht : 0 < t <= 1) by (split; [apply (Rmult_lt_reg_r (1 + e))|apply (Rmult_le_reg_r (1 + e))]; lra).
    exists (mix t ws ws0).
    assert (Hl0 : length ws = length ws0) by (unfold ws0; rewrite repeat_length; auto).
    split; [rewrite mix_length; auto|]. split; [apply mix_pos; auto|].
    split; [rewrite mix_sum by auto; rewrite Hs, S0; ring|].
    rewrite mix_comb by auto. fold g. rewrite <- Eq.
    apply pt_eq; unfold at_, t; cbn [px py]; field; lra.
  - intros (ws & Hl & Hw & Hs & ->) u v He. rewrite comb_orient by auto.
    apply wsum_pos; auto.
    + intros w Hin. eapply orient_vertex; eauto.
    + destruct (third_vertex poly u v Hc) as (w & Hw' & N1 & N2). exists w. split; auto.
      destruct Hc as (_ & _ & Hc). auto.
Qed.
