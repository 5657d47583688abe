(** The signed area of a closed chain inside an intersection of half-planes, as
    a sum over the sides of the chain; it changes little when the chain does. *)
From Verif Require Import RBase SpecPoly GTriangle GConvex GHull GArea GRay GClip.
From Coq Require Import Permutation.
Open Scope R_scope.

(** contribution of the side a -> b, clipped by the half-planes to the left of
    the lines in K; the reference point of the innermost sum is the origin, of
    the others a point of the line last used for clipping *)
Fixpoint gs (K : list (pt * pt)) (a b : pt) : R :=
  match K with
  | [] => / 2 * (px a * py b - px b * py a)
  | (r, s) :: K' =>
      let tau x y := gs K' r x + gs K' x y + gs K' y r in
      if ins r s a then (if ins r s b then tau a b else tau a (cutp r s a b))
      else if ins r s b then tau (cutp r s a b) b else 0
  end.
Definition mu K a b c : R := gs K a b + gs K b c + gs K c a.

Lemma at_0 a b : at_ a b 0 = a.
Proof. unfold at_. apply pt_eq; cbn; ring. Qed.
Lemma at_1 a b : at_ a b 1 = b.
Proof. unfold at_. apply pt_eq; cbn; ring. Qed.
Lemma at_at_l a b t u : at_ a (at_ a b t) u = at_ a b (u * t).
Proof. unfold at_. apply pt_eq; cbn; ring. Qed.
Lemma at_at_r a b t u : at_ (at_ a b t) b u = at_ a b (t + u * (1 - t)).
Proof. unfold at_. apply pt_eq; cbn; ring. Qed.
Lemma at_sym a b t : at_ a b t = at_ b a (1 - t).
Proof. unfold at_. apply pt_eq; cbn; ring. Qed.
Lemma seg_sym a b c : on_segment a b c -> on_segment b a c.
Proof. intros (t & Ht & ->). exists (1 - t). split; [lra|]. apply at_sym. Qed.

Section Line.
  Variables r s : pt.
  Notation f := (orient r s).

  Lemma cutp_sym a b : f a <> f b -> cutp r s a b = cutp r s b a.
  Proof.
    intros H. unfold cutp. rewrite (at_sym a b). f_equal. field. split; lra.
  Qed.
  Lemma cutp_on a b : 0 < f a -> f b <= 0 -> on_segment a b (cutp r s a b) /\ f (cutp r s a b) = 0.
  Proof.
    intros H H'; destruct (cut_down r s a b H H') as (t & Ht & E & F); split; auto; exists t; split; auto; lra.
  Qed.
  Lemma cutp_part a b c : 0 < f a -> f b <= 0 -> on_segment a b c ->
    (0 < f c -> cutp r s c b = cutp r s a b /\ on_segment a (cutp r s a b) c)
    /\ (f c <= 0 -> cutp r s a c = cutp r s a b).
  Proof.
    intros Ha Hb (t & Ht & ->). rewrite f_at. 
    assert (Hd : 0 < f a - f b) by lra.
    split; intros Hc.
    - unfold cutp. rewrite f_at. split.
      + rewrite at_at_r. f_equal.
        assert (Hn : f a + t * (f b - f a) - f b <> 0) by lra.
        apply (Rmult_eq_reg_r (f a - f b)); [|lra].
        replace ((t + (f a + t * (f b - f a)) / (f a + t * (f b - f a) - f b) * (1 - t)) * (f a - f b))
          with (t * (f a - f b) + (f a + t * (f b - f a)) * ((1 - t) * (f a - f b) / (f a + t * (f b - f a) - f b))) by (field; lra).
        replace ((1 - t) * (f a - f b) / (f a + t * (f b - f a) - f b)) with 1 by (field; lra).
        unfold Rdiv. rewrite Rmult_assoc, Rinv_l by lra. ring.
      + set (q := f a / (f a - f b)). assert (Eq : q * (f a - f b) = f a) by (unfold q; field; lra).
        assert (Hq : 0 < q) by (unfold q; apply Rdiv_lt_0_compat; lra).
        assert (Hl : t <= q). { apply (Rmult_le_reg_r (f a - f b)); [lra|]. rewrite Eq. lra. }
        exists (t / q). split.
        * assert (0 < / q) by (now apply Rinv_0_lt_compat). split; [apply Rmult_le_pos; lra|].
          apply (Rmult_le_reg_r q); auto. unfold Rdiv. rewrite Rmult_assoc, Rinv_l by lra. lra.
        * rewrite at_at_l. f_equal. field. lra.
    - unfold cutp. rewrite f_at. rewrite at_at_l. f_equal.
      assert (0 < t). { destruct (Rle_lt_dec t 0) as [L|L]; auto. assert (t = 0) by lra. subst t. lra. }
      replace (f a - (f a + t * (f b - f a))) with (t * (f a - f b)) by ring. field. lra.
  Qed.
  Lemma f_seg a b c : on_segment a b c -> (0 < f a -> 0 < f b -> 0 < f c) /\ (f a <= 0 -> f b <= 0 -> f c <= 0).
  Proof.
    intros (t & Ht & ->). rewrite f_at. split; intros.
    - destruct (Rle_lt_dec 1 t); nra.
    - nra.
  Qed.
End Line.

Lemma gs_anti : forall K a b, gs K a b = - gs K b a.
Proof.
  induction K as [|(r, s) K IH]; intros a b; [cbn; lra|]. cbn [gs].
  destruct (ins r s a) eqn:Ia; destruct (ins r s b) eqn:Ib.
  - rewrite (IH a b), (IH r a), (IH b r). lra.
  - apply ins_iff in Ia. apply ins_false in Ib. rewrite (cutp_sym r s a b) by lra.
    set (x := cutp r s b a). rewrite (IH a x), (IH r a), (IH x r). lra.
  - apply ins_iff in Ib. apply ins_false in Ia. rewrite (cutp_sym r s a b) by lra.
    set (x := cutp r s b a). rewrite (IH x b), (IH r x), (IH b r). lra.
  - lra.
Qed.
Lemma gs_same K a : gs K a a = 0.
Proof. pose proof (gs_anti K a a). lra. Qed.

Lemma gs_split : forall K a b c, on_segment a b c -> gs K a b = gs K a c + gs K c b.
Proof.
  induction K as [|(r, s) K IH]; intros a b c Hc.
  { destruct Hc as (t & Ht & ->). unfold gs, at_. cbn [px py]. ring. }
  assert (T : forall x y z, on_segment x y z ->
    gs K r x + gs K x y + gs K y r = (gs K r x + gs K x z + gs K z r) + (gs K r z + gs K z y + gs K y r)).
  { intros x y z Hz. rewrite (IH x y z Hz), (gs_anti K z r). ring. }
  destruct (f_seg r s a b c Hc) as (Hin & Hout).
  assert (down : forall a b, on_segment a b c -> 0 < orient r s a -> orient r s b <= 0 -> gs ((r, s) :: K) a b = gs ((r, s) :: K) a c + gs ((r, s) :: K) c b).
  { clear a b Hc Hin Hout. intros a b Hc Ha Hb. destruct (cutp_part r s a b c Ha Hb Hc) as (C1 & C2).
    cbn [gs]. rewrite (proj2 (ins_iff r s a) Ha), (proj2 (ins_false r s b) Hb).
    destruct (Rle_lt_dec (orient r s c) 0) as [L|L].
    - rewrite (proj2 (ins_false r s c) L), (C2 L). lra.
    - rewrite (proj2 (ins_iff r s c) L). destruct (C1 L) as (-> & S). apply T. exact S. }
  destruct (Rle_lt_dec (orient r s a) 0) as [La|La]; destruct (Rle_lt_dec (orient r s b) 0) as [Lb|Lb].
  - cbn [gs]. rewrite (proj2 (ins_false r s a) La), (proj2 (ins_false r s b) Lb), (proj2 (ins_false r s c) (Hout La Lb)). lra.
  - rewrite (gs_anti _ a b), (gs_anti _ a c), (gs_anti _ c b).
    rewrite (down b a (seg_sym _ _ _ Hc) Lb La). ring.
  - now apply down.
  - cbn [gs]. rewrite (proj2 (ins_iff r s a) La), (proj2 (ins_iff r s b) Lb), (proj2 (ins_iff r s c) (Hin La Lb)). now apply T.
Qed.

Lemma mu_rot K a b c : mu K a b c = mu K b c a.
Proof. unfold mu. ring. Qed.

(** at most the area of the triangle *)
Lemma mu_bound : forall K a b c, Rabs (mu K a b c) <= / 2 * Rabs (orient a b c).
Proof.
  induction K as [|(r, s) K IH]; intros a b c.
  { unfold mu. cbn [gs]. right. rewrite <- (Rabs_pos_eq (/ 2)) at 4 by lra. rewrite <- Rabs_mult. f_equal. unfold orient. ring. }
  assert (flat : forall x y, r <> s -> orient r s x = 0 -> orient r s y = 0 -> mu K r x y = 0).
  { intros x y Hrs Hx Hy. pose proof (IH r x y) as H. replace (orient r x y) with 0 in H; [rewrite Rabs_R0, Rmult_0_r in H; revert H; unfold Rabs; destruct (Rcase_abs (mu K r x y)); lra|].
    unfold orient in *. clear H.
    assert (E1 : (px s - px r) * (px x - px r) * (py y - py r) = (px s - px r) * (px y - px r) * (py x - py r))
      by (replace ((px s - px r) * (px x - px r) * (py y - py r)) with ((px x - px r) * ((px s - px r) * (py y - py r))) by ring;
          replace ((px s - px r) * (px y - px r) * (py x - py r)) with ((px y - px r) * ((px s - px r) * (py x - py r))) by ring;
          replace ((px s - px r) * (py y - py r)) with ((py s - py r) * (px y - px r)) by lra;
          replace ((px s - px r) * (py x - py r)) with ((py s - py r) * (px x - px r)) by lra; ring).
    assert (E2 : (py s - py r) * (px x - px r) * (py y - py r) = (py s - py r) * (px y - px r) * (py x - py r))
      by (replace ((py s - py r) * (px x - px r) * (py y - py r)) with ((py y - py r) * ((py s - py r) * (px x - px r))) by ring;
          replace ((py s - py r) * (px y - px r) * (py x - py r)) with ((py x - py r) * ((py s - py r) * (px y - px r))) by ring;
          replace ((py s - py r) * (px x - px r)) with ((px s - px r) * (py x - py r)) by lra;
          replace ((py s - py r) * (px y - px r)) with ((px s - px r) * (py y - py r)) by lra; ring).
    destruct (Req_dec (px s - px r) 0) as [D1|D1]; [destruct (Req_dec (py s - py r) 0) as [D2|D2]|].
    - exfalso. apply Hrs. apply pt_eq; lra.
    - apply (Rmult_eq_reg_l (py s - py r)); auto. lra.
    - apply (Rmult_eq_reg_l (px s - px r)); auto. lra. }
  assert (ne : forall p, 0 < orient r s p -> r <> s).
  { intros p Hp ->. rewrite orient_11 in Hp. lra. }
  (* one vertex inside *)
  assert (one : forall a b c, 0 < orient r s a -> orient r s b <= 0 -> orient r s c <= 0 ->
     Rabs (mu ((r, s) :: K) a b c) <= / 2 * Rabs (orient a b c)).
  { clear a b c. intros a b c Ha Hb Hc. pose proof (ne a Ha) as Hrs.
    unfold mu. cbn [gs]. rewrite (proj2 (ins_iff r s a) Ha), (proj2 (ins_false r s b) Hb), (proj2 (ins_false r s c) Hc).
    rewrite (cutp_sym r s c a) by lra.
    destruct (cut_down r s a b Ha Hb) as (t & Ht & Ex & Fx). destruct (cut_down r s a c Ha Hc) as (u & Hu & Ey & Fy).
    pose proof (flat _ _ Hrs Fx Fy) as F. pose proof (IH a (cutp r s a b) (cutp r s a c)) as B.
    set (x := cutp r s a b) in *. set (y := cutp r s a c) in *. unfold mu in F, B.
    replace (orient a x y) with (t * u * orient a b c) in B by (rewrite Ex, Ey; unfold orient, at_; cbn; ring).
    pose proof (gs_anti K x r). pose proof (gs_anti K y r). pose proof (gs_anti K a r). pose proof (gs_anti K x y). pose proof (gs_anti K a y).
    replace (gs K r a + gs K a x + gs K x r + 0 + (gs K r y + gs K y a + gs K a r)) with (gs K a x + gs K x y + gs K y a) by lra.
    eapply Rle_trans; [exact B|]. rewrite Rabs_mult, (Rabs_pos_eq (t * u)) by nra.
    pose proof (Rabs_pos (orient a b c)). assert (t * u <= 1) by nra. nra. }
  (* two vertices inside *)
  assert (two : forall a b c, 0 < orient r s a -> 0 < orient r s b -> orient r s c <= 0 ->
     Rabs (mu ((r, s) :: K) a b c) <= / 2 * Rabs (orient a b c)).
  { clear a b c. intros a b c Ha Hb Hc. pose proof (ne a Ha) as Hrs.
    unfold mu. cbn [gs]. rewrite (proj2 (ins_iff r s a) Ha), (proj2 (ins_iff r s b) Hb), (proj2 (ins_false r s c) Hc).
    rewrite (cutp_sym r s c a) by lra.
    destruct (cut_down r s b c Hb Hc) as (t & Ht & Ex & Fx). destruct (cut_down r s a c Ha Hc) as (u & Hu & Ey & Fy).
    pose proof (flat _ _ Hrs Fx Fy) as F. pose proof (IH a b (cutp r s b c)) as B1. pose proof (IH a (cutp r s b c) (cutp r s a c)) as B2.
    set (x := cutp r s b c) in *. set (y := cutp r s a c) in *. unfold mu in F, B1, B2.
    replace (orient a b x) with (t * orient a b c) in B1 by (rewrite Ex; unfold orient, at_; cbn; ring).
    replace (orient a x y) with (u * (1 - t) * orient a b c) in B2 by (rewrite Ex, Ey; unfold orient, at_; cbn; ring).
    pose proof (gs_anti K x r). pose proof (gs_anti K y r). pose proof (gs_anti K a r). pose proof (gs_anti K b r).
    pose proof (gs_anti K x y). pose proof (gs_anti K a y). pose proof (gs_anti K a x).
    match goal with |- Rabs ?z <= _ => replace z with ((gs K a b + gs K b x + gs K x a) + (gs K a x + gs K x y + gs K y a)) by lra end.
    eapply Rle_trans; [apply Rabs_triang|]. rewrite Rabs_mult, (Rabs_pos_eq t) in B1 by lra.
    rewrite Rabs_mult, (Rabs_pos_eq (u * (1 - t))) in B2 by nra.
    pose proof (Rabs_pos (orient a b c)). assert (t + u * (1 - t) <= 1) by nra. nra. }
  destruct (Rle_lt_dec (orient r s a) 0) as [La|La]; destruct (Rle_lt_dec (orient r s b) 0) as [Lb|Lb]; destruct (Rle_lt_dec (orient r s c) 0) as [Lc|Lc].
  - unfold mu. cbn [gs]. rewrite (proj2 (ins_false r s a) La), (proj2 (ins_false r s b) Lb), (proj2 (ins_false r s c) Lc).
    rewrite !Rplus_0_r, Rabs_R0. pose proof (Rabs_pos (orient a b c)). lra.
  - rewrite <- (mu_rot _ c a b), <- (orient_rot c a b). auto.
  - rewrite (mu_rot _ a b c), (orient_rot a b c). auto.
  - rewrite (mu_rot _ a b c), (orient_rot a b c). auto.
  - auto.
  - rewrite <- (mu_rot _ c a b), <- (orient_rot c a b). auto.
  - auto.
  - unfold mu. cbn [gs]. rewrite (proj2 (ins_iff r s a) La), (proj2 (ins_iff r s b) Lb), (proj2 (ins_iff r s c) Lc).
    pose proof (gs_anti K a r). pose proof (gs_anti K b r). pose proof (gs_anti K c r).
    eapply Rle_trans; [|apply (IH a b c)]. right. f_equal. unfold mu. lra.
Qed.

(** ** One clipping step that is only nearly right *)
Definition gsum K (E : list (pt * pt)) : R := sumR (map (fun e => gs K (fst e) (snd e)) E).
Definition area_in K P : R := gsum K (poly_edges P).

(** seen from another point *)
Lemma gsum_fan K o : forall l v0, sumR (map (fun e => mu K o (fst e) (snd e)) (chain v0 l)) = gsum K (chain v0 l) + gs K o v0 - gs K o (last l v0).
Proof.
  induction l as [|x l IH]; intros v0; [unfold gsum; cbn; lra|].
  cbn [chain]. unfold gsum in *. cbn [map sumR fst snd]. rewrite IH, last_cons. unfold mu. rewrite (gs_anti K x o). lra.
Qed.
Lemma area_in_fan K o P : area_in K P = sumR (map (fun e => mu K o (fst e) (snd e)) (poly_edges P)).
Proof.
  unfold area_in, poly_edges. destruct P as [|x l]; [reflexivity|]. rewrite gsum_fan.
  replace (last (x :: l) (last (x :: l) (Pt 0 0))) with (last (x :: l) (Pt 0 0)) by (rewrite !last_cons; reflexivity). lra.
Qed.

Section Step.
  Variables (r s : pt) (K : list (pt * pt)) (e D L B' : R).
  Notation f := (orient r s).
  Notation g' := (gs ((r, s) :: K)).
  Notation tau := (mu K r).
  Hypothesis (He : 0 <= e) (HL : 0 < L) (HB : 0 <= B').
  Hypothesis Hside : L <= Rabs (px s - px r) \/ L <= Rabs (py s - py r).

  Definition win (p : pt) : Prop := Rabs (px p - px r) <= D /\ Rabs (py p - py r) <= D.
  Notation B := (D * e / L).

  Lemma tau_small x y ex ey : Rabs (f x) <= ex -> Rabs (f y) <= ey -> win x -> win y -> Rabs (tau x y) <= D * (ex + ey) / (2 * L).
  Proof.
    intros Hx Hy (Wx1 & Wx2) (Wy1 & Wy2). eapply Rle_trans; [apply mu_bound|].
    assert (G : forall d X Y, L <= Rabs d -> Rabs X <= D -> Rabs Y <= D -> orient r x y * d = X * f y - Y * f x ->
      / 2 * Rabs (orient r x y) <= D * (ex + ey) / (2 * L)).
    { intros d X Y Hd HX HY E. assert (E' : Rabs (orient r x y) * Rabs d <= D * ey + D * ex).
      { rewrite <- Rabs_mult, E. eapply Rle_trans; [apply Rabs_triang|]. rewrite Rabs_Ropp, !Rabs_mult.
        pose proof (Rabs_pos X). pose proof (Rabs_pos Y). pose proof (Rabs_pos (f x)). pose proof (Rabs_pos (f y)).
        apply Rplus_le_compat; apply Rmult_le_compat; auto. }
      pose proof (Rabs_pos (orient r x y)).
      assert (Rabs (orient r x y) * L <= D * ey + D * ex) by (eapply Rle_trans; [|exact E']; now apply Rmult_le_compat_l).
      apply (Rmult_le_reg_r (2 * L)); [lra|]. replace (D * (ex + ey) / (2 * L) * (2 * L)) with (D * (ex + ey)) by (field; lra). lra. }
    destruct Hside as [Hd|Hd].
    - apply (G (px s - px r) (px x - px r) (px y - px r)); auto. unfold orient. ring.
    - apply (G (py s - py r) (py x - py r) (py y - py r)); auto. unfold orient. ring.
  Qed.
  Lemma tau_near x y : Rabs (f x) <= e -> Rabs (f y) <= e -> win x -> win y -> Rabs (tau x y) <= B.
  Proof. intros. eapply Rle_trans; [apply (tau_small x y e e); auto|]. right. field. lra. Qed.

  Lemma B_pos x : win x -> 0 <= B.
  Proof.
    intros (H & _). pose proof (Rabs_pos (px x - px r)). apply Rmult_le_pos; [apply Rmult_le_pos; lra|].
    left. now apply Rinv_0_lt_compat.
  Qed.

  Lemma win_seg a b c : win a -> win b -> on_segment a b c -> win c.
  Proof.
    intros (A1 & A2) (B1 & B2) (t & Ht & ->). unfold win, at_. cbn [px py].
    apply Rabs_le_inv in A1, A2, B1, B2. split; apply Rabs_le; nra.
  Qed.

  (** both ends inside, or nearly so *)
  Lemma near_inside a b : - e <= f a -> - e <= f b -> win a -> win b -> Rabs (g' a b - tau a b) <= B.
  Proof.
    intros Ha Hb Wa Wb. pose proof (B_pos a Wa) as PB.
    assert (down : forall a b, 0 < f a -> f b <= 0 -> - e <= f b -> win a -> win b -> Rabs (g' a b - tau a b) <= B).
    { clear a b Ha Hb Wa Wb PB. intros a b Pa Nb Hb Wa Wb. pose proof (B_pos a Wa) as PB.
      cbn [gs]. rewrite (proj2 (ins_iff r s a) Pa), (proj2 (ins_false r s b) Nb).
      destruct (cutp_on r s a b Pa Nb) as (Sg & F0). set (y := cutp r s a b) in *.
      assert (Hy : Rabs (f y) <= e) by (rewrite F0, Rabs_R0; lra).
      assert (Hb' : Rabs (f b) <= e) by (apply Rabs_le; lra).
      pose proof (tau_near y b Hy Hb' (win_seg _ _ _ Wa Wb Sg) Wb) as T.
      unfold mu in *. rewrite (gs_split K a b y Sg). rewrite (gs_anti K y r).
      replace (_ - _) with (- (gs K r y + gs K y b + gs K b r)) by lra. now rewrite Rabs_Ropp. }
    destruct (Rle_lt_dec (f a) 0) as [La|La]; destruct (Rle_lt_dec (f b) 0) as [Lb|Lb].
    - cbn [gs]. rewrite (proj2 (ins_false r s a) La), (proj2 (ins_false r s b) Lb).
      replace (0 - tau a b) with (- tau a b) by ring. rewrite Rabs_Ropp. apply tau_near; auto; apply Rabs_le; lra.
    - rewrite (gs_anti _ a b). replace (- g' b a - tau a b) with (- (g' b a - tau b a)).
      + rewrite Rabs_Ropp. now apply down.
      + unfold mu. rewrite (gs_anti K a b), (gs_anti K r a), (gs_anti K b r). ring.
    - now apply down.
    - cbn [gs]. rewrite (proj2 (ins_iff r s a) La), (proj2 (ins_iff r s b) Lb). unfold mu.
      rewrite Rminus_diag_eq by reflexivity. now rewrite Rabs_R0.
  Qed.

  (** both ends outside, or nearly so *)
  Lemma near_outside a b : f a <= e -> f b <= e -> win a -> win b -> Rabs (g' a b) <= B.
  Proof.
    intros Ha Hb Wa Wb. pose proof (B_pos a Wa) as PB.
    assert (down : forall a b, 0 < f a -> f b <= 0 -> f a <= e -> win a -> win b -> Rabs (g' a b) <= B).
    { clear a b Ha Hb Wa Wb PB. intros a b Pa Nb Ha Wa Wb.
      cbn [gs]. rewrite (proj2 (ins_iff r s a) Pa), (proj2 (ins_false r s b) Nb).
      destruct (cutp_on r s a b Pa Nb) as (Sg & F0). set (y := cutp r s a b) in *.
      apply (tau_near a y); auto; [apply Rabs_le; lra|rewrite F0, Rabs_R0; lra|exact (win_seg _ _ _ Wa Wb Sg)]. }
    destruct (Rle_lt_dec (f a) 0) as [La|La]; destruct (Rle_lt_dec (f b) 0) as [Lb|Lb].
    - cbn [gs]. rewrite (proj2 (ins_false r s a) La), (proj2 (ins_false r s b) Lb). now rewrite Rabs_R0.
    - rewrite gs_anti, Rabs_Ropp. now apply down.
    - now apply down.
    - cbn [gs]. rewrite (proj2 (ins_iff r s a) La), (proj2 (ins_iff r s b) Lb).
      apply (tau_near a b); auto; apply Rabs_le; lra.
  Qed.

  (** What the step puts out for the side a -> b; the flags say which points
      count as inside. *)
  Inductive emit (a : pt) : bool -> pt -> list pt -> bool -> Prop :=
  | emit_skip fa : emit a fa a [] fa
  | emit_in b : - e <= f b -> emit a true b [b] true
  | emit_enter b x : - e <= f b -> Rabs (f x) <= e -> Rabs (orient a x b) <= 2 * B' -> win x -> emit a false b [x; b] true
  | emit_graze b : Rabs (f b) <= e -> emit a false b [b] true
  | emit_leave b x : f b <= e -> Rabs (f x) <= e -> Rabs (orient a x b) <= 2 * B' -> win x -> emit a true b [x] false
  | emit_out b : f b <= e -> emit a false b [] false.

  Inductive run : pt -> bool -> list pt -> list pt -> bool -> Prop :=
  | run_nil a fa : run a fa [] [] fa
  | run_cons a fa b fb l E E' fl : emit a fa b E fb -> run b fb l E' fl -> run a fa (b :: l) (E ++ E') fl.

  Definition flag_ok (p : pt) (b : bool) : Prop := if b then - e <= f p else f p <= e.
  (** z: the last point put out, or any point near the line *)
  Definition link (a : pt) (fa : bool) (z : pt) : Prop := win z /\ if fa then z = a else Rabs (f z) <= e.
  Definition tsum (z : pt) (E : list pt) : R := sumR (map (fun d => tau (fst d) (snd d)) (chain z E)).

  Lemma tau_same x : tau x x = 0.
  Proof. unfold mu. rewrite gs_same, (gs_anti K x r). lra. Qed.

  Lemma emit_ok a fa b E fb z : flag_ok a fa -> win a -> win b -> link a fa z -> emit a fa b E fb ->
    flag_ok b fb /\ link b fb (last E z) /\ (E <> [] -> forall z', link b fb (last E z'))
    /\ Rabs (tsum z E - g' a b) <= 3 * B + B'.
  Proof.
    intros Fa Wa Wb (Wz & Lz) HE. pose proof (B_pos a Wa) as PB.
    destruct HE; unfold flag_ok, link, tsum in *; cbn [last chain map sumR fst snd] in *.
    - split; auto. split; auto. split; [congruence|]. rewrite gs_same, Rminus_0_r, Rabs_R0. lra.
    - subst z. split; auto. split; auto. split; auto.
      pose proof (near_inside a b Fa H Wa Wb) as N. rewrite Rabs_minus_sym in N. rewrite Rplus_0_r. lra.
    - split; auto. split; auto. split; auto.
      pose proof (tau_near z x Lz H0 Wz H2) as N1.
      assert (Hx : - e <= f x <= e) by (now apply Rabs_le_inv).
      pose proof (near_inside x b (proj1 Hx) H H2 Wb) as N2. pose proof (near_outside a x Fa (proj2 Hx) Wa H2) as N3.
      pose proof (mu_bound ((r, s) :: K) a x b) as N4. unfold mu at 1 in N4. rewrite (gs_anti _ b a) in N4.
      apply Rabs_le_inv in N1, N2, N3. assert (N5 : Rabs (g' a x + g' x b + - g' a b) <= B') by lra. apply Rabs_le_inv in N5.
      apply Rabs_le. lra.
    - split; [apply Rabs_le_inv in H; lra|]. split; auto. split; auto.
      pose proof (tau_near z b Lz H Wz Wb) as N1. apply Rabs_le_inv in H.
      pose proof (near_outside a b Fa (proj2 H) Wa Wb) as N2. apply Rabs_le_inv in N1, N2. apply Rabs_le. lra.
    - subst z. split; auto. split; auto. split; auto.
      assert (Hx : - e <= f x <= e) by (now apply Rabs_le_inv).
      pose proof (near_inside a x Fa (proj1 Hx) Wa H2) as N2. pose proof (near_outside x b (proj2 Hx) H H2 Wb) as N3.
      pose proof (mu_bound ((r, s) :: K) a x b) as N4. unfold mu at 1 in N4. rewrite (gs_anti _ b a) in N4.
      apply Rabs_le_inv in N2, N3. assert (N5 : Rabs (g' a x + g' x b + - g' a b) <= B') by lra. apply Rabs_le_inv in N5.
      apply Rabs_le. lra.
    - split; auto. split; auto. split; [congruence|].
      pose proof (near_outside a b Fa H Wa Wb) as N. apply Rabs_le_inv in N. apply Rabs_le. lra.
  Qed.

  Lemma tsum_app z E E' : tsum z (E ++ E') = tsum z E + tsum (last E z) E'.
  Proof. unfold tsum. rewrite chain_app, map_app, sumR_app. reflexivity. Qed.
  Lemma last_app_z {A} (E E' : list A) z : last (E ++ E') z = last E' (last E z).
  Proof.
    destruct E' as [|x E']; [now rewrite app_nil_r|]. rewrite last_app_ne by discriminate. apply last_default. discriminate.
  Qed.

  Lemma run_ok a fa l E fl : run a fa l E fl -> forall z, flag_ok a fa -> win a -> Forall win l -> link a fa z ->
    flag_ok (last l a) fl /\ link (last l a) fl (last E z) /\ (E <> [] -> forall z', link (last l a) fl (last E z'))
    /\ Rabs (tsum z E - gsum ((r, s) :: K) (chain a l)) <= INR (length l) * (3 * B + B').
  Proof.
    induction 1 as [a fa|a fa b fb l E E' fl He1 Hr IH]; intros z Fa Wa Wl Lz.
    - cbn. unfold tsum, gsum. cbn. split; auto. split; auto. split; [congruence|]. rewrite Rminus_0_r, Rabs_R0. lra.
    - apply Forall_cons_iff in Wl as (Wb & Wl). destruct (emit_ok a fa b E fb z Fa Wa Wb Lz He1) as (Fb & Lb & Lb' & N).
      destruct (IH (last E z) Fb Wb Wl Lb) as (Fl & Ll & Ll' & N').
      rewrite last_cons. split; auto. rewrite last_app_z. split; auto. split.
      + intros HE z'. rewrite last_app_z. destruct E' as [|y E']; [|apply Ll'; discriminate]. cbn [last].
        rewrite app_nil_r in HE. destruct (IH (last E z') Fb Wb Wl (Lb' HE z')) as (_ & G & _). exact G.
      + rewrite tsum_app. cbn [chain length]. unfold gsum in *. cbn [map sumR fst snd].
        rewrite S_INR. apply Rabs_le_inv in N, N'. apply Rabs_le. lra.
  Qed.

  (** the area inside the remaining half-planes *)
  Theorem step_close P Q f0 f1 : P <> [] -> run (last P (Pt 0 0)) f0 P Q f1 -> flag_ok (last P (Pt 0 0)) f0 -> (f0 = true -> f1 = true) ->
    win r -> Forall win P -> Rabs (area_in K Q - area_in ((r, s) :: K) P) <= INR (length P) * (3 * B + B').
  Proof.
    intros HP HR HF Hf Wr WP. set (a := last P (Pt 0 0)) in *.
    assert (Wa : win a) by (rewrite Forall_forall in WP; apply WP; now apply last_in).
    assert (El : last P a = a) by (unfold a at 2; now apply last_default).
    rewrite (area_in_fan K r Q). unfold area_in at 1. fold (poly_edges P).
    assert (G : forall z, link a f0 z -> Rabs (tsum z Q - gsum ((r, s) :: K) (poly_edges P)) <= INR (length P) * (3 * B + B')).
    { intros z Lz. now destruct (run_ok a f0 P Q f1 HR z HF Wa WP Lz) as (_ & _ & _ & N). }
    destruct Q as [|q Q].
    - pose proof (G r) as N. cbn in N. unfold tsum in N. cbn [chain map sumR] in N.
      destruct f0; [|apply N; split; auto; rewrite orient_12, Rabs_R0; auto].
      pose proof (G a (conj Wa eq_refl)) as N'. exact N'.
    - set (z := last (q :: Q) (Pt 0 0)). change (Rabs (tsum z (q :: Q) - gsum ((r, s) :: K) (poly_edges P)) <= INR (length P) * (3 * B + B')).
      apply G. destruct f0.
      + specialize (Hf eq_refl). subst f1.
        destruct (run_ok a true P _ true HR a HF Wa WP (conj Wa eq_refl)) as (_ & _ & Ll & _).
        specialize (Ll ltac:(discriminate) (Pt 0 0)). rewrite El in Ll. exact Ll.
      + assert (Lr : link a false r) by (split; auto; rewrite orient_12, Rabs_R0; auto).
        destruct (run_ok a false P _ f1 HR r HF Wa WP Lr) as (Fl & _ & Ll & _).
        specialize (Ll ltac:(discriminate) (Pt 0 0)). rewrite El in Ll, Fl. fold z in Ll. destruct Ll as (Wz & Lz). split; auto.
        destruct f1; auto. rewrite Lz. unfold flag_ok in *. apply Rabs_le. lra.
  Qed.
End Step.
