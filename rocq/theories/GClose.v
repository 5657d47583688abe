(** The clipped area of a convex polygon is the area of the intersection, and
    polygons stay nearly convex when they are clipped inexactly. *)
From Verif Require Import RBase SpecPoly SpecArea GTriangle GConvex GHull GArea GRay GClip GClipArea GMeasure.
From Coq Require Import Permutation.
Open Scope R_scope.

(** ** The exact step *)
Lemma win_exists r : forall l, exists D, 0 <= D /\ Forall (win r D) l.
Proof.
  induction l as [|p l (D & HD & IH)]; [exists 0; split; [lra|constructor]|].
  exists (D + Rabs (px p - px r) + Rabs (py p - py r)).
  pose proof (Rabs_pos (px p - px r)). pose proof (Rabs_pos (py p - py r)). split; [lra|]. constructor.
  - split; lra.
  - eapply Forall_impl; [|exact IH]. intros q (H1 & H2). split; lra.
Qed.

Lemma emit_she r s D a b : win r D a -> win r D b -> emit r s 0 D 0 a (ins r s a) b (she r s (a, b)) (ins r s b).
Proof.
  intros Wa Wb. unfold she. cbn [fst snd]. destruct (neqe_cases a b) as [(-> & ->)|(Hn & ->)]; [constructor|].
  assert (Th : forall x, on_segment a b x -> Rabs (orient a x b) <= 2 * 0).
  { intros x (t & Ht & ->). replace (orient a (at_ a b t) b) with 0 by (unfold orient, at_; cbn; ring). rewrite Rabs_R0. lra. }
  destruct (ins r s b) eqn:Ib; destruct (ins r s a) eqn:Ia; try apply ins_iff in Ib; try apply ins_iff in Ia;
    try apply ins_false in Ib; try apply ins_false in Ia.
  - constructor. lra.
  - destruct (cut_up r s a b Ia Ib) as (t & Ht & E & F).
    assert (Sg : on_segment a b (cutp r s a b)) by (rewrite E; exists t; split; auto; lra).
    constructor; [lra|rewrite F, Rabs_R0; lra|now apply Th|now apply (win_seg r D a b)].
  - destruct (cut_down r s a b Ia Ib) as (t & Ht & E & F).
    assert (Sg : on_segment a b (cutp r s a b)) by (rewrite E; exists t; split; auto; lra).
    constructor; [lra|rewrite F, Rabs_R0; lra|now apply Th|now apply (win_seg r D a b)].
  - constructor. lra.
Qed.

Lemma run_sh r s D : forall l a, win r D a -> Forall (win r D) l ->
  run r s 0 D 0 a (ins r s a) l (flat_map (she r s) (chain a l)) (ins r s (last l a)).
Proof.
  induction l as [|b l IH]; intros a Wa Wl; [constructor|]. apply Forall_cons_iff in Wl as (Wb & Wl).
  cbn [chain flat_map]. rewrite last_cons. econstructor; [now apply emit_she|now apply IH].
Qed.

Lemma area_in_nil K : area_in K [] = 0.
Proof. unfold area_in, gsum, poly_edges. reflexivity. Qed.

Lemma sh_area r s K P : r <> s -> P <> [] -> area_in K (sh r s P) = area_in ((r, s) :: K) P.
Proof.
  intros Hrs HP. destruct (win_exists r (r :: P)) as (D & HD & W). apply Forall_cons_iff in W as (Wr & WP).
  set (a := last P (Pt 0 0)).
  assert (Wa : win r D a) by (rewrite Forall_forall in WP; apply WP; now apply last_in).
  assert (HS : exists L, 0 < L /\ (L <= Rabs (px s - px r) \/ L <= Rabs (py s - py r))).
  { destruct (Req_dec (px s - px r) 0) as [E1|E1].
    - destruct (Req_dec (py s - py r) 0) as [E2|E2]; [exfalso; apply Hrs; apply pt_eq; lra|].
      exists (Rabs (py s - py r)). split; [now apply Rabs_pos_lt|]. right. lra.
    - exists (Rabs (px s - px r)). split; [now apply Rabs_pos_lt|]. left. lra. }
  destruct HS as (L & HL & HS).
  pose proof (step_close r s K 0 D L 0 (Rle_refl 0) HL (Rle_refl 0) HS P (sh r s P) (ins r s a) (ins r s a)) as N.
  assert (R0 : run r s 0 D 0 a (ins r s a) P (sh r s P) (ins r s a)).
  { pose proof (run_sh r s D P a Wa WP) as G. replace (last P a) with a in G by (unfold a at 1; symmetry; now apply last_default). exact G. }
  specialize (N HP R0). assert (N' : Rabs (area_in K (sh r s P) - area_in ((r, s) :: K) P) <= INR (length P) * (3 * (D * 0 / L) + 0)).
  { apply N; auto. unfold flag_ok. fold a. destruct (ins r s a) eqn:E; [apply ins_iff in E|apply ins_false in E]; lra. }
  replace (INR (length P) * (3 * (D * 0 / L) + 0)) with 0 in N' by (field; lra).
  apply Rabs_le_inv in N'. lra.
Qed.

Lemma area_in_shoelace Q : area_in [] Q = shoelace Q.
Proof.
  unfold area_in, gsum, shoelace. induction (poly_edges Q) as [|e E IH]; cbn [map sumR]; [lra|]. rewrite IH. cbn [gs]. ring.
Qed.

(** the area of the part of a convex polygon inside the half-planes *)
Theorem area_in_exact : forall l r Q, convex_ccw (dd Q) -> (forall u v, In (u, v) (chain r l) -> u <> v) ->
  area_of (fun p => in_poly (dd Q) p /\ forall u v, In (u, v) (chain r l) -> 0 <= orient u v p) (area_in (chain r l) Q).
Proof.
  induction l as [|s l IH]; intros r Q HC HN.
  - cbn [chain]. rewrite area_in_shoelace, <- shoelace_dd. apply area_of_dd; auto. intros p. split; [tauto|].
    intros Hp. split; auto. intros u v [].
  - cbn [chain]. pose proof (HN r s (or_introl eq_refl)) as Hrs.
    assert (Qne : Q <> []) by (pose proof (dd_length Q); destruct HC as (L & _); destruct Q; [cbn in *; lia|discriminate]).
    rewrite <- (sh_area r s (chain s l) Q Hrs Qne).
    destruct (sh_step r s Q HC) as [(E0 & Hout)|(HC2 & HL2 & HR)].
    + rewrite E0, area_in_nil. right. split; auto. exists r, s. split; auto.
      intros p (Hp & Hc). pose proof (Hc r s (or_introl eq_refl)) as H1.
      apply in_poly_hull in Hp; auto. destruct Hp as (ws & El & Hpos & Hs & ->).
      rewrite (comb_orient r s ws _ El Hs) in *.
      assert (H2 : 0 <= wsum (fun v => - orient r s v) ws (dd Q)).
      { apply wsum_nonneg; auto. intros v Hv. pose proof (Hout v Hv). lra. }
      assert (Eo : forall ws vs, wsum (fun v => - orient r s v) ws vs = - wsum (orient r s) ws vs).
      { clear. induction ws as [|w ws IH]; intros [|v vs]; unfold wsum; cbn; try lra.
        specialize (IH vs). unfold wsum in IH. cbn in IH. rewrite IH. lra. }
      rewrite Eo in H2. lra.
    + assert (HN' : forall u v, In (u, v) (chain s l) -> u <> v) by (intros u v Huv; apply HN; now right).
      eapply area_of_ext; [|exact (IH s (sh r s Q) HC2 HN')]. intros p. cbn beta. rewrite HR. split.
      * intros ((H1 & H2) & H3). split; auto. intros u v [Huv|Huv]; [inversion Huv; subst; auto|auto].
      * intros (H1 & H2). split; [split; auto; apply H2; now left|]. intros u v Huv. apply H2. now right.
Qed.

(** ** Nearly convex polygons *)
Section Near.
  Definition pairs_ok (eta : R) (p : pt) (l : list pt) : Prop := ForallOrdPairs (fun x y => - eta <= orient p x y) l.
  Fixpoint nearly (eta : R) (l : list pt) : Prop :=
    match l with [] => True | p :: l => pairs_ok eta p l /\ nearly eta l end.

  (** the points of Q follow the path a, l, in order, each near a side *)
  Variables (r : pt) (D kap : R).
  Hypothesis Hkap : 0 <= kap.
  (** x can take the place of a point of the side a b *)
  Definition near_side (a b x : pt) : Prop :=
    win r D x /\ exists x', on_segment a b x' /\ forall p q, win r D p -> win r D q -> Rabs (orient p q x - orient p q x') <= kap.
  Inductive follows : pt -> list pt -> list pt -> Prop :=
  | fol_nil a l : follows a l []
  | fol_skip a b l Q : follows b l Q -> follows a (b :: l) Q
  | fol_here a l Q : follows a l Q -> follows a l (a :: Q)
  | fol_side a b l x Q : near_side a b x -> follows b l Q -> follows a (b :: l) (x :: Q).

  Lemma follows_win a l Q : follows a l Q -> win r D a -> Forall (win r D) l -> Forall (win r D) Q.
  Proof.
    induction 1 as [a l|a b l Q H IH|a l Q H IH|a b l x Q Hx H IH]; intros Wa Wl; [constructor| | |].
    - apply Forall_cons_iff in Wl as (Wb & Wl). auto.
    - constructor; auto.
    - apply Forall_cons_iff in Wl as (Wb & Wl). constructor; [apply Hx|auto].
  Qed.

  Lemma seg_ge (p q a b x' : pt) m : - m <= orient p q a -> - m <= orient p q b -> on_segment a b x' -> - m <= orient p q x'.
  Proof. intros Ha Hb (t & Ht & ->). rewrite orient_at. nra. Qed.

  (** level one *)
  Lemma follows_1 p q m a l Q : win r D p -> win r D q -> follows a l Q -> Forall (fun y => - m <= orient p q y) (a :: l) ->
    Forall (fun y => - (m + kap) <= orient p q y) Q.
  Proof.
    intros Wp Wq. induction 1 as [a l|a b l Q H IH|a l Q H IH|a b l x Q Hx H IH]; intros F; [constructor| | |].
    - apply IH. now inversion F.
    - constructor; auto. inversion F; subst. lra.
    - constructor; [|apply IH; now inversion F].
      apply Forall_cons_iff in F as (Fa & F). apply Forall_cons_iff in F as (Fb & F).
      destruct Hx as (_ & x' & Sg & Hx). pose proof (seg_ge p q a b x' m Fa Fb Sg). specialize (Hx p q Wp Wq). apply Rabs_le_inv in Hx. lra.
  Qed.

  Lemma pairs_head eta p a l : 0 <= eta -> pairs_ok eta p (a :: l) -> Forall (fun y => - eta <= orient p a y) (a :: l).
  Proof.
    intros He H. inversion H as [|? ? Fa F]; subst. constructor; auto. rewrite orient_22. lra.
  Qed.

  (** level two *)
  Lemma follows_2 p m a l Q : 0 <= m -> win r D p -> win r D a -> Forall (win r D) l -> follows a l Q -> pairs_ok m p (a :: l) ->
    pairs_ok (m + 2 * kap) p Q.
  Proof.
    intros Hm Wp Wa Wl H. revert Wa Wl. induction H as [a l|a b l Q H IH|a l Q H IH|a b l x Q Hx H IH]; intros Wa Wl F; [constructor| | |].
    - apply Forall_cons_iff in Wl as (Wb & Wl). apply IH; auto. now inversion F.
    - constructor; [|now apply IH]. pose proof (pairs_head m p a l Hm F) as F1.
      pose proof (follows_1 p a m a l Q Wp Wa H F1) as G. eapply Forall_impl; [|exact G]. cbn. intros y Hy. lra.
    - apply Forall_cons_iff in Wl as (Wb & Wl). assert (F' : pairs_ok m p (b :: l)) by (now inversion F).
      constructor; [|now apply IH].
      pose proof (pairs_head m p b l Hm F') as Fb. pose proof (pairs_head m p a (b :: l) Hm F) as Fa. apply Forall_cons_iff in Fa as (_ & Fa).
      pose proof (follows_1 p a m b l Q Wp Wa H Fa) as Ga. pose proof (follows_1 p b m b l Q Wp Wb H Fb) as Gb.
      pose proof (follows_win b l Q H Wb Wl) as WQ. rewrite Forall_forall in *. intros y Hy.
      destruct Hx as (Wx & x' & Sg & Hx). specialize (Ga y Hy). specialize (Gb y Hy). specialize (WQ y Hy).
      rewrite orient_rot, orient_rot in Ga, Gb. pose proof (seg_ge y p a b x' (m + kap) Ga Gb Sg) as G.
      specialize (Hx y p WQ Wp). apply Rabs_le_inv in Hx. rewrite orient_rot, orient_rot. lra.
  Qed.

  Lemma nearly_head m a l : 0 <= m -> nearly m (a :: l) -> pairs_ok m a (a :: l).
  Proof.
    intros Hm (H & _). constructor; auto. rewrite Forall_forall. intros y _. rewrite orient_11. lra.
  Qed.

  (** level three *)
  Lemma follows_3 m a l Q : 0 <= m -> win r D a -> Forall (win r D) l -> follows a l Q -> nearly m (a :: l) -> nearly (m + 3 * kap) Q.
  Proof.
    intros Hm Wa Wl H. revert Wa Wl. induction H as [a l|a b l Q H IH|a l Q H IH|a b l x Q Hx H IH]; intros Wa Wl F; [constructor| | |].
    - apply Forall_cons_iff in Wl as (Wb & Wl). apply IH; auto. now destruct F.
    - split; [|now apply IH]. pose proof (nearly_head m a l Hm F) as F1.
      pose proof (follows_2 a m a l Q Hm Wa Wa Wl H F1) as G. unfold pairs_ok in *.
      clear - G Hkap. induction G as [|y Q Hy HQ IH]; constructor; auto. eapply Forall_impl; [|exact Hy]. cbn. intros z Hz. lra.
    - apply Forall_cons_iff in Wl as (Wb & Wl). assert (F' : nearly m (b :: l)) by (now destruct F).
      split; [|now apply IH].
      pose proof (nearly_head m b l Hm F') as Fb. assert (Fa : pairs_ok m a (b :: l)) by (now destruct F).
      pose proof (follows_2 a m b l Q Hm Wa Wb Wl H Fa) as Ga. pose proof (follows_2 b m b l Q Hm Wb Wb Wl H Fb) as Gb.
      pose proof (follows_win b l Q H Wb Wl) as WQ. destruct Hx as (Wx & x' & Sg & Hx).
      unfold pairs_ok in *. clear - Ga Gb WQ Wx Sg Hx Hkap. induction Ga as [|y Q Ha HQ IH]; [constructor|].
      apply Forall_cons_iff in WQ as (Wy & WQ). inversion Gb as [|? ? Hb HQb]; subst. constructor; auto.
      rewrite Forall_forall in *. intros z Hz. specialize (Ha z Hz). specialize (Hb z Hz). specialize (WQ z Hz).
      rewrite orient_rot in Ha, Hb. pose proof (seg_ge y z a b x' _ Ha Hb Sg) as G.
      specialize (Hx y z Wy WQ). apply Rabs_le_inv in Hx. rewrite orient_rot. lra.
  Qed.
End Near.

(** going round once more *)
Lemma nearly_last m P d : 0 <= m -> P <> [] -> nearly m P -> nearly m (last P d :: P).
Proof.
  intros Hm HP H. cbn [nearly]. split; auto. unfold pairs_ok.
  destruct (exists_last HP) as (l & z & ->). rewrite last_last. clear HP d.
  (* pairs within l, and pairs with the last point *)
  induction l as [|x l IH]; [constructor; constructor|].
  destruct H as (H1 & H2). cbn [app]. constructor; [|now apply IH].
  rewrite Forall_forall. intros y Hy. apply in_app_or in Hy as [Hy|[<-|[]]].
  - rewrite orient_rot. clear IH H2. unfold pairs_ok in H1. induction l as [|w l IHl]; [destruct Hy|].
    cbn [app] in H1. inversion H1 as [|? ? G1 G2]; subst. destruct Hy as [->|Hy]; [|now apply IHl].
    rewrite Forall_forall in G1. apply G1. apply in_or_app. right. now left.
  - replace (orient z x z) with 0 by (unfold orient; ring). lra.
Qed.

(** a convex polygon *)
Lemma chain_pairs p p1 : forall l, NoDup (p :: p1 :: l) ->
  (forall u v w, In (u, v) (chain p (p1 :: l)) -> In w (p :: p1 :: l) -> w <> u -> w <> v -> 0 < orient u v w) ->
  pairs_ok 0 p (p1 :: l).
Proof.
  intros l ND H.
  assert (Hp : forall x, In x l -> 0 < orient p p1 x).
  { intros x Hx. apply H; [now left|right; now right| |]; intros ->.
    - inversion ND as [|? ? N _]; subst. apply N. now right.
    - inversion ND as [|? ? _ N']; subst. inversion N'; contradiction. }
  assert (He : forall u v, In (u, v) (chain p1 l) -> 0 <= orient p u v).
  { intros u v Huv. rewrite orient_rot. destruct (pt_dec p u) as [->|N1]; [rewrite orient_12; lra|].
    destruct (pt_dec p v) as [->|N2]; [rewrite orient_22; lra|]. left. apply H; auto; [now right|now left]. }
  clear H.
  assert (G : forall l u v, (u = v \/ 0 < orient p p1 v) -> 0 <= orient p u v -> 0 <= orient p p1 u ->
     (forall x, In x l -> 0 < orient p p1 x) -> (forall a b, In (a, b) (chain v l) -> 0 <= orient p a b) ->
     Forall (fun y => - 0 <= orient p u y) l).
  { clear. induction l as [|w l IH]; intros u v Hv Huv Hu Hp He; [constructor|].
    assert (Huw : 0 <= orient p u w).
    { pose proof (He v w (or_introl eq_refl)) as Hvw. pose proof (Hp w (or_introl eq_refl)) as Hw.
      destruct Hv as [->|Hv]; auto.
      assert (E : orient p p1 v * orient p u w = orient p p1 u * orient p v w + orient p p1 w * orient p u v) by (unfold orient; ring).
      apply (Rmult_le_reg_l (orient p p1 v)); auto. rewrite E, Rmult_0_r.
      apply Rplus_le_le_0_compat; apply Rmult_le_pos; lra. }
    constructor; [lra|]. apply (IH u w); auto; [right; apply Hp; now left|intros x Hx; apply Hp; now right|].
    intros a b Hab. apply He. now right. }
  assert (G2 : forall l u, 0 <= orient p p1 u -> (forall x, In x l -> 0 < orient p p1 x) ->
     (forall a b, In (a, b) (chain u l) -> 0 <= orient p a b) -> pairs_ok 0 p (u :: l)).
  { clear - G. induction l as [|w l IH]; intros u Hu Hp He; [constructor; constructor|].
    constructor; [apply (G (w :: l) u u); auto; rewrite orient_22; lra|]. apply IH.
    - left. apply Hp. now left.
    - intros x Hx. apply Hp. now right.
    - intros a b Hab. apply He. now right. }
  apply G2; auto. rewrite orient_22. lra.
Qed.

Lemma chain_nearly : forall l p, NoDup (p :: l) ->
  (forall u v w, In (u, v) (chain p l) -> In w (p :: l) -> w <> u -> w <> v -> 0 < orient u v w) -> nearly 0 (p :: l).
Proof.
  induction l as [|p1 l IH]; intros p ND H; [split; constructor|]. split; [now apply chain_pairs|].
  apply IH; [now inversion ND|]. intros u v w Huv Hw. apply H; now right.
Qed.

Lemma convex_nearly P : convex_ccw P -> nearly 0 P.
Proof.
  intros (_ & ND & H). destruct P as [|p l]; [exact I|]. apply chain_nearly; auto.
  intros u v w Huv. apply H. rewrite edges_cons. now right.
Qed.

(** the fan of a nearly convex polygon *)
Lemma nearly_fan m a l : nearly m (a :: l) -> forall u v, In (u, v) (chain a l) -> - Rmax m 0 <= orient a u v.
Proof.
  intros (H & _). unfold pairs_ok in H. pose proof (Rmax_l m 0). pose proof (Rmax_r m 0).
  destruct l as [|b l]; [intros u v []|]. intros u v [E|Huv]; [inversion E; subst; rewrite orient_11; lra|].
  revert b H Huv. induction l as [|c l IH]; intros b H Huv; [destruct Huv|].
  inversion H as [|? ? F1 F2]; subst. destruct Huv as [E|Huv]; [|now apply (IH c)].
  inversion E; subst. apply Forall_cons_iff in F1 as (F1 & _). lra.
Qed.

(** ** Points near a side *)
Definition closep (eps : R) (a b x : pt) : Prop :=
  exists x', on_segment a b x' /\ Rabs (px x - px x') <= eps /\ Rabs (py x - py x') <= eps.

Lemma orient_move r D eps p q x x' : win r D p -> win r D q -> Rabs (px x - px x') <= eps -> Rabs (py x - py x') <= eps ->
  Rabs (orient p q x - orient p q x') <= 4 * (D * eps).
Proof.
  intros (P1 & P2) (Q1 & Q2) E1 E2.
  replace (orient p q x - orient p q x') with ((px q - px p) * (py x - py x') + - ((py q - py p) * (px x - px x'))) by (unfold orient; ring).
  assert (G : forall u v z a b c, Rabs (u - z) <= a -> Rabs (v - z) <= a -> Rabs (b - c) <= eps -> Rabs ((u - v) * (b - c)) <= 2 * (a * eps)).
  { clear. intros u v z a b c H1 H2 H3. rewrite Rabs_mult. apply Rle_trans with (2 * a * eps); [|right; ring].
    apply Rmult_le_compat; auto using Rabs_pos. replace (u - v) with ((u - z) + - (v - z)) by ring.
    eapply Rle_trans; [apply Rabs_triang|]. rewrite Rabs_Ropp. lra. }
  eapply Rle_trans; [apply Rabs_triang|]. rewrite Rabs_Ropp.
  pose proof (G _ _ _ D _ _ Q1 P1 E2). pose proof (G _ _ _ D _ _ Q2 P2 E1). lra.
Qed.

Lemma close_side r D eps a b x : win r D x -> closep eps a b x -> near_side r D (4 * (D * eps)) a b x.
Proof.
  intros Wx (x' & Sg & E1 & E2). split; auto. exists x'. split; auto. intros p q Wp Wq. now apply (orient_move r).
Qed.
Lemma close_thin r D eps a b x : win r D a -> win r D b -> closep eps a b x -> Rabs (orient a x b) <= 2 * (2 * (D * eps)).
Proof.
  intros Wa Wb (x' & (t & Ht & ->) & E1 & E2). rewrite <- (orient_rot b a x).
  pose proof (orient_move r D eps b a x _ Wb Wa E1 E2) as H.
  replace (orient b a (at_ a b t)) with 0 in H by (unfold orient, at_; cbn; ring). rewrite Rminus_0_r in H. lra.
Qed.
