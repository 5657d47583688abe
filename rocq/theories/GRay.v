(** Ray casting on convex polygons over exact reals. *)
From Verif Require Import RBase MGeometry SpecPoly GTriangle GConvex GCyrus.
Open Scope R_scope.

Ltac ne := first [assumption | lra | intro; lra].

(** ** Crossings of the horizontal ray *)
Definition up (h : R) (e : pt * pt) : bool := Rle_bool (py (fst e)) h && Rlt_bool h (py (snd e)).
Definition down (h : R) (e : pt * pt) : bool := Rle_bool (py (snd e)) h && Rlt_bool h (py (fst e)).
Definition upx (p : pt) (e : pt * pt) : bool := up (py p) e && Rlt_bool 0 (orient (fst e) (snd e) p).
Definition downx (p : pt) (e : pt * pt) : bool := down (py p) e && Rlt_bool (orient (fst e) (snd e) p) 0.
Definition par {A} (f : A -> bool) (l : list A) : bool := fold_right (fun x b => xorb (f x) b) false l.

Lemma up_iff h u v : up h (u, v) = true <-> py u <= h < py v.
Proof. unfold up. cbn. repeat rcase; cbn; split; intros; try discriminate; try lra; auto. Qed.
Lemma down_iff h u v : down h (u, v) = true <-> py v <= h < py u.
Proof. unfold down. cbn. repeat rcase; cbn; split; intros; try discriminate; try lra; auto. Qed.

Lemma div_lt_pos x d q : 0 < d -> (x < q / d <-> x * d < q).
Proof.
  intros Hd. assert (E : q / d * d = q) by (field; lra). split; intros H.
  - rewrite <- E. now apply Rmult_lt_compat_r.
  - apply (Rmult_lt_reg_r d); auto. now rewrite E.
Qed.
Lemma div_lt_neg x d q : d < 0 -> (x < q / d <-> q < x * d).
Proof.
  intros Hd. assert (E : q / d * d = q) by (field; lra). split; intros H.
  - rewrite <- E. apply Rmult_lt_gt_compat_neg_l with (r := d) in H; auto. lra.
  - apply Ropp_lt_cancel. apply (Rmult_lt_reg_r (- d)); [lra|]. lra.
Qed.

Lemma crosses_eq p u v : crosses p u v = Ok (xorb (upx p (u, v)) (downx p (u, v))).
Proof.
  unfold crosses, upx, downx, up, down, ndiv. rsimp.
  destruct (Rlt_bool_spec (py p) (py u)) as [H1|H1], (Rlt_bool_spec (py p) (py v)) as [H2|H2]; cbn [Bool.eqb negb].
  - repeat rcase; try (exfalso; lra); reflexivity.
  - assert (Hd : py v - py u < 0) by lra.
    rewrite Req_bool_false by lra. cbn [bind].
    pose proof (div_lt_neg (px p - px u) (py v - py u) ((px v - px u) * (py p - py u)) Hd) as HD.
    unfold orient. repeat rcase; cbn; try reflexivity; exfalso; unfold Rdiv in *; lra.
  - assert (Hd : 0 < py v - py u) by lra.
    rewrite Req_bool_false by lra. cbn [bind].
    pose proof (div_lt_pos (px p - px u) (py v - py u) ((px v - px u) * (py p - py u)) Hd) as HD.
    unfold orient. repeat rcase; cbn; try reflexivity; exfalso; unfold Rdiv in *; lra.
  - repeat rcase; try (exfalso; lra); reflexivity.
Qed.

Lemma par_xorb {A} (f g : A -> bool) l : par (fun x => xorb (f x) (g x)) l = xorb (par f l) (par g l).
Proof.
  induction l as [|x l IH]; auto. cbn. fold (par f l) (par g l) in *.
  unfold par in IH at 1. cbn in IH. rewrite IH.
  destruct (f x), (g x), (par f l), (par g l); reflexivity.
Qed.

Definition inside (p : pt) (E : list (pt * pt)) : bool := xorb (par (upx p) E) (par (downx p) E).

Lemma inside_cons p e E : inside p (e :: E) = xorb (xorb (upx p e) (downx p e)) (inside p E).
Proof.
  unfold inside. cbn. fold (par (upx p) E) (par (downx p) E).
  destruct (upx p e), (downx p e), (par (upx p) E), (par (downx p) E); reflexivity.
Qed.

Lemma pip_loop_eq p : forall l v0 c, point_in_polygon_loop p v0 l c = Ok (xorb c (inside p (chain v0 l))).
Proof.
  induction l as [|v1 l IH]; intros v0 c.
  - cbn. now rewrite xorb_false_r.
  - cbn [point_in_polygon_loop chain]. rewrite crosses_eq. cbn [bind]. rewrite IH, inside_cons.
    destruct (xorb (upx p (v0, v1)) (downx p (v0, v1))), c, (inside p (chain v1 l)); reflexivity.
Qed.

Lemma aget_last' (poly : list pt) d : poly <> [] -> aget poly (-1)%Z = Ok (last poly d).
Proof. intros H. rewrite (app_removelast_last d H) at 1. apply aget_last. Qed.

Lemma point_in_polygon_eq p poly : poly <> [] -> point_in_polygon p poly = Ok (inside p (poly_edges poly)).
Proof.
  intros H. unfold point_in_polygon. rewrite (aget_last' poly (Pt 0 0) H). cbn [bind].
  rewrite pip_loop_eq. now rewrite xorb_false_l.
Qed.

(** ** At most one crossing of each kind on a convex polygon *)
Lemma par_none {A} (f : A -> bool) l : (forall x, In x l -> f x = false) -> par f l = false.
Proof.
  induction l as [|x l IH]; intros H; auto. cbn. fold (par f l).
  rewrite (H x (or_introl eq_refl)), IH; [reflexivity|]. intros y Hy. apply H. now right.
Qed.
Lemma par_one {A} (f : A -> bool) l : NoDup l -> (forall x y, In x l -> In y l -> f x = true -> f y = true -> x = y) ->
  par f l = existsb f l.
Proof.
  induction l as [|x l IH]; intros Hn H; auto. inversion Hn; subst. cbn. fold (par f l).
  destruct (f x) eqn:Ex.
  - rewrite par_none; auto. intros y Hy. destruct (f y) eqn:Ey; auto.
    assert (x = y) by (apply H; auto; [now left|now right]). subst. contradiction.
  - rewrite IH; auto; [now destruct (existsb f l)|]. intros y z Hy Hz. apply H; now right.
Qed.

(** where a side meets the horizontal line at height h *)
Definition level (h : R) (u v : pt) : R := (h - py u) / (py v - py u).
Lemma level_y h u v : py u <> py v -> py (at_ u v (level h u v)) = h.
Proof. intros H. unfold level, at_. cbn. field. lra. Qed.
Lemma level_up h u v : py u <= h < py v -> 0 <= level h u v < 1.
Proof.
  intros H. unfold level. assert (E : (h - py u) / (py v - py u) * (py v - py u) = h - py u) by (field; lra).
  split.
  - apply (Rmult_le_reg_r (py v - py u)); lra.
  - apply (Rmult_lt_reg_r (py v - py u)); lra.
Qed.
Lemma level_down h u v : py v <= h < py u -> 0 < level h u v <= 1.
Proof.
  intros H. unfold level. assert (E : (h - py u) / (py v - py u) * (py u - py v) = py u - h) by (field; lra).
  split.
  - apply (Rmult_lt_reg_r (py u - py v)); lra.
  - apply (Rmult_le_reg_r (py u - py v)); lra.
Qed.

Lemma orient_level h u v q : py u <> py v -> py q = h ->
  orient u v q = (py v - py u) * (px (at_ u v (level h u v)) - px q).
Proof. intros H <-. unfold level, orient, at_. cbn. field. lra. Qed.

Section Convex.
  Variable poly : list pt.
  Hypothesis HC : convex_ccw poly.
  Notation E := (poly_edges poly).

  Let nodup : NoDup poly. Proof. apply HC. Qed.

  Lemma side_in u v t : In (u, v) E -> 0 <= t <= 1 -> in_poly poly (at_ u v t).
  Proof.
    intros He Ht. destruct (edges_in _ _ _ He). apply in_poly_at; auto; now apply vertex_in_poly.
  Qed.

  Lemma up_unique h x y : In x E -> In y E -> up h x = true -> up h y = true -> x = y.
  Proof.
    destruct x as (a, b), y as (c, d). intros Hx Hy Ux Uy. rewrite up_iff in Ux, Uy.
    pose proof (level_up h a b Ux) as L1. pose proof (level_up h c d Uy) as L2.
    assert (Y1 : py (at_ a b (level h a b)) = h) by (apply level_y; ne).
    assert (Y2 : py (at_ c d (level h c d)) = h) by (apply level_y; ne).
    pose proof (side_in a b (level h a b) Hx ltac:(lra) c d Hy) as O1.
    pose proof (side_in c d (level h c d) Hy ltac:(lra) a b Hx) as O2.
    pose proof O1 as O1'.
    rewrite (orient_level h) in O1, O2 by ne.
    assert (px (at_ c d (level h c d)) = px (at_ a b (level h a b))).
    { assert (K : forall k z, 0 < k -> 0 <= k * z -> 0 <= z)
        by (intros k z Hk Hz; apply (Rmult_le_reg_l k); lra).
      apply K in O1; [|lra]. apply K in O2; [|lra]. lra. }
    assert (O : orient c d (at_ a b (level h a b)) = 0)
      by (rewrite (orient_level h) by ne; rewrite H; ring).
    rewrite orient_at in O.
    destruct (edges_in _ _ _ Hx) as (Ia & Ib).
    pose proof (orient_vertex poly c d a HC Hy Ia) as Oa. pose proof (orient_vertex poly c d b HC Hy Ib) as Ob.
    assert (0 <= level h a b * orient c d b) by (apply Rmult_le_pos; lra).
    assert (Z : (1 - level h a b) * orient c d a = 0).
    { assert (0 <= (1 - level h a b) * orient c d a) by (apply Rmult_le_pos; lra). lra. }
    apply Rmult_integral in Z as [Z|Z]; [lra|].
    destruct (pt_dec a c) as [->|Nc].
    - f_equal. eapply edges_start_unique; eauto.
    - destruct (pt_dec a d) as [->|Nd]; [lra|].
      destruct HC as (_ & _ & HS). pose proof (HS c d a Hy Ia Nc Nd). lra.
  Qed.

  Lemma down_unique h x y : In x E -> In y E -> down h x = true -> down h y = true -> x = y.
  Proof.
    destruct x as (a, b), y as (c, d). intros Hx Hy Ux Uy. rewrite down_iff in Ux, Uy.
    pose proof (level_down h a b Ux) as L1. pose proof (level_down h c d Uy) as L2.
    assert (Y1 : py (at_ a b (level h a b)) = h) by (apply level_y; ne).
    assert (Y2 : py (at_ c d (level h c d)) = h) by (apply level_y; ne).
    pose proof (side_in a b (level h a b) Hx ltac:(lra) c d Hy) as O1.
    pose proof (side_in c d (level h c d) Hy ltac:(lra) a b Hx) as O2.
    rewrite (orient_level h) in O1, O2 by ne.
    assert (px (at_ c d (level h c d)) = px (at_ a b (level h a b))).
    { assert (K : forall k z, k < 0 -> 0 <= k * z -> z <= 0)
        by (intros k z Hk Hz; apply Ropp_le_cancel; apply (Rmult_le_reg_l (- k)); lra).
      apply K in O1; [|lra]. apply K in O2; [|lra]. lra. }
    assert (O : orient c d (at_ a b (level h a b)) = 0)
      by (rewrite (orient_level h) by ne; rewrite H; ring).
    rewrite orient_at in O.
    destruct (edges_in _ _ _ Hx) as (Ia & Ib).
    pose proof (orient_vertex poly c d a HC Hy Ia) as Oa. pose proof (orient_vertex poly c d b HC Hy Ib) as Ob.
    assert (0 <= (1 - level h a b) * orient c d a) by (apply Rmult_le_pos; lra).
    assert (Z : level h a b * orient c d b = 0).
    { assert (0 <= level h a b * orient c d b) by (apply Rmult_le_pos; lra). lra. }
    apply Rmult_integral in Z as [Z|Z]; [lra|].
    destruct (pt_dec b d) as [->|Nd].
    - f_equal. eapply edges_end_unique; eauto.
    - destruct (pt_dec b c) as [->|Nc]; [lra|].
      destruct HC as (_ & _ & HS). pose proof (HS c d b Hy Ib Nc Nd). lra.
  Qed.
End Convex.

(** ** Closed chains switch back *)
Lemma switch1 (f : pt -> bool) : forall l v0, f v0 = false -> existsb f l = true ->
  exists a b, In (a, b) (chain v0 l) /\ f a = false /\ f b = true.
Proof.
  induction l as [|x l IH]; intros v0 H0 H; [discriminate|]. cbn in H.
  destruct (f x) eqn:Ex.
  - exists v0, x. split; [now left|auto].
  - destruct (IH x Ex H) as (a & b & Hab & Hf). exists a, b. split; [now right|auto].
Qed.
Lemma switch2 (f : pt -> bool) : forall l v0, f (last l v0) = true ->
  (f v0 = false \/ exists x, In x l /\ f x = false) ->
  exists a b, In (a, b) (chain v0 l) /\ f a = false /\ f b = true.
Proof.
  induction l as [|x l IH]; intros v0 Hl H.
  - cbn in Hl. destruct H as [H|(x & [] & _)]. congruence.
  - rewrite last_cons in Hl. destruct (f v0) eqn:E0.
    + destruct H as [H|(y & [<-|Hy] & Hf)]; [discriminate| |].
      * destruct (IH x Hl (or_introl Hf)) as (a & b & Hab & K). exists a, b. split; [now right|auto].
      * destruct (IH x Hl) as (a & b & Hab & K); [right; eauto|]. exists a, b. split; [now right|auto].
    + apply switch1; auto. cbn. destruct l as [|y l]; [cbn in Hl; now rewrite Hl|].
      apply orb_true_iff. right. apply existsb_exists. exists (last (y :: l) x). split; [apply last_in; discriminate|auto].
Qed.
Lemma switch (f : pt -> bool) poly x y : In x poly -> In y poly -> f x = false -> f y = true ->
  exists a b, In (a, b) (poly_edges poly) /\ f a = false /\ f b = true.
Proof.
  intros Hx Hy Fx Fy. unfold poly_edges. destruct poly as [|z l]; [destruct Hx|].
  remember (z :: l) as poly. set (w := last poly (Pt 0 0)). destruct (f w) eqn:Ew.
  - apply switch2; [|right; eauto]. subst poly w. rewrite last_cons. rewrite last_cons in Ew. auto.
  - apply switch1; auto. apply existsb_exists. eauto.
Qed.

Section Convex2.
  Variable poly : list pt.
  Hypothesis HC : convex_ccw poly.
  Notation E := (poly_edges poly).

  Lemma inside_convex p : inside p E = xorb (existsb (upx p) E) (existsb (downx p) E).
  Proof.
    assert (Hn : NoDup E) by (apply edges_nodup, HC).
    unfold inside. rewrite !par_one; auto.
    - intros x y Hx Hy Fx Fy. apply andb_prop in Fx as (Fx & _), Fy as (Fy & _). eapply down_unique; eauto.
    - intros x y Hx Hy Fx Fy. apply andb_prop in Fx as (Fx & _), Fy as (Fy & _). eapply up_unique; eauto.
  Qed.

  Lemma low_high_up p x y : In x poly -> In y poly -> py x <= py p -> py p < py y ->
    (exists a b, In (a, b) E /\ py a <= py p < py b) /\ (exists a b, In (a, b) E /\ py b <= py p < py a).
  Proof.
    intros Hx Hy Lx Ly. split.
    - destruct (switch (fun v => Rlt_bool (py p) (py v)) poly x y Hx Hy) as (a & b & Hab & Fa & Fb); rb; rsimp.
      + now apply Rlt_bool_false.
      + now apply Rlt_bool_true.
      + exists a, b. split; [auto|lra].
    - destruct (switch (fun v => Rle_bool (py v) (py p)) poly y x Hy Hx) as (a & b & Hab & Fa & Fb); rb; rsimp.
      + now apply Rle_bool_false.
      + now apply Rle_bool_true.
      + exists a, b. split; [auto|lra].
  Qed.

  Lemma inside_interior p : interior poly p -> inside p E = true.
  Proof.
    intros Hp. rewrite inside_convex.
    destruct (interior_beyond poly p 0 1 HC Hp) as (y & Hy & Ly); [right; lra|].
    destruct (interior_beyond poly p 0 (-1) HC Hp) as (x & Hx & Lx); [right; lra|].
    destruct (low_high_up p x y Hx Hy) as ((a & b & Hab & U) & _); [lra|lra|].
    replace (existsb (upx p) E) with true; [replace (existsb (downx p) E) with false; [reflexivity|]|]; symmetry.
    - destruct (existsb (downx p) E) eqn:D; auto. apply existsb_exists in D as ((c, d) & Hcd & D).
      apply andb_prop in D as (_ & D). cbn in D. rb. specialize (Hp c d Hcd). lra.
    - apply existsb_exists. exists (a, b). split; auto. unfold upx. apply andb_true_iff. split.
      + now apply up_iff.
      + cbn. now apply Rlt_bool_true, Hp.
  Qed.

  Lemma inside_in_poly p : inside p E = true -> in_poly poly p.
  Proof.
    intros H. rewrite inside_convex in H.
    assert (UD : (exists a b, In (a, b) E /\ py a <= py p < py b) /\ (exists a b, In (a, b) E /\ py b <= py p < py a)).
    { destruct (existsb (upx p) E) eqn:U.
      - apply existsb_exists in U as ((a, b) & Hab & U). apply andb_prop in U as (U & _).
        apply up_iff in U. destruct (edges_in _ _ _ Hab). apply (low_high_up p a b); tauto.
      - destruct (existsb (downx p) E) eqn:D; [|discriminate].
        apply existsb_exists in D as ((a, b) & Hab & D). apply andb_prop in D as (D & _).
        apply down_iff in D. destruct (edges_in _ _ _ Hab). apply (low_high_up p b a); tauto. }
    destruct UD as ((a & b & Hab & U) & (c & d & Hcd & D)).
    pose proof (level_up _ _ _ U) as L1. pose proof (level_down _ _ _ D) as L2.
    set (q1 := at_ a b (level (py p) a b)) in *. set (q2 := at_ c d (level (py p) c d)) in *.
    assert (Y1 : py q1 = py p) by (apply level_y; ne).
    assert (Y2 : py q2 = py p) by (apply level_y; ne).
    assert (I1 : in_poly poly q1) by (apply side_in; auto; lra).
    assert (I2 : in_poly poly q2) by (apply side_in; auto; lra).
    assert (Q : px q2 <= px q1).
    { pose proof (I2 a b Hab) as O. rewrite (orient_level (py p)) in O by ne. fold q1 in O.
      assert (0 <= px q1 - px q2) by (apply (Rmult_le_reg_l (py b - py a)); lra). lra. }
    assert (EU : existsb (upx p) E = Rlt_bool (px p) (px q1)).
    { destruct (Rlt_bool_spec (px p) (px q1)) as [Hl|Hl].
      - apply existsb_exists. exists (a, b). split; auto. apply andb_true_iff. split; [now apply up_iff|].
        cbn. apply Rlt_bool_true. rewrite (orient_level (py p)) by ne. fold q1.
        apply Rmult_lt_0_compat; lra.
      - destruct (existsb (upx p) E) eqn:U'; auto. apply existsb_exists in U' as (e & He & U').
        apply andb_prop in U' as (U1 & U2).
        assert (e = (a, b)) by (eapply (up_unique poly HC (py p)); eauto; now apply up_iff). subst e.
        cbn in U2. rb. rewrite (orient_level (py p)) in U2 by ne. fold q1 in U2.
        assert (0 <= (py b - py a) * (px p - px q1)) by (apply Rmult_le_pos; lra). lra. }
    assert (ED : existsb (downx p) E = Rlt_bool (px p) (px q2)).
    { destruct (Rlt_bool_spec (px p) (px q2)) as [Hl|Hl].
      - apply existsb_exists. exists (c, d). split; auto. apply andb_true_iff. split; [now apply down_iff|].
        cbn. apply Rlt_bool_true. rewrite (orient_level (py p)) by ne. fold q2.
        assert (0 < (py c - py d) * (px q2 - px p)) by (apply Rmult_lt_0_compat; lra). lra.
      - destruct (existsb (downx p) E) eqn:U'; auto. apply existsb_exists in U' as (e & He & U').
        apply andb_prop in U' as (U1 & U2).
        assert (e = (c, d)) by (eapply (down_unique poly HC (py p)); eauto; now apply down_iff). subst e.
        cbn in U2. rb. rewrite (orient_level (py p)) in U2 by ne. fold q2 in U2.
        assert (0 <= (py c - py d) * (px p - px q2)) by (apply Rmult_le_pos; lra). lra. }
    rewrite EU, ED in H. revert H. repeat rcase; intros HH; try discriminate; try (exfalso; lra).
    assert (Ep : exists t, 0 <= t <= 1 /\ p = at_ q2 q1 t).
    { exists ((px p - px q2) / (px q1 - px q2)).
      assert (E0 : (px p - px q2) / (px q1 - px q2) * (px q1 - px q2) = px p - px q2) by (field; lra).
      split.
      - split; apply (Rmult_le_reg_r (px q1 - px q2)); lra.
      - apply pt_eq; unfold at_; cbn [px py]; [lra|]. rewrite Y1, Y2. ring. }
    destruct Ep as (t & Ht & Ep). rewrite Ep. now apply in_poly_at.
  Qed.
End Convex2.

(** ** The test with an edge tolerance *)
Definition nearb (p : pt) (tol : R) (e : pt * pt) : bool :=
  negb (point_eqb (snd e) (fst e))
  && (within_perpendicular_distance (cross_product (to_vector p (fst e)) (to_vector p (snd e)))
                                    (to_vector (fst e) (snd e)) tol
      && in_bounds p (fst e) (snd e)).

Lemma point_eqb_iff (a b : pt) : point_eqb a b = true <-> a = b.
Proof.
  unfold point_eqb. rsimp. repeat rcase; cbn; split; intros; try discriminate; try congruence; auto.
  now apply pt_eq.
Qed.

Lemma inside_same p v : xorb (upx p (v, v)) (downx p (v, v)) = false.
Proof. unfold upx, downx, up, down. cbn. repeat rcase; cbn; try reflexivity; exfalso; lra. Qed.

Lemma pip_or_edge_loop_eq p tol : forall l v0 c,
  pip_or_edge_loop p tol v0 (to_vector p v0) l c
  = Ok (if existsb (nearb p tol) (chain v0 l) then true else xorb c (inside p (chain v0 l))).
Proof.
  induction l as [|v1 l IH]; intros v0 c.
  - cbn. now rewrite xorb_false_r.
  - cbn [pip_or_edge_loop chain existsb]. cbv zeta. rewrite inside_cons.
    unfold nearb at 1. cbn [fst snd].
    destruct (point_eqb v1 v0) eqn:Ev.
    + apply point_eqb_iff in Ev. subst v1. cbn [negb andb orb]. rewrite IH, inside_same.
      destruct (existsb _ _); auto. now rewrite xorb_false_l.
    + cbn [negb andb].
      destruct (within_perpendicular_distance _ _ _ && in_bounds p v0 v1); cbn [orb]; [reflexivity|].
      rewrite crosses_eq. cbn [bind]. rewrite IH.
      destruct (existsb _ _); auto.
      destruct (xorb (upx p (v0, v1)) (downx p (v0, v1))), c, (inside p (chain v1 l)); reflexivity.
Qed.

Lemma pip_or_edge_eq p poly tol : poly <> [] -> point_in_polygon_or_on_edge p poly tol
  = Ok (if existsb (nearb p tol) (poly_edges poly) then true else inside p (poly_edges poly)).
Proof.
  intros H. unfold point_in_polygon_or_on_edge. rewrite (aget_last' poly (Pt 0 0) H). cbn [bind].
  rewrite pip_or_edge_loop_eq. now rewrite xorb_false_l.
Qed.

Lemma cross_orient p u v : cross_product (to_vector p u) (to_vector p v) = orient u v p.
Proof. unfold cross_product, to_vector, orient. rsimp. ring. Qed.

Lemma nearb_near p tol u v : 0 <= tol -> nearb p tol (u, v) = true -> near_segment (2 * tol) u v p.
Proof.
  intros Ht H. unfold nearb in H. cbn [fst snd] in H. rewrite cross_orient in H.
  apply andb_prop in H as (_ & H). apply andb_prop in H as (H1 & H2).
  eapply near_edge_near; eauto.
Qed.

Lemma nearb_on p tol u v : 0 < tol -> u <> v -> on_segment u v p -> nearb p tol (u, v) = true.
Proof.
  intros Ht Hn Ho. unfold nearb. cbn [fst snd]. rewrite cross_orient.
  rewrite in_bounds_on_segment by auto. rewrite andb_true_r.
  destruct (point_eqb v u) eqn:E; [apply point_eqb_iff in E; congruence|]. cbn [negb andb].
  destruct Ho as (t & _ & ->). rewrite orient_at, orient_12, orient_22.
  unfold within_perpendicular_distance, length_squared, to_vector. rsimp.
  apply Rlt_bool_true.
  assert (0 < (px v - px u) * (px v - px u) + (py v - py u) * (py v - py u)).
  { destruct (Req_dec (px v) (px u)) as [Ex|Ex]; [destruct (Req_dec (py v) (py u)) as [Ey|Ey]|].
    - destruct Hn. now apply pt_eq.
    - pose proof (Rle_0_sqr (px v - px u)) as H1. unfold Rsqr in H1.
      assert (H2 : 0 < Rsqr (py v - py u)) by (apply Rsqr_pos_lt; lra). unfold Rsqr in H2. lra.
    - pose proof (Rle_0_sqr (py v - py u)) as H1. unfold Rsqr in H1.
      assert (H2 : 0 < Rsqr (px v - px u)) by (apply Rsqr_pos_lt; lra). unfold Rsqr in H2. lra. }
  replace ((0 + t * (0 - 0)) * (0 + t * (0 - 0))) with 0 by ring.
  apply Rmult_lt_0_compat; auto. apply Rmult_lt_0_compat; auto.
Qed.

Section Convex3.
  Variable poly : list pt.
  Hypothesis HC : convex_ccw poly.

  Let nonempty : poly <> [].
  Proof. destruct HC as (Hl & _). destruct poly; [cbn in Hl; lia|discriminate]. Qed.

  Lemma pip_edge_sound p tol : 0 <= tol -> point_in_polygon_or_on_edge p poly tol = Ok true ->
    in_poly poly p \/ exists u v, In (u, v) (poly_edges poly) /\ near_segment (2 * tol) u v p.
  Proof.
    intros Ht H. rewrite pip_or_edge_eq in H by auto.
    destruct (existsb (nearb p tol) (poly_edges poly)) eqn:En.
    - right. apply existsb_exists in En as ((u, v) & He & Hn). exists u, v. split; auto. now apply nearb_near.
    - left. apply inside_in_poly; auto. congruence.
  Qed.

  Lemma pip_edge_interior p tol : interior poly p -> point_in_polygon_or_on_edge p poly tol = Ok true.
  Proof.
    intros H. rewrite pip_or_edge_eq by auto. destruct (existsb _ _); auto. now rewrite inside_interior.
  Qed.

  Lemma pip_edge_complete p tol : 0 < tol -> in_poly poly p -> point_in_polygon_or_on_edge p poly tol = Ok true.
  Proof.
    intros Ht H. destruct (in_poly_cases _ _ H) as [Hi|(u & v & He & Ho)]; [now apply pip_edge_interior|].
    rewrite pip_or_edge_eq by auto.
    replace (existsb (nearb p tol) (poly_edges poly)) with true; auto. symmetry.
    apply existsb_exists. exists (u, v). split; auto. apply nearb_on; auto.
    - destruct HC as (Hl & Hn & _). eapply edges_neq; eauto. lia.
    - eapply on_side; eauto.
  Qed.

  (** without tolerance: the plain ray casting test *)
  Lemma pip_interior p : interior poly p -> point_in_polygon p poly = Ok true.
  Proof. intros H. rewrite point_in_polygon_eq by auto. now rewrite inside_interior. Qed.
  Lemma pip_sound p : point_in_polygon p poly = Ok true -> in_poly poly p.
  Proof. intros H. rewrite point_in_polygon_eq in H by auto. apply inside_in_poly; auto. congruence. Qed.
End Convex3.
