(** Ray casting on polygons that are not convex, over exact reals. *)
From Verif Require Import RBase MUtils MGeometry SpecPoly SpecMesh SpecHang SpecConcave GTriangle GConvex GHull GCyrus GRay GFaces GArea GClipArea GHang.
From Coq Require Import Permutation.
Open Scope R_scope.

(** ** The parity is locally constant away from the sides *)
Definition close (d : R) (p q : pt) : Prop := Rabs (px q - px p) < d /\ Rabs (py q - py p) < d.
Definition lowb (p w : pt) : bool := Rle_bool (py w) (py p).
Definition flipb (p q w : pt) : bool := Rlt_bool (px p) (px w) && xorb (lowb p w) (lowb q w).

Lemma close_le d d' p q : d <= d' -> close d p q -> close d' p q.
Proof. intros H (A & B). split; lra. Qed.

Lemma orient_close u v p q d : close d p q ->
  Rabs (orient u v q - orient u v p) <= (Rabs (px v - px u) + Rabs (py v - py u)) * d.
Proof.
  intros (A & B). replace (orient u v q - orient u v p) with ((px v - px u) * (py q - py p) + - ((py v - py u) * (px q - px p))) by (unfold orient; ring).
  eapply Rle_trans; [apply Rabs_triang|]. rewrite Rabs_Ropp, !Rabs_mult, Rmult_plus_distr_r.
  apply Rplus_le_compat; apply Rmult_le_compat_l; try apply Rabs_pos; lra.
Qed.

Lemma orient_gap u v p : orient u v p <> 0 -> exists d, 0 < d /\ forall q, close d p q ->
  (0 < orient u v p -> 0 < orient u v q) /\ (orient u v p < 0 -> orient u v q < 0).
Proof.
  intros H. set (K := Rabs (px v - px u) + Rabs (py v - py u)).
  assert (HK : 0 <= K) by (unfold K; pose proof (Rabs_pos (px v - px u)); pose proof (Rabs_pos (py v - py u)); lra).
  pose proof (Rabs_pos_lt _ H) as HA.
  exists (Rabs (orient u v p) / (K + 1)). split; [apply Rdiv_lt_0_compat; lra|]. intros q Hq.
  apply (orient_close u v) in Hq. fold K in Hq.
  assert (L : K * (Rabs (orient u v p) / (K + 1)) < Rabs (orient u v p)).
  { apply (Rmult_lt_reg_r (K + 1)); [lra|]. replace (K * (Rabs (orient u v p) / (K + 1)) * (K + 1)) with (K * Rabs (orient u v p)) by (field; lra). lra. }
  assert (D : Rabs (orient u v q - orient u v p) < Rabs (orient u v p)) by lra.
  apply Rabs_def2 in D. split; intros S; [rewrite Rabs_pos_eq in D by lra|rewrite Rabs_left in D by lra]; lra.
Qed.
Lemma height_gap w p : exists d, 0 < d /\ forall q, close d p q ->
  (py p < py w -> py q < py w) /\ (py w < py p -> py w < py q).
Proof.
  destruct (Req_dec (py w) (py p)) as [E|E].
  - exists 1. split; [lra|]. intros q _. lra.
  - exists (Rabs (py w - py p)). split; [apply Rabs_pos_lt; lra|]. intros q (_ & B). apply Rabs_def2 in B.
    split; intros; [rewrite Rabs_pos_eq in B by lra|rewrite Rabs_left in B by lra]; lra.
Qed.

(** on the line through the side, but not on the side *)
Lemma off_line u v p : ~ on_segment u v p -> orient u v p = 0 ->
  (py p < py u /\ py p < py v) \/ (py u < py p /\ py v < py p)
  \/ (py u = py p /\ py v = py p /\ (px p < px u <-> px p < px v)).
Proof.
  intros Hn Ho.
  destruct (Req_dec (py u) (py v)) as [E|E].
  - destruct (Req_dec (py u) (py p)) as [E2|E2]; [|lra].
    right. right. split; [lra|]. split; [lra|].
    destruct (Rlt_dec (px p) (px u)) as [A|A], (Rlt_dec (px p) (px v)) as [B|B]; try tauto; exfalso; apply Hn.
    + assert (C : px v - px u <> 0) by lra. exists ((px p - px u) / (px v - px u)).
      set (k := (px p - px u) / (px v - px u)). assert (K : k * (px u - px v) = px u - px p) by (unfold k; field; lra).
      split; [split|].
      * apply (Rmult_le_reg_r (px u - px v)); lra.
      * apply (Rmult_le_reg_r (px u - px v)); lra.
      * apply pt_eq; unfold at_; cbn; [lra|]. rewrite <- E. lra.
    + assert (C : px v - px u <> 0) by lra. exists ((px p - px u) / (px v - px u)).
      set (k := (px p - px u) / (px v - px u)). assert (K : k * (px v - px u) = px p - px u) by (unfold k; field; lra).
      split; [split|].
      * apply (Rmult_le_reg_r (px v - px u)); lra.
      * apply (Rmult_le_reg_r (px v - px u)); lra.
      * apply pt_eq; unfold at_; cbn; [lra|]. rewrite <- E. lra.
  - set (k := (py p - py u) / (py v - py u)).
    assert (K : k * (py v - py u) = py p - py u) by (unfold k; field; lra).
    assert (KX : p = at_ u v k).
    { apply pt_eq; unfold at_; cbn; [|lra].
      assert ((px p - px u) * (py v - py u) = k * (px v - px u) * (py v - py u)).
      { unfold orient in Ho. replace (k * (px v - px u) * (py v - py u)) with ((px v - px u) * (k * (py v - py u))) by ring. rewrite K. lra. }
      apply Rmult_eq_reg_r in H; lra. }
    destruct (Rlt_le_dec k 0) as [L|L].
    + destruct (Rlt_dec (py u) (py v)) as [G|G].
      * assert (k * (py v - py u) < 0) by (assert (0 < - k * (py v - py u)) by (apply Rmult_lt_0_compat; lra); lra). left. lra.
      * assert (0 < k * (py v - py u)) by (assert (0 < - k * (py u - py v)) by (apply Rmult_lt_0_compat; lra); lra). right. left. lra.
    + destruct (Rlt_le_dec 1 k) as [M|M].
      * destruct (Rlt_dec (py u) (py v)) as [G|G].
        -- assert (0 < (k - 1) * (py v - py u)) by (apply Rmult_lt_0_compat; lra). right. left. lra.
        -- assert (0 < (k - 1) * (py u - py v)) by (apply Rmult_lt_0_compat; lra). left. lra.
      * exfalso. apply Hn. exists k. auto.
Qed.

Ltac rdec := repeat (match goal with
  | |- context[Rle_bool ?a ?b] => first [rewrite (Rle_bool_true a b) by lra|rewrite (Rle_bool_false a b) by lra|destruct (Rle_bool_spec a b)]
  | |- context[Rlt_bool ?a ?b] => first [rewrite (Rlt_bool_true a b) by lra|rewrite (Rlt_bool_false a b) by lra|destruct (Rlt_bool_spec a b)]
  end; cbn [andb orb xorb negb]); try reflexivity.
Ltac spec := repeat match goal with H : (_ < _) -> _ |- _ => first [specialize (H ltac:(lra))|clear H] end.
Lemma pos_sign a b : 0 < a -> (0 < a * b -> 0 < b) /\ (a * b < 0 -> b < 0).
Proof.
  intros Ha. split; intros H; apply Rnot_le_lt; intros L.
  - assert (0 <= a * - b) by (apply Rmult_le_pos; lra). lra.
  - assert (0 <= a * b) by (apply Rmult_le_pos; lra). lra.
Qed.

Lemma cross_local u v p : ~ on_segment u v p -> exists d, 0 < d /\ forall q, close d p q ->
  crossb q (u, v) = xorb (crossb p (u, v)) (xorb (flipb p q u) (flipb p q v)).
Proof.
  intros Hn. destruct (height_gap u p) as (d1 & D1 & H1). destruct (height_gap v p) as (d2 & D2 & H2).
  destruct (Req_dec (orient u v p) 0) as [Ho|Ho].
  - exists (Rmin d1 d2). split; [now apply Rmin_glb_lt|]. intros q Hq.
    assert (C1 : close d1 p q) by (eapply close_le; [apply Rmin_l|exact Hq]). assert (C2 : close d2 p q) by (eapply close_le; [apply Rmin_r|exact Hq]).
    destruct (H1 q C1) as (P1 & P2). destruct (H2 q C2) as (P3 & P4). clear H1 H2 C1 C2 Hq D1 D2. unfold crossb, upx, downx, up, down, flipb, lowb. cbn [fst snd].
    destruct (off_line u v p Hn Ho) as [(A & B)|[(A & B)|(A & B & C)]]; spec.
    + rdec.
    + rdec.
    + destruct (Rlt_bool_spec (px p) (px u)) as [X|X], (Rlt_bool_spec (px p) (px v)) as [Y|Y]; try (exfalso; tauto || lra); rdec.
  - destruct (orient_gap u v p Ho) as (d3 & D3 & H3).
    exists (Rmin (Rmin d1 d2) d3). split; [repeat apply Rmin_glb_lt; auto|]. intros q Hq.
    assert (C0 : close (Rmin d1 d2) p q) by (eapply close_le; [apply Rmin_l|exact Hq]).
    assert (C1 : close d1 p q) by (eapply close_le; [apply Rmin_l|exact C0]). assert (C2 : close d2 p q) by (eapply close_le; [apply Rmin_r|exact C0]).
    assert (C3 : close d3 p q) by (eapply close_le; [apply Rmin_r|exact Hq]).
    destruct (H1 q C1) as (P1 & P2). destruct (H2 q C2) as (P3 & P4). destruct (H3 q C3) as (P5 & P6). clear H1 H2 H3 C0 C1 C2 C3 Hq D1 D2 D3.
    assert (K1 : py u = py p -> orient u v p = (py v - py p) * (px u - px p)) by (intros E; unfold orient; rewrite E; ring).
    assert (K2 : py v = py p -> orient u v p = (py p - py u) * (px v - px p)) by (intros E; unfold orient; rewrite E; ring).
    unfold crossb, upx, downx, up, down, flipb, lowb. cbn [fst snd].
    set (o := orient u v p) in *. set (o' := orient u v q) in *. clearbody o o'.
    apply Rdichotomy in Ho.
    destruct Ho as [Ho|Ho], (Rtotal_order (py u) (py p)) as [A|[A|A]], (Rtotal_order (py v) (py p)) as [B|[B|B]]; spec.
    all: try (specialize (K1 A)); try (specialize (K2 B)).
    all: try (rewrite K1, B in Ho; exfalso; lra).
    all: try (pose proof (pos_sign (py p - py u) (px v - px p) ltac:(lra)) as (S1 & S2)).
    all: try (pose proof (pos_sign (py u - py p) (px p - px v) ltac:(lra)) as (S1 & S2)).
    all: try (pose proof (pos_sign (py v - py p) (px u - px p) ltac:(lra)) as (S3 & S4)).
    all: try (pose proof (pos_sign (py p - py v) (px p - px u) ltac:(lra)) as (S3 & S4)).
    all: spec; rdec.
Qed.

Lemma par_ext_in {A} (f g : A -> bool) l : (forall x, In x l -> f x = g x) -> par f l = par g l.
Proof.
  induction l as [|x l IH]; intros H; auto. cbn. fold (par f l) (par g l).
  rewrite (H x) by now left. f_equal. apply IH. intros y Hy. apply H. now right.
Qed.
Lemma edges_local E p : (forall u v, In (u, v) E -> ~ on_segment u v p) -> exists d, 0 < d /\ forall q, close d p q ->
  forall e, In e E -> crossb q e = xorb (crossb p e) (xorb (flipb p q (fst e)) (flipb p q (snd e))).
Proof.
  induction E as [|(u, v) E IH]; intros H.
  - exists 1. split; [lra|]. intros q _ e [].
  - destruct IH as (d & Hd & K); [intros a b Hab; apply H; now right|].
    destruct (cross_local u v p (H u v (or_introl eq_refl))) as (d' & Hd' & K').
    exists (Rmin d d'). split; [now apply Rmin_glb_lt|]. intros q Hq e [<-|He].
    + apply K'. eapply close_le; [apply Rmin_r|exact Hq].
    + apply K; auto. eapply close_le; [apply Rmin_l|exact Hq].
Qed.
Lemma chain_telescope (t : pt -> bool) : forall l v0,
  par (fun e => xorb (t (fst e)) (t (snd e))) (chain v0 l) = xorb (t v0) (t (last l v0)).
Proof.
  induction l as [|v l IH]; intros v0.
  - cbn. now destruct (t v0).
  - cbn [chain par fold_right fst snd]. unfold par in IH. rewrite IH.
    rewrite (last_cons l v v0).
    now destruct (t v0), (t v), (t (last l v)).
Qed.
Lemma inside_local Q p : ~ on_outline Q p -> exists d, 0 < d /\ forall q, close d p q ->
  inside q (poly_edges Q) = inside p (poly_edges Q).
Proof.
  intros H. destruct (edges_local (poly_edges Q) p) as (d & Hd & K).
  { intros u v He Ho. apply H. exists u, v. auto. }
  exists d. split; auto. intros q Hq. rewrite !inside_par. rewrite (par_ext_in _ _ _ (K q Hq)).
  rewrite par_xorb. unfold poly_edges. rewrite (chain_telescope (flipb p q)).
  destruct Q as [|x Q]; [cbn; now destruct (flipb _ _ _)|].
  rewrite (last_default (x :: Q) (last (x :: Q) (Pt 0 0)) (Pt 0 0)) by discriminate.
  rewrite xorb_nilpotent. now rewrite xorb_false_r.
Qed.

(** ** Polygons cut along chords *)
Lemma crossb_swap p u v : crossb p (v, u) = crossb p (u, v).
Proof.
  unfold crossb, upx, downx, up, down. cbn [fst snd]. rewrite (orient_swap v u p).
  repeat rcase; cbn; try reflexivity; exfalso; lra.
Qed.
Lemma par_app {A} (f : A -> bool) l l' : par f (l ++ l') = xorb (par f l) (par f l').
Proof.
  induction l as [|x l IH].
  - cbn [app]. change (par f []) with false. now rewrite xorb_false_l.
  - change (par f ((x :: l) ++ l')) with (xorb (f x) (par f (l ++ l'))). change (par f (x :: l)) with (xorb (f x) (par f l)).
    rewrite IH. now rewrite xorb_assoc.
Qed.

Lemma chord_edges u v l1 l2 :
  poly_edges (u :: l1 ++ [v]) = (v, u) :: chain u (l1 ++ [v])
  /\ poly_edges (v :: l2 ++ [u]) = (u, v) :: chain v l2 ++ [(last l2 v, u)]
  /\ poly_edges (u :: l1 ++ v :: l2) = (last l2 v, u) :: chain u (l1 ++ [v]) ++ chain v l2.
Proof.
  unfold poly_edges. split; [|split].
  - change (u :: l1 ++ [v]) with ((u :: l1) ++ [v]). rewrite last_last. reflexivity.
  - change (v :: l2 ++ [u]) with ((v :: l2) ++ [u]). rewrite last_last. cbn [app chain]. rewrite chain_app. reflexivity.
  - replace (u :: l1 ++ v :: l2) with ((u :: l1 ++ [v]) ++ l2) at 1 2 by (cbn; now rewrite <- app_assoc).
    replace (last ((u :: l1 ++ [v]) ++ l2) (Pt 0 0)) with (last l2 v).
    + cbn [app chain]. rewrite chain_app, last_last. reflexivity.
    + destruct l2 as [|x l2]; [rewrite app_nil_r; change (u :: l1 ++ [v]) with ((u :: l1) ++ [v]); now rewrite last_last|].
      rewrite last_app_ne by discriminate. apply last_default. discriminate.
Qed.

Lemma cut_nonempty Q Ps : cut Q Ps -> Q <> [].
Proof.
  induction 1 as [Q H|l1 l2 Ps _ IH|u v l1 l2 Ps Qs _ _ _ _].
  - destruct (hanging_outline Q H) as (P & HP). exact (outline_nonempty P Q HP).
  - intros E. apply app_eq_nil in E as (-> & ->). auto.
  - discriminate.
Qed.
Lemma cut_inside Q Ps p : cut Q Ps -> inside p (poly_edges Q) = par (fun P => inside p (poly_edges P)) Ps.
Proof.
  induction 1 as [Q H|l1 l2 Ps _ IH|u v l1 l2 Ps Qs _ IH1 _ IH2].
  - cbn. now rewrite xorb_false_r.
  - rewrite <- IH. apply inside_perm, edges_rot.
  - rewrite par_app, <- IH1, <- IH2. destruct (chord_edges u v l1 l2) as (-> & -> & ->).
    rewrite !inside_par. cbn [par fold_right]. fold (par (crossb p)).
    change (fold_right (fun x b => xorb (crossb p x) b) false) with (par (crossb p)).
    rewrite !par_app. cbn [par fold_right]. rewrite (crossb_swap p u v).
    destruct (crossb p (u, v)), (crossb p (last l2 v, u)), (par (crossb p) (chain u (l1 ++ [v]))), (par (crossb p) (chain v l2)); reflexivity.
Qed.
Lemma cut_pieces Q Ps : cut Q Ps -> forall P, In P Ps -> hanging_face P /\ forall w, In w P -> In w Q.
Proof.
  induction 1 as [Q H|l1 l2 Ps _ IH|u v l1 l2 Ps Qs _ IH1 _ IH2]; intros P HP.
  - destruct HP as [<-|[]]. auto.
  - destruct (IH P HP) as (A & B). split; auto. intros w Hw. specialize (B w Hw). rewrite in_app_iff in *. tauto.
  - apply in_app_iff in HP as [HP|HP].
    + destruct (IH1 P HP) as (A & B). split; auto. intros w Hw. specialize (B w Hw). cbn in *. rewrite in_app_iff in *. cbn in *. tauto.
    + destruct (IH2 P HP) as (A & B). split; auto. intros w Hw. specialize (B w Hw). cbn in *. rewrite in_app_iff in *. cbn in *. tauto.
Qed.
Lemma cut_sides Q Ps : cut Q Ps -> forall e, In e (poly_edges Q) -> exists P, In P Ps /\ In e (poly_edges P).
Proof.
  induction 1 as [Q H|l1 l2 Ps _ IH|u v l1 l2 Ps Qs _ IH1 _ IH2]; intros e He.
  - exists Q. cbn. auto.
  - apply IH. now apply edges_rot_in.
  - destruct (chord_edges u v l1 l2) as (E1 & E2 & E3). rewrite E1 in IH1. rewrite E2 in IH2. rewrite E3 in He.
    assert (C : In e (chain u (l1 ++ [v])) \/ In e (chain v l2 ++ [(last l2 v, u)])).
    { destruct He as [<-|He]; [right; apply in_app_iff; right; now left|]. apply in_app_iff in He as [He|He]; auto. right. apply in_app_iff. auto. }
    destruct C as [C|C].
    + destruct (IH1 e (or_intror C)) as (P & HP & He'). exists P. split; auto. apply in_app_iff. auto.
    + destruct (IH2 e (or_intror C)) as (P & HP & He'). exists P. split; auto. apply in_app_iff. auto.
Qed.

Lemma piece_sound P p : hanging_face P -> inside p (poly_edges P) = true -> hull P p.
Proof.
  intros H Hi. destruct (hanging_outline P H) as (C & HC). apply (outline_hull C P HC). pose proof HC as (Hc & _).
  apply in_poly_hull; auto. apply inside_in_poly; auto. now rewrite <- (outline_inside C P HC).
Qed.
Lemma piece_open P p : hanging_face P -> open_hull P p -> inside p (poly_edges P) = true.
Proof.
  intros H Hi. destruct (hanging_outline P H) as (C & HC). rewrite (outline_inside C P HC). pose proof HC as (Hc & _).
  apply inside_interior; auto. apply interior_open_hull; auto. now apply (outline_open_hull C P HC).
Qed.
Lemma piece_at P p q t : hanging_face P -> open_hull P p -> hull P q -> 0 <= t < 1 -> open_hull P (at_ p q t).
Proof.
  intros H Hp Hq Ht. destruct (hanging_outline P H) as (C & HC). pose proof HC as (Hc & _).
  apply (outline_open_hull C P HC). apply interior_open_hull; auto. apply interior_at; auto.
  - apply interior_open_hull; auto. now apply (outline_open_hull C P HC).
  - apply in_poly_hull; auto. now apply (outline_hull C P HC).
Qed.
Lemma piece_dense P p d : hanging_face P -> hull P p -> 0 < d -> exists q, open_hull P q /\ close d p q.
Proof.
  intros H Hp Hd. destruct (hanging_outline P H) as (C & HC). pose proof HC as (Hc & _).
  destruct (interior_exists C Hc) as (c & Hi). apply interior_open_hull, (outline_open_hull C P HC) in Hi; auto.
  set (K := Rabs (px c - px p) + Rabs (py c - py p)).
  assert (KX : Rabs (px c - px p) <= K) by (unfold K; pose proof (Rabs_pos (py c - py p)); lra).
  assert (KY : Rabs (py c - py p) <= K) by (unfold K; pose proof (Rabs_pos (px c - px p)); lra).
  pose proof (Rabs_pos (px c - px p)) as K0.
  set (s := Rmin 1 (d / (K + 1))). assert (S0 : 0 < s) by (apply Rmin_glb_lt; [lra|apply Rdiv_lt_0_compat; lra]).
  assert (S1 : s <= 1) by apply Rmin_l. assert (S2 : s * (K + 1) <= d).
  { apply Rle_trans with (d / (K + 1) * (K + 1)); [apply Rmult_le_compat_r; [lra|apply Rmin_r]|]. right. field. lra. }
  exists (at_ c p (1 - s)). split; [apply piece_at; auto; lra|].
  assert (B : forall x, Rabs x <= K -> Rabs (s * x) < d).
  { intros x Hx. rewrite Rabs_mult, (Rabs_pos_eq s) by lra.
    apply Rle_lt_trans with (s * K); [apply Rmult_le_compat_l; lra|lra]. }
  split; unfold at_; cbn.
  - replace (px c + (1 - s) * (px p - px c) - px p) with (s * (px c - px p)) by ring. now apply B.
  - replace (py c + (1 - s) * (py p - py c) - py p) with (s * (py c - py p)) by ring. now apply B.
Qed.
Lemma open_not_on P p : hanging_face P -> open_hull P p -> ~ on_outline P p.
Proof.
  intros H Hp (u & v & He & (t & Ht & E)). destruct (hanging_outline P H) as (C & HC). pose proof HC as (Hc & HQ).
  apply (outline_open_hull C P HC), interior_open_hull in Hp; auto.
  assert (Z : orient u v p = 0) by (rewrite E, orient_at, orient_12, orient_22; ring).
  destruct HQ as [HQ|HQ].
  - apply (hanging_interior C P p HQ) in Hp. specialize (Hp u v He). lra.
  - apply (hanging_interior C (rev P) p HQ) in Hp. specialize (Hp v u ltac:(apply edges_rev_in; now rewrite rev_involutive)).
    rewrite (orient_swap u v p) in Hp. lra.
Qed.
(** no second piece counts a point inside a piece *)
Lemma piece_exclusive P P' p : hanging_face P -> hanging_face P' -> (forall x, ~ (open_hull P x /\ open_hull P' x)) ->
  open_hull P p -> inside p (poly_edges P') = false.
Proof.
  intros H H' HD Hp. destruct (inside p (poly_edges P')) eqn:E; auto. exfalso.
  apply (piece_sound P' p H') in E.
  destruct (inside_local P p (open_not_on P p H Hp)) as (d & Hd & K).
  destruct (piece_dense P' p d H' E Hd) as (q & Hq & Hc).
  assert (Hi : hull P q) by (apply piece_sound; auto; rewrite K by auto; now apply piece_open).
  apply (HD (at_ p q (1 / 2))). split.
  - apply piece_at; auto. lra.
  - replace (at_ p q (1 / 2)) with (at_ q p (1 / 2)) by (apply pt_eq; unfold at_; cbn; lra). apply piece_at; auto. lra.
Qed.
Lemma pieces_open Q Ps P p : pieces Q Ps -> In P Ps -> open_hull P p -> inside p (poly_edges Q) = true.
Proof.
  intros (HC & HD) HP Hp. rewrite (cut_inside Q Ps p HC). pose proof (cut_pieces Q Ps HC) as HV.
  assert (HV' : forall P, In P Ps -> hanging_face P) by (intros P' HP'; now apply HV). clear HC HV.
  induction HD as [|P' Ps HF HD IH]; [destruct HP|]. cbn. fold (par (fun P => inside p (poly_edges P)) Ps).
  rewrite Forall_forall in HF. destruct HP as [->|HP].
  - rewrite (piece_open P p (HV' P (or_introl eq_refl)) Hp). rewrite par_none; auto.
    intros P2 H2. apply (piece_exclusive P P2 p); auto; [apply HV'; now left|apply HV'; now right].
  - rewrite (piece_exclusive P P' p); [| apply HV'; now right|apply HV'; now left| |exact Hp].
    + rewrite xorb_false_l. apply IH; auto. intros P2 H2. apply HV'. now right.
    + intros x (A & B). apply (HF P HP x). auto.
Qed.
Lemma par_true {A} (f : A -> bool) l : par f l = true -> exists x, In x l /\ f x = true.
Proof.
  induction l as [|x l IH]; cbn; [discriminate|]. fold (par f l). destruct (f x) eqn:E; [eauto|].
  rewrite xorb_false_l. intros H. destruct (IH H) as (y & Hy & Ey). eauto.
Qed.
Lemma pieces_sound Q Ps p : pieces Q Ps -> inside p (poly_edges Q) = true -> region Ps p.
Proof.
  intros (HC & _) H. rewrite (cut_inside Q Ps p HC) in H. apply par_true in H as (P & HP & H).
  exists P. split; auto. apply piece_sound; auto. eapply cut_pieces; eauto.
Qed.
Lemma pieces_complete Q Ps p : pieces Q Ps -> region Ps p -> ~ on_outline Q p -> inside p (poly_edges Q) = true.
Proof.
  intros HC (P & HP & H) Ho. destruct (inside_local Q p Ho) as (d & Hd & K).
  assert (Hv : hanging_face P) by (destruct HC as (HC & _); eapply cut_pieces; eauto).
  destruct (piece_dense P p d Hv H Hd) as (q & Hq & Hc). rewrite <- (K q Hc). eapply pieces_open; eauto.
Qed.
Lemma pieces_hull Q Ps p : cut Q Ps -> region Ps p -> hull Q p.
Proof.
  intros HC (P & HP & H). destruct (cut_pieces Q Ps HC P HP) as (Hv & Hw).
  destruct (hanging_outline P Hv) as (C & HO). pose proof HO as (Hc & _).
  apply (outline_hull C P HO), in_poly_hull in H; auto.
  destruct (in_poly_fan _ _ Hc H) as (a & b & c & Ha & Hb & Hcc & Ht).
  apply (hull_triangle Q a b c p); auto; apply Hw; now apply (outline_vertex C P HO).
Qed.
Lemma cut_neq Q Ps u v : cut Q Ps -> In (u, v) (poly_edges Q) -> u <> v.
Proof.
  intros HC He. destruct (cut_sides Q Ps HC _ He) as (P & HP & He').
  destruct (hanging_outline P) as (C & HO); [eapply cut_pieces; eauto|]. apply (outline_neq C P HO). exact He'.
Qed.

(** ** The point in polygon test *)
Lemma pieces_pip_sound Q Ps p tol : pieces Q Ps -> 0 <= tol -> point_in_polygon_or_on_edge p Q tol = Ok true ->
  region Ps p \/ near_boundary (2 * tol) Q p.
Proof.
  intros HC Ht H. rewrite pip_or_edge_eq in H by (eapply cut_nonempty; apply HC).
  destruct (existsb (nearb p tol) (poly_edges Q)) eqn:En.
  - right. apply existsb_exists in En as ((u, v) & He & Hn). exists u, v. split; auto. now apply nearb_near.
  - left. apply (pieces_sound Q Ps p HC). congruence.
Qed.
Lemma pieces_pip_open Q Ps p tol : pieces Q Ps -> region Ps p -> ~ on_outline Q p -> point_in_polygon_or_on_edge p Q tol = Ok true.
Proof.
  intros HC Hr Ho. rewrite pip_or_edge_eq by (eapply cut_nonempty; apply HC). destruct (existsb _ _); auto.
  now rewrite (pieces_complete Q Ps p).
Qed.
Lemma pieces_pip_outline Q Ps p tol : pieces Q Ps -> 0 < tol -> on_outline Q p -> point_in_polygon_or_on_edge p Q tol = Ok true.
Proof.
  intros HC Ht (u & v & He & Ho). rewrite pip_or_edge_eq by (eapply cut_nonempty; apply HC).
  replace (existsb (nearb p tol) (poly_edges Q)) with true; auto. symmetry. apply existsb_exists.
  exists (u, v). split; auto. apply nearb_on; auto. eapply cut_neq; eauto. apply HC.
Qed.
Lemma pieces_pip_complete Q Ps p tol : pieces Q Ps -> 0 < tol -> region Ps p -> point_in_polygon_or_on_edge p Q tol = Ok true.
Proof.
  intros HC Ht Hr. rewrite pip_or_edge_eq by (eapply cut_nonempty; apply HC).
  destruct (existsb (nearb p tol) (poly_edges Q)) eqn:E; auto. f_equal. apply (pieces_complete Q Ps p HC Hr).
  intros (u & v & He & Ho). assert (X : existsb (nearb p tol) (poly_edges Q) = true); [|congruence].
  apply existsb_exists. exists (u, v). split; auto. apply nearb_on; auto. eapply cut_neq; eauto. apply HC.
Qed.

(** ** Reversed polygons *)
Lemma hanging_face_rev Q : hanging_face Q -> hanging_face (rev Q).
Proof. intros [H|H]; [right; now rewrite rev_involutive|now left]. Qed.
Lemma cut_rev Q Ps : cut Q Ps -> cut (rev Q) (map (@rev pt) Ps).
Proof.
  induction 1 as [Q H|l1 l2 Ps _ IH|u v l1 l2 Ps Qs _ IH1 _ IH2].
  - cbn. apply cut_convex. now apply hanging_face_rev.
  - rewrite rev_app_distr in *. now apply cut_rot.
  - rewrite map_app.
    replace (rev (u :: l1 ++ v :: l2)) with (rev l2 ++ (v :: rev l1 ++ [u])).
    2:{ cbn [rev]. rewrite rev_app_distr. cbn [rev]. rewrite <- !app_assoc. reflexivity. }
    apply cut_rot. replace ((v :: rev l1 ++ [u]) ++ rev l2) with (v :: rev l1 ++ u :: rev l2) by (cbn; now rewrite <- app_assoc).
    apply cut_chord.
    + replace (v :: rev l1 ++ [u]) with (rev (u :: l1 ++ [v])); auto. cbn [rev]. rewrite rev_app_distr. reflexivity.
    + replace (u :: rev l2 ++ [v]) with (rev (v :: l2 ++ [u])); auto. cbn [rev]. rewrite rev_app_distr. reflexivity.
Qed.
Lemma pieces_rev Q Ps : pieces Q Ps -> pieces (rev Q) (map (@rev pt) Ps).
Proof.
  intros (HC & HD). split; [now apply cut_rev|]. clear HC. induction HD as [|P Ps HF HD IH]; [constructor|].
  cbn [map]. constructor; auto. rewrite Forall_forall in *. intros P' HP' p (A & B). apply in_map_iff in HP' as (P2 & <- & H2).
  apply (HF P2 H2 p). split; [apply (open_hull_either P (rev P) p)|apply (open_hull_either P2 (rev P2) p)]; auto.
Qed.
Lemma region_rev Ps p : region (map (@rev pt) Ps) p <-> region Ps p.
Proof.
  split.
  - intros (P & HP & H). apply in_map_iff in HP as (P2 & <- & H2). exists P2. split; auto. now apply hull_rev.
  - intros (P & HP & H). exists (rev P). split; [now apply in_map|now apply hull_rev].
Qed.
Lemma on_outline_rev Q p : on_outline (rev Q) p <-> on_outline Q p.
Proof.
  assert (G : forall Q, on_outline (rev Q) p -> on_outline Q p).
  { intros Q' (u & v & He & Ho). exists v, u. split; [now apply edges_rev|now apply seg_sym]. }
  split; [apply G|]. intros H. apply G. now rewrite rev_involutive.
Qed.

Lemma convex_hanging Q : convex Q -> hanging_face Q.
Proof. intros [H|H]; [left; exists Q|right; exists (rev Q)]; split; auto; apply hanging_none. Qed.
Lemma hanging_pieces Q : hanging_face Q -> pieces Q [Q].
Proof. intros H. split; [now apply cut_convex|repeat constructor]. Qed.
