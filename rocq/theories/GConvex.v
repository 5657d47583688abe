(** Strictly convex polygons over exact reals: edges, fans of triangles,
    half-planes. *)
From Verif Require Import RBase SpecPoly GTriangle.
Open Scope R_scope.

(** ** Chains of edges *)
Lemma chain_in v0 l u v : In (u, v) (chain v0 l) -> (u = v0 \/ In u l) /\ In v l.
Proof.
  revert v0. induction l as [|x l IH]; intros v0 H; [destruct H|].
  destruct H as [H|H]; [inversion H; subst; simpl; auto|].
  apply IH in H as (H1 & H2). split; simpl; intuition (subst; auto).
Qed.

Lemma last_cons {A} (l : list A) x d : last (x :: l) d = last l x.
Proof.
  revert x d. induction l as [|y l IH]; intros x d; auto.
  change (last (x :: y :: l) d) with (last (y :: l) d). rewrite IH.
  change (last (y :: l) x) with (last (y :: l) x). now rewrite IH.
Qed.

Lemma last_in {A} (l : list A) d : l <> [] -> In (last l d) l.
Proof.
  revert d. induction l as [|x l IH]; intros d H; [congruence|]. rewrite last_cons.
  destruct l as [|y l]; [now left|]. right. apply IH. discriminate.
Qed.

Lemma chain_app v0 l1 l2 : chain v0 (l1 ++ l2) = chain v0 l1 ++ chain (last l1 v0) l2.
Proof.
  revert v0. induction l1 as [|x l IH]; intros v0; auto.
  cbn [app chain]. rewrite IH, last_cons. reflexivity.
Qed.

Lemma chain_fst v0 l : map fst (chain v0 l) = firstn (length l) (v0 :: l).
Proof.
  revert v0. induction l as [|x l IH]; intros v0; auto.
  cbn [chain map length firstn fst]. now rewrite IH.
Qed.
Lemma chain_snd v0 l : map snd (chain v0 l) = l.
Proof. revert v0. induction l as [|x l IH]; intros v0; auto. cbn. now rewrite IH. Qed.
Lemma chain_length v0 l : length (chain v0 l) = length l.
Proof. rewrite <- (map_length snd). now rewrite chain_snd. Qed.

Lemma edges_cons v0 l : poly_edges (v0 :: l) = (last l v0, v0) :: chain v0 l.
Proof. unfold poly_edges. rewrite last_cons. reflexivity. Qed.

Lemma edges_in poly u v : In (u, v) (poly_edges poly) -> In u poly /\ In v poly.
Proof.
  unfold poly_edges. intros H. apply chain_in in H as ([->|H1] & H2); auto.
  split; auto. apply last_in. destruct poly; [destruct H2|discriminate].
Qed.

Lemma removelast_firstn_len {A} (l : list A) x : firstn (length l) (x :: l) = removelast (x :: l).
Proof.
  revert x. induction l as [|y l IH]; intros x; auto.
  cbn [length firstn]. rewrite IH. reflexivity.
Qed.

Lemma edges_fst_perm poly : Permutation (map fst (poly_edges poly)) poly.
Proof.
  destruct poly as [|v0 l]; [constructor|]. rewrite edges_cons. cbn [map fst].
  rewrite chain_fst, removelast_firstn_len.
  rewrite <- (last_cons l v0 v0).
  transitivity (removelast (v0 :: l) ++ [last (v0 :: l) v0]).
  - apply Permutation_cons_append.
  - rewrite <- app_removelast_last; [reflexivity|discriminate].
Qed.
Lemma edges_snd poly : map snd (poly_edges poly) = poly.
Proof. apply chain_snd. Qed.
Lemma edges_length poly : length (poly_edges poly) = length poly.
Proof. apply chain_length. Qed.

(** every vertex starts one side and ends one side *)
Lemma edges_start poly u : In u poly -> exists v, In (u, v) (poly_edges poly).
Proof.
  intros H. apply (Permutation_in _ (Permutation_sym (edges_fst_perm poly))) in H.
  apply in_map_iff in H as ((a, b) & E & H). cbn in E. subst. eauto.
Qed.
Lemma edges_end poly v : In v poly -> exists u, In (u, v) (poly_edges poly).
Proof.
  intros H. rewrite <- (edges_snd poly) in H.
  apply in_map_iff in H as ((a, b) & E & H). cbn in E. subst. eauto.
Qed.

Lemma NoDup_map_inj {A B} (f : A -> B) l x y : NoDup (map f l) -> In x l -> In y l -> f x = f y -> x = y.
Proof.
  induction l as [|z l IH]; intros Hn Hx Hy E; [destruct Hx|].
  cbn in Hn. inversion Hn as [|? ? Hni Hn']; subst.
  destruct Hx as [->|Hx], Hy as [->|Hy]; auto.
  - destruct Hni. rewrite E. now apply in_map.
  - destruct Hni. rewrite <- E. now apply in_map.
Qed.

Lemma edges_start_unique poly u v w : NoDup poly ->
  In (u, v) (poly_edges poly) -> In (u, w) (poly_edges poly) -> v = w.
Proof.
  intros Hn H1 H2. assert (E : (u, v) = (u, w)).
  { eapply (NoDup_map_inj fst); eauto.
    eapply Permutation_NoDup; [symmetry; apply edges_fst_perm|exact Hn]. }
  congruence.
Qed.
Lemma edges_end_unique poly u v w : NoDup poly ->
  In (u, w) (poly_edges poly) -> In (v, w) (poly_edges poly) -> u = v.
Proof.
  intros Hn H1 H2. assert (E : (u, w) = (v, w)).
  { eapply (NoDup_map_inj snd); eauto. now rewrite edges_snd. }
  congruence.
Qed.
Lemma edges_nodup poly : NoDup poly -> NoDup (poly_edges poly).
Proof. intros H. apply (NoDup_map_inv snd). now rewrite edges_snd. Qed.

(** the two ends of a side of a polygon without repeated vertices differ *)
Lemma edges_neq poly u v : NoDup poly -> (2 <= length poly)%nat -> In (u, v) (poly_edges poly) -> u <> v.
Proof.
  intros Hn Hl H ->. destruct poly as [|v0 [|v1 l]]; try (cbn in Hl; lia). clear Hl.
  rewrite edges_cons in H. destruct H as [H|H].
  - assert (E : last (v1 :: l) v0 = v0) by congruence.
    inversion Hn as [|? ? N0 _]; subst. apply N0. rewrite <- E at 1. apply last_in. discriminate.
  - revert H. remember (v1 :: l) as m. clear Heqm v1 l. revert v0 Hn.
    induction m as [|x m IH]; intros v0 Hn H; [destruct H|]. inversion Hn; subst.
    destruct H as [H|H]; [inversion H; subst; apply H2; now left|]. eapply IH; eauto.
Qed.

(** ** Affine functions *)
Definition aff (a b c : R) (p : pt) : R := a * px p + b * py p + c.

Lemma orient_aff u v p :
  orient u v p = aff (- (py v - py u)) (px v - px u) ((py v - py u) * px u - (px v - px u) * py u) p.
Proof. unfold orient, aff. ring. Qed.

Lemma aff_at a b c p q t : aff a b c (at_ p q t) = aff a b c p + t * (aff a b c q - aff a b c p).
Proof. unfold aff, at_. cbn. ring. Qed.

Lemma orient_at u v p q t : orient u v (at_ p q t) = orient u v p + t * (orient u v q - orient u v p).
Proof. unfold orient, at_. cbn. ring. Qed.

Lemma tri_aff a b c p : in_triangle a b c p -> exists u v w, 0 <= u /\ 0 <= v /\ 0 <= w /\ u + v + w = 1
  /\ (forall x y z, aff x y z p = u * aff x y z a + v * aff x y z b + w * aff x y z c)
  /\ (forall x y, orient x y p = u * orient x y a + v * orient x y b + w * orient x y c).
Proof.
  intros (u & v & w & Hu & Hv & Hw & E & Ex & Ey). exists u, v, w.
  assert (A : forall x y z, aff x y z p = u * aff x y z a + v * aff x y z b + w * aff x y z c).
  { intros x y z. unfold aff. rewrite Ex, Ey. replace u with (1 - v - w) by lra. ring. }
  repeat split; auto. intros x y. rewrite !orient_aff. apply A.
Qed.

(** ** The fan of triangles at a vertex *)
Lemma orient_rot a b c : orient a b c = orient b c a.
Proof. unfold orient. ring. Qed.
Lemma orient_swap a b c : orient b a c = - orient a b c.
Proof. unfold orient. ring. Qed.
Lemma orient_12 a b : orient a b a = 0. Proof. unfold orient. ring. Qed.
Lemma orient_22 a b : orient a b b = 0. Proof. unfold orient. ring. Qed.
Lemma orient_11 a b : orient a a b = 0. Proof. unfold orient. ring. Qed.

Lemma fan v0 p : forall l u, l <> [] -> 0 <= orient v0 u p -> orient v0 (last l u) p <= 0 ->
  (forall a b, In (a, b) (chain u l) -> 0 <= orient a b p /\ 0 < orient a b v0) ->
  exists a b, In (a, b) (chain u l) /\ in_triangle v0 a b p.
Proof.
  induction l as [|x l IH]; intros u Hl Hu Hlast H; [congruence|].
  destruct (Rle_dec (orient v0 x p) 0) as [Hx|Hx].
  - destruct (H u x (or_introl eq_refl)) as (H1 & H2).
    exists u, x. split; [now left|]. rewrite <- orient_rot in H2.
    apply (orient_in_triangle v0 u x p ltac:(lra) 1); try lra.
    rewrite (orient_swap v0 x). lra.
  - destruct l as [|y l]; [cbn in Hlast; lra|].
    destruct (IH x) as (a & b & Hab & Ht).
    + discriminate.
    + lra.
    + now rewrite last_cons in Hlast.
    + intros a b Hab. apply H. now right.
    + exists a, b. split; auto. now right.
Qed.

Lemma in_poly_fan poly p : convex_ccw poly -> in_poly poly p ->
  exists a b c, In a poly /\ In b poly /\ In c poly /\ in_triangle a b c p.
Proof.
  intros (Hl & Hn & Hc) Hp.
  destruct poly as [|v0 [|v1 [|v2 l]]]; try (cbn in Hl; lia).
  remember (v2 :: l) as m eqn:Em.
  assert (Hm : m <> []) by (subst; discriminate).
  pose proof (edges_cons v0 (v1 :: m)) as HE. cbn [chain] in HE. rewrite last_cons in HE.
  assert (E0 : In (last m v1, v0) (poly_edges (v0 :: v1 :: m))) by (rewrite HE; now left).
  assert (E1 : In (v0, v1) (poly_edges (v0 :: v1 :: m))) by (rewrite HE; right; now left).
  assert (E2 : forall a b, In (a, b) (chain v1 m) -> In (a, b) (poly_edges (v0 :: v1 :: m)))
    by (intros a b H; rewrite HE; right; now right).
  inversion Hn as [|? ? N0 Hn1]; subst x l0. inversion Hn1 as [|? ? N1 Hn2]; subst x l0.
  destruct (fan v0 p m v1 Hm) as (a & b & Hab & Ht).
  - apply Hp; auto.
  - specialize (Hp _ _ E0). rewrite (orient_swap (last m v1) v0). lra.
  - intros a b Hab. split; [apply Hp; auto|].
    destruct (chain_in _ _ _ _ Hab) as (Ha & Hb). apply Hc; auto; [now left| |].
    + intros ->. apply N0. destruct Ha as [->|Ha]; [now left|now right].
    + intros ->. apply N0. now right.
  - destruct (chain_in _ _ _ _ Hab) as (Ha & Hb). exists v0, a, b.
    repeat split; auto; [now left| |]; right.
    + destruct Ha as [->|Ha]; [now left|now right].
    + now right.
Qed.

(** vertices are in the polygon; so is everything between points of it *)
Lemma orient_vertex poly u v w : convex_ccw poly -> In (u, v) (poly_edges poly) -> In w poly ->
  0 <= orient u v w.
Proof.
  intros (_ & _ & Hc) He Hw. destruct (pt_dec w u) as [->|Hu]; [rewrite orient_12; lra|].
  destruct (pt_dec w v) as [->|Hv]; [rewrite orient_22; lra|]. left. auto.
Qed.
Lemma vertex_in_poly poly w : convex_ccw poly -> In w poly -> in_poly poly w.
Proof. intros Hc Hw u v He. eapply orient_vertex; eauto. Qed.
Lemma in_poly_at poly p q t : in_poly poly p -> in_poly poly q -> 0 <= t <= 1 -> in_poly poly (at_ p q t).
Proof.
  intros Hp Hq Ht u v He. rewrite orient_at. specialize (Hp u v He). specialize (Hq u v He).
  apply comb_ge; lra.
Qed.
Lemma interior_in_poly poly p : interior poly p -> in_poly poly p.
Proof. intros H u v He. left. auto. Qed.
Lemma interior_at poly p q t : interior poly p -> in_poly poly q -> 0 <= t < 1 -> interior poly (at_ p q t).
Proof.
  intros Hp Hq Ht u v He. rewrite orient_at. specialize (Hp u v He). specialize (Hq u v He).
  assert (0 < (1 - t) * orient u v p) by (apply Rmult_lt_0_compat; lra).
  assert (0 <= t * orient u v q) by (apply Rmult_le_pos; lra). lra.
Qed.

(** an affine bound on the vertices holds on the polygon *)
Lemma in_poly_aff poly p a b c : convex_ccw poly -> in_poly poly p ->
  (forall v, In v poly -> aff a b c v <= 0) -> aff a b c p <= 0.
Proof.
  intros Hc Hp H. destruct (in_poly_fan _ _ Hc Hp) as (x & y & z & Hx & Hy & Hz & Ht).
  destruct (tri_aff _ _ _ _ Ht) as (u & v & w & Hu & Hv & Hw & E & A & _). rewrite A.
  apply H in Hx, Hy, Hz.
  assert (u * aff a b c x <= 0) by (apply Rmult_le_0_l || (rewrite <- (Rmult_0_r u); apply Rmult_le_compat_l; auto)).
  assert (v * aff a b c y <= 0) by (rewrite <- (Rmult_0_r v); apply Rmult_le_compat_l; auto).
  assert (w * aff a b c z <= 0) by (rewrite <- (Rmult_0_r w); apply Rmult_le_compat_l; auto).
  lra.
Qed.

(** a point of the polygon on the line of a side is on the side *)
Lemma on_side poly p u v : convex_ccw poly -> in_poly poly p -> In (u, v) (poly_edges poly) ->
  orient u v p = 0 -> on_segment u v p.
Proof.
  intros Hc Hp He H0. destruct (in_poly_fan _ _ Hc Hp) as (x & y & z & Hx & Hy & Hz & Ht).
  destruct Ht as (a & b & c & Ha & Hb & Hc' & E & Ex & Ey).
  assert (EO : orient u v p = a * orient u v x + b * orient u v y + c * orient u v z).
  { unfold orient. rewrite Ex, Ey. replace a with (1 - b - c) by lra. ring. }
  assert (K : forall w k, In w poly -> 0 <= k -> 0 <= k * orient u v w
            /\ (k * orient u v w = 0 -> exists t, 0 <= t <= 1 /\ k * px w = k * px (at_ u v t)
                                               /\ k * py w = k * py (at_ u v t))).
  { intros w k Hw Hk. destruct (pt_dec w u) as [->|Hu].
    - rewrite orient_12, Rmult_0_r. split; [lra|]. intros _. exists 0. rewrite at_0. lra.
    - destruct (pt_dec w v) as [->|Hv].
      + rewrite orient_22, Rmult_0_r. split; [lra|]. intros _. exists 1. rewrite at_1. lra.
      + destruct Hc as (_ & _ & Hc). pose proof (Hc u v w He Hw Hu Hv) as Hpos.
        split; [apply Rmult_le_pos; lra|]. intros Hk0.
        apply Rmult_integral in Hk0 as [->|Hk0]; [|lra]. exists 0. lra. }
  destruct (K x a Hx Ha) as (P1 & Q1). destruct (K y b Hy Hb) as (P2 & Q2).
  destruct (K z c Hz Hc') as (P3 & Q3).
  destruct Q1 as (t1 & T1 & X1 & Y1); [lra|]. destruct Q2 as (t2 & T2 & X2 & Y2); [lra|].
  destruct Q3 as (t3 & T3 & X3 & Y3); [lra|].
  exists (a * t1 + b * t2 + c * t3). split.
  - assert (A1 : 0 <= a * t1 <= a) by (split; [apply Rmult_le_pos; lra|]; rewrite <- (Rmult_1_r a) at 2; apply Rmult_le_compat_l; lra).
    assert (A2 : 0 <= b * t2 <= b) by (split; [apply Rmult_le_pos; lra|]; rewrite <- (Rmult_1_r b) at 2; apply Rmult_le_compat_l; lra).
    assert (A3 : 0 <= c * t3 <= c) by (split; [apply Rmult_le_pos; lra|]; rewrite <- (Rmult_1_r c) at 2; apply Rmult_le_compat_l; lra).
    lra.
  - apply pt_eq.
    + rewrite Ex, X1, X2, X3. unfold at_. cbn. replace a with (1 - b - c) by lra. ring.
    + rewrite Ey, Y1, Y2, Y3. unfold at_. cbn. replace a with (1 - b - c) by lra. ring.
Qed.

(** the boundary: in the polygon, on some side *)
Lemma in_poly_cases poly p : in_poly poly p ->
  interior poly p \/ exists u v, In (u, v) (poly_edges poly) /\ orient u v p = 0.
Proof.
  unfold in_poly, interior. generalize (poly_edges poly). intros E. induction E as [|(u, v) E IH]; intros H.
  - left. intros u v [].
  - destruct (Req_dec (orient u v p) 0) as [H0|H0].
    + right. exists u, v. split; [now left|auto].
    + destruct IH as [IH|(a & b & Hab & Ho)].
      * intros a b Hab. apply H. now right.
      * left. intros a b [Hab|Hab]; [|auto]. inversion Hab; subst.
        pose proof (H a b (or_introl eq_refl)). lra.
      * right. exists a, b. split; [now right|auto].
Qed.

(** a convex polygon is the convex hull of its vertices *)
Lemma sumR_app l l' : sumR (l ++ l') = sumR l + sumR l'.
Proof. induction l as [|x l IH]; cbn; [lra|]. rewrite IH. lra. Qed.

(** strict bounds *)
Lemma in_poly_aff_lt poly p a b c : convex_ccw poly -> in_poly poly p ->
  (forall v, In v poly -> aff a b c v < 0) -> aff a b c p < 0.
Proof.
  intros Hc Hp H. destruct (in_poly_fan _ _ Hc Hp) as (x & y & z & Hx & Hy & Hz & Ht).
  destruct (tri_aff _ _ _ _ Ht) as (u & v & w & Hu & Hv & Hw & E & A & _). rewrite A.
  apply H in Hx, Hy, Hz.
  assert (K : forall k m, 0 <= k -> m < 0 -> k * m <= 0 /\ (0 < k -> k * m < 0)).
  { intros k m Hk Hm. split; [|intros]; nra. }
  destruct (K u _ Hu Hx), (K v _ Hv Hy), (K w _ Hw Hz).
  destruct (Rlt_dec 0 u); [specialize (H1 r); lra|].
  destruct (Rlt_dec 0 v); [specialize (H3 r); lra|].
  assert (0 < w) by lra. specialize (H5 H6). lra.
Qed.

(** the interior is open *)
Lemma interior_open poly p q : interior poly p ->
  exists e, 0 < e <= 1 /\ forall t, 0 <= t <= e -> interior poly (at_ p q t).
Proof.
  unfold interior. generalize (poly_edges poly). intros E. induction E as [|(u, v) E IH]; intros H.
  - exists 1. split; [lra|]. intros t _ u v [].
  - destruct IH as (e & He & IH); [intros a b Hab; apply H; now right|].
    pose proof (H u v (or_introl eq_refl)) as H0.
    set (d := orient u v q - orient u v p).
    assert (Hd : 0 < 1 + Rabs d) by (pose proof (Rabs_pos d); lra).
    set (e' := orient u v p / (2 * (1 + Rabs d))).
    assert (He' : 0 < e') by (apply Rdiv_lt_0_compat; lra).
    assert (Ee : e' * (2 * (1 + Rabs d)) = orient u v p) by (unfold e'; field; lra).
    exists (Rmin e e'). split.
    + split; [apply Rmin_pos; lra|]. eapply Rle_trans; [apply Rmin_l|lra].
    + intros t Ht a b [Hab|Hab].
      * inversion Hab; subst a b. rewrite orient_at. fold d.
        assert (Ht' : t <= e') by (eapply Rle_trans; [apply Ht|apply Rmin_r]).
        assert (- Rabs d <= d) by (pose proof (Rle_abs (- d)) as Ha; rewrite Rabs_Ropp in Ha; lra).
        assert (t * (1 + Rabs d) <= e' * (1 + Rabs d)) by (apply Rmult_le_compat_r; lra).
        assert (- (t * Rabs d) <= t * d).
        { rewrite Ropp_mult_distr_r. apply Rmult_le_compat_l; lra. }
        lra.
      * apply IH; auto. split; [lra|]. eapply Rle_trans; [apply Ht|apply Rmin_l].
Qed.

(** a vertex strictly beyond an interior point, in every direction *)
Lemma interior_beyond poly p a b : convex_ccw poly -> interior poly p -> (a <> 0 \/ b <> 0) ->
  exists v, In v poly /\ a * px p + b * py p < a * px v + b * py v.
Proof.
  intros Hc Hp Hab.
  assert (D : forall l : list pt, (exists v, In v l /\ a * px p + b * py p < a * px v + b * py v)
              \/ forall v, In v l -> a * px v + b * py v <= a * px p + b * py p).
  { induction l as [|x l IH]; [right; intros v []|].
    destruct (Rlt_dec (a * px p + b * py p) (a * px x + b * py x)) as [Hx|Hx].
    - left. exists x. split; [now left|auto].
    - destruct IH as [(v & Hv & Hl)|IH]; [left; exists v; split; [now right|auto]|].
      right. intros v [<-|Hv]; [lra|auto]. }
  destruct (D poly) as [H|H]; auto. exfalso.
  destruct (interior_open poly p (Pt (px p + a) (py p + b)) Hp) as (e & He & Ho).
  specialize (Ho e ltac:(lra)). apply interior_in_poly in Ho.
  pose proof (in_poly_aff poly _ a b (- (a * px p + b * py p)) Hc Ho) as Hf.
  unfold aff, at_ in Hf. cbn in Hf.
  assert (Hle : forall v, In v poly -> a * px v + b * py v + - (a * px p + b * py p) <= 0)
    by (intros v Hv; specialize (H v Hv); lra).
  specialize (Hf Hle). assert (0 < a * a + b * b) by (destruct Hab; nra).
  assert (0 < e * (a * a + b * b)) by (apply Rmult_lt_0_compat; lra). lra.
Qed.

(** the centroid of three vertices is an interior point *)
Lemma interior_exists poly : convex_ccw poly -> exists p, interior poly p.
Proof.
  intros Hc. pose proof Hc as (Hl & Hn & Hs).
  destruct poly as [|a [|b [|c l]]]; try (cbn in Hl; lia).
  remember (a :: b :: c :: l) as poly eqn:E.
  assert (Ia : In a poly) by (subst; now left).
  assert (Ib : In b poly) by (subst; right; now left).
  assert (Ic : In c poly) by (subst; right; right; now left).
  assert (Nab : a <> b /\ a <> c /\ b <> c).
  { subst. inversion Hn as [|? ? N0 Hn1]; subst. inversion Hn1 as [|? ? N1 Hn2]; subst.
    repeat split; intros ->; [apply N0; now left|apply N0; right; now left|apply N1; now left]. }
  exists (Pt ((px a + px b + px c) / 3) ((py a + py b + py c) / 3)).
  intros u v He.
  assert (EO : orient u v (Pt ((px a + px b + px c) / 3) ((py a + py b + py c) / 3))
          = (orient u v a + orient u v b + orient u v c) / 3) by (unfold orient; cbn; field).
  rewrite EO.
  pose proof (orient_vertex poly u v a Hc He Ia). pose proof (orient_vertex poly u v b Hc He Ib).
  pose proof (orient_vertex poly u v c Hc He Ic).
  assert (K : 0 < orient u v a \/ 0 < orient u v b \/ 0 < orient u v c).
  { destruct Nab as (N1 & N2 & N3).
    destruct (pt_dec a u) as [->|Ea]; [|destruct (pt_dec a v) as [->|Ea']; [|left; now apply Hs]].
    - destruct (pt_dec b v) as [->|Eb]; [right; right; apply Hs; auto|right; left; apply Hs; auto].
    - destruct (pt_dec b u) as [->|Eb]; [right; right; apply Hs; auto|right; left; apply Hs; auto]. }
  lra.
Qed.

(** ** Reversing the vertex order reverses the sides *)
Lemma chain_split v0 l u v : In (u, v) (chain v0 l) <-> exists a b, v0 :: l = a ++ u :: v :: b.
Proof.
  revert v0. induction l as [|x l IH]; intros v0; split.
  - intros [].
  - intros (a & b & E). destruct a as [|? [|? ?]]; discriminate.
  - intros [H|H].
    + inversion H; subst. exists [], l. reflexivity.
    + apply IH in H as (a & b & E). exists (v0 :: a), b. cbn. now rewrite E.
  - intros (a & b & E). destruct a as [|y a].
    + inversion E; subst. now left.
    + right. apply IH. exists a, b. now inversion E.
Qed.

Lemma edges_split x m u v : In (u, v) (poly_edges (x :: m)) <-> exists a b, (x :: m) ++ [x] = a ++ u :: v :: b.
Proof.
  rewrite edges_cons. split.
  - intros [H|H].
    + inversion H; subst. exists (removelast (v :: m)), [].
      change (last m v :: v :: []) with ([last m v] ++ [v]). rewrite app_assoc. f_equal.
      rewrite <- (last_cons m v v). now apply app_removelast_last.
    + apply chain_split in H as (a & b & E). exists a, (b ++ [x]). rewrite E.
      rewrite <- app_assoc. reflexivity.
  - intros (a & b & E). destruct b as [|y b].
    + left. change (u :: v :: []) with ([u] ++ [v]) in E. rewrite app_assoc in E.
      apply app_inj_tail in E as (E & ->). f_equal. rewrite <- (last_cons m v v), E. apply last_last.
    + right. apply chain_split. destruct (exists_last (l := y :: b)) as (b' & z & Eb); [discriminate|].
      rewrite Eb in E. exists a, b'. change (a ++ u :: v :: b' ++ [z]) with (a ++ ([u; v] ++ b') ++ [z]) in E.
      rewrite app_assoc in E. apply app_inj_tail in E as (E & _). exact E.
Qed.

Lemma edges_rev_in poly u v : In (u, v) (poly_edges (rev poly)) -> In (v, u) (poly_edges poly).
Proof.
  destruct poly as [|x m]; [intros []|].
  intros H. unfold poly_edges in H.
  assert (El : last (rev (x :: m)) (Pt 0 0) = x) by (cbn; apply last_last).
  rewrite El in H. apply chain_split in H as (a & b & E). apply edges_split.
  exists (rev b), (rev a).
  assert (E' : rev (x :: rev (x :: m)) = rev (a ++ u :: v :: b)) by now rewrite E.
  change (x :: rev (x :: m)) with ([x] ++ rev (x :: m)) in E'. rewrite !rev_app_distr, rev_involutive in E'.
  cbn [rev app] in E'. cbn [app]. rewrite E'. rewrite <- !app_assoc. reflexivity.
Qed.
Lemma edges_rev poly u v : In (u, v) (poly_edges (rev poly)) <-> In (v, u) (poly_edges poly).
Proof.
  split; [apply edges_rev_in|]. intros H. apply edges_rev_in. now rewrite rev_involutive.
Qed.
