(** Geometry of polygons with hanging nodes, exact reals. *)
From Verif Require Import RBase MGeometry MAlgorithms SpecPoly SpecArea SpecHang GTriangle GConvex GHull GArea GRay GHelly GSat GClip GClipArea.
From Coq Require Import Permutation.
Open Scope R_scope.

(** ** Subdivisions: as [hanging], points allowed at the ends of a side, counted *)
Inductive sub (P : list pt) : nat -> list pt -> Prop :=
| sub_none : sub P 0 P
| sub_rot n l1 l2 : sub P n (l1 ++ l2) -> sub P n (l2 ++ l1)
| sub_node n u v w rest : sub P n (v :: rest) -> u = last rest v -> on_segment u v w ->
    sub P (S n) (w :: v :: rest).

Lemma hanging_sub P Q : hanging P Q -> exists n, sub P n Q.
Proof.
  induction 1 as [|l1 l2 _ (n & IH)|u v rest t _ (n & IH) E Ht]; eauto using sub_none, sub_rot.
  exists (S n). eapply sub_node; eauto. exists t. split; [lra|reflexivity].
Qed.

Lemma edges_new w v rest : poly_edges (w :: v :: rest) = (last rest v, w) :: (w, v) :: chain v rest.
Proof. rewrite edges_cons. cbn [chain]. rewrite last_cons. reflexivity. Qed.
Lemma edges_old v rest : poly_edges (v :: rest) = (last rest v, v) :: chain v rest.
Proof. apply edges_cons. Qed.

Lemma sub_length P n Q : sub P n Q -> length Q = (length P + n)%nat.
Proof. induction 1; rewrite ?app_length in *; cbn [length] in *; lia. Qed.

Lemma orient_seg1 u v t p : orient u (at_ u v t) p = t * orient u v p.
Proof. unfold orient, at_. cbn. ring. Qed.
Lemma orient_seg2 u v t p : orient (at_ u v t) v p = (1 - t) * orient u v p.
Proof. unfold orient, at_. cbn. ring. Qed.

Lemma sub_in_poly P n Q p : sub P n Q -> (in_poly Q p <-> in_poly P p).
Proof.
  induction 1 as [|n l1 l2 H IH|n u v w rest H IH E (t & Ht & ->)]; [tauto| |].
  - rewrite <- IH. unfold in_poly. split; intros K a b He; apply K; now apply edges_rot_in.
  - rewrite <- IH. unfold in_poly. rewrite edges_new, edges_old. subst u. split; intros K a b.
    + intros [He|He]; [|apply K; right; now right]. inversion He; subst.
      pose proof (K _ _ (or_introl eq_refl)) as K1. pose proof (K _ _ (or_intror (or_introl eq_refl))) as K2.
      rewrite orient_seg1 in K1. rewrite orient_seg2 in K2. lra.
    + pose proof (K _ _ (or_introl eq_refl)) as K1. intros [He|[He|He]].
      * inversion He; subst. rewrite orient_seg1. apply Rmult_le_pos; lra.
      * inversion He; subst. rewrite orient_seg2. apply Rmult_le_pos; lra.
      * apply K. now right.
Qed.

Lemma hanging_interior P Q p : hanging P Q -> (interior Q p <-> interior P p).
Proof.
  induction 1 as [|l1 l2 H IH|u v rest t H IH E Ht]; [tauto| |].
  - rewrite <- IH. unfold interior. split; intros K a b He; apply K; now apply edges_rot_in.
  - rewrite <- IH. unfold interior. rewrite edges_new, edges_old. subst u. split; intros K a b.
    + intros [He|He]; [|apply K; right; now right]. inversion He; subst.
      pose proof (K _ _ (or_introl eq_refl)) as K1. rewrite orient_seg1 in K1.
      apply (Rmult_lt_reg_l t); lra.
    + pose proof (K _ _ (or_introl eq_refl)) as K1. intros [He|[He|He]].
      * inversion He; subst. rewrite orient_seg1. apply Rmult_lt_0_compat; lra.
      * inversion He; subst. rewrite orient_seg2. apply Rmult_lt_0_compat; lra.
      * apply K. now right.
Qed.

(** corners stay vertices; every vertex is in the outline *)
Lemma sub_incl P n Q v : sub P n Q -> In v P -> In v Q.
Proof.
  induction 1 as [|n l1 l2 H IH|n u x w rest H IH E Hw]; auto.
  - intros K. apply IH in K. apply in_app_or in K. apply in_or_app. tauto.
  - intros K. right. auto.
Qed.
Lemma sub_hull_of P n Q v : P <> [] -> sub P n Q -> In v Q -> hull P v.
Proof.
  intros HP. induction 1 as [|n l1 l2 H IH|n u x w rest H IH E Hw] in v |- *.
  - apply hull_vertex.
  - intros K. apply IH. apply in_app_or in K. apply in_or_app. tauto.
  - intros [<-|K]; auto. destruct Hw as (t & Ht & ->). apply hull_at; auto; apply IH.
    + subst u. destruct rest as [|y rest]; [now left|]. right. apply last_in. discriminate.
    + now left.
Qed.

Lemma sub_shoelace P n Q : sub P n Q -> shoelace Q = shoelace P.
Proof.
  induction 1 as [|n l1 l2 H IH|n u v w rest H IH E (t & Ht & ->)]; auto.
  - now rewrite <- IH, shoelace_rot.
  - rewrite <- IH. unfold shoelace. rewrite edges_new, edges_old. subst u. cbn [map sumR fst snd].
    unfold at_. cbn [px py]. ring.
Qed.

(** weakly convex: no vertex to the right of a side *)
Lemma sub_left P n Q u v w : convex_ccw P -> sub P n Q -> In (u, v) (poly_edges Q) -> In w Q -> 0 <= orient u v w.
Proof.
  intros HC HS He Hw.
  assert (HP : P <> []) by (destruct HC as (L & _); destruct P; [cbn in L; lia|discriminate]).
  pose proof (sub_hull_of P n Q w HP HS Hw) as Hh. apply in_poly_hull in Hh; auto.
  apply (sub_in_poly P n Q w HS) in Hh. now apply Hh.
Qed.

Lemma at_ends a b s : a <> b -> 0 < s < 1 -> at_ a b s <> a /\ at_ a b s <> b.
Proof.
  intros Hab Hs. unfold at_. split; intros K; apply Hab;
    pose proof (f_equal px K) as Kx; pose proof (f_equal py K) as Ky; cbn in Kx, Ky; apply pt_eq.
  - assert (Z : s * (px b - px a) = 0) by lra. apply Rmult_integral in Z as [Z|Z]; lra.
  - assert (Z : s * (py b - py a) = 0) by lra. apply Rmult_integral in Z as [Z|Z]; lra.
  - assert (Z : (1 - s) * (px b - px a) = 0) by lra. apply Rmult_integral in Z as [Z|Z]; lra.
  - assert (Z : (1 - s) * (py b - py a) = 0) by lra. apply Rmult_integral in Z as [Z|Z]; lra.
Qed.

Lemma hanging_neq P Q : convex_ccw P -> hanging P Q -> forall u v, In (u, v) (poly_edges Q) -> u <> v.
Proof.
  intros HC. induction 1 as [|l1 l2 H IH|a b rest t H IH E Ht]; intros u v He.
  - destruct HC as (L & N & _). apply (edges_neq P u v N); [lia|auto].
  - apply IH. now apply edges_rot_in.
  - rewrite edges_new in He. assert (Hab : a <> b) by (apply IH; rewrite edges_old; subst a; now left).
    destruct (at_ends a b t Hab Ht) as (D1 & D2). rewrite <- E in He. destruct He as [He|[He|He]].
    + apply pair_equal_spec in He as (<- & <-). auto.
    + apply pair_equal_spec in He as (<- & <-). auto.
    + apply IH. rewrite edges_old. now right.
Qed.

(** ** Hulls *)
Lemma sub_hull P n Q p : convex_ccw P -> sub P n Q -> (hull Q p <-> hull P p).
Proof.
  intros HC HS. assert (HP : P <> []) by (destruct HC as (L & _); destruct P; [cbn in L; lia|discriminate]).
  split.
  - intros (ws & L & Hw & S1 & ->). apply in_poly_hull; auto. apply (sub_in_poly P n Q _ HS).
    intros u v He. rewrite comb_orient by auto. apply wsum_nonneg; auto. intros w Hin. eapply sub_left; eauto.
  - intros Hp. apply in_poly_hull in Hp; auto.
    destruct (in_poly_fan _ _ HC Hp) as (a & b & c & Ha & Hb & Hc & Ht).
    apply (hull_triangle Q a b c p); auto; eapply sub_incl; eauto.
Qed.

Lemma wsum_swap F ws vs ws' vs' : length ws = length vs -> length ws' = length vs' ->
  wsum F (ws ++ ws') (vs ++ vs') = wsum F (ws' ++ ws) (vs' ++ vs).
Proof. intros. rewrite !wsum_app by auto. ring. Qed.

Lemma open_hull_rot l1 l2 p : open_hull (l1 ++ l2) p -> open_hull (l2 ++ l1) p.
Proof.
  intros (ws & L & Hw & S1 & E). rewrite app_length in L.
  set (w1 := firstn (length l1) ws). set (w2 := skipn (length l1) ws).
  assert (L1 : length w1 = length l1) by (unfold w1; rewrite firstn_length; lia).
  assert (L2 : length w2 = length l2) by (unfold w2; rewrite skipn_length; lia).
  assert (Ew : ws = w1 ++ w2) by (symmetry; apply firstn_skipn). rewrite Ew in *. clearbody w1 w2.
  exists (w2 ++ w1). apply Forall_app in Hw as (H1 & H2).
  split; [rewrite !app_length; lia|]. split; [now apply Forall_app|]. split; [rewrite sumR_app in *; lra|].
  rewrite E. apply pt_eq; rewrite ?comb_px, ?comb_py; now apply wsum_swap.
Qed.

Lemma open_hull_node v rest u t p : u = last rest v -> rest <> [] -> 0 < t < 1 ->
  (open_hull (at_ u v t :: v :: rest) p <-> open_hull (v :: rest) p).
Proof.
  intros Eu Hne Ht. destruct (exists_last Hne) as (r & u' & ->). rewrite last_last in Eu. subst u'. split.
  - intros (ws & L & Hw & S1 & E). destruct ws as [|a [|b ws]]; try (cbn in L; rewrite ?app_length in L; cbn in L; lia).
    assert (Hws : ws <> []) by (intros ->; cbn in L; rewrite app_length in L; cbn in L; lia).
    destruct (exists_last Hws) as (ws' & c & ->). cbn [length] in L. rewrite !app_length in L. cbn [length] in L.
    inversion Hw as [|? ? Ha Hw1]; subst. inversion Hw1 as [|? ? Hb Hw2]; subst. apply Forall_app in Hw2 as (Hw2 & Hc).
    apply Forall_inv in Hc.
    assert (P1 : 0 < t * a) by (apply Rmult_lt_0_compat; lra).
    assert (P2 : 0 < (1 - t) * a) by (apply Rmult_lt_0_compat; lra).
    exists ((b + t * a) :: ws' ++ [c + (1 - t) * a]). split; [cbn [length]; rewrite !app_length; cbn; lia|].
    split; [constructor; [lra|]; apply Forall_app; split; auto; constructor; auto; lra|].
    cbn [sumR] in *. rewrite !sumR_app in *. cbn [sumR] in *. split; [lra|].
    apply pt_eq; rewrite ?comb_px, ?comb_py, !wsum_cons, !wsum_app by lia; rewrite !wsum_cons;
      unfold wsum; cbn [combine map sumR]; unfold at_; cbn [px py]; ring.
  - intros (ws & L & Hw & S1 & E). destruct ws as [|b ws]; [cbn in L; rewrite ?app_length in L; cbn in L; lia|].
    assert (Hws : ws <> []) by (intros ->; cbn in L; rewrite app_length in L; cbn in L; lia).
    destruct (exists_last Hws) as (ws' & c & ->). cbn [length] in L. rewrite !app_length in L. cbn [length] in L.
    inversion Hw as [|? ? Hb Hw2]; subst. apply Forall_app in Hw2 as (Hw2 & Hc). apply Forall_inv in Hc.
    set (a := Rmin b c / 2).
    assert (Ha : 0 < a) by (unfold a; pose proof (Rmin_pos b c Hb Hc); lra).
    assert (Hab : a < b) by (unfold a; pose proof (Rmin_l b c); pose proof (Rmin_pos b c Hb Hc); lra).
    assert (Hac : a < c) by (unfold a; pose proof (Rmin_r b c); pose proof (Rmin_pos b c Hb Hc); lra).
    clearbody a.
    assert (P1 : t * a < b) by (apply Rle_lt_trans with (1 * a); [apply Rmult_le_compat_r; lra|lra]).
    assert (P2 : (1 - t) * a < c) by (apply Rle_lt_trans with (1 * a); [apply Rmult_le_compat_r; lra|lra]).
    exists (a :: (b - t * a) :: ws' ++ [c - (1 - t) * a]). split; [cbn [length]; rewrite !app_length; cbn; lia|].
    split; [constructor; [lra|]; constructor; [lra|]; apply Forall_app; split; auto; constructor; auto; lra|].
    cbn [sumR] in *. rewrite !sumR_app in *. cbn [sumR] in *. split; [lra|].
    apply pt_eq; rewrite ?comb_px, ?comb_py, !wsum_cons, !wsum_app by lia; rewrite !wsum_cons;
      unfold wsum; cbn [combine map sumR]; unfold at_; cbn [px py]; ring.
Qed.

Lemma hanging_length P Q : hanging P Q -> (length P <= length Q)%nat.
Proof. intros H. destruct (hanging_sub _ _ H) as (n & Hn). apply sub_length in Hn. lia. Qed.

Lemma hanging_open_hull P Q p : convex_ccw P -> hanging P Q -> (open_hull Q p <-> open_hull P p).
Proof.
  intros HC. induction 1 as [|l1 l2 H IH|u v rest t H IH E Ht]; [tauto| |].
  - rewrite <- IH. split; apply open_hull_rot.
  - rewrite <- IH. apply open_hull_node; auto. apply hanging_length in H. destruct HC as (L & _).
    intros ->. cbn in H. lia.
Qed.

(** ** Distance to the boundary *)
Lemma sub_near P n Q r p : sub P n Q -> (near_boundary r Q p <-> near_boundary r P p).
Proof.
  induction 1 as [|n l1 l2 H IH|n u v w rest H IH E (t & Ht & ->)]; [tauto| |].
  - rewrite <- IH. unfold near_boundary. split; intros (a & b & He & Hn); exists a, b; split; auto; now apply edges_rot_in.
  - rewrite <- IH. unfold near_boundary. rewrite edges_new, edges_old. rewrite <- E. split.
    + intros (a & b & He & q & Hq & Hd). destruct He as [He|[He|He]].
      * apply pair_equal_spec in He as (<- & <-). exists u, v. split; [now left|]. exists q. split; auto.
        destruct Hq as (s & Hs & ->). exists (s * t). split.
        -- split; [apply Rmult_le_pos; lra|]. apply Rle_trans with (1 * t); [apply Rmult_le_compat_r; lra|lra].
        -- apply pt_eq; unfold at_; cbn; ring.
      * apply pair_equal_spec in He as (<- & <-). exists u, v. split; [now left|]. exists q. split; auto.
        destruct Hq as (s & Hs & ->). exists (t + s * (1 - t)). split.
        -- assert (0 <= s * (1 - t)) by (apply Rmult_le_pos; lra).
           assert (s * (1 - t) <= 1 * (1 - t)) by (apply Rmult_le_compat_r; lra). lra.
        -- apply pt_eq; unfold at_; cbn; ring.
      * exists a, b. split; [now right|]. exists q. auto.
    + intros (a & b & He & q & Hq & Hd). destruct He as [He|He].
      * apply pair_equal_spec in He as (<- & <-). destruct Hq as (s & Hs & ->).
        destruct (Rle_dec s t) as [Hst|Hst].
        -- exists u, (at_ u v t). split; [now left|]. exists (at_ u v s). split; auto.
           destruct (Req_dec t 0) as [T0|T0].
           ++ exists 0. split; [lra|]. assert (s = 0) by lra. subst. apply pt_eq; unfold at_; cbn; ring.
           ++ exists (s / t). assert (Es : s / t * t = s) by (field; auto).
              split; [split; apply (Rmult_le_reg_r t); lra|]. rewrite <- Es at 1. apply pt_eq; unfold at_; cbn; ring.
        -- exists (at_ u v t), v. split; [right; now left|]. exists (at_ u v s). split; auto.
           exists ((s - t) / (1 - t)). assert (Es : (s - t) / (1 - t) * (1 - t) = s - t) by (field; lra).
           split; [split; apply (Rmult_le_reg_r (1 - t)); lra|].
           set (k := (s - t) / (1 - t)) in *. replace s with (t + k * (1 - t)) by lra.
           apply pt_eq; unfold at_; cbn; ring.
      * exists a, b. split; [right; now right|]. exists q. auto.
Qed.

(** ** Ray casting *)
Definition crossb (p : pt) (e : pt * pt) : bool := xorb (upx p e) (downx p e).
Lemma inside_par p E : inside p E = par (crossb p) E.
Proof. unfold crossb. rewrite par_xorb. reflexivity. Qed.
Lemma par_perm {A} (f : A -> bool) l l' : Permutation l l' -> par f l = par f l'.
Proof.
  induction 1 as [|x l l' _ IH|x y l|l l' l'' _ IH1 _ IH2]; auto.
  - cbn. unfold par in IH. now rewrite IH.
  - cbn. destruct (f x), (f y); cbn; auto; now destruct (fold_right _ _ _).
  - congruence.
Qed.
Lemma inside_perm p E E' : Permutation E E' -> inside p E = inside p E'.
Proof. intros H. rewrite !inside_par. now apply par_perm. Qed.

Lemma crossb_split p u v t : 0 < t < 1 ->
  xorb (crossb p (u, at_ u v t)) (crossb p (at_ u v t, v)) = crossb p (u, v).
Proof.
  intros Ht. unfold crossb, upx, downx, up, down. cbn [fst snd]. rewrite orient_seg1, orient_seg2.
  set (o := orient u v p).
  assert (S1 : Rlt_bool 0 (t * o) = Rlt_bool 0 o).
  { destruct (Rlt_bool_spec 0 o) as [H|H]; [apply Rlt_bool_true, Rmult_lt_0_compat; lra|].
    apply Rlt_bool_false. assert (0 <= t * - o) by (apply Rmult_le_pos; lra). lra. }
  assert (S2 : Rlt_bool 0 ((1 - t) * o) = Rlt_bool 0 o).
  { destruct (Rlt_bool_spec 0 o) as [H|H]; [apply Rlt_bool_true, Rmult_lt_0_compat; lra|].
    apply Rlt_bool_false. assert (0 <= (1 - t) * - o) by (apply Rmult_le_pos; lra). lra. }
  assert (S3 : Rlt_bool (t * o) 0 = Rlt_bool o 0).
  { destruct (Rlt_bool_spec o 0) as [H|H]; [apply Rlt_bool_true; assert (0 < t * - o) by (apply Rmult_lt_0_compat; lra); lra|].
    apply Rlt_bool_false. apply Rmult_le_pos; lra. }
  assert (S4 : Rlt_bool ((1 - t) * o) 0 = Rlt_bool o 0).
  { destruct (Rlt_bool_spec o 0) as [H|H]; [apply Rlt_bool_true; assert (0 < (1 - t) * - o) by (apply Rmult_lt_0_compat; lra); lra|].
    apply Rlt_bool_false. apply Rmult_le_pos; lra. }
  rewrite S1, S2, S3, S4. clear S1 S2 S3 S4.
  assert (Y : py (at_ u v t) = py u + t * (py v - py u)) by reflexivity.
  set (y := py (at_ u v t)) in *. clearbody y.
  assert (B1 : py u <= py v -> py u <= y <= py v).
  { intros H. assert (0 <= t * (py v - py u)) by (apply Rmult_le_pos; lra).
    assert (t * (py v - py u) <= 1 * (py v - py u)) by (apply Rmult_le_compat_r; lra). lra. }
  assert (B2 : py v <= py u -> py v <= y <= py u).
  { intros H. assert (0 <= t * (py u - py v)) by (apply Rmult_le_pos; lra).
    assert (t * (py u - py v) <= 1 * (py u - py v)) by (apply Rmult_le_compat_r; lra). lra. }
  destruct (Rle_dec (py u) (py v)) as [H|H]; [specialize (B1 H)|specialize (B2 ltac:(lra))]; clear Y;
    repeat rcase; cbn; try reflexivity; exfalso; lra.
Qed.

Lemma hanging_inside P Q p : hanging P Q -> inside p (poly_edges Q) = inside p (poly_edges P).
Proof.
  induction 1 as [|l1 l2 H IH|u v rest t H IH E Ht]; auto.
  - rewrite <- IH. apply inside_perm. apply edges_rot.
  - rewrite <- IH. rewrite edges_new, edges_old, <- E, !inside_cons.
    rewrite <- xorb_assoc. f_equal. apply (crossb_split p u v t Ht).
Qed.

Lemma inside_rev p Q : inside p (poly_edges (rev Q)) = inside p (poly_edges Q).
Proof.
  rewrite <- (inside_perm p _ _ (edges_rev_perm Q)). rewrite !inside_par.
  induction (poly_edges Q) as [|(u, v) E IH]; auto. cbn [map par fold_right fst snd]. fold (par (crossb p)).
  unfold par in IH. rewrite IH. f_equal. unfold crossb, upx, downx, up, down. cbn [fst snd].
  rewrite (orient_swap v u p).
  repeat rcase; cbn; try reflexivity; exfalso; lra.
Qed.

(** ** The point in polygon test on either orientation *)
Lemma hanging_nonempty P Q : convex_ccw P -> hanging P Q -> Q <> [].
Proof. intros (L & _) H. apply hanging_length in H. destruct Q; [cbn in H; lia|discriminate]. Qed.

Lemma seg_sym u v p : on_segment u v p -> on_segment v u p.
Proof. intros (t & Ht & ->). exists (1 - t). split; [lra|]. apply pt_eq; unfold at_; cbn; ring. Qed.
Lemma near_rev r Q p : near_boundary r (rev Q) p <-> near_boundary r Q p.
Proof.
  assert (G : forall Q, near_boundary r (rev Q) p -> near_boundary r Q p).
  { intros Q' (u & v & He & q & Hq & Hd). exists v, u. split; [now apply edges_rev|]. exists q. split; auto. now apply seg_sym. }
  split; [apply G|]. intros H. apply G. now rewrite rev_involutive.
Qed.

(** the outline of a face in either orientation *)
Definition outline (P Q : list pt) : Prop := convex_ccw P /\ (hanging P Q \/ hanging P (rev Q)).
Lemma hanging_outline Q : hanging_face Q -> exists P, outline P Q.
Proof. intros [(P & H1 & H2)|(P & H1 & H2)]; exists P; split; auto. Qed.

Section Outline.
  Context (P Q : list pt) (HO : outline P Q).

  Lemma outline_nonempty : Q <> [].
  Proof.
    destruct HO as (HC & [H|H]); [now apply (hanging_nonempty P)|].
    pose proof (hanging_nonempty P _ HC H) as K. intros ->. now apply K.
  Qed.
  Lemma outline_rev : outline P (rev Q).
  Proof. destruct HO as (HC & [H|H]); split; auto. right. now rewrite rev_involutive. Qed.
  Lemma outline_hull p : hull Q p <-> hull P p.
  Proof.
    destruct HO as (HC & [H|H]); destruct (hanging_sub _ _ H) as (n & Hn).
    - exact (sub_hull P n Q p HC Hn).
    - rewrite <- (hull_rev Q p). exact (sub_hull P n _ p HC Hn).
  Qed.
  Lemma outline_open_hull p : open_hull Q p <-> open_hull P p.
  Proof.
    destruct HO as (HC & [H|H]).
    - exact (hanging_open_hull P Q p HC H).
    - rewrite <- (open_hull_rev Q p). exact (hanging_open_hull P _ p HC H).
  Qed.
  Lemma outline_near r p : near_boundary r Q p <-> near_boundary r P p.
  Proof.
    destruct HO as (HC & [H|H]); destruct (hanging_sub _ _ H) as (n & Hn).
    - exact (sub_near P n Q r p Hn).
    - rewrite <- near_rev. exact (sub_near P n _ r p Hn).
  Qed.
  Lemma outline_inside p : inside p (poly_edges Q) = inside p (poly_edges P).
  Proof.
    destruct HO as (HC & [H|H]).
    - now apply hanging_inside.
    - rewrite <- inside_rev. now apply hanging_inside.
  Qed.
  Lemma outline_neq u v : In (u, v) (poly_edges Q) -> u <> v.
  Proof.
    destruct HO as (HC & [H|H]).
    - now apply (hanging_neq P Q HC H).
    - intros He K. apply (hanging_neq P _ HC H v u); [now apply edges_rev|auto].
  Qed.
  Lemma outline_side u v w : In (u, v) (poly_edges Q) -> In w Q ->
    (hanging P Q -> 0 <= orient u v w) /\ (hanging P (rev Q) -> orient u v w <= 0).
  Proof.
    intros He Hw. destruct HO as (HC & _). split; intros H; destruct (hanging_sub _ _ H) as (n & Hn).
    - exact (sub_left P n Q u v w HC Hn He Hw).
    - pose proof (sub_left P n (rev Q) v u w HC Hn) as K. rewrite orient_swap.
      assert (0 <= orient v u w) by (apply K; [now apply edges_rev|now rewrite <- in_rev]). lra.
  Qed.
  Lemma outline_vertex w : In w P -> In w Q.
  Proof.
    destruct HO as (HC & [H|H]); destruct (hanging_sub _ _ H) as (n & Hn); intros K.
    - eapply sub_incl; eauto.
    - apply in_rev. eapply sub_incl; eauto.
  Qed.
  Lemma outline_vertex_hull w : In w Q -> hull P w.
  Proof. intros H. apply outline_hull. now apply hull_vertex. Qed.

  Lemma outline_pip_sound p tol : 0 <= tol -> point_in_polygon_or_on_edge p Q tol = Ok true ->
    hull Q p \/ near_boundary (2 * tol) Q p.
  Proof.
    intros Ht H. rewrite pip_or_edge_eq in H by apply outline_nonempty.
    destruct (existsb (nearb p tol) (poly_edges Q)) eqn:En.
    - right. apply existsb_exists in En as ((u, v) & He & Hn). exists u, v. split; auto. now apply nearb_near.
    - left. rewrite outline_hull. destruct HO as (HC & _). apply in_poly_hull; auto.
      apply inside_in_poly; auto. rewrite <- outline_inside. congruence.
  Qed.
  Lemma outline_pip_open p tol : open_hull Q p -> point_in_polygon_or_on_edge p Q tol = Ok true.
  Proof.
    intros H. rewrite pip_or_edge_eq by apply outline_nonempty. destruct (existsb _ _); auto.
    rewrite outline_inside. destruct HO as (HC & _). f_equal. apply inside_interior; auto.
    apply interior_open_hull; auto. now apply outline_open_hull.
  Qed.
  Lemma outline_pip_complete p tol : 0 < tol -> hull Q p -> point_in_polygon_or_on_edge p Q tol = Ok true.
  Proof.
    intros Ht H. pose proof HO as (HC & _). rewrite outline_hull in H. apply in_poly_hull in H; auto.
    destruct (in_poly_cases P p H) as [Hi|(u & v & He & Ho)].
    - apply outline_pip_open. apply outline_open_hull. now apply interior_open_hull.
    - assert (Hb : near_boundary 0 Q p).
      { apply outline_near. exists u, v. split; auto. exists p. split; [eapply on_side; eauto|]. unfold dist2. lra. }
      destruct Hb as (a & b & Hab & q & Hq & Hd).
      assert (p = q).
      { unfold dist2 in Hd. pose proof (Rle_0_sqr (px p - px q)) as X. pose proof (Rle_0_sqr (py p - py q)) as Y.
        unfold Rsqr in X, Y. apply pt_eq.
        - assert (Z : (px p - px q) * (px p - px q) = 0) by lra. apply Rmult_integral in Z as [Z|Z]; lra.
        - assert (Z : (py p - py q) * (py p - py q) = 0) by lra. apply Rmult_integral in Z as [Z|Z]; lra. }
      subst q. rewrite pip_or_edge_eq by apply outline_nonempty.
      replace (existsb (nearb p tol) (poly_edges Q)) with true; auto. symmetry.
      apply existsb_exists. exists (a, b). split; auto. apply nearb_on; auto. now apply outline_neq.
  Qed.
End Outline.


(** ** Pieces of the sides of the outline *)
Definition piece (u v x y : pt) : Prop := exists s t, 0 <= s < t /\ t <= 1 /\ x = at_ u v s /\ y = at_ u v t.

Lemma piece_whole u v : piece u v u v.
Proof. exists 0, 1. split; [lra|]. split; [lra|]. split; apply pt_eq; unfold at_; cbn; ring. Qed.
Lemma piece_fst u v x y t : piece u v x y -> 0 < t < 1 -> piece u v x (at_ x y t).
Proof.
  intros (a & b & Hab & Hb & -> & ->) Ht. exists a, (a + t * (b - a)).
  assert (0 < t * (b - a)) by (apply Rmult_lt_0_compat; lra).
  assert (t * (b - a) <= 1 * (b - a)) by (apply Rmult_le_compat_r; lra).
  split; [lra|]. split; [lra|]. split; auto. apply pt_eq; unfold at_; cbn; ring.
Qed.
Lemma piece_snd u v x y t : piece u v x y -> 0 < t < 1 -> piece u v (at_ x y t) y.
Proof.
  intros (a & b & Hab & Hb & -> & ->) Ht. exists (a + t * (b - a)), b.
  assert (0 < t * (b - a)) by (apply Rmult_lt_0_compat; lra).
  assert (0 < (1 - t) * (b - a)) by (apply Rmult_lt_0_compat; lra).
  split; [lra|]. split; [lra|]. split; auto. apply pt_eq; unfold at_; cbn; ring.
Qed.

Lemma hanging_piece P Q : hanging P Q -> forall x y, In (x, y) (poly_edges Q) ->
  exists u v, In (u, v) (poly_edges P) /\ piece u v x y.
Proof.
  induction 1 as [|l1 l2 H IH|a b rest t H IH E Ht]; intros x y He.
  - exists x, y. split; auto. apply piece_whole.
  - apply IH. now apply edges_rot_in.
  - rewrite edges_new, <- E in He. rewrite edges_old, <- E in IH. destruct He as [He|[He|He]].
    + apply pair_equal_spec in He as (<- & <-). destruct (IH _ _ (or_introl eq_refl)) as (u & v & Hu & Hp).
      exists u, v. split; auto. now apply piece_fst.
    + apply pair_equal_spec in He as (<- & <-). destruct (IH _ _ (or_introl eq_refl)) as (u & v & Hu & Hp).
      exists u, v. split; auto. now apply piece_snd.
    + apply IH. now right.
Qed.
Lemma hanging_side P Q : hanging P Q -> forall u v, In (u, v) (poly_edges P) ->
  exists x y, In (x, y) (poly_edges Q) /\ piece u v x y.
Proof.
  induction 1 as [|l1 l2 H IH|a b rest t H IH E Ht]; intros u v He.
  - exists u, v. split; auto. apply piece_whole.
  - destruct (IH u v He) as (x & y & Hx & Hp). exists x, y. split; auto. now apply edges_rot_in.
  - destruct (IH u v He) as (x & y & Hx & Hp). rewrite edges_new, <- E. rewrite edges_old, <- E in Hx.
    destruct Hx as [Hx|Hx].
    + apply pair_equal_spec in Hx as (<- & <-). exists a, (at_ a b t). split; [now left|]. now apply piece_fst.
    + exists x, y. split; auto. right. now right.
Qed.

(** ** Separating axes *)
Lemma proj_aff n x : proj n x = aff (px n) (py n) 0 x.
Proof. unfold proj, aff. ring. Qed.
Lemma hull_proj n L w c : hull L w -> (forall x, In x L -> c <= proj n x) -> c <= proj n w.
Proof.
  intros (ws & E & Hw & S1 & ->) Hx. rewrite proj_aff, comb_aff by auto.
  assert (K : 0 <= wsum (aff (px n) (py n) (- c)) ws L).
  { apply wsum_nonneg; auto. intros x Hin. specialize (Hx x Hin). rewrite proj_aff in Hx. unfold aff in *. lra. }
  rewrite wsum_aff in * by auto. rewrite S1 in *. lra.
Qed.
Lemma proj_neg n w : proj (Pt (- px n) (- py n)) w = - proj n w.
Proof. unfold proj. cbn. ring. Qed.
Lemma hull_proj_le n L w c : hull L w -> (forall x, In x L -> proj n x <= c) -> proj n w <= c.
Proof.
  intros H Hx. pose proof (hull_proj (Pt (- px n) (- py n)) L w (- c) H) as K. rewrite proj_neg in K.
  assert (- c <= - proj n w); [|lra]. apply K. intros x Hin. rewrite proj_neg. specialize (Hx x Hin). lra.
Qed.

Lemma apart_hull n a b P Q : (forall w, In w P -> In w a) -> (forall w, In w a -> hull P w) ->
  (forall w, In w Q -> In w b) -> (forall w, In w b -> hull Q w) -> (apart n a b <-> apart n P Q).
Proof.
  intros I1 H1 I2 H2. unfold apart. split; intros [H|H].
  - left. auto.
  - right. auto.
  - left. intros u v Hu Hv. apply (hull_proj n Q v); auto. intros y Hy. apply (hull_proj_le n P u); auto.
  - right. intros u v Hu Hv. apply (hull_proj n P u); auto. intros y Hy. apply (hull_proj_le n Q v); auto.
Qed.

Lemma apart_scale k n a b : k <> 0 -> apart (Pt (k * px n) (k * py n)) a b -> apart n a b.
Proof.
  intros Hk H. assert (E : forall w, proj (Pt (k * px n) (k * py n)) w = k * proj n w) by (intros w; unfold proj; cbn; ring).
  destruct (Rlt_dec 0 k) as [Kp|Kn].
  - destruct H as [H|H]; [left|right]; intros u v Hu Hv; specialize (H u v Hu Hv); rewrite !E in H;
      apply (Rmult_le_reg_l k); auto.
  - destruct H as [H|H]; [right|left]; intros u v Hu Hv; specialize (H u v Hu Hv); rewrite !E in H;
      apply (Rmult_le_reg_l (- k)); lra.
Qed.
Lemma lnorm_piece u v x y : piece u v x y -> exists k, 0 < k /\ lnorm x y = Pt (k * px (lnorm u v)) (k * py (lnorm u v))
  /\ lnorm u v = Pt (/ k * px (lnorm x y)) (/ k * py (lnorm x y)).
Proof.
  intros (s & t & Hst & Ht & -> & ->). exists (t - s). split; [lra|].
  split; unfold lnorm; cbn [px py at_]; apply pt_eq; cbn [px py]; try ring; unfold at_; cbn; field; lra.
Qed.
Lemma lnorm_swap u v : lnorm v u = Pt (-1 * px (lnorm u v)) (-1 * py (lnorm u v)).
Proof. unfold lnorm. cbn. apply pt_eq; cbn; ring. Qed.

Lemma axes_outline P Q P2 Q2 : outline P Q -> outline P2 Q2 ->
  ((forall u v, In (u, v) (poly_edges Q) -> u <> v -> ~ apart (lnorm u v) Q Q2)
   <-> (forall u v, In (u, v) (poly_edges P) -> u <> v -> ~ apart (lnorm u v) P P2)).
Proof.
  intros HO HO2.
  assert (HA : forall n, apart n Q Q2 <-> apart n P P2).
  { intros n. apply apart_hull; [apply outline_vertex|apply outline_vertex_hull|apply outline_vertex|apply outline_vertex_hull]; auto. }
  assert (G : forall L, hanging P L ->
    (forall x y, In (x, y) (poly_edges L) -> ~ apart (lnorm x y) P P2)
    <-> (forall u v, In (u, v) (poly_edges P) -> ~ apart (lnorm u v) P P2)).
  { intros L HL. split.
    - intros K u v He Ha. destruct (hanging_side P L HL u v He) as (x & y & Hx & Hp).
      apply (K x y Hx). destruct (lnorm_piece _ _ _ _ Hp) as (k & Hk & _ & E). rewrite E in Ha.
      revert Ha. apply apart_scale. apply Rinv_neq_0_compat. lra.
    - intros K x y He Ha. destruct (hanging_piece P L HL x y He) as (u & v & Hu & Hp).
      apply (K u v Hu). destruct (lnorm_piece _ _ _ _ Hp) as (k & Hk & E & _). rewrite E in Ha.
      revert Ha. apply apart_scale. lra. }
  assert (NP : forall u v, In (u, v) (poly_edges P) -> u <> v).
  { intros u v He. destruct HO as ((L & N & _) & _). apply (edges_neq P u v N); [lia|auto]. }
  assert (NQ : forall u v, In (u, v) (poly_edges Q) -> u <> v) by (intros u v; now apply (outline_neq P Q HO)).
  pose proof HO as (HC & [H|H]); specialize (G _ H).
  - split.
    + intros K u v He _. apply (proj1 G); auto. intros x y Hx. rewrite <- HA. auto.
    + intros K u v He _. rewrite HA. apply (proj2 G); auto.
  - split.
    + intros K u v He _. apply (proj1 G); auto. intros x y Hx Ha. apply (proj1 (edges_rev Q x y)) in Hx.
      apply (K y x Hx); [now apply NQ|]. rewrite HA. rewrite (lnorm_swap y x) in Ha. revert Ha. apply apart_scale. lra.
    + intros K u v He _. rewrite HA. intros Ha. rewrite (lnorm_swap v u) in Ha. apply apart_scale in Ha; [|lra].
      revert Ha. apply (proj2 G); [auto|]. now apply edges_rev.
Qed.

Theorem outline_axes P Q P2 Q2 : outline P Q -> outline P2 Q2 -> small Q -> small Q2 ->
  exists r1 r2, separating_axes Q Q2 = Ok r1 /\ separating_axes Q2 Q = Ok r2
    /\ ((r1 && r2 = true)%bool <-> exists p, open_hull Q p /\ open_hull Q2 p).
Proof.
  intros HO HO2 Sa Sb. pose proof (outline_nonempty _ _ HO) as Na. pose proof (outline_nonempty _ _ HO2) as Nb.
  destruct (separating_axes_iff Q Q2) as (r1 & E1 & H1); auto.
  destruct (separating_axes_iff Q2 Q) as (r2 & E2 & H2); auto.
  exists r1, r2. split; auto. split; auto.
  rewrite andb_true_iff, H1, H2, (axes_outline P Q P2 Q2 HO HO2), (axes_outline P2 Q2 P Q HO2 HO).
  pose proof HO as (Ca & _). pose proof HO2 as (Cb & _).
  rewrite (sat_exact P P2 Ca Cb).
  split; intros (p & A & B); exists p; split;
    ((apply (outline_open_hull P Q HO) + apply (outline_open_hull P2 Q2 HO2)); apply interior_open_hull; auto) ||
    (apply interior_open_hull; auto; now (apply (outline_open_hull P Q HO) + apply (outline_open_hull P2 Q2 HO2))).
Qed.

(** ** Clipping a subdivided polygon *)
Section SubClip.
  Variables r s : pt.
  Notation f := (orient r s).

  (** the new vertices end with the last old vertex, if it is inside *)
  Lemma she_last : forall l a, ins r s (last l a) = true -> last l a <> a ->
    flat_map (she r s) (chain a l) <> [] /\ forall d, last (flat_map (she r s) (chain a l)) d = last l a.
  Proof.
    induction l as [|z l IH] using rev_ind; intros a Hi Hn; [now destruct Hn|].
    rewrite last_last in *. rewrite chain_app, flat_map_app. cbn [chain flat_map]. rewrite app_nil_r.
    destruct (pt_dec (last l a) z) as [E|E].
    - assert (S0 : she r s (last l a, z) = []).
      { unfold she. destruct (neqe_cases (last l a) z) as [(_ & ->)|(K & _)]; auto. contradiction. }
      rewrite S0, app_nil_r. rewrite <- E. apply IH; now rewrite E.
    - assert (S0 : exists m, she r s (last l a, z) = m ++ [z]).
      { unfold she. destruct (neqe_cases (last l a) z) as [(K & _)|(_ & ->)]; [contradiction|]. cbn [fst snd].
        rewrite Hi. destruct (ins r s (last l a)); [exists []; reflexivity|]. eexists [_]. reflexivity. }
      destruct S0 as (m & ->). rewrite app_assoc. split; [now destruct (flat_map _ _ ++ m)|].
      intros d. apply last_last.
  Qed.

  Lemma cut_same u v t : f u <> f v -> f (at_ u v t) <> f u -> cutp r s u (at_ u v t) = cutp r s u v.
  Proof.
    intros H1 H2. rewrite f_at in H2. unfold cutp. rewrite f_at.
    assert (Ht : t <> 0) by (intros ->; apply H2; ring).
    assert (D : f u - f v <> 0) by lra. assert (D2 : f u - (f u + t * (f v - f u)) <> 0) by lra.
    apply pt_eq; unfold at_; cbn [px py]; field; split; auto.
    all: try (intros K; apply D2; lra).
  Qed.
  Lemma cut_same2 u v t : f u <> f v -> f (at_ u v t) <> f v -> cutp r s (at_ u v t) v = cutp r s u v.
  Proof.
    intros H1 H2. rewrite f_at in H2. unfold cutp. rewrite f_at.
    assert (D : f u - f v <> 0) by lra. assert (D2 : f u + t * (f v - f u) - f v <> 0) by lra.
    apply pt_eq; unfold at_; cbn [px py]; field; split; auto.
    all: try (intros K; apply D2; lra).
  Qed.

  Lemma she_eq a : she r s (a, a) = [].
  Proof. unfold she. destruct (neqe_cases a a) as [(_ & ->)|(K & _)]; auto. now destruct K. Qed.
  Lemma she_neq a b : a <> b -> she r s (a, b) =
    if ins r s b then (if ins r s a then [b] else [cutp r s a b; b]) else if ins r s a then [cutp r s a b] else [].
  Proof. intros H. unfold she. destruct (neqe_cases a b) as [(K & _)|(_ & ->)]; [contradiction|]. reflexivity. Qed.

  Lemma sh_sub P n Q : sub P n Q -> exists m, (m <= n)%nat /\ sub (sh r s P) m (sh r s Q).
  Proof.
    induction 1 as [|n l1 l2 H (m & Hm & IH)|n u v w rest H (m & Hm & IH) Eu (t & Ht & Ew)].
    - exists 0%nat. split; auto. apply sub_none.
    - destruct l1 as [|x l1]; [rewrite app_nil_r; eauto|]. destruct l2 as [|y l2]; [rewrite app_nil_r in *; eauto|].
      exists m. split; auto. unfold sh in *. rewrite edges_app in * by discriminate. rewrite flat_map_app in *.
      now apply sub_rot.
    - assert (KEEP : sh r s (w :: v :: rest) = sh r s (v :: rest) ->
         exists m, (m <= S n)%nat /\ sub (sh r s P) m (sh r s (w :: v :: rest))).
      { intros ->. exists m. split; auto. }
      set (X := flat_map (she r s) (chain v rest)).
      assert (S1 : sh r s (w :: v :: rest) = she r s (u, w) ++ she r s (w, v) ++ X)
        by (unfold sh; rewrite edges_new, <- Eu; reflexivity).
      assert (S2 : sh r s (v :: rest) = she r s (u, v) ++ X) by (unfold sh; rewrite edges_old, <- Eu; reflexivity).
      destruct (pt_dec u w) as [E|Nuw]; [apply KEEP; rewrite S1, S2; rewrite <- E, she_eq; reflexivity|].
      destruct (pt_dec w v) as [E|Nwv]; [apply KEEP; rewrite S1, S2; rewrite E, she_eq; reflexivity|].
      rewrite S1. rewrite S2 in IH. clear KEEP S1 S2.
      assert (Nuv : u <> v).
      { intros E. apply Nuw. subst v w. apply pt_eq; unfold at_; cbn; ring. }
      assert (Ht' : 0 < t < 1).
      { split.
        - destruct (Req_dec t 0) as [->|]; [|lra]. destruct Nuw. rewrite Ew. apply pt_eq; unfold at_; cbn; ring.
        - destruct (Req_dec t 1) as [->|]; [|lra]. destruct Nwv. rewrite Ew. apply pt_eq; unfold at_; cbn; ring. }
      assert (HX : ins r s u = true -> X <> [] /\ forall d, last X d = u).
      { intros Hi. rewrite Eu. apply she_last; rewrite <- Eu; auto. }
      rewrite (she_neq u w Nuw), (she_neq w v Nwv). rewrite (she_neq u v Nuv) in IH.
      assert (Fw : f w = f u + t * (f v - f u)) by (rewrite Ew; apply f_at).
      destruct (ins r s u) eqn:Iu, (ins r s v) eqn:Iv.
      + (* both inside *)
        assert (Iw : ins r s w = true).
        { apply ins_iff. apply ins_iff in Iu, Iv. rewrite Fw.
          assert (0 <= t * f v) by (apply Rmult_le_pos; lra). assert (0 < (1 - t) * f u) by (apply Rmult_lt_0_compat; lra). lra. }
        rewrite Iw. destruct (HX eq_refl) as (Xne & HL). exists (S m). split; [lia|]. cbn [app] in *.
        apply (sub_node _ _ u); auto. exists t. split; [lra|auto].
      + (* leaving *)
        apply ins_iff in Iu. apply ins_false in Iv. destruct (HX eq_refl) as (Xne & HL).
        destruct (ins r s w) eqn:Iw.
        * apply ins_iff in Iw.
          assert (EC : cutp r s w v = cutp r s u v) by (rewrite Ew; apply cut_same2; [lra|rewrite <- Ew; lra]).
          rewrite EC. exists (S m). split; [lia|]. cbn [app] in *. apply (sub_node _ _ u); auto.
          destruct (cut_down r s u v Iu Iv) as (k & Hk & Ek & Fk). rewrite Ek in *. rewrite f_at in Fk.
          exists (t / k). assert (Etk : t / k * k = t) by (field; lra).
          assert (t <= k).
          { apply Rnot_lt_le. intros L. assert (0 < (t - k) * (f u - f v)) by (apply Rmult_lt_0_compat; lra). lra. }
          split; [split; apply (Rmult_le_reg_r k); lra|]. rewrite Ew.
          apply pt_eq; unfold at_; cbn [px py]; rewrite <- Etk at 1; ring.
        * apply ins_false in Iw.
          assert (EC : cutp r s u w = cutp r s u v) by (rewrite Ew; apply cut_same; [lra|rewrite <- Ew; lra]).
          exists m. split; [lia|]. rewrite EC. exact IH.
      + (* entering *)
        apply ins_false in Iu. apply ins_iff in Iv. destruct (ins r s w) eqn:Iw.
        * apply ins_iff in Iw.
          assert (EC : cutp r s u w = cutp r s u v) by (rewrite Ew; apply cut_same; [lra|rewrite <- Ew; lra]).
          rewrite EC. exists (S m). split; [lia|].
          apply (sub_rot _ _ [cutp r s u v] (v :: X)) in IH.
          change (([cutp r s u v; w] ++ [v]) ++ X) with ([cutp r s u v] ++ (w :: v :: X)).
          apply (sub_rot _ _ (w :: v :: X) [cutp r s u v]). cbn [app] in *.
          apply (sub_node _ _ (cutp r s u v)); auto; [now rewrite last_last|].
          destruct (cut_up r s u v Iu Iv) as (k & Hk & Ek & Fk). rewrite Ek in *. rewrite f_at in Fk.
          exists ((t - k) / (1 - k)). assert (Etk : (t - k) / (1 - k) * (1 - k) = t - k) by (field; lra).
          assert (k <= t).
          { apply Rnot_lt_le. intros L. assert (0 < (k - t) * (f v - f u)) by (apply Rmult_lt_0_compat; lra). lra. }
          split; [split; apply (Rmult_le_reg_r (1 - k)); lra|]. rewrite Ew.
          set (q := (t - k) / (1 - k)) in *. replace t with (k + q * (1 - k)) by lra.
          apply pt_eq; unfold at_; cbn [px py]; ring.
        * apply ins_false in Iw.
          assert (EC : cutp r s w v = cutp r s u v) by (rewrite Ew; apply cut_same2; [lra|rewrite <- Ew; lra]).
          exists m. split; [lia|]. rewrite EC. exact IH.
      + (* outside *)
        apply ins_false in Iu, Iv.
        assert (Iw : ins r s w = false).
        { apply ins_false. rewrite Fw. assert (0 <= t * - f v) by (apply Rmult_le_pos; lra).
          assert (0 <= (1 - t) * - f u) by (apply Rmult_le_pos; lra). lra. }
        rewrite Iw. exists m. split; [lia|exact IH].
  Qed.
End SubClip.

Lemma sub_empty n Q : sub [] n Q -> Q = [].
Proof.
  induction 1 as [|n l1 l2 H IH|n u v w rest H IH E Hw]; auto; [|discriminate].
  apply app_eq_nil in IH as (-> & ->). reflexivity.
Qed.

(** the invariant of the clipping loop: Q' subdivides Q, which is convex up to
    repeated vertices *)
Lemma sub_dd_area P n Q : convex_ccw (dd P) -> sub P n Q -> polygon_area Q = Ok (shoelace (dd P)).
Proof.
  intros HC HS. rewrite shoelace_dd. rewrite <- (sub_shoelace P n Q HS).
  assert (Hne : dd P <> []) by (destruct HC as (L & _); destruct (dd P); [cbn in L; lia|discriminate]).
  assert (IP : forall p, in_poly P p <-> in_poly (dd P) p).
  { intros p. unfold in_poly. rewrite dd_edges. split; intros K u v He.
    - apply filter_In in He as (He & _). auto.
    - destruct (neqe_cases u v) as [(-> & _)|(N & En)]; [rewrite orient_11; lra|].
      apply K. apply filter_In. auto. }
  assert (PN : P <> []) by (intros ->; now apply Hne).
  apply polygon_area_exact; [pose proof (dd_length P); pose proof (sub_length P n Q HS); destruct HC; lia|].
  intros u v w He Hw.
  assert (Hin : in_poly P w).
  { pose proof (sub_hull_of P n Q w PN HS Hw) as (ws & L & Hp & S1 & ->). apply IP.
    intros a b Hab. rewrite comb_orient by auto. apply wsum_nonneg; auto. intros x Hx.
    apply (orient_vertex (dd P) a b x HC Hab). apply in_Q_dd; auto. now apply dd_nonempty. }
  apply (sub_in_poly P n Q w HS) in Hin. now apply Hin.
Qed.

Lemma sub_clip_loop : forall l r P n Q subject out,
  convex_ccw (dd P) -> sub P n Q -> firstn (length Q) out = Q ->
  (length Q + length l <= length out)%nat -> length subject = length out ->
  (forall u v, In (u, v) (chain r l) -> u <> v) ->
  exists A, clip_loop r l subject out (zlen Q) = Ok A
    /\ area_of (fun p => in_poly (dd P) p /\ forall u v, In (u, v) (chain r l) -> 0 <= orient u v p) A.
Proof.
  induction l as [|s l IH]; intros r P n Q subject out HC HSub HQ HL HS HN.
  - cbn [clip_loop chain]. unfold zlen. rewrite Nat2Z.id, HQ. exists (shoelace (dd P)). split; [eapply sub_dd_area; eauto|].
    apply area_of_dd; auto. intros p. split; [tauto|]. intros Hp. split; auto. intros u v [].
  - cbn [clip_loop chain]. pose proof (HN r s (or_introl eq_refl)) as Hrs. rsimp.
    assert (EV : Req_bool (px s - px r) 0 && Req_bool (py s - py r) 0 = false).
    { apply andb_false_iff. destruct (Req_dec (px s - px r) 0) as [E1|E1]; [|left; now apply Req_bool_false].
      destruct (Req_dec (py s - py r) 0) as [E2|E2]; [|right; now apply Req_bool_false].
      exfalso. apply Hrs. apply diff_zero. auto. }
    rewrite EV. cbn [length] in HL.
    pose proof (dd_length P) as HdL. pose proof (sub_length P n Q HSub) as HsL.
    assert (Qne : Q <> []) by (destruct HC as (L & _); destruct Q; [cbn in *; lia|discriminate]).
    destruct (sh_sub r s P n Q HSub) as (m & Hm & HSub2). pose proof (sub_length _ _ _ HSub2) as HsL2.
    destruct (sh_step r s P HC) as [(E0 & Hout)|(HC2 & HL2 & HR)].
    + assert (E0' : sh r s Q = []) by (rewrite E0 in HSub2; eapply sub_empty; eauto).
      destruct (clip_by_edge_ok r s subject out Q Qne HQ ltac:(lia)) as (s1 & o1 & E & _); [rewrite E0'; cbn; lia|].
      rewrite E, E0'. cbn. exists 0. split; auto. right. split; auto. exists r, s. split; auto.
      intros p (Hp & Hc). pose proof (Hc r s (or_introl eq_refl)) as H1.
      apply in_poly_hull in Hp; auto. destruct Hp as (ws & El & Hpos & Hs & ->).
      assert (H2 : comb ws (dd P) = comb ws (dd P)) by reflexivity.
      assert (H3 : orient r s (comb ws (dd P)) <= 0); [|lra].
      rewrite (comb_orient r s ws _ El Hs).
      assert (K : 0 <= wsum (orient s r) ws (dd P)).
      { apply wsum_nonneg; auto. intros v Hv. pose proof (Hout v Hv). rewrite orient_swap. lra. }
      rewrite <- (comb_orient s r ws _ El Hs), orient_swap in K. rewrite <- (comb_orient r s ws _ El Hs). lra.
    + destruct (clip_by_edge_ok r s subject out Q Qne HQ ltac:(lia) ltac:(lia)) as (s1 & o1 & E & F & L1 & L2).
      rewrite E. cbn [bind].
      assert (E3 : (zlen (sh r s Q) <? 3)%Z = false) by (unfold zlen; apply Z.ltb_ge; lia). rewrite E3.
      destruct (IH s (sh r s P) m (sh r s Q) s1 o1) as (A & EA & HA); auto; try lia.
      { intros u v Huv. apply HN. now right. }
      exists A. split; auto. eapply area_of_ext; [|exact HA]. intros p. cbn beta. rewrite HR. split.
      * intros ((H1 & H2) & H3). split; auto. intros u v [Huv|Huv]; [inversion Huv; subst; auto|auto].
      * intros (H1 & H2). split; [split; auto; apply H2; now left|]. intros u v Huv. apply H2. now right.
Qed.

Theorem hanging_clip_area g a b : hanging_ccw a -> hanging_ccw b -> (length a + length b <= 64)%nat ->
  exists A, polygon_polygon_clip_area g a b = Ok A /\ area_of (fun p => hull a p /\ hull b p) A.
Proof.
  intros (P & HP & HA) (P2 & HP2 & HB) HL. unfold polygon_polygon_clip_area, allocate_clip_polygon.
  set (work := np_empty (gpt g) CLIP_MAX_N_VERTEX).
  assert (LW : length work = 64%nat) by (unfold work, np_empty; rewrite map_length, seq_length; reflexivity).
  unfold zlen at 1. rewrite (copy_firstn a work (length a)) by (auto; lia). cbn [bind].
  rewrite firstn_all.
  assert (Hb : b <> []) by (eapply hanging_nonempty; eauto).
  assert (Hlast : aget b (zlen b - 1)%Z = Ok (last b (Pt 0 0))).
  { destruct (exists_last Hb) as (l & x & E). subst b. rewrite last_last. unfold zlen. rewrite app_length. cbn [length].
    replace (Z.of_nat (length l + 1) - 1)%Z with (Z.of_nat (length l)) by lia. apply aget_nat.
    rewrite nth_error_app2 by lia. now rewrite Nat.sub_diag. }
  rewrite Hlast. cbn [bind].
  assert (Da : dd P = P) by (apply dd_id; [apply HP|destruct HP; lia]).
  destruct (hanging_sub _ _ HA) as (n & Hn). destruct (hanging_sub _ _ HB) as (n2 & Hn2).
  destruct (sub_clip_loop b (last b (Pt 0 0)) P n a work (a ++ skipn (length a) work)) as (A & E & H); auto.
  - now rewrite Da.
  - rewrite firstn_app, Nat.sub_diag, firstn_all. cbn. apply app_nil_r.
  - rewrite app_length, skipn_length. lia.
  - rewrite app_length, skipn_length. lia.
  - intros u v Huv. now apply (hanging_neq P2 b HP2 HB).
  - exists A. split; auto. eapply area_of_ext; [|exact H]. intros p. cbn beta. rewrite Da.
    rewrite (sub_hull P n a p HP Hn), (sub_hull P2 n2 b p HP2 Hn2), <- (in_poly_hull P p HP), <- (in_poly_hull P2 p HP2).
    rewrite <- (sub_in_poly P2 n2 b p Hn2). reflexivity.
Qed.
