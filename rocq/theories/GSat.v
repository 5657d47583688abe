(** The separating axis test over exact reals. *)
From Verif Require Import RBase MGeometry MAlgorithms SpecPoly GConvex GHelly.
Open Scope R_scope.

Definition proj (n v : pt) : R := px v * px n + py v * py n.

Lemma dot_proj v n : dot_product v n = proj n v. Proof. reflexivity. Qed.

Lemma extrema_gen n : forall poly lo hi, 
  let r := fold_left (fun (mm : R * R) v => let pr := dot_product v n in (nmin (fst mm) pr, nmax (snd mm) pr)) poly (lo, hi) in
  fst r <= lo /\ hi <= snd r
  /\ (forall v, In v poly -> fst r <= proj n v <= snd r)
  /\ (fst r = lo \/ exists v, In v poly /\ fst r = proj n v)
  /\ (snd r = hi \/ exists v, In v poly /\ snd r = proj n v).
Proof.
  induction poly as [|x poly IH]; intros lo hi; cbn [fold_left].
  - cbn. repeat split; auto; try lra; intros; contradiction.
  - cbn [fst snd]. rewrite dot_proj.
    specialize (IH (nmin lo (proj n x)) (nmax hi (proj n x))).
    cbn zeta in *. set (r := fold_left _ poly _) in *. destruct IH as (A & B & C & D & E).
    unfold nmin, nmax in *. rsimp.
    destruct (Rlt_bool_spec (proj n x) lo), (Rlt_bool_spec hi (proj n x));
      (split; [lra|]); (split; [lra|]); (split; [intros v [<-|Hv]; [lra|auto]|]); split.
    all: try (destruct D as [D|(v & Hv & D)]; [|right; exists v; split; [now right|assumption]]).
    all: try (destruct E as [E|(w & Hw & E)]; [|right; exists w; split; [now right|assumption]]).
    all: first [left; assumption | right; exists x; split; [now left|assumption]].
Qed.

Lemma extrema_spec n poly : poly <> [] ->
  (forall v, In v poly -> - FMAX <= proj n v <= FMAX) ->
  exists lo hi, extrema_projected n poly = (lo, hi)
    /\ (forall v, In v poly -> lo <= proj n v <= hi)
    /\ (exists v, In v poly /\ proj n v = lo) /\ (exists v, In v poly /\ proj n v = hi).
Proof.
  intros Hne Hb. unfold extrema_projected. rsimp.
  pose proof (extrema_gen n poly FMAX (- FMAX)) as H. cbn zeta in H.
  set (r := fold_left _ poly _) in *. destruct r as (lo, hi). cbn [fst snd] in H.
  exists lo, hi. split; auto. destruct H as (A & B & C & D & E). split; auto.
  destruct poly as [|x poly]; [congruence|].
  assert (Hx : In x (x :: poly)) by now left.
  pose proof (C x Hx). pose proof (Hb x Hx). split.
  - destruct D as [D|(v & Hv & D)]; [|eauto]. exists x. split; auto. lra.
  - destruct E as [E|(v & Hv & E)]; [|eauto]. exists x. split; auto. lra.
Qed.

(** the two polygons lie on different sides of a line with normal n *)
Definition apart (n : pt) (a b : list pt) : Prop :=
  (forall u v, In u a -> In v b -> proj n u <= proj n v)
  \/ (forall u v, In u a -> In v b -> proj n v <= proj n u).

Lemma is_separating_iff n a b : a <> [] -> b <> [] ->
  (forall v, In v a -> - FMAX <= proj n v <= FMAX) ->
  (forall v, In v b -> - FMAX <= proj n v <= FMAX) ->
  (is_separating_axis n a b = true <-> apart n a b).
Proof.
  intros Ha Hb Ba Bb. unfold is_separating_axis.
  destruct (extrema_spec n a Ha Ba) as (la & ha & -> & Ca & (u0 & Iu0 & Eu0) & (u1 & Iu1 & Eu1)).
  destruct (extrema_spec n b Hb Bb) as (lb & hb & -> & Cb & (v0 & Iv0 & Ev0) & (v1 & Iv1 & Ev1)).
  rsimp. split.
  - destruct (Rlt_bool_spec lb ha); cbn.
    + destruct (Rlt_bool_spec la hb); cbn; [discriminate|]. intros _. right.
      intros u v Hu Hv. specialize (Ca u Hu). specialize (Cb v Hv). lra.
    + intros _. left. intros u v Hu Hv. specialize (Ca u Hu). specialize (Cb v Hv). lra.
  - intros [H|H].
    + specialize (H u1 v0 Iu1 Iv0). rewrite Rlt_bool_false by lra. reflexivity.
    + specialize (H u0 v1 Iu0 Iv1). rewrite (Rlt_bool_false la hb) by lra. now rewrite andb_false_r.
Qed.

Definition lnorm (p q : pt) : pt := Pt (py p - py q) (px q - px p).

Lemma lnorm_proj p q v : proj (lnorm p q) v = orient p q v + proj (lnorm p q) p.
Proof. unfold proj, lnorm, orient. cbn. ring. Qed.

Lemma small_proj a b p q v : small a -> small b -> In p a -> In q a -> In v b ->
  - FMAX <= proj (lnorm p q) v <= FMAX.
Proof.
  intros Ha Hb Hp Hq Hv. unfold small in *. rewrite Forall_forall in Ha, Hb.
  destruct (Ha p Hp) as (P1 & P2), (Ha q Hq) as (Q1 & Q2), (Hb v Hv) as (V1 & V2).
  assert (B : Rabs (proj (lnorm p q) v) <= FMAX).
  { unfold proj, lnorm. cbn [px py].
    set (M := IZR (2 ^ 500)) in *.
    assert (H4 : 4 * (M * M) <= FMAX).
    { unfold FMAX, M. rewrite <- mult_IZR, <- mult_IZR. apply IZR_le. apply Z.leb_le. vm_compute. reflexivity. }
    assert (D : forall x y, Rabs x <= M -> Rabs y <= M -> Rabs (x - y) <= 2 * M).
    { intros x y Hx Hy. apply Rabs_le. apply Rabs_le_inv in Hx, Hy. lra. }
    eapply Rle_trans; [apply Rabs_triang|]. rewrite !Rabs_mult.
    assert (Rabs (px v) * Rabs (py p - py q) <= M * (2 * M))
      by (apply Rmult_le_compat; auto using Rabs_pos).
    assert (Rabs (py v) * Rabs (px q - px p) <= M * (2 * M))
      by (apply Rmult_le_compat; auto using Rabs_pos). lra. }
  apply Rabs_le_inv in B. exact B.
Qed.

Lemma loop_iff a b : a <> [] -> b <> [] -> small a -> small b -> forall l p,
  In p a -> (forall q, In q l -> In q a) ->
  (separating_axes_loop a b p l = true <->
   forall u v, In (u, v) (chain p l) -> u <> v -> ~ apart (lnorm u v) a b).
Proof.
  intros Ha Hb Sa Sb. induction l as [|q l IH]; intros p Hp Hl; cbn [separating_axes_loop chain].
  - split; [intros _ u v []|auto].
  - assert (Hq : In q a) by (apply Hl; now left).
    assert (IH' := IH q Hq (fun r Hr => Hl r (or_intror Hr))). clear IH.
    change (Pt (nsub (py p) (py q)) (nsub (px q) (px p))) with (lnorm p q).
    change (px (lnorm p q)) with (py p - py q). change (py (lnorm p q)) with (px q - px p).
    assert (Hsep : is_separating_axis (lnorm p q) a b = true <-> apart (lnorm p q) a b).
    { apply is_separating_iff; auto; intros v Hv; [apply (small_proj a a)|apply (small_proj a b)]; auto. }
    rsimp.
    destruct (Req_bool_spec (py p - py q) (IZR 0)) as [Ey|Ey]; cbn [andb];
      [destruct (Req_bool_spec (px q - px p) (IZR 0)) as [Ex|Ex]|].
    { assert (p = q) by (apply pt_eq; lra). subst q. rewrite IH'. split.
      - intros H u v [E|Hi] Hn; [congruence|auto].
      - intros H u v Hi. apply H. now right. }
    all: assert (Hne : p <> q) by (intros ->; lra).
    all: destruct (is_separating_axis (lnorm p q) a b);
      [split; [discriminate|intros H; exfalso; apply (H p q); [now left|exact Hne|now apply Hsep]]|].
    all: rewrite IH'; split;
      [intros H u v [E|Hi] Hn; [inversion E; subst; intros Hs; apply Hsep in Hs; discriminate|auto]
      |intros H u v Hi; apply H; now right].
Qed.

Lemma separating_axes_iff a b : a <> [] -> b <> [] -> small a -> small b ->
  exists r, separating_axes a b = Ok r
    /\ (r = true <-> forall u v, In (u, v) (poly_edges a) -> u <> v -> ~ apart (lnorm u v) a b).
Proof.
  intros Ha Hb Sa Sb. unfold separating_axes.
  assert (E : aget a (zlen a - 1)%Z = Ok (last a (Pt 0 0))).
  { destruct (exists_last Ha) as (l & x & ->). rewrite last_last. unfold zlen. rewrite app_length. cbn.
    replace (Z.of_nat (length l + 1) - 1)%Z with (Z.of_nat (length l)) by lia.
    apply aget_nat. rewrite nth_error_app2 by lia. rewrite Nat.sub_diag. reflexivity. }
  rewrite E. cbn [bind]. eexists. split; [reflexivity|].
  apply loop_iff; auto. now apply last_in.
Qed.

(** ** Interiors *)
Lemma interior_proj poly p u v : interior poly p -> In (u, v) (poly_edges poly) ->
  proj (lnorm u v) u < proj (lnorm u v) p.
Proof. intros H He. rewrite (lnorm_proj u v p). specialize (H u v He). lra. Qed.

(** a common interior point excludes every separating line *)
Lemma common_not_apart a b p n : convex_ccw a -> convex_ccw b -> interior a p -> interior b p ->
  (px n <> 0 \/ py n <> 0) -> ~ apart n a b.
Proof.
  intros Ca Cb Ia Ib Hn [H|H].
  - destruct (interior_beyond a p (px n) (py n) Ca Ia Hn) as (u & Hu & Lu).
    destruct (interior_beyond b p (- px n) (- py n) Cb Ib) as (v & Hv & Lv); [destruct Hn; [left|right]; lra|].
    specialize (H u v Hu Hv). unfold proj in H. lra.
  - destruct (interior_beyond a p (- px n) (- py n) Ca Ia) as (u & Hu & Lu); [destruct Hn; [left|right]; lra|].
    destruct (interior_beyond b p (px n) (py n) Cb Ib Hn) as (v & Hv & Lv).
    specialize (H u v Hu Hv). unfold proj in H. lra.
Qed.

Definition half (e : pt * pt) : pt -> Prop := fun p => 0 < orient (fst e) (snd e) p.
Lemma half_cvx e : cvx (half e).
Proof. intros p q t Hp Hq Ht. unfold half in *. rewrite orient_at. apply comb_gt; lra. Qed.

(** some interior point of a is strictly left of the side (u, v) of b *)
Lemma reach a b u v : convex_ccw a -> convex_ccw b -> In (u, v) (poly_edges b) ->
  ~ apart (lnorm u v) b a -> exists p, interior a p /\ 0 < orient u v p.
Proof.
  intros Ca Cb He Hn.
  assert (D : (exists w, In w a /\ 0 < orient u v w) \/ forall w, In w a -> orient u v w <= 0).
  { clear. induction a as [|x a IH]; [right; intros w []|].
    destruct (Rlt_dec 0 (orient u v x)) as [Hx|Hx]; [left; exists x; split; [now left|auto]|].
    destruct IH as [(w & Hw & L)|IH]; [left; exists w; split; [now right|auto]|].
    right. intros w [<-|Hw]; [lra|auto]. }
  destruct D as [(w & Hw & L)|D].
  - destruct (interior_exists a Ca) as (p0 & Hp0).
    destruct (Rlt_dec 0 (orient u v p0)) as [Hx|Hx]; [eauto|].
    (* between w and p0, close to w *)
    set (k := orient u v w) in *. set (m := orient u v p0) in *.
    set (t := 1 - k / (2 * (k - m))).
    assert (Hd : 0 < k - m) by lra.
    assert (E : k / (2 * (k - m)) * (k - m) = k / 2) by (field; lra).
    assert (0 < k / (2 * (k - m))) by (apply Rdiv_lt_0_compat; lra).
    assert (k / (2 * (k - m)) <= / 2).
    { apply (Rmult_le_reg_r (k - m)); auto. rewrite E. lra. }
    exists (at_ p0 w t). split.
    + apply interior_at; auto; [now apply vertex_in_poly|unfold t; lra].
    + rewrite orient_at. fold k m. unfold t.
      replace (m + (1 - k / (2 * (k - m))) * (k - m)) with (k - k / (2 * (k - m)) * (k - m)) by ring. lra.
  - exfalso. apply Hn. right. intros x y Hx Hy. rewrite (lnorm_proj u v x), (lnorm_proj u v y).
    specialize (D y Hy). pose proof (orient_vertex b u v x Cb He Hx). lra.
Qed.

(** Helly: no side of either polygon separates them iff the interiors meet *)
Theorem sat_exact a b : convex_ccw a -> convex_ccw b ->
  ((forall u v, In (u, v) (poly_edges a) -> u <> v -> ~ apart (lnorm u v) a b)
   /\ (forall u v, In (u, v) (poly_edges b) -> u <> v -> ~ apart (lnorm u v) b a)
   <-> exists p, interior a p /\ interior b p).
Proof.
  intros Ca Cb. split.
  - intros (Ha & Hb).
    assert (Na : forall u v, In (u, v) (poly_edges a) -> u <> v).
    { intros u v He. destruct Ca as (L & N & _). eapply edges_neq; eauto. lia. }
    assert (Nb : forall u v, In (u, v) (poly_edges b) -> u <> v).
    { intros u v He. destruct Cb as (L & N & _). eapply edges_neq; eauto. lia. }
    assert (Ra : forall e, In e (poly_edges b) -> exists p, interior a p /\ half e p).
    { intros (u, v) He. apply (reach a b); auto. }
    assert (Rb : forall e, In e (poly_edges a) -> exists p, interior b p /\ half e p).
    { intros (u, v) He. apply (reach b a); auto. }
    assert (Xa : forall e p, interior a p -> In e (poly_edges a) -> half e p) by (intros (u, v) p Hp He; exact (Hp u v He)).
    assert (Xb : forall e p, interior b p -> In e (poly_edges b) -> half e p) by (intros (u, v) p Hp He; exact (Hp u v He)).
    destruct (interior_exists a Ca) as (pa & Hpa). destruct (interior_exists b Cb) as (pb & Hpb).
    destruct (helly (map half (poly_edges a ++ poly_edges b))) as (p & Hp).
    + apply Forall_forall. intros C HC. apply in_map_iff in HC as (e & <- & _). apply half_cvx.
    + intros C1 C2 C3 H1 H2 H3.
      apply in_map_iff in H1 as (e1 & <- & H1). apply in_map_iff in H2 as (e2 & <- & H2).
      apply in_map_iff in H3 as (e3 & <- & H3).
      apply in_app_or in H1, H2, H3.
      destruct H1 as [H1|H1], H2 as [H2|H2], H3 as [H3|H3].
      * exists pa. auto.
      * destruct (Ra e3 H3) as (q & A & B). exists q. auto.
      * destruct (Ra e2 H2) as (q & A & B). exists q. auto.
      * destruct (Rb e1 H1) as (q & A & B). exists q. auto.
      * destruct (Ra e1 H1) as (q & A & B). exists q. auto.
      * destruct (Rb e2 H2) as (q & A & B). exists q. auto.
      * destruct (Rb e3 H3) as (q & A & B). exists q. auto.
      * exists pb. auto.
    + exists p. rewrite Forall_forall in Hp.
      assert (Hh : forall e, In e (poly_edges a ++ poly_edges b) -> half e p) by (intros e He; apply Hp, in_map, He).
      split; intros u v He; apply (Hh (u, v)); apply in_or_app; auto.
  - intros (p & Ia & Ib).
    assert (K : forall u v : pt, u <> v -> px (lnorm u v) <> 0 \/ py (lnorm u v) <> 0).
    { intros u v Hn. unfold lnorm. cbn. destruct (Req_dec (py u - py v) 0); [|now left].
      right. intros E. apply Hn. apply pt_eq; lra. }
    split; intros u v He Hn; [apply (common_not_apart a b p)|apply (common_not_apart b a p)]; auto.
Qed.
