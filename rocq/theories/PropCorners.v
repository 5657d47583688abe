(** Property theorems: the vertices of a mesh or network are located, in binary64 (C81). *)
From Verif Require Import RBase NumB64 NumSub NumRoom MGeometry MCreation MAlgorithms MQuery MCelltree SpecTree SpecQuery SpecApi SpecGeom SpecMesh
  PBuild PMesh PInit GFaces PPoints PFaces PApi PNumber FBase FBuild FPoint FMesh FLocate FEdgeTree Examples PropTree PropEdges PropPoints PropSplit PropFloat PropFloatPoints.
From Flocq Require Import Core BinarySingleNaN.
Open Scope R_scope.

(** two points have the same coordinates, or are at least 2^-400 apart in x or in y *)
Definition apart (u v : point b64) : Prop :=
  rp u = rp v \/ bpow radix2 (-400) <= Rabs (B2R (px v) - B2R (px u)) \/ bpow radix2 (-400) <= Rabs (B2R (py v) - B2R (py u)).

Lemma rp_eq (p q : point b64) : rp p = rp q <-> B2R (px p) = B2R (px q) /\ B2R (py p) = B2R (py q).
Proof. unfold rp. split; [intros H; injection H; auto|intros (-> & ->); reflexivity]. Qed.

Lemma eqb_rp (p q : point b64) : finite_point p -> finite_point q -> point_eqb p q = true <-> rp p = rp q.
Proof.
  intros (A & B) (C & D). unfold point_eqb. rewrite (neqb_B _ _ A C), (neqb_B _ _ B D), rp_eq.
  rewrite Bool.andb_true_iff. split; intros (X & Y).
  - destruct (Req_bool_spec (B2R (px p)) (B2R (px q))); [|discriminate]. destruct (Req_bool_spec (B2R (py p)) (B2R (py q))); [auto|discriminate].
  - split; now apply Req_bool_true.
Qed.

Lemma zero_mul (x y : b64) : bounded 251 y -> is_finite x = true -> B2R x = 0 -> is_finite (nmul x y) = true /\ B2R (nmul x y) = 0.
Proof.
  intros (Fy & By) Fx Ex. destruct (mult_val 0 x y ltac:(lia) Fx Fy) as (E & (F & _)).
  { rewrite Ex, Rmult_0_l, Rabs_R0. apply bpow_ge_0. }
  split; [exact F|]. rewrite E, Ex, Rmult_0_l. apply rnd_0.
Qed.
Lemma mul_zero (x y : b64) : bounded 251 x -> is_finite y = true -> B2R y = 0 -> is_finite (nmul x y) = true /\ B2R (nmul x y) = 0.
Proof.
  intros (Fx & Bx) Fy Ey. destruct (mult_val 0 x y ltac:(lia) Fx Fy) as (E & (F & _)).
  { rewrite Ey, Rmult_0_r, Rabs_R0. apply bpow_ge_0. }
  split; [exact F|]. rewrite E, Ey, Rmult_0_r. apply rnd_0.
Qed.
Lemma sub_zero (x y : b64) : is_finite x = true -> is_finite y = true -> B2R x = B2R y -> is_finite (nsub x y) = true /\ B2R (nsub x y) = 0.
Proof.
  intros Fx Fy Exy. assert (Z : B2R x - B2R y = 0) by lra. destruct (minus_val 0 x y ltac:(lia) Fx Fy) as (E & (F & _)).
  { rewrite Z, Rabs_R0. apply bpow_ge_0. }
  split; [exact F|]. rewrite E, Z. apply rnd_0.
Qed.

Lemma diff_bounded (x y : b64) : bounded 250 x -> bounded 250 y -> bounded 251 (nsub x y) /\ B2R (nsub x y) = rnd (B2R x - B2R y).
Proof.
  intros (Fx & Bx) (Fy & By). destruct (minus_val 251 x y ltac:(lia) Fx Fy) as (E & B); auto.
  change 251%Z with (250 + 1)%Z. rewrite bpow_plus. change (bpow radix2 1) with 2. revert Bx By. unfold Rabs; repeat destruct Rcase_abs; lra.
Qed.

(** a power of two is a double *)
Lemma rnd_bpow_ge e z : (-1074 <= e < 1024)%Z -> bpow radix2 e <= z -> bpow radix2 e <= rnd z.
Proof.
  intros He H. apply round_ge_generic; auto; try exact _.

  apply generic_format_bpow. unfold SpecFloat.fexp, SpecFloat.emin, prec, emax. lia.
Qed.
Lemma rnd_bpow_abs e z : (-1074 <= e < 1024)%Z -> bpow radix2 e <= Rabs z -> bpow radix2 e <= Rabs (rnd z).
Proof.
  intros He H. apply abs_round_ge_generic; auto; try exact _.

  apply generic_format_bpow. unfold SpecFloat.fexp, SpecFloat.emin, prec, emax. lia.
Qed.

Lemma square_ge (x : b64) e : (-500 <= e <= 500)%Z -> bpow radix2 e <= Rabs (B2R x) -> bpow radix2 (e + e) <= B2R x * B2R x.
Proof.
  intros He H. rewrite bpow_plus. pose proof (bpow_ge_0 radix2 e). replace (B2R x * B2R x) with (Rabs (B2R x) * Rabs (B2R x)).
  - apply Rmult_le_compat; auto.
  - rewrite <- Rabs_mult. apply Rabs_pos_eq. pose proof (Rle_0_sqr (B2R x)). unfold Rsqr in *. lra.
Qed.
Lemma square_le (x : b64) e : Rabs (B2R x) <= bpow radix2 e -> Rabs (B2R x * B2R x) <= bpow radix2 (e + e).
Proof. intros H. rewrite Rabs_mult, bpow_plus. apply Rmult_le_compat; auto using Rabs_pos. Qed.

(** ** The length of a side does not vanish *)
Lemma length_val (w : point b64) : bounded 251 (px w) -> bounded 251 (py w) ->
  bpow radix2 (-400) <= Rabs (B2R (px w)) \/ bpow radix2 (-400) <= Rabs (B2R (py w)) ->
  bounded 503 (length_squared w) /\ bpow radix2 (-800) <= B2R (length_squared w).
Proof.
  intros (Fx & Bx) (Fy & By) H. unfold length_squared.
  destruct (mult_val 502 (px w) (px w) ltac:(lia) Fx Fx (square_le _ 251 Bx)) as (Ex & (Fxx & Bxx)).
  destruct (mult_val 502 (py w) (py w) ltac:(lia) Fy Fy (square_le _ 251 By)) as (Ey & (Fyy & Byy)).
  assert (Nx : 0 <= B2R (nmul (px w) (px w))).
  { rewrite Ex, <- rnd_0. apply rnd_mono. pose proof (Rle_0_sqr (B2R (px w))). unfold Rsqr in *. lra. }
  assert (Ny : 0 <= B2R (nmul (py w) (py w))).
  { rewrite Ey, <- rnd_0. apply rnd_mono. pose proof (Rle_0_sqr (B2R (py w))). unfold Rsqr in *. lra. }
  destruct (plus_val 503 _ _ ltac:(lia) Fxx Fyy) as (E & B).
  { change 503%Z with (502 + 1)%Z. rewrite bpow_plus. change (bpow radix2 1) with 2. revert Bxx Byy. unfold Rabs; repeat destruct Rcase_abs; lra. }
  split; [exact B|]. change (@nadd b64 _) with (@nadd b64 NumB64) in *. rewrite E. apply rnd_bpow_ge; [lia|]. destruct H as [H|H].
  - pose proof (square_ge (px w) (-400) ltac:(lia) H) as S. change (-400 + -400)%Z with (-800)%Z in S. apply (rnd_bpow_ge (-800) _ ltac:(lia)) in S. rewrite <- Ex in S. lra.
  - pose proof (square_ge (py w) (-400) ltac:(lia) H) as S. change (-400 + -400)%Z with (-800)%Z in S. apply (rnd_bpow_ge (-800) _ ltac:(lia)) in S. rewrite <- Ey in S. lra.
Qed.

Lemma zero_within (A tol : b64) (w : point b64) : is_finite A = true -> B2R A = 0 ->
  bounded 503 (length_squared w) -> bpow radix2 (-800) <= B2R (length_squared w) ->
  bounded 250 tol -> bpow radix2 (-100) <= B2R tol -> within_perpendicular_distance A w tol = true.
Proof.
  intros FA EA (FL & BL) HL (Ft & Bt) Ht. unfold within_perpendicular_distance.
  destruct (mult_val 0 A A ltac:(lia) FA FA) as (E & (F & _)); [rewrite EA, Rmult_0_l, Rabs_R0; apply bpow_ge_0|].
  destruct (mult_val 753 tol (length_squared w) ltac:(lia) Ft FL) as (E1 & (F1 & B1)).
  { rewrite Rabs_mult. change 753%Z with (250 + 503)%Z. rewrite bpow_plus. apply Rmult_le_compat; auto using Rabs_pos. }
  destruct (mult_val 1003 (nmul tol (length_squared w)) tol ltac:(lia) F1 Ft) as (E2 & (F2 & B2)).
  { rewrite Rabs_mult. change 1003%Z with (753 + 250)%Z. rewrite bpow_plus. apply Rmult_le_compat; auto using Rabs_pos. }
  rewrite (nltb_B _ _ F F2). apply Rlt_bool_true. rewrite E, EA, Rmult_0_l, rnd_0, E2.
  assert (G1 : bpow radix2 (-900) <= B2R (nmul tol (length_squared w))).
  { rewrite E1. apply rnd_bpow_ge; [lia|]. change (-900)%Z with (-100 + -800)%Z. rewrite bpow_plus. apply Rmult_le_compat; auto using bpow_ge_0. }
  apply Rlt_le_trans with (bpow radix2 (-1000)); [apply bpow_gt_0|]. apply rnd_bpow_ge; [lia|].
  change (-1000)%Z with (-900 + -100)%Z. rewrite bpow_plus. apply Rmult_le_compat; auto using bpow_ge_0.
Qed.

(** ** A point with the coordinates of an end of a segment *)
Section End.
  Variables (p u v : point b64) (tol : b64).
  Hypothesis Bp : bpt 250 p.
  Hypothesis Bu : bpt 250 u.
  Hypothesis Bv : bpt 250 v.
  Hypothesis Bt : bounded 250 tol.
  Hypothesis Ht : bpow radix2 (-100) <= B2R tol.
  Hypothesis Hne : rp u <> rp v.
  Hypothesis Hap : apart u v.
  Hypothesis Hend : rp p = rp u \/ rp p = rp v.

  Lemma end_within : within_perpendicular_distance (cross_product (to_vector p u) (to_vector p v)) (to_vector u v) tol = true.
  Proof.
    destruct Bp as (Bpx & Bpy), Bu as (Bux & Buy), Bv as (Bvx & Bvy).
    assert (X : is_finite (cross_product (to_vector p u) (to_vector p v)) = true /\ B2R (cross_product (to_vector p u) (to_vector p v)) = 0).
    { unfold cross_product, to_vector. cbn [px py]. destruct Hend as [He|He]; apply rp_eq in He as (Ex & Ey).
      - destruct (sub_zero (px u) (px p)) as (F1 & Z1); [apply Bux|apply Bpx|congruence|]. destruct (sub_zero (py u) (py p)) as (F2 & Z2); [apply Buy|apply Bpy|congruence|].
        destruct (zero_mul (nsub (px u) (px p)) (nsub (py v) (py p))) as (F3 & Z3); [now apply diff_bounded|exact F1|exact Z1|].
        destruct (zero_mul (nsub (py u) (py p)) (nsub (px v) (px p))) as (F4 & Z4); [now apply diff_bounded|exact F2|exact Z2|].
        apply sub_zero; auto. congruence.
      - destruct (sub_zero (px v) (px p)) as (F1 & Z1); [apply Bvx|apply Bpx|congruence|]. destruct (sub_zero (py v) (py p)) as (F2 & Z2); [apply Bvy|apply Bpy|congruence|].
        destruct (mul_zero (nsub (px u) (px p)) (nsub (py v) (py p))) as (F3 & Z3); [now apply diff_bounded|exact F2|exact Z2|].
        destruct (mul_zero (nsub (py u) (py p)) (nsub (px v) (px p))) as (F4 & Z4); [now apply diff_bounded|exact F1|exact Z1|].
        apply sub_zero; auto. congruence. }
    destruct (diff_bounded (px v) (px u) Bvx Bux) as (Bx & Ex). destruct (diff_bounded (py v) (py u) Bvy Buy) as (By & Ey).
    destruct (length_val (to_vector u v)) as (BL & HL); [exact Bx|exact By| |].
    { destruct Hap as [He|[H|H]]; [contradiction|left|right]; unfold to_vector; cbn [px py].
      - rewrite Ex. apply rnd_bpow_abs; [lia|exact H].
      - rewrite Ey. apply rnd_bpow_abs; [lia|exact H]. }
    apply zero_within; auto; apply X.
  Qed.

  Lemma end_bounds : in_bounds p u v = true.
  Proof.
    destruct Bp as ((Fpx & _) & (Fpy & _)), Bu as ((Fux & _) & (Fuy & _)), Bv as ((Fvx & _) & (Fvy & _)).
    destruct (nmin_B (px u) (px v) Fux Fvx) as (E1 & G1), (nmax_B (px u) (px v) Fux Fvx) as (E2 & G2).
    destruct (nmin_B (py u) (py v) Fuy Fvy) as (E3 & G3), (nmax_B (py u) (py v) Fuy Fvy) as (E4 & G4).
    assert (X : nleb (nmin (px u) (px v)) (px p) = true /\ nleb (px p) (nmax (px u) (px v)) = true
                /\ nleb (nmin (py u) (py v)) (py p) = true /\ nleb (py p) (nmax (py u) (py v)) = true).
    { rewrite (nleb_B _ _ G1 Fpx), (nleb_B _ _ Fpx G2), (nleb_B _ _ G3 Fpy), (nleb_B _ _ Fpy G4), E1, E2, E3, E4.
      destruct Hend as [He|He]; apply rp_eq in He as (-> & ->);
      (split; [apply Rle_bool_true; first [apply Rmin_l|apply Rmin_r]|split; [apply Rle_bool_true; first [apply Rmax_l|apply Rmax_r]|split; [apply Rle_bool_true; first [apply Rmin_l|apply Rmin_r]|apply Rle_bool_true; first [apply Rmax_l|apply Rmax_r]]]]). }
    destruct X as (X1 & X2 & X3 & X4). unfold in_bounds. cbv zeta. rewrite X1, X2, X3, X4. cbn [andb]. rewrite !Bool.andb_true_r. apply Bool.orb_negb_r.
  Qed.

  Lemma end_on_edge : point_on_edge p [u; v] tol = Ok true.
  Proof.
    assert (N : point_eqb v u = false).
    { destruct (point_eqb v u) eqn:E; auto. exfalso. apply Hne. symmetry. apply (eqb_rp v u); auto; split; first [apply Bv|apply Bu]. }
    unfold point_on_edge. change (aget [u; v] 0%Z) with (Ok u). change (aget [u; v] 1%Z) with (Ok v). cbn [bind]. rewrite N.
    rewrite end_within, end_bounds. reflexivity.
  Qed.
End End.

(** ** Polygons of any shape *)
Lemma corner_loop (p : point b64) tol : bpt 250 p -> bounded 250 tol -> bpow radix2 (-100) <= B2R tol ->
  forall l v0 c, bpt 250 v0 -> Forall (bpt 250) l -> (forall u v, In u (v0 :: l) -> In v (v0 :: l) -> apart u v) ->
  (rp p = rp v0 /\ exists v, In v l /\ rp v <> rp p) \/ (rp p <> rp v0 /\ exists v, In v l /\ rp v = rp p) ->
  pip_or_edge_loop p tol v0 (to_vector p v0) l c = Ok true.
Proof.
  intros Bp Bt Ht. induction l as [|v1 l IH]; intros v0 c B0 BL Hap H.
  - destruct H as [(_ & v & [] & _)|(_ & v & [] & _)].
  - inversion BL as [|? ? B1 BL']; subst. cbn [pip_or_edge_loop].
    assert (F : forall q, bpt 250 q -> finite_point q) by (intros q ((A & _) & (B & _)); split; assumption).
    destruct (point_eqb v1 v0) eqn:E.
    + apply (eqb_rp v1 v0 (F _ B1) (F _ B0)) in E. apply IH; auto.
      * intros u v Hu Hv. apply Hap; cbn in *; tauto.
      * destruct H as [(H & v & [<-|Hv] & Hne)|(H & v & [<-|Hv] & He)]; [congruence|left; eauto|congruence|right; eauto].
    + assert (Hne : rp v0 <> rp v1).
      { intros X. symmetry in X. apply (eqb_rp v1 v0 (F _ B1) (F _ B0)) in X. congruence. }
      assert (A01 : apart v0 v1) by (apply Hap; cbn; auto).
      destruct (within_perpendicular_distance _ _ _ && in_bounds p v0 v1)%bool eqn:W; [reflexivity|].
      destruct (crosses_total p v0 v1 (F _ B0) (F _ B1)) as (b & ->). cbn [bind].
      assert (N : ~ (rp p = rp v0 \/ rp p = rp v1)).
      { intros He. rewrite (end_within p v0 v1 tol Bp B0 B1 Bt Ht Hne A01 He), (end_bounds p v0 v1 Bp B0 B1 He) in W. discriminate. }
      apply IH; auto.
      * intros u v Hu Hv. apply Hap; cbn in *; tauto.
      * right. split; [tauto|]. destruct H as [(H & _)|(_ & v & [<-|Hv] & He)]; [tauto|exfalso; apply N; right; congruence|eauto].
Qed.

Lemma corner_in_polygon (p : point b64) tol poly : bpt 250 p -> bounded 250 tol -> bpow radix2 (-100) <= B2R tol ->
  Forall (bpt 250) poly -> (forall u v, In u poly -> In v poly -> apart u v) ->
  (exists v, In v poly /\ rp v = rp p) -> (exists v, In v poly /\ rp v <> rp p) -> point_in_polygon_or_on_edge p poly tol = Ok true.
Proof.
  intros Bp Bt Ht BL Hap (v & Hv & Ev) (w & Hw & Ew). unfold point_in_polygon_or_on_edge.
  destruct (exists_last (l := poly)) as (l & z & ->); [intros ->; destruct Hv|]. rewrite aget_last. cbn [bind].
  assert (Hz : In z (l ++ [z])) by (apply in_app_iff; cbn; auto).
  apply corner_loop; auto.
  - rewrite Forall_forall in BL. auto.
  - intros u u' Hu Hu'. apply Hap; [destruct Hu as [<-|Hu]|destruct Hu' as [<-|Hu']]; auto.
  - assert (D : rp p = rp z \/ rp p <> rp z).
    { destruct (Req_dec (B2R (px p)) (B2R (px z))); [destruct (Req_dec (B2R (py p)) (B2R (py z)))|]; [left|right|right]; rewrite rp_eq; tauto. }
    destruct D as [D|D]; [left|right]; split; eauto.
Qed.

(** ** The tolerance *)
Lemma given_or_default tol0 (t : tree2d (T:=b64)) tolerance tol :
  bb_dist t = bbox_distances (bb_coords (celltree_data t)) ->
  (forall b, In b (bb_coords (celltree_data t)) -> bounded 250 (xmin b) /\ bounded 250 (xmax b) /\ bounded 250 (ymin b) /\ bounded 250 (ymax b)) ->
  get_tolerance t tolerance = Ok tol -> tolerance = None \/ (tolerance = Some tol0 /\ bounded 250 tol0 /\ bpow radix2 (-100) <= B2R tol0) ->
  bounded 250 tol /\ bpow radix2 (-100) <= B2R tol.
Proof.
  intros Hd HB Et [->|(-> & H)]; [|apply Ok_inj in Et; subst tol; exact H].
  cbn [get_tolerance] in Et. unfold default_tolerance in Et. rewrite Hd in Et. apply bind_ok in Et as (mx & Em & Et). apply Ok_inj in Et.
  assert (HD : Forall (bounded 252) (map snd (bbox_distances (bb_coords (celltree_data t))))).
  { apply Forall_forall. intros x Hx. apply in_map_iff in Hx as (y & <- & Hy). unfold bbox_distances in Hy.
    apply in_map_iff in Hy as (b & <- & Hin). destruct (HB b Hin) as (B1 & B2 & B3 & B4). apply (diagonal_bounds 250); auto. lia. }
  destruct (py_max_bounds _ _ _ HD Em) as (Bm & _).
  assert (Bp : bounded 213 (nmul ntolfac mx)).
  { change 213%Z with (-39 + 252)%Z. apply bounded_prod; auto using tolfac_small. lia. }
  destruct mintol_pos as (F0 & P0). subst tol. split.
  - apply bounded_nmax; [apply (bounded_mono (-49)); [lia|apply mintol_small]|apply (bounded_mono 213); auto; lia].
  - eapply Rle_trans; [|apply nmax_ge_l; auto; apply Bp]. eapply Rle_trans; [|apply mintol_ge]. apply bpow_le. lia.
Qed.

(** a tolerance the caller may pass: none, or a number between 2^-100 and 2^250 *)
Definition tolerance_ok (tolerance : option b64) : Prop :=
  match tolerance with None => True | Some x => bounded 250 x /\ bpow radix2 (-100) <= B2R x end.

Lemma tolerance_facts (t : tree2d (T:=b64)) tolerance tol :
  bb_dist t = bbox_distances (bb_coords (celltree_data t)) ->
  (forall b, In b (bb_coords (celltree_data t)) -> bounded 250 (xmin b) /\ bounded 250 (xmax b) /\ bounded 250 (ymin b) /\ bounded 250 (ymax b)) ->
  get_tolerance t tolerance = Ok tol -> tolerance_ok tolerance -> bounded 250 tol /\ bpow radix2 (-100) <= B2R tol.
Proof.
  intros Hd HB Et Ht. destruct tolerance as [x|].
  - apply (given_or_default x t (Some x)); auto.
  - apply (given_or_default tol t None); auto.
Qed.

Lemma bpt_rp k (p q : point b64) : bpt k p -> finite_point q -> rp p = rp q -> bpt k q.
Proof.
  intros ((_ & B1) & (_ & B2)) (F1 & F2) E. apply rp_eq in E as (E1 & E2). split; split; auto; [rewrite <- E1|rewrite <- E2]; auto.
Qed.

(** ** The theorems *)
(** every vertex of a face of a mesh is assigned a face, whatever the shapes of the faces *)
Theorem C81_mesh_vertices g (vs : list (point b64)) faces fill nb cpl t :
  mesh_ok vs faces fill -> bounded_vertices 250 vs -> (forall u v, In u vs -> In v vs -> apart u v) ->
  CellTree2d_init g vs faces fill nb cpl = Ok t ->
  forall g' points tolerance, tolerance_ok tolerance -> exists js,
    CellTree2d_locate_points g' t points tolerance = Ok js /\ length js = length points
    /\ forall i p j, nth_error points i = Some p -> nth_error js i = Some j -> finite_point p ->
       forall j' poly, face_poly (map rp vs) faces fill j' poly -> In (rp p) poly -> (exists q, In q poly /\ q <> rp p) -> j <> (-1)%Z.
Proof.
  intros Hm Hbd Hap E g' points tolerance Ht. pose proof (init_built _ _ _ _ _ _ _ Hm E) as Hb.
  destruct (points_result _ _ _ _ t tolerance Hb) as (tol & Et & H). destruct (H points) as (js & Hj & HF).
  exists js. split; auto. split; [symmetry; eapply F2_length; eauto|].
  assert (HB : forall b, In b (bb_coords (celltree_data t)) -> bounded 250 (xmin b) /\ bounded 250 (xmax b) /\ bounded 250 (ymin b) /\ bounded 250 (ymax b)).
  { intros b Hin. apply In_nth_error in Hin as (n & En).
    destruct (Forall2_nth_r _ _ _ _ _ (mt_boxes _ (bt_mesh _ _ _ _ _ Hb)) En) as (f & _ & poly & Hp & HT).
    rewrite (bt_vertices _ _ _ _ _ Hb) in Hp. eapply tight_bounded; [|exact HT]. eapply poly_of_bounded; eauto. }
  destruct (tolerance_facts t tolerance tol (bt_dist _ _ _ _ _ Hb) HB Et Ht) as (Bt & Pt0).
  intros i p j Ep Ej Fp j' poly Hpoly Hin (q & Hq & Hne) ->.
  pose proof (Forall2_nth _ _ _ _ _ _ HF Ep Ej) as A. destruct A as [(f & w & H0 & _)|(_ & Hn)]; [lia|].
  destruct (stored_float 250 _ _ _ _ _ _ _ Hb Hbd Hpoly) as (f' & poly' & b & H0 & En & Eb & Hp' & Hb' & Ho & HT).
  assert (In' : forall x, In x poly -> In x (map rp poly')) by (intros x Hx; destruct Ho as [->| ->]; auto; now apply in_rev in Hx).
  pose proof (In' _ Hin) as Hc. apply in_map_iff in Hc as (v & Ev & Hv). pose proof (In' _ Hq) as Hd. apply in_map_iff in Hd as (w & Ew & Hw).
  assert (Bv : bpt 250 v) by (rewrite Forall_forall in Hb'; auto). pose proof (bpt_rp 250 v p Bv Fp Ev) as Bp.
  assert (Hvs : forall u, In u poly' -> In u vs).
  { intros u Hu. clear - Hp' Hu. unfold poly_of in Hp'. induction Hp' as [|? ? ? ? (_ & En) _ IH]; [destruct Hu|].
    destruct Hu as [<-|Hu]; auto. eapply nth_error_In; eauto. }
  apply (Hn j').
  - exists f', poly'. split; auto. split; auto. rewrite (bt_vertices _ _ _ _ _ Hb). split; auto.
    apply corner_in_polygon; auto; [exists v; auto|]. exists w. split; auto. congruence.
  - exists b. split; auto. split; auto. destruct HT as (HC & _). rewrite Forall_forall in HC. specialize (HC v Hv).
    destruct (HB b (nth_error_In _ _ Eb)) as (B1 & B2 & B3 & B4). apply (closed_box_B 250); auto. rewrite <- Ev. apply (closed_box_B 250); auto.
Qed.

Lemma bounded_vertices_mono k k' vs : (k <= k')%Z -> bounded_vertices k vs -> bounded_vertices k' vs.
Proof.
  unfold bounded_vertices. intros Hk. apply Forall_impl. intros p (A & B). split; apply (bounded_mono k); auto.
Qed.

Lemma widened_contains (tol a b x lo hi : b64) : bounded 249 a -> bounded 249 b -> bounded 249 tol -> 0 <= B2R tol -> is_finite x = true ->
  smallest lo (nsub a tol) (nsub b tol) -> largest hi (nadd a tol) (nadd b tol) -> B2R x = B2R a \/ B2R x = B2R b ->
  nleb lo x = true /\ nleb x hi = true.
Proof.
  intros Ba Bb Bt Pt Fx HL HH Hx. destruct (widened_side 249 tol a b lo hi ltac:(lia) Ba Bb Bt HL HH) as ((F1 & _) & (F2 & _) & L1 & L2 & H1 & H2).
  assert (R : forall z : b64, rnd (B2R z - B2R tol) <= B2R z /\ B2R z <= rnd (B2R z + B2R tol)).
  { intros z. assert (Ez : rnd (B2R z) = B2R z) by (apply round_generic; [exact _|apply generic_format_B2R]).
    split; rewrite <- Ez at 2; [|rewrite <- Ez at 1]; apply rnd_mono; lra. }
  destruct (R a), (R b). rewrite (nleb_B _ _ F1 Fx), (nleb_B _ _ Fx F2). split; apply Rle_bool_true; destruct Hx as [-> | ->]; lra.
Qed.

(** both ends of every edge of a network are assigned an edge *)
Theorem C81_network_vertices g (vs : list (point b64)) edges nb cpl t :
  network_ok vs edges -> bounded_vertices 249 vs -> (forall u v, In u vs -> In v vs -> apart u v) ->
  EdgeCellTree2d_init g vs edges nb cpl = Ok t ->
  forall g' points tolerance, tolerance_ok tolerance -> exists js,
    EdgeCellTree2d_locate_points g' t points tolerance = Ok js /\ length js = length points
    /\ forall i p j, nth_error points i = Some p -> nth_error js i = Some j -> finite_point p ->
       forall j' u v, edge_ends (map rp vs) edges j' u v -> u <> v -> rp p = u \/ rp p = v -> j <> (-1)%Z.
Proof.
  intros Hm Hbd Hap E g' points tolerance Ht. pose proof (init_built_edges _ _ _ _ _ _ Hm E) as Hb.
  destruct (edge_points_result _ _ _ t tolerance Hb) as (tol & Et & H). destruct (H points) as (js & Hj & HF).
  exists js. split; auto. split; [symmetry; eapply F2_length; eauto|].
  destruct (be_net _ _ _ _ Hb) as (gt & Hgt & Hnet). destruct (tol_facts 249 vs gt ltac:(lia) Hbd Hgt) as (Bg & Pg & _).
  assert (HB : forall b, In b (bb_coords (celltree_data t)) -> bounded 250 (xmin b) /\ bounded 250 (xmax b) /\ bounded 250 (ymin b) /\ bounded 250 (ymax b)).
  { intros b Hin. apply In_nth_error in Hin as (n & En).
    destruct (Forall2_nth_r _ _ _ _ _ (nt_boxes _ _ Hnet) En) as (e & _ & x0 & x1 & He & (X0 & X1 & Y0 & Y1)).
    rewrite (be_vertices _ _ _ _ Hb) in He. destruct (edge_of_bpt 249 _ _ _ _ Hbd He) as ((P1 & P2) & (Q1 & Q2)).
    destruct (widened_side 249 gt _ _ _ _ ltac:(lia) P1 Q1 Bg X0 X1) as (A1 & A2 & _).
    destruct (widened_side 249 gt _ _ _ _ ltac:(lia) P2 Q2 Bg Y0 Y1) as (A3 & A4 & _). auto. }
  destruct (tolerance_facts t tolerance tol (be_dist _ _ _ _ Hb) HB Et Ht) as (Bt & Pt0).
  intros i p j Ep Ej Fp j' u v Hends Hne Hp ->.
  pose proof (Forall2_nth _ _ _ _ _ _ HF Ep Ej) as A. destruct A as [(e & x0 & x1 & H0 & _)|(_ & Hn)]; [lia|].
  destruct Hends as (e & H0 & En & He). destruct (edge_of_map_inv _ _ _ _ He) as (w0 & w1 & He' & -> & ->).
  destruct (edge_of_bpt 250 _ _ _ _ (bounded_vertices_mono 249 250 _ ltac:(lia) Hbd) He') as (B0 & B1).
  destruct (edge_of_bpt 249 _ _ _ _ Hbd He') as ((P1 & P2) & (Q1 & Q2)).
  assert (Bp : bpt 250 p) by (destruct Hp as [Hp|Hp]; symmetry in Hp; [apply (bpt_rp 250 w0)|apply (bpt_rp 250 w1)]; auto).
  assert (Hap' : apart w0 w1).
  { destruct He' as (i0 & i1 & _ & _ & _ & A1 & A2). apply Hap; eapply nth_error_In; eauto. }
  apply (Hn j').
  - exists e, w0, w1. split; auto. rewrite (be_elements _ _ _ _ Hb), (be_vertices _ _ _ _ Hb). split; auto. split; auto.
    apply end_on_edge; auto.
  - rewrite <- (be_elements _ _ _ _ Hb) in En. destruct (Forall2_nth_l _ _ _ _ _ (nt_boxes _ _ Hnet) En) as (b & Eb & x0 & x1 & He2 & (X0 & X1 & Y0 & Y1)).
    rewrite (be_vertices _ _ _ _ Hb) in He2. destruct (edge_of_unique _ _ _ _ _ _ He' He2) as (-> & ->).
    exists b. split; auto. split; auto. destruct Fp as (F1 & F2).
    assert (Cx : B2R (px p) = B2R (px w0) \/ B2R (px p) = B2R (px w1)) by (rewrite !rp_eq in Hp; tauto).
    assert (Cy : B2R (py p) = B2R (py w0) \/ B2R (py p) = B2R (py w1)) by (rewrite !rp_eq in Hp; tauto).
    destruct (widened_contains gt _ _ (px p) _ _ P1 Q1 Bg Pg F1 X0 X1 Cx) as (G1 & G2).
    destruct (widened_contains gt _ _ (py p) _ _ P2 Q2 Bg Pg F2 Y0 Y1 Cy) as (G3 & G4).
    unfold in_closed_box. auto.
Qed.

(** ** The hypotheses on the distances and on the tolerance are needed *)
(** 2^-600 *)
Definition close : b64 := B754_finite (prec:=prec) (emax:=emax) false 4503599627370496 (-652) eq_refl.
Definition close_vertices : list (point b64) := [Pt (Zb 0) (Zb 0); Pt close (Zb 0)].
Lemma close_val : B2R close = bpow radix2 (-600).
Proof.
  unfold close, B2R, F2R. cbn [cond_Zopp Fnum Fexp]. replace (-600)%Z with (52 + -652)%Z by lia. rewrite bpow_plus. f_equal.
Qed.
Lemma close_missed g g' : match EdgeCellTree2d_init g close_vertices [[0; 1]%Z] 4 2 with
  | Ok t => EdgeCellTree2d_locate_points g' t close_vertices None | Err e => Err e end = Ok [-1; -1]%Z.
Proof. vm_compute. reflexivity. Qed.
Lemma zero_missed g' : match EdgeCellTree2d_init (T:=b64) g0 grid pipes 4 2 with
  | Ok t => EdgeCellTree2d_locate_points g' t grid (Some (Zb 0)) | Err e => Err e end = Ok [-1; -1; -1; -1; -1; -1; -1; -1; -1; -1; -1; -1]%Z.
Proof. vm_compute. reflexivity. Qed.
Lemma zero_default g' : match EdgeCellTree2d_init (T:=b64) g0 grid pipes 4 2 with
  | Ok t => EdgeCellTree2d_locate_points g' t grid None | Err e => Err e end = Ok [0; 0; -1; 4; -1; 1; 3; -1; 5; 5; 3; -1]%Z.
Proof. vm_compute. reflexivity. Qed.

Theorem C81_needed_refuted :
  (* an edge of length 2^-600: neither end is on it *)
  (exists vs : list (point b64), network_ok vs [[0; 1]%Z] /\ bounded_vertices 0 vs
     /\ (exists u v, edge_ends (map rp vs) [[0; 1]%Z] 0 u v /\ u <> v)
     /\ forall g g', exists t, EdgeCellTree2d_init g vs [[0; 1]%Z] 4 2 = Ok t
          /\ EdgeCellTree2d_locate_points g' t vs None = Ok [-1; -1]%Z)
  (* a tolerance of zero: no vertex of the network is on an edge *)
  /\ (exists t, EdgeCellTree2d_init (T:=b64) g0 grid pipes 4 2 = Ok t
       /\ forall g', EdgeCellTree2d_locate_points g' t grid (Some (Zb 0)) = Ok (repeat (-1)%Z 12)
          /\ EdgeCellTree2d_locate_points g' t grid None = Ok [0; 0; -1; 4; -1; 1; 3; -1; 5; 5; 3; -1]%Z).
Proof.
  pose proof (bpow_gt_0 radix2 (-600)) as P0.
  assert (F : forall v, In v close_vertices -> bpt 0 v).
  { destruct (Zb_exact 0 ltac:(lia)) as (F0 & E0).
    assert (B0 : bounded 0 (Zb 0)) by (split; auto; rewrite E0, Rabs_R0; apply bpow_ge_0).
    assert (Bc : bounded 0 close) by (split; [reflexivity|]; rewrite close_val, Rabs_pos_eq by lra; apply bpow_le; lia).
    intros v [<-|[<-|[]]]; split; assumption. }
  split.
  - exists close_vertices. split; [|split; [|split]].
    + constructor; [|discriminate|constructor; [exists 0%Z, 1%Z; cbn; repeat split; lia|constructor]|].
      * apply Forall_forall. intros v Hv. destruct (F v Hv) as ((F1 & _) & (F2 & _)). now split.
      * intros tol. apply moderate_room. apply Forall_forall. intros v Hv. destruct (F v Hv) as (F1 & F2).
        split; (eapply bounded_mono; [|eassumption]); lia.
    + apply Forall_forall. exact F.
    + exists (rp (Pt (Zb 0) (Zb 0))), (rp (Pt close (Zb 0))). split.
      * exists [0; 1]%Z. split; [lia|]. split; [reflexivity|]. exists 0%Z, 1%Z. repeat split; try lia; reflexivity.
      * unfold rp. cbn [px py]. rewrite close_val. destruct (Zb_exact 0 ltac:(lia)) as (_ & ->). intros X. injection X. lra.
    + intros g g'. pose proof (close_missed g g') as H. destruct (EdgeCellTree2d_init g _ _ _ _) as [t|e]; [|discriminate]. exists t. auto.
  - destruct pipes_built_B64 as (t & E & _). exists t. split; auto. intros g'.
    pose proof (zero_missed g') as H1. pose proof (zero_default g') as H2. rewrite E in H1, H2. split; assumption.
Qed.

(** ** Examples meeting the hypotheses *)
Lemma apart_Z (zs : list (Z * Z)) : forallb (fun a => (Z.abs (fst a) <=? 2 ^ 53) && (Z.abs (snd a) <=? 2 ^ 53))%Z zs = true ->
  forall u v, In u (map (ptZ (T:=b64)) zs) -> In v (map (ptZ (T:=b64)) zs) -> apart u v.
Proof.
  intros H u v Hu Hv. rewrite forallb_forall in H. apply in_map_iff in Hu as (a & <- & Ha), Hv as (b & <- & Hb).
  apply H in Ha, Hb. apply andb_prop in Ha as (A1 & A2), Hb as (B1 & B2). apply Z.leb_le in A1, A2, B1, B2.
  destruct (Zb_exact _ A1) as (_ & E1), (Zb_exact _ A2) as (_ & E2), (Zb_exact _ B1) as (_ & E3), (Zb_exact _ B2) as (_ & E4).
  assert (P : bpow radix2 (-400) <= 1) by (change 1 with (bpow radix2 0); apply bpow_le; lia).
  assert (K : forall x y : Z, x <> y -> bpow radix2 (-400) <= Rabs (IZR y - IZR x)).
  { intros x y Hxy. rewrite <- minus_IZR, <- abs_IZR. eapply Rle_trans; [exact P|]. apply IZR_le. lia. }
  unfold apart. rewrite rp_eq. unfold ptZ. cbn [px py nofZ NumB64]. rewrite E1, E2, E3, E4.
  destruct (Z.eq_dec (fst a) (fst b)) as [->|N]; [destruct (Z.eq_dec (snd a) (snd b)) as [->|N]|]; auto.
Qed.

Lemma tol_default : tolerance_ok None. Proof. exact I. Qed.

(** all vertices of the grid are located *)
Example C81_example : exists t, CellTree2d_init (T:=b64) g0 grid grid_faces (-1) 4 2 = Ok t
  /\ mesh_ok (T:=b64) grid grid_faces (-1) /\ bounded_vertices 250 grid /\ (forall u v, In u (grid (T:=b64)) -> In v (grid (T:=b64)) -> apart u v)
  /\ (exists poly, face_poly (map rp (grid (T:=b64))) grid_faces (-1) 2 poly /\ In (rp (ptZ (2, 0)%Z)) poly /\ exists q, In q poly /\ q <> rp (ptZ (2, 0)%Z))
  /\ CellTree2d_locate_points g0 t grid None = Ok [0; 0; 1; 2; 0; 0; 1; 2; 3; 3; 4; 5]%Z.
Proof.
  destruct grid_built_B64 as (t & E & _). exists t. split; auto. split; [exact grid_mesh_B64|].
  split; [apply zbounded; [lia|]; vm_compute; reflexivity|]. split; [apply apart_Z; vm_compute; reflexivity|]. split.
  - unfold grid. rewrite rp_ptZ by (vm_compute; reflexivity).
    exists [ptZ (2, 0); ptZ (2, 1); ptZ (3, 1); ptZ (3, 0)]%Z. split; [|split].
    + exists [2; 6; 7; 3]%Z. split; [lia|]. split; [reflexivity|]. unfold poly_of. cbn. repeat constructor; auto; lia.
    + left. unfold rp, ptZ. cbn [px py fst snd nofZ NumB64 NumR].
      destruct (Zb_exact 2 ltac:(lia)) as (_ & ->), (Zb_exact 0 ltac:(lia)) as (_ & ->). reflexivity.
    + exists (ptZ (3, 0)%Z). split; [cbn; auto|]. unfold rp, ptZ. cbn [px py fst snd nofZ NumB64 NumR].
      destruct (Zb_exact 2 ltac:(lia)) as (_ & ->), (Zb_exact 0 ltac:(lia)) as (_ & ->). intros X. injection X. lra.
  - assert (H : match CellTree2d_init (T:=b64) g0 grid grid_faces (-1) 4 2 with
       | Ok t => CellTree2d_locate_points g0 t grid None | Err e => Err e end = Ok [0; 0; 1; 2; 0; 0; 1; 2; 3; 3; 4; 5]%Z) by (vm_compute; reflexivity).
    rewrite E in H. exact H.
Qed.

(** the network of the pipes *)
Example C81_network_example : exists t, EdgeCellTree2d_init (T:=b64) g0 grid pipes 4 2 = Ok t
  /\ network_ok (T:=b64) grid pipes /\ bounded_vertices 249 grid /\ (forall u v, In u (grid (T:=b64)) -> In v (grid (T:=b64)) -> apart u v)
  /\ (exists u v, edge_ends (map rp (grid (T:=b64))) pipes 4 u v /\ u <> v /\ rp (ptZ (3, 0)%Z) = v)
  /\ exists js, EdgeCellTree2d_locate_points g0 t [ptZ (3, 0)%Z] None = Ok js /\ forall j, nth_error js 0 = Some j -> j <> (-1)%Z.
Proof.
  destruct pipes_built_B64 as (t & E & _). exists t. split; auto. split; [exact pipes_network_B64|].
  assert (B : bounded_vertices 249 grid) by (apply zbounded; [lia|]; vm_compute; reflexivity). split; auto.
  assert (A : forall u v, In u (grid (T:=b64)) -> In v (grid (T:=b64)) -> apart u v) by (apply apart_Z; vm_compute; reflexivity). split; auto.
  assert (X : edge_ends (map rp (grid (T:=b64))) pipes 4 (ptZ (2, 2)%Z) (ptZ (3, 0)%Z) /\ rp (ptZ (3, 0)%Z) = ptZ (3, 0)%Z).
  { split.
    - unfold grid. rewrite rp_ptZ by (vm_compute; reflexivity). exists [10; 3]%Z. split; [lia|]. split; [reflexivity|].
      exists 10%Z, 3%Z. repeat split; try lia; reflexivity.
    - unfold rp, ptZ. cbn [px py fst snd nofZ NumB64 NumR].
      destruct (Zb_exact 3 ltac:(lia)) as (_ & ->), (Zb_exact 0 ltac:(lia)) as (_ & ->). reflexivity. }
  destruct X as (X1 & X2). assert (N : (ptZ (2, 2)%Z : point R) <> ptZ (3, 0)%Z) by (intros Y; injection Y; cbn [nofZ NumR]; lra).
  split; [eauto|].
  destruct (C81_network_vertices g0 grid pipes 4 2 t pipes_network_B64 B A E g0 [ptZ (3, 0)%Z] None I) as (js & Ej & _ & H).
  exists js. split; auto. intros j Ej0. apply (H 0%nat (ptZ (3, 0)%Z) j eq_refl Ej0) with (j' := 4%Z) (u := ptZ (2, 2)%Z) (v := ptZ (3, 0)%Z); auto.
  split; reflexivity.
Qed.

Print Assumptions C81_mesh_vertices.
Print Assumptions C81_network_vertices.
Print Assumptions C81_needed_refuted.
