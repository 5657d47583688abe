(** Property theorems over exact reals: overlap areas as weights for moving
    values from one mesh to another (C67). *)
From Verif Require Import RBase MGeometry MAlgorithms MQuery MCelltree SpecTree SpecQuery SpecApi SpecGeom SpecPoly SpecArea SpecMesh
  PMesh PInit PFaces GConvex GHull GFaces GArea GClipArea GTiling GPacking
  PropSmall Examples PropEdges PropPoints PropFaces PropArea PropPieces.
From Coq Require Import Permutation.
Open Scope R_scope.

(** ** C67: intersect_faces between two meshes *)

(** the areas of the faces of a mesh *)
Definition face_areas (vs : list pt) (faces : list (list Z)) (fill : Z) (area : Z -> R) : Prop :=
  forall j b, face_poly vs faces fill j b -> area j = Rabs (shoelace b).

(** every face of the second mesh is covered by the first, whose faces do not overlap *)
Definition covers (vs : list pt) (faces : list (list Z)) (fill : Z) (vs' : list pt) (faces' : list (list Z)) (fill' : Z) : Prop :=
  disjoint_faces vs faces fill
  /\ forall i a p, face_poly vs' faces' fill' i a -> hull a p -> exists j b, face_poly vs faces fill j b /\ hull b p.

(** what face [i] of the query receives of a quantity that has density [f] on the faces of the tree *)
Definition received (f : Z -> R) (i : Z) (rows : list ((Z * Z) * R)) : R :=
  sumR (map (fun r => snd r * f (fst r)) (rows_at i rows)).

Definition swap_row (r : (Z * Z) * R) : (Z * Z) * R := ((snd (fst r), fst (fst r)), snd r).

(** *** Sums *)
Lemma sumR_app l1 l2 : sumR (l1 ++ l2) = sumR l1 + sumR l2.
Proof. induction l1 as [|x l IH]; cbn; [lra|]. rewrite IH. lra. Qed.
Lemma sumR_scal {A} (F : A -> R) c l : sumR (map (fun x => F x * c) l) = sumR (map F l) * c.
Proof. induction l as [|x l IH]; cbn; [lra|]. rewrite IH. lra. Qed.

Lemma sum_indicator (l : list Z) (G : Z -> R) i : NoDup l -> In i l -> sumR (map (fun k => if (i =? k)%Z then G k else 0) l) = G i.
Proof.
  induction l as [|k l IH]; intros HN Hi; [destruct Hi|]. apply NoDup_cons_iff in HN as (N & HN). cbn.
  destruct (Z.eqb_spec i k) as [->|Hne].
  - rewrite sumR_map_zero; [lra|]. intros x Hx. destruct (Z.eqb_spec k x) as [<-|]; tauto.
  - destruct Hi as [->|Hi]; [tauto|]. rewrite IH; auto. lra.
Qed.

(** grouping a sum by a key *)
Lemma sum_by_key {A} (F : A -> R) (key : A -> Z) (ks : list Z) : NoDup ks -> forall l, (forall x, In x l -> In (key x) ks) ->
  sumR (map F l) = sumR (map (fun k => sumR (map F (filter (fun x => (key x =? k)%Z) l))) ks).
Proof.
  intros HN. induction l as [|x l IH]; intros Hk.
  - symmetry. apply sumR_map_zero. reflexivity.
  - cbn [map sumR]. rewrite IH by (intros; apply Hk; now right).
    rewrite <- (sum_indicator ks (fun _ => F x) (key x) HN (Hk x (or_introl eq_refl))). rewrite <- sumR_map_plus.
    apply sumR_map_ext. intros k _. cbn [filter]. destruct (Z.eqb_spec (key x) k) as [E|E]; cbn [map sumR]; lra.
Qed.

Lemma received_rows f i rows : received f i rows
  = sumR (map (fun r => snd r * f (snd (fst r))) (filter (fun r => (fst (fst r) =? i)%Z) rows)).
Proof. unfold received, rows_at. now rewrite map_map. Qed.
Lemma total_rows i rows : sumR (map snd (rows_at i rows)) = sumR (map snd (filter (fun r => (fst (fst r) =? i)%Z) rows)).
Proof. unfold rows_at. now rewrite map_map. Qed.

Lemma swap_rows_nodup rows : NoDup (map fst rows) -> NoDup (map fst (map swap_row rows)).
Proof.
  intros H. rewrite map_map. cbn [fst]. induction rows as [|((i, j), A) rows IH]; cbn in *; [constructor|].
  apply NoDup_cons_iff in H as (N & H). constructor; [|now apply IH]. intros K. apply N. apply in_map_iff in K as (((i', j'), A') & E & K).
  cbn in E. inversion E; subst. apply in_map_iff. now exists ((i, j), A').
Qed.
Lemma swap_row_in rows i j A : In ((j, i), A) (map swap_row rows) <-> In ((i, j), A) rows.
Proof.
  rewrite in_map_iff. split.
  - intros (((i', j'), A') & E & K). unfold swap_row in E. cbn in E. inversion E; subst. exact K.
  - intros K. now exists ((i, j), A).
Qed.
Lemma nodup_fst {A B} (l : list (A * B)) : NoDup (map fst l) -> NoDup l.
Proof. apply NoDup_map_inv. Qed.

(** *** Exchanging the two meshes transposes the result *)
Theorem C67_transpose g g2 vs faces fill nb cpl (t : tree2d (T:=R)) vs' faces' fill' nb' cpl' (t' : tree2d (T:=R)) :
  mesh_ok vs faces fill -> convex_mesh vs faces fill -> small vs -> CellTree2d_init g vs faces fill nb cpl = Ok t ->
  mesh_ok vs' faces' fill' -> convex_mesh vs' faces' fill' -> small vs' -> CellTree2d_init g2 vs' faces' fill' nb' cpl' = Ok t' ->
  exists rows rows',
    (forall g' n, (1 <= n)%nat -> CellTree2d_intersect_faces g' n t vs' faces' fill' = Ok rows)
    /\ (forall g' n, (1 <= n)%nat -> CellTree2d_intersect_faces g' n t' vs faces fill = Ok rows')
    /\ Permutation rows' (map swap_row rows).
Proof.
  intros Hm Hc Hs E Hm' Hc' Hs' E'.
  assert (Q : faces_ok vs (map (with_fill fill) faces)) by (constructor; [apply (mo_vertices _ _ _ Hm)|apply (mo_faces _ _ _ Hm)]).
  assert (Q' : faces_ok vs' (map (with_fill fill') faces')) by (constructor; [apply (mo_vertices _ _ _ Hm')|apply (mo_faces _ _ _ Hm')]).
  destruct (C25_intersect_faces_exact _ _ _ _ _ _ _ Hm Hc Hs E _ _ _ Q' Hc' Hs') as (rows & Hr & N & HI).
  destruct (C25_intersect_faces_exact _ _ _ _ _ _ _ Hm' Hc' Hs' E' _ _ _ Q Hc Hs) as (rows' & Hr' & N' & HI').
  exists rows, rows'. split; auto. split; auto. apply NoDup_Permutation.
  - now apply nodup_fst.
  - apply nodup_fst. now apply swap_rows_nodup.
  - intros ((j, i), A). rewrite swap_row_in, HI, HI'. split; intros (a & b & Fa & Fb & HA & Hp); exists b, a; repeat split; auto;
      (eapply area_of_ext; [|exact HA]; intros p; cbn beta; tauto).
Qed.

(** *** A mesh with itself: every face its own area, and nothing else *)
Theorem C67_self g vs faces fill nb cpl (t : tree2d (T:=R)) :
  mesh_ok vs faces fill -> convex_mesh vs faces fill -> small vs -> disjoint_faces vs faces fill ->
  CellTree2d_init g vs faces fill nb cpl = Ok t ->
  exists rows, (forall g' n, (1 <= n)%nat -> CellTree2d_intersect_faces g' n t vs faces fill = Ok rows)
    /\ NoDup (map fst rows)
    /\ forall i j A, In ((i, j), A) rows <-> i = j /\ exists a, face_poly vs faces fill i a /\ A = Rabs (shoelace a).
Proof.
  intros Hm Hc Hs HD E.
  assert (Q : faces_ok vs (map (with_fill fill) faces)) by (constructor; [apply (mo_vertices _ _ _ Hm)|apply (mo_faces _ _ _ Hm)]).
  destruct (C25_intersect_faces_exact _ _ _ _ _ _ _ Hm Hc Hs E _ _ _ Q Hc Hs) as (rows & Hr & N & HI).
  exists rows. split; auto. split; auto. intros i j A. rewrite HI. split.
  - intros (a & b & Fa & Fb & HA & Hp).
    destruct (Z.eq_dec i j) as [->|Hne].
    + split; auto. exists a. split; auto. pose proof (face_unique _ _ _ _ _ _ Fa Fb) as <-.
      destruct (C40_polygon_area_convex a (Hc _ _ Fa)) as (_ & _ & Ha & _). apply (area_of_unique _ _ _ HA).
      eapply area_of_ext; [|exact Ha]. intros p. cbn beta. tauto.
    + exfalso.
      assert (Or : forall x, convex x -> exists y, convex_ccw y /\ (y = x \/ y = rev x)) by (intros x [Hx|Hx]; eauto).
      destruct (Or a (Hc _ _ Fa)) as (a' & Ca & Sa). destruct (Or b (Hc _ _ Fb)) as (b' & Cb & Sb).
      assert (HA' : area_of (fun p => hull a' p /\ hull b' p) A).
      { eapply area_of_ext; [|exact HA]. intros p. cbn beta. rewrite (hull_either a a' p Sa), (hull_either b b' p Sb). tauto. }
      apply (positive_interior a' b' A Ca Cb HA') in Hp as (p & P1 & P2).
      apply (HD _ _ _ _ p Fa Fb Hne). split; [apply (open_hull_either a a' p Sa)|apply (open_hull_either b b' p Sb)]; now apply interior_open_hull.
  - intros (<- & a & Fa & ->). exists a, a. split; auto. split; auto.
    destruct (C40_polygon_area_convex a (Hc _ _ Fa)) as (_ & Hpos & Ha & _). split; auto.
    eapply area_of_ext; [|exact Ha]. intros p. cbn beta. tauto.
Qed.

(** *** Rows of a face add up to at most its area *)
Lemma row_sum_le (vs : list pt) faces fill (SA : pt -> Prop) A (RS : list (Z * R)) :
  mesh_ok vs faces fill -> convex_mesh vs faces fill -> disjoint_faces vs faces fill ->
  area_of SA A -> NoDup RS ->
  (forall j B, In (j, B) RS <-> exists b, face_poly vs faces fill j b /\ area_of (fun p => SA p /\ hull b p) B /\ 0 < B) ->
  sumR (map snd RS) <= A.
Proof.
  intros Hm Hc HD HA HN HI.
  assert (EX : forall j, (j < length faces)%nat -> exists t, convex_ccw t /\ exists b, face_poly vs faces fill (Z.of_nat j) b /\ (t = b \/ t = rev b)).
  { intros j Hj. destruct (face_exists vs faces fill Hm j Hj) as (b & Hb). destruct (Hc _ _ Hb) as [H|H]; eauto 10. }
  destruct (nth_choice _ _ EX) as (Ts & LT & HT).
  assert (EX2 : forall j, (j < length faces)%nat -> exists B, forall t, nth_error Ts j = Some t -> area_of (fun p => SA p /\ hull t p) B).
  { intros j Hj. destruct (nth_error Ts j) as [t|] eqn:Et; [|exists 0; discriminate].
    destruct (HT j t Et) as (Ct & _). destruct (region_area _ (region_meet SA t (area_region _ _ HA) Ct)) as (B & HB).
    exists B. intros t' Ht'. inversion Ht'; subst. exact HB. }
  destruct (nth_choice _ _ EX2) as (As & LA & HAs).
  replace (sumR (map snd RS)) with (sumR As); [apply (packing_area SA Ts As A)|].
  5: { symmetry. apply sum_rows; auto.
    + intros B HB. apply In_nth_error in HB as (j & Hj).
      assert (Hl : (j < length Ts)%nat) by (rewrite LT, <- LA; apply nth_error_Some; congruence).
      destruct (nth_error Ts j) as [t|] eqn:Et; [|apply nth_error_None in Et; lia].
      exact (area_of_nonneg _ _ (HAs j B Hj t Et)).
    + intros j B. rewrite HI. split.
      * intros (b & Hb & HB & Hpos). pose proof (face_range _ _ _ _ _ Hb) as Hr. split; [lia|]. split; auto.
        unfold zlen in Hr.
        destruct (nth_error Ts (Z.to_nat j)) as [t|] eqn:Et; [|apply nth_error_None in Et; lia].
        destruct (nth_error As (Z.to_nat j)) as [B'|] eqn:EB; [|apply nth_error_None in EB; lia].
        pose proof (HAs _ _ EB t Et) as HB'. destruct (HT _ _ Et) as (_ & b' & Hb' & Hs). rewrite Z2Nat.id in Hb' by lia.
        rewrite (face_unique _ _ _ _ _ _ Hb' Hb) in Hs. f_equal.
        apply (area_of_unique _ _ _ HB'). eapply area_of_ext; [|exact HB]. intros p. cbn beta. rewrite (hull_either b t p Hs). tauto.
      * intros (H0 & EB & Hpos).
        assert (Hl : (Z.to_nat j < length Ts)%nat) by (rewrite LT, <- LA; apply nth_error_Some; congruence).
        destruct (nth_error Ts (Z.to_nat j)) as [t|] eqn:Et; [|apply nth_error_None in Et; lia].
        pose proof (HAs _ _ EB t Et) as HB'. destruct (HT _ _ Et) as (_ & b' & Hb' & Hs). rewrite Z2Nat.id in Hb' by lia.
        exists b'. split; auto. split; auto. eapply area_of_ext; [|exact HB']. intros p. cbn beta. rewrite (hull_either b' t p Hs). tauto. }
  - apply Forall_forall. intros t Ht. apply In_nth_error in Ht as (j & Hj). now apply (HT j t).
  - intros j j' t t' p Hj Hj' Hne It It'.
    destruct (HT _ _ Hj) as (Ct & b & Hb & Hs). destruct (HT _ _ Hj') as (Ct' & b' & Hb' & Hs').
    apply (HD _ _ b b' p Hb Hb'); [lia|]. split; [apply (open_hull_either b t p Hs)|apply (open_hull_either b' t' p Hs')]; now apply interior_open_hull.
  - exact HA.
  - assert (G : forall (k : list pt -> R -> Prop) Ts As, length Ts = length As -> (forall j B, nth_error As j = Some B -> forall t, nth_error Ts j = Some t -> k t B) -> Forall2 k Ts As).
    { clear. intros k. induction Ts as [|t Ts IH]; intros [|B As] L H; try discriminate; constructor.
      - apply (H O B eq_refl t eq_refl).
      - apply IH; [cbn in L; lia|]. intros j B' HB' t' Ht'. apply (H (S j) B' HB' t' Ht'). }
    apply G; [lia|exact HAs].
Qed.


(** *** Both directions: rows and columns of intersect_faces *)
Section Regrid.
  Context (g : garbage R) (vs : list pt) (faces : list (list Z)) (fill nb cpl : Z) (t : tree2d (T:=R)).
  Context (Hm : mesh_ok vs faces fill) (Hc : convex_mesh vs faces fill) (Hs : small vs) (E : CellTree2d_init g vs faces fill nb cpl = Ok t).
  Context (vs' : list pt) (faces' : list (list Z)) (fill' : Z).
  Context (Hm' : mesh_ok vs' faces' fill') (Hc' : convex_mesh vs' faces' fill') (Hs' : small vs').

  Lemma regrid_rows : exists rows,
    (forall g' n, (1 <= n)%nat -> CellTree2d_intersect_faces g' n t vs' faces' fill' = Ok rows)
    /\ NoDup (map fst rows)
    /\ (forall r, In r rows -> In (fst (fst r)) (iota (length faces')) /\ In (snd (fst r)) (iota (length faces)) /\ 0 < snd r)
    /\ (forall i a, face_poly vs' faces' fill' i a -> forall j B, In (j, B) (rows_at i rows) <->
          exists b, face_poly vs faces fill j b /\ area_of (fun p => hull a p /\ hull b p) B /\ 0 < B)
    /\ (forall j b, face_poly vs faces fill j b -> forall i B, In (i, B) (rows_at j (map swap_row rows)) <->
          exists a, face_poly vs' faces' fill' i a /\ area_of (fun p => hull b p /\ hull a p) B /\ 0 < B).
  Proof.
    assert (Q' : faces_ok vs' (map (with_fill fill') faces')) by (constructor; [apply (mo_vertices _ _ _ Hm')|apply (mo_faces _ _ _ Hm')]).
    destruct (C25_intersect_faces_exact _ _ _ _ _ _ _ Hm Hc Hs E _ _ _ Q' Hc' Hs') as (rows & Hr & N & HI).
    exists rows. split; auto. split; auto. split; [|split].
    - intros ((i, j), A) Hin. apply HI in Hin as (a & b & Fa & Fb & _ & Hp). cbn [fst snd].
      apply face_range in Fa. apply face_range in Fb. unfold zlen in *. rewrite !iota_in. auto.
    - intros i a Fa j B. rewrite rows_at_in, HI. split.
      + intros (a' & b & Fa' & Fb & HB). rewrite (face_unique _ _ _ _ _ _ Fa' Fa) in HB. eauto.
      + intros (b & Fb & HB). eauto.
    - intros j b Fb i B. rewrite rows_at_in, swap_row_in, HI.
      assert (X : forall a B, area_of (fun p => hull b p /\ hull a p) B <-> area_of (fun p => hull a p /\ hull b p) B).
      { intros a B0. split; intros H; (eapply area_of_ext; [|exact H]); intros p; cbn beta; tauto. }
      split.
      + intros (a & b' & Fa & Fb' & HB & Hp). rewrite (face_unique _ _ _ _ _ _ Fb' Fb) in HB. exists a. rewrite X. auto.
      + intros (a & Fa & HB & Hp). apply X in HB. eauto 6.
  Qed.

  Lemma own_area (vs0 : list pt) faces0 fill0 i a : convex_mesh vs0 faces0 fill0 -> face_poly vs0 faces0 fill0 i a -> area_of (hull a) (Rabs (shoelace a)) /\ 0 < Rabs (shoelace a).
  Proof. intros C Fa. destruct (C40_polygon_area_convex a (C _ _ Fa)) as (_ & Hp & Ha & _). auto. Qed.

  (** no face receives or gives more than it has *)
  Theorem C67_bounds g' n rows : (1 <= n)%nat -> CellTree2d_intersect_faces g' n t vs' faces' fill' = Ok rows ->
    (disjoint_faces vs faces fill -> forall i a, face_poly vs' faces' fill' i a ->
       sumR (map snd (rows_at i rows)) <= Rabs (shoelace a))
    /\ (disjoint_faces vs' faces' fill' -> forall j b, face_poly vs faces fill j b ->
       sumR (map snd (rows_at j (map swap_row rows))) <= Rabs (shoelace b)).
  Proof.
    intros Hn ER. destruct regrid_rows as (rows' & Hr & N & _ & HI & HJ). rewrite (Hr g' n Hn) in ER. apply Ok_inj in ER. subst rows'.
    split; intros HD.
    - intros i a Fa. apply (row_sum_le vs faces fill (hull a)); auto; [apply (own_area _ _ _ _ _ Hc' Fa)|now apply rows_at_nodup].
    - intros j b Fb. apply (row_sum_le vs' faces' fill' (hull b)); auto; [apply (own_area _ _ _ _ _ Hc Fb)|].
      apply rows_at_nodup. now apply swap_rows_nodup.
  Qed.

  (** The quantity with density [f] on the faces of the tree is moved to the
      faces of the query without loss, and the new densities [v] are averages
      of the old ones. *)
  Theorem C67_conservative g' n rows area area' (f v : Z -> R) : (1 <= n)%nat ->
    CellTree2d_intersect_faces g' n t vs' faces' fill' = Ok rows ->
    covers vs faces fill vs' faces' fill' -> covers vs' faces' fill' vs faces fill ->
    face_areas vs faces fill area -> face_areas vs' faces' fill' area' ->
    (forall i, v i = received f i rows / sumR (map snd (rows_at i rows))) ->
    sumR (map (fun i => area' i * v i) (iota (length faces'))) = sumR (map (fun j => area j * f j) (iota (length faces)))
    /\ (forall lo hi, (forall j, (0 <= j < zlen faces)%Z -> lo <= f j <= hi) -> forall i, (0 <= i < zlen faces')%Z -> lo <= v i <= hi)
    /\ forall c, (forall j, (0 <= j < zlen faces)%Z -> f j = c) -> forall i, (0 <= i < zlen faces')%Z -> v i = c.
  Proof.
    intros Hn ER (HD & HC) (HD' & HC') Har Har' Hv.
    destruct regrid_rows as (rows' & Hr & N & HK & HI & HJ). rewrite (Hr g' n Hn) in ER. apply Ok_inj in ER. subst rows'.
    assert (Row : forall i a, face_poly vs' faces' fill' i a -> sumR (map snd (rows_at i rows)) = Rabs (shoelace a)).
    { intros i a Fa. apply (row_sum vs faces fill (hull a)); auto; [|apply (own_area _ _ _ _ _ Hc' Fa)|now apply rows_at_nodup].
      split; [exact HD|]. intros p Hp. eapply HC; eauto. }
    assert (Col : forall j b, face_poly vs faces fill j b -> sumR (map snd (rows_at j (map swap_row rows))) = Rabs (shoelace b)).
    { intros j b Fb. apply (row_sum vs' faces' fill' (hull b)); auto; [|apply (own_area _ _ _ _ _ Hc Fb)|].
      - split; [exact HD'|]. intros p Hp. eapply HC'; eauto.
      - apply rows_at_nodup. now apply swap_rows_nodup. }
    assert (Ex : forall i, In i (iota (length faces')) -> exists a, face_poly vs' faces' fill' i a).
    { intros i Hi. apply iota_in in Hi. destruct (face_exists vs' faces' fill' Hm' (Z.to_nat i) ltac:(lia)) as (a & Fa).
      rewrite Z2Nat.id in Fa by lia. eauto. }
    assert (Ex2 : forall i, In i (iota (length faces)) -> exists a, face_poly vs faces fill i a).
    { intros i Hi. apply iota_in in Hi. destruct (face_exists vs faces fill Hm (Z.to_nat i) ltac:(lia)) as (a & Fa).
      rewrite Z2Nat.id in Fa by lia. eauto. }
    assert (Bd : forall lo hi, (forall j, (0 <= j < zlen faces)%Z -> lo <= f j <= hi) -> forall i, (0 <= i < zlen faces')%Z -> lo <= v i <= hi).
    { intros lo hi Hf i Hi. destruct (Ex i) as (a & Fa); [apply iota_in; unfold zlen in Hi; lia|].
      pose proof (own_area _ _ _ _ _ Hc' Fa) as (_ & Hp). rewrite Hv, (Row i a Fa). rewrite <- (Row i a Fa) in Hp |- *.
      assert (B : lo * sumR (map snd (rows_at i rows)) <= received f i rows <= hi * sumR (map snd (rows_at i rows))).
      { unfold received. assert (HR : forall r, In r (rows_at i rows) -> lo <= f (fst r) <= hi /\ 0 < snd r).
        { intros (j, B) Hin. apply rows_at_in in Hin. apply HK in Hin as (_ & Hj & HB). cbn [fst snd] in *. apply iota_in in Hj. split; auto. }
        clear - HR. induction (rows_at i rows) as [|r l IH]; cbn; [lra|].
        pose proof (HR r (or_introl eq_refl)) as (H1 & H2). destruct IH as (I1 & I2); [intros; apply HR; now right|]. nra. }
      split.
      - apply Rmult_le_reg_r with (sumR (map snd (rows_at i rows))); auto. unfold Rdiv. rewrite Rmult_assoc, Rinv_l by lra. lra.
      - apply Rmult_le_reg_r with (sumR (map snd (rows_at i rows))); auto. unfold Rdiv. rewrite Rmult_assoc, Rinv_l by lra. lra. }
    split; [|split; auto].
    - transitivity (sumR (map (fun i => received f i rows) (iota (length faces')))).
      { apply sumR_map_ext. intros i Hi. destruct (Ex i Hi) as (a & Fa). pose proof (own_area _ _ _ _ _ Hc' Fa) as (_ & Hp).
        rewrite Hv, (Row i a Fa), (Har' i a Fa). field. lra. }
      transitivity (sumR (map (fun r => snd r * f (snd (fst r))) rows)).
      { rewrite (sum_by_key _ (fun r => fst (fst r)) (iota (length faces')) (iota_nodup _)) by (intros r Hin; now apply HK).
        apply sumR_map_ext. intros i _. apply received_rows. }
      rewrite (sum_by_key _ (fun r => snd (fst r)) (iota (length faces)) (iota_nodup _)) by (intros r Hin; now apply HK).
      apply sumR_map_ext. intros j Hj. destruct (Ex2 j Hj) as (b & Fb). rewrite (Har j b Fb), <- (Col j b Fb), total_rows.
      rewrite <- sumR_scal. clear. induction rows as [|((i', j'), A) rows IH]; cbn; [reflexivity|].
      destruct (Z.eqb_spec j' j) as [->|]; cbn; rewrite IH; reflexivity.
    - intros c Hf i Hi. destruct (Bd c c) with (i := i); auto; [|lra]. intros j Hj. rewrite (Hf j Hj). lra.
  Qed.
End Regrid.

(** *** Boxes are faces *)
Theorem C67_boxes_as_faces g vs faces fill nb cpl (t : tree2d (T:=R)) :
  mesh_ok vs faces fill -> convex_mesh vs faces fill -> small vs -> CellTree2d_init g vs faces fill nb cpl = Ok t ->
  forall boxes vs' faces' fill', Forall proper_box boxes ->
  faces_ok vs' (map (with_fill fill') faces') -> small vs' -> length faces' = length boxes ->
  (forall i a b, face_poly vs' faces' fill' i a -> nth_error boxes (Z.to_nat i) = Some b -> a = copy_box_vertices b) ->
  exists rows rows', (forall g' n, (1 <= n)%nat -> CellTree2d_intersect_boxes g' n t boxes = Ok rows)
    /\ (forall g' n, (1 <= n)%nat -> CellTree2d_intersect_faces g' n t vs' faces' fill' = Ok rows')
    /\ Permutation rows rows'.
Proof.
  intros Hm Hc Hs E boxes vs' faces' fill' HB Q Hs' Hl HP.
  assert (Ex : forall i b, (0 <= i)%Z -> nth_error boxes (Z.to_nat i) = Some b -> face_poly vs' faces' fill' i (copy_box_vertices b)).
  { intros i b H0 Eb. assert (Hlt : (Z.to_nat i < length boxes)%nat) by (apply nth_error_Some; congruence).
    destruct (nth_error (map (with_fill fill') faces') (Z.to_nat i)) as [f|] eqn:Ef; [|apply nth_error_None in Ef; rewrite map_length in Ef; lia].
    pose proof (fo_faces _ _ Q) as W. rewrite Forall_forall in W.
    destruct (wf_poly vs' f (W f (nth_error_In _ _ Ef))) as (a & Pa).
    assert (Fa : face_poly vs' faces' fill' i a) by (exists f; auto). now rewrite <- (HP i a b Fa Eb). }
  assert (Inv : forall i a, face_poly vs' faces' fill' i a -> (0 <= i)%Z /\ exists b, nth_error boxes (Z.to_nat i) = Some b /\ a = copy_box_vertices b).
  { intros i a Fa. pose proof (face_range _ _ _ _ _ Fa) as Hr. unfold zlen in Hr. split; [lia|].
    destruct (nth_error boxes (Z.to_nat i)) as [b|] eqn:Eb; [|apply nth_error_None in Eb; lia]. exists b. split; auto. eapply HP; eauto. }
  assert (Hc' : convex_mesh vs' faces' fill').
  { intros i a Fa. destruct (Inv i a Fa) as (_ & b & Eb & ->). left. apply box_poly_convex. rewrite Forall_forall in HB. apply HB. eapply nth_error_In; eauto. }
  destruct (C25_intersect_boxes_exact _ _ _ _ _ _ _ Hm Hc E boxes HB) as (rows & Hr & N & HI).
  destruct (C25_intersect_faces_exact _ _ _ _ _ _ _ Hm Hc Hs E _ _ _ Q Hc' Hs') as (rows' & Hr' & N' & HI').
  exists rows, rows'. split; auto. split; auto. apply NoDup_Permutation; [now apply nodup_fst|now apply nodup_fst|].
  rewrite Forall_forall in HB.
  intros ((i, j), A). rewrite HI, HI'. split.
  - intros (a & b & H0 & Ea & Fb & HA & Hp). exists (copy_box_vertices a), b. split; [now apply Ex|]. split; auto. split; auto.
    eapply area_of_ext; [|exact HA]. intros p. cbn beta. rewrite (box_poly_hull a p (HB a (nth_error_In _ _ Ea))). tauto.
  - intros (a & b & Fa & Fb & HA & Hp). destruct (Inv i a Fa) as (H0 & bx & Eb & ->). exists bx, b. split; auto. split; auto. split; auto. split; auto.
    eapply area_of_ext; [|exact HA]. intros p. cbn beta. rewrite (box_poly_hull bx p (HB bx (nth_error_In _ _ Eb))). tauto.
Qed.

(** ** Example: the seven faces of the grid, and the same rectangle as two triangles *)
Definition halves : list (list Z) := [[0; 3; 11; -1]; [0; 8; 11; -1]]%Z.
Lemma halves_mesh : mesh_ok (T:=R) grid halves (-1).
Proof. constructor; [apply (mo_vertices _ _ _ grid_mesh_R)|discriminate|]. repeat constructor; cbn; try lia. Qed.
Definition lower_half : list pt := [ptZ (0, 0); ptZ (3, 0); ptZ (3, 2)]%Z.
Definition upper_half : list pt := [ptZ (0, 0); ptZ (0, 2); ptZ (3, 2)]%Z.
Lemma halves_face j b : face_poly (@grid R _) halves (-1) j b -> j = 0%Z /\ b = lower_half \/ j = 1%Z /\ b = upper_half.
Proof.
  intros H. pose proof (face_range _ _ _ _ _ H) as Hj. unfold zlen, halves in Hj. cbn in Hj. destruct H as (f & _ & En & Hb).
  assert (C : (j = 0 \/ j = 1)%Z) by lia.
  destruct C as [C|C]; subst j; cbn in En; inversion En; subst f; clear En; unfold poly_of in Hb; cbn in Hb; invert_poly; auto.
Qed.
Lemma lower_face : face_poly (@grid R _) halves (-1) 0 lower_half.
Proof. exists [0; 3; 11; -1]%Z; (split; [lia|]); (split; [reflexivity|]); unfold poly_of; cbn; repeat constructor; auto; lia. Qed.
Lemma upper_face : face_poly (@grid R _) halves (-1) 1 upper_half.
Proof. exists [0; 8; 11; -1]%Z; (split; [lia|]); (split; [reflexivity|]); unfold poly_of; cbn; repeat constructor; auto; lia. Qed.
Lemma halves_convex : convex_mesh (@grid R _) halves (-1).
Proof.
  intros j b Hb. apply halves_face in Hb as [(_ & ->)|(_ & ->)]; unfold lower_half, upper_half.
  - left. convex_check.
  - right. cbn [rev app]. convex_check.
Qed.
Lemma halves_disjoint : disjoint_faces (@grid R _) halves (-1).
Proof.
  assert (G : forall p, open_hull lower_half p -> open_hull upper_half p -> False).
  { intros p (ws & L & Hp & S & ->) (ws' & L' & Hp' & S' & E). unfold lower_half, upper_half in *.
    destruct ws as [|w0 [|w1 [|w2 [|w3 ws]]]]; try discriminate L. destruct ws' as [|w0' [|w1' [|w2' [|w3' ws']]]]; try discriminate L'.
    pose proof (f_equal px E) as EX. pose proof (f_equal py E) as EY. cbn in EX, EY, S, S'.
    repeat match goal with H : Forall _ (_ :: _) |- _ => let h := fresh "P" in pose proof (Forall_inv H) as h; apply Forall_inv_tail in H; cbn beta in h end.
    lra. }
  intros j j' b b' p F F' Hne (O & O'). apply halves_face in F as [(-> & ->)|(-> & ->)]; apply halves_face in F' as [(-> & ->)|(-> & ->)]; try congruence; eauto.
Qed.
Lemma halves_rect j b p : face_poly (@grid R _) halves (-1) j b -> hull b p -> rect p.
Proof.
  intros F (ws & L & Hp & S & ->). apply halves_face in F as [(_ & ->)|(_ & ->)]; unfold lower_half, upper_half in *;
    destruct ws as [|w0 [|w1 [|w2 [|w3 ws]]]]; try discriminate L;
    repeat match goal with H : Forall _ (_ :: _) |- _ => let h := fresh "P" in pose proof (Forall_inv H) as h; apply Forall_inv_tail in H; cbn beta in h end;
    cbn in S; unfold rect; cbn; lra.
Qed.
Lemma rect_halves p : rect p -> exists j b, face_poly (@grid R _) halves (-1) j b /\ hull b p.
Proof.
  intros (HX & HY). destruct (Rle_lt_dec (3 * py p) (2 * px p)) as [H|H].
  - exists 0%Z, lower_half. split; [exact lower_face|].
    exists [1 - px p / 3; px p / 3 - py p / 2; py p / 2]. split; [reflexivity|]. split; [do 3 (apply Forall_cons; [lra|]); constructor|]. split; [cbn; lra|].
    apply pt_eq; cbn; lra.
  - exists 1%Z, upper_half. split; [exact upper_face|].
    exists [1 - py p / 2; py p / 2 - px p / 3; px p / 3]. split; [reflexivity|]. split; [do 3 (apply Forall_cons; [lra|]); constructor|]. split; [cbn; lra|].
    apply pt_eq; cbn; lra.
Qed.
Lemma grid_rect j b p : face_poly (@grid R _) grid_faces (-1) j b -> hull b p -> rect p.
Proof.
  intros H (ws & L & Hp & S & ->). pose proof (grid_index j b H) as Hj. destruct H as (f & _ & En & Hb).
  assert (C : (j = 0 \/ j = 1 \/ j = 2 \/ j = 3 \/ j = 4 \/ j = 5 \/ j = 6)%Z) by lia.
  repeat destruct C as [C|C]; subst j; cbn in En; inversion En; subst f; clear En; unfold poly_of in Hb; cbn in Hb; invert_poly;
    destruct ws as [|w0 [|w1 [|w2 [|w3 [|w4 ws]]]]]; try discriminate L;
    repeat match goal with H : Forall _ (_ :: _) |- _ => let h := fresh "P" in pose proof (Forall_inv H) as h; apply Forall_inv_tail in H; cbn beta in h end;
    cbn in S; unfold rect; cbn; lra.
Qed.
Lemma grid_disjoint : disjoint_faces (@grid R _) grid_faces (-1).
Proof. exact (proj1 (grid_tiles (fun _ => False) (fun p H => False_ind _ H))). Qed.
Lemma grid_covers : covers (@grid R _) grid_faces (-1) grid halves (-1).
Proof. split; [exact grid_disjoint|]. intros i a p Fa Hp. apply grid_cover. eapply halves_rect; eauto. Qed.
Lemma halves_cover : covers (@grid R _) halves (-1) grid grid_faces (-1).
Proof. split; [exact halves_disjoint|]. intros i a p Fa Hp. apply rect_halves. eapply grid_rect; eauto. Qed.
Definition grid_area (j : Z) : R := if (j <? 5)%Z then 1 else 1 / 2.
Lemma grid_areas : face_areas (@grid R _) grid_faces (-1) grid_area.
Proof.
  intros j b H. pose proof (grid_index j b H) as Hj. destruct H as (f & _ & En & Hb).
  assert (C : (j = 0 \/ j = 1 \/ j = 2 \/ j = 3 \/ j = 4 \/ j = 5 \/ j = 6)%Z) by lia.
  repeat destruct C as [C|C]; subst j; cbn in En; inversion En; subst f; clear En; unfold poly_of in Hb; cbn in Hb; invert_poly;
    unfold grid_area, shoelace; cbn; first [rewrite Rabs_pos_eq; lra|rewrite Rabs_left; lra].
Qed.
Lemma halves_areas : face_areas (@grid R _) halves (-1) (fun _ => 3).
Proof.
  intros j b H. apply halves_face in H as [(_ & ->)|(_ & ->)]; unfold lower_half, upper_half, shoelace; cbn;
    first [rewrite Rabs_pos_eq; lra|rewrite Rabs_left; lra].
Qed.

(** the number of the face as density: the total 31/2 is kept, and the mean over the two halves with it *)
Theorem C67_example : exists t rows v, CellTree2d_init (T:=R) g0 grid grid_faces (-1) 4 2 = Ok t
  /\ CellTree2d_intersect_faces g0 2 t grid halves (-1) = Ok rows
  /\ (forall i, v i = received IZR i rows / sumR (map snd (rows_at i rows)))
  /\ 3 * v 0%Z + 3 * v 1%Z = 31 / 2 /\ 0 <= v 0%Z <= 6 /\ sumR (map snd (rows_at 0 rows)) = 3.
Proof.
  destruct C04_example as (t & E). exists t.
  destruct (regrid_rows _ _ _ _ _ _ t grid_mesh_R grid_convex grid_small E _ _ _ halves_mesh halves_convex grid_small) as (rows & Hr & _).
  exists rows, (fun i => received IZR i rows / sumR (map snd (rows_at i rows))). split; auto. split; [apply Hr; lia|]. split; auto.
  destruct (C67_conservative _ _ _ _ _ _ t grid_mesh_R grid_convex grid_small E _ _ _ halves_mesh halves_convex grid_small
    g0 2%nat rows grid_area (fun _ => 3) IZR _ ltac:(lia) (Hr g0 2%nat ltac:(lia)) grid_covers halves_cover grid_areas halves_areas (fun i => eq_refl)) as (H1 & H2 & _).
  split; [|split].
  - change (length halves) with 2%nat in H1. change (length grid_faces) with 7%nat in H1. unfold iota in H1. cbn [seq map sumR Z.of_nat] in H1.
    unfold grid_area in H1. cbn in H1. lra.
  - apply (H2 0 6); [|unfold zlen; cbn; lia]. intros j Hj. change (zlen grid_faces) with 7%Z in Hj. split; apply IZR_le; lia.
  - destruct grid_covers as (HD & HC).
    rewrite (C25_intersect_faces_conservative _ _ _ _ _ _ _ grid_mesh_R grid_convex grid_small E grid halves (-1)%Z) with (g' := g0) (n := 2%nat) (a := lower_half); auto.
    + rewrite <- (halves_areas _ _ lower_face). reflexivity.
    + constructor; [apply (mo_vertices _ _ _ halves_mesh)|apply (mo_faces _ _ _ halves_mesh)].
    + exact halves_convex.
    + exact grid_small.
    + exact lower_face.
    + split; [exact HD|]. intros p Hp. eapply HC; eauto. exact lower_face.
Qed.

(** the grid with itself: seven rows *)
Theorem C67_self_example : exists t rows, CellTree2d_init (T:=R) g0 grid grid_faces (-1) 4 2 = Ok t
  /\ CellTree2d_intersect_faces g0 2 t grid grid_faces (-1) = Ok rows
  /\ Permutation rows (map (fun j => ((j, j), grid_area j)) (iota 7)).
Proof.
  destruct C04_example as (t & E). exists t.
  destruct (C67_self _ _ _ _ _ _ _ grid_mesh_R grid_convex grid_small grid_disjoint E) as (rows & Hr & N & HI).
  exists rows. split; auto. split; [apply Hr; lia|]. apply NoDup_Permutation; [now apply nodup_fst| |].
  - apply nodup_fst. rewrite map_map. cbn [fst]. apply FinFun.Injective_map_NoDup; [|apply iota_nodup]. intros x y H. now inversion H.
  - intros ((i, j), A). rewrite HI, in_map_iff. split.
    + intros (<- & a & Fa & ->). exists i. rewrite <- (grid_areas i a Fa). split; auto. apply iota_in. pose proof (grid_index _ _ Fa). lia.
    + intros (k & Ek & Hk). inversion Ek; subst; clear Ek. split; auto. apply iota_in in Hk.
      destruct (face_exists _ _ _ grid_mesh_R (Z.to_nat j)) as (a & Fa); [unfold grid_faces; cbn; lia|]. rewrite Z2Nat.id in Fa by lia.
      exists a. split; auto. now apply grid_areas.
Qed.

Print Assumptions C67_transpose.
Print Assumptions C67_self.
Print Assumptions C67_bounds.
Print Assumptions C67_conservative.
Print Assumptions C67_boxes_as_faces.
