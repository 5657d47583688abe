(** Property theorems over exact reals: areas (C25, C27, C40). *)
From Verif Require Import RBase MUtils MGeometry MAlgorithms MQuery MCelltree SpecTree SpecQuery SpecApi PMesh PInit PBuild PQuery PPoints PTreeFacts PApi
  NumSub SpecPoly SpecArea SpecMesh GTriangle GConvex GHull GRay GCcw GBuild GFaces GArea GClip GClipArea GTiling PFaces PSmall PropSmall Examples PropEdges PropPoints PropFaces.
From Coq Require Import Permutation.
Open Scope R_scope.

(** ** C40: polygon_area *)

(** the absolute shoelace area, in either orientation, from any start vertex *)
Theorem C40_polygon_area_convex poly : convex poly ->
  polygon_area poly = Ok (Rabs (shoelace poly)) /\ 0 < Rabs (shoelace poly)
  /\ area_of (hull poly) (Rabs (shoelace poly))
  /\ polygon_area (rev poly) = polygon_area poly
  /\ forall l1 l2, poly = l1 ++ l2 -> polygon_area (l2 ++ l1) = polygon_area poly.
Proof.
  assert (G : forall p, convex p -> polygon_area p = Ok (Rabs (shoelace p)) /\ 0 < Rabs (shoelace p) /\ area_of (hull p) (Rabs (shoelace p))).
  { intros p [H|H].
    - pose proof (shoelace_pos p H). rewrite Rabs_pos_eq by lra. split; [now apply convex_area_ccw|]. split; auto.
      left. exists p. split; auto. split; auto. tauto.
    - pose proof (shoelace_pos _ H) as P. rewrite shoelace_rev in P. rewrite Rabs_left by lra. split; [|split; [lra|]].
      + pose proof (rev_length p) as RL.
        assert (L : (2 <= length p)%nat) by (destruct H; lia).
        destruct (polygon_area_eq p L) as (a & Ha & ->). f_equal.
        rewrite (shoelace_fan a). unfold fan_sum.
        assert (E : forall l, (forall e, In e l -> orient a (fst e) (snd e) <= 0) ->
          sumR (map (fun e => Rabs (orient a (fst e) (snd e))) l) = - sumR (map (fun e => orient a (fst e) (snd e)) l)).
        { induction l as [|e l IH]; cbn; intros Hl; [lra|]. rewrite IH by auto. rewrite Rabs_left1 by auto. lra. }
        rewrite E; [lra|]. intros (u, v) He. cbn [fst snd]. apply edges_rev in He.
        assert (Ha' : In a (rev p)) by (now apply in_rev in Ha).
        pose proof (orient_vertex (rev p) v u a H He Ha') as O. rewrite orient_swap in O. rewrite orient_rot. lra.
      + left. exists (rev p). split; auto. split; [intros q; apply hull_rev|]. now rewrite shoelace_rev. }
  intros H. destruct (G poly H) as (E & P & A). split; auto. split; auto. split; auto. split.
  - rewrite E. assert (Hr : convex (rev poly)) by (destruct H as [H|H]; [right; now rewrite rev_involutive|now left]).
    destruct (G _ Hr) as (-> & _). now rewrite shoelace_rev, Rabs_Ropp.
  - intros l1 l2 ->. rewrite E. assert (Hr : convex (l2 ++ l1)).
    { destruct H as [H|H]; [left; now apply convex_ccw_rot|right]. rewrite rev_app_distr in *. now apply convex_ccw_rot. }
    destruct (G _ Hr) as (-> & _). now rewrite shoelace_rot.
Qed.

(** never negative, whatever the polygon *)
Theorem C40_polygon_area_nonneg poly A : polygon_area poly = Ok A -> 0 <= A.
Proof.
  intros E. assert (L : (2 <= length poly)%nat) by (destruct poly as [|a [|b l]]; cbn in E; [discriminate|discriminate|cbn; lia]).
  destruct (polygon_area_eq poly L) as (a & _ & E'). rewrite E in E'. apply Ok_inj in E'. subst A.
  apply Rmult_le_pos; [lra|]. clear E. induction (poly_edges poly) as [|e l IH]; cbn; [lra|].
  pose proof (Rabs_pos (orient a (fst e) (snd e))). lra.
Qed.

(** ** C25, C27: clipped areas *)
Theorem C25_clip_area_exact g a b : convex_ccw a -> convex_ccw b -> (length a <= 32)%nat -> (length b <= 32)%nat ->
  exists A, polygon_polygon_clip_area g a b = Ok A /\ area_of (fun p => hull a p /\ hull b p) A.
Proof. intros. apply clip_area_exact; auto. lia. Qed.

(** the area of a set is well defined *)
Theorem C25_area_unique S A B : area_of S A -> area_of S B -> A = B.
Proof. apply area_of_unique. Qed.

(** cutting along a line *)
Theorem C25_cut_additive S r s A A1 A2 : r <> s -> area_of S A ->
  area_of (fun p => S p /\ 0 <= orient r s p) A1 -> area_of (fun p => S p /\ orient r s p <= 0) A2 -> A = A1 + A2.
Proof. apply cut_additive. Qed.

(** clipping a polygon by every tile of a tiling: the areas add up *)
Theorem C25_tiling g a tiles : convex_ccw a -> Forall convex_ccw tiles ->
  (length a <= 32)%nat -> Forall (fun t => (length t <= 32)%nat) tiles ->
  (forall i j t t' p, nth_error tiles i = Some t -> nth_error tiles j = Some t' -> i <> j ->
     ~ (open_hull t p /\ open_hull t' p)) ->
  (forall p, hull a p -> exists t, In t tiles /\ hull t p) ->
  exists areas, mapres (polygon_polygon_clip_area g a) tiles = Ok areas
    /\ polygon_area a = Ok (sumR areas).
Proof.
  intros Ha Ht La Lt Hd Hc.
  assert (EX : exists areas, mapres (polygon_polygon_clip_area g a) tiles = Ok areas
     /\ Forall2 (fun t A => area_of (fun p => hull a p /\ hull t p) A) tiles areas).
  { clear Hd Hc. revert Lt. induction Ht as [|t ts Ht _ IH]; intros Lt; [exists []; split; [reflexivity|constructor]|].
    destruct (IH (Forall_inv_tail Lt)) as (areas & E & HF).
    destruct (C25_clip_area_exact g a t Ha Ht La (Forall_inv Lt)) as (A & EA & HA).
    exists (A :: areas). cbn [mapres]. rewrite EA. cbn [bind]. rewrite E. cbn [bind]. split; auto. }
  destruct EX as (areas & E & HF). exists areas. split; auto.
  rewrite (convex_area_ccw a Ha). f_equal. apply (tiling_area (hull a) tiles areas); auto.
  - intros i j t t' p Hi Hj Hij A B. rewrite Forall_forall in Ht.
    apply (Hd i j t t' p Hi Hj Hij). split; apply interior_open_hull; auto; apply Ht; eapply nth_error_In; eauto.
  - left. exists a. split; auto. split; auto. tauto.
Qed.

Lemma positive_interior (a b : list pt) A : convex_ccw a -> convex_ccw b -> area_of (fun p => hull a p /\ hull b p) A ->
  (0 < A <-> exists p, interior a p /\ interior b p).
Proof.
  intros Ha Hb HA. split.
  - intros Hp. destruct HA as [(K & HC & HK & _)|(_ & ->)]; [|lra].
    destruct (interior_exists K HC) as (p & Hi). exists p. split; apply (interior_sub K); auto; intros q Hq; now apply HK.
  - intros (p & P1 & P2). destruct HA as [(K & HC & HK & ->)|((u & v & Hne & Hf) & ->)]; [now apply shoelace_pos|exfalso].
    assert (H0 : orient u v p = 0).
    { apply Hf. split; apply in_poly_hull; auto; now apply interior_in_poly. }
    set (q := Pt (px p - (py v - py u)) (py p + (px v - px u))).
    destruct (interior_open a p q P1) as (e1 & He1 & H1). destruct (interior_open b p q P2) as (e2 & He2 & H2).
    set (e := Rmin e1 e2). assert (He : 0 < e) by (apply Rmin_pos; lra).
    assert (Hle1 : e <= e1) by apply Rmin_l. assert (Hle2 : e <= e2) by apply Rmin_r.
    assert (H3 : orient u v (at_ p q e) = 0).
    { apply Hf. split; apply in_poly_hull; auto; apply interior_in_poly; [apply H1|apply H2]; lra. }
    rewrite orient_at, H0 in H3.
    assert (Hq : orient u v q = orient u v p + ((px v - px u) * (px v - px u) + (py v - py u) * (py v - py u)))
      by (unfold orient, q; cbn; ring).
    pose proof (dir_pos u v Hne). rewrite H0 in Hq.
    assert (e * (orient u v q - 0) = 0) by lra.
    apply Rmult_integral in H4 as [H4|H4]; lra.
Qed.

Lemma poly_len (vs : list pt) f poly : wf_face (length vs) f -> poly_of vs f poly -> (length poly <= 32)%nat.
Proof.
  intros (_ & H32 & _) Hp. apply F2_length in Hp. rewrite <- Hp.
  assert (G : forall l, (length (until_fill l) <= length l)%nat).
  { induction l as [|x l IH]; cbn; auto. destruct (x =? -1)%Z; cbn; lia. }
  pose proof (G f). lia.
Qed.

Lemma filter_sel (pairs : list (Z * Z)) (fA : Z * Z -> R) :
  combine (mask pairs (map (fun x => nltb (nofZ 0) x) (map fA pairs)))
          (mask (map fA pairs) (map (fun x => nltb (nofZ 0) x) (map fA pairs)))
  = map (fun ij => (ij, fA ij)) (filter (fun ij => Rlt_bool 0 (fA ij)) pairs).
Proof.
  rewrite mask_filter by (now rewrite map_length). induction pairs as [|x l IH]; auto. cbn [map combine filter snd].
  change (nltb (nofZ 0) (fA x)) with (Rlt_bool 0 (fA x)). destruct (Rlt_bool 0 (fA x)); cbn [map]; now rewrite IH.
Qed.

(** intersect_faces returns exactly the pairs of faces whose intersection has a
    positive area, with that area *)
Theorem C25_intersect_faces_exact g vs faces fill nb cpl (t : tree2d (T:=R)) :
  mesh_ok vs faces fill -> convex_mesh vs faces fill -> small vs ->
  CellTree2d_init g vs faces fill nb cpl = Ok t ->
  forall vs_ qfaces qfill, faces_ok vs_ (map (with_fill qfill) qfaces) -> convex_mesh vs_ qfaces qfill -> small vs_ ->
  exists rows,
    (forall g' n_threads, (1 <= n_threads)%nat ->
       CellTree2d_intersect_faces g' n_threads t vs_ qfaces qfill = Ok rows)
    /\ NoDup (map fst rows)
    /\ forall i j A, In ((i, j), A) rows <->
         exists a b, face_poly vs_ qfaces qfill i a /\ face_poly vs faces fill j b
           /\ area_of (fun p => hull a p /\ hull b p) A /\ 0 < A.
Proof.
  intros Hm Hc Hs E vs_ qf0 qfill Hq Hcq0 Hsq. set (qf := map (with_fill qfill) qf0) in *.
  assert (FP : forall i a, face_poly vs_ qf0 qfill i a <-> face_poly vs_ qf (-1) i a).
  { intros i a. unfold face_poly, qf. now rewrite with_fill_id. }
  assert (Hcq : convex_mesh vs_ qf (-1)) by (intros i a Hi; apply (Hcq0 i a), FP, Hi).
  destruct (locate_faces_result _ _ _ _ _ _ _ Hm E vs_ qf Hq) as (pairs & qf' & Ecc & Hr & Hnd & Hin).
  destruct (C23_locate_faces_exact _ _ _ _ _ _ _ Hm Hc Hs E vs_ qf Hq Hcq Hsq) as (pairs2 & q2 & Hr2 & _ & Hin2).
  assert (pairs2 = pairs).
  { specialize (Hr g 1%nat ltac:(lia)). rewrite (Hr2 g 1%nat ltac:(lia)) in Hr. apply Ok_inj in Hr. congruence. }
  subst pairs2. clear Hr2 q2.
  pose proof (init_built _ _ _ _ _ _ _ Hm E) as Hb. pose proof (bt_vertices _ _ _ _ _ Hb) as Evs.
  destruct (counter_clockwise_ok vs_ qf (fo_faces _ _ Hq)) as (q2 & E2 & W2 & _).
  rewrite Ecc in E2. apply Ok_inj in E2. subst q2.
  (* the area computed for a located pair *)
  assert (P : forall i j, In (i, j) pairs -> exists a0 b0 A,
     face_poly vs_ qf0 qfill i a0 /\ face_poly vs faces fill j b0
     /\ (forall g', area_of_intersection_one g' vs_ vs qf' (elements (celltree_data t)) (i, j) = Ok A)
     /\ area_of (fun p => hull a0 p /\ hull b0 p) A /\ 0 < A).
  { intros i j Hij. pose proof Hij as Hij2. apply Hin in Hij. apply Hin2 in Hij2.
    destruct Hij as (fa & fb & a & b & ba & bb & H0 & H1 & Ea & Eb & Pa & Pb & _).
    destruct Hij2 as (a0 & b0 & p & FA & FB & Oa & Ob).
    destruct (stored_faces vs_ qf qf' _ (fo_faces _ _ Hq) Ecc fa Ea) as (f & a1 & Ef & Pf & _ & Hcv).
    assert (FA1 : face_poly vs_ qf (-1) i a1) by (exists f; rewrite with_fill_id; auto).
    destruct (Hcv (Hcq _ _ FA1)) as (a' & Pa' & Ca & SA).
    assert (a' = a) by (eapply poly_of_unique; eauto). subst a'.
    assert (a1 = a0).
    { destruct FA as (f0 & _ & Ef0 & Pf0). rewrite with_fill_id in Ef0. rewrite Ef in Ef0. inversion Ef0; subst f0. eapply poly_of_unique; eauto. }
    subst a1.
    destruct (stored_poly _ _ _ _ _ _ _ _ _ Hm Hc E FB) as (fb2 & b' & b2 & _ & Eb2 & _ & Pb2 & Cb & SB & _).
    rewrite Eb in Eb2. inversion Eb2; subst fb2.
    assert (b' = b) by (eapply poly_of_unique; eauto). subst b'.
    assert (Wa : wf_face (length vs_) fa) by (rewrite Forall_forall in W2; apply W2; eapply nth_error_In; eauto).
    assert (Wb : wf_face (length vs) fb).
    { pose proof (mt_faces _ (bt_mesh _ _ _ _ _ Hb)) as Hw. rewrite Forall_forall in Hw. rewrite <- Evs. apply Hw. eapply nth_error_In; eauto. }
    assert (SETS : forall p, hull a p /\ hull b p <-> hull a0 p /\ hull b0 p).
    { intros q. rewrite (hull_either a0 a q SA), (hull_either b0 b q SB). tauto. }
    assert (HOne : forall g', area_of_intersection_one g' vs_ vs qf' (elements (celltree_data t)) (i, j) = polygon_polygon_clip_area g' a b).
    { intros g'. unfold area_of_intersection_one. cbn [fst snd].
      rewrite (aget_pos _ _ _ H0 Ea), (aget_pos _ _ _ H1 Eb). cbn [bind].
      rewrite (copy_vertices_ok g' _ _ _ Wa Pa), (copy_vertices_ok g' _ _ _ Wb Pb). reflexivity. }
    destruct (C25_clip_area_exact g a b Ca Cb (poly_len _ _ _ Wa Pa) (poly_len _ _ _ Wb Pb)) as (A & EA & HA).
    exists a0, b0, A. split; [now apply FP|]. split; auto. split.
    - intros g'. rewrite HOne. destruct (C25_clip_area_exact g' a b Ca Cb (poly_len _ _ _ Wa Pa) (poly_len _ _ _ Wb Pb)) as (A' & EA' & HA').
      rewrite EA'. f_equal. now apply (area_of_unique _ _ _ HA').
    - split; [now apply (area_of_ext _ _ _ SETS)|]. apply (positive_interior a b A Ca Cb HA).
      exists p. split; apply interior_open_hull; auto; [now apply (open_hull_either a0 a)|now apply (open_hull_either b0 b)]. }
  set (fA := fun ij => match area_of_intersection_one g vs_ vs qf' (elements (celltree_data t)) ij with Ok A => A | Err _ => 0 end).
  exists (map (fun ij => (ij, fA ij)) (filter (fun ij => Rlt_bool 0 (fA ij)) pairs)).
  assert (EF : forall i j A, (forall g', area_of_intersection_one g' vs_ vs qf' (elements (celltree_data t)) (i, j) = Ok A) -> fA (i, j) = A).
  { intros i j A H. unfold fA. now rewrite H. }
  split; [|split].
  - intros g' n Hn. unfold CellTree2d_intersect_faces. rewrite (cast_faces_wf vs_) by apply (fo_faces _ _ Hq). cbn [bind].
    fold qf. rewrite (Hr g' n Hn). cbn [bind]. unfold area_of_intersection. rewrite Evs. rewrite (Base.mapres_ok _ fA).
    + cbn [bind]. f_equal. apply filter_sel.
    + intros (i, j) Hij. destruct (P i j Hij) as (a0 & b0 & A & _ & _ & EA & _). rewrite EA. f_equal. symmetry. now apply EF.
  - rewrite map_map. cbn [fst]. rewrite map_id. now apply NoDup_filter.
  - intros i j A. rewrite in_map_iff. split.
    + intros (ij & Eij & Hf). inversion Eij; subst; clear Eij. apply filter_In in Hf as (Hij & Hp).
      destruct (P i j Hij) as (a0 & b0 & A & FA & FB & EA & HA & Hpos). rewrite (EF _ _ _ EA).
      exists a0, b0. auto.
    + intros (a & b & FA & FB & HA & Hpos). apply FP in FA.
      assert (Hij : In (i, j) pairs).
      { apply Hin2. 
        assert (G : forall x y, convex x -> convex y -> area_of (fun p => hull x p /\ hull y p) A -> exists p, open_hull x p /\ open_hull y p).
        { intros x y Hx Hy Hxy.
          assert (RX : exists x', convex_ccw x' /\ (x' = x \/ x' = rev x)) by (destruct Hx; eauto).
          assert (RY : exists y', convex_ccw y' /\ (y' = y \/ y' = rev y)) by (destruct Hy; eauto).
          destruct RX as (x' & Cx & Sx), RY as (y' & Cy & Sy).
          assert (Hxy' : area_of (fun p => hull x' p /\ hull y' p) A).
          { eapply area_of_ext; [|exact Hxy]. intros q. cbn beta. rewrite (hull_either x x' q Sx), (hull_either y y' q Sy). tauto. }
          apply (positive_interior x' y' A Cx Cy Hxy') in Hpos as (p & P1 & P2).
          exists p. split; [apply (open_hull_either x x' p Sx)|apply (open_hull_either y y' p Sy)]; now apply interior_open_hull. }
        destruct (G a b (Hcq _ _ FA) (Hc _ _ FB) HA) as (p & P1 & P2). exists a, b, p. auto. }
      destruct (P i j Hij) as (a0 & b0 & A' & FA' & FB' & EA & HA' & Hpos').
      assert (U : forall vs faces fill j p q, face_poly vs faces fill j p -> face_poly vs faces fill j q -> p = q).
      { clear. intros vs faces fill j p q (f & _ & Ef & Pf) (f' & _ & Ef' & Pf'). rewrite Ef in Ef'. inversion Ef'; subst. eapply poly_of_unique; eauto. }
      apply FP in FA'. rewrite (U _ _ _ _ _ _ FA' FA), (U _ _ _ _ _ _ FB' FB) in HA'.
      assert (A' = A) by apply (area_of_unique _ _ _ HA' HA). subst A'.
      exists (i, j). rewrite (EF _ _ _ EA). split; auto. apply filter_In. split; auto. rewrite (EF _ _ _ EA). now apply Rlt_bool_true.
Qed.

(** ** Conservation: the areas of one query face over a tiling add up *)
Lemma nth_choice {A} (P : nat -> A -> Prop) n : (forall j, (j < n)%nat -> exists t, P j t) ->
  exists Ts, length Ts = n /\ forall j t, nth_error Ts j = Some t -> P j t.
Proof.
  induction n as [|n IH]; intros H; [exists []; split; auto; intros [|j] t Ht; discriminate|].
  destruct IH as (Ts & L & HT); [intros j Hj; apply H; lia|]. destruct (H n ltac:(lia)) as (t & Ht).
  exists (Ts ++ [t]). split; [rewrite app_length; cbn; lia|]. intros j t' Hj.
  destruct (Nat.lt_ge_cases j (length Ts)) as [Hl|Hl]; [rewrite nth_error_app1 in Hj by auto; auto|].
  rewrite nth_error_app2 in Hj by auto. destruct (j - length Ts)%nat eqn:D; [|destruct n0; discriminate].
  cbn in Hj. inversion Hj; subst t'. now replace j with n by lia.
Qed.

Fixpoint idx (k : nat) (As : list R) : list (Z * R) :=
  match As with [] => [] | A :: As => (Z.of_nat k, A) :: idx (S k) As end.
Lemma idx_in As : forall k j A, In (j, A) (idx k As) <-> (Z.of_nat k <= j)%Z /\ nth_error As (Z.to_nat j - k) = Some A.
Proof.
  induction As as [|x As IH]; intros k j A; cbn [idx].
  - split; [intros []|]. intros (_ & H). destruct (Z.to_nat j - k)%nat; discriminate.
  - split.
    + intros [H|H].
      * inversion H; subst. split; [lia|]. replace (Z.to_nat (Z.of_nat k) - k)%nat with O by lia. reflexivity.
      * apply IH in H as (H1 & H2). split; [lia|]. replace (Z.to_nat j - k)%nat with (S (Z.to_nat j - S k)) by lia. exact H2.
    + intros (H1 & H2). destruct (Z.to_nat j - k)%nat eqn:D.
      * left. cbn in H2. inversion H2; subst. f_equal. lia.
      * right. apply IH. split; [lia|]. cbn in H2. now replace (Z.to_nat j - S k)%nat with n by lia.
Qed.
Lemma idx_nodup As : forall k, NoDup (idx k As).
Proof.
  induction As as [|x As IH]; intros k; cbn [idx]; constructor; auto. intros H. apply idx_in in H as (H & _). lia.
Qed.
Lemma sum_rows (RS : list (Z * R)) As : NoDup RS -> (forall A, In A As -> 0 <= A) ->
  (forall j A, In (j, A) RS <-> (0 <= j)%Z /\ nth_error As (Z.to_nat j) = Some A /\ 0 < A) ->
  sumR (map snd RS) = sumR As.
Proof.
  intros HN Hpos HI.
  assert (HP : Permutation RS (filter (fun r => Rlt_bool 0 (snd r)) (idx 0 As))).
  { apply NoDup_Permutation; auto; [apply NoDup_filter, idx_nodup|].
    intros (j, A). rewrite HI, filter_In, idx_in, Nat.sub_0_r. cbn [snd].
    split.
    - intros (H1 & H2 & H3). split; [split; auto; lia|]. now apply Rlt_bool_true.
    - intros ((H1 & H2) & H3). apply Rltb_iff in H3. split; [lia|auto]. }
  rewrite (sumR_perm _ _ (Permutation_map snd HP)). clear - Hpos. generalize 0%nat as k.
  induction As as [|A As IH]; intros k; [reflexivity|]. cbn [idx filter snd].
  destruct (Rlt_bool_spec 0 A) as [L|L]; cbn [map sumR snd]; rewrite IH by (intros; apply Hpos; now right).
  - reflexivity.
  - pose proof (Hpos A (or_introl eq_refl)). lra.
Qed.

(** the faces of a mesh do not overlap, and together cover a set *)
Definition tiles (vs : list pt) (faces : list (list Z)) (fill : Z) (S : pt -> Prop) : Prop :=
  (forall j j' b b' p, face_poly vs faces fill j b -> face_poly vs faces fill j' b' -> j <> j' ->
     ~ (open_hull b p /\ open_hull b' p))
  /\ forall p, S p -> exists j b, face_poly vs faces fill j b /\ hull b p.

Lemma face_exists (vs : list pt) faces fill : mesh_ok vs faces fill ->
  forall j, (j < length faces)%nat -> exists b, face_poly vs faces fill (Z.of_nat j) b.
Proof.
  intros Hm j Hj. pose proof (mo_faces _ _ _ Hm) as Hw. rewrite Forall_forall in Hw.
  destruct (nth_error (map (with_fill fill) faces) j) as [f|] eqn:Ef; [|apply nth_error_None in Ef; rewrite map_length in Ef; lia].
  destruct (wf_poly vs f (Hw f (nth_error_In _ _ Ef))) as (b & Hb). exists b, f. rewrite Nat2Z.id. split; [lia|]. auto.
Qed.
Lemma face_range (vs : list pt) faces fill j b : face_poly vs faces fill j b -> (0 <= j < zlen faces)%Z.
Proof.
  intros (f & H0 & Ef & _). unfold zlen. split; auto.
  assert (Z.to_nat j < length (map (with_fill fill) faces))%nat by (apply nth_error_Some; congruence). rewrite map_length in H. lia.
Qed.
Lemma face_unique (vs : list pt) faces fill j p q : face_poly vs faces fill j p -> face_poly vs faces fill j q -> p = q.
Proof. intros (f & _ & Ef & Pf) (f' & _ & Ef' & Pf'). rewrite Ef in Ef'. inversion Ef'; subst. eapply poly_of_unique; eauto. Qed.

Lemma row_sum (vs : list pt) faces fill (SA : pt -> Prop) A (RS : list (Z * R)) :
  mesh_ok vs faces fill -> convex_mesh vs faces fill -> tiles vs faces fill SA ->
  area_of SA A -> NoDup RS ->
  (forall j B, In (j, B) RS <-> exists b, face_poly vs faces fill j b /\ area_of (fun p => SA p /\ hull b p) B /\ 0 < B) ->
  sumR (map snd RS) = A.
Proof.
  intros Hm Hc (HD & HC) HA HN HI.
  assert (EX : forall j, (j < length faces)%nat -> exists t, convex_ccw t /\ exists b, face_poly vs faces fill (Z.of_nat j) b /\ (t = b \/ t = rev b)).
  { intros j Hj. destruct (face_exists vs faces fill Hm j Hj) as (b & Hb). destruct (Hc _ _ Hb) as [H|H]; eauto 10. }
  destruct (nth_choice _ _ EX) as (Ts & LT & HT).
  assert (EX2 : forall j, (j < length faces)%nat -> exists B, forall t, nth_error Ts j = Some t -> area_of (fun p => SA p /\ hull t p) B).
  { intros j Hj. destruct (nth_error Ts j) as [t|] eqn:Et; [|exists 0; discriminate].
    destruct (HT j t Et) as (Ct & _). destruct (region_area _ (region_meet SA t (area_region _ _ HA) Ct)) as (B & HB).
    exists B. intros t' Ht'. inversion Ht'; subst. exact HB. }
  destruct (nth_choice _ _ EX2) as (As & LA & HAs).
  rewrite (tiling_area SA Ts As A).
  - apply sum_rows; auto.
    + intros B HB. apply In_nth_error in HB as (j & Hj).
      assert (Hl : (j < length Ts)%nat) by (rewrite LT, <- LA; apply nth_error_Some; congruence).
      destruct (nth_error Ts j) as [t|] eqn:Et; [|apply nth_error_None in Et; lia].
      exact (area_of_nonneg _ _ (HAs j B Hj t Et)).
    + intros j B. rewrite HI. split.
      * intros (b & Hb & HB & Hpos). pose proof (face_range _ _ _ _ _ Hb) as Hr. split; [lia|]. split; auto.
        unfold zlen in Hr.
        destruct (nth_error Ts (Z.to_nat j)) as [t|] eqn:Et; [|apply nth_error_None in Et; lia].
        destruct (nth_error As (Z.to_nat j)) as [B'|] eqn:EB; [|apply nth_error_None in EB; lia].
        pose proof (HAs _ _ EB t Et) as HB'. destruct (HT _ _ Et) as (_ & b' & Hb' & Hs). rewrite Z2Nat.id in Hb' by lia.
        rewrite (face_unique _ _ _ _ _ _ Hb' Hb) in Hs. f_equal.
        apply (area_of_unique _ _ _ HB'). eapply area_of_ext; [|exact HB]. intros p. cbn beta. rewrite (hull_either b t p Hs). tauto.
      * intros (H0 & EB & Hpos).
        assert (Hl : (Z.to_nat j < length Ts)%nat) by (rewrite LT, <- LA; apply nth_error_Some; congruence).
        destruct (nth_error Ts (Z.to_nat j)) as [t|] eqn:Et; [|apply nth_error_None in Et; lia].
        pose proof (HAs _ _ EB t Et) as HB'. destruct (HT _ _ Et) as (_ & b' & Hb' & Hs). rewrite Z2Nat.id in Hb' by lia.
        exists b'. split; auto. split; auto. eapply area_of_ext; [|exact HB']. intros p. cbn beta. rewrite (hull_either b' t p Hs). tauto.
  - apply Forall_forall. intros t Ht. apply In_nth_error in Ht as (j & Hj). now apply (HT j t).
  - intros j j' t t' p Hj Hj' Hne It It'.
    destruct (HT _ _ Hj) as (Ct & b & Hb & Hs). destruct (HT _ _ Hj') as (Ct' & b' & Hb' & Hs').
    apply (HD _ _ b b' p Hb Hb'); [lia|]. split; [apply (open_hull_either b t p Hs)|apply (open_hull_either b' t' p Hs')]; now apply interior_open_hull.
  - intros p Hp. destruct (HC p Hp) as (j & b & Hb & Hbp). pose proof (face_range _ _ _ _ _ Hb) as Hr. unfold zlen in Hr.
    destruct (nth_error Ts (Z.to_nat j)) as [t|] eqn:Et; [|apply nth_error_None in Et; lia].
    exists t. split; [eapply nth_error_In; eauto|]. destruct (HT _ _ Et) as (_ & b' & Hb' & Hs). rewrite Z2Nat.id in Hb' by lia.
    rewrite (face_unique _ _ _ _ _ _ Hb' Hb) in Hs. now apply (hull_either b t p Hs).
  - exact HA.
  - assert (G : forall (k : list pt -> R -> Prop) Ts As, length Ts = length As -> (forall j B, nth_error As j = Some B -> forall t, nth_error Ts j = Some t -> k t B) -> Forall2 k Ts As).
    { clear. intros k. induction Ts as [|t Ts IH]; intros [|B As] L H; try discriminate; constructor.
      - apply (H O B eq_refl t eq_refl).
      - apply IH; [cbn in L; lia|]. intros j B' HB' t' Ht'. apply (H (S j) B' HB' t' Ht'). }
    apply G; [lia|exact HAs].
Qed.

Definition rows_at (i : Z) (rows : list ((Z * Z) * R)) : list (Z * R) :=
  map (fun r => (snd (fst r), snd r)) (filter (fun r => (fst (fst r) =? i)%Z) rows).
Lemma rows_at_in i rows j A : In (j, A) (rows_at i rows) <-> In ((i, j), A) rows.
Proof.
  unfold rows_at. rewrite in_map_iff. split.
  - intros (((i', j'), A') & E & H). apply filter_In in H as (H & Hi). cbn in *. inversion E; subst. apply Z.eqb_eq in Hi. now subst.
  - intros H. exists ((i, j), A). split; auto. apply filter_In. split; auto. cbn. apply Z.eqb_refl.
Qed.
Lemma rows_at_nodup i rows : NoDup (map fst rows) -> NoDup (rows_at i rows).
Proof.
  intros H. apply NoDup_map_inv with (f := fst). unfold rows_at. rewrite map_map. cbn [fst].
  induction rows as [|((i', j), A) rows IH]; cbn [filter]; [constructor|].
  cbn [map fst] in H. apply NoDup_cons_iff in H as (N & H). cbn [fst].
  destruct (Z.eqb_spec i' i) as [->|]; [|now apply IH]. cbn [map fst snd]. constructor; [|now apply IH].
  intros K. apply in_map_iff in K as (((i2, j2), A2) & E & K). apply filter_In in K as (K & Ei). cbn in E, Ei.
  apply Z.eqb_eq in Ei. subst. apply N. apply in_map_iff. now exists ((i, j), A2).
Qed.

(** intersect_faces: what a query face receives from a tiling is its own area *)
Theorem C25_intersect_faces_conservative g vs faces fill nb cpl (t : tree2d (T:=R)) :
  mesh_ok vs faces fill -> convex_mesh vs faces fill -> small vs ->
  CellTree2d_init g vs faces fill nb cpl = Ok t ->
  forall vs_ qfaces qfill, faces_ok vs_ (map (with_fill qfill) qfaces) -> convex_mesh vs_ qfaces qfill -> small vs_ ->
  forall g' n rows, (1 <= n)%nat -> CellTree2d_intersect_faces g' n t vs_ qfaces qfill = Ok rows ->
  forall i a, face_poly vs_ qfaces qfill i a -> tiles vs faces fill (hull a) ->
  sumR (map snd (rows_at i rows)) = Rabs (shoelace a).
Proof.
  intros Hm Hc Hs E vs_ qf qfill Hq Hcq Hsq g' n rows Hn ER i a Fa HT.
  destruct (C25_intersect_faces_exact _ _ _ _ _ _ _ Hm Hc Hs E vs_ qf qfill Hq Hcq Hsq) as (rows' & Hr & Hnd & Hin).
  rewrite (Hr g' n Hn) in ER. apply Ok_inj in ER. subst rows'.
  apply (row_sum vs faces fill (hull a)); auto.
  - apply (C40_polygon_area_convex a (Hcq _ _ Fa)).
  - now apply rows_at_nodup.
  - intros j B. rewrite rows_at_in, Hin. split.
    + intros (a' & b & Fa' & Fb & HB). rewrite (face_unique _ _ _ _ _ _ Fa' Fa) in HB. eauto.
    + intros (b & Fb & HB). eauto.
Qed.

(** ** intersect_boxes *)
Definition proper_box (b : box R) : Prop := xmin b < xmax b /\ ymin b < ymax b.
Lemma box_poly_convex b : proper_box b -> convex_ccw (copy_box_vertices b).
Proof.
  destruct b as [x0 x1 y0 y1]. intros (Hx & Hy). cbn in Hx, Hy. unfold copy_box_vertices. cbn [xmin xmax ymin ymax].
  assert (0 < (x1 - x0) * (y1 - y0)) by (apply Rmult_lt_0_compat; lra).
  split; [cbn; lia|]. split.
  - repeat constructor; cbn; intros K; repeat destruct K as [K|K]; try (inversion K; lra); auto.
  - intros u v w He Hw N1 N2. cbn in He, Hw.
    repeat destruct He as [He|He]; try contradiction; inversion He; subst; clear He;
    repeat destruct Hw as [Hw|Hw]; try contradiction; subst w; try congruence; unfold orient; cbn [px py]; nra.
Qed.
Lemma box_poly_hull b p : proper_box b -> (hull (copy_box_vertices b) p <-> in_box b p).
Proof.
  intros Hb. rewrite <- (in_poly_hull _ p (box_poly_convex b Hb)). destruct b as [x0 x1 y0 y1], Hb as (Hx & Hy). cbn in Hx, Hy.
  unfold in_poly, in_box, copy_box_vertices. cbn [xmin xmax ymin ymax]. split.
  - intros H.
    pose proof (H (Pt x0 y0) (Pt x1 y0) ltac:(cbn; auto 6)) as H1. pose proof (H (Pt x1 y0) (Pt x1 y1) ltac:(cbn; auto 6)) as H2.
    pose proof (H (Pt x1 y1) (Pt x0 y1) ltac:(cbn; auto 6)) as H3. pose proof (H (Pt x0 y1) (Pt x0 y0) ltac:(cbn; auto 6)) as H4.
    unfold orient in *. cbn [px py] in *. assert (0 < x1 - x0) by lra. assert (0 < y1 - y0) by lra.
    repeat split; apply Rnot_lt_le; intros L; nra.
  - intros ((A & B) & (C & D)) u v He. cbn in He.
    repeat destruct He as [He|He]; try contradiction; inversion He; subst; clear He; unfold orient; cbn [px py]; nra.
Qed.
Lemma box_poly_area b : shoelace (copy_box_vertices b) = (xmax b - xmin b) * (ymax b - ymin b).
Proof. destruct b. unfold copy_box_vertices. unfold shoelace. cbn. field. Qed.
Lemma box_interior b p : proper_box b -> interior (copy_box_vertices b) p -> xmin b < px p < xmax b /\ ymin b < py p < ymax b.
Proof.
  destruct b as [x0 x1 y0 y1]. intros (Hx & Hy) H. unfold copy_box_vertices in H. cbn in Hx, Hy, H |- *.
  pose proof (H (Pt x0 y0) (Pt x1 y0) ltac:(cbn; auto 6)) as H1. pose proof (H (Pt x1 y0) (Pt x1 y1) ltac:(cbn; auto 6)) as H2.
  pose proof (H (Pt x1 y1) (Pt x0 y1) ltac:(cbn; auto 6)) as H3. pose proof (H (Pt x0 y1) (Pt x0 y0) ltac:(cbn; auto 6)) as H4.
  unfold orient in *. cbn [px py] in *. assert (0 < x1 - x0) by lra. assert (0 < y1 - y0) by lra.
  repeat split; apply Rnot_le_lt; intros L; nra.
Qed.

Theorem C25_intersect_boxes_exact g vs faces fill nb cpl (t : tree2d (T:=R)) :
  mesh_ok vs faces fill -> convex_mesh vs faces fill ->
  CellTree2d_init g vs faces fill nb cpl = Ok t ->
  forall boxes, Forall proper_box boxes ->
  exists rows,
    (forall g' n_threads, (1 <= n_threads)%nat -> CellTree2d_intersect_boxes g' n_threads t boxes = Ok rows)
    /\ NoDup (map fst rows)
    /\ forall i j A, In ((i, j), A) rows <->
         exists a b, (0 <= i)%Z /\ nth_error boxes (Z.to_nat i) = Some a /\ face_poly vs faces fill j b
           /\ area_of (fun p => in_box a p /\ hull b p) A /\ 0 < A.
Proof.
  intros Hm Hc E boxes HB. rewrite Forall_forall in HB.
  pose proof (init_built _ _ _ _ _ _ _ Hm E) as Hb. pose proof (bt_vertices _ _ _ _ _ Hb) as Evs.
  destruct (boxes_result t boxes (built_valid _ _ _ _ _ Hb)) as (pairs & Hr & Hnd & Hin & _).
  assert (P : forall i j a b, (0 <= i)%Z -> nth_error boxes (Z.to_nat i) = Some a -> face_poly vs faces fill j b ->
     exists A, (forall g', box_area_one g' boxes vs (elements (celltree_data t)) (i, j) = Ok A)
       /\ area_of (fun p => in_box a p /\ hull b p) A /\ (0 < A -> In (i, j) pairs)).
  { intros i j a b0 H0 Ea FB. pose proof (HB a (nth_error_In _ _ Ea)) as Pa. pose proof (box_poly_convex a Pa) as Ca.
    destruct (stored_poly _ _ _ _ _ _ _ _ _ Hm Hc E FB) as (fb & b & bb & H1 & Eb & Ebb & Pb & Cb & SB & Tb).
    assert (Wb : wf_face (length vs) fb).
    { pose proof (mt_faces _ (bt_mesh _ _ _ _ _ Hb)) as Hw. rewrite Forall_forall in Hw. rewrite <- Evs. apply Hw. eapply nth_error_In; eauto. }
    assert (HOne : forall g', box_area_one g' boxes vs (elements (celltree_data t)) (i, j) = polygon_polygon_clip_area g' (copy_box_vertices a) b).
    { intros g'. unfold box_area_one. cbn [fst snd]. rewrite (aget_pos _ _ _ H0 Ea), (aget_pos _ _ _ H1 Eb). cbn [bind].
      rewrite (copy_vertices_ok g' _ _ _ Wb Pb). reflexivity. }
    assert (La : (length (copy_box_vertices a) <= 32)%nat) by (cbn; lia).
    destruct (C25_clip_area_exact g _ b Ca Cb La (poly_len _ _ _ Wb Pb)) as (A & EA & HA).
    exists A. split; [|split].
    - intros g'. rewrite HOne. destruct (C25_clip_area_exact g' _ b Ca Cb La (poly_len _ _ _ Wb Pb)) as (A' & EA' & HA').
      rewrite EA'. f_equal. now apply (area_of_unique _ _ _ HA').
    - eapply area_of_ext; [|exact HA]. intros p. cbn beta. rewrite (box_poly_hull a p Pa), (hull_either b0 b p SB). tauto.
    - intros Hp. apply (positive_interior _ b A Ca Cb HA) in Hp as (p & P1 & P2).
      apply (box_interior a p Pa) in P1. pose proof (interior_box b bb p Cb Tb P2) as P3.
      apply Hin. exists a, bb. split; [exact H0|]. split; [exact H1|]. split; [exact Ea|]. split; [exact Ebb|].
      unfold strict_overlap. rsimp. rewrite !Rlt_bool_true by lra. auto. }
  assert (EX : forall i j, In (i, j) pairs -> (0 <= i)%Z /\ exists a b, nth_error boxes (Z.to_nat i) = Some a /\ face_poly vs faces fill j b).
  { intros i j H. apply Hin in H as (a & bb & H0 & H1 & Ea & Ebb & _). split; auto.
    pose proof (init_ccw _ _ _ _ _ _ _ Hm E) as Hcc.
    pose proof (F2_length _ _ _ (counter_clockwise_convex vs _ _ (mo_faces _ _ _ Hm) Hcc)) as L1. rewrite map_length in L1.
    pose proof (vt_elements _ (built_valid _ _ _ _ _ Hb)) as L2.
    assert (Z.to_nat j < length (bb_coords (celltree_data t)))%nat by (apply nth_error_Some; congruence).
    destruct (face_exists vs faces fill Hm (Z.to_nat j) ltac:(lia)) as (b & FB). rewrite Z2Nat.id in FB by lia. eauto. }
  set (fA := fun ij => match box_area_one g boxes vs (elements (celltree_data t)) ij with Ok A => A | Err _ => 0 end).
  assert (EF : forall i j A, (forall g', box_area_one g' boxes vs (elements (celltree_data t)) (i, j) = Ok A) -> fA (i, j) = A).
  { intros i j A H. unfold fA. now rewrite H. }
  exists (map (fun ij => (ij, fA ij)) (filter (fun ij => Rlt_bool 0 (fA ij)) pairs)). split; [|split].
  - intros g' n Hn. specialize (Hr g' n Hn). unfold CellTree2d_locate_boxes in Hr. unfold CellTree2d_intersect_boxes.
    rewrite Hr. cbn [bind]. unfold box_area_of_intersection. rewrite Evs. rewrite (Base.mapres_ok _ fA).
    + cbn [bind]. f_equal. apply filter_sel.
    + intros (i, j) Hij. destruct (EX i j Hij) as (H0 & a & b & Ea & FB). destruct (P i j a b H0 Ea FB) as (A & EA & _).
      rewrite EA. f_equal. symmetry. now apply EF.
  - rewrite map_map. cbn [fst]. rewrite map_id. now apply NoDup_filter.
  - intros i j A. rewrite in_map_iff. split.
    + intros (ij & Eij & Hf). inversion Eij; subst; clear Eij. apply filter_In in Hf as (Hij & Hp). apply Rltb_iff in Hp.
      destruct (EX i j Hij) as (H0 & a & b & Ea & FB). destruct (P i j a b H0 Ea FB) as (A & EA & HA & _).
      rewrite (EF _ _ _ EA) in *. exists a, b. auto 6.
    + intros (a & b & H0 & Ea & FB & HA & Hpos). destruct (P i j a b H0 Ea FB) as (A' & EA & HA' & HI).
      assert (A' = A) by apply (area_of_unique _ _ _ HA' HA). subst A'.
      exists (i, j). rewrite (EF _ _ _ EA). split; auto. apply filter_In. split; auto. rewrite (EF _ _ _ EA). now apply Rlt_bool_true.
Qed.

Theorem C25_intersect_boxes_conservative g vs faces fill nb cpl (t : tree2d (T:=R)) :
  mesh_ok vs faces fill -> convex_mesh vs faces fill ->
  CellTree2d_init g vs faces fill nb cpl = Ok t ->
  forall boxes, Forall proper_box boxes ->
  forall g' n rows, (1 <= n)%nat -> CellTree2d_intersect_boxes g' n t boxes = Ok rows ->
  forall i a, nth_error boxes i = Some a -> tiles vs faces fill (in_box a) ->
  sumR (map snd (rows_at (Z.of_nat i) rows)) = (xmax a - xmin a) * (ymax a - ymin a).
Proof.
  intros Hm Hc E boxes HB g' n rows Hn ER i a Ea HT.
  destruct (C25_intersect_boxes_exact _ _ _ _ _ _ _ Hm Hc E boxes HB) as (rows' & Hr & Hnd & Hin).
  rewrite (Hr g' n Hn) in ER. apply Ok_inj in ER. subst rows'.
  rewrite Forall_forall in HB. pose proof (HB a (nth_error_In _ _ Ea)) as Pa.
  apply (row_sum vs faces fill (in_box a)); auto.
  - left. exists (copy_box_vertices a). split; [now apply box_poly_convex|]. split; [intros p; now apply box_poly_hull|].
    symmetry. apply box_poly_area.
  - now apply rows_at_nodup.
  - intros j B. rewrite rows_at_in, Hin, Nat2Z.id. split.
    + intros (a' & b & _ & Ea' & Fb & HB'). rewrite Ea in Ea'. inversion Ea'; subst. eauto.
    + intros (b & Fb & HB'). exists a, b. split; [lia|]. auto.
Qed.

(** ** Examples: the grid tiles the rectangle [0,3] x [0,2] *)
Definition cell (j : Z) (p : pt) : Prop :=
  match j with
  | 0%Z => 0 < px p < 1 /\ 0 < py p < 1 | 1%Z => 1 < px p < 2 /\ 0 < py p < 1 | 2%Z => 2 < px p < 3 /\ 0 < py p < 1
  | 3%Z => 0 < px p < 1 /\ 1 < py p < 2 | 4%Z => 1 < px p < 2 /\ 1 < py p < 2
  | 5%Z => 2 < px p < 3 /\ 1 < py p < 2 /\ py p < px p - 1
  | _ => 2 < px p < 3 /\ 1 < py p < 2 /\ py p > px p - 1
  end.
Lemma grid_index (j : Z) b : face_poly (@grid R _) grid_faces (-1) j b ->
  (0 <= j <= 6)%Z.
Proof. intros H. apply face_range in H. unfold grid_faces, zlen in H. cbn in H. lia. Qed.
Lemma grid_cell j b p : face_poly (@grid R _) grid_faces (-1) j b -> open_hull b p -> cell j p.
Proof.
  intros H (ws & L & Hp & S & ->). pose proof (grid_index j b H) as Hj. destruct H as (f & _ & En & Hb).
  assert (C : (j = 0 \/ j = 1 \/ j = 2 \/ j = 3 \/ j = 4 \/ j = 5 \/ j = 6)%Z) by lia.
  repeat destruct C as [C|C]; subst j; cbn in En; inversion En; subst f; clear En; unfold poly_of in Hb; cbn in Hb; invert_poly;
    destruct ws as [|w0 [|w1 [|w2 [|w3 [|w4 ws]]]]]; try discriminate L;
    repeat match goal with H : Forall _ (_ :: _) |- _ => let h := fresh "P" in pose proof (Forall_inv H) as h; apply Forall_inv_tail in H; cbn beta in h end;
    cbn in S |- *; lra.
Qed.
Definition rect (p : pt) : Prop := 0 <= px p <= 3 /\ 0 <= py p <= 2.
Lemma grid_cover p : rect p -> exists j b, face_poly (@grid R _) grid_faces (-1) j b /\ hull b p.
Proof.
  intros ((X0 & X3) & (Y0 & Y2)).
  assert (G : forall j b b', face_poly (@grid R _) grid_faces (-1) j b -> (b' = b \/ b' = rev b) -> in_poly b' p -> convex_ccw b' -> 
    exists j b, face_poly (@grid R _) grid_faces (-1) j b /\ hull b p).
  { intros j b b' F Hs Hin Hc. exists j, b. split; auto. apply in_poly_hull in Hin; auto. now apply (hull_either b b' p Hs). }
  assert (F : forall j (fj : list Z) b, (0 <= j)%Z -> nth_error (map (with_fill (-1)) grid_faces) (Z.to_nat j) = Some fj -> poly_of (@grid R _) fj b ->
    face_poly (@grid R _) grid_faces (-1) j b) by (intros j fj b H1 H2 H3; exists fj; auto).
  Local Ltac use_face G F j f bl rv :=
    apply (G j bl (if rv then rev bl else bl));
      [apply (F j f); [lia|reflexivity|unfold poly_of; cbn; repeat constructor; lia]
      |cbn; auto
      |intros u v He; cbn in He; repeat destruct He as [He|He]; try contradiction; inversion He; subst u v; unfold orient; cbn; lra
      |cbn; convex_check].
  destruct (Rle_lt_dec (px p) 1) as [A|A]; [|destruct (Rle_lt_dec (px p) 2) as [B|B]]; destruct (Rle_lt_dec (py p) 1) as [C|C].
  - use_face G F 0%Z [0; 1; 5; 4]%Z [ptZ (0, 0); ptZ (1, 0); ptZ (1, 1); ptZ (0, 1)]%Z false.
  - use_face G F 3%Z [4; 5; 9; 8]%Z [ptZ (0, 1); ptZ (1, 1); ptZ (1, 2); ptZ (0, 2)]%Z false.
  - use_face G F 1%Z [1; 2; 6; 5]%Z [ptZ (1, 0); ptZ (2, 0); ptZ (2, 1); ptZ (1, 1)]%Z false.
  - use_face G F 4%Z [5; 6; 10; 9]%Z [ptZ (1, 1); ptZ (2, 1); ptZ (2, 2); ptZ (1, 2)]%Z false.
  - use_face G F 2%Z [2; 6; 7; 3]%Z [ptZ (2, 0); ptZ (2, 1); ptZ (3, 1); ptZ (3, 0)]%Z true.
  - destruct (Rle_lt_dec (py p) (px p - 1)) as [D|D].
    + use_face G F 5%Z [6; 7; 11; -1]%Z [ptZ (2, 1); ptZ (3, 1); ptZ (3, 2)]%Z false.
    + use_face G F 6%Z [6; 10; 11; -1]%Z [ptZ (2, 1); ptZ (2, 2); ptZ (3, 2)]%Z true.
Qed.
Lemma grid_tiles (S : pt -> Prop) : (forall p, S p -> rect p) -> tiles (@grid R _) grid_faces (-1) S.
Proof.
  intros HS. split; [|intros p Hp; apply grid_cover; auto].
  intros j j' b b' p F F' Hne (O & O'). pose proof (grid_index _ _ F) as Hj. pose proof (grid_index _ _ F') as Hj'.
  apply (grid_cell _ _ _ F) in O. apply (grid_cell _ _ _ F') in O'.
  assert (C : (j = 0 \/ j = 1 \/ j = 2 \/ j = 3 \/ j = 4 \/ j = 5 \/ j = 6)%Z) by lia.
  assert (C' : (j' = 0 \/ j' = 1 \/ j' = 2 \/ j' = 3 \/ j' = 4 \/ j' = 5 \/ j' = 6)%Z) by lia.
  clear Hj Hj' F F'.
  repeat destruct C as [C|C]; subst j; repeat destruct C' as [C'|C']; subst j'; try (destruct Hne; reflexivity); cbn in O, O'; lra.
Qed.

(** a box over parts of four squares and both triangles: the rows of the box
    add up to its area *)
Example C25_boxes_example : exists t rows, CellTree2d_init (T:=R) g0 grid grid_faces (-1) 4 2 = Ok t
  /\ CellTree2d_intersect_boxes g0 2 t [Box (1/2) (5/2) (1/2) (7/4)] = Ok rows
  /\ sumR (map snd (rows_at 0 rows)) = 5 / 2
  /\ In ((0, 0)%Z, 1 / 4) rows.
Proof.
  destruct C04_example as (t & E). exists t.
  assert (HB : Forall proper_box [Box (1/2) (5/2) (1/2) (7/4)]) by (repeat constructor; cbn; lra).
  destruct (C25_intersect_boxes_exact _ _ _ _ _ _ _ grid_mesh_R grid_convex E _ HB) as (rows & Hr & _ & Hi).
  exists rows. split; auto. split; [apply Hr; lia|]. split.
  - pose proof (C25_intersect_boxes_conservative _ _ _ _ _ _ _ grid_mesh_R grid_convex E _ HB g0 2%nat rows ltac:(lia) (Hr g0 2%nat ltac:(lia))
      O _ eq_refl) as H. cbn in H. change (Z.of_nat 0) with 0%Z in H. rewrite H; [lra|]. apply grid_tiles. intros p ((A & B) & (C & D)). cbn in *. unfold rect. lra.
  - apply Hi. exists (Box (1/2) (5/2) (1/2) (7/4)), [ptZ (0, 0); ptZ (1, 0); ptZ (1, 1); ptZ (0, 1)]%Z.
    split; [lia|]. split; [reflexivity|]. split; [|split; [|lra]].
    + exists [0; 1; 5; 4]%Z. split; [lia|]. split; [reflexivity|]. unfold poly_of; cbn; repeat constructor; lia.
    + left. exists (copy_box_vertices (Box (1/2) 1 (1/2) 1)).
      assert (P : proper_box (Box (1/2) 1 (1/2) 1)) by (split; cbn; lra).
      split; [now apply box_poly_convex|]. split; [|rewrite box_poly_area; cbn; lra].
      assert (Q : proper_box (Box 0 1 0 1)) by (split; cbn; lra).
      intros p. rewrite (box_poly_hull _ p P). change ([ptZ (0, 0); ptZ (1, 0); ptZ (1, 1); ptZ (0, 1)]%Z) with (copy_box_vertices (Box 0 1 0 1)).
      rewrite (box_poly_hull _ p Q). unfold in_box. cbn. lra.
Qed.

(** a triangle intersected with the grid: it receives its area *)
Example C25_faces_example : exists t rows, CellTree2d_init (T:=R) g0 grid grid_faces (-1) 4 2 = Ok t
  /\ CellTree2d_intersect_faces g0 2 t grid tri_query (-1) = Ok rows
  /\ sumR (map snd (rows_at 0 rows)) = 1 / 2.
Proof.
  destruct C04_example as (t & E). exists t.
  assert (HQ : faces_ok (@grid R _) (map (with_fill (-1)) tri_query)) by exact tri_ok.
  destruct (C25_intersect_faces_exact _ _ _ _ _ _ _ grid_mesh_R grid_convex grid_small E _ _ _ HQ tri_convex grid_small) as (rows & Hr & _ & _).
  exists rows. split; auto. split; [apply Hr; lia|].
  rewrite (C25_intersect_faces_conservative _ _ _ _ _ _ _ grid_mesh_R grid_convex grid_small E _ _ _ HQ tri_convex grid_small g0 2%nat rows ltac:(lia) (Hr g0 2%nat ltac:(lia))
      0%Z _ tri_a).
  - unfold shoelace. cbn. rewrite Rabs_pos_eq; lra.
  - apply grid_tiles. intros p (ws & L & Hp & S & ->).
    destruct ws as [|w0 [|w1 [|w2 [|w3 ws]]]]; try discriminate L.
    pose proof (Forall_inv Hp) as P0. apply Forall_inv_tail in Hp. pose proof (Forall_inv Hp) as P1. apply Forall_inv_tail in Hp. pose proof (Forall_inv Hp) as P2.
    cbn beta in *. cbn in S. unfold rect. cbn. lra.
Qed.

(** two squares overlapping in a unit square *)
Example C25_clip_example : polygon_polygon_clip_area g0 (copy_box_vertices (Box 0 2 0 2)) (copy_box_vertices (Box 1 3 1 3)) = Ok 1.
Proof.
  assert (P : proper_box (Box 0 2 0 2)) by (split; cbn; lra). assert (Q : proper_box (Box 1 3 1 3)) by (split; cbn; lra).
  assert (K : proper_box (Box 1 2 1 2)) by (split; cbn; lra).
  destruct (C25_clip_area_exact g0 _ _ (box_poly_convex _ P) (box_poly_convex _ Q)) as (A & E & HA); [cbn; lia|cbn; lia|].
  rewrite E. f_equal. apply (C25_area_unique _ _ _ HA). left. exists (copy_box_vertices (Box 1 2 1 2)).
  split; [now apply box_poly_convex|]. split; [|rewrite box_poly_area; cbn; lra].
  intros p. rewrite (box_poly_hull _ p P), (box_poly_hull _ p Q), (box_poly_hull _ p K). unfold in_box. cbn. lra.
Qed.

(** C40: the square listed clockwise *)
Example C40_example : polygon_area [ptZ (0, 0); ptZ (0, 2); ptZ (2, 2); ptZ (2, 0)]%Z = Ok 4.
Proof.
  assert (C : convex [ptZ (0, 0); ptZ (0, 2); ptZ (2, 2); ptZ (2, 0)]%Z) by (right; cbn [rev app]; convex_check).
  destruct (C40_polygon_area_convex _ C) as (-> & _). f_equal. unfold shoelace. cbn. rewrite Rabs_left; lra.
Qed.

(** C27: no clipping of convex polygons with at most 32 vertices overflows *)
Theorem C27_convex_never_overflows g a b : convex_ccw a -> convex_ccw b -> (length a <= 32)%nat -> (length b <= 32)%nat ->
  exists A, polygon_polygon_clip_area g a b = Ok A /\ 0 <= A.
Proof.
  intros Ha Hb La Lb. destruct (C25_clip_area_exact g a b Ha Hb La Lb) as (A & E & HA). exists A. split; auto.
  exact (area_of_nonneg _ _ HA).
Qed.
Example C27_example : exists A, polygon_polygon_clip_area g0 (copy_box_vertices (Box 0 2 0 2)) (copy_box_vertices (Box 1 3 1 3)) = Ok A /\ 0 <= A.
Proof. apply C27_convex_never_overflows; try (cbn; lia); apply box_poly_convex; split; cbn; lra. Qed.

Print Assumptions C40_polygon_area_convex.
Print Assumptions C40_polygon_area_nonneg.
Print Assumptions C25_clip_area_exact.
Print Assumptions C25_area_unique.
Print Assumptions C25_cut_additive.
Print Assumptions C25_tiling.
Print Assumptions C25_intersect_faces_exact.
Print Assumptions C25_intersect_faces_conservative.
Print Assumptions C25_intersect_boxes_exact.
Print Assumptions C25_intersect_boxes_conservative.
Print Assumptions C27_convex_never_overflows.
