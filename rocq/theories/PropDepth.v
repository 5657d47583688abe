(** Property theorems: depth of the tree and size of the stacks (C78). *)
From Verif Require Import RBase NumB64 MGeometry MCreation MAlgorithms MQuery MCelltree SpecTree SpecQuery SpecApi SpecGeom SpecPoly SpecMesh SpecOcc SpecSplit SpecDepth
  PBuild PBuild2 PMesh PInit PPoints PTreeFacts PApi POcc PSplit GSplit GBuild GConvex PDepth
  Examples PropEdges PropPoints PropClipLine PropArea PropPieces PropOcc PropSplit.
Open Scope Z_scope.

Section Depth.
  Context {T : Type} {NT : Num T} {NO : NumOrd T}.

  Lemma built_pt g vs faces fill nb cpl (t : tree2d (T:=T)) :
    mesh_ok vs faces fill -> CellTree2d_init g vs faces fill nb cpl = Ok t ->
    valid_tree (celltree_data t) /\ proper_tree (nodes (celltree_data t)) (zlen faces).
  Proof.
    intros Hm E. pose proof (init_built _ _ _ _ _ _ _ Hm E) as Hb. pose proof (built_valid _ _ _ _ _ Hb) as Hv. split; auto.
    pose proof (valid_proper _ Hv) as Hp. unfold zlen in *. now rewrite (bt_len _ _ _ _ _ Hb) in Hp.
  Qed.
  Lemma built_edges_pt g vs edges nb cpl (t : tree2d (T:=T)) :
    network_ok vs edges -> EdgeCellTree2d_init g vs edges nb cpl = Ok t ->
    valid_tree (celltree_data t) /\ proper_tree (nodes (celltree_data t)) (zlen edges).
  Proof.
    intros Hm E. pose proof (init_built_edges _ _ _ _ _ _ Hm E) as Hb. pose proof (built_edges_valid _ _ _ _ Hb) as Hv. split; auto.
    pose proof (valid_proper _ Hv) as Hp. pose proof (vt_elements _ Hv) as Hl. rewrite (be_elements _ _ _ _ Hb) in Hl.
    unfold zlen in *. now rewrite <- Hl in Hp.
  Qed.

  (** No deeper than the number of elements allows; and leaves of at most [k]
      elements need a certain depth (constants.py:137-142) *)
  Theorem C78_depth g vs faces fill nb cpl (t : tree2d (T:=T)) :
    mesh_ok vs faces fill -> CellTree2d_init g vs faces fill nb cpl = Ok t ->
    let nds := nodes (celltree_data t) in
    (forall i d, at_depth nds i d -> 0 <= i < zlen nds /\ 0 <= d <= Z.max 0 (zlen faces - cpl))
    /\ (forall k D, 0 <= k -> (forall nd, In nd nds -> nchild nd = -1 -> nsize nd <= k) -> depth_at_most nds D ->
          zlen faces <= k * 2 ^ D).
  Proof.
    intros Hm E nds. destruct (built_pt _ _ _ _ _ _ _ Hm E) as (Hv & Hp). fold nds in Hp. split.
    - intros i d Hd. destruct (depth_size _ _ Hp _ _ Hd) as (H1 & H2 & _). split; auto.
      split; auto. destruct (Z.eq_dec d 0) as [->|Hne]; [lia|].
      pose proof (depth_divided _ _ Hp _ _ cpl Hd ltac:(lia)) as H. assert (d <= zlen faces - cpl); [|lia]. apply H.
      intros nd Hin Hc. now destruct (proj2 (C66_occupancy _ _ _ _ _ _ _ Hm E nd Hin) Hc).
    - intros k D Hk Hl HD. destruct (vt_tree _ Hv) as (S & HT & _).
      pose proof (capacity _ _ _ k Hk Hl _ _ _ _ HT 0 D (at_root _) HD) as H.
      pose proof (init_built _ _ _ _ _ _ _ Hm E) as Hb. unfold zlen in *. rewrite (bt_len _ _ _ _ _ Hb) in H.
      rewrite !Z.sub_0_r in H. exact H.
  Qed.

  Theorem C78_network_depth g vs edges nb cpl (t : tree2d (T:=T)) :
    network_ok vs edges -> EdgeCellTree2d_init g vs edges nb cpl = Ok t ->
    let nds := nodes (celltree_data t) in
    forall i d, at_depth nds i d -> 0 <= i < zlen nds /\ 0 <= d <= Z.max 0 (zlen edges - cpl).
  Proof.
    intros Hm E nds. destruct (built_edges_pt _ _ _ _ _ _ Hm E) as (Hv & Hp). fold nds in Hp.
    intros i d Hd. destruct (depth_size _ _ Hp _ _ Hd) as (H1 & H2 & _). split; auto.
    split; auto. destruct (Z.eq_dec d 0) as [->|Hne]; [lia|].
    pose proof (depth_divided _ _ Hp _ _ cpl Hd ltac:(lia)) as H. assert (d <= zlen edges - cpl); [|lia]. apply H.
    intros nd Hin Hc. now destruct (proj2 (C66_network_occupancy _ _ _ _ _ _ Hm E nd Hin) Hc).
  Qed.

  (** Up to depth 31 no traversal outgrows its 32 entries *)
  Definition no_stack_grows (g : garbage T) (tree : celltree T) : Prop :=
    (forall test p st, traverse g tree (point_visit tree test p) st = traverse_fixed g tree (point_visit tree test p) st)
    /\ (forall R hit bx (st : collect R),
          traverse g tree (collect_visit tree hit (box_children bx)) st
          = traverse_fixed g tree (collect_visit tree hit (box_children bx)) st)
    /\ (forall R hit a b (st : collect R),
          traverse g tree (collect_visit tree hit (edge_children a b)) st
          = traverse_fixed g tree (collect_visit tree hit (edge_children a b)) st)
    /\ (1 < zlen (nodes tree) -> collect_node_bounds g tree = collect_node_bounds_fixed g tree)
    /\ (forall nb st, traverse g tree (validate_visit tree nb) st = traverse_fixed g tree (validate_visit tree nb) st).

  Lemma shallow_no_growth g (tree : celltree T) n :
    proper_tree (nodes tree) n -> depth_at_most (nodes tree) 31 -> no_stack_grows g tree.
  Proof.
    intros Hp HD. assert (Hn : forall i d, at_depth (nodes tree) i d -> 0 <= i) by (intros i d H; apply (depth_size _ _ Hp) in H; lia).
    split; [|split; [|split; [|split]]].
    - intros. apply traverse_no_growth; auto. apply point_visit_pushes.
    - intros. apply traverse_no_growth; auto. apply collect_visit_pushes. apply box_children_in.
    - intros. apply traverse_no_growth; auto. apply collect_visit_pushes. apply edge_children_in.
    - intros H. destruct (root_children _ _ Hp H). apply bounds_no_growth; auto.
    - intros. apply traverse_no_growth; auto. apply validate_visit_pushes.
  Qed.

  Theorem C78_stack g g' vs faces fill nb cpl (t : tree2d (T:=T)) :
    mesh_ok vs faces fill -> CellTree2d_init g vs faces fill nb cpl = Ok t ->
    depth_at_most (nodes (celltree_data t)) 31 -> no_stack_grows g' (celltree_data t).
  Proof. intros Hm E. destruct (built_pt _ _ _ _ _ _ _ Hm E) as (_ & Hp). now apply shallow_no_growth with (zlen faces). Qed.
  Theorem C78_network_stack g g' vs edges nb cpl (t : tree2d (T:=T)) :
    network_ok vs edges -> EdgeCellTree2d_init g vs edges nb cpl = Ok t ->
    depth_at_most (nodes (celltree_data t)) 31 -> no_stack_grows g' (celltree_data t).
  Proof. intros Hm E. destruct (built_edges_pt _ _ _ _ _ _ Hm E) as (_ & Hp). now apply shallow_no_growth with (zlen edges). Qed.
End Depth.

(** ** As deep as that: a row of rectangles, each [nb] times as wide as the next *)
Open Scope R_scope.

Definition colx (nb N k : Z) : R := - IZR (nb ^ (N - k)).
Definition strip (nb : Z) (n : nat) : list pt :=
  map (fun k => Pt (colx nb (Z.of_nat n) k) 0) (iota (S n)) ++ map (fun k => Pt (colx nb (Z.of_nat n) k) 1) (iota (S n)).
Definition strip_faces (n : nat) : list (list Z) :=
  map (fun k => [k; k + 1; Z.of_nat n + 1 + (k + 1); Z.of_nat n + 1 + k]%Z) (iota n).
Definition strip_poly (nb : Z) (n : nat) (k : Z) : list pt :=
  let x := colx nb (Z.of_nat n) in [Pt (x k) 0; Pt (x (k + 1)%Z) 0; Pt (x (k + 1)%Z) 1; Pt (x k) 1].

Lemma strip_length nb n : length (strip nb n) = (2 * S n)%nat.
Proof. unfold strip. rewrite app_length, !map_length, iota_length. lia. Qed.

Lemma strip_low nb n k : (0 <= k <= Z.of_nat n)%Z -> nth_error (strip nb n) (Z.to_nat k) = Some (Pt (colx nb (Z.of_nat n) k) 0).
Proof.
  intros H. unfold strip. rewrite nth_error_app1 by (rewrite map_length, iota_length; lia).
  rewrite nth_error_map, iota_nth by lia. cbn [option_map]. now rewrite Z2Nat.id by lia.
Qed.
Lemma strip_high nb n k : (0 <= k <= Z.of_nat n)%Z ->
  nth_error (strip nb n) (Z.to_nat (Z.of_nat n + 1 + k)) = Some (Pt (colx nb (Z.of_nat n) k) 1).
Proof.
  intros H. unfold strip. rewrite nth_error_app2 by (rewrite map_length, iota_length; lia). rewrite map_length, iota_length.
  replace (Z.to_nat (Z.of_nat n + 1 + k) - S n)%nat with (Z.to_nat k) by lia.
  rewrite nth_error_map, iota_nth by lia. cbn [option_map]. now rewrite Z2Nat.id by lia.
Qed.

Lemma strip_fill n : map (with_fill (-1)) (strip_faces n) = strip_faces n.
Proof.
  rewrite <- (map_id (strip_faces n)) at 2. apply map_ext. intros f. unfold with_fill. rewrite <- (map_id f) at 2.
  apply map_ext. intros i. destruct (Z.eqb_spec i (-1)); auto.
Qed.

Lemma strip_row n f : In f (strip_faces n) ->
  exists k, (0 <= k < Z.of_nat n)%Z /\ f = [k; k + 1; Z.of_nat n + 1 + (k + 1); Z.of_nat n + 1 + k]%Z /\ until_fill f = f.
Proof.
  intros H. apply in_map_iff in H as (k & <- & Hk). apply iota_in in Hk. exists k. split; auto. split; auto.
  cbn [until_fill]. destruct (Z.eqb_spec k (-1)); [lia|]. destruct (Z.eqb_spec (k + 1) (-1)); [lia|].
  destruct (Z.eqb_spec (Z.of_nat n + 1 + (k + 1)) (-1)); [lia|]. destruct (Z.eqb_spec (Z.of_nat n + 1 + k) (-1)); [lia|]. reflexivity.
Qed.

Lemma strip_poly_of nb n f poly : In f (strip_faces n) -> poly_of (strip nb n) f poly ->
  exists k, (0 <= k < Z.of_nat n)%Z /\ f = [k; k + 1; Z.of_nat n + 1 + (k + 1); Z.of_nat n + 1 + k]%Z /\ poly = strip_poly nb n k.
Proof.
  intros Hf Hp. destruct (strip_row n f Hf) as (k & Hk & -> & Hu). exists k. split; auto. split; auto.
  unfold poly_of in Hp. rewrite Hu in Hp.
  inversion Hp as [|? p1 ? l1 (_ & E1) Hp1]; subst. inversion Hp1 as [|? p2 ? l2 (_ & E2) Hp2]; subst.
  inversion Hp2 as [|? p3 ? l3 (_ & E3) Hp3]; subst. inversion Hp3 as [|? p4 ? l4 (_ & E4) Hp4]; subst. inversion Hp4; subst.
  rewrite strip_low in E1, E2 by lia. rewrite strip_high in E3, E4 by lia. unfold strip_poly. congruence.
Qed.

Lemma strip_face nb n j poly : face_poly (strip nb n) (strip_faces n) (-1) j poly -> (0 <= j < Z.of_nat n)%Z /\ poly = strip_poly nb n j.
Proof.
  intros (f & Hj & En & Hp). rewrite strip_fill in En.
  destruct (strip_poly_of nb n f poly (nth_error_In _ _ En) Hp) as (k & Hk & -> & ->).
  unfold strip_faces in En. rewrite nth_error_map in En.
  assert (Hlt : (Z.to_nat j < n)%nat).
  { destruct (Nat.lt_ge_cases (Z.to_nat j) n) as [|Hge]; auto. rewrite (proj2 (nth_error_None (iota n) _)) in En; [discriminate|]. rewrite iota_length. lia. }
  rewrite iota_nth in En by auto. cbn [option_map] in En. inversion En as [E]. rewrite Z2Nat.id in * by lia. subst. split; auto.
Qed.

(** columns increase; the last is at -1 *)
Lemma colx_step nb N k : (2 <= nb)%Z -> (0 <= k < N)%Z ->
  exists P, 1 <= P /\ colx nb N (k + 1) = - P /\ colx nb N k = - (IZR nb * P).
Proof.
  intros Hnb Hk. exists (IZR (nb ^ (N - (k + 1)))). split; [|split; [reflexivity|]].
  - apply IZR_le. pose proof (Z.pow_pos_nonneg nb (N - (k + 1))). lia.
  - unfold colx. rewrite <- mult_IZR, <- Z.pow_succ_r by lia. do 3 f_equal. lia.
Qed.
Lemma colx_le nb N k j : (2 <= nb)%Z -> (0 <= k <= j)%Z -> (j <= N)%Z -> colx nb N k <= colx nb N j.
Proof.
  intros Hnb Hk Hj. unfold colx. apply Ropp_le_contravar, IZR_le. apply Z.pow_le_mono_r; lia.
Qed.
Lemma colx_lt nb N k j : (2 <= nb)%Z -> (0 <= k < j)%Z -> (j <= N)%Z -> colx nb N k < colx nb N j.
Proof.
  intros Hnb Hk Hj. unfold colx. apply Ropp_lt_contravar, IZR_lt. apply Z.pow_lt_mono_r; lia.
Qed.
Lemma colx_last nb N k : (2 <= nb)%Z -> (0 <= k <= N)%Z -> colx nb N k <= -1.
Proof.
  intros Hnb Hk. unfold colx. assert (IZR 1 <= IZR (nb ^ (N - k))); [|lra]. apply IZR_le. pose proof (Z.pow_pos_nonneg nb (N - k)). lia.
Qed.

Lemma strip_convex nb n k : (2 <= nb)%Z -> (0 <= k < Z.of_nat n)%Z -> convex_ccw (strip_poly nb n k).
Proof.
  intros Hnb Hk. pose proof (colx_lt nb (Z.of_nat n) k (k + 1) Hnb ltac:(lia) ltac:(lia)) as H. unfold strip_poly. cbv zeta.
  set (x0 := colx _ _ k) in *. set (x1 := colx _ _ (k + 1)) in *. clearbody x0 x1. clear - H.
  split; [cbn; lia|]. split.
  - repeat (constructor; [cbn [In]; intros HI; repeat destruct HI as [HI|HI]; try exact HI;
      first [apply (f_equal px) in HI; cbn in HI; lra|apply (f_equal py) in HI; cbn in HI; lra]|]). constructor.
  - intros u v w He Hw N1 N2. cbn in He, Hw.
    destruct He as [He|[He|[He|[He|[]]]]]; inversion He; subst u v; clear He;
    destruct Hw as [<-|[<-|[<-|[<-|[]]]]]; try congruence; unfold orient; cbn; nra.
Qed.

Lemma strip_mesh nb n : (2 <= nb)%Z -> (1 <= n)%nat -> IZR (nb ^ Z.of_nat n) < FMAX -> mesh_ok (T:=R) (strip nb n) (strip_faces n) (-1).
Proof.
  intros Hnb Hn Hbig. pose proof FMAX_big as HF.
  assert (Hc : forall k, In k (iota (S n)) -> - FMAX < colx nb (Z.of_nat n) k <= -1).
  { intros k Hk. apply iota_in in Hk. split; [|apply colx_last; lia].
    unfold colx. assert (IZR (nb ^ (Z.of_nat n - k)) <= IZR (nb ^ Z.of_nat n)); [|lra]. apply IZR_le, Z.pow_le_mono_r; lia. }
  constructor.
  - apply Forall_forall. intros p Hp. unfold strip in Hp. apply in_app_or in Hp as [Hp|Hp];
      apply in_map_iff in Hp as (k & <- & Hk); specialize (Hc k Hk); split; cbn [fin NumOrdR px py]; lra.
  - unfold strip_faces. destruct n; [lia|]. discriminate.
  - rewrite strip_fill. apply Forall_forall. intros f Hf. destruct (strip_row n f Hf) as (k & Hk & -> & Hu).
    unfold wf_face. rewrite Hu, strip_length. split; [cbn; lia|]. split; [cbn; lia|]. split; [|constructor].
    repeat constructor; lia.
Qed.

Lemma strip_box nb n k b : (2 <= nb)%Z -> (0 <= k < Z.of_nat n)%Z -> tight_box (strip_poly nb n k) b ->
  b = Box (colx nb (Z.of_nat n) k) (colx nb (Z.of_nat n) (k + 1)) 0 1.
Proof.
  intros Hnb Hk (H & Hx0 & Hx1 & Hy0 & Hy1). pose proof (colx_lt nb (Z.of_nat n) k (k + 1) Hnb ltac:(lia) ltac:(lia)) as Hl.
  unfold strip_poly in *. cbv zeta in *. set (x0 := colx _ _ k) in *. set (x1 := colx _ _ (k + 1)) in *. clearbody x0 x1.
  rewrite Forall_forall in H.
  assert (Ha : in_closed_box (Pt x0 0) b) by (apply H; cbn; tauto). assert (Hc : in_closed_box (Pt x1 1) b) by (apply H; cbn; tauto).
  destruct Ha as (A1 & A2 & A3 & A4), Hc as (C1 & C2 & C3 & C4). apply leb_le in A1, A2, A3, A4, C1, C2, C3, C4.
  apply Exists_exists in Hx0 as (p0 & I0 & E0). apply Exists_exists in Hx1 as (p1 & I1 & E1).
  apply Exists_exists in Hy0 as (q0 & J0 & F0). apply Exists_exists in Hy1 as (q1 & J1 & F1).
  assert (Hp : forall p, In p [Pt x0 0; Pt x1 0; Pt x1 1; Pt x0 1] -> (x0 <= px p <= x1) /\ (0 <= py p <= 1)).
  { intros p Hp. cbn in Hp. destruct Hp as [<-|[<-|[<-|[<-|[]]]]]; cbn [px py]; lra. }
  apply Hp in I0, I1, J0, J1. destruct b as [a0 a1 b0 b1]; cbn [xmin xmax ymin ymax px py] in *; f_equal; lra.
Qed.
Lemma strip_separate nb n : (2 <= nb)%Z -> separate_faces (strip nb n) (strip_faces n) (-1).
Proof.
  intros Hnb.
  assert (X : forall i j p, (0 <= i < Z.of_nat n)%Z -> (0 <= j < Z.of_nat n)%Z -> (i < j)%Z ->
    inside_box p (Box (colx nb (Z.of_nat n) i) (colx nb (Z.of_nat n) (i + 1)) 0 1) ->
    inside_box p (Box (colx nb (Z.of_nat n) j) (colx nb (Z.of_nat n) (j + 1)) 0 1) -> False).
  { intros i j p Hi Hj Hlt (H1 & _) (H2 & _). cbn [xmin xmax] in *.
    pose proof (colx_le nb (Z.of_nat n) (i + 1) j Hnb ltac:(lia) ltac:(lia)). lra. }
  split.
  - intros j poly b Hp Hb. apply strip_face in Hp as (Hj & ->). apply strip_box in Hb as ->; auto. cbn [xmin xmax ymin ymax].
    pose proof (colx_lt nb (Z.of_nat n) j (j + 1) Hnb ltac:(lia) ltac:(lia)). lra.
  - intros i j poly poly' b b' p Hne Hp Hp' Hb Hb' (H1 & H2). apply strip_face in Hp as (Hi & ->). apply strip_face in Hp' as (Hj & ->).
    apply strip_box in Hb as ->; auto. apply strip_box in Hb' as ->; auto.
    destruct (Z.lt_trichotomy i j) as [H|[H|H]]; [eapply X; [| | |exact H1|exact H2]; auto|contradiction|eapply X; [| | |exact H2|exact H1]; auto].
Qed.

(** with the left end at column [b] all centres of later rectangles are in the
    last of the [nb] parts *)
Lemma strip_part nb N b e lo hi len i c : (2 <= nb)%Z -> (0 <= b < e)%Z -> (e < N)%Z ->
  lo = colx nb N b -> hi <= -1 -> ndiv (nsub hi lo) (nofZ nb) = Ok len ->
  c = colx nb N e + / 2 * (colx nb N (e + 1) - colx nb N e) -> part_is (T:=R) nb lo len i c -> (nb - 1 <= i)%Z.
Proof.
  intros Hnb Hbe HeN Hlo Hhi Hlen Hc Hp. apply part_bounds in Hp as (Hi & _ & Hp).
  destruct (Z.le_gt_cases (nb - 1) i) as [|Hgt]; auto. exfalso.
  assert (Hn : 2 <= IZR nb) by (apply IZR_le; lia).
  unfold ndiv in Hlen. change (neqb (nofZ nb) (nofZ 0)) with (Req_bool (IZR nb) 0) in Hlen.
  rewrite Req_bool_false in Hlen by lra. inversion Hlen as [Hl]. clear Hlen. change (ndivraw (nsub hi lo) (nofZ nb)) with ((hi - lo) / IZR nb) in Hl.
  assert (Hlb : len * IZR nb = hi - lo) by (rewrite <- Hl; field; lra).
  destruct (colx_step nb N e Hnb ltac:(lia)) as (P & HP & E1 & E2). rewrite E1, E2 in Hc.
  destruct (colx_step nb N b Hnb ltac:(lia)) as (Q & HQ & F1 & F2). rewrite F2 in Hlo.
  pose proof (colx_le nb N (b + 1) e Hnb ltac:(lia) ltac:(lia)) as Hle. rewrite F1, E2 in Hle.
  assert (Hi1 : IZR (i + 1) <= IZR nb - 1) by (rewrite <- minus_IZR; apply IZR_le; lia).
  destruct (Rle_or_lt len 0) as [Hneg|Hpos].
  - (* no extent: c < lo *)
    assert (IZR (i + 1) * len <= 0). { assert (0 <= IZR (i + 1)) by (apply IZR_le; lia). nra. }
    nra.
  - assert (Hc2 : c < (IZR nb - 1) * len + lo) by nra.
    assert (Hc3 : (IZR nb - 1) * len + lo = hi - len) by lra.
    assert (len * IZR nb = hi + IZR nb * Q) by lra.
    assert (Hq : IZR nb * (hi - len) <= - IZR nb * Q) by nra.
    assert (hi - len <= - Q) by (apply Rmult_le_reg_l with (IZR nb); lra).
    nra.
Qed.

Theorem C78_depth_attained nb cpl n : (2 <= nb)%Z -> (1 <= cpl < Z.of_nat n)%Z -> IZR (nb ^ Z.of_nat n) < FMAX ->
  mesh_ok (T:=R) (strip nb n) (strip_faces n) (-1) /\ convex_mesh (strip nb n) (strip_faces n) (-1)
  /\ separate_faces (strip nb n) (strip_faces n) (-1)
  /\ exists t i, CellTree2d_init (T:=R) g0 (strip nb n) (strip_faces n) (-1) nb cpl = Ok t
       /\ at_depth (nodes (celltree_data t)) i (Z.of_nat n - cpl)%Z.
Proof.
  intros Hnb Hcpl Hbig. pose proof (strip_mesh nb n Hnb ltac:(lia) Hbig) as Hm. split; auto. split.
  { intros j poly Hp. apply strip_face in Hp as (Hj & ->). left. now apply strip_convex. }
  pose proof (strip_separate nb n Hnb) as Hsep. split; auto.
  assert (Hlen : zlen (strip_faces n) = Z.of_nat n) by (unfold zlen, strip_faces; now rewrite map_length, iota_length).
  destruct (C04_nondegenerate_succeeds g0 (strip nb n) (strip_faces n) (-1) nb cpl Hm) as (t & E); try lia.
  { rewrite Hlen. eapply Rle_lt_trans; [|exact Hbig]. apply IZR_le.
    replace (nb ^ Z.of_nat n)%Z with (nb * nb ^ (Z.of_nat n - 1))%Z by (rewrite <- Z.pow_succ_r by lia; f_equal; lia).
    pose proof (Z.pow_gt_lin_r nb (Z.of_nat n - 1)). nia. }
  { rewrite strip_fill. apply Forall_forall. intros f Hf poly Hp. destruct (strip_poly_of nb n f poly Hf Hp) as (k & Hk & _ & ->).
    pose proof (colx_lt nb (Z.of_nat n) k (k + 1) Hnb ltac:(lia) ltac:(lia)). unfold strip_poly. cbv zeta.
    split; eexists; eexists; (split; [left; reflexivity|]); (split; [right; right; left; reflexivity|]); cbn [px py]; lra. }
  exists t.
  pose proof (init_built _ _ _ _ _ _ _ Hm E) as Hb. pose proof (built_valid _ _ _ _ _ Hb) as Hv.
  pose proof (bt_len _ _ _ _ _ Hb) as Hl. assert (Hln : zlen (bb_coords (celltree_data t)) = Z.of_nat n) by (unfold zlen in *; lia).
  assert (Hbox : forall e bx, aget (bb_coords (celltree_data t)) e = Ok bx -> (0 <= e < Z.of_nat n)%Z ->
            bx = Box (colx nb (Z.of_nat n) e) (colx nb (Z.of_nat n) (e + 1)) 0 1).
  { intros e bx Eb He. destruct (aget_ok_pos (bb_coords (celltree_data t)) e) as (b' & E1 & E2); [lia|].
    assert (b' = bx) by congruence. subst b'.
    destruct (tree_boxes _ _ _ _ _ _ _ Hm E _ _ E2) as (poly & Hp & Ht). rewrite Z2Nat.id in Hp by lia.
    apply strip_face in Hp as (_ & ->). apply strip_box in Ht; auto; lia. }
  pose proof (vt_perm _ Hv) as Hperm. destruct (vt_tree _ Hv) as (S & HT & HS).
  assert (Hnd : NoDup (bb_indices (celltree_data t))) by (eapply Permutation_NoDup; [symmetry; exact Hperm|apply iota_nodup]).
  assert (Hbl : zlen (bb_indices (celltree_data t)) = Z.of_nat n).
  { unfold zlen in *. rewrite (Permutation_length Hperm), iota_length. exact Hln. }
  assert (Hinj : forall i j e, (0 <= i < Z.of_nat n)%Z -> (0 <= j < Z.of_nat n)%Z ->
            aget (bb_indices (celltree_data t)) i = Ok e -> aget (bb_indices (celltree_data t)) j = Ok e -> i = j).
  { intros i j e Hi Hj Ei Ej. apply aget_pos_inv in Ei; [|lia]. apply aget_pos_inv in Ej; [|lia].
    rewrite NoDup_nth_error in Hnd. specialize (Hnd (Z.to_nat i) (Z.to_nat j)).
    assert (Z.to_nat i < length (bb_indices (celltree_data t)))%nat by (unfold zlen in Hbl; lia).
    specialize (Hnd H ltac:(congruence)). lia. }
  assert (Hrange : forall i e, aget (bb_indices (celltree_data t)) i = Ok e -> (0 <= e < Z.of_nat n)%Z).
  { intros k e Ek. apply aget_in in Ek. eapply Permutation_in in Ek; [|exact Hperm]. apply iota_in in Ek. unfold zlen in Hln. lia. }
  assert (Hpath : forall m a idx lo hi S d, TreeAt (nodes (celltree_data t)) (bb_coords (celltree_data t)) (bb_indices (celltree_data t)) idx lo hi S ->
            at_depth (nodes (celltree_data t)) idx d -> m = Z.to_nat (hi - lo) -> (0 <= a)%Z ->
            (0 <= lo)%Z -> (hi <= Z.of_nat n)%Z -> (cpl <= hi - lo)%Z ->
            (forall i e, (lo <= i < hi)%Z -> aget (bb_indices (celltree_data t)) i = Ok e -> (a <= e)%Z) ->
            exists i, at_depth (nodes (celltree_data t)) i (d + (hi - lo - cpl))%Z).
  { clear S HT HS. induction m as [|m IH]; intros a idx lo hi S d HT Hd Hmm Ha Hlo0 Hhin Hge Hel.
    { pose proof (TreeAt_root _ _ _ _ _ _ _ HT). lia. }
    destruct (Z.eq_dec (hi - lo) cpl) as [Hq|Hne].
    { exists idx. replace (d + (hi - lo - cpl))%Z with d by lia. exact Hd. }
    inversion HT as [? ? ? nd H0 En Hc Hptr Hsz Hlt|? ? mid ? nd c S1 S2 H0 En Hc Hlt Hptr Hsz _ _ _ _ HT1 HT2]; subst idx0 lo0 hi0.
    { pose proof (C66_separate_faces _ _ _ _ _ _ _ Hm E Hsep nd (aget_in _ _ _ En) Hc). lia. }
    assert (Hch : forall c', c' = c \/ c' = (c + 1)%Z -> at_depth (nodes (celltree_data t)) c' (d + 1)%Z).
    { intros c' Hc'. apply at_child with idx; auto. split; auto. exists nd. split; [now apply aget_pos_inv|]. subst c. split; [lia|auto]. }
    destruct (C77_divided _ _ _ _ _ _ _ Hm E nd (aget_in _ _ _ En) ltac:(lia)) as (r & Er & Hdiv).
    assert (Hmid : nptr r = mid).
    { destruct (TreeAt_covers _ _ _ _ _ _ _ HT2) as (Hr0 & r' & Er' & Hr' & _). rewrite Hc in Er. apply aget_pos_inv in Er; [|lia]. congruence. }
    rewrite Hmid in Hdiv. unfold node_divided in Hdiv. cbv zeta in Hdiv. rewrite Hptr, Hsz in Hdiv.
    replace (lo + (hi - lo))%Z with hi in Hdiv by lia. destruct Hdiv as (Hmb & [(Hc1 & Hs2)|Hdiv]).
    { exists c. replace (d + (hi - lo - cpl))%Z with (d + 1)%Z by lia. apply Hch. auto. }
    destruct Hdiv as (l & h & len & cut & (X1 & X2 & X3 & X4) & Hlen' & Hcut & HL & HR & _ & _).
    destruct (ndim nd) eqn:Edim.
    - (* all centres are at the same height *)
      exfalso.
      destruct (aget_ok_pos (bb_indices (celltree_data t)) lo) as (e1 & Ee1 & _); [lia|].
      destruct (aget_ok_pos (bb_indices (celltree_data t)) mid) as (e2 & Ee2 & _); [lia|].
      pose proof (Hrange _ _ Ee1) as R1. pose proof (Hrange _ _ Ee2) as R2.
      destruct (aget_ok_pos (bb_coords (celltree_data t)) e1) as (b1 & Eb1 & _); [lia|].
      destruct (aget_ok_pos (bb_coords (celltree_data t)) e2) as (b2 & Eb2 & _); [lia|].
      destruct (HL lo e1 b1 ltac:(lia) Ee1 Eb1) as (i & Hi & Pi). destruct (HR mid e2 b2 ltac:(lia) Ee2 Eb2) as (j & Hj & Pj).
      assert (Hsame : centre true b1 = centre true b2).
      { rewrite (Hbox _ _ Eb1 R1), (Hbox _ _ Eb2 R2). reflexivity. }
      rewrite Hsame in Pi. destruct Pi as (Bi & Ti & Mi), Pj as (Bj & Tj & Mj).
      specialize (Mj i ltac:(lia)). congruence.
    - (* the widest rectangle is on its own *)
      destruct X2 as (kb & eb & bb & Hkb & Ekb & Ebb & Hbl'). apply leb_le in Hbl'. cbn [side_lo] in *.
      pose proof (Hrange _ _ Ekb) as Rb. rewrite (Hbox _ _ Ebb Rb) in Hbl'. cbn [xmin] in Hbl'.
      assert (Hlw : l = colx nb (Z.of_nat n) eb).
      { pose proof (leb_le _ _ (X1 _ _ _ Hkb Ekb Ebb)) as Y. rewrite (Hbox _ _ Ebb Rb) in Y. cbn [side_lo xmin] in Y. lra. }
      assert (Hh1 : h <= -1).
      { destruct X4 as (kh & eh & bh & Hkh & Ekh & Ebh & Y). apply leb_le in Y. rewrite (Hbox _ _ Ebh (Hrange _ _ Ekh)) in Y. cbn [side_hi xmax] in Y.
        pose proof (Hrange _ _ Ekh). pose proof (colx_last nb (Z.of_nat n) (eh + 1) Hnb ltac:(lia)). lra. }
      assert (Hmin : forall k e, (lo <= k < hi)%Z -> aget (bb_indices (celltree_data t)) k = Ok e -> (eb <= e)%Z).
      { intros k e Hk Ek. pose proof (Hrange _ _ Ek) as Re. destruct (aget_ok_pos (bb_coords (celltree_data t)) e) as (bx & Ebx & _); [lia|].
        pose proof (leb_le _ _ (X1 _ _ _ Hk Ek Ebx)) as Y. rewrite (Hbox _ _ Ebx Re) in Y. cbn [side_lo xmin] in Y.
        destruct (Z.le_gt_cases eb e) as [|Hgt]; auto. pose proof (colx_lt nb (Z.of_nat n) e eb Hnb ltac:(lia) ltac:(lia)). lra. }
      assert (Hleft : forall k e, (lo <= k < mid)%Z -> aget (bb_indices (celltree_data t)) k = Ok e -> e = eb).
      { intros k e Hk Ek. pose proof (Hmin k e ltac:(lia) Ek). pose proof (Hrange _ _ Ek) as Re.
        destruct (Z.eq_dec e eb) as [|Hneq]; auto. exfalso.
        destruct (aget_ok_pos (bb_coords (celltree_data t)) e) as (bx & Ebx & _); [lia|].
        destruct (HL k e bx Hk Ek Ebx) as (i & Hi & Pi). rewrite (Hbox _ _ Ebx Re) in Pi.
        assert (Z := strip_part nb (Z.of_nat n) eb e l h len i _ Hnb ltac:(lia) ltac:(lia) Hlw Hh1 Hlen' eq_refl Pi). lia. }
      assert (Hone : mid = (lo + 1)%Z).
      { destruct (Z.eq_dec mid (lo + 1)) as [|Hneq]; auto. exfalso.
        destruct (aget_ok_pos (bb_indices (celltree_data t)) lo) as (e1 & Ee1 & _); [lia|].
        destruct (aget_ok_pos (bb_indices (celltree_data t)) (lo + 1)) as (e2 & Ee2 & _); [lia|].
        pose proof (Hleft lo e1 ltac:(lia) Ee1). pose proof (Hleft (lo + 1)%Z e2 ltac:(lia) Ee2). subst e1 e2.
        pose proof (Hinj lo (lo + 1)%Z eb ltac:(lia) ltac:(lia) Ee1 Ee2). lia. }
      rewrite Hone in *.
      destruct (IH (eb + 1)%Z (c + 1)%Z (lo + 1)%Z hi S2 (d + 1)%Z HT2 (Hch (c + 1)%Z ltac:(auto)) ltac:(lia) ltac:(lia) ltac:(lia) ltac:(lia) ltac:(lia)) as (i & Hi).
      { intros k e Hk Ek. pose proof (Hmin k e ltac:(lia) Ek). destruct (Z.eq_dec e eb) as [->|]; [|lia].
        destruct (aget_ok_pos (bb_indices (celltree_data t)) lo) as (e1 & Ee1 & _); [lia|]. pose proof (Hleft lo e1 ltac:(lia) Ee1). subst e1.
        pose proof (Hinj k lo eb ltac:(lia) ltac:(lia) Ek Ee1). lia. }
      exists i. replace (d + (hi - lo - cpl))%Z with (d + 1 + (hi - (lo + 1) - cpl))%Z by lia. exact Hi. }
  rewrite Hln in HT.
  destruct (Hpath (Z.to_nat (Z.of_nat n - 0)) 0%Z 0%Z 0%Z (Z.of_nat n) S 0%Z HT (at_root _) eq_refl ltac:(lia) ltac:(lia) ltac:(lia) ltac:(lia)) as (i & Hi).
  { intros k e _ Ek. pose proof (Hrange _ _ Ek). lia. }
  exists i. split; auto. replace (Z.of_nat n - cpl)%Z with (0 + (Z.of_nat n - 0 - cpl))%Z by lia. exact Hi.
Qed.

(** ** Thirty-two entries do not hold 33 rectangles (constants.py:137-143 has 2e9,
    "only true for relatively balanced trees"): the stack has to grow *)
Open Scope Z_scope.
Definition strip64 (n : nat) : list (point b64) :=
  map (fun k => ptZ (- 2 ^ (Z.of_nat n - k), 0)) (iota (S n)) ++ map (fun k => ptZ (- 2 ^ (Z.of_nat n - k), 1)) (iota (S n)).
Definition whole_box : box b64 := Box (Zb (- 2 ^ 33)) (Zb 0) (Zb 0) (Zb 1).
Definition whole_fixed (t : tree2d (T:=b64)) : option err :=
  match traverse_fixed g0 (celltree_data t)
          (collect_visit (celltree_data t) (box_hit (celltree_data t) whole_box 0) (box_children whole_box))
          (Collect (np_empty (gZZ g0) 256) 0 0) with Ok _ => None | Err e => Some e end.
Lemma strip64_mesh : mesh_ok (T:=b64) (strip64 33) (strip_faces 33) (-1).
Proof.
  constructor.
  - repeat constructor.
  - discriminate.
  - rewrite strip_fill. apply Forall_forall. intros f Hf. destruct (strip_row 33 f Hf) as (k & Hk & -> & Hu).
    unfold wf_face. rewrite Hu. change (length (strip64 33)) with 68%nat. split; [cbn; lia|]. split; [cbn; lia|]. split; [|constructor].
    repeat constructor; lia.
Qed.

Theorem C78_fixed_stack_refuted : exists vs faces (t : tree2d (T:=b64)) bx,
  mesh_ok vs faces (-1) /\ zlen faces = 33 /\ CellTree2d_init g0 vs faces (-1) 2 1 = Ok t
  /\ (forall nd, In nd (nodes (celltree_data t)) -> nchild nd = -1 -> nsize nd = 1)
  /\ (exists ij, CellTree2d_locate_boxes g0 1 t [bx] = Ok ij /\ Permutation ij (map (fun j => (0, j)) (iota 33)))
  /\ traverse_fixed g0 (celltree_data t)
       (collect_visit (celltree_data t) (box_hit (celltree_data t) bx 0) (box_children bx))
       (Collect (np_empty (gZZ g0) 256) 0 0) = Err EIndex
  /\ ~ depth_at_most (nodes (celltree_data t)) 31.
Proof.
  destruct (CellTree2d_init (T:=b64) g0 (strip64 33) (strip_faces 33) (-1) 2 1) as [t|e] eqn:E.
  2:{ exfalso. assert (S : of_ok (CellTree2d_init (T:=b64) g0 (strip64 33) (strip_faces 33) (-1) 2 1) (fun _ => tt) = Some tt) by (vm_compute; reflexivity).
      rewrite E in S. discriminate. }
  assert (S1 : forallb (fun nd => negb (nchild nd =? -1) || (nsize nd =? 1)) (nodes (celltree_data t)) = true)
    by (apply (of_ok_some _ (fun t => forallb (fun nd => negb (nchild nd =? -1) || (nsize nd =? 1)) (nodes (celltree_data t))) _ _ E); vm_compute; reflexivity).
  assert (S2 : CellTree2d_locate_boxes (T:=b64) g0 1 t [whole_box] = Ok (rev (map (fun j => (0, j)) (iota 33))))
    by (apply (of_ok_some _ (fun t => CellTree2d_locate_boxes (T:=b64) g0 1 t [whole_box]) _ _ E); vm_compute; reflexivity).
  assert (S3 : whole_fixed t = Some EIndex) by (apply (of_ok_some _ _ _ _ E); vm_compute; reflexivity).
  assert (S4 : traverse_fixed g0 (celltree_data t)
       (collect_visit (celltree_data t) (box_hit (celltree_data t) whole_box 0) (box_children whole_box))
       (Collect (np_empty (gZZ g0) 256) 0 0) = Err EIndex).
  { unfold whole_fixed in S3. destruct (traverse_fixed _ _ _ _) as [r|e] in *; [discriminate S3|]. now injection S3 as ->. }
  assert (S5 : isOk (traverse g0 (celltree_data t)
       (collect_visit (celltree_data t) (box_hit (celltree_data t) whole_box 0) (box_children whole_box))
       (Collect (np_empty (gZZ g0) 256) 0 0)) = true)
    by (apply (of_ok_some _ (fun t => isOk (traverse g0 (celltree_data t)
       (collect_visit (celltree_data t) (box_hit (celltree_data t) whole_box 0) (box_children whole_box))
       (Collect (np_empty (gZZ g0) 256) 0 0))) _ _ E); vm_compute; reflexivity).
  exists (strip64 33), (strip_faces 33), t, whole_box.
  split; [exact strip64_mesh|]. split; [reflexivity|]. split; [exact E|]. split.
  { intros nd Hin Hc. rewrite forallb_forall in S1. specialize (S1 nd Hin). rewrite Hc, Z.eqb_refl in S1. cbn [negb orb] in S1. now apply Z.eqb_eq in S1. }
  split; [eexists; split; [exact S2|symmetry; apply Permutation_rev]|]. split; [exact S4|].
  intros HD. destruct (C78_stack g0 g0 _ _ _ _ _ _ strip64_mesh E HD) as (_ & H & _).
  specialize (H _ (box_hit (celltree_data t) whole_box 0) whole_box (Collect (np_empty (gZZ g0) 256) 0 0)).
  rewrite S4 in H. rewrite H in S5. discriminate S5.
Qed.

(** ** Examples *)
(** binary64: the grid has 7 faces, so its tree is no deeper than 5 *)
Example C78_example : exists t,
  mesh_ok (T:=b64) grid grid_faces (-1) /\ CellTree2d_init (T:=b64) g0 grid grid_faces (-1) 4 2 = Ok t
  /\ depth_at_most (nodes (celltree_data t)) 31 /\ at_depth (nodes (celltree_data t)) 1 1.
Proof.
  destruct C66_example as (_ & t & _ & Hm & _ & _ & E & S). cbn [shape] in S.
  exists t. split; [exact Hm|]. split; [exact E|]. split.
  - intros i d Hd. apply (proj1 (C78_depth _ _ _ _ _ _ _ Hm E)) in Hd. change (zlen grid_faces) with 7 in Hd. lia.
  - destruct (nodes (celltree_data t)) as [|nd rest] eqn:En; [discriminate S|]. cbn [map] in S. injection S as S1 S2 _.
    apply (at_child _ 0 1 0); [constructor|]. split; [lia|]. exists nd. split; [reflexivity|]. split; [lia|]. left. lia.
Qed.
(** exact reals: a row of 40 rectangles, each four times as wide as the next *)
Example C78_depth_attained_example : (2 <= 4)%Z /\ (1 <= 2 < Z.of_nat 40)%Z /\ (IZR (4 ^ Z.of_nat 40) < FMAX)%R.
Proof.
  split; [lia|]. split; [lia|]. unfold FMAX. apply IZR_lt, Z.ltb_lt. vm_compute. reflexivity.
Qed.

Print Assumptions C78_depth.
Print Assumptions C78_network_depth.
Print Assumptions C78_stack.
Print Assumptions C78_network_stack.
Print Assumptions C78_depth_attained.
Print Assumptions C78_fixed_stack_refuted.
