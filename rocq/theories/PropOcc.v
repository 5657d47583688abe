(** Property theorems: how full the leaves are (C66). *)
From Verif Require Import RBase NumB64 MGeometry MCreation MAlgorithms MQuery MCelltree SpecTree SpecQuery SpecApi SpecGeom SpecPoly SpecMesh SpecOcc
  PBuild PBuild2 PMesh PInit PPoints PTreeFacts PApi POcc GBuild GConvex GHull GFaces
  Examples PropEdges PropPoints PropClipLine PropArea PropPieces.
Open Scope Z_scope.

(** ** C66: leaves *)
Section Occupancy.
  Context {T : Type} {NT : Num T} {NO : NumOrd T}.

  Theorem C66_occupancy g vs faces fill nb cpl (t : tree2d (T:=T)) :
    mesh_ok vs faces fill -> CellTree2d_init g vs faces fill nb cpl = Ok t ->
    forall nd, In nd (nodes (celltree_data t)) ->
      node_full nb cpl (bb_coords (celltree_data t)) (bb_indices (celltree_data t)) nd.
  Proof.
    intros Hm E. pose proof (init_built _ _ _ _ _ _ _ Hm E) as Hb. pose proof (built_valid _ _ _ _ _ Hb) as Hv.
    pose proof (vt_nonempty _ Hv) as Hn. pose proof (vt_finite _ Hv) as Hf. pose proof (vt_elements _ Hv) as Hl.
    unfold CellTree2d_init in E. apply bind_ok in E as (u & Ec & E). apply check_params_ok in Ec as (Hnb & Hcpl).
    apply bind_ok in E as (fs0 & _ & E). apply bind_ok in E as (fs & _ & E). apply bind_ok in E as (bbs & _ & E).
    apply bind_ok in E as ((nds, bbi) & Ei & E). apply bind_ok in E as (bb & _ & E). inversion E; subst t. clear E.
    cbn [celltree_data nodes bb_coords bb_indices elements] in *.
    apply (initialize_occ bbs Hf g nb cpl ltac:(lia) Hcpl (length fs) (build_fuel (length fs)) nds bbi); try lia; auto.
    - unfold zlen. lia.
    - unfold build_fuel. lia.
  Qed.

  Theorem C66_network_occupancy g vs edges nb cpl (t : tree2d (T:=T)) :
    network_ok vs edges -> EdgeCellTree2d_init g vs edges nb cpl = Ok t ->
    forall nd, In nd (nodes (celltree_data t)) ->
      node_full nb cpl (bb_coords (celltree_data t)) (bb_indices (celltree_data t)) nd.
  Proof.
    intros Hm E. pose proof (init_built_edges _ _ _ _ _ _ Hm E) as Hb. pose proof (built_edges_valid _ _ _ _ Hb) as Hv.
    pose proof (vt_nonempty _ Hv) as Hn. pose proof (vt_finite _ Hv) as Hf. pose proof (vt_elements _ Hv) as Hl.
    unfold EdgeCellTree2d_init in E. apply bind_ok in E as (u & Ec & E). apply check_params_ok in Ec as (Hnb & Hcpl).
    do 4 apply bind_ok in E as (? & _ & E). apply bind_ok in E as (bbs & _ & E).
    apply bind_ok in E as ((nds, bbi) & Ei & E). apply bind_ok in E as (bb & _ & E). inversion E; subst t. clear E.
    cbn [celltree_data nodes bb_coords bb_indices elements] in *.
    apply (initialize_occ bbs Hf g nb cpl ltac:(lia) Hcpl (length edges) (build_fuel (length edges)) nds bbi); try lia; auto.
    - unfold zlen. lia.
    - unfold build_fuel. lia.
  Qed.
End Occupancy.

(** ** Exact reals: non-overlapping boxes are separated down to the requested number *)
Open Scope R_scope.

Definition inside_box (p : pt) (b : box R) : Prop := xmin b < px p < xmax b /\ ymin b < py p < ymax b.

Lemma part_bounds nb lo len i c : part_is (T:=R) nb lo len i c -> (0 <= i < nb)%Z /\ IZR i * len + lo <= c < IZR (i + 1) * len + lo.
Proof.
  intros (Hi & Hp & _). split; auto. unfold in_part in Hp. apply andb_prop in Hp as (H1 & H2). rsimp.
  revert H1 H2. case Rle_bool_spec; [|discriminate]. case Rlt_bool_spec; [|discriminate]. lra.
Qed.

Lemma leb_le (x y : R) : nleb x y = true -> x <= y.
Proof. cbn. case Rle_bool_spec; [auto|discriminate]. Qed.

(** all centres in one part: the box at the lower end reaches over all of them *)
Lemma one_part_reach nb bbc bbi a b d : (2 <= nb)%Z ->
  range_all (T:=R) bbc bbi a b (fun bx => side_lo d bx < side_hi d bx) ->
  in_one_part nb bbc bbi a b d ->
  range_ex bbc bbi a b (fun l => range_all bbc bbi a b (fun bx => side_lo d l < centre d bx < side_hi d l)).
Proof.
  intros Hnb Hpos (lo & hi & len & i & (H1 & (il & el & bl & Hil & Eil & Ebl & Hll) & H3 & (ir & er & br & Hir & Eir & Ebr & Hrr)) & Hlen & Hall).
  cbv beta in *. apply leb_le in Hll. apply leb_le in Hrr.
  pose proof (leb_le _ _ (H1 _ _ _ Hil Eil Ebl)) as Hl1. pose proof (leb_le _ _ (H3 _ _ _ Hil Eil Ebl)) as Hl2.
  pose proof (leb_le _ _ (H1 _ _ _ Hir Eir Ebr)) as Hr1. pose proof (Hpos _ _ _ Hil Eil Ebl) as Hp. cbv beta in Hp.
  destruct (part_bounds _ _ _ _ _ (Hall _ _ _ Hil Eil Ebl)) as (Hi & Hcl).
  destruct (part_bounds _ _ _ _ _ (Hall _ _ _ Hir Eir Ebr)) as (_ & Hcr).
  assert (Hn : 2 <= IZR nb) by (apply IZR_le; lia).
  unfold ndiv in Hlen. change (neqb (nofZ nb) (nofZ 0)) with (Req_bool (IZR nb) 0) in Hlen.
  rewrite Req_bool_false in Hlen by lra. inversion Hlen as [Hl]. clear Hlen. change (ndivraw (nsub hi lo) (nofZ nb)) with ((hi - lo) / IZR nb) in Hl.
  assert (Hlb : len * IZR nb = hi - lo) by (rewrite <- Hl; field; lra).
  assert (Hlp : 0 < len) by (apply Rmult_lt_reg_r with (IZR nb); lra).
  assert (Hl2' : 2 * len <= hi - lo) by (rewrite <- Hlb; nra).
  rewrite plus_IZR in Hcl, Hcr. change (centre d br) with (side_lo d br + / 2 * (side_hi d br - side_lo d br)) in Hcr.
  change (centre d bl) with (side_lo d bl + / 2 * (side_hi d bl - side_lo d bl)) in Hcl.
  assert (Hi1 : (1 <= i)%Z).
  { assert (Hne : i <> 0%Z); [|lia]. intros ->. lra. }
  apply IZR_le in Hi1.
  exists il, el, bl. split; auto. split; auto. split; auto.
  intros k e bx Hk Ek Eb. destruct (part_bounds _ _ _ _ _ (Hall _ _ _ Hk Ek Eb)) as (_ & Hc). rewrite plus_IZR in Hc.
  split; nra.
Qed.

(** boxes with a positive size that do not overlap *)
Definition separate (boxes : list (box R)) : Prop :=
  Forall (fun b => xmin b < xmax b /\ ymin b < ymax b) boxes
  /\ forall i j b b' p, i <> j -> nth_error boxes i = Some b -> nth_error boxes j = Some b' -> ~ (inside_box p b /\ inside_box p b').

Lemma separate_leaf nb bbc bbi n a b : separate bbc -> (2 <= nb)%Z -> Permutation bbi (iota n) -> (0 <= a)%Z -> (b <= zlen bbi)%Z ->
  (forall e, In e bbi -> (0 <= e < zlen bbc)%Z) -> (a + 2 <= b)%Z ->
  (forall d, in_one_part nb bbc bbi a b d) -> False.
Proof.
  intros (Hpos & Hsep) Hnb Hperm Ha Hb Hin Hab Hone.
  assert (Hp : forall d, range_all bbc bbi a b (fun bx => side_lo d bx < side_hi d bx)).
  { intros d i e bx _ _ Eb. assert (Hbx : In bx bbc) by (eapply aget_in; eauto).
    rewrite Forall_forall in Hpos. destruct (Hpos bx Hbx). destruct d; cbn; auto. }
  assert (Hc : forall d bx, In bx bbc -> side_lo d bx < centre d bx < side_hi d bx).
  { intros d bx Hbx. rewrite Forall_forall in Hpos. destruct (Hpos bx Hbx). unfold centre. destruct d; cbn; lra. }
  destruct (one_part_reach nb bbc bbi a b false Hnb (Hp false) (Hone false)) as (i1 & e1 & l1 & Hi1 & E1 & B1 & R1).
  destruct (one_part_reach nb bbc bbi a b true Hnb (Hp true) (Hone true)) as (i2 & e2 & l2 & Hi2 & E2 & B2 & R2).
  cbv beta in R1, R2.
  assert (Ov : forall e e' bx bx' p, In e bbi -> In e' bbi -> e <> e' -> aget bbc e = Ok bx -> aget bbc e' = Ok bx' ->
            inside_box p bx -> inside_box p bx' -> False).
  { intros e e' bx bx' p He He' Hne Eb Eb' Hp1 Hp2. pose proof (Hin _ He). pose proof (Hin _ He').
    apply (Hsep (Z.to_nat e) (Z.to_nat e') bx bx' p); [lia| | |auto].
    - destruct (aget_ok_pos bbc e) as (x & X1 & X2); [lia|]. congruence.
    - destruct (aget_ok_pos bbc e') as (x & X1 & X2); [lia|]. congruence. }
  assert (I1 : In e1 bbi) by (eapply aget_in; eauto). assert (I2 : In e2 bbi) by (eapply aget_in; eauto).
  assert (J1 : In l1 bbc) by (eapply aget_in; eauto). assert (J2 : In l2 bbc) by (eapply aget_in; eauto).
  destruct (Z.eq_dec e1 e2) as [->|Hne].
  - assert (l1 = l2) by congruence. subst l2.
    (* another element *)
    set (k := if (i1 =? a)%Z then (a + 1)%Z else a).
    assert (Hk : (a <= k < b)%Z /\ k <> i1) by (unfold k; destruct (Z.eqb_spec i1 a); lia).
    destruct (aget_ok_pos bbi k) as (e & Ek & Nk); [lia|].
    assert (Ie : In e bbi) by (eapply aget_in; eauto).
    destruct (aget_ok_pos bbc e (Hin _ Ie)) as (bx & Eb & _).
    assert (Hne : e <> e2).
    { intros ->. destruct (aget_ok_pos bbi i1) as (e' & Ei & Ni); [lia|]. assert (e' = e2) by congruence. subst e'.
      assert (Hnd : NoDup bbi) by (eapply Permutation_NoDup; [symmetry; exact Hperm|apply iota_nodup]).
      rewrite NoDup_nth_error in Hnd. specialize (Hnd (Z.to_nat k) (Z.to_nat i1)).
      assert (Z.to_nat k < length bbi)%nat by (unfold zlen in Hb; lia).
      specialize (Hnd H ltac:(congruence)). lia. }
    assert (Jb : In bx bbc) by (eapply aget_in; eauto).
    apply (Ov e e2 bx l1 (Pt (centre false bx) (centre true bx)) Ie I2 Hne Eb B2).
    + split; [exact (Hc false bx Jb)|exact (Hc true bx Jb)].
    + split; [exact (R1 _ _ _ (proj1 Hk) Ek Eb)|exact (R2 _ _ _ (proj1 Hk) Ek Eb)].
  - apply (Ov e1 e2 l1 l2 (Pt (centre false l2) (centre true l1)) I1 I2 Hne B1 B2).
    + split; [exact (R1 _ _ _ Hi2 E2 B2)|exact (Hc true l1 J1)].
    + split; [exact (Hc false l2 J2)|exact (R2 _ _ _ Hi1 E1 B1)].
Qed.

(** faces of which the surrounding boxes have a positive size and do not
    overlap, for example rectangles *)
Definition separate_faces (vs : list pt) (faces : list (list Z)) (fill : Z) : Prop :=
  (forall j poly b, face_poly vs faces fill j poly -> tight_box poly b -> xmin b < xmax b /\ ymin b < ymax b)
  /\ forall i j poly poly' b b' p, i <> j -> face_poly vs faces fill i poly -> face_poly vs faces fill j poly' ->
       tight_box poly b -> tight_box poly' b' -> ~ (inside_box p b /\ inside_box p b').

Lemma tight_rev (poly : list pt) b : tight_box (rev poly) b -> tight_box poly b.
Proof.
  intros (H1 & H2 & H3 & H4 & H5).
  assert (X : forall P : pt -> Prop, Exists P (rev poly) -> Exists P poly).
  { intros P H. apply Exists_exists in H as (p & Hp & HP). apply Exists_exists. exists p. split; auto. now apply in_rev. }
  split; [|auto]. rewrite Forall_forall in *. intros p Hp. apply H1. now apply in_rev in Hp.
Qed.

Lemma tree_boxes g vs faces fill nb cpl (t : tree2d (T:=R)) : mesh_ok vs faces fill -> CellTree2d_init g vs faces fill nb cpl = Ok t ->
  forall j b, nth_error (bb_coords (celltree_data t)) j = Some b ->
    exists poly, face_poly vs faces fill (Z.of_nat j) poly /\ tight_box poly b.
Proof.
  intros Hm E j b Hj. pose proof (init_built _ _ _ _ _ _ _ Hm E) as Hb.
  pose proof (mt_boxes _ (bt_mesh _ _ _ _ _ Hb)) as HB. rewrite (bt_vertices _ _ _ _ _ Hb) in HB.
  assert (Hlt : (j < length (elements (celltree_data t)))%nat).
  { rewrite (vt_elements _ (built_valid _ _ _ _ _ Hb)). apply nth_error_Some. congruence. }
  destruct (nth_error (elements (celltree_data t)) j) as [f'|] eqn:Ef; [|apply nth_error_None in Ef; lia].
  destruct (Forall2_nth _ _ _ _ _ _ HB Ef Hj) as (poly' & Hp' & Ht).
  pose proof (bt_elements _ _ _ _ _ Hb) as HS.
  assert (Hlt2 : (j < length (map (with_fill fill) faces))%nat) by (rewrite (F2_length _ _ _ HS); auto).
  destruct (nth_error (map (with_fill fill) faces) j) as [f|] eqn:Ef0; [|apply nth_error_None in Ef0; lia].
  pose proof (Forall2_nth _ _ _ _ _ _ HS Ef0 Ef) as Hsame.
  destruct (poly_of_same vs f f' poly' Hsame Hp') as (poly & Hp & Hr).
  exists poly. split; [exists f; rewrite Nat2Z.id; split; [lia|auto]|]. destruct Hr as [->| ->]; auto. now apply tight_rev.
Qed.

Theorem C66_separate_faces g vs faces fill nb cpl (t : tree2d (T:=R)) :
  mesh_ok vs faces fill -> CellTree2d_init g vs faces fill nb cpl = Ok t -> separate_faces vs faces fill ->
  forall nd, In nd (nodes (celltree_data t)) -> nchild nd = (-1)%Z -> (1 <= nsize nd <= cpl)%Z.
Proof.
  intros Hm E (Hs1 & Hs2) nd Hin Hleaf. pose proof (init_built _ _ _ _ _ _ _ Hm E) as Hb. pose proof (built_valid _ _ _ _ _ Hb) as Hv.
  assert (Hpar : (2 <= nb /\ 1 <= cpl)%Z).
  { unfold CellTree2d_init in E. apply bind_ok in E as (u & Ec & _). eapply check_params_ok; eauto. }
  pose proof (tree_boxes _ _ _ _ _ _ _ Hm E) as Hbox.
  assert (Hsep : separate (bb_coords (celltree_data t))).
  { split.
    - apply Forall_forall. intros b Hbb. apply In_nth_error in Hbb as (j & Hj). destruct (Hbox j b Hj) as (poly & Hp & Ht). eauto.
    - intros i j b b' p Hne Hi Hj. destruct (Hbox i b Hi) as (poly & Hp & Ht). destruct (Hbox j b' Hj) as (poly' & Hp' & Ht').
      eapply (Hs2 (Z.of_nat i) (Z.of_nat j)); eauto. lia. }
  pose proof (valid_proper _ Hv) as Hpt. apply In_nth_error in Hin as (i & Hi).
  assert (Hlt : (i < length (nodes (celltree_data t)))%nat) by (apply nth_error_Some; congruence).
  assert (Hrange : (0 <= nptr nd /\ 1 <= nsize nd /\ nptr nd + nsize nd <= zlen (bb_coords (celltree_data t)))%Z).
  { destruct (pt_nodes _ _ Hpt (Z.of_nat i)) as [(_ & a & b & (_ & nd' & En & H1 & H2) & H3 & H4)|(c & a & m & b & _ & _ & _ & _ & (_ & nd' & En & H1 & H2) & _ & _ & H3 & H4 & H5)].
    { unfold zlen; lia. }
    all: rewrite Nat2Z.id in En; assert (nd' = nd) by congruence; subst nd'; lia. }
  split; [lia|]. destruct (proj1 (C66_occupancy _ _ _ _ _ _ _ Hm E nd (nth_error_In _ _ Hi)) Hleaf) as [H|Hone]; auto.
  destruct (Z.le_gt_cases (nsize nd) cpl) as [|Hgt]; auto. exfalso.
  pose proof (vt_perm _ Hv) as Hperm.
  refine (separate_leaf nb _ _ _ (nptr nd) (nptr nd + nsize nd) Hsep _ Hperm _ _ _ _ Hone); try lia.
  - unfold zlen. rewrite (Permutation_length Hperm), iota_length. unfold zlen in Hrange. lia.
  - intros e He. eapply Permutation_in in He; [|exact Hperm]. apply iota_in in He. unfold zlen. lia.
Qed.

(** ** Overlapping boxes: triangles with a common corner *)
Definition fan_base (n k : Z) : pt := Pt (IZR k / (2 * IZR n)) 0.
Definition fan (n : nat) : list pt := map (fan_base (Z.of_nat n)) (iota (S n)) ++ [Pt 1 1].
Definition fan_faces (n : nat) : list (list Z) := map (fun k => [k; k + 1; Z.of_nat n + 1]%Z) (iota n).
Definition fan_poly (n : nat) (k : Z) : list pt := [fan_base (Z.of_nat n) k; fan_base (Z.of_nat n) (k + 1); Pt 1 1].

Lemma fan_length n : length (fan n) = (n + 2)%nat.
Proof. unfold fan. rewrite app_length, map_length, iota_length. cbn. lia. Qed.

Lemma fan_nth n k : (0 <= k <= Z.of_nat n)%Z -> nth_error (fan n) (Z.to_nat k) = Some (fan_base (Z.of_nat n) k).
Proof.
  intros H. unfold fan. rewrite nth_error_app1 by (rewrite map_length, iota_length; lia).
  rewrite nth_error_map, iota_nth by lia. cbn. now rewrite Z2Nat.id by lia.
Qed.
Lemma fan_apex n : nth_error (fan n) (Z.to_nat (Z.of_nat n + 1)) = Some (Pt 1 1).
Proof.
  unfold fan. rewrite nth_error_app2 by (rewrite map_length, iota_length; lia). rewrite map_length, iota_length.
  replace (Z.to_nat (Z.of_nat n + 1) - S n)%nat with O by lia. reflexivity.
Qed.

Lemma fan_fill n : map (with_fill (-1)) (fan_faces n) = fan_faces n.
Proof.
  rewrite <- (map_id (fan_faces n)) at 2. apply map_ext. intros f. unfold with_fill. rewrite <- (map_id f) at 2.
  apply map_ext. intros i. destruct (Z.eqb_spec i (-1)); auto.
Qed.

Lemma fan_row n f : In f (fan_faces n) -> exists k, (0 <= k < Z.of_nat n)%Z /\ f = [k; k + 1; Z.of_nat n + 1]%Z /\ until_fill f = f.
Proof.
  intros H. apply in_map_iff in H as (k & <- & Hk). apply iota_in in Hk. exists k. split; auto. split; auto.
  cbn. destruct (Z.eqb_spec k (-1)); [lia|]. destruct (Z.eqb_spec (k + 1) (-1)); [lia|].
  destruct (Z.eqb_spec (Z.of_nat n + 1) (-1)); [lia|]. reflexivity.
Qed.

Lemma fan_poly_of n f poly : In f (fan_faces n) -> poly_of (fan n) f poly ->
  exists k, (0 <= k < Z.of_nat n)%Z /\ f = [k; k + 1; Z.of_nat n + 1]%Z /\ poly = fan_poly n k.
Proof.
  intros Hf Hp. destruct (fan_row n f Hf) as (k & Hk & -> & Hu). exists k. split; auto. split; auto.
  unfold poly_of in Hp. rewrite Hu in Hp.
  inversion Hp as [|? p1 ? l1 (_ & E1) Hp1]; subst. inversion Hp1 as [|? p2 ? l2 (_ & E2) Hp2]; subst.
  inversion Hp2 as [|? p3 ? l3 (_ & E3) Hp3]; subst. inversion Hp3; subst.
  rewrite fan_nth in E1, E2 by lia. rewrite fan_apex in E3. unfold fan_poly. congruence.
Qed.

Lemma fan_face n j poly : face_poly (fan n) (fan_faces n) (-1) j poly -> (0 <= j < Z.of_nat n)%Z /\ poly = fan_poly n j.
Proof.
  intros (f & Hj & En & Hp). rewrite fan_fill in En.
  destruct (fan_poly_of n f poly (nth_error_In _ _ En) Hp) as (k & Hk & -> & ->).
  unfold fan_faces in En. rewrite nth_error_map in En.
  assert (Hlt : (Z.to_nat j < n)%nat).
  { destruct (Nat.lt_ge_cases (Z.to_nat j) n) as [|Hge]; auto. rewrite (proj2 (nth_error_None (iota n) _)) in En; [discriminate|]. rewrite iota_length. lia. }
  rewrite iota_nth in En by auto. cbn in En. inversion En as [E]. rewrite Z2Nat.id in * by lia. subst. split; auto.
Qed.

Lemma fan_x n k : (0 < Z.of_nat n)%Z -> (0 <= k <= Z.of_nat n)%Z -> 0 <= px (fan_base (Z.of_nat n) k) <= 1/2
  /\ ((k < Z.of_nat n)%Z -> px (fan_base (Z.of_nat n) k) < 1/2).
Proof.
  intros Hn Hk. cbn [fan_base px]. apply IZR_lt in Hn. set (N := IZR (Z.of_nat n)) in *.
  assert (HN : 0 < 2 * N) by lra.
  assert (H1 : 0 <= IZR k) by (apply IZR_le; lia). assert (H2 : IZR k <= N) by (apply IZR_le; lia).
  repeat split.
  - apply Rmult_le_reg_r with (2 * N); auto. replace (IZR k / (2 * N) * (2 * N)) with (IZR k) by (field; lra). lra.
  - apply Rmult_le_reg_r with (2 * N); auto. replace (IZR k / (2 * N) * (2 * N)) with (IZR k) by (field; lra). lra.
  - intros Hlt. apply IZR_lt in Hlt. fold N in Hlt. apply Rmult_lt_reg_r with (2 * N); auto.
    replace (IZR k / (2 * N) * (2 * N)) with (IZR k) by (field; lra). lra.
Qed.
Lemma fan_step n k j : (0 < Z.of_nat n)%Z -> (k < j)%Z -> px (fan_base (Z.of_nat n) k) < px (fan_base (Z.of_nat n) j).
Proof.
  intros Hn H. cbn [fan_base px]. apply IZR_lt in Hn, H. unfold Rdiv. apply Rmult_lt_compat_r; auto. apply Rinv_0_lt_compat. lra.
Qed.

Lemma fan_convex n k : (0 < Z.of_nat n)%Z -> (0 <= k < Z.of_nat n)%Z -> convex_ccw (fan_poly n k).
Proof.
  intros Hn Hk. pose proof (fan_x n k Hn ltac:(lia)) as (H1 & _). pose proof (fan_x n (k + 1) Hn ltac:(lia)) as (H2 & _).
  pose proof (fan_step n k (k + 1) Hn ltac:(lia)) as H3. unfold fan_poly, fan_base in *. cbn [px] in *.
  set (x0 := IZR k / (2 * IZR (Z.of_nat n))) in *. set (x1 := IZR (k + 1) / (2 * IZR (Z.of_nat n))) in *. clearbody x0 x1. clear - H1 H2 H3.
  split; [cbn; lia|]. split.
  - constructor; [|constructor; [|constructor; [cbn; tauto|constructor]]].
    + intros [H|[H|[]]]; apply (f_equal px) in H; cbn in H; lra.
    + intros [H|[]]. apply (f_equal px) in H; cbn in H; lra.
  - intros u v w He Hw N1 N2. cbn in He, Hw.
    destruct He as [He|[He|[He|[]]]]; inversion He; subst u v; clear He;
    destruct Hw as [<-|[<-|[<-|[]]]]; try congruence; unfold orient; cbn; nra.
Qed.

Lemma fan_mesh n : (1 <= n)%nat -> mesh_ok (T:=R) (fan n) (fan_faces n) (-1).
Proof.
  intros Hn. pose proof FMAX_big as HF. constructor.
  - apply Forall_forall. intros p Hp. unfold fan in Hp. apply in_app_or in Hp as [Hp|[<-|[]]].
    + apply in_map_iff in Hp as (k & <- & Hk). apply iota_in in Hk. pose proof (fan_x n k ltac:(lia) ltac:(lia)) as (H & _).
      split; cbn [fin NumOrdR]; [lra|cbn [fan_base py]; lra].
    + split; cbn; lra.
  - unfold fan_faces. destruct n; [lia|]. discriminate.
  - rewrite fan_fill. apply Forall_forall. intros f Hf. destruct (fan_row n f Hf) as (k & Hk & -> & Hu).
    unfold wf_face. rewrite Hu, fan_length. cbn. split; [lia|]. split; [lia|]. split; [|constructor].
    repeat constructor; lia.
Qed.

Lemma fan_disjoint n : (1 <= n)%nat -> disjoint_faces (fan n) (fan_faces n) (-1).
Proof.
  intros Hn.
  assert (X : forall j j' p, (0 <= j < Z.of_nat n)%Z -> (0 <= j' < Z.of_nat n)%Z -> (j < j')%Z ->
            open_hull (fan_poly n j) p -> open_hull (fan_poly n j') p -> False).
  { intros j j' p Hj Hj' Hlt H1 H2. apply interior_open_hull in H1; [|apply fan_convex; lia]. apply interior_open_hull in H2; [|apply fan_convex; lia].
    pose proof (H1 (fan_base (Z.of_nat n) (j + 1)) (Pt 1 1) ltac:(cbn; tauto)) as A.
    pose proof (H2 (Pt 1 1) (fan_base (Z.of_nat n) j') ltac:(cbn; tauto)) as B.
    pose proof (H1 (Pt 1 1) (fan_base (Z.of_nat n) j) ltac:(cbn; tauto)) as C.
    assert (Hle : px (fan_base (Z.of_nat n) (j + 1)) <= px (fan_base (Z.of_nat n) j')).
    { destruct (Z.eq_dec (j + 1) j') as [->|Hne]; [lra|]. pose proof (fan_step n (j + 1) j' ltac:(lia) ltac:(lia)). lra. }
    pose proof (fan_step n j (j + 1) ltac:(lia) ltac:(lia)) as Hs.
    unfold fan_base in *. cbn [px] in *. unfold orient in *. cbn [px py] in *.
    set (x0 := IZR j / (2 * IZR (Z.of_nat n))) in *.
    set (x1 := IZR (j + 1) / (2 * IZR (Z.of_nat n))) in *. set (x2 := IZR j' / (2 * IZR (Z.of_nat n))) in *. clearbody x0 x1 x2.
    assert (0 < 1 - py p) by nra. nra. }
  intros j j' b b' p H1 H2 Hne (P1 & P2). apply fan_face in H1 as (Hj & ->). apply fan_face in H2 as (Hj' & ->).
  destruct (Z.lt_trichotomy j j') as [H|[H|H]]; [eapply X; [| | |exact P1|exact P2]; auto|contradiction|eapply X; [| | |exact P2|exact P1]; auto].
Qed.

Lemma fan_box n k b : (0 < Z.of_nat n)%Z -> (0 <= k < Z.of_nat n)%Z -> tight_box (fan_poly n k) b ->
  b = Box (px (fan_base (Z.of_nat n) k)) 1 0 1.
Proof.
  intros Hn Hk (H & Hx0 & Hx1 & Hy0 & Hy1).
  pose proof (fan_x n k Hn ltac:(lia)) as (H1 & _). pose proof (fan_x n (k + 1) Hn ltac:(lia)) as (H2 & _).
  pose proof (fan_step n k (k + 1) Hn ltac:(lia)) as H3.
  unfold fan_poly in *. inversion H as [|? ? Ha Hr]; subst. inversion Hr as [|? ? Hb Hr2]; subst. inversion Hr2 as [|? ? Hc _]; subst.
  destruct Ha as (A1 & A2 & A3 & A4), Hb as (B1 & B2 & B3 & B4), Hc as (C1 & C2 & C3 & C4).
  apply leb_le in A1, A2, A3, A4, B1, B2, B3, B4, C1, C2, C3, C4.
  unfold fan_base in *. cbn [px py] in *.
  set (x0 := IZR k / (2 * IZR (Z.of_nat n))) in *. set (x1 := IZR (k + 1) / (2 * IZR (Z.of_nat n))) in *. clearbody x0 x1.
  repeat match goal with H : Exists _ (_ :: _) |- _ => inversion H; clear H; subst end;
  repeat match goal with H : Exists _ (_ :: _) |- _ => inversion H; clear H; subst end;
  repeat match goal with H : Exists _ (_ :: _) |- _ => inversion H; clear H; subst end;
  repeat match goal with H : Exists _ [] |- _ => inversion H end; cbn [px py] in *;
  destruct b as [a0 a1 b0 b1]; cbn [xmin xmax ymin ymax] in *; f_equal; lra.
Qed.

(** an extent from 0 to 1 in four parts and a centre in [1/2, 3/4) *)
Lemma third_part lo hi len i c : lo = 0 -> hi = 1 -> ndiv (nsub hi lo) (nofZ 4) = Ok len -> part_is (T:=R) 4 lo len i c ->
  1/2 <= c < 3/4 -> i = 2%Z.
Proof.
  intros -> -> Hl Hp Hc. unfold ndiv in Hl. change (neqb (nofZ 4) (nofZ 0)) with (Req_bool 4 0) in Hl.
  rewrite Req_bool_false in Hl by lra. inversion Hl as [Hl']. change (ndivraw (nsub 1 0) (nofZ 4)) with ((1 - 0) / 4) in Hl'.
  apply part_bounds in Hp as (Hi & Hp). rewrite plus_IZR in Hp.
  assert (i = 0 \/ i = 1 \/ i = 2 \/ i = 3)%Z as [-> | [-> | [-> | ->]]] by lia; auto; lra.
Qed.

(** Whatever the requested number (2 or more): one leaf with all faces *)
Theorem C66_leaf_size_refuted n cpl : (1 <= n)%nat -> (2 <= cpl)%Z -> IZR (4 * Z.of_nat n) < FMAX ->
  mesh_ok (T:=R) (fan n) (fan_faces n) (-1) /\ convex_mesh (fan n) (fan_faces n) (-1) /\ disjoint_faces (fan n) (fan_faces n) (-1)
  /\ exists t nd, CellTree2d_init (T:=R) g0 (fan n) (fan_faces n) (-1) 4 cpl = Ok t
       /\ nodes (celltree_data t) = [nd] /\ nchild nd = (-1)%Z /\ nsize nd = Z.of_nat n.
Proof.
  intros Hn Hcpl Hbig. pose proof (fan_mesh n Hn) as Hm. split; auto. split; [|split; [now apply fan_disjoint|]].
  { intros j poly Hp. apply fan_face in Hp as (Hj & ->). left. apply fan_convex; lia. }
  assert (Hlen : zlen (fan_faces n) = Z.of_nat n) by (unfold zlen, fan_faces; now rewrite map_length, iota_length).
  destruct (C04_nondegenerate_succeeds g0 (fan n) (fan_faces n) (-1) 4 cpl Hm) as (t & E); try lia.
  { rewrite Hlen. exact Hbig. }
  { rewrite fan_fill. apply Forall_forall. intros f Hf poly Hp. destruct (fan_poly_of n f poly Hf Hp) as (k & Hk & _ & ->).
    pose proof (fan_x n k ltac:(lia) ltac:(lia)) as (H1 & _). unfold fan_poly.
    split; exists (fan_base (Z.of_nat n) k), (Pt 1 1); split; [cbn; tauto| |cbn; tauto|]; (split; [cbn; tauto|]); [cbn [px] in *; lra|cbn; lra]. }
  exists t.
  pose proof (init_built _ _ _ _ _ _ _ Hm E) as Hb. pose proof (built_valid _ _ _ _ _ Hb) as Hv.
  assert (Hbox : forall e bx, aget (bb_coords (celltree_data t)) e = Ok bx -> (0 <= e < Z.of_nat n)%Z -> bx = Box (px (fan_base (Z.of_nat n) e)) 1 0 1).
  { intros e bx Eb He. assert (Hl : zlen (bb_coords (celltree_data t)) = Z.of_nat n) by (unfold zlen; rewrite (bt_len _ _ _ _ _ Hb); exact Hlen).
    destruct (aget_ok_pos (bb_coords (celltree_data t)) e) as (b' & E1 & E2); [lia|]. assert (b' = bx) by congruence. subst b'.
    destruct (tree_boxes _ _ _ _ _ _ _ Hm E _ _ E2) as (poly & Hp & Ht). rewrite Z2Nat.id in Hp by lia.
    apply fan_face in Hp as (_ & ->). apply fan_box in Ht; auto; lia. }
  pose proof (bt_len _ _ _ _ _ Hb) as Hl. assert (Hln : zlen (bb_coords (celltree_data t)) = Z.of_nat n) by (unfold zlen in *; lia).
  pose proof (vt_perm _ Hv) as Hperm. destruct (vt_tree _ Hv) as (S & HT & HS).
  assert (Hel : forall k e, aget (bb_indices (celltree_data t)) k = Ok e -> (0 <= e < Z.of_nat n)%Z).
  { intros k e Ek. apply aget_in in Ek. eapply Permutation_in in Ek; [|exact Hperm]. apply iota_in in Ek. unfold zlen in Hln. lia. }
  inversion HT as [? ? ? nd _ En Hc Hptr Hsz Hlt|? ? mid ? nd c S1 S2 _ En Hc Hlt Hptr Hsz _ _ _ _ _ _]; subst.
  - (* leaf *)
    exists nd. split; auto.
    assert (H1 : length (nodes (celltree_data t)) = 1%nat) by (apply Permutation_length in HS; rewrite iota_length in HS; cbn in HS; lia).
    destruct (nodes (celltree_data t)) as [|nd0 [|? ?]]; try discriminate. cbn in En. inversion En; subst. split; auto. split; auto. lia.
  - (* split *)
    exfalso. apply aget_in in En. pose proof (C66_occupancy _ _ _ _ _ _ _ Hm E nd En) as (_ & Hf).
    destruct Hf as (Hgt & [(Hx & _)|Htwo]); [lia|lia|]. rewrite Hptr, Hsz, Hln in Htwo. rewrite Z.sub_0_r, Z.add_0_l in Htwo.
    destruct Htwo as (lo & hi & len & i & j & (X1 & X2 & X3 & X4) & Hlen' & Hij & (ki & ei & bi & Hki & Eki & Ebi & Hi) & (kj & ej & bj & Hkj & Ekj & Ebj & Hj)).
    apply Hij.
    assert (In0 : In 0%Z (bb_indices (celltree_data t))).
    { eapply Permutation_in; [symmetry; exact Hperm|]. apply iota_in. unfold zlen in Hln. lia. }
    apply In_nth_error in In0 as (m & Em).
    assert (Hmlt : (m < n)%nat).
    { assert ((m < length (bb_indices (celltree_data t)))%nat) by (apply nth_error_Some; congruence).
      rewrite (Permutation_length Hperm), iota_length in H. unfold zlen in Hln. lia. }
    assert (Em' : aget (bb_indices (celltree_data t)) (Z.of_nat m) = Ok 0%Z) by (apply aget_pos; [lia|now rewrite Nat2Z.id]).
    destruct (aget_ok_pos (bb_coords (celltree_data t)) 0) as (b0 & Eb0 & _); [lia|].
    pose proof (Hbox _ _ Eb0 ltac:(lia)) as Hb0.
    assert (Hb00 : side_lo (ndim nd) b0 = 0).
    { rewrite Hb0. destruct (ndim nd); cbn; [reflexivity|]. unfold Rdiv. ring. }
    assert (Hlo : lo = 0).
    { pose proof (leb_le _ _ (X1 _ _ _ (conj (Nat2Z.is_nonneg m) (proj1 (Nat2Z.inj_lt m n) Hmlt)) Em' Eb0)) as Y1.
      destruct X2 as (k & e & bx & Hk & Ek & Eb & Y2). apply leb_le in Y2.
      pose proof (Hbox _ _ Eb (Hel _ _ Ek)) as Hbx. pose proof (fan_x n e ltac:(lia) ltac:(pose proof (Hel _ _ Ek); lia)) as (Y3 & _).
      assert (0 <= side_lo (ndim nd) bx) by (rewrite Hbx; destruct (ndim nd); cbn [side_lo ymin xmin]; lra). lra. }
    assert (Hhi : hi = 1).
    { destruct X4 as (k & e & bx & Hk & Ek & Eb & Y2). apply leb_le in Y2.
      pose proof (leb_le _ _ (X3 _ _ _ Hk Ek Eb)) as Y3.
      assert (Hs : side_hi (ndim nd) bx = 1) by (rewrite (Hbox _ _ Eb (Hel _ _ Ek)); destruct (ndim nd); reflexivity). lra. }
    assert (Hcen : forall e bx, aget (bb_coords (celltree_data t)) e = Ok bx -> (0 <= e < Z.of_nat n)%Z -> 1/2 <= centre (ndim nd) bx < 3/4).
    { intros e bx Eb He. rewrite (Hbox _ _ Eb He). pose proof (fan_x n e ltac:(lia) ltac:(lia)) as (Y1 & Y2). specialize (Y2 ltac:(lia)).
      unfold centre. destruct (ndim nd); cbn [side_lo side_hi xmin xmax ymin ymax]; [cbn; lra|].
      change (1/2 <= px (fan_base (Z.of_nat n) e) + / 2 * (1 - px (fan_base (Z.of_nat n) e)) < 3/4). lra. }
    rewrite (third_part lo hi len i _ Hlo Hhi Hlen' Hi (Hcen _ _ Ebi (Hel _ _ Eki))).
    rewrite (third_part lo hi len j _ Hlo Hhi Hlen' Hj (Hcen _ _ Ebj (Hel _ _ Ekj))). reflexivity.
Qed.

(** ** Examples *)
(** binary64, default parameters: six triangles with a common corner are one
    leaf; the grid of seven faces is divided until every leaf has at most two *)
Definition fan6 : list (point b64) := map ptZ [(0,0);(1,0);(2,0);(3,0);(4,0);(5,0);(6,0);(12,12)]%Z.
Definition fan6_faces : list (list Z) := [[0;1;7];[1;2;7];[2;3;7];[3;4;7];[4;5;7];[5;6;7]]%Z.
Definition shape (t : res (tree2d (T:=b64))) : list (Z * Z) :=
  match t with Ok t => map (fun nd => (nchild nd, nsize nd)) (nodes (celltree_data t)) | Err _ => [] end.

Lemma fan6_mesh : mesh_ok (T:=b64) fan6 fan6_faces (-1).
Proof. constructor; [repeat constructor|discriminate|]. repeat constructor; simpl; lia. Qed.

Lemma shape_ok r l : shape r = l -> l <> [] -> exists t, r = Ok t /\ shape (Ok t) = l.
Proof. intros H Hl. destruct r as [t|e]; [eauto|]. now destruct Hl. Qed.

Example C66_example : exists t t',
  mesh_ok (T:=b64) fan6 fan6_faces (-1) /\ mesh_ok (T:=b64) grid grid_faces (-1)
  /\ CellTree2d_init (T:=b64) g0 fan6 fan6_faces (-1) 4 2 = Ok t /\ shape (Ok t) = [(-1, 6)]%Z
  /\ CellTree2d_init (T:=b64) g0 grid grid_faces (-1) 4 2 = Ok t'
  /\ shape (Ok t') = [(1, 7); (3, 4); (5, 3); (-1, 2); (-1, 2); (-1, 1); (-1, 2)]%Z.
Proof.
  assert (H : shape (CellTree2d_init (T:=b64) g0 fan6 fan6_faces (-1) 4 2) = [(-1, 6)]%Z) by (vm_compute; reflexivity).
  assert (H' : shape (CellTree2d_init (T:=b64) g0 grid grid_faces (-1) 4 2) = [(1, 7); (3, 4); (5, 3); (-1, 2); (-1, 2); (-1, 1); (-1, 2)]%Z) by (vm_compute; reflexivity).
  apply shape_ok in H as (t & E & S); [|discriminate]. apply shape_ok in H' as (t' & E' & S'); [|discriminate].
  exists t, t'. split; [exact fan6_mesh|]. split; [exact grid_mesh_B64|].
  split; [exact E|]. split; [exact S|]. split; [exact E'|exact S'].
Qed.

(** exact reals: four squares, one per leaf *)
Definition four : list pt := [Pt 0 0; Pt 1 0; Pt 2 0; Pt 0 1; Pt 1 1; Pt 2 1; Pt 0 2; Pt 1 2; Pt 2 2].
Definition four_faces : list (list Z) := [[0;1;4;3];[1;2;5;4];[3;4;7;6];[4;5;8;7]]%Z.
Lemma four_mesh : mesh_ok (T:=R) four four_faces (-1).
Proof.
  pose proof FMAX_big. constructor.
  - repeat constructor; cbn; lra.
  - discriminate.
  - repeat constructor; simpl; lia.
Qed.
Definition four_box (j : Z) : box R :=
  match j with 0%Z => Box 0 1 0 1 | 1%Z => Box 1 2 0 1 | 2%Z => Box 0 1 1 2 | _ => Box 1 2 1 2 end.
Lemma tight_unique (poly : list pt) b b' : tight_box poly b -> tight_box poly b' -> b = b'.
Proof.
  intros (H & X0 & X1 & Y0 & Y1) (H' & X0' & X1' & Y0' & Y1'). rewrite Forall_forall in *. rewrite Exists_exists in *.
  assert (G : forall p, In p poly -> xmin b <= px p <= xmax b /\ ymin b <= py p <= ymax b /\ xmin b' <= px p <= xmax b' /\ ymin b' <= py p <= ymax b').
  { intros p Hp. destruct (H p Hp) as (A1 & A2 & A3 & A4). destruct (H' p Hp) as (B1 & B2 & B3 & B4).
    apply leb_le in A1, A2, A3, A4, B1, B2, B3, B4. lra. }
  destruct X0 as (p0 & I0 & E0), X1 as (p1 & I1 & E1), Y0 as (p2 & I2 & E2), Y1 as (p3 & I3 & E3),
    X0' as (q0 & J0 & F0), X1' as (q1 & J1 & F1), Y0' as (q2 & J2 & F2), Y1' as (q3 & J3 & F3).
  apply G in I0, I1, I2, I3, J0, J1, J2, J3. destruct b as [u0 u1 u2 u3], b' as [w0 w1 w2 w3]; cbn [xmin xmax ymin ymax] in *. f_equal; lra.
Qed.

Lemma four_tight j poly b : face_poly four four_faces (-1) j poly -> tight_box poly b -> b = four_box j /\ (0 <= j < 4)%Z.
Proof.
  intros (f & Hj & En & Hp) Ht.
  assert (Hlt : (j < 4)%Z).
  { assert (Z.to_nat j < 4)%nat by (change 4%nat with (length (map (with_fill (-1)) four_faces)); apply nth_error_Some; congruence). lia. }
  assert (Hc : (j = 0 \/ j = 1 \/ j = 2 \/ j = 3)%Z) by lia. split; [|lia].
  apply (tight_unique _ _ _ Ht). clear Ht b.
  destruct Hc as [-> | [-> | [-> | ->]]]; cbn in En; inversion En; subst f; clear En; unfold poly_of in Hp; cbn in Hp; invert_poly;
  (split; [repeat constructor; cbn; apply Rle_bool_true; lra|]); cbn [four_box xmin xmax ymin ymax];
  rewrite !Exists_cons; cbn [px py]; tauto.
Qed.

Lemma four_separate : separate_faces four four_faces (-1).
Proof.
  split.
  - intros j poly b Hp Ht. destruct (four_tight _ _ _ Hp Ht) as (-> & Hj).
    assert (Hc : (j = 0 \/ j = 1 \/ j = 2 \/ j = 3)%Z) by lia.
    destruct Hc as [-> | [-> | [-> | ->]]]; cbn; lra.
  - intros i j poly poly' b b' p Hne Hp Hp' Ht Ht'. destruct (four_tight _ _ _ Hp Ht) as (-> & Hi). destruct (four_tight _ _ _ Hp' Ht') as (-> & Hj).
    assert (Hc : (i = 0 \/ i = 1 \/ i = 2 \/ i = 3)%Z) by lia. assert (Hc' : (j = 0 \/ j = 1 \/ j = 2 \/ j = 3)%Z) by lia.
    unfold inside_box.
    destruct Hc as [-> | [-> | [-> | ->]]]; destruct Hc' as [-> | [-> | [-> | ->]]]; try congruence; cbn; lra.
Qed.

Example C66_separate_example : exists t, CellTree2d_init (T:=R) g0 four four_faces (-1) 4 1 = Ok t
  /\ separate_faces four four_faces (-1) /\ (2 <= length (nodes (celltree_data t)))%nat
  /\ forall nd, In nd (nodes (celltree_data t)) -> nchild nd = (-1)%Z -> nsize nd = 1%Z.
Proof.
  destruct (C04_nondegenerate_succeeds g0 four four_faces (-1) 4 1 four_mesh) as (t & E); try lia.
  { pose proof FMAX_big. cbn. lra. }
  { unfold four_faces. cbn [map]. repeat apply Forall_cons; try apply Forall_nil;
    intros poly Hp; unfold poly_of in Hp; cbn in Hp; invert_poly; extent. }
  exists t. split; auto. split; [exact four_separate|].
  pose proof (C66_separate_faces _ _ _ _ _ _ _ four_mesh E four_separate) as H. split.
  - pose proof (init_built _ _ _ _ _ _ _ four_mesh E) as Hb. pose proof (built_valid _ _ _ _ _ Hb) as Hv.
    destruct (vt_tree _ Hv) as (S & HT & HS).
    assert (Hl : zlen (bb_coords (celltree_data t)) = 4%Z) by (unfold zlen; rewrite (bt_len _ _ _ _ _ Hb); reflexivity). rewrite Hl in HT.
    rewrite <- (iota_length (length _)), <- (Permutation_length HS).
    inversion HT as [? ? ? nd _ En Hc Hptr Hsz Hlt|? ? mid ? nd c S1 S2 _ En Hc Hlt Hptr Hsz _ _ _ _ T1 T2]; subst.
    + apply aget_in in En. specialize (H nd En Hc). lia.
    + destruct S1; [inversion T1|]. cbn. lia.
  - intros nd Hin Hc. specialize (H nd Hin Hc). lia.
Qed.

Print Assumptions C66_occupancy.
Print Assumptions C66_network_occupancy.
Print Assumptions C66_separate_faces.
Print Assumptions C66_leaf_size_refuted.
