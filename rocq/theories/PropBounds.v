(** node_bounds and validate_node_bounds (C35, C36). *)
From Coq Require Import Reals Lra.
From Verif Require Import Base Num MUtils MGeometry MCreation MAlgorithms MQuery MCelltree
  PStack SpecTree PBuild PBuild2 PWalk PCollect SpecQuery SpecApi PQuery PInit
  PMesh PPoints PTreeFacts PApi PBounds NumR NumB64 NumRoom Examples.
Open Scope Z_scope.

(** node [j] is node [i] or below it *)
Inductive below {T} (nds : list (node T)) : Z -> Z -> Prop :=
| below_refl i : below nds i i
| below_step i c j : child_of nds i c -> below nds c j -> below nds i j.

(** Correct node boxes of a tree: the root has the box of the whole tree, the
    box of a node contains the boxes of its children, and the boxes of the
    elements of all leaves below it *)
Record bounds_ok {T} {NT : Num T} (t : celltree T) (nb : list (box T)) : Prop := {
  bo_length : length nb = length (nodes t);
  bo_root : nth_error nb 0 = Some (bbox t);
  bo_child : forall i c B C, child_of (nodes t) i c -> nth_error nb (Z.to_nat i) = Some B ->
    nth_error nb (Z.to_nat c) = Some C -> box_within C B;
  bo_elements : forall i leaf e k B b, 0 <= i -> below (nodes t) i leaf ->
    stored (nodes t) (bb_indices t) e leaf k ->
    nth_error nb (Z.to_nat i) = Some B -> nth_error (bb_coords t) (Z.to_nat e) = Some b ->
    box_within b B
}.

Section PropBounds.
  Context {T : Type} {NT : Num T} {NO : NumOrd T} {NR : NumRefl T}.

  Lemma within_trans (a b c : box T) : box_within a b -> box_within b c -> box_within a c.
  Proof.
    intros (A1 & A2 & A3 & A4) (B1 & B2 & B3 & B4).
    repeat split; eapply nle_trans; eassumption.
  Qed.

  Lemma valid_bounds g (t : celltree T) : valid_tree t -> (2 <= length (nodes t))%nat ->
    exists nb, collect_node_bounds g t = Ok nb /\ bounds_ok t nb
      /\ validate_node_bounds g t nb = Ok (repeat true (length (nodes t))).
  Proof.
    intros HV Hn. destruct (collect_node_bounds_ok t g HV Hn) as (nb & E & L & G0 & H).
    destruct (node_bounds_valid t g HV Hn) as (nb' & E' & Hval).
    assert (nb' = nb) by congruence. subst nb'.
    exists nb. split; auto. split; auto.
    assert (Hok : forall i B, 0 <= i -> nth_error nb (Z.to_nat i) = Some B ->
              (forall lo hi, covers (nodes t) i lo hi ->
                 range_all (bb_coords t) (bb_indices t) lo hi (fun b => box_within b B))
              /\ (forall c, child_of (nodes t) i c -> exists C, nth_error nb (Z.to_nat c) = Some C
                     /\ 0 <= c /\ box_within C B)).
    { intros i B Hi EB. assert (Hlt : i < zlen (nodes t)).
      { unfold zlen. rewrite <- L. assert (Z.to_nat i < length nb)%nat by (apply nth_error_Some; congruence). lia. }
      destruct (H i (conj Hi Hlt)) as (B' & EB' & A1 & A2).
      apply aget_pos_inv in EB'; auto. assert (B' = B) by congruence. subst B'. split; auto.
      intros c Hc. destruct (A2 c Hc) as (C & EC & W). exists C.
      destruct (vt_tree _ HV) as (S & HT & HP).
      assert (In i S).
      { eapply Permutation_in; [symmetry; exact HP|]. apply iota_in. unfold zlen in *. lia. }
      destruct (TreeAt_closed _ _ _ _ _ _ _ _ _ HT H0 Hc) as (_ & Hlt').
      split; [apply aget_pos_inv; auto; lia|]. split; auto. lia. }
    constructor; auto.
    - apply aget_pos_inv in G0; auto. lia.
    - intros i c B C Hc EB EC. pose proof Hc as (Hi & _). destruct (Hok i B Hi EB) as (_ & A2).
      destruct (A2 c Hc) as (C' & EC' & _ & W). congruence.
    - intros i leaf e k B b Hi Hb. revert B Hi.
      induction Hb as [i|i c j Hc Hb IH]; intros B Hi Hs EB Eb.
      + destruct Hs as ((_ & _) & (lo & hi & Hcov & Hk) & Hk0 & Ek).
        destruct (Hok i B Hi EB) as (A1 & _). pose proof (vt_perm _ HV) as HP.
        assert (He : 0 <= e).
        { apply nth_error_In in Ek. eapply Permutation_in in Ek; [|exact HP]. apply iota_in in Ek. lia. }
        eapply (A1 lo hi Hcov k e b Hk); apply aget_pos; auto.
      + destruct (Hok i B Hi EB) as (_ & A2). destruct (A2 c Hc) as (C & EC & Hc0 & W).
        eapply within_trans; [|exact W]. apply IH; auto.
  Qed.

  (** ** C35: boxes of the nodes *)
  Theorem C35_node_bounds g vs faces fill nb cpl (t : tree2d (T:=T)) :
    mesh_ok vs faces fill -> CellTree2d_init g vs faces fill nb cpl = Ok t ->
    (2 <= length (nodes (celltree_data t)))%nat ->
    forall g', exists bs, node_bounds g' t = Ok bs /\ bounds_ok (celltree_data t) bs
      /\ CellTree2d_validate_node_bounds g' t = Ok (repeat true (length (nodes (celltree_data t)))).
  Proof.
    intros Hm E Hn g'. pose proof (built_valid _ _ _ _ _ (init_built _ _ _ _ _ _ _ Hm E)) as HV.
    destruct (valid_bounds g' _ HV Hn) as (bs & E1 & H & E2). exists bs.
    unfold CellTree2d_validate_node_bounds, node_bounds. rewrite E1. cbn [bind]. auto.
  Qed.

  Theorem C35_edge_node_bounds g vs edges nb cpl (t : tree2d (T:=T)) :
    network_ok vs edges -> EdgeCellTree2d_init g vs edges nb cpl = Ok t ->
    (2 <= length (nodes (celltree_data t)))%nat ->
    forall g', exists bs, node_bounds g' t = Ok bs /\ bounds_ok (celltree_data t) bs
      /\ CellTree2d_validate_node_bounds g' t = Ok (repeat true (length (nodes (celltree_data t)))).
  Proof.
    intros Hm E Hn g'. pose proof (built_edges_valid _ _ _ _ (init_built_edges _ _ _ _ _ _ Hm E)) as HV.
    destruct (valid_bounds g' _ HV Hn) as (bs & E1 & H & E2). exists bs.
    unfold CellTree2d_validate_node_bounds, node_bounds. rewrite E1. cbn [bind]. auto.
  Qed.

  (** what validate_node_bounds answers for arbitrary node boxes: entry [i] is
      True exactly if the box of [i] contains the boxes of its children (of its
      elements, for a leaf) *)
  Definition bounds_valid_at (t : celltree T) (bs : list (box T)) (i : Z) : Prop :=
    exists B, nth_error bs (Z.to_nat i) = Some B
      /\ (forall e k b, stored (nodes t) (bb_indices t) e i k ->
            nth_error (bb_coords t) (Z.to_nat e) = Some b -> box_within b B)
      /\ (forall c, child_of (nodes t) i c ->
            exists C, nth_error bs (Z.to_nat c) = Some C /\ box_within C B).

  Theorem C35_validate_exact g vs faces fill nb cpl (t : tree2d (T:=T)) :
    mesh_ok vs faces fill -> CellTree2d_init g vs faces fill nb cpl = Ok t ->
    forall g' bs, length bs = length (nodes (celltree_data t)) ->
    exists v, validate_node_bounds g' (celltree_data t) bs = Ok v
      /\ length v = length (nodes (celltree_data t))
      /\ forall i b, 0 <= i -> nth_error v (Z.to_nat i) = Some b ->
           (b = true <-> bounds_valid_at (celltree_data t) bs i).
  Proof.
    intros Hm E g' bs HL. pose proof (built_valid _ _ _ _ _ (init_built _ _ _ _ _ _ _ Hm E)) as HV.
    destruct (validate_node_bounds_ok _ g' bs HV HL) as (v & Ev & Lv & H).
    exists v. split; auto. split; auto. intros i b Hi Eb.
    assert (Hlt : i < zlen (nodes (celltree_data t))).
    { unfold zlen. rewrite <- Lv. assert (Z.to_nat i < length v)%nat by (apply nth_error_Some; congruence). lia. }
    destruct (H i (conj Hi Hlt)) as (b' & Eb' & Hb). apply aget_pos_inv in Eb'; auto.
    assert (b' = b) by congruence. subst b'. rewrite Hb.
    destruct (vt_tree _ HV) as (S & HT & HP).
    assert (Hin : In i S).
    { eapply Permutation_in; [symmetry; exact HP|]. apply iota_in. unfold zlen in *. lia. }
    assert (Hch : forall c, child_of (nodes (celltree_data t)) i c -> 0 <= c).
    { intros c Hc. destruct (TreeAt_closed _ _ _ _ _ _ _ _ _ HT Hin Hc). lia. }
    pose proof (vt_perm _ HV) as HPb. split.
    - intros (B & EB & A1 & A2). exists B. apply aget_pos_inv in EB; auto. split; auto. split.
      + intros e k b0 (Hl & (lo & hi & Hcov & Hk) & Hk0 & Ek) Ebb.
        assert (He : 0 <= e).
        { apply nth_error_In in Ek. eapply Permutation_in in Ek; [|exact HPb]. apply iota_in in Ek. lia. }
        eapply (A1 Hl lo hi Hcov k e b0 Hk); apply aget_pos; auto.
      + intros c Hc. destruct (A2 c Hc) as (C & EC & W). exists C. split; auto.
        apply aget_pos_inv; auto.
    - intros (B & EB & A1 & A2). exists B. split; [apply aget_pos; auto|]. split.
      + intros Hl lo hi Hcov k e b0 Hk Ek Ebb. pose proof (TreeAt_nodes _ _ _ _ _ _ _ HT) as HN.
        rewrite Forall_forall in HN.
        assert (Hlo : 0 <= lo).
        { destruct (HN i Hin) as [(_ & a & b1 & Hc' & Hr)|(c & a & m & b1 & A)].
          - destruct (covers_fun _ _ _ _ _ _ Hcov Hc'). lia.
          - destruct A as (_ & _ & _ & _ & _ & Hc' & _ & _ & Hr).
            destruct (covers_fun _ _ _ _ _ _ Hcov Hc'). lia. }
        apply aget_pos_inv in Ek; [|lia].
        assert (He : 0 <= e).
        { apply nth_error_In in Ek. eapply Permutation_in in Ek; [|exact HPb]. apply iota_in in Ek. lia. }
        apply aget_pos_inv in Ebb; auto. apply (A1 e k b0); auto.
        split; auto. split; [exists lo, hi; auto|]. split; auto. lia.
      + intros c Hc. destruct (A2 c Hc) as (C & EC & W). exists C. split; auto.
        apply aget_pos; eauto.
  Qed.

  (** ** C36: a tree without a split has no node 1 *)
  Theorem C36_single_node_refuted g' (t : tree2d (T:=T)) :
    length (nodes (celltree_data t)) = 1%nat ->
    node_bounds g' t = Err EIndex /\ CellTree2d_validate_node_bounds g' t = Err EIndex.
  Proof.
    intros Hn. unfold CellTree2d_validate_node_bounds, node_bounds.
    rewrite (node_bounds_single _ g' Hn). auto.
  Qed.

  Lemma initialize_single g fuel n bbc nb cpl nds bbi : (1 <= n)%nat -> Z.of_nat n <= cpl ->
    initialize (T:=T) g fuel n bbc nb cpl = Ok (nds, bbi) -> length nds = 1%nat.
  Proof.
    intros H1 Hn H. unfold initialize in H.
    assert (Hp : 0 < pessimistic_n_nodes (Z.of_nat n)).
    { pose proof (pessimistic_ge (Z.of_nat n)). lia. }
    set (arr := np_empty (gnode g) (Z.to_nat (pessimistic_n_nodes (Z.of_nat n)))) in H.
    assert (Hl : zlen arr = pessimistic_n_nodes (Z.of_nat n)).
    { unfold zlen, arr. rewrite np_empty_length. lia. }
    unfold push_node in H. rewrite aset_pos in H by lia. cbn [bind] in H.
    unfold build in H. destruct (alloc_rep (gZZ g) (0, 0)) as (st & Est & Rep).
    rewrite Est in H. cbn [bind] in H. rewrite (stack_loop_list _ _ _ _ _ _ _ Rep) in H.
    destruct fuel as [|fuel]; [discriminate|]. cbn [list_loop build_visit] in H.
    rewrite (aget_set_eq arr 0) in H by lia. cbn [bind create_node nsize] in H.
    replace (zlen (iota n) <=? cpl) with true in H
      by (symmetry; apply Z.leb_le; unfold zlen; rewrite iota_length; lia).
    cbn [bind rev app] in H. destruct fuel as [|fuel]; cbn [list_loop bind st_node_index st_nodes st_bbi] in H.
    - assert (Hx : firstn (Z.to_nat (0 + 1)) (list_set arr (Z.to_nat 0) (create_node 0 (zlen (iota n)) false)) = nds)
        by congruence. rewrite <- Hx, firstn_length, list_set_length. unfold zlen in *. lia.
    - assert (Hx : firstn (Z.to_nat (0 + 1)) (list_set arr (Z.to_nat 0) (create_node 0 (zlen (iota n)) false)) = nds)
        by congruence. rewrite <- Hx, firstn_length, list_set_length. unfold zlen in *. lia.
  Qed.

  Theorem C36_small_mesh_refuted g g' vs faces fill nb cpl (t : tree2d (T:=T)) :
    mesh_ok vs faces fill -> CellTree2d_init g vs faces fill nb cpl = Ok t ->
    zlen faces <= cpl ->
    node_bounds g' t = Err EIndex /\ CellTree2d_validate_node_bounds g' t = Err EIndex.
  Proof.
    intros Hm E Hn. apply C36_single_node_refuted.
    pose proof (F2_length _ _ _ (bt_elements _ _ _ _ _ (init_built _ _ _ _ _ _ _ Hm E))) as Hl.
    rewrite map_length in Hl.
    unfold CellTree2d_init in E.
    inv_bind E. inv_bind Hk. inv_bind Hk0. inv_bind Hk. inv_bind Hk0. destruct v3 as (nds, bbi).
    inv_bind Hk. inversion Hk0; subst. cbn [celltree_data nodes elements] in *.
    eapply initialize_single; [| |eassumption].
    - rewrite <- Hl. destruct faces; [destruct (mo_nonempty _ _ _ Hm eq_refl)|cbn [length]; lia].
    - rewrite <- Hl. exact Hn.
  Qed.
End PropBounds.

(** ** The hypotheses are met *)
Example C35_example : exists t bs,
  mesh_ok (T:=b64) grid grid_faces (-1)
  /\ CellTree2d_init (T:=b64) g0 grid grid_faces (-1) 4 2 = Ok t
  /\ (2 <= length (nodes (celltree_data t)))%nat
  /\ node_bounds g0 t = Ok bs /\ length bs = 7%nat
  /\ CellTree2d_validate_node_bounds g0 t = Ok (repeat true 7).
Proof.
  destruct grid_built_B64 as (t & E & Hl). exists t.
  assert (Hn : length (nodes (celltree_data t)) = 7%nat) by (unfold zlen in Hl; lia).
  assert (H2 : (2 <= length (nodes (celltree_data t)))%nat) by lia.
  destruct (C35_node_bounds g0 _ _ _ _ _ _ grid_mesh_B64 E H2 g0) as (bs & E1 & H & E2).
  exists bs. rewrite Hn in E2. pose proof (bo_length _ _ H).
  split; [exact grid_mesh_B64|]. repeat split; auto. congruence.
Qed.

(** a shrunk root box is noticed: entry 0 becomes False, the others stay True *)
Example C35_validate_example : exists t bs,
  CellTree2d_init (T:=b64) g0 grid grid_faces (-1) 4 2 = Ok t
  /\ node_bounds g0 t = Ok bs
  /\ validate_node_bounds g0 (celltree_data t) (Box (Zb 0) (Zb 1) (Zb 0) (Zb 2) :: tl bs)
     = Ok (false :: repeat true 6).
Proof.
  assert (H : match CellTree2d_init (T:=b64) g0 grid grid_faces (-1) 4 2 with
              | Ok t => match node_bounds g0 t with
                        | Ok bs => match validate_node_bounds g0 (celltree_data t)
                                           (Box (Zb 0) (Zb 1) (Zb 0) (Zb 2) :: tl bs) with
                                   | Ok v => v | Err _ => [] end
                        | Err _ => [] end
              | Err _ => [] end = false :: repeat true 6) by (vm_compute; reflexivity).
  destruct (CellTree2d_init _ _ _ _ _ _) as [t|]; [|discriminate].
  destruct (node_bounds g0 t) as [bs|] eqn:Eb; [|discriminate]. exists t, bs.
  destruct (validate_node_bounds _ _ _) as [v|] eqn:Ev; [|discriminate].
  repeat split; auto. congruence.
Qed.

(** seven faces in leaves of eight *)
Example C36_example : exists t, mesh_ok (T:=b64) grid grid_faces (-1)
  /\ CellTree2d_init (T:=b64) g0 grid grid_faces (-1) 4 8 = Ok t
  /\ zlen grid_faces <= 8 /\ node_bounds g0 t = Err EIndex.
Proof.
  assert (H : isOk (CellTree2d_init (T:=b64) g0 grid grid_faces (-1) 4 8) = true) by (vm_compute; reflexivity).
  destruct (CellTree2d_init _ _ _ _ _ _) as [t|] eqn:E; [|discriminate]. exists t.
  split; [exact grid_mesh_B64|]. split; auto. split; [vm_compute; discriminate|].
  eapply C36_small_mesh_refuted; eauto. exact grid_mesh_B64. vm_compute; discriminate.
Qed.

Print Assumptions C35_node_bounds.
Print Assumptions C35_edge_node_bounds.
Print Assumptions C35_validate_exact.
Print Assumptions C36_single_node_refuted.
Print Assumptions C36_small_mesh_refuted.
