(** Properties of trees and tree queries, for every number type with ordered
    finite values; in particular for IEEE binary64 and for exact reals. *)
From Coq Require Import Reals Sorted Lra.
From Flocq Require Import Core BinarySingleNaN.
From Verif Require Import Base Num MUtils MGeometry MCreation MAlgorithms MQuery MCelltree
  PStack SpecTree PBuild PBuild2 PWalk PCollect SpecQuery SpecApi PQuery PInit
  PMesh PPoints PTreeFacts PApi PNan NumR NumB64 NumSub NumRoom Examples.
Open Scope Z_scope.

Section Props.
  Context {T : Type} {NT : Num T} {NO : NumOrd T} {NS : NumSub T}.

  (** ** C01: every element is stored in exactly one leaf *)
  Theorem C01_faces_stored_once g vs faces fill nb cpl (t : tree2d (T:=T)) :
    mesh_ok vs faces fill -> CellTree2d_init g vs faces fill nb cpl = Ok t ->
    let nds := nodes (celltree_data t) in let bbi := bb_indices (celltree_data t) in
    Permutation bbi (iota (length faces))
    /\ forall e, 0 <= e < Z.of_nat (length faces) ->
         exists leaf k, stored nds bbi e leaf k
           /\ forall leaf' k', stored nds bbi e leaf' k' -> leaf' = leaf /\ k' = k.
  Proof.
    intros Hm E. pose proof (init_built _ _ _ _ _ _ _ Hm E) as Hb. cbv zeta.
    pose proof (built_valid _ _ _ _ _ Hb) as Hv. rewrite <- (bt_len _ _ _ _ _ Hb).
    split; [apply (vt_perm _ Hv)|apply (valid_stored _ Hv)].
  Qed.

  Theorem C01_edges_stored_once g vs edges nb cpl (t : tree2d (T:=T)) :
    network_ok vs edges -> EdgeCellTree2d_init g vs edges nb cpl = Ok t ->
    let nds := nodes (celltree_data t) in let bbi := bb_indices (celltree_data t) in
    Permutation bbi (iota (length edges))
    /\ forall e, 0 <= e < Z.of_nat (length edges) ->
         exists leaf k, stored nds bbi e leaf k
           /\ forall leaf' k', stored nds bbi e leaf' k' -> leaf' = leaf /\ k' = k.
  Proof.
    intros Hm E. pose proof (init_built_edges _ _ _ _ _ _ Hm E) as Hb. cbv zeta.
    pose proof (built_edges_valid _ _ _ _ Hb) as Hv. rewrite <- (be_len _ _ _ _ Hb).
    split; [apply (vt_perm _ Hv)|apply (valid_stored _ Hv)].
  Qed.

  (** ** C02: the node array is a proper binary tree *)
  Theorem C02_proper_tree g vs faces fill nb cpl (t : tree2d (T:=T)) :
    mesh_ok vs faces fill -> CellTree2d_init g vs faces fill nb cpl = Ok t ->
    proper_tree (nodes (celltree_data t)) (zlen faces)
    /\ map fst (to_dict_of_lists t) = iota (length (nodes (celltree_data t)))
    /\ forall p i, child_of (nodes (celltree_data t)) p i
         <-> exists l, In (p, l) (to_dict_of_lists t) /\ In i l.
  Proof.
    intros Hm E. pose proof (init_built _ _ _ _ _ _ _ Hm E) as Hb.
    pose proof (built_valid _ _ _ _ _ Hb) as Hv.
    split; [|now apply dict_ok]. unfold zlen. rewrite <- (bt_len _ _ _ _ _ Hb). now apply valid_proper.
  Qed.

  Theorem C02_proper_edge_tree g vs edges nb cpl (t : tree2d (T:=T)) :
    network_ok vs edges -> EdgeCellTree2d_init g vs edges nb cpl = Ok t ->
    proper_tree (nodes (celltree_data t)) (zlen edges)
    /\ map fst (to_dict_of_lists t) = iota (length (nodes (celltree_data t)))
    /\ forall p i, child_of (nodes (celltree_data t)) p i
         <-> exists l, In (p, l) (to_dict_of_lists t) /\ In i l.
  Proof.
    intros Hm E. pose proof (init_built_edges _ _ _ _ _ _ Hm E) as Hb.
    pose proof (built_edges_valid _ _ _ _ Hb) as Hv.
    split; [|now apply dict_ok]. unfold zlen. rewrite <- (be_len _ _ _ _ Hb). now apply valid_proper.
  Qed.

  (** ** C03: construction is memory safe, terminates, fits its array *)
  Theorem C03_construction_safe g vs faces fill nb cpl :
    mesh_ok vs faces fill -> 2 <= nb -> 1 <= cpl ->
    (exists t : tree2d (T:=T), CellTree2d_init g vs faces fill nb cpl = Ok t
       /\ zlen (nodes (celltree_data t)) <= pessimistic_n_nodes (zlen faces)
       /\ zlen (nodes (celltree_data t)) <= 2 * zlen faces - 1)
    \/ CellTree2d_init g vs faces fill nb cpl = Err EZeroDiv
    \/ CellTree2d_init g vs faces fill nb cpl = Err EList.
  Proof.
    intros Hm Hnb Hcpl.
    destruct (CellTree2d_init_ok g vs faces fill nb cpl Hnb Hcpl (mo_nonempty _ _ _ Hm)
                (mo_vertices _ _ _ Hm) (mo_faces _ _ _ Hm))
      as (bbs & fs & Hl & _ & _ & _ & [(er & E & HF)|(t & E & _)]).
    - right. destruct (Fails_not_fuel _ _ _ HF) as [-> | ->]; auto.
    - left. exists t. split; auto. pose proof (init_built _ _ _ _ _ _ _ Hm E) as Hb.
      split; [apply (bt_nodes _ _ _ _ _ Hb)|].
      pose proof (built_valid _ _ _ _ _ Hb) as Hv.
      destruct (vt_tree _ Hv) as (S & HT & HS).
      pose proof (tree_node_bound _ _ _ _ _ HT HS) as H.
      unfold zlen in *. rewrite (bt_len _ _ _ _ _ Hb) in H. lia.
  Qed.

  Theorem C03_edge_construction_safe g vs edges nb cpl :
    network_ok vs edges -> 2 <= nb -> 1 <= cpl ->
    (exists t : tree2d (T:=T), EdgeCellTree2d_init g vs edges nb cpl = Ok t
       /\ zlen (nodes (celltree_data t)) <= pessimistic_n_nodes (zlen edges)
       /\ zlen (nodes (celltree_data t)) <= 2 * zlen edges - 1)
    \/ EdgeCellTree2d_init g vs edges nb cpl = Err EZeroDiv
    \/ EdgeCellTree2d_init g vs edges nb cpl = Err EList.
  Proof.
    intros Hm Hnb Hcpl.
    destruct (EdgeCellTree2d_init_ok g vs edges nb cpl Hnb Hcpl (no_nonempty _ _ Hm)
                (no_vertices _ _ Hm) (no_edges _ _ Hm)) as (tol & Ht & H).
    destruct (H (no_room _ _ Hm _ Ht)) as (bbs & Hl & _ & _ & [(er & E & HF)|(t & E & _)]).
    - right. destruct (Fails_not_fuel _ _ _ HF) as [-> | ->]; auto.
    - left. exists t. split; auto. pose proof (init_built_edges _ _ _ _ _ _ Hm E) as Hb.
      split; [apply (be_nodes _ _ _ _ Hb)|].
      pose proof (built_edges_valid _ _ _ _ Hb) as Hv.
      destruct (vt_tree _ Hv) as (S & HT & HS).
      pose proof (tree_node_bound _ _ _ _ _ HT HS) as HB.
      unfold zlen in *. rewrite (be_len _ _ _ _ Hb) in HB. lia.
  Qed.

  (** ** C05, C06: locate_boxes equals brute force; threads do not matter *)
  Theorem C05_locate_boxes_brute_force g vs faces fill nb cpl (t : tree2d (T:=T)) :
    mesh_ok vs faces fill -> CellTree2d_init g vs faces fill nb cpl = Ok t ->
    forall g' n_threads boxes, (1 <= n_threads)%nat ->
    exists pairs, CellTree2d_locate_boxes g' n_threads t boxes = Ok pairs
      /\ NoDup pairs /\ forall i j, In (i, j) pairs <-> boxes_pair boxes t i j.
  Proof.
    intros Hm E g' n boxes Hn. pose proof (init_built _ _ _ _ _ _ _ Hm E) as Hb.
    destruct (boxes_result t boxes (built_valid _ _ _ _ _ Hb)) as (rows & H1 & H2 & H3 & _).
    exists rows. auto.
  Qed.

  Theorem C06_boxes_thread_independent g vs faces fill nb cpl (t : tree2d (T:=T)) :
    mesh_ok vs faces fill -> CellTree2d_init g vs faces fill nb cpl = Ok t ->
    forall boxes, exists pairs, StronglySorted Z.le (map fst pairs)
      /\ forall g' n_threads, (1 <= n_threads)%nat ->
         CellTree2d_locate_boxes g' n_threads t boxes = Ok pairs.
  Proof.
    intros Hm E boxes. pose proof (init_built _ _ _ _ _ _ _ Hm E) as Hb.
    destruct (boxes_result t boxes (built_valid _ _ _ _ _ Hb)) as (rows & H1 & _ & _ & H4).
    exists rows. auto.
  Qed.

  (** ** C07: the result buffer grows without losing or duplicating rows,
      from any initial buffer of positive size *)
  Theorem C07_buffer_growth (t : celltree T) boxes offset : valid_tree t ->
    exists anss, Forall2 (box_answers t) boxes anss
      /\ forall g buffer, buffer <> [] ->
         exists unused,
         query_loop (gZZ g) (fun bx index rows size => locate_box g bx t rows size index)
                    (retry_fuel t) boxes offset buffer 0 0
         = Ok (map (fun r => (offset + fst r, snd r)) (rows_of anss) ++ unused, zlen (rows_of anss)).
  Proof. exact (buffers_grow t boxes offset). Qed.

  (** ** C08, C09: locate_points is total, sound and complete *)
  Theorem C08_locate_points_sound g vs faces fill nb cpl (t : tree2d (T:=T)) :
    mesh_ok vs faces fill -> CellTree2d_init g vs faces fill nb cpl = Ok t ->
    forall g' points tolerance, exists tol js,
      get_tolerance t tolerance = Ok tol
      /\ CellTree2d_locate_points g' t points tolerance = Ok js
      /\ length js = length points
      /\ forall k p j, nth_error points k = Some p -> nth_error js k = Some j ->
           j = -1 \/ (0 <= j < zlen faces /\ face_passes (celltree_data t) p tol j).
  Proof.
    intros Hm E g' points tolerance. pose proof (init_built _ _ _ _ _ _ _ Hm E) as Hb.
    destruct (points_result _ _ _ _ t tolerance Hb) as (tol & Et & H). destruct (H points) as (js & Hj & HF).
    exists tol, js. split; auto. split; auto. split; [symmetry; eapply F2_length; eauto|].
    intros k p j Ep Ej. destruct (Forall2_nth _ _ _ _ _ _ HF Ep Ej) as [Hp|(-> & _)]; auto.
    right. split; auto. destruct Hp as (f & poly & H0 & En & _).
    pose proof (nth_error_range _ _ _ H0 En) as Hr.
    pose proof (vt_elements _ (built_valid _ _ _ _ _ Hb)) as Hl.
    unfold zlen in *. rewrite (bt_len _ _ _ _ _ Hb) in Hl. lia.
  Qed.

  Theorem C09_locate_points_complete g vs faces fill nb cpl (t : tree2d (T:=T)) :
    mesh_ok vs faces fill -> CellTree2d_init g vs faces fill nb cpl = Ok t ->
    forall g' points tolerance, exists tol js,
      get_tolerance t tolerance = Ok tol
      /\ CellTree2d_locate_points g' t points tolerance = Ok js
      /\ forall k p j j', nth_error points k = Some p -> nth_error js k = Some j ->
           face_passes (celltree_data t) p tol j' -> in_box_of t p j' -> j <> -1.
  Proof.
    intros Hm E g' points tolerance. pose proof (init_built _ _ _ _ _ _ _ Hm E) as Hb.
    destruct (points_result _ _ _ _ t tolerance Hb) as (tol & Et & H). destruct (H points) as (js & Hj & HF).
    exists tol, js. split; auto. split; auto.
    intros k p j j' Ep Ej Hpass Hbox.
    destruct (Forall2_nth _ _ _ _ _ _ HF Ep Ej) as [(f & poly & H0 & _)|(-> & Hn)]; [lia|].
    destruct (Hn j' Hpass Hbox).
  Qed.

  (** ** C12: the answers do not depend on n_buckets and cells_per_leaf *)
  Theorem C12_boxes_parameter_independent g g' vs faces fill nb cpl nb' cpl' (t t' : tree2d (T:=T)) :
    mesh_ok vs faces fill ->
    CellTree2d_init g vs faces fill nb cpl = Ok t ->
    CellTree2d_init g' vs faces fill nb' cpl' = Ok t' ->
    forall h n boxes, (1 <= n)%nat -> exists pairs pairs',
      CellTree2d_locate_boxes h n t boxes = Ok pairs
      /\ CellTree2d_locate_boxes h n t' boxes = Ok pairs'
      /\ Permutation pairs pairs'.
  Proof.
    intros Hm E E' h n boxes Hn.
    destruct (boxes_result t boxes (built_valid _ _ _ _ _ (init_built _ _ _ _ _ _ _ Hm E)))
      as (rows & H1 & H2 & H3 & _).
    destruct (boxes_result t' boxes (built_valid _ _ _ _ _ (init_built _ _ _ _ _ _ _ Hm E')))
      as (rows' & H1' & H2' & H3' & _).
    exists rows, rows'. split; auto. split; auto. apply NoDup_Permutation; auto.
    intros (i, j). rewrite H3, H3'. unfold boxes_pair.
    destruct (init_same _ _ _ _ _ _ _ _ _ _ _ E E') as (_ & _ & Hbb & _). now rewrite Hbb.
  Qed.

  (** at most one face passes the test, and if one does the point is in its box *)
  Definition unambiguous (t : tree2d (T:=T)) (p : point T) (tol : T) : Prop :=
    (forall j, ~ face_passes (celltree_data t) p tol j)
    \/ exists j, in_box_of t p j /\ face_passes (celltree_data t) p tol j
         /\ forall j', face_passes (celltree_data t) p tol j' -> j' = j.

  Theorem C12_points_parameter_independent g g' vs faces fill nb cpl nb' cpl' (t t' : tree2d (T:=T)) :
    mesh_ok vs faces fill ->
    CellTree2d_init g vs faces fill nb cpl = Ok t ->
    CellTree2d_init g' vs faces fill nb' cpl' = Ok t' ->
    forall h points tolerance, exists tol js js',
      get_tolerance t tolerance = Ok tol /\ get_tolerance t' tolerance = Ok tol
      /\ CellTree2d_locate_points h t points tolerance = Ok js
      /\ CellTree2d_locate_points h t' points tolerance = Ok js'
      /\ forall k p j j', nth_error points k = Some p -> nth_error js k = Some j ->
           nth_error js' k = Some j' -> unambiguous t p tol -> j' = j.
  Proof.
    intros Hm E E' h points tolerance.
    pose proof (init_built _ _ _ _ _ _ _ Hm E) as Hb. pose proof (init_built _ _ _ _ _ _ _ Hm E') as Hb'.
    destruct (points_result _ _ _ _ t tolerance Hb) as (tol & Et & H). destruct (H points) as (js & Hj & HF).
    destruct (points_result _ _ _ _ t' tolerance Hb') as (tol' & Et' & H'). destruct (H' points) as (js' & Hj' & HF').
    destruct (init_same _ _ _ _ _ _ _ _ _ _ _ E E') as (He & Hve & Hbb & Hd).
    assert (tol' = tol).
    { destruct tolerance as [x|]; simpl in *; [congruence|]. rewrite Hd in Et. congruence. }
    subst tol'.
    assert (Hpass : forall p j, face_passes (celltree_data t') p tol j <-> face_passes (celltree_data t) p tol j).
    { intros p j. unfold face_passes. now rewrite He, Hve. }
    assert (Hbox : forall p j, in_box_of t' p j <-> in_box_of t p j).
    { intros p j. unfold in_box_of. now rewrite Hbb. }
    exists tol, js, js'. repeat split; auto.
    intros k p j j' Ep Ej Ej' Hu.
    pose proof (Forall2_nth _ _ _ _ _ _ HF Ep Ej) as A.
    pose proof (Forall2_nth _ _ _ _ _ _ HF' Ep Ej') as A'.
    destruct Hu as [Hno|(i & Hib & Hip & Hiu)].
    - destruct A as [A|(-> & _)]; [destruct (Hno _ A)|].
      destruct A' as [A'|(-> & _)]; auto. apply Hpass in A'. destruct (Hno _ A').
    - destruct A as [A|(-> & An)]; [|destruct (An _ Hip Hib)]. apply Hiu in A.
      destruct A' as [A'|(-> & An)].
      + apply Hpass in A'. apply Hiu in A'. congruence.
      + destruct (An i); [now apply Hpass|now apply Hbox].
  Qed.

  (** ** C14 (first part): points on a network *)
  Theorem C14_edge_points_sound_complete g vs edges nb cpl (t : tree2d (T:=T)) :
    network_ok vs edges -> EdgeCellTree2d_init g vs edges nb cpl = Ok t ->
    forall g' points tolerance, exists tol js,
      get_tolerance t tolerance = Ok tol
      /\ EdgeCellTree2d_locate_points g' t points tolerance = Ok js
      /\ length js = length points
      /\ forall k p j, nth_error points k = Some p -> nth_error js k = Some j ->
           (j = -1 \/ (0 <= j < zlen edges /\ edge_passes (celltree_data t) p tol j))
           /\ forall j', edge_passes (celltree_data t) p tol j' -> in_box_of t p j' -> j <> -1.
  Proof.
    intros Hm E g' points tolerance. pose proof (init_built_edges _ _ _ _ _ _ Hm E) as Hb.
    destruct (edge_points_result _ _ _ t tolerance Hb) as (tol & Et & H). destruct (H points) as (js & Hj & HF).
    exists tol, js. split; auto. split; auto. split; [symmetry; eapply F2_length; eauto|].
    intros k p j Ep Ej. pose proof (Forall2_nth _ _ _ _ _ _ HF Ep Ej) as A. split.
    - destruct A as [Hp|(-> & _)]; auto.
      right. split; auto. destruct Hp as (f & v0 & v1 & H0 & En & _).
      pose proof (nth_error_range _ _ _ H0 En) as Hr.
      pose proof (vt_elements _ (built_edges_valid _ _ _ _ Hb)) as Hl.
      unfold zlen in *. rewrite (be_len _ _ _ _ Hb) in Hl. lia.
    - intros j' Hp Hbox. destruct A as [(f & v0 & v1 & H0 & _)|(-> & Hn)]; [lia|].
      destruct (Hn j' Hp Hbox).
  Qed.

  (** ** C37: growable stacks are unbounded stacks *)
  Theorem C37_stack_refines_list {A} (mem : nat -> nat -> A) (arr0 : list A) (ops : list (op A)) out :
    arr0 <> [] -> run_list [] ops = Some out -> run_array mem arr0 0 ops = Ok out.
  Proof.
    intros Hne H. eapply run_array_list; eauto. repeat split; simpl; auto. lia.
  Qed.

  (** ** C39: bounding boxes are tight, the tree box contains them *)
  Theorem C39_bounding_boxes g vs faces fill nb cpl (t : tree2d (T:=T)) :
    mesh_ok vs faces fill -> CellTree2d_init g vs faces fill nb cpl = Ok t ->
    Forall2 (fun f b => exists poly, poly_of vs f poly /\ tight_box poly b)
            (elements (celltree_data t)) (bb_coords (celltree_data t))
    /\ Forall2 same_face (map (with_fill fill) faces) (elements (celltree_data t))
    /\ Forall (fun b => box_within b (bbox (celltree_data t))) (bb_coords (celltree_data t)).
  Proof.
    intros Hm E. pose proof (init_built _ _ _ _ _ _ _ Hm E) as Hb.
    split; [|split].
    - rewrite <- (bt_vertices _ _ _ _ _ Hb). apply (mt_boxes _ (bt_mesh _ _ _ _ _ Hb)).
    - apply (bt_elements _ _ _ _ _ Hb).
    - apply (vt_bbox _ (built_valid _ _ _ _ _ Hb)).
  Qed.

  Theorem C39_edge_bounding_boxes g vs edges nb cpl (t : tree2d (T:=T)) :
    network_ok vs edges -> EdgeCellTree2d_init g vs edges nb cpl = Ok t ->
    exists tol, extent_tol vs tol
    /\ Forall2 (fun e b => exists v0 v1, edge_of vs e v0 v1 /\ widened_box tol v0 v1 b)
            edges (bb_coords (celltree_data t))
    /\ Forall (fun b => box_within b (bbox (celltree_data t))) (bb_coords (celltree_data t)).
  Proof.
    intros Hm E. pose proof (init_built_edges _ _ _ _ _ _ Hm E) as Hb.
    destruct (be_net _ _ _ _ Hb) as (tol & Ht & Hn). exists tol. split; auto. split.
    - rewrite <- (be_vertices _ _ _ _ Hb), <- (be_elements _ _ _ _ Hb). apply (nt_boxes _ _ Hn).
    - apply (vt_bbox _ (nt_valid _ _ Hn)).
  Qed.

  (** ** C44: parameter validation *)
  Theorem C44_invalid_rejected g vs faces fill nb cpl :
    nb < 2 \/ cpl < 1 \/ Exists (fun f => (32 < length f)%nat) faces ->
    CellTree2d_init (T:=T) g vs faces fill nb cpl = Err EValue.
  Proof.
    intros H. unfold CellTree2d_init, check_params.
    destruct (nb <? 2) eqn:E1; [reflexivity|]. destruct (cpl <? 1) eqn:E2; [reflexivity|].
    cbn [bind]. destruct H as [H|[H|H]]; [lia|lia|].
    unfold cast_faces. replace (existsb _ faces) with true; [reflexivity|].
    symmetry. apply existsb_exists. apply Exists_exists in H as (f & Hf & Hl).
    exists f. split; auto. apply Nat.ltb_lt. exact Hl.
  Qed.

  Theorem C44_valid_accepted g vs faces fill nb cpl :
    mesh_ok vs faces fill -> 2 <= nb -> 1 <= cpl ->
    CellTree2d_init (T:=T) g vs faces fill nb cpl <> Err EValue.
  Proof.
    intros Hm Hnb Hcpl. destruct (C03_construction_safe g vs faces fill nb cpl Hm Hnb Hcpl)
      as [(t & E & _)|[E|E]]; congruence.
  Qed.
End Props.

(** ** C13: NaN queries are answered 'nowhere' *)
Theorem C13_nan_points g vs faces fill nb cpl (t : tree2d (T:=b64)) :
  mesh_ok vs faces fill -> CellTree2d_init g vs faces fill nb cpl = Ok t ->
  forall g' points tolerance, exists js,
    CellTree2d_locate_points g' t points tolerance = Ok js
    /\ forall k p, nth_error points k = Some p -> nan_point p -> nth_error js k = Some (-1).
Proof.
  intros Hm E g' points tolerance. pose proof (init_built _ _ _ _ _ _ _ Hm E) as Hb.
  destruct (points_result _ _ _ _ t tolerance Hb) as (tol & Et & H). destruct (H points) as (js & Hj & HF).
  exists js. split; auto. intros k p Ep Hp.
  destruct (Forall2_nth_l _ _ _ _ _ HF Ep) as (j & Ej & A). rewrite Ej.
  destruct A as [A|(-> & _)]; auto. apply face_passes_nan in A; [tauto|auto|].
  apply (bt_mesh _ _ _ _ _ Hb).
Qed.

Theorem C13_nan_edge_points g vs edges nb cpl (t : tree2d (T:=b64)) :
  network_ok vs edges -> EdgeCellTree2d_init g vs edges nb cpl = Ok t ->
  forall g' points tolerance, exists js,
    EdgeCellTree2d_locate_points g' t points tolerance = Ok js
    /\ forall k p, nth_error points k = Some p -> nan_point p -> nth_error js k = Some (-1).
Proof.
  intros Hm E g' points tolerance. pose proof (init_built_edges _ _ _ _ _ _ Hm E) as Hb.
  destruct (edge_points_result _ _ _ t tolerance Hb) as (tol & Et & H). destruct (H points) as (js & Hj & HF).
  exists js. split; auto. intros k p Ep Hp.
  destruct (Forall2_nth_l _ _ _ _ _ HF Ep) as (j & Ej & A). rewrite Ej.
  destruct A as [A|(-> & _)]; auto. apply edge_passes_nan in A; tauto.
Qed.

Theorem C13_nan_boxes g vs faces fill nb cpl (t : tree2d (T:=b64)) :
  mesh_ok vs faces fill -> CellTree2d_init g vs faces fill nb cpl = Ok t ->
  forall g' n boxes, (1 <= n)%nat -> exists pairs,
    CellTree2d_locate_boxes g' n t boxes = Ok pairs
    /\ forall i b j, 0 <= i -> nth_error boxes (Z.to_nat i) = Some b -> nan_box b -> ~ In (i, j) pairs.
Proof.
  intros Hm E g' n boxes Hn. pose proof (init_built _ _ _ _ _ _ _ Hm E) as Hb.
  destruct (boxes_result t boxes (built_valid _ _ _ _ _ Hb)) as (rows & H1 & _ & H3 & _).
  exists rows. split; auto. intros i b j Hi Eb Hnan Hin. apply H3 in Hin as (a & b' & _ & _ & Ea & _ & Ho).
  rewrite Eb in Ea. inversion Ea; subst. now apply overlap_nan in Ho.
Qed.

(** ** Concrete cases meeting the hypotheses *)

(** a mesh of seven faces (squares and triangles, both orientations), n_buckets
    4 and cells_per_leaf 2, in binary64; the tree has three splits *)
Example mesh_example : mesh_ok (T:=b64) grid grid_faces (-1)
  /\ exists t, CellTree2d_init (T:=b64) g0 grid grid_faces (-1) 4 2 = Ok t
       /\ zlen (nodes (celltree_data t)) = 7.
Proof. exact (conj grid_mesh_B64 grid_built_B64). Qed.

Example network_example : network_ok (T:=b64) grid pipes
  /\ exists t, EdgeCellTree2d_init (T:=b64) g0 grid pipes 4 2 = Ok t
       /\ zlen (nodes (celltree_data t)) = 7.
Proof. exact (conj pipes_network_B64 pipes_built_B64). Qed.

(** the theorems applied to them *)
Example C01_example t : CellTree2d_init (T:=b64) g0 grid grid_faces (-1) 4 2 = Ok t ->
  Permutation (bb_indices (celltree_data t)) [0;1;2;3;4;5;6].
Proof. intros E. apply (C01_faces_stored_once _ _ _ _ _ _ _ grid_mesh_B64 E). Qed.

Example C05_example t : CellTree2d_init (T:=b64) g0 grid grid_faces (-1) 4 2 = Ok t ->
  exists pairs, CellTree2d_locate_boxes g0 3 t [Box (bf 1 (-1)) (bf 3 (-1)) (bf 1 (-1)) (bf 3 (-2));
                                                Box (Zb 5) (Zb 6) (Zb 0) (Zb 1)] = Ok pairs
    /\ In (0, 0) pairs /\ In (0, 1) pairs /\ length pairs = 2%nat.
Proof.
  intros E. assert (H : match CellTree2d_init (T:=b64) g0 grid grid_faces (-1) 4 2 with
    | Ok t => match CellTree2d_locate_boxes g0 3 t [Box (bf 1 (-1)) (bf 3 (-1)) (bf 1 (-1)) (bf 3 (-2));
                                                    Box (Zb 5) (Zb 6) (Zb 0) (Zb 1)] with
              | Ok l => l | Err _ => [] end | Err _ => [] end = [(0, 0); (0, 1)] \/
    match CellTree2d_init (T:=b64) g0 grid grid_faces (-1) 4 2 with
    | Ok t => match CellTree2d_locate_boxes g0 3 t [Box (bf 1 (-1)) (bf 3 (-1)) (bf 1 (-1)) (bf 3 (-2));
                                                    Box (Zb 5) (Zb 6) (Zb 0) (Zb 1)] with
              | Ok l => l | Err _ => [] end | Err _ => [] end = [(0, 1); (0, 0)])
    by (vm_compute; auto).
  rewrite E in H. destruct (CellTree2d_locate_boxes _ _ _ _) as [l|]; [|destruct H; discriminate].
  exists l. destruct H as [-> | ->]; repeat split; simpl; auto.
Qed.

(** points inside a face, on a shared edge, outside, and NaN *)
Example C08_example t : CellTree2d_init (T:=b64) g0 grid grid_faces (-1) 4 2 = Ok t ->
  exists j, (j = 0 \/ j = 1) /\
  CellTree2d_locate_points g0 t [Pt (bf 1 (-1)) (bf 1 (-1)); Pt (Zb 1) (bf 1 (-1)); Pt (Zb 4) (Zb 1);
                                 Pt (Zb 1) nanb; Pt (bf 5 (-1)) (bf 5 (-2))] None
  = Ok [0; j; -1; -1; 5].
Proof.
  intros E. assert (H : match CellTree2d_init (T:=b64) g0 grid grid_faces (-1) 4 2 with
    | Ok t => CellTree2d_locate_points g0 t
       [Pt (bf 1 (-1)) (bf 1 (-1)); Pt (Zb 1) (bf 1 (-1)); Pt (Zb 4) (Zb 1);
        Pt (Zb 1) nanb; Pt (bf 5 (-1)) (bf 5 (-2))] None
    | Err e => Err e end = Ok [0; 1; -1; -1; 5] \/
    match CellTree2d_init (T:=b64) g0 grid grid_faces (-1) 4 2 with
    | Ok t => CellTree2d_locate_points g0 t
       [Pt (bf 1 (-1)) (bf 1 (-1)); Pt (Zb 1) (bf 1 (-1)); Pt (Zb 4) (Zb 1);
        Pt (Zb 1) nanb; Pt (bf 5 (-1)) (bf 5 (-2))] None
    | Err e => Err e end = Ok [0; 0; -1; -1; 5]) by (vm_compute; auto).
  rewrite E in H. destruct H as [H|H]; [exists 1|exists 0]; auto.
Qed.

(** two parameter settings, as in C12 *)
Example C12_example : exists t t',
  CellTree2d_init (T:=b64) g0 grid grid_faces (-1) 4 2 = Ok t
  /\ CellTree2d_init (T:=b64) g0 grid grid_faces (-1) 2 1 = Ok t'
  /\ zlen (nodes (celltree_data t)) = 7 /\ zlen (nodes (celltree_data t')) = 13.
Proof.
  destruct grid_built_B64 as (t & E & L).
  assert (H : match CellTree2d_init (T:=b64) g0 grid grid_faces (-1) 2 1 with
              | Ok t => zlen (nodes (celltree_data t)) | Err _ => -1 end = 13)
    by (vm_compute; reflexivity).
  destruct (CellTree2d_init g0 grid grid_faces (-1) 2 1) as [t'|]; [|discriminate]. exists t, t'. auto.
Qed.

Example C37_example : run_list (A:=Z) [] [OPush 1; OPush 2; OPush 3; OPop; OPush 4; OPop; OPop] = Some [3; 4; 2].
Proof. reflexivity. Qed.

Example C44_example : CellTree2d_init (T:=b64) g0 grid grid_faces (-1) 1 2 = Err EValue
  /\ CellTree2d_init (T:=b64) g0 grid grid_faces (-1) 4 0 = Err EValue
  /\ CellTree2d_init (T:=b64) g0 grid [repeat 0 33] (-1) 4 2 = Err EValue.
Proof.
  split; [|split]; apply C44_invalid_rejected; auto with zarith.
Qed.

Print Assumptions C01_faces_stored_once.
Print Assumptions C01_edges_stored_once.
Print Assumptions C02_proper_tree.
Print Assumptions C02_proper_edge_tree.
Print Assumptions C03_construction_safe.
Print Assumptions C03_edge_construction_safe.
Print Assumptions C05_locate_boxes_brute_force.
Print Assumptions C06_boxes_thread_independent.
Print Assumptions C07_buffer_growth.
Print Assumptions C08_locate_points_sound.
Print Assumptions C09_locate_points_complete.
Print Assumptions C12_boxes_parameter_independent.
Print Assumptions C12_points_parameter_independent.
Print Assumptions C13_nan_points.
Print Assumptions C13_nan_edge_points.
Print Assumptions C13_nan_boxes.
Print Assumptions C14_edge_points_sound_complete.
Print Assumptions C37_stack_refines_list.
Print Assumptions C39_bounding_boxes.
Print Assumptions C39_edge_bounding_boxes.
Print Assumptions C44_invalid_rejected.
Print Assumptions C44_valid_accepted.
