(** Property theorems: where nodes are split (C77). *)
From Verif Require Import RBase NumB64 MGeometry MCreation MAlgorithms MQuery MCelltree SpecTree SpecQuery SpecApi SpecGeom SpecPoly SpecMesh SpecOcc SpecSplit
  PBuild PBuild2 PMesh PInit PPoints PTreeFacts PApi POcc PSplit GSplit GBuild GConvex
  Examples PropEdges PropPoints PropClipLine PropArea PropPieces PropOcc.
Open Scope Z_scope.

(** ** C77: the two halves of every divided node *)
Section Divided.
  Context {T : Type} {NT : Num T} {NO : NumOrd T}.

  Lemma mesh_cut g vs faces fill nb cpl (t : tree2d (T:=T)) :
    mesh_ok vs faces fill -> CellTree2d_init g vs faces fill nb cpl = Ok t ->
    let c := celltree_data t in
    1 <= nb /\ Forall fin_box (bb_coords c)
    /\ forall nd, In nd (nodes c) -> nchild nd <> -1 ->
      0 <= nptr nd /\ nptr nd + nsize nd <= zlen (bb_indices c)
      /\ exists r, aget (nodes c) (nchild nd + 1) = Ok r /\ Cut (bb_coords c) nb cpl (bb_indices c) nd (nptr r).
  Proof.
    intros Hm E. pose proof (init_built _ _ _ _ _ _ _ Hm E) as Hb. pose proof (built_valid _ _ _ _ _ Hb) as Hv.
    pose proof (vt_nonempty _ Hv) as Hn. pose proof (vt_finite _ Hv) as Hf. pose proof (vt_elements _ Hv) as Hl.
    unfold CellTree2d_init in E. apply bind_ok in E as (u & Ec & E). apply check_params_ok in Ec as (Hnb & Hcpl).
    apply bind_ok in E as (fs0 & _ & E). apply bind_ok in E as (fs & _ & E). apply bind_ok in E as (bbs & _ & E).
    apply bind_ok in E as ((nds, bbi) & Ei & E). apply bind_ok in E as (bb & _ & E). inversion E; subst t. clear E.
    cbn [celltree_data nodes bb_coords bb_indices elements] in *. cbv zeta. split; [lia|]. split; auto.
    apply (initialize_split bbs Hf g nb cpl ltac:(lia) Hcpl (length fs) (build_fuel (length fs)) nds bbi); try lia; auto.
    - unfold zlen. lia.
    - unfold build_fuel. lia.
  Qed.
  Lemma network_cut g vs edges nb cpl (t : tree2d (T:=T)) :
    network_ok vs edges -> EdgeCellTree2d_init g vs edges nb cpl = Ok t ->
    let c := celltree_data t in
    1 <= nb /\ Forall fin_box (bb_coords c)
    /\ forall nd, In nd (nodes c) -> nchild nd <> -1 ->
      0 <= nptr nd /\ nptr nd + nsize nd <= zlen (bb_indices c)
      /\ exists r, aget (nodes c) (nchild nd + 1) = Ok r /\ Cut (bb_coords c) nb cpl (bb_indices c) nd (nptr r).
  Proof.
    intros Hm E. pose proof (init_built_edges _ _ _ _ _ _ Hm E) as Hb. pose proof (built_edges_valid _ _ _ _ Hb) as Hv.
    pose proof (vt_nonempty _ Hv) as Hn. pose proof (vt_finite _ Hv) as Hf. pose proof (vt_elements _ Hv) as Hl.
    unfold EdgeCellTree2d_init in E. apply bind_ok in E as (u & Ec & E). apply check_params_ok in Ec as (Hnb & Hcpl).
    do 4 apply bind_ok in E as (? & _ & E). apply bind_ok in E as (bbs & _ & E).
    apply bind_ok in E as ((nds, bbi) & Ei & E). apply bind_ok in E as (bb & _ & E). inversion E; subst t. clear E.
    cbn [celltree_data nodes bb_coords bb_indices elements] in *. cbv zeta. split; [lia|]. split; auto.
    apply (initialize_split bbs Hf g nb cpl ltac:(lia) Hcpl (length edges) (build_fuel (length edges)) nds bbi); try lia; auto.
    - unfold zlen. lia.
    - unfold build_fuel. lia.
  Qed.

  Theorem C77_divided g vs faces fill nb cpl (t : tree2d (T:=T)) :
    mesh_ok vs faces fill -> CellTree2d_init g vs faces fill nb cpl = Ok t ->
    let c := celltree_data t in
    forall nd, In nd (nodes c) -> nchild nd <> -1 ->
      exists r, aget (nodes c) (nchild nd + 1) = Ok r
        /\ node_divided nb cpl (bb_coords c) (bb_indices c) nd (nptr r).
  Proof.
    intros Hm E c nd Hin Hc. destruct (mesh_cut _ _ _ _ _ _ _ Hm E) as (Hnb & Hf & H). fold c in H.
    destruct (H nd Hin Hc) as (H0 & H1 & r & Er & Hr). exists r. split; auto. now apply cut_divided.
  Qed.
  Theorem C77_network_divided g vs edges nb cpl (t : tree2d (T:=T)) :
    network_ok vs edges -> EdgeCellTree2d_init g vs edges nb cpl = Ok t ->
    let c := celltree_data t in
    forall nd, In nd (nodes c) -> nchild nd <> -1 ->
      exists r, aget (nodes c) (nchild nd + 1) = Ok r
        /\ node_divided nb cpl (bb_coords c) (bb_indices c) nd (nptr r).
  Proof.
    intros Hm E c nd Hin Hc. destruct (network_cut _ _ _ _ _ _ Hm E) as (Hnb & Hf & H). fold c in H.
    destruct (H nd Hin Hc) as (H0 & H1 & r & Er & Hr). exists r. split; auto. now apply cut_divided.
  Qed.
End Divided.

(** over the reals no other cut has a lower estimated cost *)
Theorem C77_cheapest g vs faces fill nb cpl (t : tree2d (T:=R)) :
  mesh_ok vs faces fill -> CellTree2d_init g vs faces fill nb cpl = Ok t ->
  let c := celltree_data t in
  forall nd, In nd (nodes c) -> nchild nd <> -1 ->
    exists r, aget (nodes c) (nchild nd + 1) = Ok r
      /\ divided_cheaply nb cpl (bb_coords c) (bb_indices c) nd (nptr r).
Proof.
  intros Hm E c nd Hin Hc. destruct (mesh_cut _ _ _ _ _ _ _ Hm E) as (Hnb & Hf & H). fold c in H.
  destruct (H nd Hin Hc) as (H0 & H1 & r & Er & Hr). exists r. split; auto. now apply cut_cheap.
Qed.
Theorem C77_network_cheapest g vs edges nb cpl (t : tree2d (T:=R)) :
  network_ok vs edges -> EdgeCellTree2d_init g vs edges nb cpl = Ok t ->
  let c := celltree_data t in
  forall nd, In nd (nodes c) -> nchild nd <> -1 ->
    exists r, aget (nodes c) (nchild nd + 1) = Ok r
      /\ divided_cheaply nb cpl (bb_coords c) (bb_indices c) nd (nptr r).
Proof.
  intros Hm E c nd Hin Hc. destruct (network_cut _ _ _ _ _ _ Hm E) as (Hnb & Hf & H). fold c in H.
  destruct (H nd Hin Hc) as (H0 & H1 & r & Er & Hr). exists r. split; auto. now apply cut_cheap.
Qed.

(** ** The estimate is not the cost: it looks at the last part before the cut
    only.  A long face in an earlier part makes the chosen cut dearer than
    another one. *)
Section RealCost.
  Context {T : Type} {NT : Num T}.
  Definition top (d : bool) (l : list (box T)) : T := fold_left (fun m b => if nltb m (side_hi d b) then side_hi d b else m) l nfmin.
  Definition bottom (d : bool) (l : list (box T)) : T := fold_left (fun m b => if nltb (side_lo d b) m then side_lo d b else m) l nfmax.
  (** the extent of each half on its side of the node, times its number of boxes *)
  Definition real_cost (d : bool) (l1 l2 : list (box T)) : T :=
    nadd (nmul (nsub (top d l1) (bottom d (l1 ++ l2))) (nofZ (zlen l1)))
         (nmul (nsub (top d (l1 ++ l2)) (bottom d l2)) (nofZ (zlen l2))).
  Definition separated (d : bool) (x : T) (l1 l2 : list (box T)) : bool :=
    forallb (fun b => nltb (centre d b) x) l1 && forallb (fun b => nleb x (centre d b)) l2.
End RealCost.

(** four disjoint triangles: a long one and three small ones *)
Definition long_vs : list (point b64) := map ptZ
  [(0,0);(15,0);(7,-1); (8,1);(10,1);(9,2); (8,3);(10,3);(9,4); (15,1);(16,1);(16,2)]%Z.
Definition long_faces : list (list Z) := [[0;2;1];[3;4;5];[6;7;8];[9;10;11]]%Z.
Lemma long_mesh : mesh_ok (T:=b64) long_vs long_faces (-1).
Proof. constructor; [repeat constructor|discriminate|]. repeat constructor; simpl; lia. Qed.

Definition quarter (d : bool) (l : list (box b64)) (k : Z) : b64 :=
  match ndiv (nsub (top d l) (bottom d l)) (nofZ 4) with Ok len => nadd (nmul (nofZ k) len) (bottom d l) | Err _ => nfmax end.

(** the tree in numbers, and the comparison of the two ways to divide the root *)
Definition nth_box (t : tree2d (T:=b64)) (i : nat) : box b64 := nth i (bb_coords (celltree_data t)) (Box nfmax nfmax nfmax nfmax).
Definition long_nodes (t : tree2d (T:=b64)) := map (fun nd => (nchild nd, nptr nd, nsize nd, ndim nd)) (firstn 3 (nodes (celltree_data t))).
Definition long_sep (t : tree2d (T:=b64)) : bool :=
  let m1 := [nth_box t 0] in let m2 := [nth_box t 1; nth_box t 2; nth_box t 3] in separated false (quarter false (m1 ++ m2) 2) m1 m2.
Definition long_less (t : tree2d (T:=b64)) : bool :=
  nltb (real_cost false [nth_box t 0] [nth_box t 1; nth_box t 2; nth_box t 3])
       (real_cost false [nth_box t 0; nth_box t 1; nth_box t 2] [nth_box t 3]).
Definition of_ok {A B} (r : res A) (f : A -> B) : option B := match r with Ok t => Some (f t) | Err _ => None end.
Lemma of_ok_some {A B} (r : res A) (f : A -> B) t v : r = Ok t -> of_ok r f = Some v -> f t = v.
Proof. intros -> H. cbn in H. now inversion H. Qed.

Theorem C77_real_cost_refuted : exists vs faces (t : tree2d (T:=b64)) nd r l1 l2 m1 m2 k,
  let c := celltree_data t in let d := ndim nd in
  mesh_ok vs faces (-1) /\ CellTree2d_init g0 vs faces (-1) 4 2 = Ok t
  /\ aget (nodes c) 0 = Ok nd /\ nptr nd = 0 /\ nsize nd = zlen faces /\ aget (nodes c) (nchild nd + 1) = Ok r
  /\ boxes_in (bb_coords c) (bb_indices c) 0 (nptr r) l1 /\ boxes_in (bb_coords c) (bb_indices c) (nptr r) (zlen faces) l2
  /\ Permutation (l1 ++ l2) (m1 ++ m2) /\ 0 < k < 4 /\ separated d (quarter d (m1 ++ m2) k) m1 m2 = true
  /\ nltb (real_cost d m1 m2) (real_cost d l1 l2) = true.
Proof.
  destruct (CellTree2d_init (T:=b64) g0 long_vs long_faces (-1) 4 2) as [t|e] eqn:E.
  2:{ exfalso. assert (S : of_ok (CellTree2d_init (T:=b64) g0 long_vs long_faces (-1) 4 2) (fun _ => tt) = Some tt) by (vm_compute; reflexivity).
      rewrite E in S. discriminate. }
  assert (S1 : long_nodes t = [(1, 0, 4, false); (3, 0, 3, true); (-1, 3, 1, true)])
    by (apply (of_ok_some _ _ _ _ E); vm_compute; reflexivity).
  assert (S2 : bb_indices (celltree_data t) = [0; 1; 2; 3])
    by (apply (of_ok_some _ (fun t => bb_indices (celltree_data t)) _ _ E); vm_compute; reflexivity).
  assert (S3 : length (bb_coords (celltree_data t)) = 4%nat)
    by (apply (of_ok_some _ (fun t => length (bb_coords (celltree_data t))) _ _ E); vm_compute; reflexivity).
  assert (S4 : long_sep t = true) by (apply (of_ok_some _ _ _ _ E); vm_compute; reflexivity).
  assert (S5 : long_less t = true) by (apply (of_ok_some _ _ _ _ E); vm_compute; reflexivity).
  unfold long_nodes in S1.
  destruct (nodes (celltree_data t)) as [|nd [|lc [|rc rest]]] eqn:En; try discriminate S1.
  cbn [firstn map] in S1. injection S1 as A1 A2 A3 A4 _ _ _ _ B1 B2 B3 B4.
  exists long_vs, long_faces, t, nd, rc, [nth_box t 0; nth_box t 1; nth_box t 2], [nth_box t 3],
    [nth_box t 0], [nth_box t 1; nth_box t 2; nth_box t 3], 2.
  cbv zeta. rewrite En, S2, A1, A2, A3, A4, B2. change (zlen long_faces) with 4.
  assert (Hb : forall i, (i < 4)%nat -> aget (bb_coords (celltree_data t)) (Z.of_nat i) = Ok (nth_box t i)).
  { intros i Hi. apply aget_pos; [lia|]. rewrite Nat2Z.id. apply nth_error_nth'. lia. }
  split; [exact long_mesh|]. split; [exact E|]. split; [apply aget_pos; [lia|reflexivity]|]. split; [reflexivity|]. split; [reflexivity|]. split; [apply aget_pos; [lia|reflexivity]|].
  split; [exists [], [0; 1; 2], [3]|].
  { split; [reflexivity|]. split; [reflexivity|]. split; [reflexivity|].
    constructor; [apply (Hb 0%nat); lia|]. constructor; [apply (Hb 1%nat); lia|]. constructor; [apply (Hb 2%nat); lia|constructor]. }
  split; [exists [0; 1; 2], [3], []|].
  { split; [reflexivity|]. split; [reflexivity|]. split; [reflexivity|]. constructor; [apply (Hb 3%nat); lia|constructor]. }
  split; [reflexivity|]. split; [lia|]. split; [exact S4|exact S5].
Qed.

(** ** Examples *)
(** binary64: the root of the grid is divided *)
Example C77_example : exists t nd,
  mesh_ok (T:=b64) grid grid_faces (-1) /\ CellTree2d_init (T:=b64) g0 grid grid_faces (-1) 4 2 = Ok t
  /\ In nd (nodes (celltree_data t)) /\ nchild nd <> -1 /\ nsize nd = 7.
Proof.
  destruct C66_example as (_ & t & _ & Hm & _ & _ & E & S). cbn [shape] in S.
  destruct (nodes (celltree_data t)) as [|nd rest] eqn:En; [discriminate|]. cbn [map] in S. injection S as S1 S2 _.
  exists t, nd. split; auto. split; auto. split; [rewrite En; now left|]. split; [lia|auto].
Qed.
(** exact reals: the root of four squares, with one per leaf *)
Example C77_cheapest_example : exists t nd,
  mesh_ok (T:=R) four four_faces (-1) /\ CellTree2d_init (T:=R) g0 four four_faces (-1) 4 1 = Ok t
  /\ In nd (nodes (celltree_data t)) /\ nchild nd <> -1 /\ nsize nd = 4.
Proof.
  destruct C66_separate_example as (t & E & _ & _ & H). pose proof (init_built _ _ _ _ _ _ _ four_mesh E) as Hb.
  pose proof (built_valid _ _ _ _ _ Hb) as Hv. destruct (vt_tree _ Hv) as (S & HT & _).
  assert (Hl : zlen (bb_coords (celltree_data t)) = 4) by (unfold zlen; rewrite (bt_len _ _ _ _ _ Hb); reflexivity). rewrite Hl in HT.
  inversion HT as [? ? ? nd _ En Hc Hptr Hsz Hlt|? ? mid ? nd c S1 S2 _ En Hc Hlt Hptr Hsz _ _ _ _ T1 T2]; subst; apply aget_in in En.
  - specialize (H nd En Hc). lia.
  - exists t, nd. split; [exact four_mesh|]. split; auto. split; auto. split; lia.
Qed.

Print Assumptions C77_divided.
Print Assumptions C77_network_divided.
Print Assumptions C77_cheapest.
Print Assumptions C77_network_cheapest.
Print Assumptions C77_real_cost_refuted.
