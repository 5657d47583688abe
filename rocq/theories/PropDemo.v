(** Property theorems: demo.py (C50, C51). *)
From Coq Require Import Reals Lra Psatz Sorted.
From Flocq Require Import IEEE754.BinarySingleNaN Core.
From Verif Require Import RBase NumB64 NumSub MUtils MCelltree MDemo MDisk SpecQuery SpecApi PDemo GDisk Examples.

(** ** C50: closing polygons and listing edges *)
Theorem C50_close_polygons m fill faces nss : Forall2 (padded fill m) faces nss ->
  close_polygons faces fill = Ok (map (fun ns => ns ++ repeat (hd 0%Z ns) (S m - length ns)) nss).
Proof. exact (close_polygons_ok m fill faces nss). Qed.

(** each side of a face once, as (smaller, larger) node, in order *)
Theorem C50_edges m fill faces nss : Forall2 (padded fill m) faces nss ->
  exists es, edges faces fill = Ok es /\ StronglySorted lexlt es
    /\ forall u v, In (u, v) es <-> (u < v)%Z /\ exists ns, In ns nss /\ (side ns u v \/ side ns v u).
Proof. exact (edges_ok m fill faces nss). Qed.

(** the edges of a mesh are valid rows of an EdgeCellTree2d *)
Theorem C50_edges_network n_vertex m fill faces nss : Forall2 (padded fill m) faces nss -> nss <> [] ->
  Forall (fun ns => NoDup ns /\ (2 <= length ns)%nat /\ Forall (fun i => 0 <= i < Z.of_nat n_vertex)%Z ns) nss ->
  exists es, edges faces fill = Ok es /\ NoDup es /\ es <> [] /\ Forall (wf_edge n_vertex) (map (fun e => [fst e; snd e]) es)
    /\ (forall ns u v, In ns nss -> side ns u v -> In (Z.min u v, Z.max u v) es).
Proof.
  intros H Hne Hw. destruct (edges_ok m fill faces nss H) as (es & E & Hs & Hin). exists es. split; auto.
  rewrite Forall_forall in Hw.
  assert (Hside : forall ns u v, In ns nss -> side ns u v -> In u ns /\ In v ns /\ u <> v).
  { intros ns u v Hns (k & E1 & E2). destruct (Hw ns Hns) as (Hd & Hl & _). split; [eapply nth_error_In; eauto|]. split; [eapply nth_error_In; eauto|].
    intros <-. assert (L : (k < length ns)%nat) by (apply nth_error_Some; congruence).
    rewrite NoDup_nth_error in Hd. specialize (Hd k (S k mod length ns)%nat L ltac:(congruence)).
    destruct (Nat.lt_ge_cases (S k) (length ns)) as [L'|L'].
    - rewrite Nat.mod_small in Hd by lia. lia.
    - replace (S k) with (length ns) in Hd by lia. rewrite Nat.mod_same in Hd by lia. lia. }
  assert (Hall : forall ns u v, In ns nss -> side ns u v -> In (Z.min u v, Z.max u v) es).
  { intros ns u v Hns Hsd. destruct (Hside ns u v Hns Hsd) as (_ & _ & D). apply Hin. split; [lia|]. exists ns. split; auto.
    destruct (Z.lt_ge_cases u v); [left; rewrite Z.min_l, Z.max_r by lia; auto|right; rewrite Z.min_r, Z.max_l by lia; auto]. }
  split; [|split; [|split]]; auto.
  - clear -Hs. induction Hs as [|a l H IH F]; constructor; auto. intros Hi. rewrite Forall_forall in F. specialize (F a Hi). unfold lexlt in F. lia.
  - destruct nss as [|ns nss]; [congruence|]. destruct (Hw ns (or_introl eq_refl)) as (_ & Hl & _).
    destruct ns as [|a [|b ns]]; cbn in Hl; try lia.
    specialize (Hall (a :: b :: ns) a b (or_introl eq_refl)). intros ->. apply Hall. exists 0%nat. split; auto. 
    rewrite Nat.mod_small by (cbn; lia). reflexivity.
  - apply Forall_map, Forall_forall. intros (u, v) Hi. apply Hin in Hi as (L & ns & Hns & Hsd). cbn [fst snd]. exists u, v. split; auto.
    destruct (Hw ns Hns) as (_ & _ & Hr). rewrite Forall_forall in Hr.
    destruct Hsd as [Hsd|Hsd]; destruct (Hside _ _ _ Hns Hsd) as (I1 & I2 & _); split; apply Hr; auto.
Qed.

(** ** C51: the vertices of generate_disk *)
Theorem C51_disk partitions depth : (3 <= partitions)%Z -> (0 <= depth)%Z ->
  disk_vertices partitions depth = Ok (disk partitions depth)
  /\ NoDup (disk partitions depth) /\ (2 * (zlen (disk partitions depth) - 1) = partitions * depth * (depth + 1))%Z
  /\ Forall (fun p => px p * px p + py p * py p <= 1)%R (disk partitions depth).
Proof. intros H1 H2. split; [now apply disk_vertices_ok|]. now apply disk_geometry. Qed.

Theorem C51_disk_errors partitions depth :
  ((partitions < 3)%Z -> disk_vertices partitions depth = Err EValue)
  /\ ((3 <= partitions)%Z -> (depth < 0)%Z -> disk_vertices partitions depth = Err EIndex).
Proof.
  unfold disk_vertices. split.
  - intros H. destruct (partitions <? 3)%Z eqn:E; [reflexivity|lia].
  - intros H D. destruct (partitions <? 3)%Z eqn:E; [lia|]. replace (Z.to_nat (depth + 1)) with 0%nat by lia. reflexivity.
Qed.

(** ** Concrete cases *)
(** the grid of Examples: one cell has three nodes and a fill value *)
Definition grid_nodes : list (list Z) := [[0;1;5;4];[1;2;6;5];[2;6;7;3];[4;5;9;8];[5;6;10;9];[6;7;11];[6;10;11]]%Z.
Lemma grid_padded : Forall2 (padded (-1) 4) grid_faces grid_nodes.
Proof. unfold grid_faces, grid_nodes. repeat constructor; try discriminate; cbn; try lia; intuition discriminate. Qed.

Example C50_example : edges grid_faces (-1) = Ok [(0,1);(0,4);(1,2);(1,5);(2,3);(2,6);(3,7);(4,5);(4,8);(5,6);(5,9);(6,7);(6,10);(6,11);(7,11);(8,9);(9,10);(10,11)]%Z.
Proof. vm_compute. reflexivity. Qed.
Example C50_network_example : exists es, edges grid_faces (-1) = Ok es /\ Forall (wf_edge 12) (map (fun e => [fst e; snd e]) es).
Proof.
  destruct (C50_edges_network 12 4 (-1) grid_faces grid_nodes grid_padded) as (es & E & _ & _ & H & _); [discriminate| |eauto].
  unfold grid_nodes. repeat constructor; cbn; try lia; intuition discriminate.
Qed.
(** the first row shows the fill values replaced *)
Example C50_closed : close_polygons [[7;8;9;-1;-1];[1;2;3;4;-1]]%Z (-1) = Ok [[7;8;9;7;7;7];[1;2;3;4;1;1]]%Z.
Proof. vm_compute. reflexivity. Qed.

Example C51_example : disk_vertices 4 1 = Ok (disk 4 1) /\ zlen (disk 4 1) = 5%Z
  /\ exists p, nth_error (disk 4 1) 1 = Some p /\ px p = 0%R /\ py p = 1%R.
Proof.
  split; [apply C51_disk; lia|]. split; [reflexivity|]. eexists. split; [reflexivity|]. unfold ring_point. cbn [px py].
  change (IZR (Z.of_nat 0)) with 0%R. change (IZR (Z.of_nat 0 + 1)) with 1%R.
  replace (/ 2 * PI + 2 * PI * 0 / IZR (4 * (Z.of_nat 0 + 1)))%R with (PI / 2)%R by (unfold Rdiv; ring).
  rewrite cos_PI2, sin_PI2. split; lra.
Qed.

(** the network of example_1d_network in binary64: the tree is built, and the
    middle of each edge is located on that edge *)
Definition middle (e : list Z) (vs : list (point b64)) : point b64 :=
  match e with
  | [i; j] => match aget vs i, aget vs j with Ok p, Ok q => Pt (nhalf * (px p + px q))%num (nhalf * (py p + py q))%num | _, _ => Pt 0%num 0%num end
  | _ => Pt 0%num 0%num
  end.
Example C51_network : match EdgeCellTree2d_init (T:=b64) g0 (fst example_1d_network) (snd example_1d_network) 4 2 with
  | Ok t => EdgeCellTree2d_locate_points g0 t (map (fun e => middle e (fst example_1d_network)) (snd (example_1d_network (T:=b64)))) None
  | Err e => Err e end = Ok (iota 9).
Proof. vm_compute. reflexivity. Qed.

Print Assumptions C50_close_polygons.
Print Assumptions C50_edges.
Print Assumptions C50_edges_network.
Print Assumptions C51_disk.
Print Assumptions C51_disk_errors.
