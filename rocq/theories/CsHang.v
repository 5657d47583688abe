(** The clipping loop of cohen_sutherland.py does not terminate in binary64
    for ordinary input: the square [0.2, 0.9] x [0.2, 0.9] and the edge from
    (0.3, 0.3) to (1.0, 1.0). *)
From Verif Require Import Base Num MUtils MGeometry MCreation MAlgorithms MQuery MCelltree
  NumB64 SpecApi Examples.
From Flocq Require Import Core BinarySingleNaN.
Open Scope Z_scope.

(** the double nearest to n / 10 *)
Definition tenth (n : Z) : b64 := Bdiv mode_NE (Zb n) (Zb 10).

Definition hang_box : box b64 := Box (tenth 2) (tenth 9) (tenth 2) (tenth 9).
Definition hang_a : point b64 := Pt (tenth 3) (tenth 3).
Definition hang_b : point b64 := Pt (tenth 10) (tenth 10).
(** 0.9 + 2^-53 *)
Definition above9 : b64 := Bplus mode_NE (tenth 9) (bf 1 (-53)).
Definition hang_p : point b64 := Pt above9 (tenth 9).
Definition hang_q : point b64 := Pt (tenth 9) above9.

Lemma pt_eq (p q : point b64) :
  B2SF (px p) = B2SF (px q) -> B2SF (py p) = B2SF (py q) -> p = q.
Proof.
  destruct p, q; cbn. intros A B. apply B2SF_inj in A, B. now subst.
Qed.

Definition res_pt (r : res (point b64)) (q : point b64) : Prop :=
  match r with Ok p => B2SF (px p) = B2SF (px q) /\ B2SF (py p) = B2SF (py q) | Err _ => False end.
Lemma res_pt_eq r q : res_pt r q -> r = Ok q.
Proof. destruct r; cbn; [|tauto]. intros (A & B). f_equal. now apply pt_eq. Qed.

Lemma step_b (K : box b64) f a b k2 xy :
  k2 <> 0 ->
  cs_move a (nsub (px b) (px a)) (nsub (py b) (py a)) K k2 = Ok xy ->
  neqb (nsub (px xy) (px a)) (nofZ 0) && neqb (nsub (py xy) (py a)) (nofZ 0) = false ->
  cs_loop K (S f) a b 0 k2 = cs_loop K f a xy 0 (get_clip xy K).
Proof.
  intros Hk E D. cbn [cs_loop].
  rewrite Z.lor_0_l, Z.land_0_l. cbn [Z.eqb negb].
  destruct (Z.eqb_spec k2 0) as [->|_]; [congruence|].
  cbv zeta. rewrite E. cbn [bind]. rewrite D. reflexivity.
Qed.

Lemma hang_cycle f : cs_loop hang_box f hang_a hang_p 0 2 = Err EFuel
  /\ cs_loop hang_box f hang_a hang_q 0 8 = Err EFuel.
Proof.
  induction f as [|f (IH1 & IH2)]; [split; reflexivity|]. split.
  - rewrite step_b with (xy := hang_q).
    + replace (get_clip hang_q hang_box) with 8 by (vm_compute; reflexivity). exact IH2.
    + discriminate.
    + apply res_pt_eq. vm_compute. split; reflexivity.
    + vm_compute. reflexivity.
  - rewrite step_b with (xy := hang_p).
    + replace (get_clip hang_p hang_box) with 2 by (vm_compute; reflexivity). exact IH1.
    + discriminate.
    + apply res_pt_eq. vm_compute. split; reflexivity.
    + vm_compute. reflexivity.
Qed.

(** no number of rounds is enough *)
Lemma clip_hangs f : cohen_sutherland_line_box_clip f hang_a hang_b hang_box = Err EFuel.
Proof.
  unfold cohen_sutherland_line_box_clip.
  replace (neqb _ _ && _) with false by (vm_compute; reflexivity).
  replace (get_clip hang_a hang_box) with 0 by (vm_compute; reflexivity).
  replace (get_clip hang_b hang_box) with 10 by (vm_compute; reflexivity).
  destruct f as [|f]; [reflexivity|].
  rewrite step_b with (xy := hang_p).
  - replace (get_clip hang_p hang_box) with 2 by (vm_compute; reflexivity).
    apply hang_cycle.
  - discriminate.
  - apply res_pt_eq. vm_compute. split; reflexivity.
  - vm_compute. reflexivity.
Qed.

(** A mesh of this one square, and the query from the public method *)
Definition hang_vertices : list (point b64) :=
  [Pt (tenth 2) (tenth 2); Pt (tenth 9) (tenth 2); Pt (tenth 9) (tenth 9); Pt (tenth 2) (tenth 9)].
Definition hang_faces : list (list Z) := [[0;1;2;3]].

Lemma hang_mesh_ok : mesh_ok hang_vertices hang_faces (-1).
Proof.
  constructor.
  - repeat constructor.
  - discriminate.
  - repeat constructor; simpl; try lia.
Qed.

Definition box_key (b : box b64) := (B2SF (xmin b), B2SF (xmax b), B2SF (ymin b), B2SF (ymax b)).
Lemma box_key_inj a b : box_key a = box_key b -> a = b.
Proof.
  destruct a, b; unfold box_key; cbn. intros H. injection H as A B C D.
  apply B2SF_inj in A, B, C, D. now subst.
Qed.

Lemma hang_built : exists t, CellTree2d_init g0 hang_vertices hang_faces (-1) 4 2 = Ok t
  /\ bbox (celltree_data t) = hang_box.
Proof.
  assert (H : match CellTree2d_init g0 hang_vertices hang_faces (-1) 4 2 with
              | Ok t => box_key (bbox (celltree_data t)) = box_key hang_box | Err _ => False end)
    by (vm_compute; reflexivity).
  destruct (CellTree2d_init _ _ _ _ _ _) as [t|]; [|tauto]. exists t. split; auto.
  now apply box_key_inj.
Qed.

Lemma first_chunk_one {A} (x : A) n : (1 <= n)%nat ->
  exists rest, array_split [x] n = [x] :: rest.
Proof.
  intros Hn. unfold array_split. cbn [length].
  destruct n as [|[|n]]; [lia| |].
  - eexists. reflexivity.
  - rewrite Nat.div_small, Nat.mod_small by lia. cbn. eexists. reflexivity.
Qed.

Lemma query_hangs (t : tree2d (T:=b64)) : bbox (celltree_data t) = hang_box ->
  forall g csfuel n, (1 <= n)%nat ->
  CellTree2d_intersect_edges g csfuel n t [(hang_a, hang_b)] = Err EFuel.
Proof.
  intros E g csfuel n Hn. unfold CellTree2d_intersect_edges, locate_edge_faces, locate_edges.
  destruct (first_chunk_one (hang_a, hang_b) n Hn) as (rest & ->).
  cbn [chunk_offsets combine mapres]. unfold locate_edges_helper at 1.
  cbn [fst snd query_loop retry]. unfold retry_fuel. cbn [retry].
  unfold locate_edge at 1. rewrite E, clip_hangs. reflexivity.
Qed.
