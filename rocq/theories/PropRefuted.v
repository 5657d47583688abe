(** Behaviour that contradicts the documentation or what a user would expect,
    with concrete inputs in IEEE binary64 (C10, C11, C20, C29, C32). *)
From Coq Require Import Reals Lra.
From Flocq Require Import Core BinarySingleNaN.
From Verif Require Import Base Num MUtils MGeometry MCreation MAlgorithms MQuery MCelltree
  SpecTree SpecQuery SpecApi NumR NumB64 NumRoom Examples CsHang.
Open Scope Z_scope.

(** read a result that is known to be Ok by computation *)
Tactic Notation "okay" simple_intropattern(t) ident(E) :=
  match goal with
  | H : match ?r with Ok _ => _ | Err _ => _ end = _ |- _ =>
      destruct r as [t|] eqn:E; [|discriminate H]
  end.

Lemma map_inj {A B} (f : A -> B) : (forall x y, f x = f y -> x = y) ->
  forall l l', map f l = map f l' -> l = l'.
Proof.
  intros Hf. induction l as [|x l IH]; intros [|y l'] H; try discriminate; auto.
  cbn [map] in H. assert (f x = f y) by congruence. assert (map f l = map f l') by congruence.
  f_equal; auto.
Qed.

(** ** C11: close to a face but outside its bounding box *)
Definition three_squares : list (point b64) :=
  map ptZ [(0,0);(1,0);(1,1);(0,1);(3,0);(4,0);(4,1);(3,1);(6,0);(7,0);(7,1);(6,1)].
Definition three_faces : list (list Z) := [[0;1;2;3];[4;5;6;7];[8;9;10;11]].
Lemma three_squares_mesh : mesh_ok three_squares three_faces (-1).
Proof.
  constructor.
  - repeat constructor.
  - discriminate.
  - repeat constructor; simpl; try lia.
Qed.
(** (1 + 2^-44, 1/2), at a distance 5.7e-14 of the first square *)
Definition close_point : point b64 := Pt (bf (2 ^ 44 + 1) (-44)) (bf 1 (-1)).

Theorem C11_tree_dependent_refuted : exists vs faces p t1 t2,
  mesh_ok (T:=b64) vs faces (-1)
  /\ CellTree2d_init g0 vs faces (-1) 4 3 = Ok t1
  /\ CellTree2d_init g0 vs faces (-1) 4 1 = Ok t2
  /\ CellTree2d_locate_points g0 t1 [p] None = Ok [0]
  /\ CellTree2d_locate_points g0 t2 [p] None = Ok [-1].
Proof.
  exists three_squares, three_faces, close_point.
  assert (H : match CellTree2d_init g0 three_squares three_faces (-1) 4 3 with
              | Ok t1 => match CellTree2d_init g0 three_squares three_faces (-1) 4 1 with
                | Ok t2 => match CellTree2d_locate_points g0 t1 [close_point] None with
                  | Ok a => match CellTree2d_locate_points g0 t2 [close_point] None with
                    | Ok b => (a, b) | Err _ => ([], []) end
                  | Err _ => ([], []) end
                | Err _ => ([], []) end
              | Err _ => ([], []) end = ([0], [-1])) by (vm_compute; reflexivity).
  okay t1 E1. okay t2 E2. okay a E3. okay b E4. inversion H; subst.
  exists t1, t2. split; [exact three_squares_mesh|]. auto.
Qed.

(** ** C10: with tolerance 0 a point on the boundary can be lost: a vertex and
    the middle of the top side of a square *)
Theorem C10_zero_tolerance_refuted : exists vs faces t,
  mesh_ok (T:=b64) vs faces (-1)
  /\ CellTree2d_init g0 vs faces (-1) 4 2 = Ok t
  /\ CellTree2d_locate_points g0 t [Pt (Zb 1) (Zb 1); Pt (bf 1 (-1)) (Zb 1)] (Some (Zb 0)) = Ok [-1; -1]
  /\ CellTree2d_locate_points g0 t [Pt (Zb 1) (Zb 1); Pt (bf 1 (-1)) (Zb 1)] None = Ok [0; 0].
Proof.
  exists three_squares, three_faces.
  assert (H : match CellTree2d_init g0 three_squares three_faces (-1) 4 2 with
              | Ok t1 => match CellTree2d_locate_points g0 t1 [Pt (Zb 1) (Zb 1); Pt (bf 1 (-1)) (Zb 1)] (Some (Zb 0)) with
                  | Ok a => match CellTree2d_locate_points g0 t1 [Pt (Zb 1) (Zb 1); Pt (bf 1 (-1)) (Zb 1)] None with
                    | Ok b => (a, b) | Err _ => ([], []) end
                  | Err _ => ([], []) end
              | Err _ => ([], []) end = ([-1; -1], [0; 0])) by (vm_compute; reflexivity).
  okay t1 E1. okay a E3. okay b E4. inversion H; subst.
  exists t1. split; [exact three_squares_mesh|]. auto.
Qed.

(** ** C29: a clockwise face with a hanging node *)
Definition cw_pts : list (point b64) :=
  [Pt (Zb 0) (Zb 0); Pt (Zb 0) (Zb 1); Pt (Zb 1) (Zb 1); Pt (Zb 1) (Zb 0); Pt (bf 1 (-1)) (Zb 0)].
Definition cw_face : list (list Z) := [[0;1;2;3;4]].
Lemma cw_mesh : mesh_ok cw_pts cw_face (-1).
Proof.
  constructor.
  - repeat constructor.
  - discriminate.
  - repeat constructor; simpl; try lia.
Qed.
Definition unit_box : box b64 := Box (Zb 0) (Zb 1) (Zb 0) (Zb 1).

(** the face stays clockwise; its overlap with the box it fills completely is
    not reported *)
Theorem C29_hanging_node_refuted : exists vs faces bx t,
  mesh_ok (T:=b64) vs faces (-1)
  /\ CellTree2d_init g0 vs faces (-1) 4 2 = Ok t
  /\ elements (celltree_data t) = faces
  /\ CellTree2d_locate_boxes g0 4 t [bx] = Ok [(0, 0)]
  /\ CellTree2d_intersect_boxes g0 4 t [bx] = Ok []
  (* the same face, listed counter-clockwise: area 1 *)
  /\ exists t', CellTree2d_init g0 vs (map (@rev Z) faces) (-1) 4 2 = Ok t'
     /\ elements (celltree_data t') = map (@rev Z) faces
     /\ CellTree2d_intersect_boxes g0 4 t' [bx] = Ok [((0, 0), Zb 1)].
Proof.
  exists cw_pts, cw_face, unit_box.
  assert (H : match CellTree2d_init g0 cw_pts cw_face (-1) 4 2 with
              | Ok t => match CellTree2d_locate_boxes g0 4 t [unit_box] with
                 | Ok a => match CellTree2d_intersect_boxes g0 4 t [unit_box] with
                   | Ok b => (elements (celltree_data t), a, map fst b) | Err _ => ([], [], []) end
                 | Err _ => ([], [], []) end
              | Err _ => ([], [], []) end = (cw_face, [(0, 0)], [])) by (vm_compute; reflexivity).
  okay t E1. okay a E2. okay b E3. injection H as Ha Hb Hc. exists t.
  split; [exact cw_mesh|]. split; auto. split; auto. split; [congruence|].
  split; [destruct b; [assumption|discriminate]|].
  assert (H' : match CellTree2d_init g0 cw_pts (map (@rev Z) cw_face) (-1) 4 2 with
              | Ok t => match CellTree2d_intersect_boxes g0 4 t [unit_box] with
                   | Ok b => (elements (celltree_data t), map (fun r => (fst r, B2SF (snd r))) b)
                   | Err _ => ([], []) end
              | Err _ => ([], []) end = (map (@rev Z) cw_face, [((0, 0), B2SF (Zb 1))]))
    by (vm_compute; reflexivity).
  okay t' E1'. okay b' E2'. pose proof (f_equal fst H') as Ha'. pose proof (f_equal snd H') as Hb'. cbn [fst snd] in Ha', Hb'. exists t'. split; auto. split; auto.
  destruct b' as [|(ij, x) [|]]; try discriminate. cbn [map fst snd] in Hb'. 
  assert (Hx : B2SF x = B2SF (Zb 1)) by congruence. assert (ij = (0, 0)) by congruence.
  subst ij. apply B2SF_inj in Hx. now subst x.
Qed.

(** ** C32: a boundary point next to a hanging node *)
Definition hang_pts : list (point b64) :=
  map ptZ [(2,0);(2,2);(0,2);(0,0);(1,0)].
Definition hang_face : list (list Z) := [[0;1;2;3;4]].
Lemma hang_mesh : mesh_ok hang_pts hang_face (-1).
Proof.
  constructor.
  - repeat constructor.
  - discriminate.
  - repeat constructor; simpl; try lia.
Qed.
Definition half_point : point b64 := Pt (bf 1 (-1)) (Zb 0).

(** sum of w_i x_i *)
Definition wsum (ws xs : list b64) : b64 :=
  fold_left (fun s wx => nadd s (nmul (fst wx) (snd wx))) (combine ws xs) (Zb 0).

Theorem C32_hanging_node_refuted : exists vs faces p t ws,
  mesh_ok (T:=b64) vs faces (-1)
  /\ CellTree2d_init g0 vs faces (-1) 4 2 = Ok t
  /\ elements (celltree_data t) = faces
  /\ CellTree2d_compute_barycentric_weights g0 t 5 [p] None = Ok ([0], [ws])
  /\ ws = [bf 1 (-1); Zb 0; Zb 0; Zb 0; bf 1 (-1)]
  (* the point is (0.5, 0), the weights give (1.5, 0) *)
  /\ p = Pt (bf 1 (-1)) (Zb 0)
  /\ wsum ws (map px vs) = bf 3 (-1) /\ wsum ws (map py vs) = Zb 0.
Proof.
  exists hang_pts, hang_face, half_point.
  assert (H : match CellTree2d_init g0 hang_pts hang_face (-1) 4 2 with
              | Ok t => match CellTree2d_compute_barycentric_weights g0 t 5 [half_point] None with
                 | Ok a => (elements (celltree_data t), fst a, map (map (@B2SF 53 1024)) (snd a))
                 | Err _ => ([], [], []) end
              | Err _ => ([], [], []) end
              = (hang_face, [0], [map (@B2SF 53 1024) [bf 1 (-1); Zb 0; Zb 0; Zb 0; bf 1 (-1)]]))
    by (vm_compute; reflexivity).
  okay t E1. okay a E2. pose proof (f_equal (fun x => fst (fst x)) H) as Ha. pose proof (f_equal (fun x => snd (fst x)) H) as Hb.
  pose proof (f_equal snd H) as Hc. cbn [fst snd] in Ha, Hb, Hc. exists t, [bf 1 (-1); Zb 0; Zb 0; Zb 0; bf 1 (-1)].
  split; [exact hang_mesh|]. split; auto. split; auto.
  split.
  { destruct a as (js, wss). cbn [fst snd] in *. subst js. rewrite E2. do 2 f_equal.
    change [map (@B2SF 53 1024) [bf 1 (-1); Zb 0; Zb 0; Zb 0; bf 1 (-1)]]
      with (map (map (@B2SF 53 1024)) [[bf 1 (-1); Zb 0; Zb 0; Zb 0; bf 1 (-1)]]) in Hc.
    eapply map_inj; [|exact Hc]. intros l l'. apply map_inj. intros x y. apply B2SF_inj. }
  split; [reflexivity|]. split; [reflexivity|].
  split; apply B2SF_inj; vm_compute; reflexivity.
Qed.

(** ** C20: a segment along a side with a hanging node *)
Definition side_pts : list (point b64) :=
  map ptZ [(0,0);(1,0);(2,0);(2,2);(0,2)].
Lemma side_mesh : mesh_ok side_pts hang_face (-1).
Proof.
  constructor.
  - repeat constructor.
  - discriminate.
  - repeat constructor; simpl; try lia.
Qed.

(** the segment (-1,0)-(3,0) runs along the whole lower side (0,0)-(2,0) of
    the square; only (0,0)-(1,0) is returned *)
Theorem C20_hanging_node_refuted : exists vs faces a b t,
  mesh_ok (T:=b64) vs faces (-1)
  /\ CellTree2d_init g0 vs faces (-1) 4 2 = Ok t
  /\ elements (celltree_data t) = faces
  /\ In (ptZ (0, 0)) vs /\ In (ptZ (2, 0)) vs /\ a = ptZ (-1, 0) /\ b = ptZ (3, 0)
  /\ CellTree2d_intersect_edges g0 10 4 t [(a, b)]
     = Ok [((0, 0), (Some (ptZ (0, 0)), Some (ptZ (1, 0))))].
Proof.
  exists side_pts, hang_face, (ptZ (-1, 0)), (ptZ (3, 0)).
  set (sf := fun p : option (point b64) =>
               match p with Some p => Some (B2SF (px p), B2SF (py p)) | None => None end).
  assert (Hsf : forall p q, sf p = sf q -> p = q).
  { intros [(x, y)|] [(x', y')|]; cbn; try discriminate; auto.
    intros H. injection H as A B. apply B2SF_inj in A, B. congruence. }
  assert (H : match CellTree2d_init g0 side_pts hang_face (-1) 4 2 with
              | Ok t => match CellTree2d_intersect_edges g0 10 4 t [(ptZ (-1, 0), ptZ (3, 0))] with
                 | Ok a => (elements (celltree_data t),
                            map (fun r => (fst r, (sf (fst (snd r)), sf (snd (snd r))))) a)
                 | Err _ => ([], []) end
              | Err _ => ([], []) end
              = (hang_face, [((0, 0), (sf (Some (ptZ (0, 0))), sf (Some (ptZ (1, 0)))))]))
    by (vm_compute; reflexivity).
  okay t E1. okay rows E2. pose proof (f_equal fst H) as Ha. pose proof (f_equal snd H) as Hb. cbn [fst snd] in Ha, Hb. exists t.
  split; [exact side_mesh|]. split; auto. split; auto.
  split; [now left|]. split; [right; right; now left|]. split; auto. split; auto.
  rewrite E2. f_equal. destruct rows as [|(ij, (c, d)) [|]]; try discriminate.
  cbn [map fst snd] in Hb. 
  assert (Hc : sf c = sf (Some (ptZ (0, 0)))) by congruence.
  assert (Hd : sf d = sf (Some (ptZ (1, 0)))) by congruence.
  assert (ij = (0, 0)) by congruence. apply Hsf in Hc, Hd. now subst.
Qed.

Print Assumptions C11_tree_dependent_refuted.
Print Assumptions C20_hanging_node_refuted.
Print Assumptions C29_hanging_node_refuted.
Print Assumptions C32_hanging_node_refuted.
Print Assumptions C10_zero_tolerance_refuted.
