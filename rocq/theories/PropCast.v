(** C63: which arguments are accepted, and what they are taken for. *)
From Coq Require Import List.
From Flocq Require Import IEEE754.BinarySingleNaN.
From Verif Require Import Base Num MUtils MGeometry MCreation MAlgorithms MQuery MCelltree MHeap MCast SpecCast PCast PMesh
  NumB64 Examples.

Section C63.
  Context {T : Type} {NT : Num T}.
  (** the conversions of a float to an integer, in arrays and in lists: any *)
  Variables (aint : T -> Z) (lint : T -> res Z).
  Notation arg := (arg (T:=T)).
  Notation init_arg := (CellTree2d_init_arg aint lint).
  Notation faces_arg := (intersect_faces_arg aint lint).

  Lemma params_err nb cpl e : check_params nb cpl = Err e -> e = EValue.
  Proof. unfold check_params. destruct (_ <? 2)%Z; [congruence|]. destruct (_ <? 1)%Z; congruence. Qed.
  Lemma tolerance_err (t : tree2d (T:=T)) o e : get_tolerance t o = Err e -> e = EValue.
  Proof.
    destruct o; cbn; [discriminate|]. unfold default_tolerance, py_max. destruct (map snd (bb_dist t)); cbn; congruence.
  Qed.

  (** [cast_vertices], [cast_bboxes] and [cast_edges] accept exactly the documented
      shapes, deliver the elements at the documented places, and raise ValueError
      on every other shape, ragged lists included. *)
  Theorem C63_casts (a : arg) : wf_arg a ->
    (forall ps, cast_vertices a = Ok ps <-> holds_points a ps)
    /\ (forall bs, cast_bboxes a = Ok bs <-> holds_boxes a bs)
    /\ (forall es, cast_edges a = Ok es <-> holds_edges a es)
    /\ ((forall n, ~ has_shape a [n; 2%nat]) -> cast_vertices a = Err EValue)
    /\ ((forall n, ~ has_shape a [n; 4%nat]) -> cast_bboxes a = Err EValue)
    /\ ((forall n, ~ has_shape a [n; 2%nat; 2%nat]) -> cast_edges a = Err EValue).
  Proof.
    intros W. destruct (cast_vertices_spec a W) as (V1 & V2). destruct (cast_bboxes_spec a W) as (B1 & B2).
    destruct (cast_edges_spec a W) as (E1 & E2). repeat (split; [assumption|]).
    split; [|split]; intros N.
    - destruct (cast_vertices a) as [ps|e]; [|f_equal; now apply V2]. exfalso. exact (N _ (proj1 (proj1 (V1 ps) eq_refl))).
    - destruct (cast_bboxes a) as [ps|e]; [|f_equal; now apply B2]. exfalso. exact (N _ (proj1 (proj1 (B1 ps) eq_refl))).
    - destruct (cast_edges a) as [ps|e]; [|f_equal; now apply E2]. exfalso. exact (N _ (proj1 (proj1 (E1 ps) eq_refl))).
  Qed.

  (** The constructor on arguments of any shape: on the documented shapes the tree
      of the other theorems, on all others a ValueError. *)
  Theorem C63_constructor g (va fa : arg) fill nb cpl : wf_arg va -> wf_arg fa -> int_arg fa ->
    (forall vs w fs, holds_points va vs -> holds_ints fa w fs -> (w <= 32)%nat ->
      init_arg g va fa fill nb cpl = let* t := CellTree2d_init g vs fs fill nb cpl in Ok (t, w))
    /\ ((forall n, ~ has_shape va [n; 2%nat]) \/ (forall n w, has_shape fa [n; w] -> (32 < w)%nat) ->
      init_arg g va fa fill nb cpl = Err EValue).
  Proof.
    intros W W' I. destruct (C63_casts va W) as (V1 & _ & _ & V2 & _).
    destruct (cast_faces_spec aint lint fa fill W' I) as (F1 & F2 & _). split.
    - intros vs w fs HV HF Hw. apply V1 in HV. destruct (F1 w fs HF Hw) as (fs' & E & E').
      unfold CellTree2d_init_arg, CellTree2d_init. rewrite HV, E, E'. cbn [bind].
      destruct (check_params nb cpl); cbn [bind]; auto.
      destruct (counter_clockwise vs fs'); cbn [bind]; auto.
      destruct (build_face_bboxes _ _); cbn [bind]; auto.
      destruct (initialize _ _ _ _ _ _) as [(nd, ix)|]; cbn [bind]; auto.
      destruct (bbox_tree _); cbn [bind]; auto.
    - intros N. unfold CellTree2d_init_arg. destruct (check_params nb cpl) as [u|e] eqn:Ec; cbn [bind]; [|f_equal; eapply params_err; eauto].
      destruct N as [N|N]; [now rewrite V2|]. destruct (cast_vertices va) as [vs|e] eqn:Ev; cbn [bind].
      + now rewrite F2.
      + f_equal. now apply (cast_vertices_spec va W).
  Qed.

  (** The same for the queries. *)
  Theorem C63_queries g n csfuel (t : tree2d (T:=T)) tol (a : arg) : wf_arg a ->
    (forall ps, holds_points a ps ->
      locate_points_arg g t a tol = CellTree2d_locate_points g t ps tol
      /\ edge_locate_points_arg g t a tol = EdgeCellTree2d_locate_points g t ps tol
      /\ (forall nd w, a = ANd nd -> compute_barycentric_weights_arg g t w nd tol
                       = CellTree2d_compute_barycentric_weights g t w ps tol))
    /\ (forall bs, holds_boxes a bs ->
      locate_boxes_arg g n t a = CellTree2d_locate_boxes g n t bs
      /\ intersect_boxes_arg g n t a = CellTree2d_intersect_boxes g n t bs)
    /\ (forall es, holds_edges a es ->
      intersect_edges_arg g csfuel n t a = CellTree2d_intersect_edges g csfuel n t es
      /\ edge_intersect_edges_arg g csfuel n t a = EdgeCellTree2d_intersect_edges g csfuel n t es)
    /\ (forall fa w fs fill ps, wf_arg fa -> int_arg fa -> holds_points a ps -> holds_ints fa w fs -> (w <= 32)%nat ->
      faces_arg g n t a fa fill = CellTree2d_intersect_faces g n t ps fs fill).
  Proof.
    intros W. destruct (C63_casts a W) as (V & B & E & _). split; [|split; [|split]].
    - intros ps HV. apply V in HV. unfold locate_points_arg, edge_locate_points_arg, CellTree2d_locate_points,
        EdgeCellTree2d_locate_points, compute_barycentric_weights_arg. rewrite HV. cbn [bind]. repeat split; auto.
      intros nd w ->. rewrite HV. cbn [bind]. unfold CellTree2d_compute_barycentric_weights.
      destruct (get_tolerance t tol); reflexivity.
    - intros bs H. apply B in H. unfold locate_boxes_arg, intersect_boxes_arg. now rewrite H.
    - intros es H. apply E in H. unfold intersect_edges_arg, edge_intersect_edges_arg. now rewrite H.
    - intros fa w fs fill ps W' I HV HF Hw. apply V in HV. destruct (cast_faces_spec aint lint fa fill W' I) as (F1 & _).
      destruct (F1 w fs HF Hw) as (fs' & E1 & E2). unfold intersect_faces_arg, CellTree2d_intersect_faces.
      now rewrite HV, E1, E2.
  Qed.
  Theorem C63_queries_rejected g n csfuel (t : tree2d (T:=T)) tol (a : arg) : wf_arg a ->
    ((forall n, ~ has_shape a [n; 2%nat]) -> locate_points_arg g t a tol = Err EValue
      /\ edge_locate_points_arg g t a tol = Err EValue
      /\ (forall nd w, a = ANd nd -> compute_barycentric_weights_arg g t w nd tol = Err EValue)
      /\ (forall fa fill, faces_arg g n t a fa fill = Err EValue))
    /\ ((forall n, ~ has_shape a [n; 4%nat]) ->
      locate_boxes_arg g n t a = Err EValue /\ intersect_boxes_arg g n t a = Err EValue)
    /\ ((forall n, ~ has_shape a [n; 2%nat; 2%nat]) ->
      intersect_edges_arg g csfuel n t a = Err EValue /\ edge_intersect_edges_arg g csfuel n t a = Err EValue)
    /\ (forall va fill, wf_arg va -> int_arg a -> (forall n w, has_shape a [n; w] -> (32 < w)%nat) ->
      faces_arg g n t va a fill = Err EValue).
  Proof.
    intros W. destruct (C63_casts a W) as (_ & _ & _ & V & B & E). split; [|split; [|split]].
    - intros N. specialize (V N).
      assert (G : forall X (k : T -> list (point T) -> res X),
        (let* tl := get_tolerance t tol in let* p := cast_vertices a in k tl p) = Err EValue).
      { intros X k. destruct (get_tolerance t tol) as [x|e] eqn:Et; cbn [bind]; [now rewrite V|]. f_equal. eapply tolerance_err; eauto. }
      split; [apply G|split; [apply G|split]].
      + intros nd w ->. unfold compute_barycentric_weights_arg.
        exact (G _ (fun tl p => CellTree2d_compute_barycentric_weights g t w p (Some tl))).
      + intros fa fill. unfold intersect_faces_arg. now rewrite V.
    - intros N. unfold locate_boxes_arg, intersect_boxes_arg. now rewrite B.
    - intros N. unfold intersect_edges_arg, edge_intersect_edges_arg. now rewrite E.
    - intros va fill W' I N. unfold intersect_faces_arg. destruct (cast_faces_spec aint lint a fill W I) as (_ & F & _).
      destruct (cast_vertices va) as [vs|e] eqn:Ev; cbn [bind]; [now rewrite F|]. f_equal. now apply (cast_vertices_spec va W').
  Qed.

  (** Nested lists, integer arrays, float arrays: only the shape and the elements
      count. *)
  Lemma same_casts (a b : arg) : wf_arg a -> wf_arg b -> same_argument a b ->
    cast_vertices a = cast_vertices b /\ cast_bboxes a = cast_bboxes b /\ cast_edges a = cast_edges b.
  Proof.
    intros W W' (S & E).
    assert (N : forall ix v, num_at a ix v <-> num_at b ix v) by (intros; unfold num_at; now rewrite E).
    destruct (cast_vertices_spec a W) as (V1 & V2), (cast_vertices_spec b W') as (V3 & V4).
    destruct (cast_bboxes_spec a W) as (B1 & B2), (cast_bboxes_spec b W') as (B3 & B4).
    destruct (cast_edges_spec a W) as (E1 & E2), (cast_edges_spec b W') as (E3 & E4).
    split; [|split].
    - assert (H : forall ps, holds_points a ps <-> holds_points b ps).
      { intros ps. unfold holds_points. rewrite S. split; intros (X & Y); (split; [auto|]); intros i p Ep; destruct (Y i p Ep); split; now apply N. }
      destruct (cast_vertices a) as [ps|e] eqn:Ea.
      + symmetry. apply V3, H, V1. auto.
      + destruct (cast_vertices b) as [ps|e'] eqn:Eb; [|f_equal; rewrite (proj1 (V2 _ eq_refl)); symmetry; now apply V4].
        assert (X : Err e = Ok ps) by (apply V1, H, V3; auto). discriminate.
    - assert (H : forall ps, holds_boxes a ps <-> holds_boxes b ps).
      { intros ps. unfold holds_boxes. rewrite S. split; intros (X & Y); (split; [auto|]); intros i p Ep; destruct (Y i p Ep) as (? & ? & ? & ?); repeat split; now apply N. }
      destruct (cast_bboxes a) as [ps|e] eqn:Ea.
      + symmetry. apply B3, H, B1. auto.
      + destruct (cast_bboxes b) as [ps|e'] eqn:Eb; [|f_equal; rewrite (proj1 (B2 _ eq_refl)); symmetry; now apply B4].
        assert (X : Err e = Ok ps) by (apply B1, H, B3; auto). discriminate.
    - assert (H : forall ps, holds_edges a ps <-> holds_edges b ps).
      { intros ps. unfold holds_edges. rewrite S. split; intros (X & Y); (split; [auto|]); intros i p Ep; destruct (Y i p Ep) as (? & ? & ? & ?); repeat split; now apply N. }
      destruct (cast_edges a) as [ps|e] eqn:Ea.
      + symmetry. apply E3, H, E1. auto.
      + destruct (cast_edges b) as [ps|e'] eqn:Eb; [|f_equal; rewrite (proj1 (E2 _ eq_refl)); symmetry; now apply E4].
        assert (X : Err e = Ok ps) by (apply E1, H, E3; auto). discriminate.
  Qed.
  Lemma same_faces (a b : arg) fill : wf_arg a -> wf_arg b -> int_arg a -> same_argument a b ->
    cast_faces_arg aint lint a fill = cast_faces_arg aint lint b fill.
  Proof.
    intros W W' I (S & E).
    assert (I' : int_arg b) by (intros ix x Hx; apply (I ix); now rewrite E).
    destruct (cast_faces_spec aint lint a fill W I) as (F1 & F2 & F3), (cast_faces_spec aint lint b fill W' I') as (G1 & G2 & G3).
    assert (D : (exists n w, has_shape a [n; w] /\ (w <= 32)%nat) \/ (forall n w, has_shape a [n; w] -> (32 < w)%nat)).
    { destruct (as_int aint lint a) as [(s, d)|e] eqn:Ea.
      - assert (Hs : has_shape a s).
        { destruct a as [a|n]; cbn in Ea |- *; [now injection Ea|]. apply bind_ok in Ea as (s' & X1 & Ea).
          apply bind_ok in Ea as (l & X2 & Ea). injection Ea as <- _. now apply nest_shape_spec. }
        destruct s as [|n [|w [|z s]]]; try (right; intros n0 w0 H; pose proof (has_shape_fun _ _ _ Hs H); discriminate).
        destruct (Nat.le_gt_cases w 32); [left; eauto|]. right. intros n0 w0 H'. pose proof (has_shape_fun _ _ _ Hs H') as Q.
        injection Q as -> ->. auto.
      - right. intros n w H. exfalso. destruct (as_int_spec aint lint a _ W I H) as (d & Ed & _). congruence. }
    destruct D as [(n & w & Hs & Hw)|D].
    - destruct (F3 n w Hs) as (fs & Hf).
      assert (Hf' : holds_ints b w fs).
      { destruct Hf as (X & Y). split; [now apply S|]. intros i f Ef. destruct (Y i f Ef) as (L & Z). split; auto.
        intros j z Ez. rewrite <- E. auto. }
      destruct (F1 w fs Hf Hw) as (x & -> & X), (G1 w fs Hf' Hw) as (y & -> & Y). congruence.
    - rewrite F2, G2; auto. intros n w H. apply (D n). now apply S.
  Qed.
  Theorem C63_list_or_array g n csfuel (t : tree2d (T:=T)) tol fill nb cpl (va va' fa fa' : arg) :
    wf_arg va -> wf_arg va' -> wf_arg fa -> wf_arg fa' -> int_arg fa -> same_argument va va' -> same_argument fa fa' ->
    init_arg g va fa fill nb cpl = init_arg g va' fa' fill nb cpl
    /\ locate_points_arg g t va tol = locate_points_arg g t va' tol
    /\ edge_locate_points_arg g t va tol = edge_locate_points_arg g t va' tol
    /\ locate_boxes_arg g n t va = locate_boxes_arg g n t va'
    /\ intersect_boxes_arg g n t va = intersect_boxes_arg g n t va'
    /\ faces_arg g n t va fa fill = faces_arg g n t va' fa' fill
    /\ intersect_edges_arg g csfuel n t va = intersect_edges_arg g csfuel n t va'
    /\ edge_intersect_edges_arg g csfuel n t va = edge_intersect_edges_arg g csfuel n t va'.
  Proof.
    intros W W' X X' I S S'. destruct (same_casts va va' W W' S) as (V & B & E).
    pose proof (same_faces fa fa' fill X X' I S') as F.
    unfold CellTree2d_init_arg, locate_points_arg, edge_locate_points_arg, locate_boxes_arg, intersect_boxes_arg,
      intersect_faces_arg, intersect_edges_arg, edge_intersect_edges_arg.
    rewrite V, B, E, F. repeat split; reflexivity.
  Qed.

  (** EdgeCellTree2d does not check the shape of its edges: columns after the
      second change nothing but the array the tree refers to. *)
  Theorem C63_edge_columns_ignored g (va : arg) (edges edges' : list (list Z)) nb cpl :
    Forall2 (fun e e' => (2 <= length e)%nat /\ exists more, e' = e ++ more) edges edges' ->
    match EdgeCellTree2d_init_arg g va edges nb cpl with
    | Ok t => EdgeCellTree2d_init_arg g va edges' nb cpl = Ok (with_arrays t edges' (vertices (celltree_data t)))
    | Err e => EdgeCellTree2d_init_arg g va edges' nb cpl = Err e
    end.
  Proof.
    intros H. unfold EdgeCellTree2d_init_arg, EdgeCellTree2d_init.
    assert (L : length edges' = length edges) by (clear -H; induction H; cbn; congruence).
    assert (B : forall vs tl, build_edge_bboxes edges' vs tl = build_edge_bboxes edges vs tl).
    { intros vs tl. unfold build_edge_bboxes. clear L. induction H as [|e e' l l' (H2 & more & ->) _ IH]; cbn [mapres]; auto.
      rewrite IH. f_equal. unfold edge_bounding_box. destruct e as [|x [|y e]]; cbn in H2; try lia.
      assert (Q : forall r : list Z, aget (x :: y :: r) 0 = Ok x /\ aget (x :: y :: r) 1 = Ok y).
      { intros r. split; [apply (aget_prefix _ 0)|apply (aget_prefix _ 1)]; reflexivity. }
      cbn [app]. destruct (Q (e ++ more)) as (-> & ->), (Q e) as (-> & ->). reflexivity. }
    destruct (check_params nb cpl); cbn [bind]; auto. destruct (cast_vertices va) as [vs|]; cbn [bind]; auto.
    destruct (np_max (map (@px T) vs)); cbn [bind]; auto. destruct (np_min (map (@px T) vs)); cbn [bind]; auto.
    destruct (np_max (map (@py T) vs)); cbn [bind]; auto. destruct (np_min (map (@py T) vs)); cbn [bind]; auto.
    rewrite B, L. destruct (build_edge_bboxes _ _ _); cbn [bind]; auto.
    destruct (initialize _ _ _ _ _ _) as [(nd, ix)|]; cbn [bind]; auto. destruct (bbox_tree _); cbn [bind]; auto.
  Qed.
End C63.

(** ** Examples: the grid in four disguises *)
Definition grid_nest : nest (T:=b64) := Node (map (fun p => Node [Leaf (SI (fst p)); Leaf (SI (snd p))]) grid_pts).
Definition grid_ints : ndarray (T:=b64) := NDArray [12%nat; 2%nat] (IBuf (flat_map (fun p => [fst p; snd p]) grid_pts)).
Definition faces_nest : nest (T:=b64) := Node (map (fun f => Node (map (fun i => Leaf (SI i)) f)) grid_faces).
Definition faces_ints : ndarray (T:=b64) := NDArray [7%nat; 4%nat] (IBuf (concat grid_faces)).
Definition faces_of (f : Z -> b64) : ndarray (T:=b64) := NDArray [7%nat; 4%nat] (FBuf (map f (concat grid_faces))).

Lemma grid_nest_holds : holds_points (ANest grid_nest) (grid (T:=b64)) /\ wf_arg (ANest grid_nest).
Proof.
  split; [|exact I]. split.
  - change [length (grid (T:=b64)); 2%nat] with (length (map (fun p => Node [Leaf (SI (fst p) : scalar (T:=b64)); Leaf (SI (snd p))]) grid_pts) :: [2%nat]).
    constructor; [discriminate|]. intros c Hc. apply in_map_iff in Hc as (p & <- & _).
    apply (has_node [Leaf (SI (fst p)); Leaf (SI (snd p))] []); [discriminate|]. intros c [<-|[<-|[]]]; constructor.
  - intros i p E. do 12 (destruct i as [|i]; [injection E as <-; split; eexists; (split; [reflexivity|reflexivity])|]).
    destruct i; discriminate E.
Qed.
Lemma faces_nest_holds : holds_ints (ANest faces_nest) 4 grid_faces /\ wf_arg (ANest faces_nest) /\ int_arg (ANest faces_nest).
Proof.
  split; [|split; [exact I|]]. split.
  - change [length grid_faces; 4%nat] with (length (map (fun f => Node (map (fun i => Leaf (SI i : scalar (T:=b64))) f)) grid_faces) :: [4%nat]).
    constructor; [discriminate|]. intros c Hc. apply in_map_iff in Hc as (f & <- & Hf).
    assert (L : length f = 4%nat) by (repeat destruct Hf as [<-|Hf]; try reflexivity; destruct Hf).
    rewrite <- L, <- (map_length (fun i => Leaf (SI i : scalar (T:=b64))) f).
    apply has_node; [destruct f; discriminate|]. intros c Hc. apply in_map_iff in Hc as (i & <- & _). constructor.
  - intros i f E. do 7 (destruct i as [|i]; [injection E as <-; split; [reflexivity|];
      intros j n En; do 4 (destruct j as [|j]; [injection En as <-; reflexivity|]); destruct j; discriminate En|]).
    destruct i; discriminate E.
  - intros ix x E. destruct ix as [|i ix]; [discriminate|]. cbn [arr_at nest_at faces_nest] in E.
    rewrite nth_error_map in E. destruct (nth_error grid_faces i) as [f|]; [|discriminate]. cbn [option_map] in E.
    destruct ix as [|j ix]; [discriminate|]. cbn [nest_at] in E. rewrite nth_error_map in E.
    destruct (nth_error f j) as [z|]; [|discriminate]. cbn [option_map] in E. destruct ix; [|discriminate]. injection E as <-. eauto.
Qed.

(** lists of lists: the tree of the other examples *)
Theorem C63_example aint lint : exists t,
  CellTree2d_init (T:=b64) g0 grid grid_faces (-1) 4 2 = Ok t
  /\ CellTree2d_init_arg aint lint g0 (ANest grid_nest) (ANest faces_nest) (-1) 4 2 = Ok (t, 4%nat).
Proof.
  destruct grid_built_B64 as (t & E & _). exists t. split; auto.
  destruct grid_nest_holds as (V & W). destruct faces_nest_holds as (F & W' & I).
  destruct (C63_constructor aint lint g0 _ _ (-1) 4 2 W W' I) as (H & _).
  rewrite (H _ _ _ V F) by lia. now rewrite E.
Qed.

(** ragged lists, the empty list, a flat list, and a faces array with 40 columns,
    even without rows, are refused *)
Theorem C63_rejected_example :
  cast_vertices (T:=b64) (ANest (Node [Node [Leaf (SI 0); Leaf (SI 1)]; Node [Leaf (SI 2)]])) = Err EValue
  /\ cast_vertices (T:=b64) (ANest (Node [])) = Err EValue
  /\ cast_vertices (T:=b64) (ANest (Node [Leaf (SI 0); Leaf (SI 1)])) = Err EValue
  /\ cast_vertices (T:=b64) (ANd (NDArray [0%nat; 2%nat] (FBuf []))) = Ok []
  /\ cast_faces_arg (T:=b64) Btrunc (fun x => Ok (Btrunc x)) (ANd (NDArray [0%nat; 40%nat] (IBuf []))) (-1) = Err EValue.
Proof. repeat split; reflexivity. Qed.

Lemma init_arg_cong {T} {NT : Num T} aint lint g (va va' fa fa' : arg (T:=T)) fill nb cpl r :
  CellTree2d_init_arg aint lint g va' fa' fill nb cpl = Ok r ->
  cast_vertices va = cast_vertices va' -> cast_faces_arg aint lint fa fill = cast_faces_arg aint lint fa' fill ->
  CellTree2d_init_arg aint lint g va fa fill nb cpl = Ok r.
Proof. unfold CellTree2d_init_arg. intros E -> ->. exact E. Qed.

Lemma grid_ints_holds : holds_points (ANd grid_ints) (grid (T:=b64)) /\ wf_arg (ANd grid_ints).
Proof.
  split; [|reflexivity]. split; [reflexivity|].
  intros i p E. do 12 (destruct i as [|i]; [injection E as <-; split; eexists; (split; [reflexivity|reflexivity])|]).
  destruct i; discriminate E.
Qed.

(** An array of floats is taken for faces without a check that they are integers:
    the fractions are dropped. *)
Theorem C63_integers_required_refuted :
  exists t, CellTree2d_init_arg (T:=b64) Btrunc (fun x : b64 => Ok (Btrunc x)) g0 (ANd grid_ints) (ANd faces_ints) (-1) 4 2 = Ok (t, 4%nat)
  /\ CellTree2d_init_arg (T:=b64) Btrunc (fun x : b64 => Ok (Btrunc x)) g0 (ANd grid_ints)
       (ANd (faces_of (fun i => if (i =? -1)%Z then nofZ i else nadd (nofZ i) nhalf))) (-1) 4 2 = Ok (t, 4%nat).
Proof.
  destruct (C63_example (Btrunc : b64 -> Z) (fun x : b64 => Ok (Btrunc x))) as (t & _ & E). exists t.
  assert (E1 : cast_vertices (T:=b64) (ANd grid_ints) = cast_vertices (T:=b64) (ANest grid_nest)).
  { destruct grid_ints_holds as (V & W). destruct grid_nest_holds as (V' & W').
    rewrite (proj2 (proj1 (cast_vertices_spec _ W) _) V), (proj2 (proj1 (cast_vertices_spec _ W') _) V'). reflexivity. }
  assert (E2 : cast_faces_arg (T:=b64) Btrunc (fun x : b64 => Ok (Btrunc x)) (ANd faces_ints) (-1)
    = cast_faces_arg (T:=b64) Btrunc (fun x : b64 => Ok (Btrunc x)) (ANest faces_nest) (-1)) by reflexivity.
  assert (E3 : cast_faces_arg (T:=b64) Btrunc (fun x : b64 => Ok (Btrunc x))
      (ANd (faces_of (fun i => if (i =? -1)%Z then nofZ i else nadd (nofZ i) nhalf))) (-1)
    = cast_faces_arg (T:=b64) Btrunc (fun x : b64 => Ok (Btrunc x)) (ANest faces_nest) (-1)).
  { match goal with |- cast_faces_arg _ _ ?a _ = _ =>
      assert (M : as_int (T:=b64) Btrunc (fun x : b64 => Ok (Btrunc x)) a = Ok ([7%nat; 4%nat], concat grid_faces)) by (vm_compute; reflexivity) end.
    unfold cast_faces_arg at 1. rewrite M. reflexivity. }
  split; (eapply init_arg_cong; [exact E|exact E1|assumption]).
Qed.

(** pipes with a third column *)
Lemma edge_columns_some {T} {NT : Num T} g (va : arg (T:=T)) edges edges' nb cpl :
  Forall2 (fun e e' => (2 <= length e)%nat /\ exists more, e' = e ++ more) edges edges' ->
  isOk (EdgeCellTree2d_init_arg g va edges nb cpl) = true ->
  exists t, EdgeCellTree2d_init_arg g va edges nb cpl = Ok t
    /\ EdgeCellTree2d_init_arg g va edges' nb cpl = Ok (with_arrays t edges' (vertices (celltree_data t))).
Proof.
  intros H. pose proof (C63_edge_columns_ignored g va edges edges' nb cpl H) as G.
  destruct (EdgeCellTree2d_init_arg g va edges nb cpl) as [t|]; [|discriminate]. eauto.
Qed.
Theorem C63_edge_columns_example : exists t, EdgeCellTree2d_init_arg (T:=b64) g0 (ANest grid_nest) pipes 4 2 = Ok t
  /\ EdgeCellTree2d_init_arg (T:=b64) g0 (ANest grid_nest) (map (fun e => e ++ [99]%Z) pipes) 4 2
     = Ok (with_arrays t (map (fun e => e ++ [99]%Z) pipes) (vertices (celltree_data t))).
Proof.
  apply edge_columns_some.
  - unfold pipes. cbn [map]. repeat (constructor; [split; [cbn; lia|eexists; reflexivity]|]). constructor.
  - vm_compute. reflexivity.
Qed.

Print Assumptions C63_casts.
Print Assumptions C63_constructor.
Print Assumptions C63_queries.
Print Assumptions C63_queries_rejected.
Print Assumptions C63_list_or_array.
Print Assumptions C63_edge_columns_ignored.
Print Assumptions C63_example.
Print Assumptions C63_rejected_example.
Print Assumptions C63_integers_required_refuted.
Print Assumptions C63_edge_columns_example.
