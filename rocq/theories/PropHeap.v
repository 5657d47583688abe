(** C41: which of the caller's arrays are written.
    C47: which of the caller's arrays a tree keeps looking at.

    [h] is the heap before the call.  [wreck] is what an in-place loop leaves
    behind when it fails half-way.  The arguments need only be valid: that is
    what the [_value] hypotheses say. *)
From Coq Require Import Reals.
From Verif Require Import RBase PMesh GFaces SpecPoly PQuery.
From Verif Require Import Base Num MUtils MGeometry MCreation MAlgorithms MQuery MCelltree
  SpecTree SpecQuery SpecApi MHeap SpecHeap PHeap GConvex NumR NumB64 Examples.

Section C41.
  Context {T : Type} {NT : Num T} (wreck : list (list Z) -> list (list Z)).
  Notation heap := (heap (T:=T)).

  (** ndarrays and lists are left alone by the constructor, also if it raises *)
  Theorem C41_construction_keeps g va fa fill nb cpl (h : heap) vs fs :
    float_value h va = Some vs -> int_value h fa = Some fs -> int_plain fa ->
    keeps h (after (CellTree2d_init_h wreck g va fa fill nb cpl) h).
  Proof.
    intros V F P. destruct (init_spec wreck g va fa fill nb cpl h vs fs V F) as (fl & S & K & _).
    eapply plain_fresh; eauto.
  Qed.

  (** and it returns or raises what [CellTree2d_init] does on the values *)
  Theorem C41_construction_result g va fa fill nb cpl (h : heap) vs fs :
    float_value h va = Some vs -> int_value h fa = Some fs ->
    match CellTree2d_init g vs fs fill nb cpl with
    | Ok t => exists ht, value_of (CellTree2d_init_h wreck g va fa fill nb cpl) h = Ok ht
        /\ value_of (deref ht) (after (CellTree2d_init_h wreck g va fa fill nb cpl) h) = Ok t
    | Err e => value_of (CellTree2d_init_h wreck g va fa fill nb cpl) h = Err e
    end.
  Proof.
    intros V F. destruct (init_spec wreck g va fa fill nb cpl h vs fs V F) as (fl & _ & _ & H).
    destruct (CellTree2d_init g vs fs fill nb cpl) as [t|]; auto.
    destruct H as (ht & A & _ & _ & B). eauto.
  Qed.

  Theorem C41_intersect_faces_keeps g n ht va fa fill (h : heap) t vs fs :
    value_of (deref ht) h = Ok t -> float_value h va = Some vs -> int_value h fa = Some fs ->
    int_plain fa ->
    keeps h (after (intersect_faces_h wreck g n ht va fa fill) h)
    /\ value_of (intersect_faces_h wreck g n ht va fa fill) h
       = CellTree2d_intersect_faces g n t vs fs fill.
  Proof.
    intros D V F P.
    assert (N : match fa with ILike l => l <> ht_elements ht | _ => True end) by (destruct fa; cbn in *; tauto).
    destruct (intersect_faces_h_spec wreck g n ht va fa fill h t vs fs D N V F) as (fl & S & K & H).
    split; auto. eapply plain_fresh; eauto.
  Qed.

  (** locate_faces leaves every other array alone; the faces array holds what
      counter_clockwise made of it, even if a later step raises *)
  Theorem C41_locate_faces_writes g n ht vl fl (h : heap) t vs fs :
    value_of (deref ht) h = Ok t -> fl <> ht_elements ht ->
    nth_error (h_float h) vl = Some vs -> nth_error (h_int h) fl = Some fs ->
    let h' := after (locate_faces_h wreck g n ht vl fl) h in
    keeps_but fl h h'
    /\ (forall fs', counter_clockwise vs fs = Ok fs' -> nth_error (h_int h') fl = Some fs')
    /\ value_of (locate_faces_h wreck g n ht vl fl) h
       = let* r := CellTree2d_locate_faces g n t vs fs in Ok (fst r).
  Proof.
    intros D N V F h'. destruct (locate_faces_h_spec wreck g n ht vl fl h t vs fs D N V F)
      as (h2 & E & K & _ & A & R). subst h'. rewrite E. auto.
  Qed.

  (** An array-like object that hands out its own buffer is written to by the
      constructor: its contents become the faces of the tree. *)
  Theorem C41_array_like_shared g va fl fill nb cpl (h : heap) vs fs t :
    float_value h va = Some vs -> nth_error (h_int h) fl = Some fs ->
    CellTree2d_init g vs fs fill nb cpl = Ok t ->
    nth_error (h_int (after (CellTree2d_init_h wreck g va (ILike fl) fill nb cpl) h)) fl
    = Some (elements (celltree_data t)).
  Proof.
    intros V F E. destruct (init_spec wreck g va (ILike fl) fill nb cpl h vs fs V F) as (l & S & _ & H).
    rewrite E in H. destruct H as (ht & _ & El & _ & D).
    cbn [shares] in S. rewrite S in El.
    destruct (deref_inv _ _ _ D) as (es & ws & I & W & Et & _).
    rewrite El in I. rewrite I, Et. reflexivity.
  Qed.

  (** ** C47: a CellTree2d made from ndarrays or lists is not affected by what
      the caller does to these afterwards *)
  Theorem C47_tree_is_independent g va fa fill nb cpl (h h' : heap) vs fs t :
    float_value h va = Some vs -> int_value h fa = Some fs -> float_plain va -> int_plain fa ->
    CellTree2d_init g vs fs fill nb cpl = Ok t ->
    scribble h (after (CellTree2d_init_h wreck g va fa fill nb cpl) h) h' ->
    exists ht, value_of (CellTree2d_init_h wreck g va fa fill nb cpl) h = Ok ht
      /\ value_of (deref ht) h' = Ok t.
  Proof.
    intros V F PV PF E S. destruct (init_spec wreck g va fa fill nb cpl h vs fs V F) as (l & Sh & _ & H).
    rewrite E in H. destruct H as (ht & A & El & Vl & D). exists ht. split; auto.
    unfold value_of. rewrite (deref_same ht _ h' t D); auto.
    - apply S. rewrite El. destruct fa; cbn in *; try tauto; lia.
    - apply S. auto.
  Qed.

  (** The edges of an EdgeCellTree2d stay the caller's array. *)
  Theorem C47_edges_are_shared g va el nb cpl (h : heap) vs es t :
    float_value h va = Some vs -> nth_error (h_int h) el = Some es ->
    EdgeCellTree2d_init g vs es nb cpl = Ok t ->
    exists ht, value_of (EdgeCellTree2d_init_h g va el nb cpl) h = Ok ht
      /\ keeps h (after (EdgeCellTree2d_init_h g va el nb cpl) h)
      /\ forall es', value_of (deref ht)
           (after (write_int el es') (after (EdgeCellTree2d_init_h g va el nb cpl) h))
         = Ok (with_arrays t es' vs).
  Proof.
    intros V F E. destruct (edge_init_spec g va el nb cpl h vs es V F) as (K & H).
    rewrite E in H. destruct H as (ht & A & El & D). exists ht. split; auto. split; auto.
    intros es'. pose proof (edge_init_arrays _ _ _ _ _ _ E) as Wt.
    destruct (deref_inv _ _ _ D) as (es1 & ws & I & W & Et & _).
    set (h1 := after _ h) in *.
    assert (Hes : ws = vs).
    { rewrite Et in Wt. unfold with_arrays in Wt. cbn in Wt. injection Wt. auto. }
    unfold value_of, deref.
    rewrite (hbind_ok _ _ _ es' (after (write_int el es') h1)).
    2:{ apply read_int_ok. cbn. rewrite El. apply nth_error_list_set_eq. rewrite <- El. apply nth_error_Some. congruence. }
    rewrite (hbind_ok _ _ _ ws (after (write_int el es') h1)).
    2:{ apply read_float_ok. cbn. exact W. }
    cbn. rewrite Et, <- Hes. reflexivity.
  Qed.
End C41.

(** locate_faces turns convex faces counter-clockwise in the caller's array *)
Theorem C41_locate_faces_turns (wreck : list (list Z) -> list (list Z)) g n ht vl fl (h : heap (T:=R)) t vs fs :
  value_of (deref ht) h = Ok t -> fl <> ht_elements ht ->
  nth_error (h_float h) vl = Some vs -> nth_error (h_int h) fl = Some fs ->
  Forall (wf_face (length vs)) fs ->
  exists fs', nth_error (h_int (after (locate_faces_h wreck g n ht vl fl) h)) fl = Some fs'
    /\ Forall2 (fun f f' => same_face f f' /\ forall poly, poly_of vs f poly -> convex poly ->
                  exists poly', poly_of vs f' poly' /\ convex_ccw poly') fs fs'.
Proof.
  intros D N V F W. destruct (C41_locate_faces_writes wreck g n ht vl fl h t vs fs D N V F) as (_ & A & _).
  destruct (counter_clockwise_ok vs fs W) as (fs' & E & _). exists fs'. split; auto.
  eapply Forall2_impl'; [|exact (counter_clockwise_convex vs fs fs' W E)].
  intros f f' (Hs & H). split; auto.
  intros poly Hp Hv. destruct (H poly Hp Hv) as (poly' & B & C & _). eauto.
Qed.

(** ** Concrete heaps *)
(** a unit square, given clockwise with fill value -999, and pipes on the grid *)
Definition cw_square : list (point b64) := map ptZ [(0,0);(0,1);(1,1);(1,0)]%Z.
Definition cw_faces : list (list Z) := [[0;1;2;3;-999];[1;2;3;-999;-999]].
Definition some_heap : heap (T:=b64) := Heap [cw_faces; pipes] [cw_square; grid].

(** The caller's faces change under their hands when they come as, say, an
    xarray.DataArray; the ndarray is left alone. *)
Theorem C41_array_like_refuted : exists (h : heap (T:=b64)) va fl,
  float_plain va
  /\ (exists ht, value_of (CellTree2d_init_h (fun x => x) g0 va (ILike fl) (-999) 4 2) h = Ok ht)
  /\ nth_error (h_int h) fl = Some [[0;1;2;3;-999];[1;2;3;-999;-999]]
  /\ nth_error (h_int (after (CellTree2d_init_h (fun x => x) g0 va (ILike fl) (-999) 4 2) h)) fl
     = Some [[3;2;1;0;-1];[3;2;1;-1;-1]]
  /\ nth_error (h_int (after (CellTree2d_init_h (fun x => x) g0 va (INd fl) (-999) 4 2) h)) fl
     = Some [[0;1;2;3;-999];[1;2;3;-999;-999]].
Proof.
  exists some_heap, (FNd 0 true), 0%nat. split; [exact I|].
  split; [|split; [reflexivity|split; vm_compute; reflexivity]].
  assert (H : isOk (value_of (CellTree2d_init_h (fun x => x) g0 (FNd 0 true) (ILike 0) (-999) 4 2) some_heap) = true)
    by (vm_compute; reflexivity).
  destruct (value_of _ some_heap) as [ht|]; [eauto|discriminate].
Qed.

(** After the caller has reused the edges array, the tree answers differently
    although nothing was done to the tree. *)
Definition edge_query (ht : htree (T:=b64)) (pts : list (point b64)) : hm (T:=b64) (list Z) :=
  hbind (deref ht) (fun t => pure (EdgeCellTree2d_locate_points g0 t pts None)).
Theorem C47_edges_refuted : exists (h : heap (T:=b64)) va el es' pts ht h1,
  EdgeCellTree2d_init_h g0 va el 4 2 h = (Ok ht, h1)
  /\ value_of (edge_query ht pts) h1 = Ok [0;2]
  /\ value_of (edge_query ht pts) (after (write_int el es') h1) = Ok [-1;-1].
Proof.
  exists some_heap, (FNd 1 true), 1%nat, [[0;0];[0;0];[0;0];[0;0];[0;0];[0;0]],
    [Pt (bf 1 (-1)) (Zb 0); Pt (bf 3 (-1)) (Zb 1)].
  set (pts := [_; _]). set (es' := [_; _; _; _; _; _]).
  assert (H : match EdgeCellTree2d_init_h g0 (FNd 1 true) 1 4 2 some_heap with
              | (Ok ht, h1) => (value_of (edge_query ht pts) h1,
                                value_of (edge_query ht pts) (after (write_int 1 es') h1))
              | _ => (Err EFuel, Err EFuel)
              end = (Ok [0;2], Ok [-1;-1])) by (vm_compute; reflexivity).
  destruct (EdgeCellTree2d_init_h _ _ _ _ _ _) as [[ht|e] h1]; [|discriminate H].
  exists ht, h1. inversion H. auto.
Qed.

(** A session: build a tree on the clockwise squares, then query it with the
    pipes' grid faces [[0;4;5;1]], also clockwise: intersect_faces leaves them,
    locate_faces turns them; the tree still stands after both. *)
Definition query_heap : heap (T:=b64) := Heap [cw_faces; [[0;4;5;1]]] [cw_square; grid].
Example C41_session :
  match CellTree2d_init_h (fun x => x) g0 (FNd 0 true) (INd 0) (-999) 4 2 query_heap with
  | (Ok ht, h1) =>
      match intersect_faces_h (fun x => x) g0 1 ht (FNd 1 true) (INd 1) (-1) h1 with
      | (Ok a, h2) =>
          match locate_faces_h (fun x => x) g0 1 ht 1 1 h2 with
          | (Ok ij, h3) => (map fst a, nth_error (h_int h2) 1, ij, nth_error (h_int h3) 1,
                            isOk (value_of (deref ht) h3))
          | _ => ([], None, [], None, false)
          end
      | _ => ([], None, [], None, false)
      end
  | _ => ([], None, [], None, false)
  end = ([(0, 0); (0, 1)], Some [[0;4;5;1]], [(0, 0); (0, 1)], Some [[1;5;4;0]], true).
Proof. vm_compute. reflexivity. Qed.

Print Assumptions C41_construction_keeps.
Print Assumptions C41_construction_result.
Print Assumptions C41_intersect_faces_keeps.
Print Assumptions C41_locate_faces_writes.
Print Assumptions C41_array_like_shared.
Print Assumptions C41_locate_faces_turns.
Print Assumptions C41_array_like_refuted.
Print Assumptions C47_tree_is_independent.
Print Assumptions C47_edges_are_shared.
Print Assumptions C47_edges_refuted.
