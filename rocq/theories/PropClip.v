(** C27: the clipping work arrays, for any number type (binary64 included). *)
From Coq Require Import Reals Lra.
From Flocq Require Import Core BinarySingleNaN.
From Verif Require Import Base Num MUtils MGeometry MCreation MAlgorithms MQuery MCelltree PStack PPartition
  SpecTree PBuild PWalk SpecQuery PQuery PMesh PInit SpecApi PPoints PTreeFacts PApi PSmall PFaces PClip
  NumR NumB64 Examples.
Local Open Scope Z_scope.

Section Any.
  Context {T : Type} {NT : Num T} {NO : NumOrd T}.
  Notation point := (point T).

  (** the rows of a mesh have at most n columns *)
  Definition columns (n : nat) (faces : list (list Z)) : Prop := Forall (fun f => (length f <= n)%nat) faces.

  Lemma until_fill_le l : (length (until_fill l) <= length l)%nat.
  Proof. induction l as [|x l IH]; cbn; auto. destruct (x =? -1); cbn; lia. Qed.

  Lemma ccw_columns n (vs : list point) fs fs' : Forall (wf_face (length vs)) (map (with_fill n) fs) ->
    counter_clockwise vs (map (with_fill n) fs) = Ok fs' -> forall k f', nth_error fs' k = Some f' ->
    wf_face (length vs) f' /\ exists f, In f fs /\ (length (until_fill f') <= length f)%nat.
  Proof.
    intros Hw E k f' Ef. destruct (counter_clockwise_ok vs _ Hw) as (q & E2 & W2 & HS).
    rewrite E in E2. inversion E2; subst q. split; [rewrite Forall_forall in W2; apply W2; eapply nth_error_In; eauto|].
    assert (G : forall k, nth_error fs' k = Some f' -> exists f, In f (map (with_fill n) fs) /\ same_face f f').
    { clear - HS. revert HS. generalize (map (with_fill n) fs). intros l H. induction H as [|x y l l' Hxy _ IH]; intros [|k] Hk; try discriminate.
      - inversion Hk; subst. exists x. split; [now left|auto].
      - destruct (IH k Hk) as (f & I & S). exists f. split; [now right|auto]. }
    destruct (G k Ef) as (f & I & (_ & HU)). apply in_map_iff in I as (f0 & <- & I). exists f0. split; auto.
    pose proof (until_fill_le (with_fill n f0)) as L. unfold with_fill in L. rewrite map_length in L. fold (with_fill n f0) in L.
    destruct HU as [->| ->]; [|rewrite rev_length]; lia.
  Qed.

  Lemma init_ccw_any g vs faces fill nb cpl (t : tree2d (T:=T)) :
    mesh_ok vs faces fill -> CellTree2d_init g vs faces fill nb cpl = Ok t ->
    counter_clockwise vs (map (with_fill fill) faces) = Ok (elements (celltree_data t)).
  Proof.
    intros Hm H. unfold CellTree2d_init in H. apply bind_ok in H as (u & _ & H).
    rewrite (cast_faces_wf vs) in H by apply (mo_faces _ _ _ Hm). cbn [bind] in H.
    apply bind_ok in H as (f2 & E2 & H). apply bind_ok in H as (f3 & E3 & H).
    apply bind_ok in H as ((n & i) & E4 & H). apply bind_ok in H as (b & E5 & H).
    inversion H. subst t. cbn. auto.
  Qed.

  (** the clipping bound for whole calls: with at most [na] columns in the query
      mesh and [nb] in the tree's mesh such that the bound fits, intersect_faces
      returns a result: no out-of-bounds access, whatever the rounding *)
  Theorem C27_intersect_faces_any g vs faces fill nb cpl (t : tree2d (T:=T)) :
    mesh_ok vs faces fill -> CellTree2d_init g vs faces fill nb cpl = Ok t ->
    forall vs_ qfaces qfill ca cb, faces_ok vs_ (map (with_fill qfill) qfaces) ->
    columns ca qfaces -> columns cb faces -> clip_bound cb (Z.of_nat ca) <= 64 ->
    forall g' n, (1 <= n)%nat -> exists rows, CellTree2d_intersect_faces g' n t vs_ qfaces qfill = Ok rows.
  Proof.
    intros Hm E vs_ qf qfill ca cb Hq Ca Cb HB g' n Hn.
    destruct (locate_faces_result _ _ _ _ _ _ _ Hm E vs_ _ Hq) as (pairs & qf' & Ecc & Hr & _ & Hin).
    pose proof (init_built _ _ _ _ _ _ _ Hm E) as Hb. pose proof (bt_vertices _ _ _ _ _ Hb) as Evs.
    pose proof (init_ccw_any _ _ _ _ _ _ _ Hm E) as Hcc.
    unfold CellTree2d_intersect_faces. rewrite (cast_faces_wf vs_) by apply (fo_faces _ _ Hq). cbn [bind].
    rewrite (Hr g' n Hn). cbn [bind]. unfold area_of_intersection. rewrite Evs.
    assert (P : forall ij, In ij pairs -> exists A, area_of_intersection_one g' vs_ vs qf' (elements (celltree_data t)) ij = Ok A).
    { intros (i, j) Hij. apply Hin in Hij as (fa & fb & a & b & ba & bb & H0 & H1 & Ea & Eb & Pa & Pb & _).
      destruct (ccw_columns _ _ _ _ (fo_faces _ _ Hq) Ecc _ _ Ea) as (Wa & ra & Ia & La).
      destruct (ccw_columns _ _ _ _ (mo_faces _ _ _ Hm) Hcc _ _ Eb) as (Wb & rb & Ib & Lb).
      unfold area_of_intersection_one. cbn [fst snd]. rewrite (aget_pos _ _ _ H0 Ea), (aget_pos _ _ _ H1 Eb). cbn [bind].
      rewrite (copy_vertices_ok g' _ _ _ Wa Pa), (copy_vertices_ok g' _ _ _ Wb Pb). cbn [bind].
      apply F2_length in Pa. apply F2_length in Pb. destruct Wa as (Wa & _), Wb as (Wb & _).
      unfold columns in Ca, Cb. rewrite Forall_forall in Ca, Cb. specialize (Ca _ Ia). specialize (Cb _ Ib). cbn beta in Ca, Cb.
      apply clip_area_any; [lia|lia|].
      assert (clip_bound (length b) (zlen a) <= clip_bound (length b) (Z.of_nat ca)) by (apply clip_bound_mono; unfold zlen; lia).
      assert (clip_bound (length b) (Z.of_nat ca) <= clip_bound cb (Z.of_nat ca)); [|lia].
      assert (HL : (length b <= cb)%nat) by lia. clear - HL. revert HL. generalize (length b) as m.
      assert (0 <= Z.of_nat ca) by lia. revert H. generalize (Z.of_nat ca) as z. induction cb as [|cb IH]; intros z Hz [|m] HL; try lia.
      - apply clip_bound_grows. lia.
      - cbn [clip_bound]. apply IH; [apply Z.div_pos; lia|lia]. }
    destruct (mapres (area_of_intersection_one g' vs_ vs qf' (elements (celltree_data t))) pairs) as [areas|e] eqn:EM; [cbn [bind]; eauto|].
    exfalso. clear - P EM. induction pairs as [|x l IH]; [discriminate|]. cbn [mapres] in EM.
    destruct (P x (or_introl eq_refl)) as (A & EA). rewrite EA in EM. cbn [bind] in EM.
    destruct (mapres _ l) as [as_|e'] eqn:El; [discriminate|]. apply IH; [intros ij Hij; apply P; now right|cbn [bind] in EM; congruence].
  Qed.

  (** intersect_boxes: safe for faces of at most six columns, whatever the boxes *)
  Theorem C27_intersect_boxes_any g vs faces fill nb cpl (t : tree2d (T:=T)) :
    mesh_ok vs faces fill -> CellTree2d_init g vs faces fill nb cpl = Ok t -> columns 6 faces ->
    forall boxes g' n, (1 <= n)%nat -> exists rows, CellTree2d_intersect_boxes g' n t boxes = Ok rows.
  Proof.
    intros Hm E Cb boxes g' n Hn.
    pose proof (init_built _ _ _ _ _ _ _ Hm E) as Hb. pose proof (bt_vertices _ _ _ _ _ Hb) as Evs.
    pose proof (init_ccw_any _ _ _ _ _ _ _ Hm E) as Hcc.
    destruct (boxes_result t boxes (built_valid _ _ _ _ _ Hb)) as (pairs & Hr & _ & Hin & _).
    specialize (Hr g' n Hn). unfold CellTree2d_locate_boxes in Hr. unfold CellTree2d_intersect_boxes. rewrite Hr. cbn [bind].
    unfold box_area_of_intersection. rewrite Evs.
    assert (P : forall ij, In ij pairs -> exists A, box_area_one g' boxes vs (elements (celltree_data t)) ij = Ok A).
    { intros (i, j) Hij. apply Hin in Hij as (a & bb & H0 & H1 & Ea & Eb & _).
      pose proof (vt_elements _ (built_valid _ _ _ _ _ Hb)) as L.
      assert (Hj : (Z.to_nat j < length (elements (celltree_data t)))%nat) by (rewrite L; apply nth_error_Some; congruence).
      destruct (nth_error (elements (celltree_data t)) (Z.to_nat j)) as [fb|] eqn:Ef; [|apply nth_error_None in Ef; lia].
      destruct (ccw_columns _ _ _ _ (mo_faces _ _ _ Hm) Hcc _ _ Ef) as (Wb & rb & Ib & Lb).
      destruct (wf_poly vs fb Wb) as (b & Pb).
      unfold box_area_one. cbn [fst snd]. rewrite (aget_pos _ _ _ H0 Ea), (aget_pos _ _ _ H1 Ef). cbn [bind].
      rewrite (copy_vertices_ok g' _ _ _ Wb Pb). cbn [bind].
      apply F2_length in Pb. destruct Wb as (Wb & _). unfold columns in Cb. rewrite Forall_forall in Cb. specialize (Cb _ Ib). cbn beta in Cb.
      apply clip_area_any; [cbn; lia|lia|]. change (zlen (copy_box_vertices a)) with 4.
      assert (HL : (length b <= 6)%nat) by lia. clear - HL. destruct b as [|? [|? [|? [|? [|? [|? [|? b]]]]]]]; cbn [length] in *; try lia; vm_compute; discriminate. }
    destruct (mapres (box_area_one g' boxes vs (elements (celltree_data t))) pairs) as [areas|e] eqn:EM; [cbn [bind]; eauto|].
    exfalso. clear - P EM. induction pairs as [|x l IH]; [discriminate|]. cbn [mapres] in EM.
    destruct (P x (or_introl eq_refl)) as (A & EA). rewrite EA in EM. cbn [bind] in EM.
    destruct (mapres _ l) as [as_|e'] eqn:El; [discriminate|]. apply IH; [intros ij Hij; apply P; now right|cbn [bind] in EM; congruence].
  Qed.
End Any.

(** triangles and quadrangles against triangles and quadrangles fit *)
Example quads_fit : clip_bound 4 4 <= 64. Proof. vm_compute. discriminate. Qed.
Example C27_any_example : exists t, CellTree2d_init (T:=b64) g0 grid grid_faces (-1) 4 2 = Ok t
  /\ (exists rows, CellTree2d_intersect_faces g0 2 t grid grid_faces (-1) = Ok rows)
  /\ (exists rows, CellTree2d_intersect_boxes g0 2 t [Box (Zb 0) (Zb 3) (Zb 0) (Zb 2)] = Ok rows).
Proof.
  destruct grid_built_B64 as (t & E & _). exists t. split; auto.
  assert (C : forall n, (4 <= n)%nat -> columns n grid_faces).
  { intros n Hn. unfold columns, grid_faces. repeat constructor; cbn; lia. }
  split.
  - apply (C27_intersect_faces_any _ _ _ _ _ _ _ grid_mesh_B64 E grid grid_faces (-1) 4 4); auto.
    split; [exact (mo_vertices _ _ _ grid_mesh_B64)|exact (mo_faces _ _ _ grid_mesh_B64)].
    exact quads_fit.
  - apply (C27_intersect_boxes_any _ _ _ _ _ _ _ grid_mesh_B64 E); auto.
Qed.

(** ** A non-convex face with 32 vertices overflows the work arrays *)

(** a zigzag strip: 32 vertices, every side crosses both x = 3 and x = 7 *)
Definition snake : list (Z * Z) :=
  map (fun k => if Z.even k then (2, 4 * k) else (12, 4 * k)) (map Z.of_nat (seq 0 16))
  ++ map (fun k => if Z.even k then (-2, 4 * k) else (8, 4 * k)) (rev (map Z.of_nat (seq 1 16))).
Definition clipper : list (Z * Z) := [(3, -100); (7, -100); (7, 61); (6, 100); (3, 100)].

(** intersect_faces accepts the mesh and the query and then accesses the
    64-entry work arrays out of bounds (unchecked in the compiled code) *)
Theorem C27_nonconvex_overflow : exists vs faces t vs_ qfaces,
  mesh_ok (T:=b64) vs faces (-1) /\ faces_ok (T:=b64) vs_ qfaces
  /\ CellTree2d_init g0 vs faces (-1) 4 2 = Ok t
  /\ CellTree2d_intersect_faces g0 4 t vs_ qfaces (-1) = Err EIndex.
Proof.
  exists (map ptZ clipper), [[0; 1; 2; 3; 4]].
  assert (H : match CellTree2d_init (T:=b64) g0 (map ptZ clipper) [[0; 1; 2; 3; 4]] (-1) 4 2 with
              | Ok t => match CellTree2d_intersect_faces g0 4 t (map ptZ snake) [map Z.of_nat (seq 0 32)] (-1) with
                | Ok _ => false | Err EIndex => true | Err _ => false end
              | Err _ => false end = true) by (vm_compute; reflexivity).
  destruct (CellTree2d_init (T:=b64) g0 (map ptZ clipper) [[0; 1; 2; 3; 4]] (-1) 4 2) as [t|e] eqn:E; [|discriminate].
  exists t, (map ptZ snake), [map Z.of_nat (seq 0 32)].
  split; [|split; [|split; auto]].
  - constructor; [repeat constructor|discriminate|]. repeat constructor; simpl; try lia.
  - constructor; [repeat constructor|]. repeat constructor; simpl; try lia.
  - destruct (CellTree2d_intersect_faces _ _ _ _ _ _) as [?|[]]; try discriminate. reflexivity.
Qed.

Print Assumptions C27_intersect_faces_any.
Print Assumptions C27_intersect_boxes_any.
Print Assumptions C27_nonconvex_overflow.
