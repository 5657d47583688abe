(** The numbering of the vertices does not matter: two trees built from meshes that
    list the same coordinates are the same tree but for their vertices and elements. *)
From Coq Require Import FunctionalExtensionality.
From Verif Require Import Base Num MUtils MGeometry MCreation MAlgorithms MQuery MCelltree PStack PPartition
  SpecTree PBuild PWalk SpecQuery PQuery PMesh PInit SpecApi PPoints PTreeFacts PApi PFaces PSmall PPad SpecNumber.
Local Open Scope Z_scope.

(** both fail with the same error, or both succeed with related results *)
Definition both {A B} (R : A -> B -> Prop) (x : res A) (y : res B) : Prop :=
  match x, y with
  | Ok a, Ok b => R a b
  | Err e, Err e' => e = e'
  | _, _ => False
  end.
Lemma both_eq {A} (x y : res A) : both eq x y -> x = y.
Proof. destruct x, y; cbn; intros; congruence || tauto. Qed.
Lemma both_bind {A B C D} (R : A -> B -> Prop) (S : C -> D -> Prop) x y (k : A -> res C) (k' : B -> res D) :
  both R x y -> (forall a b, R a b -> both S (k a) (k' b)) -> both S (bind x k) (bind y k').
Proof. intros H K. destruct x, y; cbn in *; try contradiction; auto. Qed.
Lemma both_refl {A} (x : res A) : both eq x x.
Proof. destruct x; reflexivity. Qed.

Lemma F2_nth_r {A B} (P : A -> B -> Prop) l l' k b : Forall2 P l l' -> nth_error l' k = Some b ->
  exists a, nth_error l k = Some a /\ P a b.
Proof. intros H. revert k. induction H; intros [|k] E; cbn in *; try discriminate; eauto. inversion E; subst; eauto. Qed.

Lemma F2_weaken {A B} (P Q : A -> B -> Prop) l l' : (forall a b, P a b -> Q a b) -> Forall2 P l l' -> Forall2 Q l l'.
Proof. intros H. induction 1; auto. Qed.

Section Renum.
  Context {T : Type} {NT : Num T} {NO : NumOrd T}.
  Notation point := (point T).

  (** ** faces *)
  Definition twin (vs vs' : list point) (f f' : list Z) : Prop :=
    wf_face (length vs) f /\ wf_face (length vs') f' /\ exists poly, poly_of vs f poly /\ poly_of vs' f' poly.
  Notation twins vs vs' := (Forall2 (twin vs vs')).

  Lemma twin_copy g vs vs' f f' : twin vs vs' f f' -> copy_vertices g vs f = copy_vertices g vs' f'.
  Proof. intros (W & W' & poly & H & H'). now rewrite (copy_vertices_ok g vs f poly), (copy_vertices_ok g vs' f' poly). Qed.

  Lemma twin_get vs vs' es es' j : twins vs vs' es es' -> both (twin vs vs') (aget es j) (aget es' j).
  Proof.
    intros H. unfold aget. rewrite <- (F2_length _ _ _ H). destruct (norm_idx (length es) j) as [i|]; [|reflexivity].
    destruct (nth_error es i) as [f|] eqn:E.
    - destruct (Forall2_nth_l _ _ _ _ _ H E) as (f' & E' & W). now rewrite E'.
    - assert (E' : nth_error es' i = None) by (apply nth_error_None; rewrite <- (F2_length _ _ _ H); now apply nth_error_None).
      rewrite E'. reflexivity.
  Qed.

  Lemma corner (vs : list point) f poly i : wf_face (length vs) f -> poly_of vs f poly -> 0 <= i < zlen poly ->
    exists x c, aget f i = Ok x /\ aget vs x = Ok c /\ nth_error poly (Z.to_nat i) = Some c.
  Proof.
    intros W H Hi. unfold zlen in Hi. destruct (nth_error poly (Z.to_nat i)) as [c|] eqn:Ec; [|apply nth_error_None in Ec; lia].
    destruct (F2_nth_r _ _ _ _ _ H Ec) as (x & Ex & H0 & Ev). exists x, c. split; [|split; auto].
    - apply aget_pos; [lia|]. rewrite (until_fill_prefix f), nth_error_app1; auto. apply nth_error_Some. congruence.
    - apply aget_pos; auto.
  Qed.

  Lemma twin_flip vs vs' f f' : twin vs vs' f f' ->
    length (until_fill f) = length (until_fill f')
    /\ exists h h', flip f (Z.of_nat (length (until_fill f))) = Ok h /\ flip f' (Z.of_nat (length (until_fill f'))) = Ok h'
       /\ length (until_fill h) = length (until_fill f) /\ twin vs vs' h h'.
  Proof.
    intros (W & W' & poly & H & H'). pose proof (F2_length _ _ _ H) as L. pose proof (F2_length _ _ _ H') as L'.
    split; [congruence|]. destruct (wf_face_rev _ f W) as (V & E). destruct (wf_face_rev _ f' W') as (V' & E').
    exists (rev (until_fill f) ++ skipn (length (until_fill f)) f), (rev (until_fill f') ++ skipn (length (until_fill f')) f').
    split; [|split; [|split]].
    - rewrite (until_fill_prefix f) at 1. apply flip_ok.
    - rewrite (until_fill_prefix f') at 1. apply flip_ok.
    - now rewrite E, rev_length.
    - split; auto. split; auto. exists (rev poly). unfold poly_of. rewrite E, E'.
      assert (HR : forall vs (l : list Z) (l' : list point), Forall2 (fun i p => 0 <= i /\ nth_error vs (Z.to_nat i) = Some p) l l' ->
        Forall2 (fun i p => 0 <= i /\ nth_error vs (Z.to_nat i) = Some p) (rev l) (rev l')).
      { clear. induction 1; simpl; auto. apply Forall2_app; auto. }
      split; now apply HR.
  Qed.

  Lemma twin_loop vs vs' : forall fuel i f f' a b, twin vs vs' f f' -> 0 <= i -> i + Z.of_nat fuel <= Z.of_nat (length (until_fill f)) ->
    both (twin vs vs') (ccw_loop vs (length (until_fill f)) fuel i f a b) (ccw_loop vs' (length (until_fill f)) fuel i f' a b).
  Proof.
    induction fuel as [|fuel IH]; intros i f f' a b H H0 Hi; [exact H|]. cbn [ccw_loop].
    pose proof H as (W & W' & poly & Hp & Hp'). pose proof (F2_length _ _ _ Hp) as L.
    destruct (corner vs f poly i W Hp) as (x & c & Ex & Ec & En); [unfold zlen; lia|].
    destruct (corner vs' f' poly i W' Hp') as (x' & c' & Ex' & Ec' & En'); [unfold zlen; lia|].
    assert (c' = c) by congruence. subst c'.
    rewrite Ex, Ex'. cbn [bind]. rewrite Ec, Ec'. cbn [bind]. cbv zeta. destruct (neqb _ _); [apply IH; auto; lia|].
    destruct (nltb _ _); [|exact H].
    destruct (twin_flip vs vs' f f' H) as (El & h & h' & Eh & Eh' & Lh & Hh). rewrite Eh. rewrite <- El in Eh'. rewrite Eh'. cbn [bind].
    rewrite <- Lh. apply IH; auto; lia.
  Qed.

  Lemma twin_ccw vs vs' f f' : twin vs vs' f f' -> both (twin vs vs') (ccw_face vs f) (ccw_face vs' f').
  Proof.
    intros H. pose proof H as (W & W' & poly & Hp & Hp'). pose proof (F2_length _ _ _ Hp) as L. pose proof (F2_length _ _ _ Hp') as L'.
    unfold ccw_face. rewrite !polygon_length_ok by (apply W || apply W'). rewrite L', <- L.
    assert (H3 : (3 <= length poly)%nat) by (rewrite <- L; apply W).
    destruct (corner vs f poly (Z.of_nat (length (until_fill f)) - 2) W Hp) as (x & a & Ex & Ea & En); [unfold zlen; lia|].
    destruct (corner vs f poly (Z.of_nat (length (until_fill f)) - 1) W Hp) as (y & b & Ey & Eb & Em); [unfold zlen; lia|].
    destruct (corner vs' f' poly (Z.of_nat (length (until_fill f)) - 2) W' Hp') as (x' & a' & Ex' & Ea' & En'); [unfold zlen; lia|].
    destruct (corner vs' f' poly (Z.of_nat (length (until_fill f)) - 1) W' Hp') as (y' & b' & Ey' & Eb' & Em'); [unfold zlen; lia|].
    assert (a' = a) by congruence. assert (b' = b) by congruence. subst a' b'.
    rewrite Ex, Ex'. cbn [bind]. rewrite Ey, Ey'. cbn [bind]. rewrite Ea, Ea'. cbn [bind]. rewrite Eb, Eb'. cbn [bind].
    apply twin_loop; auto; lia.
  Qed.

  Lemma both_mapres {A A' B B'} (R : A -> A' -> Prop) (S : B -> B' -> Prop) f f' l l' : Forall2 R l l' ->
    (forall a a', R a a' -> both S (f a) (f' a')) -> both (Forall2 S) (mapres f l) (mapres f' l').
  Proof.
    intros H HF. induction H as [|a a' l l' Ha _ IH]; cbn [mapres]; [constructor|].
    apply (both_bind S); auto. intros b b' Hb. apply (both_bind (Forall2 S)); auto. intros. cbn. auto.
  Qed.

  Lemma twins_ccw vs vs' q q' : twins vs vs' q q' -> both (twins vs vs') (counter_clockwise vs q) (counter_clockwise vs' q').
  Proof. intros H. eapply both_mapres; [exact H|]. apply twin_ccw. Qed.

  Lemma twin_box_loop vs vs' : forall u u' poly bb,
    Forall2 (fun i p => 0 <= i /\ nth_error vs (Z.to_nat i) = Some p) u poly ->
    Forall2 (fun i p => 0 <= i /\ nth_error vs' (Z.to_nat i) = Some p) u' poly ->
    bounding_box_loop vs u bb = bounding_box_loop vs' u' bb.
  Proof.
    induction u as [|x u IH]; intros u' poly bb H H'.
    - inversion H; subst. inversion H'; subst. reflexivity.
    - inversion H as [|? p ? poly' (P & E) HT]; subst. inversion H' as [|x' ? u2 ? (P' & E') HT']; subst.
      cbn [bounding_box_loop]. unfold FILL_VALUE. destruct (Z.eqb_spec x (-1)); [lia|]. destruct (Z.eqb_spec x' (-1)); [lia|].
      rewrite (aget_pos vs x p P E), (aget_pos vs' x' p P' E'). cbn [bind]. eapply IH; eauto.
  Qed.

  Lemma twin_box vs vs' f f' : twin vs vs' f f' -> bounding_box f vs = bounding_box f' vs'.
  Proof.
    intros (W & W' & poly & H & H'). rewrite (bounding_box_until vs f), (bounding_box_until vs' f') by (destruct W, W'; lia).
    unfold poly_of in *. destruct W as (W3 & _). destruct (until_fill f) as [|x u] eqn:E; [cbn in W3; lia|].
    inversion H as [|? p ? poly' (P & Ex) HT]; subst. inversion H' as [|x' ? u' ? (P' & Ex') HT']; subst.
    unfold bounding_box. change (aget (x :: u) 0) with (@Ok Z x). change (aget (x' :: u') 0) with (@Ok Z x'). cbn [bind skipn].
    rewrite (aget_pos vs x p P Ex), (aget_pos vs' x' p P' Ex'). cbn [bind]. eapply twin_box_loop; eauto.
  Qed.

  Lemma twins_boxes vs vs' q q' : twins vs vs' q q' -> build_face_bboxes q vs = build_face_bboxes q' vs'.
  Proof.
    intros H. unfold build_face_bboxes. induction H as [|f f' l l' Hf _ IH]; auto. cbn [mapres]. now rewrite (twin_box _ _ _ _ Hf), IH.
  Qed.

  (** two trees that differ in vertices and elements only *)
  Definition like (R : list point -> list point -> list Z -> list Z -> Prop) (t t' : tree2d (T:=T)) : Prop :=
    exists es es' vs vs' nd bi bc bb cpl bd nb,
      t = Tree2d (CellTree es vs nd bi bc bb cpl) bd nb
      /\ t' = Tree2d (CellTree es' vs' nd bi bc bb cpl) bd nb /\ Forall2 (R vs vs') es es'.

  Lemma like_tolerance R t t' tol : like R t t' -> get_tolerance t tol = get_tolerance t' tol.
  Proof. intros (es & es' & vs & vs' & nd & bi & bc & bb & cpl & bd & nb & -> & -> & _). reflexivity. Qed.

  Ltac expose H := destruct H as (es & es' & vs & vs' & nd & bi & bc & bb & cpl & bd & nb & -> & -> & H).

  Lemma face_test_like g t t' p tol : like twin t t' ->
    face_test g (celltree_data t) p tol = face_test g (celltree_data t') p tol.
  Proof.
    intros H. expose H. extensionality j. unfold face_test. cbn [celltree_data elements vertices]. apply both_eq.
    apply (both_bind (twin vs vs')); [now apply twin_get|]. intros f f' W.
    pose proof (twin_copy g _ _ _ _ W) as C. unfold copy_vertices in C. rewrite C. apply both_refl.
  Qed.

  Lemma edge_face_like g cs t t' : like twin t t' ->
    compute_edge_face_intersect g cs (celltree_data t) = compute_edge_face_intersect g cs (celltree_data t').
  Proof.
    intros H. expose H. extensionality j. extensionality a. extensionality b.
    unfold compute_edge_face_intersect. cbn [celltree_data elements vertices bb_coords].
    destruct (aget bc j) as [bx|]; [|reflexivity]. cbn [bind].
    destruct (cohen_sutherland_line_box_clip cs a b bx) as [[c|]|]; try reflexivity. cbn [bind]. apply both_eq.
    apply (both_bind (twin vs vs')); [now apply twin_get|]. intros f f' W.
    pose proof (twin_copy g _ _ _ _ W) as C. unfold copy_vertices in C. rewrite C. apply both_refl.
  Qed.

  Lemma locate_points_like g t t' pts tol : like twin t t' ->
    CellTree2d_locate_points g t pts tol = CellTree2d_locate_points g t' pts tol.
  Proof.
    intros H. unfold CellTree2d_locate_points. rewrite (like_tolerance _ _ _ tol H).
    destruct (get_tolerance t' tol) as [x|]; [|reflexivity]. cbn [bind]. unfold locate_points.
    f_equal. extensionality p. unfold locate_point. rewrite (face_test_like g t t' p x H). expose H. reflexivity.
  Qed.

  Lemma locate_boxes_like R g t t' boxes n : like R t t' ->
    locate_boxes g boxes (celltree_data t) n = locate_boxes g boxes (celltree_data t') n.
  Proof. intros H. expose H. reflexivity. Qed.

  Lemma intersect_edges_like g cs n t t' queries : like twin t t' ->
    CellTree2d_intersect_edges g cs n t queries = CellTree2d_intersect_edges g cs n t' queries.
  Proof.
    intros H. unfold CellTree2d_intersect_edges, locate_edge_faces. rewrite (edge_face_like g cs t t' H). expose H. reflexivity.
  Qed.

  Lemma intersect_boxes_like g n t t' boxes : like twin t t' ->
    CellTree2d_intersect_boxes g n t boxes = CellTree2d_intersect_boxes g n t' boxes.
  Proof.
    intros H. unfold CellTree2d_intersect_boxes, box_area_of_intersection. rewrite (locate_boxes_like _ g t t' boxes n H).
    replace (box_area_one g boxes (vertices (celltree_data t')) (elements (celltree_data t')))
      with (box_area_one g boxes (vertices (celltree_data t)) (elements (celltree_data t))); auto.
    expose H. extensionality ij. unfold box_area_one. cbn [celltree_data elements vertices].
    destruct (aget boxes (fst ij)) as [bx|]; [|reflexivity]. cbn [bind]. apply both_eq.
    apply (both_bind (twin vs vs')); [now apply twin_get|]. intros f f' W. rewrite (twin_copy g _ _ _ _ W). apply both_refl.
  Qed.

  (** query faces: also numbered differently *)
  Lemma pair_like {B} g t t' ws ws' q q' (k : list point -> list point -> res B) : like twin t t' -> twins ws ws' q q' ->
    (fun ij : Z * Z => let* f := aget q (fst ij) in let* h := aget (elements (celltree_data t)) (snd ij) in
       let* a := copy_vertices g ws f in let* b := copy_vertices g (vertices (celltree_data t)) h in k a b)
    = (fun ij : Z * Z => let* f := aget q' (fst ij) in let* h := aget (elements (celltree_data t')) (snd ij) in
       let* a := copy_vertices g ws' f in let* b := copy_vertices g (vertices (celltree_data t')) h in k a b).
  Proof.
    intros H HQ. expose H. extensionality ij. cbn [celltree_data elements vertices]. apply both_eq.
    apply (both_bind (twin ws ws')); [now apply twin_get|]. intros f f' W.
    apply (both_bind (twin vs vs')); [now apply twin_get|]. intros h h' V.
    rewrite (twin_copy g _ _ _ _ W), (twin_copy g _ _ _ _ V). apply both_refl.
  Qed.

  Lemma locate_faces_like g n t t' ws ws' q q' : like twin t t' -> twins ws ws' q q' ->
    both (fun r r' => fst r = fst r' /\ twins ws ws' (snd r) (snd r'))
      (CellTree2d_locate_faces g n t ws q) (CellTree2d_locate_faces g n t' ws' q').
  Proof.
    intros H HQ. unfold CellTree2d_locate_faces. eapply both_bind; [now apply twins_ccw|]. intros h h' HP. cbn beta.
    rewrite (twins_boxes _ _ h h' HP). destruct (build_face_bboxes h' ws') as [bc|]; [|reflexivity]. cbn [bind].
    rewrite (locate_boxes_like _ g t t' bc n H). destruct (locate_boxes g bc (celltree_data t') n) as [sl|]; [|reflexivity]. cbn [bind].
    pose proof (pair_like g t t' ws ws' h h' (fun a b => let* x := separating_axes a b in if x : bool then separating_axes b a else Ok false) H HP) as E.
    unfold polygons_intersect. change (polygons_intersect_one g ws (vertices (celltree_data t)) h (elements (celltree_data t)) = polygons_intersect_one g ws' (vertices (celltree_data t')) h' (elements (celltree_data t'))) in E.
    rewrite E. destruct (mapres _ sl) as [m|]; [|reflexivity]. cbn. auto.
  Qed.

  Lemma cast_ok (vs : list point) fs fl : Forall (wf_face (length vs)) (map (with_fill fl) fs) -> cast_faces fs fl = Ok (map (with_fill fl) fs).
  Proof.
    intros Hw. rewrite cast_faces_spec. replace (existsb _ fs) with false; auto. symmetry. apply not_true_iff_false. intros E.
    apply existsb_exists in E as (f & Hi & E). apply Z.ltb_lt in E. rewrite Forall_forall in Hw. specialize (Hw (with_fill fl f)).
    destruct Hw as (_ & H32 & _); [now apply in_map|]. unfold with_fill in H32. rewrite map_length in H32. unfold zlen in E. lia.
  Qed.

  Lemma corners_twins vs faces fill vs' faces' fill' : Forall (wf_face (length vs)) (map (with_fill fill) faces) ->
    Forall (wf_face (length vs')) (map (with_fill fill') faces') -> same_corners vs faces fill vs' faces' fill' ->
    twins vs vs' (map (with_fill fill) faces) (map (with_fill fill') faces').
  Proof.
    intros W W' H. induction H as [|f f' l l' Hf _ IH]; cbn in *; constructor.
    - inversion W; inversion W'; subst. now split.
    - inversion W; inversion W'; subst. auto.
  Qed.

  Lemma intersect_faces_like g n t t' ws q fill ws' q' fill' : like twin t t' ->
    Forall (wf_face (length ws)) (map (with_fill fill) q) -> Forall (wf_face (length ws')) (map (with_fill fill') q') ->
    same_corners ws q fill ws' q' fill' ->
    CellTree2d_intersect_faces g n t ws q fill = CellTree2d_intersect_faces g n t' ws' q' fill'.
  Proof.
    intros H W W' HQ. unfold CellTree2d_intersect_faces. rewrite (cast_ok ws q fill W), (cast_ok ws' q' fill' W'). cbn [bind]. apply both_eq.
    eapply both_bind; [apply (locate_faces_like g n t t' _ _ _ _ H); now apply corners_twins|].
    intros (ij, h) (ij', h') (E & HP). cbn [fst snd] in E, HP. subst ij'.
    pose proof (pair_like g t t' ws ws' h h' (polygon_polygon_clip_area g) H HP) as E.
    change (area_of_intersection_one g ws (vertices (celltree_data t)) h (elements (celltree_data t)) = area_of_intersection_one g ws' (vertices (celltree_data t')) h' (elements (celltree_data t'))) in E.
    unfold area_of_intersection. rewrite E. apply both_refl.
  Qed.

  Lemma weights_like g t t' m pts tol : like twin t t' ->
    CellTree2d_compute_barycentric_weights g t m pts tol = CellTree2d_compute_barycentric_weights g t' m pts tol.
  Proof.
    intros H. unfold CellTree2d_compute_barycentric_weights. rewrite (like_tolerance _ _ _ tol H).
    destruct (get_tolerance t' tol) as [x|]; [|reflexivity]. cbn [bind].
    rewrite (locate_points_like g t t' pts (Some x) H). destruct (CellTree2d_locate_points g t' pts (Some x)) as [ix|]; [|reflexivity]. cbn [bind].
    expose H. cbn [celltree_data elements vertices]. destruct (3 <? m)%nat.
    - unfold barycentric_wachspress_weights. f_equal. f_equal. extensionality i.
      destruct (aget pts i) as [p|], (aget ix i) as [j|]; cbn [bind]; try reflexivity.
      unfold barycentric_wachspress_one. destruct (j =? -1); auto. apply both_eq.
      apply (both_bind (twin vs vs')); [now apply twin_get|]. intros f f' W. rewrite (twin_copy g _ _ _ _ W). apply both_refl.
    - unfold barycentric_triangle_weights. f_equal. f_equal. extensionality i.
      destruct (aget ix i) as [j|], (aget pts i) as [p|]; cbn [bind]; try reflexivity.
      unfold barycentric_triangle_one. destruct (j =? -1); auto. apply both_eq.
      apply (both_bind (twin vs vs')); [now apply twin_get|]. intros f f' (W & W' & poly & Hp & Hp').
      pose proof (F2_length _ _ _ Hp) as L. pose proof (proj1 W) as W3.
      unfold as_triangle.
      destruct (corner vs f poly 0 W Hp) as (i0 & a & E0 & F0 & G0); [unfold zlen; lia|].
      destruct (corner vs f poly 1 W Hp) as (i1 & b & E1 & F1 & G1); [unfold zlen; lia|].
      destruct (corner vs f poly 2 W Hp) as (i2 & c & E2 & F2 & G2); [unfold zlen; lia|].
      destruct (corner vs' f' poly 0 W' Hp') as (i0' & a' & E0' & F0' & G0'); [unfold zlen; lia|].
      destruct (corner vs' f' poly 1 W' Hp') as (i1' & b' & E1' & F1' & G1'); [unfold zlen; lia|].
      destruct (corner vs' f' poly 2 W' Hp') as (i2' & c' & E2' & F2' & G2'); [unfold zlen; lia|].
      assert (a' = a) by congruence. assert (b' = b) by congruence. assert (c' = c) by congruence. subst a' b' c'.
      rewrite E0, E0'. cbn [bind]. rewrite F0, F0'. cbn [bind]. rewrite E1, E1'. cbn [bind]. rewrite F1, F1'. cbn [bind].
      rewrite E2, E2'. cbn [bind]. rewrite F2, F2'. apply both_refl.
  Qed.

  Lemma init_like g vs faces fill vs' faces' fill' nb cpl :
    Forall (wf_face (length vs)) (map (with_fill fill) faces) -> Forall (wf_face (length vs')) (map (with_fill fill') faces') ->
    same_corners vs faces fill vs' faces' fill' ->
    both (like twin) (CellTree2d_init g vs faces fill nb cpl) (CellTree2d_init g vs' faces' fill' nb cpl).
  Proof.
    intros W W' HS. unfold CellTree2d_init. destruct (check_params nb cpl); [|reflexivity]. cbn [bind].
    rewrite (cast_ok vs faces fill W), (cast_ok vs' faces' fill' W'). cbn [bind].
    eapply both_bind; [apply twins_ccw; now apply corners_twins|]. intros h h' HP. cbn beta.
    rewrite (twins_boxes _ _ h h' HP), (F2_length _ _ _ HP). destruct (build_face_bboxes h' vs') as [bbs|e]; [|reflexivity]. cbn [bind].
    destruct (initialize _ _ _ _ _ _) as [(nds, bbi)|e]; [|reflexivity]. cbn [bind].
    destruct (bbox_tree bbs) as [bb|e]; [|reflexivity]. cbn.
    exists h, h', vs, vs', nds, bbi, bbs, bb, cpl, (bbox_distances bbs), nb. auto.
  Qed.

  (** ** networks *)
  Definition twin_edge (vs vs' : list point) (e e' : list Z) : Prop := exists v0 v1, edge_of vs e v0 v1 /\ edge_of vs' e' v0 v1.

  Lemma edge_get {B} vs vs' es es' j (k k' : list Z -> res B) : Forall2 (twin_edge vs vs') es es' ->
    (forall e e', twin_edge vs vs' e e' -> k e = k' e') -> bind (aget es j) k = bind (aget es' j) k'.
  Proof.
    intros H HK. unfold aget. rewrite <- (F2_length _ _ _ H). destruct (norm_idx (length es) j) as [i|]; [|reflexivity].
    destruct (nth_error es i) as [f|] eqn:E.
    - destruct (Forall2_nth_l _ _ _ _ _ H E) as (f' & E' & W). rewrite E'. cbn [bind]. auto.
    - assert (E' : nth_error es' i = None) by (apply nth_error_None; rewrite <- (F2_length _ _ _ H); now apply nth_error_None).
      rewrite E'. reflexivity.
  Qed.

  Lemma edge_copy vs vs' e e' out : twin_edge vs vs' e e' -> copy_vertices_into vs e out = copy_vertices_into vs' e' out.
  Proof.
    intros (v0 & v1 & (i & j & -> & I & J & Ei & Ej) & (i' & j' & -> & I' & J' & Ei' & Ej')).
    unfold copy_vertices_into. change (polygon_length [i; j]) with 2%nat. change (polygon_length [i'; j']) with 2%nat.
    unfold for_range. change (Z.to_nat (Z.of_nat 2 - 0)) with 2%nat. cbn [for_loop].
    change (0 + 1) with 1. change (aget [i; j] 0) with (@Ok Z i). change (aget [i'; j'] 0) with (@Ok Z i').
    change (aget [i; j] 1) with (@Ok Z j). change (aget [i'; j'] 1) with (@Ok Z j'). cbn [bind].
    rewrite (aget_pos vs i v0 I Ei), (aget_pos vs' i' v0 I' Ei'). cbn [bind].
    destruct (aset out 0 v0); [|reflexivity]. cbn [bind].
    now rewrite (aget_pos vs j v1 J Ej), (aget_pos vs' j' v1 J' Ej').
  Qed.

  Lemma edge_points_like g t t' pts tol : like twin_edge t t' ->
    EdgeCellTree2d_locate_points g t pts tol = EdgeCellTree2d_locate_points g t' pts tol.
  Proof.
    intros H. unfold EdgeCellTree2d_locate_points. rewrite (like_tolerance _ _ _ tol H).
    destruct (get_tolerance t' tol) as [x|]; [|reflexivity]. cbn [bind]. unfold locate_points_on_edge.
    f_equal. extensionality p. unfold locate_point_on_edge. expose H.
    replace (edge_test g (CellTree es' vs' nd bi bc bb cpl) p x) with (edge_test g (CellTree es vs nd bi bc bb cpl) p x); [reflexivity|].
    extensionality j. unfold edge_test. cbn [elements vertices]. apply (edge_get _ _ _ _ _ _ _ H). intros e e' W.
    now rewrite (edge_copy _ _ _ _ _ W).
  Qed.

  Lemma edge_edges_like g cs n t t' queries : like twin_edge t t' ->
    EdgeCellTree2d_intersect_edges g cs n t queries = EdgeCellTree2d_intersect_edges g cs n t' queries.
  Proof.
    intros H. unfold EdgeCellTree2d_intersect_edges, locate_edge_edges. expose H. cbn [celltree_data].
    replace (compute_edge_edge_intersect (CellTree es' vs' nd bi bc bb cpl)) with (compute_edge_edge_intersect (CellTree es vs nd bi bc bb cpl)); [reflexivity|].
    extensionality k. extensionality a. extensionality b. unfold compute_edge_edge_intersect. cbn [elements vertices].
    apply (edge_get _ _ _ _ _ _ _ H). intros e e' (v0 & v1 & (i & j & -> & I & J & Ei & Ej) & (i' & j' & -> & I' & J' & Ei' & Ej')).
    change (aget [i; j] 0) with (@Ok Z i). change (aget [i'; j'] 0) with (@Ok Z i').
    change (aget [i; j] 1) with (@Ok Z j). change (aget [i'; j'] 1) with (@Ok Z j'). cbn [bind].
    now rewrite (aget_pos vs i v0 I Ei), (aget_pos vs' i' v0 I' Ei'), (aget_pos vs j v1 J Ej), (aget_pos vs' j' v1 J' Ej').
  Qed.

  Lemma edge_boxes vs vs' es es' tol : Forall2 (twin_edge vs vs') es es' -> build_edge_bboxes es vs tol = build_edge_bboxes es' vs' tol.
  Proof.
    intros H. unfold build_edge_bboxes. induction H as [|e e' l l' He _ IH]; auto. cbn [mapres]. rewrite IH.
    destruct He as (v0 & v1 & (i & j & -> & I & J & Ei & Ej) & (i' & j' & -> & I' & J' & Ei' & Ej')). unfold edge_bounding_box.
    change (aget [i; j] 0) with (@Ok Z i). change (aget [i'; j'] 0) with (@Ok Z i').
    change (aget [i; j] 1) with (@Ok Z j). change (aget [i'; j'] 1) with (@Ok Z j'). cbn [bind].
    now rewrite (aget_pos vs i v0 I Ei), (aget_pos vs' i' v0 I' Ei'), (aget_pos vs j v1 J Ej), (aget_pos vs' j' v1 J' Ej').
  Qed.

  (** the largest extent of the vertices decides how far the boxes are widened *)
  Definition same_extent (vs vs' : list point) : Prop := forall tol tol', extent_tol vs tol -> extent_tol vs' tol' -> tol = tol'.

  Lemma extents (vs : list point) : Forall finite_point vs -> vs <> [] -> exists x0 x1 y0 y1,
    np_max (map px vs) = Ok x1 /\ np_min (map px vs) = Ok x0 /\ np_max (map py vs) = Ok y1 /\ np_min (map py vs) = Ok y0
    /\ extent_tol vs (nmax nmintol (nmul ntolfac (nmax (nsub x1 x0) (nsub y1 y0)))).
  Proof.
    intros Hvs Hvn.
    assert (Hm : forall f : point -> T, (forall c, finite_point c -> fin (f c)) -> Forall fin (map f vs) /\ map f vs <> []).
    { intros f Hc. split; [|destruct vs; simpl; congruence]. apply Forall_map. eapply Forall_impl; [|exact Hvs]. auto. }
    unfold finite_point in Hm. destruct (Hm px) as (A1 & B1); [tauto|]. destruct (Hm py) as (A2 & B2); [tauto|].
    destruct (np_max_ok _ A1 B1) as (x1 & Ex1 & Ix1 & Lx1). destruct (np_min_ok _ A1 B1) as (x0 & Ex0 & Ix0 & Lx0).
    destruct (np_max_ok _ A2 B2) as (y1 & Ey1 & Iy1 & Ly1). destruct (np_min_ok _ A2 B2) as (y0 & Ey0 & Iy0 & Ly0).
    exists x0, x1, y0, y1. do 4 (split; auto). exists x0, x1, y0, y1. repeat split; auto.
    rewrite Forall_map in Lx0, Lx1, Ly0, Ly1. rewrite Forall_forall in *. auto.
  Qed.

  Lemma init_edges_like g (vs vs' : list point) edges edges' nb cpl : network_ok vs edges -> network_ok vs' edges' ->
    same_ends vs edges vs' edges' -> same_extent vs vs' ->
    both (like twin_edge) (EdgeCellTree2d_init g vs edges nb cpl) (EdgeCellTree2d_init g vs' edges' nb cpl).
  Proof.
    intros N N' HS HX. unfold EdgeCellTree2d_init. destruct (check_params nb cpl); [|reflexivity]. cbn [bind].
    assert (NE : forall vs edges, network_ok vs edges -> vs <> ([] : list point)).
    { intros ws [|e l] M ->; [now apply (no_nonempty _ _ M)|]. pose proof (no_edges _ _ M) as W. inversion W as [|? ? (i & j & _ & H & _)].
      cbn in H. lia. }
    destruct (extents vs (no_vertices _ _ N) (NE _ _ N)) as (x0 & x1 & y0 & y1 & -> & -> & -> & -> & X).
    destruct (extents vs' (no_vertices _ _ N') (NE _ _ N')) as (x0' & x1' & y0' & y1' & -> & -> & -> & -> & X').
    cbn [bind]. cbv zeta. rewrite (HX _ _ X X'). rewrite (edge_boxes vs vs' edges edges' _ HS), (F2_length _ _ _ HS).
    destruct (build_edge_bboxes edges' vs' _) as [bbs|]; [|reflexivity]. cbn [bind].
    destruct (initialize _ _ _ _ _ _) as [(nds, bbi)|e]; [|reflexivity]. cbn [bind].
    destruct (bbox_tree bbs) as [bb|e]; [|reflexivity]. cbn.
    exists edges, edges', vs, vs', nds, bbi, bbs, bb, cpl, (bbox_distances bbs), nb. auto.
  Qed.
End Renum.
