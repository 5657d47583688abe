(** C61: locate_faces, intersect_boxes and intersect_faces compared with brute
    force over the pairs of overlapping bounding boxes, for every number type;
    independence of threads, of uninitialised memory and of the tuning
    parameters. *)
From Verif Require Import Base Num MUtils MGeometry MCreation MAlgorithms MQuery MCelltree
  PStack PPartition SpecTree PBuild PBuild2 PWalk PCollect SpecQuery PQuery PMesh PInit SpecApi
  PPoints PTreeFacts PApi PFaces PGarbage PSmall PEdges PEdgesAny NumR NumB64 NumSub Examples RBase GTreeEdges
  PParLoops PropEdges PropTree.
From Coq Require Import Sorted Permutation.
Open Scope Z_scope.

Section Lists.
  Context {A B : Type}.

  Lemma mapres_split (f : A -> res B) l :
    (exists r, mapres f l = Ok r /\ Forall2 (fun x y => f x = Ok y) l r)
    \/ exists e x, mapres f l = Err e /\ In x l /\ f x = Err e.
  Proof.
    destruct (mapres f l) as [r|e] eqn:E; [left; exists r; split; auto; now apply PCollect.mapres_inv|right].
    exists e. revert E. induction l as [|x l IH]; [discriminate|]. cbn. destruct (f x) as [y|e'] eqn:Ex; cbn [bind].
    - destruct (mapres f l); cbn [bind]; [discriminate|]. intros E. injection E as <-.
      destruct (IH eq_refl) as (z & _ & Hz & Ez). exists z. auto.
    - intros E. injection E as <-. exists x. auto.
  Qed.

  Lemma combine_fst (l : list A) (r : list B) : length l = length r -> map fst (combine l r) = l.
  Proof. revert r. induction l as [|x l IH]; intros [|y r] E; try discriminate; cbn; auto. f_equal. apply IH. now injection E. Qed.

  Lemma nodup_filter_fst (p : A * B -> bool) l : NoDup (map fst l) -> NoDup (map fst (filter p l)).
  Proof.
    induction l as [|x l IH]; cbn; [constructor|]. intros H. inversion H as [|? ? Hx Hl]; subst.
    destruct (p x); cbn; auto. constructor; auto. intros Hi. apply Hx.
    apply in_map_iff in Hi as (y & <- & Hy). apply filter_In in Hy as (Hy & _). now apply in_map.
  Qed.

  Lemma sorted_filter {C} (k : C -> Z) (p : C -> bool) l :
    StronglySorted Z.le (map k l) -> StronglySorted Z.le (map k (filter p l)).
  Proof.
    induction l as [|x l IH]; cbn; [constructor|]. intros H. inversion H as [|? ? Hl Hx]; subst.
    destruct (p x); cbn; auto. constructor; auto. rewrite Forall_forall in *. intros z Hz.
    apply Hx. apply in_map_iff in Hz as (y & <- & Hy). apply filter_In in Hy as (Hy & _). now apply in_map.
  Qed.
End Lists.

Section Any.
  Context {T : Type} {NT : Num T} {NO : NumOrd T} {NS : NumSub T}.
  Notation point := (point T).
  Notation tree2d := (tree2d (T:=T)).

  (** face [j] of the tree is the polygon [b] *)
  Definition tree_poly (t : tree2d) (j : Z) (b : list point) : Prop :=
    exists f, 0 <= j /\ nth_error (elements (celltree_data t)) (Z.to_nat j) = Some f
      /\ poly_of (vertices (celltree_data t)) f b.

  (** what the library's clipper makes of box [i] of the query and face [j] *)
  Definition box_pair_area (boxes : list (box T)) (t : tree2d) (i j : Z) (r : res T) : Prop :=
    exists bx b, 0 <= i /\ nth_error boxes (Z.to_nat i) = Some bx /\ tree_poly t j b
      /\ forall g, polygon_polygon_clip_area g (copy_box_vertices bx) b = r.

  (** query faces [qfaces], turned: face [i] is the polygon [a] *)
  Definition query_poly (vs_ : list point) (qfaces : list (list Z)) (i : Z) (a : list point) : Prop :=
    exists f f', 0 <= i /\ nth_error qfaces (Z.to_nat i) = Some f
      /\ ccw_face vs_ f = Ok f' /\ poly_of vs_ f' a.
  (** the library's test for face [i] of the query and face [j]: bounding boxes
      overlap and no axis separates *)
  Definition face_pair (vs_ : list point) (qfaces : list (list Z)) (t : tree2d) (i j : Z) : Prop :=
    exists a b ba bb, query_poly vs_ qfaces i a /\ tree_poly t j b /\ tight_box a ba /\ tight_box b bb
      /\ nth_error (bb_coords (celltree_data t)) (Z.to_nat j) = Some bb
      /\ strict_overlap ba bb /\ axes_pass a b.
  Definition face_pair_area (vs_ : list point) (qfaces : list (list Z)) (t : tree2d) (i j : Z) (r : res T) : Prop :=
    exists a b, query_poly vs_ qfaces i a /\ tree_poly t j b
      /\ forall g, polygon_polygon_clip_area g a b = r.

  Lemma poly_of_fun (vs : list point) f a a' : poly_of vs f a -> poly_of vs f a' -> a = a'.
  Proof.
    intros Pa. revert a'. unfold poly_of in *. induction Pa as [|? ? ? ? (_ & E1) _ IH]; intros a' Pa';
      inversion Pa' as [|? ? ? ? (_ & E2)]; subst; auto. f_equal; [congruence|auto].
  Qed.
  Lemma tree_poly_fun t j b b' : tree_poly t j b -> tree_poly t j b' -> b = b'.
  Proof. intros (f & _ & E & P) (f' & _ & E' & P'). rewrite E in E'. injection E' as <-. eapply poly_of_fun; eauto. Qed.
  Lemma query_poly_fun vs_ qf j b b' : query_poly vs_ qf j b -> query_poly vs_ qf j b' -> b = b'.
  Proof.
    intros (f & f1 & _ & E & C & P) (f' & f1' & _ & E' & C' & P'). rewrite E in E'. injection E' as <-.
    rewrite C in C'. injection C' as <-. eapply poly_of_fun; eauto.
  Qed.
  Lemma box_pair_area_fun boxes t i j r r' : box_pair_area boxes t i j r -> box_pair_area boxes t i j r' -> r = r'.
  Proof.
    intros (bx & b & _ & E & P & H) (bx' & b' & _ & E' & P' & H'). rewrite E in E'. injection E' as <-.
    rewrite (tree_poly_fun _ _ _ _ P' P) in H'. rewrite <- (H (g0 (T:=T))). now rewrite <- (H' (g0 (T:=T))).
  Qed.

  (** ** The kept rows *)
  Definition positive (r : (Z * Z) * T) : bool := nltb (nofZ 0) (snd r).

  Lemma kept_rows (pairs : list (Z * Z)) (areas : list T) (area : Z * Z -> res T) :
    NoDup pairs -> StronglySorted Z.le (map fst pairs) ->
    Forall2 (fun ij a => area ij = Ok a) pairs areas ->
    let rows := filter positive (combine pairs areas) in
    NoDup (map fst rows) /\ StronglySorted Z.le (map (fun r => fst (fst r)) rows)
    /\ forall ij a, In (ij, a) rows <-> In ij pairs /\ area ij = Ok a /\ nltb (nofZ 0) a = true.
  Proof.
    intros HN HS HF. cbv zeta. pose proof (F2_length _ _ _ HF) as Hl. split; [|split].
    - apply nodup_filter_fst. now rewrite combine_fst.
    - apply (sorted_filter (fun r : Z * Z * T => fst (fst r))). rewrite <- (map_map fst fst), combine_fst by auto. exact HS.
    - now apply filter_rows.
  Qed.

  (** ** intersect_boxes *)
  Lemma box_area_pair vs faces fill cpl (t : tree2d) boxes g i j : built vs faces fill cpl t ->
    boxes_pair boxes t i j ->
    box_pair_area boxes t i j (box_area_one g boxes (vertices (celltree_data t)) (elements (celltree_data t)) (i, j)).
  Proof.
    intros Hb (bx & bb & Hi & Hj & Ei & Ej & _). pose proof (bt_mesh _ _ _ _ _ Hb) as Hmt.
    destruct (nth_error (elements (celltree_data t)) (Z.to_nat j)) as [f|] eqn:Ef.
    2:{ apply nth_error_None in Ef. rewrite (F2_length _ _ _ (mt_boxes _ Hmt)) in Ef.
        apply nth_error_None in Ef. congruence. }
    assert (Wf : wf_face (length (vertices (celltree_data t))) f).
    { pose proof (mt_faces _ Hmt) as Hw. rewrite Forall_forall in Hw. apply Hw. eapply nth_error_In; eauto. }
    destruct (wf_poly _ _ Wf) as (b & Pb). exists bx, b. split; auto. split; auto.
    split; [exists f; auto|]. intros g'. unfold box_area_one. cbn [fst snd].
    rewrite (aget_pos _ _ _ Hi Ei), (aget_pos _ _ _ Hj Ef). cbn [bind].
    rewrite (copy_vertices_ok g _ _ _ Wf Pb). cbn [bind]. apply clip_area_any_garbage.
  Qed.

  Lemma boxes_rows vs faces fill cpl (t : tree2d) : built vs faces fill cpl t ->
    forall boxes,
    (exists rows,
       (forall g n_threads, (1 <= n_threads)%nat -> CellTree2d_intersect_boxes g n_threads t boxes = Ok rows)
       /\ NoDup (map fst rows) /\ StronglySorted Z.le (map (fun r => fst (fst r)) rows)
       /\ (forall i j, boxes_pair boxes t i j -> exists a, box_pair_area boxes t i j (Ok a))
       /\ forall i j a, In ((i, j), a) rows <->
            boxes_pair boxes t i j /\ box_pair_area boxes t i j (Ok a) /\ nltb (nofZ 0) a = true)
    \/ exists e,
       (forall g n_threads, (1 <= n_threads)%nat -> CellTree2d_intersect_boxes g n_threads t boxes = Err e)
       /\ exists i j, boxes_pair boxes t i j /\ box_pair_area boxes t i j (Err e).
  Proof.
    intros Hb boxes. destruct (boxes_result t boxes (built_valid _ _ _ _ _ Hb)) as (pairs & Hp & HN & Hin & HS).
    set (area := box_area_one g0 boxes (vertices (celltree_data t)) (elements (celltree_data t))).
    assert (Hany : forall g, box_area_of_intersection g boxes (vertices (celltree_data t)) (elements (celltree_data t)) pairs
                    = mapres area pairs).
    { intros g. apply mapres_ext_in. intros x _. apply box_area_one_any. }
    destruct (mapres_split area pairs) as [(areas & Em & HF)|(e & (i, j) & Em & Hij & Ea)].
    - left. exists (filter positive (combine pairs areas)).
      destruct (kept_rows pairs areas area HN HS HF) as (K1 & K2 & K3). split; [|split; [exact K1|split; [exact K2|split]]].
      + intros g n Hn. unfold CellTree2d_intersect_boxes. specialize (Hp g n Hn). unfold CellTree2d_locate_boxes in Hp.
        rewrite Hp. cbn [bind]. rewrite Hany, Em. cbn [bind]. f_equal. apply mask_filter. eapply F2_length; eauto.
      + intros i j Hij. pose proof (box_area_pair _ _ _ _ _ boxes g0 i j Hb Hij) as Ha. fold area in Ha.
        apply Hin in Hij. destruct (In_nth_error _ _ Hij) as (k & Ek).
        destruct (Forall2_nth_l _ _ _ _ _ HF Ek) as (a & _ & E). rewrite E in Ha. eauto.
      + intros i j a. rewrite K3, Hin. split.
        * intros (A & B & C). split; auto. split; auto. rewrite <- B. now apply (box_area_pair vs faces fill cpl).
        * intros (A & B & C). split; auto. split; auto.
          apply (box_pair_area_fun boxes t i j); auto. now apply (box_area_pair vs faces fill cpl).
    - right. exists e. split.
      + intros g n Hn. unfold CellTree2d_intersect_boxes. specialize (Hp g n Hn). unfold CellTree2d_locate_boxes in Hp.
        rewrite Hp. cbn [bind]. rewrite Hany, Em. reflexivity.
      + exists i, j. apply Hin in Hij. split; auto. rewrite <- Ea. now apply (box_area_pair vs faces fill cpl).
  Qed.

  Theorem C61_intersect_boxes_brute_force g vs faces fill nb cpl (t : tree2d) :
    mesh_ok vs faces fill -> CellTree2d_init g vs faces fill nb cpl = Ok t ->
    forall boxes,
    (exists rows,
       (forall g' n_threads, (1 <= n_threads)%nat -> CellTree2d_intersect_boxes g' n_threads t boxes = Ok rows)
       /\ NoDup (map fst rows) /\ StronglySorted Z.le (map (fun r => fst (fst r)) rows)
       /\ (forall i j, boxes_pair boxes t i j -> exists a, box_pair_area boxes t i j (Ok a))
       /\ forall i j a, In ((i, j), a) rows <->
            boxes_pair boxes t i j /\ box_pair_area boxes t i j (Ok a) /\ nltb (nofZ 0) a = true)
    \/ exists e,
       (forall g' n_threads, (1 <= n_threads)%nat -> CellTree2d_intersect_boxes g' n_threads t boxes = Err e)
       /\ exists i j, boxes_pair boxes t i j /\ box_pair_area boxes t i j (Err e).
  Proof. intros Hm E. exact (boxes_rows _ _ _ _ _ (init_built _ _ _ _ _ _ _ Hm E)). Qed.

  (** ** locate_faces, intersect_faces *)
  Lemma query_turned (vs_ : list point) qf qf' i a : counter_clockwise vs_ qf = Ok qf' -> 0 <= i ->
    (query_poly vs_ qf i a <-> exists f', nth_error qf' (Z.to_nat i) = Some f' /\ poly_of vs_ f' a).
  Proof.
    intros E Hi. apply PCollect.mapres_inv in E. split.
    - intros (f & f' & _ & Ef & Ec & P). destruct (Forall2_nth_l _ _ _ _ _ E Ef) as (f2 & Ef2 & H).
      rewrite Ec in H. injection H as <-. eauto.
    - intros (f' & Ef' & P).
      assert (L : (Z.to_nat i < length qf)%nat) by (rewrite (F2_length _ _ _ E); apply nth_error_Some; congruence).
      destruct (nth_error qf (Z.to_nat i)) as [f|] eqn:Ef; [|apply nth_error_None in Ef; lia].
      pose proof (Forall2_nth _ _ _ _ _ _ E Ef Ef') as H. exists f, f'. auto.
  Qed.

  Lemma faces_pairs g vs faces fill nb cpl (t : tree2d) :
    mesh_ok vs faces fill -> CellTree2d_init g vs faces fill nb cpl = Ok t ->
    forall vs_ qfaces, faces_ok vs_ qfaces ->
    exists pairs qfaces', Forall2 (fun f f' => ccw_face vs_ f = Ok f') qfaces qfaces'
      /\ (forall g' n, (1 <= n)%nat -> CellTree2d_locate_faces g' n t vs_ qfaces = Ok (pairs, qfaces'))
      /\ NoDup pairs /\ StronglySorted Z.le (map fst pairs)
      /\ forall i j, In (i, j) pairs <-> face_pair vs_ qfaces t i j.
  Proof.
    intros Hm E vs_ qf Hq. pose proof (init_built _ _ _ _ _ _ _ Hm E) as Hb.
    destruct (locate_faces_result _ _ _ _ _ _ _ Hm E vs_ qf Hq) as (pairs & qf' & Ecc & Hr & HN & Hin).
    exists pairs, qf'. split; [now apply PCollect.mapres_inv in Ecc|]. split; auto. split; auto. split.
    - specialize (Hr g0 1%nat (Nat.le_refl 1)). unfold CellTree2d_locate_faces in Hr.
      apply bind_ok in Hr as (q & _ & Hr). apply bind_ok in Hr as (bbs & _ & Hr).
      apply bind_ok in Hr as (short & Es & Hr). apply bind_ok in Hr as (keep & Ek & Hr). injection Hr as <- _.
      destruct (boxes_result t bbs (built_valid _ _ _ _ _ Hb)) as (rows & Hrows & _ & _ & HS).
      specialize (Hrows g0 1%nat (Nat.le_refl 1)). unfold CellTree2d_locate_boxes in Hrows. rewrite Hrows in Es.
      injection Es as <-. apply mapres_length in Ek. unfold mask. rewrite map_map.
      apply (sorted_filter (fun x : Z * Z * bool => fst (fst x))).
      rewrite <- (map_map fst fst), combine_fst by auto. exact HS.
    - intros i j. rewrite Hin. pose proof (bt_vertices _ _ _ _ _ Hb) as Ev. split.
      + intros (fa & fb & a & b & ba & bb & H0 & H1 & Ea & Eb & Pa & Pb & Ta & Tb & Ebb & Ho & Hx).
        exists a, b, ba, bb. split; [apply (query_turned vs_ qf qf'); eauto|].
        split; [exists fb; rewrite Ev; auto|]. auto 10.
      + intros (a & b & ba & bb & Qa & (fb & H1 & Eb & Pb) & Ta & Tb & Ebb & Ho & Hx).
        assert (H0 : 0 <= i) by (destruct Qa as (? & ? & ? & _); auto).
        apply (query_turned vs_ qf qf' i a Ecc H0) in Qa as (fa & Ea & Pa).
        rewrite Ev in Pb. exists fa, fb, a, b, ba, bb. auto 15.
  Qed.

  Theorem C61_locate_faces_brute_force g vs faces fill nb cpl (t : tree2d) :
    mesh_ok vs faces fill -> CellTree2d_init g vs faces fill nb cpl = Ok t ->
    forall vs_ qfaces, faces_ok vs_ qfaces ->
    exists pairs qfaces', Forall2 (fun f f' => ccw_face vs_ f = Ok f') qfaces qfaces'
      /\ (forall g' n_threads, (1 <= n_threads)%nat ->
           CellTree2d_locate_faces g' n_threads t vs_ qfaces = Ok (pairs, qfaces'))
      /\ NoDup pairs /\ StronglySorted Z.le (map fst pairs)
      /\ forall i j, In (i, j) pairs <-> face_pair vs_ qfaces t i j.
  Proof. exact (faces_pairs g vs faces fill nb cpl t). Qed.

  Lemma face_area_pair vs faces fill cpl (t : tree2d) vs_ qf qf' g i j : built vs faces fill cpl t ->
    faces_ok vs_ qf -> counter_clockwise vs_ qf = Ok qf' -> face_pair vs_ qf t i j ->
    face_pair_area vs_ qf t i j
      (area_of_intersection_one g vs_ (vertices (celltree_data t)) qf' (elements (celltree_data t)) (i, j)).
  Proof.
    intros Hb (_ & Hq) Ecc (a & b & ba & bb & Qa & Tb & _). exists a, b. split; auto. split; auto.
    intros g'. destruct Tb as (fb & Hj & Eb & Pb).
    assert (Hi : 0 <= i) by (destruct Qa as (? & ? & ? & _); auto).
    apply (query_turned vs_ qf qf' i a Ecc Hi) in Qa as (fa & Ea & Pa).
    unfold area_of_intersection_one. cbn [fst snd].
    rewrite (aget_pos _ _ _ Hi Ea), (aget_pos _ _ _ Hj Eb). cbn [bind].
    destruct (counter_clockwise_ok vs_ qf Hq) as (q2 & E2 & W2 & _). rewrite Ecc in E2. injection E2 as <-.
    assert (Wa : wf_face (length vs_) fa) by (rewrite Forall_forall in W2; apply W2; eapply nth_error_In; eauto).
    assert (Wb : wf_face (length (vertices (celltree_data t))) fb).
    { pose proof (mt_faces _ (bt_mesh _ _ _ _ _ Hb)) as Hw. rewrite Forall_forall in Hw. apply Hw. eapply nth_error_In; eauto. }
    rewrite (copy_vertices_ok g _ _ _ Wa Pa), (copy_vertices_ok g _ _ _ Wb Pb). cbn [bind].
    apply clip_area_any_garbage.
  Qed.
  Lemma face_pair_area_fun vs_ qf t i j r r' :
    face_pair_area vs_ qf t i j r -> face_pair_area vs_ qf t i j r' -> r = r'.
  Proof.
    intros (a & b & P & Q & H) (a' & b' & P' & Q' & H').
    rewrite (tree_poly_fun _ _ _ _ Q' Q), (query_poly_fun _ _ _ _ _ P' P) in H'.
    rewrite <- (H (g0 (T:=T))). now rewrite <- (H' (g0 (T:=T))).
  Qed.

  Theorem C61_intersect_faces_brute_force g vs faces fill nb cpl (t : tree2d) :
    mesh_ok vs faces fill -> CellTree2d_init g vs faces fill nb cpl = Ok t ->
    forall vs_ qfaces qfill, faces_ok vs_ (map (with_fill qfill) qfaces) ->
    let qf := map (with_fill qfill) qfaces in
    (exists rows,
       (forall g' n_threads, (1 <= n_threads)%nat ->
          CellTree2d_intersect_faces g' n_threads t vs_ qfaces qfill = Ok rows)
       /\ NoDup (map fst rows) /\ StronglySorted Z.le (map (fun r => fst (fst r)) rows)
       /\ (forall i j, face_pair vs_ qf t i j -> exists a, face_pair_area vs_ qf t i j (Ok a))
       /\ forall i j a, In ((i, j), a) rows <->
            face_pair vs_ qf t i j /\ face_pair_area vs_ qf t i j (Ok a) /\ nltb (nofZ 0) a = true)
    \/ exists e,
       (forall g' n_threads, (1 <= n_threads)%nat ->
          CellTree2d_intersect_faces g' n_threads t vs_ qfaces qfill = Err e)
       /\ exists i j, face_pair vs_ qf t i j /\ face_pair_area vs_ qf t i j (Err e).
  Proof.
    intros Hm E vs_ qfaces qfill Hq qf. fold qf in Hq. pose proof (init_built _ _ _ _ _ _ _ Hm E) as Hb.
    destruct (faces_pairs _ _ _ _ _ _ _ Hm E vs_ qf Hq) as (pairs & qf' & Hcc & Hr & HN & HS & Hin).
    assert (Ecc : counter_clockwise vs_ qf = Ok qf') by now apply PCollect.mapres_ok.
    set (area := area_of_intersection_one g0 vs_ (vertices (celltree_data t)) qf' (elements (celltree_data t))).
    assert (Hany : forall g, area_of_intersection g vs_ (vertices (celltree_data t)) qf' (elements (celltree_data t)) pairs
                    = mapres area pairs).
    { intros g'. apply mapres_ext_in. intros x _. apply area_of_intersection_one_any. }
    assert (Ecast : cast_faces qfaces qfill = Ok qf).
    { apply cast_faces_ok. rewrite Forall_forall. intros f Hf.
      pose proof (fo_faces _ _ Hq) as Hw. rewrite Forall_forall in Hw.
      destruct (Hw (with_fill qfill f)) as (_ & H32 & _); [now apply in_map|]. now rewrite with_fill_length in H32. }
    destruct (mapres_split area pairs) as [(areas & Em & HF)|(e & (i, j) & Em & Hij & Ea)].
    - left. exists (filter positive (combine pairs areas)).
      destruct (kept_rows pairs areas area HN HS HF) as (K1 & K2 & K3). split; [|split; [exact K1|split; [exact K2|split]]].
      + intros g' n Hn. unfold CellTree2d_intersect_faces. rewrite Ecast. cbn [bind]. rewrite (Hr g' n Hn). cbn [bind].
        rewrite Hany, Em. cbn [bind]. f_equal. apply mask_filter. eapply F2_length; eauto.
      + intros i j Hij. pose proof (face_area_pair _ _ _ _ _ vs_ qf qf' g0 i j Hb Hq Ecc Hij) as Ha. fold area in Ha.
        apply Hin in Hij. destruct (In_nth_error _ _ Hij) as (k & Ek).
        destruct (Forall2_nth_l _ _ _ _ _ HF Ek) as (a & _ & Ex). rewrite Ex in Ha. eauto.
      + intros i j a. rewrite K3, Hin. split.
        * intros (A & B & C). split; auto. split; auto. rewrite <- B. now apply (face_area_pair vs faces fill cpl).
        * intros (A & B & C). split; auto. split; auto.
          apply (face_pair_area_fun vs_ qf t i j); auto. now apply (face_area_pair vs faces fill cpl).
    - right. exists e. split.
      + intros g' n Hn. unfold CellTree2d_intersect_faces. rewrite Ecast. cbn [bind]. rewrite (Hr g' n Hn). cbn [bind].
        rewrite Hany, Em. reflexivity.
      + exists i, j. apply Hin in Hij. split; auto. rewrite <- Ea. now apply (face_area_pair vs faces fill cpl).
  Qed.

  (** ** The tuning parameters *)
  Definition same_rows {A} (r r' : res (list A)) : Prop :=
    match r, r' with
    | Ok l, Ok l' => Permutation l l'
    | Err _, Err _ => True
    | _, _ => False
    end.

  Section Params.
    Variables (g g' : garbage T) (vs : list point) (faces : list (list Z)) (fill nb cpl nb' cpl' : Z) (t t' : tree2d).
    Hypothesis Hm : mesh_ok vs faces fill.
    Hypothesis E : CellTree2d_init g vs faces fill nb cpl = Ok t.
    Hypothesis E' : CellTree2d_init g' vs faces fill nb' cpl' = Ok t'.

    Lemma same_tree_poly j b : tree_poly t j b <-> tree_poly t' j b.
    Proof.
      destruct (init_same _ _ _ _ _ _ _ _ _ _ _ E E') as (He & Hve & _). unfold tree_poly. now rewrite He, Hve.
    Qed.
    Lemma same_boxes_pair boxes i j : boxes_pair boxes t i j <-> boxes_pair boxes t' i j.
    Proof.
      destruct (init_same _ _ _ _ _ _ _ _ _ _ _ E E') as (_ & _ & Hbb & _). unfold boxes_pair. now rewrite Hbb.
    Qed.
    Lemma same_box_area boxes i j r : box_pair_area boxes t i j r <-> box_pair_area boxes t' i j r.
    Proof.
      unfold box_pair_area. split; intros (bx & b & H1 & H2 & H3 & H4); exists bx, b; repeat (split; auto);
        now apply same_tree_poly.
    Qed.
    Lemma same_face_pair vs_ qf i j : face_pair vs_ qf t i j <-> face_pair vs_ qf t' i j.
    Proof.
      destruct (init_same _ _ _ _ _ _ _ _ _ _ _ E E') as (_ & _ & Hbb & _). unfold face_pair. rewrite Hbb.
      split; intros (a & b & ba & bb & H1 & H2 & H3); exists a, b, ba, bb; split; auto; split; auto;
        now apply same_tree_poly.
    Qed.
    Lemma same_face_area vs_ qf i j r : face_pair_area vs_ qf t i j r <-> face_pair_area vs_ qf t' i j r.
    Proof.
      unfold face_pair_area. split; intros (a & b & H1 & H2 & H3); exists a, b; repeat (split; auto);
        now apply same_tree_poly.
    Qed.

    Lemma rows_permutation {A} (rows rows' : list ((Z * Z) * A)) :
      NoDup (map fst rows) -> NoDup (map fst rows') ->
      (forall i j a, In ((i, j), a) rows <-> In ((i, j), a) rows') -> Permutation rows rows'.
    Proof.
      intros N N' H. apply NoDup_Permutation; [eapply NoDup_map_inv; eauto|eapply NoDup_map_inv; eauto|].
      intros ((i & j) & a). apply H.
    Qed.

    Theorem C61_boxes_parameters h n n' boxes : (1 <= n)%nat -> (1 <= n')%nat ->
      same_rows (CellTree2d_intersect_boxes h n t boxes) (CellTree2d_intersect_boxes h n' t' boxes).
    Proof.
      intros Hn Hn'.
      destruct (C61_intersect_boxes_brute_force _ _ _ _ _ _ _ Hm E boxes) as
        [(rows & H1 & H2 & _ & H3 & H4)|(e & H1 & i & j & H2 & H3)];
      destruct (C61_intersect_boxes_brute_force _ _ _ _ _ _ _ Hm E' boxes) as
        [(rows' & H1' & H2' & _ & H3' & H4')|(e' & H1' & i' & j' & H2' & H3')];
      rewrite (H1 h n Hn), (H1' h n' Hn'); cbn; auto.
      - apply rows_permutation; auto. intros i j a. rewrite H4, H4', same_boxes_pair, same_box_area. tauto.
      - apply same_boxes_pair in H2'. destruct (H3 _ _ H2') as (a & Ha). apply same_box_area in H3'.
        discriminate (box_pair_area_fun _ _ _ _ _ _ Ha H3').
      - apply same_boxes_pair in H2. destruct (H3' _ _ H2) as (a & Ha). apply same_box_area in H3.
        discriminate (box_pair_area_fun _ _ _ _ _ _ Ha H3).
    Qed.

    Theorem C61_locate_faces_parameters h n n' vs_ qfaces : (1 <= n)%nat -> (1 <= n')%nat -> faces_ok vs_ qfaces ->
      exists pairs pairs' qfaces', CellTree2d_locate_faces h n t vs_ qfaces = Ok (pairs, qfaces')
        /\ CellTree2d_locate_faces h n' t' vs_ qfaces = Ok (pairs', qfaces')
        /\ Permutation pairs pairs'.
    Proof.
      intros Hn Hn' Hq.
      destruct (faces_pairs _ _ _ _ _ _ _ Hm E vs_ qfaces Hq) as (pairs & q & C & H1 & H2 & _ & H3).
      destruct (faces_pairs _ _ _ _ _ _ _ Hm E' vs_ qfaces Hq) as (pairs' & q' & C' & H1' & H2' & _ & H3').
      assert (q' = q).
      { clear - C C'. revert q' C'. induction C as [|x y l l' E1 _ IH]; intros q' C'; inversion C'; subst; auto.
        f_equal; [congruence|auto]. }
      subst q'. exists pairs, pairs', q. split; auto. split; auto. apply NoDup_Permutation; auto.
      intros (i, j). rewrite H3, H3'. apply same_face_pair.
    Qed.

    Theorem C61_intersect_faces_parameters h n n' vs_ qfaces qfill : (1 <= n)%nat -> (1 <= n')%nat ->
      faces_ok vs_ (map (with_fill qfill) qfaces) ->
      same_rows (CellTree2d_intersect_faces h n t vs_ qfaces qfill) (CellTree2d_intersect_faces h n' t' vs_ qfaces qfill).
    Proof.
      intros Hn Hn' Hq.
      destruct (C61_intersect_faces_brute_force _ _ _ _ _ _ _ Hm E vs_ qfaces qfill Hq) as
        [(rows & H1 & H2 & _ & H3 & H4)|(e & H1 & i & j & H2 & H3)];
      destruct (C61_intersect_faces_brute_force _ _ _ _ _ _ _ Hm E' vs_ qfaces qfill Hq) as
        [(rows' & H1' & H2' & _ & H3' & H4')|(e' & H1' & i' & j' & H2' & H3')];
      rewrite (H1 h n Hn), (H1' h n' Hn'); cbn; auto.
      - apply rows_permutation; auto. intros i j a. rewrite H4, H4', same_face_pair, same_face_area. tauto.
      - apply same_face_pair in H2'. destruct (H3 _ _ H2') as (a & Ha). apply same_face_area in H3'.
        discriminate (face_pair_area_fun _ _ _ _ _ _ _ Ha H3').
      - apply same_face_pair in H2. destruct (H3' _ _ H2) as (a & Ha). apply same_face_area in H3.
        discriminate (face_pair_area_fun _ _ _ _ _ _ _ Ha H3).
    Qed.

    (** points that at most one face claims get the same face and weights *)
    Theorem C61_weights_parameters h n_max_vert points tolerance tol js ws js' ws' :
      get_tolerance t tolerance = Ok tol ->
      CellTree2d_compute_barycentric_weights h t n_max_vert points tolerance = Ok (js, ws) ->
      CellTree2d_compute_barycentric_weights h t' n_max_vert points tolerance = Ok (js', ws') ->
      forall k p, nth_error points k = Some p -> unambiguous t p tol ->
      nth_error js k = nth_error js' k /\ nth_error ws k = nth_error ws' k.
    Proof.
      intros Et H H' k p Ep Hu.
      destruct (C12_points_parameter_independent _ _ _ _ _ _ _ _ _ _ _ Hm E E' h points (Some tol))
        as (tol2 & js2 & js2' & E2 & _ & J & J' & Hk).
      assert (tol2 = tol) by (cbn in E2; congruence). subst tol2.
      destruct (init_same _ _ _ _ _ _ _ _ _ _ _ E E') as (He & Hv & _ & Hd).
      assert (Et' : get_tolerance t' tolerance = Ok tol).
      { destruct tolerance; cbn in *; [congruence|]. now rewrite <- Hd. }
      unfold CellTree2d_compute_barycentric_weights in H, H'.
      rewrite Et in H. rewrite Et' in H'. cbn [bind] in H, H'. rewrite J in H. rewrite J' in H'. cbn [bind] in H, H'.
      apply bind_ok in H as (w & Ew & H). apply bind_ok in H' as (w' & Ew' & H').
      injection H as -> ->. injection H' as -> ->. rewrite He, Hv in Ew.
      assert (Hl : (k < length points)%nat) by (apply nth_error_Some; congruence).
      assert (L : length js = length points).
      { unfold CellTree2d_locate_points in J. cbn [get_tolerance bind] in J. now apply mapres_length in J. }
      assert (L' : length js' = length points).
      { unfold CellTree2d_locate_points in J'. cbn [get_tolerance bind] in J'. now apply mapres_length in J'. }
      destruct (nth_error js k) as [j|] eqn:Ej; [|apply nth_error_None in Ej; lia].
      destruct (nth_error js' k) as [j'|] eqn:Ej'; [|apply nth_error_None in Ej'; lia].
      assert (j' = j) by (eapply Hk; eauto). subst j'. split; auto.
      destruct (3 <? n_max_vert)%nat.
      - unfold barycentric_wachspress_weights in Ew, Ew'.
        apply PCollect.mapres_inv in Ew, Ew'.
        destruct (Forall2_nth_l _ _ _ _ _ Ew (iota_nth _ _ Hl)) as (r & Er & F).
        destruct (Forall2_nth_l _ _ _ _ _ Ew' (iota_nth _ _ Hl)) as (r' & Er' & F').
        rewrite (aget_nat _ _ _ Ej) in F. rewrite (aget_nat _ _ _ Ej') in F'. rewrite Er, Er'. congruence.
      - unfold barycentric_triangle_weights in Ew, Ew'.
        apply PCollect.mapres_inv in Ew, Ew'.
        destruct (Forall2_nth_l _ _ _ _ _ Ew (iota_nth _ _ Hl)) as (r & Er & F).
        destruct (Forall2_nth_l _ _ _ _ _ Ew' (iota_nth _ _ Hl)) as (r' & Er' & F').
        rewrite (aget_nat _ _ _ Ej) in F. rewrite (aget_nat _ _ _ Ej') in F'. rewrite Er, Er'. congruence.
    Qed.
  End Params.
End Any.

(** ** Edge queries: exact reals *)
Lemma init_same_edges {T} {NT : Num T} g g' vs edges nb cpl nb' cpl' (t t' : tree2d (T:=T)) :
  EdgeCellTree2d_init g vs edges nb cpl = Ok t ->
  EdgeCellTree2d_init g' vs edges nb' cpl' = Ok t' ->
  elements (celltree_data t) = elements (celltree_data t')
  /\ vertices (celltree_data t) = vertices (celltree_data t').
Proof.
  unfold EdgeCellTree2d_init. intros H H'.
  apply bind_ok in H as (u & _ & H).
  apply bind_ok in H as (a & _ & H).
  apply bind_ok in H as (b & _ & H).
  apply bind_ok in H as (c & _ & H).
  apply bind_ok in H as (d & _ & H).
  apply bind_ok in H as (bbs & _ & H).
  apply bind_ok in H as ((n & i) & _ & H). apply bind_ok in H as (bb & _ & H).
  apply bind_ok in H' as (u' & _ & H').
  apply bind_ok in H' as (a' & _ & H').
  apply bind_ok in H' as (b' & _ & H').
  apply bind_ok in H' as (c' & _ & H').
  apply bind_ok in H' as (d' & _ & H').
  apply bind_ok in H' as (bbs' & _ & H').
  apply bind_ok in H' as ((n' & i') & _ & H'). apply bind_ok in H' as (bb' & _ & H').
  inversion H. inversion H'. auto.
Qed.

Theorem C61_intersect_edges_parameters g g' vs faces fill nb cpl nb' cpl' (t t' : tree2d (T:=R)) :
  mesh_ok vs faces fill ->
  CellTree2d_init g vs faces fill nb cpl = Ok t ->
  CellTree2d_init g' vs faces fill nb' cpl' = Ok t' ->
  forall h csfuel n n' edges, (4 <= csfuel)%nat -> (1 <= n)%nat -> (1 <= n')%nat ->
  exists rows rows', CellTree2d_intersect_edges h csfuel n t edges = Ok rows
    /\ CellTree2d_intersect_edges h csfuel n' t' edges = Ok rows' /\ Permutation rows rows'.
Proof.
  intros Hm E E' h cs n n' edges Hcs Hn Hn'.
  destruct (C15_intersect_edges_brute_force _ _ _ _ _ _ _ Hm E edges) as (rows & H1 & H2 & H3).
  destruct (C15_intersect_edges_brute_force _ _ _ _ _ _ _ Hm E' edges) as (rows' & H1' & H2' & H3').
  exists rows, rows'. split; auto. split; auto. apply rows_permutation; auto.
  intros i j c. rewrite H3, H3'. destruct (init_same _ _ _ _ _ _ _ _ _ _ _ E E') as (He & Hv & Hb & _).
  unfold edge_face_hit, face_at. now rewrite He, Hv, Hb.
Qed.

Theorem C61_edge_edges_parameters g g' vs edges nb cpl nb' cpl' (t t' : tree2d (T:=R)) :
  network_ok vs edges ->
  EdgeCellTree2d_init g vs edges nb cpl = Ok t ->
  EdgeCellTree2d_init g' vs edges nb' cpl' = Ok t' ->
  forall h csfuel n n' queries, (4 <= csfuel)%nat -> (1 <= n)%nat -> (1 <= n')%nat ->
  exists rows rows', EdgeCellTree2d_intersect_edges h csfuel n t queries = Ok rows
    /\ EdgeCellTree2d_intersect_edges h csfuel n' t' queries = Ok rows' /\ Permutation rows rows'.
Proof.
  intros Hm E E' h cs n n' queries Hcs Hn Hn'.
  destruct (C16_edge_intersect_edges_brute_force _ _ _ _ _ _ Hm E queries) as (rows & H1 & H2 & H3).
  destruct (C16_edge_intersect_edges_brute_force _ _ _ _ _ _ Hm E' queries) as (rows' & H1' & H2' & H3').
  exists rows, rows'. split; auto. split; auto. apply rows_permutation; auto.
  intros i j c. rewrite H3, H3'. destruct (init_same_edges _ _ _ _ _ _ _ _ _ _ E E') as (He & Hv).
  unfold edge_edge_hit, edge_at_. now rewrite He, Hv.
Qed.

(** The order of the rows of one query item does depend on the parameters *)
Definition two_by_three : box b64 := Box (Zb 0) (Zb 2) (Zb 0) (Zb 3).
Definition rows_with (nb cpl : Z) : option (list (Z * Z)) :=
  match CellTree2d_init (T:=b64) g0 grid grid_faces (-1) nb cpl with
  | Ok t => match CellTree2d_intersect_boxes g0 2 t [two_by_three; two_by_three] with
            | Ok rows => Some (map fst rows) | Err _ => None end
  | Err _ => None
  end.

Lemma rows_with_some nb cpl l : rows_with nb cpl = Some l -> exists t rows,
  CellTree2d_init (T:=b64) g0 grid grid_faces (-1) nb cpl = Ok t
  /\ CellTree2d_intersect_boxes g0 2 t [two_by_three; two_by_three] = Ok rows
  /\ map fst rows = l.
Proof.
  unfold rows_with. destruct (CellTree2d_init g0 grid grid_faces (-1) nb cpl) as [t|]; [|discriminate].
  intros H. exists t. destruct (CellTree2d_intersect_boxes g0 2 t _) as [rows|]; [|discriminate].
  exists rows. split; auto. split; auto. now injection H.
Qed.

Theorem C61_order_refuted : exists t t' rows rows',
  CellTree2d_init (T:=b64) g0 grid grid_faces (-1) 4 2 = Ok t
  /\ CellTree2d_init (T:=b64) g0 grid grid_faces (-1) 2 1 = Ok t'
  /\ CellTree2d_intersect_boxes g0 2 t [two_by_three; two_by_three] = Ok rows
  /\ CellTree2d_intersect_boxes g0 2 t' [two_by_three; two_by_three] = Ok rows'
  /\ map fst rows = [(0, 3); (0, 4); (0, 0); (0, 1); (1, 3); (1, 4); (1, 0); (1, 1)]
  /\ map fst rows' = [(0, 4); (0, 1); (0, 3); (0, 0); (1, 4); (1, 1); (1, 3); (1, 0)].
Proof.
  assert (H : rows_with 4 2 = Some [(0, 3); (0, 4); (0, 0); (0, 1); (1, 3); (1, 4); (1, 0); (1, 1)])
    by (vm_compute; reflexivity).
  assert (H' : rows_with 2 1 = Some [(0, 4); (0, 1); (0, 3); (0, 0); (1, 4); (1, 1); (1, 3); (1, 0)])
    by (vm_compute; reflexivity).
  apply rows_with_some in H as (t & rows & E & Er & Hr).
  apply rows_with_some in H' as (t' & rows' & E' & Er' & Hr').
  exists t, t', rows, rows'. repeat (split; [assumption|]). assumption.
Qed.

(** query faces for the grid: the grid itself *)
Theorem C61_example : exists t t',
  CellTree2d_init (T:=b64) g0 grid grid_faces (-1) 4 2 = Ok t
  /\ CellTree2d_init (T:=b64) g0 grid grid_faces (-1) 2 1 = Ok t'
  /\ faces_ok (T:=b64) grid (map (with_fill (-1)) grid_faces)
  /\ boxes_pair [two_by_three; two_by_three] t 1 4
  /\ exists a, box_pair_area [two_by_three; two_by_three] t 1 4 (Ok a) /\ nltb (nofZ 0) a = true.
Proof.
  destruct C61_order_refuted as (t & t' & rows & rows' & E & E' & Er & Er' & Hr & Hr').
  exists t, t'. split; auto. split; auto. split; [constructor; [apply grid_mesh_B64|exact grid_faces_wf]|].
  destruct (C61_intersect_boxes_brute_force _ _ _ _ _ _ _ grid_mesh_B64 E [two_by_three; two_by_three])
    as [(rows0 & H1 & _ & _ & _ & H2)|(e & H1 & _)].
  - specialize (H1 g0 2%nat (Nat.le_succ_diag_r 1)). rewrite Er in H1. assert (X : rows0 = rows) by congruence. subst rows0.
    assert (In (1, 4) (map fst rows)) by (rewrite Hr; cbn; auto 10).
    apply in_map_iff in H as (((i & j) & a) & Eij & Hin). cbn [fst] in Eij. injection Eij as -> ->.
    apply H2 in Hin as (A & B & C). split; auto. exists a. auto.
  - specialize (H1 g0 2%nat (Nat.le_succ_diag_r 1)). rewrite Er in H1. discriminate.
Qed.

Print Assumptions C61_intersect_boxes_brute_force.
Print Assumptions C61_locate_faces_brute_force.
Print Assumptions C61_intersect_faces_brute_force.
Print Assumptions C61_boxes_parameters.
Print Assumptions C61_locate_faces_parameters.
Print Assumptions C61_intersect_faces_parameters.
Print Assumptions C61_intersect_edges_parameters.
Print Assumptions C61_edge_edges_parameters.
Print Assumptions C61_weights_parameters.
Print Assumptions C61_order_refuted.
