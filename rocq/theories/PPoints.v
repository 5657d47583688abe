(** Constructors yield valid trees; point queries are total, sound and
    complete, for every number type. *)
From Verif Require Import Base Num MUtils MGeometry MCreation MAlgorithms MQuery MCelltree
  PStack PPartition SpecTree PBuild PBuild2 PWalk PCollect SpecQuery SpecApi PQuery PMesh PInit.
From Verif Require Import NumR NumB64 NumSub.
Open Scope Z_scope.

Section Points.
  Context {T : Type} {NT : Num T} {NO : NumOrd T}.
  Notation box := (box T).
  Notation point := (point T).

  (* ---------------------------------------------------------------- *)
  (** ** CellTree2d *)

  Theorem CellTree2d_init_ok g (vs : list point) faces fill nb cpl :
    2 <= nb -> 1 <= cpl -> faces <> [] ->
    Forall finite_point vs -> Forall (wf_face (length vs)) (map (with_fill fill) faces) ->
    exists bbs fs, length bbs = length faces
    /\ Forall finite_box bbs
    /\ Forall2 same_face (map (with_fill fill) faces) fs
    /\ Forall2 (fun f b => exists poly, poly_of vs f poly /\ tight_box poly b) fs bbs
    /\ ((exists er, CellTree2d_init g vs faces fill nb cpl = Err er /\ Fails bbs nb er)
        \/ exists t, CellTree2d_init g vs faces fill nb cpl = Ok t
            /\ mesh_tree (celltree_data t)
            /\ bb_coords (celltree_data t) = bbs
            /\ vertices (celltree_data t) = vs
            /\ Forall2 same_face (map (with_fill fill) faces) (elements (celltree_data t))
            /\ cells_per_leaf (celltree_data t) = cpl
            /\ bb_dist t = bbox_distances bbs
            /\ zlen (nodes (celltree_data t)) <= pessimistic_n_nodes (zlen faces)).
  Proof.
    intros Hnb Hcpl Hne Hvs Hw.
    unfold CellTree2d_init, check_params.
    destruct (nb <? 2) eqn:E1; [lia|]. destruct (cpl <? 1) eqn:E2; [lia|]. cbn [bind].
    rewrite (cast_faces_wf vs) by auto. cbn [bind].
    destruct (counter_clockwise_ok vs _ Hw) as (fs & Ecc & Hwfs & Hsame).
    rewrite Ecc. cbn [bind].
    destruct (build_face_bboxes_ok vs fs Hvs Hwfs) as (bbs & Ebb & Hfin & Hboxes).
    rewrite Ebb. cbn [bind].
    assert (Hlen : length fs = length bbs).
    { clear - Hboxes. induction Hboxes; simpl; auto. }
    assert (Hlen2 : length fs = length faces).
    { clear - Hsame. rewrite <- (map_length (with_fill fill) faces).
      induction Hsame; simpl; auto. }
    exists bbs, fs. split; [lia|]. do 3 (split; auto).
    destruct (initialize_valid g bbs fs vs nb cpl) as [(er & E & HF)|(nds & bbi & bb & E & Ebt & Hn & Hvt)];
      auto; try lia.
    { destruct bbs; [|congruence]. destruct faces; simpl in *; [congruence|lia]. }
    - left. exists er. rewrite E. auto.
    - right. rewrite E. cbn [bind]. rewrite Ebt. cbn [bind]. eexists. split; [reflexivity|].
      cbn [celltree_data bb_coords vertices elements cells_per_leaf nodes].
      unfold zlen in Hn. rewrite Hlen2 in Hn.
      repeat split; auto; apply Hvt.
  Qed.

  Lemma poly_of_fun (vs : list point) f p1 p2 : poly_of vs f p1 -> poly_of vs f p2 -> p1 = p2.
  Proof.
    unfold poly_of. intros H. revert p2. induction H as [|i p l l' (H0 & E) _ IH]; intros p2 H2;
      inversion H2 as [|? q ? ? (_ & E') H2']; subst; auto.
    f_equal; [congruence|auto].
  Qed.

  Lemma face_test_ok g (t : celltree T) p tol j : mesh_tree t -> in_range (bb_coords t) j ->
    exists f poly, nth_error (elements t) (Z.to_nat j) = Some f /\ poly_of (vertices t) f poly
      /\ (3 <= length poly)%nat
      /\ face_test g t p tol j = point_in_polygon_or_on_edge p poly tol.
  Proof.
    intros Hm Hj. unfold face_test.
    assert (Hj' : 0 <= j < zlen (elements t)).
    { unfold in_range, zlen in *. rewrite (vt_elements _ (mt_valid _ Hm)). exact Hj. }
    destruct (aget_ok_pos (elements t) j Hj') as (f & E & En).
    assert (Hf : wf_face (length (vertices t)) f).
    { pose proof (mt_faces _ Hm) as H. rewrite Forall_forall in H. apply H.
      eapply nth_error_In; eauto. }
    destruct (wf_poly _ f Hf) as (poly & Hp).
    exists f, poly. rewrite E. cbn [bind].
    change (copy_vertices_into (vertices t) f (allocate_polygon g)) with (copy_vertices g (vertices t) f).
    rewrite (copy_vertices_ok g _ f poly Hf Hp). cbn [bind].
    rewrite (poly_of_length _ _ _ Hp). destruct Hf. auto.
  Qed.

  (** The point tests never fail on finite vertices *)
  Context {NS : NumSub T}.

  Lemma crosses_total (p v0 v1 : point) : finite_point v0 -> finite_point v1 ->
    exists b, crosses p v0 v1 = Ok b.
  Proof.
    intros (_ & H0) (_ & H1). unfold crosses.
    destruct (Bool.eqb _ _) eqn:E; cbn [negb]; eauto.
    apply eqb_false_iff in E. unfold ndiv. rewrite (nsub_neq (py p)) by auto. cbn [bind]. eauto.
  Qed.

  Lemma pip_or_edge_loop_total (p : point) tol : forall l v0 U c,
    finite_point v0 -> Forall finite_point l -> exists b, pip_or_edge_loop p tol v0 U l c = Ok b.
  Proof.
    induction l as [|v1 t IH]; intros v0 U c H0 Hl; cbn [pip_or_edge_loop]; eauto.
    inversion Hl; subst. destruct (point_eqb v1 v0); auto.
    cbv zeta. destruct (_ && _); eauto.
    destruct (crosses_total p v0 v1) as (b & ->); auto. cbn [bind]. apply IH; auto.
  Qed.

  Lemma pip_total p (poly : list point) tol : poly <> [] -> Forall finite_point poly ->
    exists b, point_in_polygon_or_on_edge p poly tol = Ok b.
  Proof.
    intros Hn Hf. unfold point_in_polygon_or_on_edge.
    destruct (exists_last Hn) as (l & v & ->).
    rewrite aget_last. cbn [bind]. apply pip_or_edge_loop_total; auto.
    rewrite Forall_forall in Hf. apply Hf. apply in_or_app. right. now left.
  Qed.

  Lemma poly_fin (vs : list point) f poly : Forall finite_point vs -> poly_of vs f poly ->
    Forall finite_point poly.
  Proof.
    intros Hvs H. rewrite Forall_forall in Hvs. induction H as [|i p l l' (_ & E) _ IH]; constructor; auto.
    apply Hvs. eapply nth_error_In; eauto.
  Qed.

  (** A generic point query: an answer that passes, or none and every passing
      element's box does not contain the point *)
  Lemma point_query_answer (t : celltree T) p (test : garbage T -> Z -> res bool)
        (passes : Z -> Prop) :
    valid_tree t ->
    (forall j, in_range (bb_coords t) j -> exists b, (forall g, test g j = Ok b)
        /\ (b = true <-> passes j)) ->
    (forall j, passes j -> in_range (bb_coords t) j) ->
    exists j, (forall g, traverse g t (point_visit t (test g) p) (-1) = Ok j)
      /\ ((j = -1 /\ forall j' b, passes j' -> aget (bb_coords t) j' = Ok b -> ~ in_closed_box p b)
          \/ passes j).
  Proof.
    intros Hv Htest Hpr.
    destruct (point_query t Hv p) as (vis & prn & Hp & HP & Ht).
    assert (Hin : forall j, In j vis -> in_range (bb_coords t) j).
    { intros j Hj. unfold in_range, zlen. apply iota_in.
      apply (Permutation_in _ (Permutation_sym Hp)). apply in_or_app. now left. }
    assert (Hr : exists r, (forall g, first_hit (test g) vis = Ok r)
       /\ match r with Some j => In j vis /\ passes j | None => Forall (fun j => ~ passes j) vis end).
    { clear - Htest Hin. induction vis as [|j vis IH].
      - exists None. split; auto.
      - destruct (Htest j (Hin j (or_introl eq_refl))) as (b & E & Hb).
        destruct b.
        + exists (Some j). split; [|split; [now left|now apply Hb]].
          intros g. cbn [first_hit]. rewrite E. reflexivity.
        + destruct IH as (r & Er & Hr); [intros; apply Hin; now right|].
          exists r. split.
          * intros g. cbn [first_hit]. rewrite E. cbn [bind]. apply Er.
          * destruct r as [i|]; [destruct Hr; split; auto; now right|].
            constructor; auto. intros HH. apply Hb in HH. discriminate. }
    destruct Hr as (r & Er & Hr). destruct r as [j|].
    - exists j. split; [|right; tauto]. intros g. rewrite Ht, Er. reflexivity.
    - exists (-1). split; [intros g; rewrite Ht, Er; reflexivity|]. left. split; auto.
      intros j b Hj Eb. pose proof (Hpr j Hj) as Hjr.
      assert (Hj2 : In j (vis ++ prn)).
      { apply (Permutation_in _ Hp). apply iota_in. exact Hjr. }
      apply in_app_or in Hj2 as [Hj2|Hj2].
      + rewrite Forall_forall in Hr. destruct (Hr j Hj2 Hj).
      + rewrite Forall_forall in HP. now apply (HP j Hj2).
  Qed.

  Lemma nth_error_range {A} (l : list A) j a : 0 <= j -> nth_error l (Z.to_nat j) = Some a -> 0 <= j < zlen l.
  Proof.
    intros H0 H. assert (Z.to_nat j < length l)%nat by (apply nth_error_Some; congruence).
    unfold zlen. lia.
  Qed.

  Theorem locate_point_ok (t : celltree T) p tol : mesh_tree t ->
    exists j, (forall g, locate_point g p t tol = Ok j)
      /\ ((j = -1 /\ forall j' b, face_passes t p tol j' ->
                       aget (bb_coords t) j' = Ok b -> ~ in_closed_box p b)
          \/ face_passes t p tol j).
  Proof.
    intros Hm. unfold locate_point.
    apply (point_query_answer t p (fun g => face_test g t p tol) (face_passes t p tol)).
    - apply Hm.
    - intros j Hj. destruct (face_test_ok (Garbage T (fun _ _ => 0) (fun _ _ => (0,0)) (fun _ _ => (0,0,0))
          (fun _ _ => p) (fun _ _ => create_node 0 0 false) (fun _ _ => bbox t) (fun _ _ => (None, None)))
          t p tol j Hm Hj) as (f & poly & En & Hp & H3 & _).
      destruct (pip_total p poly tol) as (b & Eb).
      { destruct poly; simpl in *; [lia|congruence]. }
      { apply (poly_fin (vertices t) f); auto. apply Hm. }
      exists b. split.
      + intros g. destruct (face_test_ok g t p tol j Hm Hj) as (f' & poly' & En' & Hp' & _ & Ef).
        rewrite En in En'. inversion En'; subst f'.
        rewrite (poly_of_fun _ _ _ _ Hp' Hp) in Ef. now rewrite Ef.
      + split.
        * intros ->. exists f, poly. unfold in_range in Hj. repeat split; auto. lia.
        * intros (f' & poly' & _ & En' & Hp' & Eb'). rewrite En in En'. inversion En'; subst f'.
          rewrite (poly_of_fun _ _ _ _ Hp' Hp) in Eb'. congruence.
    - intros j (f & poly & H0 & En & _). unfold in_range.
      pose proof (nth_error_range _ _ _ H0 En) as H. unfold zlen in *.
      now rewrite (vt_elements _ (mt_valid _ Hm)) in H.
  Qed.

  (* ---------------------------------------------------------------- *)
  (** ** EdgeCellTree2d *)

  Lemma nmin_smallest a b : fin a -> fin b -> smallest (nmin a b) a b.
  Proof. intros. split; auto using nmin_cases, nmin_l, nmin_r. Qed.
  Lemma nmax_largest a b : fin a -> fin b -> largest (nmax a b) a b.
  Proof. intros. split; auto using nmax_cases, nmax_l, nmax_r. Qed.

  Lemma edge_exists (vs : list point) e : wf_edge (length vs) e -> exists v0 v1, edge_of vs e v0 v1.
  Proof.
    intros (i & j & -> & Hi & Hj).
    destruct (nth_error vs (Z.to_nat i)) as [v0|] eqn:E0; [|apply nth_error_None in E0; lia].
    destruct (nth_error vs (Z.to_nat j)) as [v1|] eqn:E1; [|apply nth_error_None in E1; lia].
    exists v0, v1, i, j. repeat split; auto; lia.
  Qed.

  Lemma build_edge_bboxes_ok (vs : list point) tol edges :
    room tol vs -> Forall (wf_edge (length vs)) edges ->
    exists bbs, build_edge_bboxes edges vs tol = Ok bbs /\ Forall finite_box bbs
      /\ Forall2 (fun e b => exists v0 v1, edge_of vs e v0 v1 /\ widened_box tol v0 v1 b) edges bbs.
  Proof.
    intros Hr. induction 1 as [|e t He _ (bbs & E & HF & H2)].
    - exists []. repeat split; constructor.
    - destruct (edge_exists vs e He) as (v0 & v1 & Hedge).
      destruct Hedge as (i & j & -> & Hi & Hj & Ei & Ej).
      unfold room in Hr. rewrite Forall_forall in Hr.
      destruct (Hr v0 (nth_error_In _ _ Ei)) as (A1 & A2 & A3 & A4).
      destruct (Hr v1 (nth_error_In _ _ Ej)) as (B1 & B2 & B3 & B4).
      unfold build_edge_bboxes in *. cbn [mapres]. unfold edge_bounding_box at 1.
      change (aget [i; j] 0) with (Ok i). change (aget [i; j] 1) with (Ok j). cbn [bind].
      rewrite (aget_pos _ _ _ Hi Ei), (aget_pos _ _ _ Hj Ej). cbn [bind]. rewrite E. cbn [bind].
      eexists. split; [reflexivity|]. split.
      + constructor; auto. repeat split; cbn [xmin xmax ymin ymax]; auto using nmin_fin, nmax_fin.
      + constructor; auto. exists v0, v1. split; [exists i, j; auto 10|].
        repeat split; cbn [xmin xmax ymin ymax]; auto using nmin_cases, nmax_cases, nmin_l, nmin_r, nmax_l, nmax_r.
  Qed.

  Theorem EdgeCellTree2d_init_ok g (vs : list point) edges nb cpl :
    2 <= nb -> 1 <= cpl -> edges <> [] ->
    Forall finite_point vs -> Forall (wf_edge (length vs)) edges ->
    exists tol, extent_tol vs tol /\ (room tol vs ->
    exists bbs, length bbs = length edges
    /\ Forall finite_box bbs
    /\ Forall2 (fun e b => exists v0 v1, edge_of vs e v0 v1 /\ widened_box tol v0 v1 b) edges bbs
    /\ ((exists er, EdgeCellTree2d_init g vs edges nb cpl = Err er /\ Fails bbs nb er)
        \/ exists t, EdgeCellTree2d_init g vs edges nb cpl = Ok t
            /\ network_tree tol (celltree_data t)
            /\ bb_coords (celltree_data t) = bbs
            /\ vertices (celltree_data t) = vs
            /\ elements (celltree_data t) = edges
            /\ cells_per_leaf (celltree_data t) = cpl
            /\ bb_dist t = bbox_distances bbs
            /\ zlen (nodes (celltree_data t)) <= pessimistic_n_nodes (zlen edges))).
  Proof.
    intros Hnb Hcpl Hne Hvs Hw.
    unfold EdgeCellTree2d_init, check_params.
    destruct (nb <? 2) eqn:E1; [lia|]. destruct (cpl <? 1) eqn:E2; [lia|]. cbn [bind].
    assert (Hvn : vs <> []).
    { intros ->. destruct edges as [|e t]; [congruence|]. inversion Hw as [|? ? (i & j & _ & H & _)].
      simpl in H. lia. }
    assert (Hm : forall f : point -> T, (forall c, finite_point c -> fin (f c)) ->
       Forall fin (map f vs) /\ map f vs <> []).
    { intros f Hc. split; [|destruct vs; simpl; congruence].
      apply Forall_map. eapply Forall_impl; [|exact Hvs]. auto. }
    unfold finite_point in Hm.
    destruct (Hm px) as (A1 & B1); [tauto|]. destruct (Hm py) as (A2 & B2); [tauto|].
    destruct (np_max_ok _ A1 B1) as (x1 & Ex1 & Ix1 & Lx1).
    destruct (np_min_ok _ A1 B1) as (x0 & Ex0 & Ix0 & Lx0).
    destruct (np_max_ok _ A2 B2) as (y1 & Ey1 & Iy1 & Ly1).
    destruct (np_min_ok _ A2 B2) as (y0 & Ey0 & Iy0 & Ly0).
    rewrite Ex1. cbn [bind]. rewrite Ex0. cbn [bind]. rewrite Ey1. cbn [bind]. rewrite Ey0. cbn [bind].
    cbv zeta.
    set (tol := nmax nmintol (nmul ntolfac (nmax (nsub x1 x0) (nsub y1 y0)))).
    exists tol. split.
    { exists x0, x1, y0, y1. repeat split; auto.
      rewrite Forall_map in Lx0, Lx1, Ly0, Ly1. rewrite Forall_forall in *. auto. }
    intros Hroom.
    destruct (build_edge_bboxes_ok vs tol edges Hroom Hw) as (bbs & Ebb & Hfin & Hboxes).
    rewrite Ebb. cbn [bind].
    assert (Hlen : length edges = length bbs).
    { clear - Hboxes. induction Hboxes; simpl; auto. }
    exists bbs. split; [lia|]. do 2 (split; auto).
    destruct (initialize_valid g bbs edges vs nb cpl) as [(er & E & HF)|(nds & bbi & bb & E & Ebt & Hn & Hvt)];
      auto; try lia.
    { destruct bbs; [|congruence]. destruct edges; simpl in *; [congruence|lia]. }
    - left. exists er. rewrite E. auto.
    - right. rewrite E. cbn [bind]. rewrite Ebt. cbn [bind]. eexists. split; [reflexivity|].
      cbn [celltree_data bb_coords vertices elements cells_per_leaf nodes].
      repeat split; auto; apply Hvt.
  Qed.

  Lemma edge_test_ok g (t : celltree T) gt p tol j : network_tree gt t -> in_range (bb_coords t) j ->
    exists e v0 v1, nth_error (elements t) (Z.to_nat j) = Some e /\ edge_of (vertices t) e v0 v1
      /\ edge_test g t p tol j = point_on_edge p [v0; v1] tol.
  Proof.
    intros Hm Hj. unfold edge_test.
    assert (Hj' : 0 <= j < zlen (elements t)).
    { unfold in_range, zlen in *. rewrite (vt_elements _ (nt_valid _ _ Hm)). exact Hj. }
    destruct (aget_ok_pos (elements t) j Hj') as (e & E & En).
    assert (Hf : wf_edge (length (vertices t)) e).
    { pose proof (nt_edges _ _ Hm) as H. rewrite Forall_forall in H. apply H.
      eapply nth_error_In; eauto. }
    destruct (edge_exists _ e Hf) as (v0 & v1 & He).
    exists e, v0, v1. rewrite E. cbn [bind].
    rewrite (copy_vertices_into_gen (vertices t) e [v0; v1]); auto.
    - destruct He as (i & k & -> & Hi & Hk & Ei & Ek). unfold poly_of. cbn [until_fill].
      destruct (i =? -1) eqn:E1; [lia|]. destruct (k =? -1) eqn:E2; [lia|].
      repeat constructor; auto.
    - destruct He as (i & k & -> & Hi & Hk & Ei & Ek). cbn [until_fill].
      destruct (i =? -1) eqn:E1; [lia|]. destruct (k =? -1) eqn:E2; [lia|]. reflexivity.
    - destruct He as (i & k & -> & Hi & Hk & Ei & Ek).
      pose proof (until_fill_length [i; k]). unfold allocate_polygon.
      rewrite np_empty_length. unfold MAX_N_VERTEX. simpl length in H at 2. lia.
  Qed.

  Lemma edge_of_fun (vs : list point) e v0 v1 w0 w1 :
    edge_of vs e v0 v1 -> edge_of vs e w0 w1 -> v0 = w0 /\ v1 = w1.
  Proof.
    intros (i & j & -> & _ & _ & Ei & Ej) (i' & j' & Ee & _ & _ & Ei' & Ej').
    inversion Ee; subst. split; congruence.
  Qed.

  Lemma point_on_edge_total p (v0 v1 : point) tol : exists b, point_on_edge p [v0; v1] tol = Ok b.
  Proof.
    unfold point_on_edge. change (aget [v0; v1] 0) with (Ok v0). change (aget [v0; v1] 1) with (Ok v1).
    cbn [bind]. destruct (point_eqb v1 v0); eauto.
  Qed.

  Theorem locate_point_on_edge_ok (t : celltree T) gt p tol : network_tree gt t ->
    exists j, (forall g, locate_point_on_edge g p t tol = Ok j)
      /\ ((j = -1 /\ forall j' b, edge_passes t p tol j' ->
                       aget (bb_coords t) j' = Ok b -> ~ in_closed_box p b)
          \/ edge_passes t p tol j).
  Proof.
    intros Hm. unfold locate_point_on_edge.
    apply (point_query_answer t p (fun g => edge_test g t p tol) (edge_passes t p tol)).
    - apply Hm.
    - intros j Hj. destruct (edge_test_ok (Garbage T (fun _ _ => 0) (fun _ _ => (0,0)) (fun _ _ => (0,0,0))
          (fun _ _ => p) (fun _ _ => create_node 0 0 false) (fun _ _ => bbox t) (fun _ _ => (None, None)))
          t gt p tol j Hm Hj) as (e & v0 & v1 & En & He & _).
      destruct (point_on_edge_total p v0 v1 tol) as (b & Eb).
      exists b. split.
      + intros g. destruct (edge_test_ok g t gt p tol j Hm Hj) as (e' & w0 & w1 & En' & He' & Ef).
        rewrite En in En'. inversion En'; subst e'.
        destruct (edge_of_fun _ _ _ _ _ _ He He') as (<- & <-). now rewrite Ef.
      + split.
        * intros ->. exists e, v0, v1. unfold in_range in Hj. repeat split; auto. lia.
        * intros (e' & w0 & w1 & _ & En' & He' & Eb'). rewrite En in En'. inversion En'; subst e'.
          destruct (edge_of_fun _ _ _ _ _ _ He He') as (<- & <-). congruence.
    - intros j (f & v0 & v1 & H0 & En & _). unfold in_range.
      pose proof (nth_error_range _ _ _ H0 En) as H. unfold zlen in *.
      now rewrite (vt_elements _ (nt_valid _ _ Hm)) in H.
  Qed.
End Points.
