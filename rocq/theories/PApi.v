(** Theorems on the public classes, for every number type with ordered finite
    values. *)
From Verif Require Import Base Num MUtils MGeometry MCreation MAlgorithms MQuery MCelltree
  PStack PPartition SpecTree PBuild PBuild2 PWalk PCollect SpecQuery SpecApi PQuery PMesh PInit
  PPoints PTreeFacts NumSub.
From Coq Require Import Sorted.
Open Scope Z_scope.

Lemma Forall2_nth {A B} (P : A -> B -> Prop) l l' k a b :
  Forall2 P l l' -> nth_error l k = Some a -> nth_error l' k = Some b -> P a b.
Proof.
  intros H. revert k. induction H as [|x y l l' Hxy _ IH]; intros [|k] Ea Eb; simpl in *; try discriminate; eauto.
  congruence.
Qed.
Lemma Forall2_nth_l {A B} (P : A -> B -> Prop) l l' k a :
  Forall2 P l l' -> nth_error l k = Some a -> exists b, nth_error l' k = Some b /\ P a b.
Proof.
  intros H. revert k. induction H as [|x y l l' Hxy _ IH]; intros [|k] Ea; simpl in *; try discriminate; eauto.
  inversion Ea; subst. eauto.
Qed.

Section Api.
  Context {T : Type} {NT : Num T} {NO : NumOrd T}.
  Notation box := (box T).
  Notation point := (point T).

  Lemma check_params_ok nb cpl u : check_params nb cpl = Ok u -> 2 <= nb /\ 1 <= cpl.
  Proof.
    unfold check_params. destruct (nb <? 2) eqn:E1; [discriminate|].
    destruct (cpl <? 1) eqn:E2; [discriminate|]. lia.
  Qed.

  (** Everything known of a constructed tree *)
  Record built (vs : list point) (faces : list (list Z)) (fill cpl : Z) (t : tree2d (T:=T)) : Prop := {
    bt_mesh : mesh_tree (celltree_data t);
    bt_len : length (bb_coords (celltree_data t)) = length faces;
    bt_vertices : vertices (celltree_data t) = vs;
    bt_elements : Forall2 same_face (map (with_fill fill) faces) (elements (celltree_data t));
    bt_cpl : cells_per_leaf (celltree_data t) = cpl;
    bt_dist : bb_dist t = bbox_distances (bb_coords (celltree_data t));
    bt_nodes : zlen (nodes (celltree_data t)) <= pessimistic_n_nodes (zlen faces)
  }.

  Lemma init_built g vs faces fill nb cpl t :
    mesh_ok vs faces fill -> CellTree2d_init g vs faces fill nb cpl = Ok t ->
    built vs faces fill cpl t.
  Proof.
    intros Hm E.
    assert (Hp : 2 <= nb /\ 1 <= cpl).
    { unfold CellTree2d_init in E. apply bind_ok in E as (u & E & _). eapply check_params_ok; eauto. }
    destruct Hp as (Hnb & Hcpl).
    destruct (CellTree2d_init_ok g vs faces fill nb cpl Hnb Hcpl (mo_nonempty _ _ _ Hm)
                (mo_vertices _ _ _ Hm) (mo_faces _ _ _ Hm))
      as (bbs & fs & Hl & _ & _ & _ & [(er & E' & _)|(t' & E' & H1 & H2 & H3 & H4 & H5 & H6 & H7)]); [congruence|].
    rewrite E in E'. inversion E'; subst t'. constructor; auto; now rewrite H2.
  Qed.

  Record built_edges (vs : list point) (edges : list (list Z)) (cpl : Z) (t : tree2d (T:=T)) : Prop := {
    be_net : exists tol, extent_tol vs tol /\ network_tree tol (celltree_data t);
    be_len : length (bb_coords (celltree_data t)) = length edges;
    be_vertices : vertices (celltree_data t) = vs;
    be_elements : elements (celltree_data t) = edges;
    be_cpl : cells_per_leaf (celltree_data t) = cpl;
    be_dist : bb_dist t = bbox_distances (bb_coords (celltree_data t));
    be_nodes : zlen (nodes (celltree_data t)) <= pessimistic_n_nodes (zlen edges)
  }.

  Lemma init_built_edges g vs edges nb cpl t :
    network_ok vs edges -> EdgeCellTree2d_init g vs edges nb cpl = Ok t ->
    built_edges vs edges cpl t.
  Proof.
    intros Hm E.
    assert (Hp : 2 <= nb /\ 1 <= cpl).
    { unfold EdgeCellTree2d_init in E. apply bind_ok in E as (u & E & _). eapply check_params_ok; eauto. }
    destruct Hp as (Hnb & Hcpl).
    destruct (EdgeCellTree2d_init_ok g vs edges nb cpl Hnb Hcpl (no_nonempty _ _ Hm)
                (no_vertices _ _ Hm) (no_edges _ _ Hm)) as (tol & Ht & H).
    destruct (H (no_room _ _ Hm _ Ht))
      as (bbs & Hl & _ & _ & [(er & E' & _)|(t' & E' & H1 & H2 & H3 & H4 & H5 & H6 & H7)]); [congruence|].
    rewrite E in E'. inversion E'; subst t'. constructor; eauto; now rewrite H2.
  Qed.

  Lemma built_valid vs faces fill cpl t : built vs faces fill cpl t -> valid_tree (celltree_data t).
  Proof. intros H. apply (bt_mesh _ _ _ _ _ H). Qed.
  Lemma built_edges_valid vs edges cpl t : built_edges vs edges cpl t -> valid_tree (celltree_data t).
  Proof. intros H. destruct (be_net _ _ _ _ H) as (tol & _ & Hn). apply Hn. Qed.

  (** ** Shape *)
  Lemma valid_proper (t : celltree T) : valid_tree t -> proper_tree (nodes t) (zlen (bb_coords t)).
  Proof. intros H. destruct (vt_tree _ H) as (S & HT & HS). eapply tree_proper; eauto. Qed.

  Lemma valid_stored (t : celltree T) : valid_tree t -> forall e, 0 <= e < zlen (bb_coords t) ->
    exists i k, stored (nodes t) (bb_indices t) e i k
      /\ forall i' k', stored (nodes t) (bb_indices t) e i' k' -> i' = i /\ k' = k.
  Proof.
    intros H. destruct (vt_tree _ H) as (S & HT & HS).
    exact (tree_stored _ _ _ _ _ HT HS (vt_perm _ H)).
  Qed.

  (** the dictionary of lists has the children of every node *)
  Lemma dict_ok (t : tree2d (T:=T)) : valid_tree (celltree_data t) ->
    map fst (to_dict_of_lists t) = iota (length (nodes (celltree_data t)))
    /\ forall p i, child_of (nodes (celltree_data t)) p i
         <-> exists l, In (p, l) (to_dict_of_lists t) /\ In i l.
  Proof.
    intros Hv. unfold to_dict_of_lists. set (nds := nodes (celltree_data t)).
    set (f := fun nd : node T => if nchild nd =? -1 then [] else [nchild nd; nchild nd + 1]).
    assert (Hc : forall p l, In (p, l) (combine (iota (length nds)) (map f nds))
               <-> 0 <= p /\ exists nd, nth_error nds (Z.to_nat p) = Some nd /\ l = f nd).
    { assert (G : forall ns pre, nds = pre ++ ns -> forall p l,
        In (p, l) (combine (map Z.of_nat (seq (length pre) (length ns))) (map f ns))
        <-> Z.of_nat (length pre) <= p /\ exists nd, nth_error nds (Z.to_nat p) = Some nd /\ l = f nd).
      { induction ns as [|nd ns IH]; intros pre E p l.
        - simpl. split; [tauto|]. intros (H & nd & En & _).
          assert (Z.to_nat p < length nds)%nat by (apply nth_error_Some; congruence).
          rewrite E, app_length in H0. simpl in H0. lia.
        - cbn [length seq map combine In]. specialize (IH (pre ++ [nd])).
          rewrite app_length in IH. cbn [length] in IH.
          replace (length pre + 1)%nat with (S (length pre)) in IH by lia.
          rewrite IH by (rewrite <- app_assoc; auto).
          assert (En : nth_error nds (length pre) = Some nd)
            by (rewrite E, nth_error_app2, Nat.sub_diag by lia; reflexivity).
          split.
          + intros [H|(H & nd' & En' & ->)].
            * inversion H; subst. split; [lia|]. exists nd. rewrite Nat2Z.id. auto.
            * split; [lia|]. eauto.
          + intros (H & nd' & En' & ->).
            destruct (Z.eq_dec p (Z.of_nat (length pre))) as [->|Hne].
            * rewrite Nat2Z.id in En'. left. congruence.
            * right. split; [lia|]. eauto. }
      exact (G nds [] eq_refl). }
    split.
    - assert (G : forall (A B : Type) (l : list A) (l' : list B), length l = length l' -> map fst (combine l l') = l).
      { induction l as [|a l IH]; intros [|b l'] H; simpl in *; try discriminate; auto. f_equal. apply IH. lia. }
      apply G. now rewrite iota_length, map_length.
    - intros p i. split.
      + intros (H0 & nd & E & Hn & Hi). exists (f nd). split; [apply Hc; eauto|].
        unfold f. destruct (nchild nd =? -1) eqn:E1; [lia|]. simpl. intuition.
      + intros (l & Hl & Hi). apply Hc in Hl as (H0 & nd & E & ->). split; auto. exists nd.
        unfold f in Hi. destruct (nchild nd =? -1) eqn:E1; [destruct Hi|]. simpl in Hi.
        repeat split; auto; [lia|intuition].
  Qed.

  (** ** Boxes *)
  Definition rows_of (anss : list (list Z)) : list (Z * Z) :=
    concat (map (fun ia => map (pair (fst ia)) (snd ia)) (combine (iota (length anss)) anss)).

  Lemma rows_of_spec anss : forall k,
    let rows := concat (map (fun ia => map (pair (fst ia)) (snd ia))
        (combine (map Z.of_nat (seq k (length anss))) anss)) in
    (Forall (@NoDup Z) anss -> NoDup rows)
    /\ (forall i j, In (i, j) rows <-> exists js, Z.of_nat k <= i /\ nth_error anss (Z.to_nat i - k) = Some js /\ In j js)
    /\ StronglySorted Z.le (map fst rows).
  Proof.
    induction anss as [|js anss IH]; intros k; cbn [length seq map combine concat].
    - split; [constructor|]. split; [|constructor]. intros i j. split; [intros []|].
      intros (js & _ & E & _). destruct (Z.to_nat i - k)%nat; discriminate.
    - cbv zeta in IH. specialize (IH (S k)). destruct IH as (IH1 & IH2 & IH3). cbn [fst snd].
      assert (Hin : forall i j, In (i, j) (map (pair (Z.of_nat k)) js) <-> i = Z.of_nat k /\ In j js).
      { intros i j. rewrite in_map_iff. split.
        - intros (x & E & Hx). inversion E; subst. auto.
        - intros (-> & Hj). eauto. }
      split; [|split].
      + intros H. inversion H as [|? ? H1 H2]; subst.
        assert (G : forall (l1 l2 : list (Z * Z)), NoDup l1 -> NoDup l2 ->
           (forall x, In x l1 -> In x l2 -> False) -> NoDup (l1 ++ l2)).
        { induction l1 as [|x l1 IHl]; intros l2 N1 N2 Hd; auto. inversion N1; subst. simpl. constructor.
          - intros Hx. apply in_app_or in Hx as [Hx|Hx]; auto. apply (Hd x); auto. now left.
          - apply IHl; auto. intros y Hy1 Hy2. apply (Hd y); auto. now right. }
        apply G; auto.
        * clear - H1. induction H1 as [|x js Hx _ IHj]; simpl; constructor; auto.
          intros Hin. apply in_map_iff in Hin as (y & E & Hy). inversion E; subst. auto.
        * intros (i, j) A B. apply Hin in A as (-> & _). apply IH2 in B as (x & Hx & _). lia.
      + intros i j. rewrite in_app_iff, Hin, IH2. split.
        * intros [(-> & Hj)|(x & Hk & En & Hj)].
          -- exists js. rewrite Nat2Z.id, Nat.sub_diag. repeat split; auto. lia.
          -- exists x. split; [lia|]. split; auto.
             replace (Z.to_nat i - k)%nat with (S (Z.to_nat i - S k)) by lia. exact En.
        * intros (x & Hk & En & Hj). destruct (Z.eq_dec i (Z.of_nat k)) as [->|Hne].
          -- rewrite Nat2Z.id, Nat.sub_diag in En. simpl in En. inversion En; subst. now left.
          -- right. exists x. split; [lia|]. split; auto.
             replace (Z.to_nat i - k)%nat with (S (Z.to_nat i - S k)) in En by lia. exact En.
      + rewrite map_app, map_map. cbn [fst].
        assert (Hle : Forall (fun x => Z.of_nat k <= x) (map fst (concat
            (map (fun ia : Z * list Z => map (pair (fst ia)) (snd ia))
               (combine (map Z.of_nat (seq (S k) (length anss))) anss))))).
        { apply Forall_forall. intros x Hx. apply in_map_iff in Hx as ((i, j) & <- & Hx).
          apply IH2 in Hx as (y & Hy & _). simpl. lia. }
        clear - IH3 Hle. induction js as [|j js IHj]; [exact IH3|]. cbn [map app]. constructor; auto.
        apply Forall_app. split; auto. apply Forall_forall. intros x Hx.
        apply in_map_iff in Hx as (y & <- & _). lia.
  Qed.

  Theorem boxes_result (t : tree2d (T:=T)) boxes : valid_tree (celltree_data t) ->
    exists rows, (forall g n_threads, (1 <= n_threads)%nat ->
        CellTree2d_locate_boxes g n_threads t boxes = Ok rows)
      /\ NoDup rows /\ (forall i j, In (i, j) rows <-> boxes_pair boxes t i j)
      /\ StronglySorted Z.le (map fst rows).
  Proof.
    intros Hv. destruct (locate_boxes_ok (celltree_data t) Hv boxes) as (anss & HF & HR).
    assert (Hl : length anss = length boxes).
    { clear - HF. induction HF; simpl; auto. }
    rewrite <- Hl in HR.
    exists (rows_of anss).
    pose proof (rows_of_spec anss 0) as HS. cbv zeta in HS. unfold rows_of, iota.
    unfold iota in HR. destruct HS as (S1 & S2 & S3).
    split; [intros; now apply HR|]. split; [|split; [|exact S3]].
    - apply S1. clear - HF. induction HF as [|a js l l' Ha _ IH]; constructor; auto. apply Ha.
    - intros i j. rewrite S2. split.
      + intros (js & Hi & En & Hj). rewrite Nat.sub_0_r in En.
        assert (G : exists a, nth_error boxes (Z.to_nat i) = Some a
                    /\ box_answers (celltree_data t) a js).
        { clear - HF En. revert En. generalize (Z.to_nat i) as k. induction HF as [|a b l l' Hab _ IH]; intros k En.
          - destruct k; discriminate.
          - destruct k; [simpl in En; inversion En; subst; simpl; eauto|]. apply IH. exact En. }
        destruct G as (a & Ea & (_ & Ha)). destruct (proj1 (Ha j) Hj) as (b & H0 & Eb & Ho).
        exists a, b. simpl in Hi. auto 10.
      + intros (a & b & Hi & Hj & Ea & Eb & Ho).
        assert (G : exists js, nth_error anss (Z.to_nat i) = Some js
                    /\ box_answers (celltree_data t) a js).
        { clear - HF Ea. revert Ea. generalize (Z.to_nat i) as k. induction HF as [|a' b l l' Hab _ IH]; intros k En.
          - destruct k; discriminate.
          - destruct k; [simpl in En; inversion En; subst; simpl; eauto|]. apply IH. exact En. }
        destruct G as (js & Ejs & (_ & Ha)). exists js. rewrite Nat.sub_0_r. repeat split; auto.
        apply Ha. eauto.
  Qed.

  (** ** Growth of the result buffer: any initial buffer of positive size *)
  Theorem buffers_grow (t : celltree T) boxes offset : valid_tree t ->
    exists anss, Forall2 (box_answers t) boxes anss
      /\ forall g buffer, buffer <> [] ->
         exists unused,
         query_loop (gZZ g) (fun bx index rows size => locate_box g bx t rows size index)
                    (retry_fuel t) boxes offset buffer 0 0
         = Ok (map (fun r => (offset + fst r, snd r)) (rows_of anss) ++ unused, zlen (rows_of anss)).
  Proof.
    intros Hv.
    set (ix := map (fun k => offset + k) (iota (length boxes))).
    destruct (Forall2_choose
      (fun qi js => (box_answers t (fst qi) js /\ (length js <= length (bb_coords t))%nat)
        /\ forall g, runs (fun rows size => locate_box g (fst qi) t rows size (snd qi))
                (map (pair (snd qi)) js)) (combine boxes ix)) as (anss & HF).
    { intros (bx & i) _. destruct (locate_box_runs t Hv bx i) as (js & Hp & Hr).
      exists js. split; auto. cbn [fst]. split.
      - now apply box_answers_filter.
      - rewrite (Permutation_length Hp).
        etransitivity; [apply filter_length_le|]. now rewrite iota_length. }
    assert (HL : length boxes = length ix) by (unfold ix; now rewrite map_length, iota_length).
    assert (HL2 : length anss = length boxes).
    { apply F2_length in HF. rewrite combine_length in HF. lia. }
    exists anss. split.
    - clearbody ix. clear - HF HL. revert ix HL anss HF. induction boxes as [|bx l IH]; intros [|i ix] HL anss HF;
        simpl in *; try discriminate; inversion HF; subst.
      + constructor.
      + constructor; [cbn [fst] in *; tauto|apply (IH ix); [lia|auto]].
    - intros g buffer Hb.
      set (hs := map (fun ia => map (pair (fst ia)) (snd ia)) (combine ix anss)).
      assert (Hc : concat hs = map (fun r => (offset + fst r, snd r)) (rows_of anss)).
      { unfold hs, rows_of, ix. rewrite HL2. rewrite concat_map, map_map.
        assert (G : forall (l : list Z) (a : list (list Z)),
          map (fun ia => map (pair (fst ia)) (snd ia)) (combine (map (fun k => offset + k) l) a)
          = map (fun x : Z * list Z => map (fun r : Z * Z => (offset + fst r, snd r))
                 (map (pair (fst x)) (snd x))) (combine l a)).
        { induction l as [|x l IH]; intros [|y a]; simpl; auto. rewrite IH. f_equal.
          rewrite map_map. reflexivity. }
        now rewrite G. }
      destruct (query_loop_ok (gZZ g) (fun bx index rows size => locate_box g bx t rows size index)
          (retry_fuel t) boxes offset hs) with (pre := @nil (Z * Z)) (free := buffer) as (free & E).
      + fold ix. unfold hs. clearbody ix. clear - HF HL. revert ix HL anss HF.
        induction boxes as [|bx l IH]; intros [|i ix] HL anss HF;
          simpl in *; try discriminate; inversion HF; subst; simpl; constructor; auto.
        cbn [fst snd] in *. destruct H1 as ((_ & H) & Hr). split; auto.
        rewrite map_length. unfold retry_fuel. lia.
      + destruct buffer; simpl; [congruence|lia].
      + exists free. rewrite Hc in E. cbn [app zlen length] in E. change (zlen (@nil (Z * Z))) with 0 in E.
        rewrite E. do 2 f_equal. unfold zlen. now rewrite map_length.
  Qed.

  (** ** Points *)
  Context {NS : NumSub T}.

  Lemma get_tolerance_ok (t : tree2d (T:=T)) tolerance :
    bb_dist t = bbox_distances (bb_coords (celltree_data t)) -> valid_tree (celltree_data t) ->
    exists tol, get_tolerance t tolerance = Ok tol.
  Proof.
    intros E Hv. destruct tolerance as [x|]; simpl; eauto. unfold default_tolerance. rewrite E.
    pose proof (vt_nonempty _ Hv) as H. destruct (bb_coords (celltree_data t)); simpl in H; [lia|].
    simpl. eauto.
  Qed.

  Theorem points_result vs faces fill cpl t tolerance : built vs faces fill cpl t ->
    exists tol, get_tolerance t tolerance = Ok tol
      /\ forall points, exists js,
          (forall g, CellTree2d_locate_points g t points tolerance = Ok js)
          /\ Forall2 (fun p j => point_answer (face_passes (celltree_data t) p tol) t p j) points js.
  Proof.
    intros Hb. pose proof (built_valid _ _ _ _ _ Hb) as Hv.
    destruct (get_tolerance_ok t tolerance (bt_dist _ _ _ _ _ Hb) Hv) as (tol & Et).
    exists tol. split; auto. intros points.
    destruct (Forall2_choose (fun p j => (forall g, locate_point g p (celltree_data t) tol = Ok j)
       /\ point_answer (face_passes (celltree_data t) p tol) t p j) points) as (js & HF).
    { intros p _. destruct (locate_point_ok (celltree_data t) p tol (bt_mesh _ _ _ _ _ Hb))
        as (j & Ej & [(-> & Hn)|Hp]).
      - exists (-1). split; auto. right. split; auto. intros j' Hj' (b & H0 & En & Hc).
        apply (Hn j' b Hj'); auto. now apply aget_pos.
      - exists j. split; auto. now left. }
    exists js. split.
    - intros g. unfold CellTree2d_locate_points. rewrite Et. cbn [bind].
      apply mapres_ok. eapply Forall2_impl'; [|exact HF]. intros p j (H & _). apply H.
    - eapply Forall2_impl'; [|exact HF]. intros p j (_ & H). exact H.
  Qed.

  Theorem edge_points_result vs edges cpl t tolerance : built_edges vs edges cpl t ->
    exists tol, get_tolerance t tolerance = Ok tol
      /\ forall points, exists js,
          (forall g, EdgeCellTree2d_locate_points g t points tolerance = Ok js)
          /\ Forall2 (fun p j => point_answer (edge_passes (celltree_data t) p tol) t p j) points js.
  Proof.
    intros Hb. pose proof (built_edges_valid _ _ _ _ Hb) as Hv.
    destruct (get_tolerance_ok t tolerance (be_dist _ _ _ _ Hb) Hv) as (tol & Et).
    exists tol. split; auto. intros points.
    destruct (be_net _ _ _ _ Hb) as (gt & _ & Hnet).
    destruct (Forall2_choose (fun p j => (forall g, locate_point_on_edge g p (celltree_data t) tol = Ok j)
       /\ point_answer (edge_passes (celltree_data t) p tol) t p j) points) as (js & HF).
    { intros p _. destruct (locate_point_on_edge_ok (celltree_data t) gt p tol Hnet)
        as (j & Ej & [(-> & Hn)|Hp]).
      - exists (-1). split; auto. right. split; auto. intros j' Hj' (b & H0 & En & Hc).
        apply (Hn j' b Hj'); auto. now apply aget_pos.
      - exists j. split; auto. now left. }
    exists js. split.
    - intros g. unfold EdgeCellTree2d_locate_points. rewrite Et. cbn [bind].
      apply mapres_ok. eapply Forall2_impl'; [|exact HF]. intros p j (H & _). apply H.
    - eapply Forall2_impl'; [|exact HF]. intros p j (_ & H). exact H.
  Qed.

  (** ** Independence of the tuning parameters *)
  Lemma init_same g g' vs faces fill nb cpl nb' cpl' t t' :
    CellTree2d_init g vs faces fill nb cpl = Ok t ->
    CellTree2d_init g' vs faces fill nb' cpl' = Ok t' ->
    elements (celltree_data t) = elements (celltree_data t')
    /\ vertices (celltree_data t) = vertices (celltree_data t')
    /\ bb_coords (celltree_data t) = bb_coords (celltree_data t')
    /\ bb_dist t = bb_dist t'.
  Proof.
    unfold CellTree2d_init. intros H H'.
    apply bind_ok in H as (u & _ & H). apply bind_ok in H' as (u' & _ & H').
    apply bind_ok in H as (f1 & E1 & H). apply bind_ok in H' as (f1' & E1' & H').
    rewrite E1 in E1'. inversion E1'; subst f1'.
    apply bind_ok in H as (f2 & E2 & H). apply bind_ok in H' as (f2' & E2' & H').
    rewrite E2 in E2'. inversion E2'; subst f2'.
    apply bind_ok in H as (f3 & E3 & H). apply bind_ok in H' as (f3' & E3' & H').
    rewrite E3 in E3'. inversion E3'; subst f3'.
    apply bind_ok in H as ((n & i) & E4 & H). apply bind_ok in H' as ((n' & i') & E4' & H').
    apply bind_ok in H as (b & E5 & H). apply bind_ok in H' as (b' & E5' & H').
    inversion H. inversion H'. subst t t'. cbn. auto.
  Qed.
End Api.
