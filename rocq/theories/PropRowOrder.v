(** Property theorems: the rows of locate_boxes come in one order of the elements (C88). *)
From Verif Require Import Base Num MUtils MGeometry MCreation MAlgorithms MQuery MCelltree
  PStack PPartition SpecTree PBuild PBuild2 PWalk PCollect SpecQuery SpecApi SpecVisit PQuery PMesh PInit PPoints PApi.
From Verif Require Import NumR NumB64 NumSub Examples PropTree.
Open Scope Z_scope.

Section Order.
  Context {T : Type} {NT : Num T} {NO : NumOrd T}.
  Notation box := (box T).
  Variable tree : celltree T.
  Notation bbc := (bb_coords tree).
  Notation bbi := (bb_indices tree).
  Notation n := (length bbc).
  Notation below := (listed (nodes tree) bbi).

  (** the order is determined by the tree *)
  Theorem C88_order_unique idx l l' : below idx l -> below idx l' -> l = l'.
  Proof.
    intros H. revert l'. induction H; intros l' H'; inversion H'; subst;
      match goal with A : nth_error _ _ = Some ?a, B : nth_error _ _ = Some ?b |- _ => assert (a = b) by congruence; subst; clear B end;
      try contradiction; try congruence; f_equal; auto.
  Qed.

  Hypothesis Hv : valid_tree tree.
  Variable bx : box.
  Let ovl (e : Z) : bool := match aget bbc e with Ok b => boxes_intersect bx b | Err _ => false end.

  Lemma prune_left nd e b : nleb (bmin bx (ndim nd)) (nLmax nd) = false -> aget bbc e = Ok b ->
    nleb (side_hi (ndim nd) b) (nLmax nd) = true -> ovl e = false.
  Proof.
    intros Hn Eb Hle. unfold ovl. rewrite Eb. destruct (boxes_intersect bx b) eqn:E; auto. exfalso.
    apply strict_overlap_b in E as (E1 & E2 & E3 & E4).
    assert (Hlt : nltb (bmin bx (ndim nd)) (side_hi (ndim nd) b) = true)
      by (unfold bmin, side_hi; destruct (ndim nd); auto).
    pose proof (nlt_le _ _ (nlt_le_trans _ _ _ Hlt Hle)). congruence.
  Qed.

  Lemma prune_right nd e b : nleb (nRmin nd) (bmax bx (ndim nd)) = false -> aget bbc e = Ok b ->
    nleb (nRmin nd) (side_lo (ndim nd) b) = true -> ovl e = false.
  Proof.
    intros Hn Eb Hle. unfold ovl. rewrite Eb. destruct (boxes_intersect bx b) eqn:E; auto. exfalso.
    apply strict_overlap_b in E as (E1 & E2 & E3 & E4).
    assert (Hlt : nltb (side_lo (ndim nd) b) (bmax bx (ndim nd)) = true)
      by (unfold bmax, side_lo; destruct (ndim nd); auto).
    pose proof (nlt_le _ _ (nle_lt_trans _ _ _ Hle Hlt)). congruence.
  Qed.

  Lemma filter_none (f : Z -> bool) l : (forall e, In e l -> f e = false) -> filter f l = [].
  Proof. induction l as [|e l IH]; intros H; auto. cbn [filter]. rewrite (H e (or_introl eq_refl)). apply IH. intros; apply H; now right. Qed.

  Lemma range_none lo hi (Q : box -> Prop) l : 0 <= lo -> range_all bbc bbi lo hi Q -> Permutation l (slice bbi lo hi) ->
    (forall e b, aget bbc e = Ok b -> Q b -> ovl e = false) -> filter ovl l = [].
  Proof.
    intros Hlo H Hp HQ. apply filter_none. intros e He. apply (Permutation_in _ Hp) in He.
    destruct (slice_in _ _ _ _ Hlo He) as (i & Hi & E).
    assert (Hin : in_range bbc e).
    { pose proof (bbi_range tree Hv) as Hr. rewrite Forall_forall in Hr. apply Hr. eapply aget_in; eauto. }
    destruct (aget_ok_pos bbc e Hin) as (b & Eb & _). eauto.
  Qed.

  Lemma walk_listed idx lo hi S : TreeAt (nodes tree) bbc bbi idx lo hi S -> 0 <= lo -> hi <= zlen bbi ->
    exists c vis ord, (c <= length S)%nat /\ below idx ord /\ Permutation ord (slice bbi lo hi)
      /\ filter ovl vis = filter ovl ord /\ incl vis ord
      /\ forall (St : Type) (act : list Z -> St -> res (St + St)), seq_act act ->
         forall F rest st, list_loop (visitW tree (box_children bx) act) (c + F) (idx :: rest) st
           = after tree (box_children bx) act F rest (act vis st).
  Proof.
    induction 1 as [idx lo hi nd H0 E Hc Hp Hs Hlt|
                    idx lo mid hi nd c S1 S2 H0 E Hc Hlt Hp Hs HL HR HLa HRa H1 IH1 H2 IH2];
      intros Hlo Hhi.
    - exists 1%nat, (slice bbi lo hi), (slice bbi lo hi). split; [simpl; lia|]. split.
      + unfold slice. rewrite <- Hs, <- Hp. apply LLeaf; auto. now apply aget_pos_inv.
      + split; [reflexivity|]. split; [reflexivity|]. split; [apply incl_refl|].
        intros St act (act_nil & act_app) F rest st. cbn [Nat.add list_loop]. unfold visitW at 1. rewrite E. cbn [bind].
        rewrite Hc. cbn [Z.eqb Pos.eqb]. rewrite (leaf_items_ok tree nd lo hi) by (auto; lia). cbn [bind].
        destruct (act (slice bbi lo hi) st) as [[st'|st']|e]; reflexivity.
    - assert (Hlm : lo < mid) by (eapply TreeAt_lt; eauto).
      assert (Hmh : mid < hi) by (eapply TreeAt_lt; eauto).
      destruct IH1 as (c1 & v1 & o1 & Hc1 & O1 & P1 & F1 & I1 & Hl1); [lia|lia|].
      destruct IH2 as (c2 & v2 & o2 & Hc2 & O2 & P2 & F2 & I2 & Hl2); [lia|lia|].
      pose proof (aget_pos_inv _ _ _ H0 E) as En. assert (Hne : nchild nd <> -1) by lia.
      assert (Hlen : length (idx :: S1 ++ S2) = Datatypes.S (length S1 + length S2))
        by (simpl; now rewrite app_length).
      rewrite Hlen. rewrite <- Hc in O1, O2, Hl1, Hl2. clear Hlen.
      assert (HO : below idx (o2 ++ o1)) by (apply (LSplit _ _ idx nd); auto).
      assert (HP : Permutation (o2 ++ o1) (slice bbi lo hi)).
      { rewrite (slice_split bbi lo mid hi) by lia. rewrite P1, P2. apply Permutation_app_comm. }
      assert (Estep : forall (St : Type) (act : list Z -> St -> res (St + St)) st l, box_children bx nd = Ok l ->
                 visitW tree (box_children bx) act idx st = Ok (Next st l)).
      { intros St act st l El. unfold visitW. rewrite E. cbn [bind].
        destruct (nchild nd =? -1) eqn:E1; [lia|]. rewrite El. reflexivity. }
      assert (NL : nleb (bmin bx (ndim nd)) (nLmax nd) = false -> filter ovl o1 = []).
      { intros Hn. eapply range_none; [| exact HL | exact P1 |]; [lia|]. intros e b Eb HQ. eapply prune_left; eauto. }
      assert (NR : nleb (nRmin nd) (bmax bx (ndim nd)) = false -> filter ovl o2 = []).
      { intros Hn. eapply range_none; [| exact HR | exact P2 |]; [lia|]. intros e b Eb HQ. eapply prune_right; eauto. }
      destruct (nleb (bmin bx (ndim nd)) (nLmax nd)) eqn:L; destruct (nleb (nRmin nd) (bmax bx (ndim nd))) eqn:R;
        unfold box_children in Estep at 1; rewrite L, R in Estep; cbn [andb] in Estep.
      + exists (Datatypes.S (c2 + c1)), (v2 ++ v1), (o2 ++ o1). split; [lia|]. split; [exact HO|]. split; [exact HP|].
        split; [rewrite !filter_app; congruence|]. split; [apply incl_app; [apply incl_appl|apply incl_appr]; auto|].
        intros St act Hact F rest st. pose proof Hact as (act_nil & act_app). cbn [Nat.add list_loop].
        rewrite (Estep _ _ _ _ eq_refl). cbn [bind rev app].
        replace (c2 + c1 + F)%nat with (c2 + (c1 + F))%nat by lia.
        rewrite Hl2 by auto. unfold after at 1. rewrite act_app. destruct (act v2 st) as [[st1|st1]|e]; auto.
      + exists (Datatypes.S c1), v1, (o2 ++ o1). split; [lia|]. split; [exact HO|]. split; [exact HP|].
        split; [rewrite filter_app, (NR eq_refl); exact F1|]. split; [apply incl_appr; auto|].
        intros St act Hact F rest st. cbn [Nat.add list_loop]. rewrite (Estep _ _ _ _ eq_refl). cbn [bind rev app]. now apply Hl1.
      + exists (Datatypes.S c2), v2, (o2 ++ o1). split; [lia|]. split; [exact HO|]. split; [exact HP|].
        split; [rewrite filter_app, (NL eq_refl), app_nil_r; exact F2|]. split; [apply incl_appl; auto|].
        intros St act Hact F rest st. cbn [Nat.add list_loop]. rewrite (Estep _ _ _ _ eq_refl). cbn [bind rev app]. now apply Hl2.
      + exists 1%nat, [], (o2 ++ o1). split; [lia|]. split; [exact HO|]. split; [exact HP|].
        split; [rewrite filter_app, (NL eq_refl), (NR eq_refl); reflexivity|]. split; [intros e []|].
        intros St act (act_nil & act_app) F rest st. cbn [Nat.add list_loop]. rewrite (Estep _ _ _ _ eq_refl). cbn [bind rev app].
        rewrite act_nil. reflexivity.
  Qed.

  Lemma box_runs index : exists ord, below 0 ord /\ Permutation ord (iota n)
      /\ forall g, runs (fun rows size => locate_box g bx tree rows size index) (map (pair index) (filter ovl ord)).
  Proof.
    destruct (vt_tree _ Hv) as (S & HT & HS). pose proof (zlen_bbi tree Hv) as Hz. rewrite <- Hz in HT.
    destruct (walk_listed 0 0 (zlen bbi) S HT) as (c & vis & ord & Hc & Ho & Hp & Hf & Hi & Hl); [lia|lia|].
    assert (HcS : (c <= length (nodes tree))%nat) by (rewrite (Permutation_length HS), iota_length in Hc; lia).
    rewrite slice_full in Hp by reflexivity. assert (Hpn : Permutation ord (iota n)) by (rewrite Hp; apply (vt_perm _ Hv)).
    exists ord. split; auto. split; auto. intros g.
    assert (Hfilter : forall l, hits (box_row tree bx index) l = map (pair index) (filter ovl l)).
    { induction l as [|e t IH]; auto. cbn [hits filter]. unfold box_row at 1. unfold ovl at 1.
      destruct (aget bbc e) as [b|]; auto. destruct (boxes_intersect bx b); auto.
      cbn [map]. now rewrite IH. }
    unfold locate_box. destruct (boxes_intersect bx (bbox tree)) eqn:Ebb; cbn [negb].
    - rewrite <- Hf, <- Hfilter. intros pre free. unfold traverse.
      destruct (alloc_rep (gZ g) 0) as (stk & Es & Hstk). rewrite Es. cbn [bind].
      change (collect_visit tree (box_hit tree bx index) (box_children bx)) with (visitW tree (box_children bx) (emit_hits (box_hit tree bx index))).
      rewrite (stack_loop_list _ _ (traverse_fuel tree) stk 1 [0] _ Hstk). unfold traverse_fuel.
      replace (Datatypes.S (length (nodes tree))) with (c + (Datatypes.S (length (nodes tree)) - c))%nat by lia.
      rewrite Hl by (split; [reflexivity|apply emit_hits_app]). rewrite (emit_hits_ok _ (box_row tree bx index) vis); auto.
      + unfold after. destruct (emitted pre free (zlen pre) 0 _); auto. destruct (_ - c)%nat; reflexivity.
      + apply Forall_forall. intros e He. apply box_hit_row; auto. apply Hi in He. apply (Permutation_in _ Hpn) in He. apply iota_in in He. exact He.
    - rewrite filter_none; [intros pre free; apply (runs_nil (fun rows size => Ok (Collect rows size 0))); auto|].
      intros e _. unfold ovl. destruct (aget bbc e) as [b|] eqn:Eb; auto.
      destruct (boxes_intersect bx b) eqn:E; auto. exfalso.
      pose proof (vt_bbox _ Hv) as Hb. rewrite Forall_forall in Hb.
      rewrite (overlap_within bx b (bbox tree)) in Ebb; [discriminate|auto|]. apply Hb. eapply aget_in; eauto.
  Qed.
End Order.

Section Order2.
  Context {T : Type} {NT : Num T} {NO : NumOrd T}.
  Notation box := (box T).

  Definition ovl (tree : celltree T) (bx : box) (e : Z) : bool :=
    match aget (bb_coords tree) e with Ok b => boxes_intersect bx b | Err _ => false end.

  Lemma locate_boxes_order (tree : celltree T) : valid_tree tree ->
    exists ord, listed (nodes tree) (bb_indices tree) 0 ord /\ Permutation ord (iota (length (bb_coords tree)))
      /\ forall boxes g n_chunks, (1 <= n_chunks)%nat -> locate_boxes g boxes tree n_chunks
         = Ok (concat (map (fun ia => map (pair (fst ia)) (snd ia))
                           (combine (iota (length boxes)) (map (fun bx => filter (ovl tree bx) ord) boxes)))).
  Proof.
    intros Hv. destruct (box_runs tree Hv (bbox tree) 0) as (ord & Ho & Hp & _).
    exists ord. split; auto. split; auto. intros boxes.
    set (anss := map (fun bx => filter (ovl tree bx) ord) boxes).
    assert (Hrun : forall bx i g, runs (fun rows size => locate_box g bx tree rows size i) (map (pair i) (filter (ovl tree bx) ord))
                    /\ (length (map (pair i) (filter (ovl tree bx) ord)) < retry_fuel tree)%nat).
    { intros bx i g. destruct (box_runs tree Hv bx i) as (ord' & Ho' & _ & Hr).
      rewrite (C88_order_unique tree 0 ord ord' Ho Ho') at 1. split; [exact (Hr g)|].
      rewrite map_length. unfold retry_fuel. pose proof (filter_length_le (ovl tree bx) ord) as HLe.
      rewrite (Permutation_length Hp), iota_length in HLe. lia. }
    intros g nc Hnc. unfold locate_boxes.
    destruct (chunked_ok (fun c off => locate_boxes_helper g c tree off) (gZZ g)
                  (fun bx i hs => runs (fun rows size => locate_box g bx tree rows size i) hs
                                  /\ (length hs < retry_fuel tree)%nat))
        with (chunks := array_split boxes nc) (off := 0)
             (anss := map (fun ia => map (pair (fst ia)) (snd ia)) (combine (iota (length boxes)) anss))
        as (parts & used & Em & HU & Ec).
    - intros l off anss' HF'. unfold locate_boxes_helper.
      destruct (query_loop_ok (gZZ g)
          (fun bx index indices size => locate_box g bx tree indices size index)
          (retry_fuel tree) l off anss' HF' [] (np_empty (gZZ g) (Nat.max (length l) 256)))
          as (free & E).
      { rewrite np_empty_length. simpl length. lia. }
      exists free. exact E.
    - rewrite array_split_concat by auto. unfold anss.
      assert (HL : length boxes = length (iota (length boxes))) by now rewrite iota_length.
      clear - Hrun HL.
      replace (map (fun k => 0 + k) (iota (length boxes))) with (iota (length boxes)) in *
        by (rewrite <- (map_id (iota (length boxes))) at 1; apply map_ext; intros; lia).
      remember (iota (length boxes)) as ix eqn:E. clear E.
      revert ix HL. induction boxes as [|bx t IH]; intros [|i ix] HL;
        simpl in *; try discriminate; constructor; auto.
    - rewrite Em. cbn [bind]. rewrite (concatenate_ok _ _ _ HU). now rewrite Ec.
  Qed.

  (** element [j] of the tree has a bounding box that overlaps [bx] *)
  Definition overlapping (t : tree2d (T:=T)) (bx : box) (j : Z) : Prop :=
    exists b, 0 <= j /\ nth_error (bb_coords (celltree_data t)) (Z.to_nat j) = Some b /\ strict_overlap bx b.

  Lemma kept_filter (f : Z -> bool) (P : Z -> Prop) l : (forall x, In x l -> (f x = true <-> P x)) -> kept P l (filter f l).
  Proof.
    induction l as [|x l IH]; intros H; cbn [filter]; [constructor|].
    pose proof (H x (or_introl eq_refl)) as Hx. destruct (f x) eqn:E; constructor; try (apply IH; intros; apply H; now right).
    - now apply Hx.
    - intros HP. apply Hx in HP. discriminate.
  Qed.

  (** C88: there is one order of all faces, fixed by the tree, such that locate_boxes lists for each box, in the order
      of the boxes, the faces with overlapping bounding box in that order *)
  Theorem C88_locate_boxes g0 (vs : list (point T)) faces fill nb cpl t :
    mesh_ok vs faces fill -> CellTree2d_init g0 vs faces fill nb cpl = Ok t ->
    exists ord, listed (nodes (celltree_data t)) (bb_indices (celltree_data t)) 0 ord
      /\ Permutation ord (iota (length faces))
      /\ forall boxes, exists found, Forall2 (fun bx js => kept (overlapping t bx) ord js) boxes found
         /\ forall g n_threads, (1 <= n_threads)%nat -> CellTree2d_locate_boxes g n_threads t boxes
             = Ok (concat (map (fun ia => map (pair (fst ia)) (snd ia)) (combine (iota (length boxes)) found))).
  Proof.
    intros Hm E. pose proof (init_built _ _ _ _ _ _ _ Hm E) as Hb. pose proof (built_valid _ _ _ _ _ Hb) as Hv.
    destruct (locate_boxes_order (celltree_data t) Hv) as (ord & Ho & Hp & Hr). exists ord. split; auto.
    split.
    { rewrite Hp. replace (length (bb_coords (celltree_data t))) with (length faces); [reflexivity|].
      symmetry. apply (bt_len _ _ _ _ _ Hb). }
    intros boxes. exists (map (fun bx => filter (ovl (celltree_data t) bx) ord) boxes). split.
    - clear - Hp. induction boxes as [|bx boxes IH]; cbn [map]; constructor; auto.
      apply kept_filter. intros e He. apply (Permutation_in _ Hp) in He. apply iota_in in He. unfold ovl, overlapping.
      destruct (aget_ok_pos (bb_coords (celltree_data t)) e He) as (b & Eb & En). rewrite Eb. rewrite strict_overlap_b. split.
      + intros Hs. exists b. split; [lia|]. auto.
      + intros (b' & _ & En' & Hs). congruence.
    - intros g nt Hn. unfold CellTree2d_locate_boxes. now apply Hr.
  Qed.
End Order2.

(** ** A concrete order, computed *)
Section Compute.
  Context {T : Type} {NT : Num T}.
  Fixpoint list_below (fuel : nat) (nodes : list (node T)) (bbi : list Z) (idx : Z) : option (list Z) :=
    match fuel with
    | O => None
    | S f =>
      if idx <? 0 then None else
      match nth_error nodes (Z.to_nat idx) with
      | None => None
      | Some nd =>
        if nchild nd =? -1 then Some (firstn (Z.to_nat (nsize nd)) (skipn (Z.to_nat (nptr nd)) bbi))
        else match list_below f nodes bbi (nchild nd), list_below f nodes bbi (nchild nd + 1) with
             | Some l, Some r => Some (r ++ l)
             | _, _ => None
             end
      end
    end.

  Lemma list_below_ok fuel nodes bbi : forall idx l, list_below fuel nodes bbi idx = Some l -> listed nodes bbi idx l.
  Proof.
    induction fuel as [|f IH]; intros idx l; cbn [list_below]; [discriminate|].
    destruct (idx <? 0) eqn:E0; [discriminate|]. apply Z.ltb_ge in E0.
    destruct (nth_error nodes (Z.to_nat idx)) as [nd|] eqn:En; [|discriminate].
    destruct (nchild nd =? -1) eqn:Ec.
    - apply Z.eqb_eq in Ec. intros H. assert (X : firstn (Z.to_nat (nsize nd)) (skipn (Z.to_nat (nptr nd)) bbi) = l) by congruence.
      rewrite <- X. now apply LLeaf.
    - apply Z.eqb_neq in Ec.
      destruct (list_below f nodes bbi (nchild nd)) as [a|] eqn:Ea; [|discriminate].
      destruct (list_below f nodes bbi (nchild nd + 1)) as [b|] eqn:Eb; [|discriminate].
      intros H. assert (X : b ++ a = l) by congruence. rewrite <- X. apply (LSplit _ _ idx nd); auto.
  Qed.
End Compute.

(** In binary64: the order of the faces of the example mesh, and the rows of two boxes *)
Theorem C88_example : exists t, mesh_ok (T:=b64) grid grid_faces (-1) /\ CellTree2d_init (T:=b64) g0 grid grid_faces (-1) 4 2 = Ok t
  /\ listed (nodes (celltree_data t)) (bb_indices (celltree_data t)) 0 [5; 6; 2; 3; 4; 0; 1]
  /\ CellTree2d_locate_boxes g0 3 t [Box (Zb 0) (Zb 3) (Zb 0) (Zb 2); Box (Zb 1) (Zb 3) (Zb 0) (Zb 1)]
     = Ok [(0, 5); (0, 6); (0, 2); (0, 3); (0, 4); (0, 0); (0, 1); (1, 2); (1, 1)].
Proof.
  assert (H : match CellTree2d_init (T:=b64) g0 grid grid_faces (-1) 4 2 with
      | Ok t => (list_below 20 (nodes (celltree_data t)) (bb_indices (celltree_data t)) 0,
                 CellTree2d_locate_boxes g0 3 t [Box (Zb 0) (Zb 3) (Zb 0) (Zb 2); Box (Zb 1) (Zb 3) (Zb 0) (Zb 1)])
      | Err e => (None, Err e) end
    = (Some [5; 6; 2; 3; 4; 0; 1], Ok [(0, 5); (0, 6); (0, 2); (0, 3); (0, 4); (0, 0); (0, 1); (1, 2); (1, 1)]))
    by (vm_compute; reflexivity).
  destruct grid_built_B64 as (t & E & _). exists t. split; [exact grid_mesh_B64|]. split; [exact E|].
  rewrite E in H. apply pair_equal_spec in H as (H1 & H2). split; [exact (list_below_ok _ _ _ _ _ H1)|exact H2].
Qed.

Print Assumptions C88_order_unique.
Print Assumptions C88_locate_boxes.
Print Assumptions C88_example.
