(** Property theorems: point queries answer with the first element in the order of the search (C87). *)
From Verif Require Import Base Num MUtils MGeometry MCreation MAlgorithms MQuery MCelltree
  PStack PPartition SpecTree PBuild PBuild2 PWalk PCollect SpecQuery SpecApi SpecVisit PQuery PMesh PInit PPoints PApi.
From Verif Require Import NumR NumB64 NumSub Examples PropTree.
Open Scope Z_scope.

Section Search.
  Context {T : Type} {NT : Num T} {NO : NumOrd T} {NS : NumSub T}.
  Variable tree : celltree T.
  Variable p : point T.
  Notation bbc := (bb_coords tree).
  Notation bbi := (bb_indices tree).
  Notation ordered := (searched (nodes tree) bbi p).

  Lemma walk_order idx lo hi S : TreeAt (nodes tree) bbc bbi idx lo hi S -> 0 <= lo -> hi <= zlen bbi ->
    exists c vis, (c <= length S)%nat /\ ordered idx vis
      /\ forall (St : Type) (act : list Z -> St -> res (St + St)), seq_act act ->
         forall F rest st, list_loop (visitW tree (fun nd => Ok (point_children p nd)) act) (c + F) (idx :: rest) st
           = after tree (fun nd => Ok (point_children p nd)) act F rest (act vis st).
  Proof.
    induction 1 as [idx lo hi nd H0 E Hc Hp Hs Hlt|
                    idx lo mid hi nd c S1 S2 H0 E Hc Hlt Hp Hs HL HR HLa HRa H1 IH1 H2 IH2];
      intros Hlo Hhi.
    - exists 1%nat, (slice bbi lo hi). split; [simpl; lia|]. split.
      + unfold slice. rewrite <- Hs, <- Hp. apply SLeaf; auto. now apply aget_pos_inv.
      + intros St act (act_nil & act_app) F rest st. cbn [Nat.add list_loop]. unfold visitW at 1. rewrite E. cbn [bind].
        rewrite Hc. cbn [Z.eqb Pos.eqb]. rewrite (leaf_items_ok tree nd lo hi) by (auto; lia). cbn [bind].
        destruct (act (slice bbi lo hi) st) as [[st'|st']|e]; reflexivity.
    - assert (Hlm : lo < mid) by (eapply TreeAt_lt; eauto).
      assert (Hmh : mid < hi) by (eapply TreeAt_lt; eauto).
      destruct IH1 as (c1 & v1 & Hc1 & O1 & Hl1); [lia|lia|].
      destruct IH2 as (c2 & v2 & Hc2 & O2 & Hl2); [lia|lia|].
      pose proof (aget_pos_inv _ _ _ H0 E) as En. assert (Hne : nchild nd <> -1) by lia.
      assert (Estep : forall (St : Type) (act : list Z -> St -> res (St + St)) st,
                 visitW tree (fun nd => Ok (point_children p nd)) act idx st = Ok (Next st (point_children p nd))).
      { intros St act st. unfold visitW. rewrite E. cbn [bind].
        destruct (nchild nd =? -1) eqn:E1; [lia|]. reflexivity. }
      assert (Hlen : length (idx :: S1 ++ S2) = Datatypes.S (length S1 + length S2))
        by (simpl; now rewrite app_length).
      rewrite Hlen. rewrite <- Hc in O1, O2, Hl1, Hl2. clear Hlen.
      unfold point_children in Estep. change (pcoord p (ndim nd)) with (along p nd) in Estep.
      destruct (nleb (along p nd) (nLmax nd)) eqn:L; destruct (nleb (nRmin nd) (along p nd)) eqn:R; cbn [andb] in Estep.
      + destruct (nltb (nsub (nLmax nd) (along p nd)) (nsub (along p nd) (nRmin nd))) eqn:D.
        * exists (Datatypes.S (c2 + c1)), (v2 ++ v1). split; [lia|]. split; [eapply SRightFirst; eauto|].
          intros St act Hact F rest st. pose proof Hact as (act_nil & act_app). cbn [Nat.add list_loop]. rewrite Estep. cbn [bind rev app].
          replace (c2 + c1 + F)%nat with (c2 + (c1 + F))%nat by lia.
          rewrite Hl2 by auto. unfold after at 1. rewrite act_app. destruct (act v2 st) as [[st1|st1]|e]; auto.
        * exists (Datatypes.S (c1 + c2)), (v1 ++ v2). split; [lia|].
          split; [eapply SLeftFirst; eauto; unfold deeper_right; congruence|].
          intros St act Hact F rest st. pose proof Hact as (act_nil & act_app). cbn [Nat.add list_loop]. rewrite Estep. cbn [bind rev app].
          replace (c1 + c2 + F)%nat with (c1 + (c2 + F))%nat by lia.
          rewrite Hl1 by auto. unfold after at 1. rewrite act_app. destruct (act v1 st) as [[st1|st1]|e]; auto.
      + exists (Datatypes.S c1), v1. split; [lia|]. split; [eapply SLeft; eauto; unfold reaches_right; congruence|].
        intros St act Hact F rest st. cbn [Nat.add list_loop]. rewrite Estep. cbn [bind rev app]. now apply Hl1.
      + exists (Datatypes.S c2), v2. split; [lia|]. split; [eapply SRight; eauto; unfold reaches_left; congruence|].
        intros St act Hact F rest st. cbn [Nat.add list_loop]. rewrite Estep. cbn [bind rev app]. now apply Hl2.
      + exists 1%nat, []. split; [lia|]. split; [eapply SNone; eauto; unfold reaches_left, reaches_right; congruence|].
        intros St act (act_nil & act_app) F rest st. cbn [Nat.add list_loop]. rewrite Estep. cbn [bind rev app]. rewrite act_nil. reflexivity.
  Qed.

  (** the order is determined by the tree and the point *)
  Theorem C87_order_unique idx l l' : ordered idx l -> ordered idx l' -> l = l'.
  Proof.
    intros H. revert l'. induction H; intros l' H'; inversion H'; subst;
      match goal with A : nth_error _ _ = Some ?a, B : nth_error _ _ = Some ?b |- _ => assert (a = b) by congruence; subst; clear B end;
      try contradiction; try congruence; f_equal; auto.
  Qed.

  Hypothesis Hv : valid_tree tree.

  Lemma traverse_order : exists vis, ordered 0 vis /\ incl vis (iota (length bbc))
    /\ forall g test, traverse g tree (point_visit tree test p) (-1)
         = match first_hit test vis with Err e => Err e | Ok (Some i) => Ok i | Ok None => Ok (-1) end.
  Proof.
    destruct (vt_tree _ Hv) as (S & HT & HS). pose proof (zlen_bbi tree Hv) as Hz. rewrite <- Hz in HT.
    destruct (walk_order 0 0 (zlen bbi) S HT) as (c & vis & Hc & Ho & Hl); [lia|lia|].
    assert (HcS : (c <= length (nodes tree))%nat) by (rewrite (Permutation_length HS), iota_length in Hc; lia).
    exists vis. split; auto. split.
    - intros e He. apply (Permutation_in _ (vt_perm _ Hv)).
      clear - Ho He. induction Ho; auto; try (apply in_app_or in He as [He|He]; auto; fail); [|destruct He].
      assert (X : forall n m (l : list Z), In e (firstn n (skipn m l)) -> In e l).
      { clear. intros n m l H. rewrite <- (firstn_skipn m l). apply in_or_app. right.
        rewrite <- (firstn_skipn n (skipn m l)). apply in_or_app. now left. }
      eapply X; eauto.
    - intros g test. unfold traverse. destruct (alloc_rep (gZ g) 0) as (stk & Es & Hstk). rewrite Es. cbn [bind].
      rewrite (stack_loop_ext _ _ _ (point_visit_W tree test p)).
      rewrite (stack_loop_list _ _ (traverse_fuel tree) stk 1 [0] _ Hstk). unfold traverse_fuel.
      replace (Datatypes.S (length (nodes tree))) with (c + (Datatypes.S (length (nodes tree)) - c))%nat by lia.
      rewrite Hl.
      + unfold after, find_act. destruct (first_hit test vis) as [[j|]|e]; cbn [bind]; auto. destruct (_ - c)%nat; reflexivity.
      + split; [reflexivity|]. intros l1 l2 st. unfold find_act. rewrite first_hit_app.
        destruct (first_hit test l1) as [[j|]|]; auto.
  Qed.
End Search.

Section Search2.
  Context {T : Type} {NT : Num T} {NO : NumOrd T} {NS : NumSub T}.
  Notation point := (point T).

  Lemma order_answer (t : celltree T) p (test : garbage T -> Z -> res bool) (passes : Z -> Prop) :
    valid_tree t ->
    (forall j, in_range (bb_coords t) j -> exists b, (forall g, test g j = Ok b) /\ (b = true <-> passes j)) ->
    exists j vis, (forall g, traverse g t (point_visit t (test g) p) (-1) = Ok j)
      /\ searched (nodes t) (bb_indices t) p 0 vis /\ first_of passes vis j.
  Proof.
    intros Hv Htest. destruct (traverse_order t p Hv) as (vis & Ho & Hi & Ht).
    assert (Hin : forall j, In j vis -> in_range (bb_coords t) j).
    { intros j Hj. unfold in_range, zlen. apply iota_in. now apply Hi. }
    assert (Hr : exists r, (forall g, first_hit (test g) vis = Ok r)
       /\ match r with Some j => exists pre post, vis = pre ++ j :: post /\ passes j /\ Forall (fun i => ~ passes i) pre
          | None => Forall (fun j => ~ passes j) vis end).
    { clear - Htest Hin. induction vis as [|j vis IH].
      - exists None. split; auto.
      - destruct (Htest j (Hin j (or_introl eq_refl))) as (b & E & Hb). destruct b.
        + exists (Some j). split; [|exists [], vis; repeat split; [now apply Hb|constructor]].
          intros g. cbn [first_hit]. rewrite E. reflexivity.
        + assert (Hnj : ~ passes j) by (intros HH; apply Hb in HH; discriminate).
          destruct IH as (r & Er & Hr); [intros; apply Hin; now right|].
          exists r. split.
          * intros g. cbn [first_hit]. rewrite E. cbn [bind]. apply Er.
          * destruct r as [i|]; [|constructor; auto].
            destruct Hr as (pre & post & -> & Hp & Hf). exists (j :: pre), post. repeat split; auto. }
    destruct Hr as (r & Er & Hr). destruct r as [j|].
    - exists j, vis. split; [|split; auto; now left]. intros g. rewrite Ht, Er. reflexivity.
    - exists (-1), vis. split; [|split; auto; right; auto]. intros g. rewrite Ht, Er. reflexivity.
  Qed.

  Lemma locate_point_order (t : celltree T) p tol : mesh_tree t ->
    exists j vis, (forall g, locate_point g p t tol = Ok j)
      /\ searched (nodes t) (bb_indices t) p 0 vis /\ first_of (face_passes t p tol) vis j.
  Proof.
    intros Hm. unfold locate_point.
    apply (order_answer t p (fun g => face_test g t p tol) (face_passes t p tol)).
    - apply Hm.
    - intros j Hj. destruct (face_test_ok (Garbage T (fun _ _ => 0) (fun _ _ => (0,0)) (fun _ _ => (0,0,0))
          (fun _ _ => p) (fun _ _ => create_node 0 0 false) (fun _ _ => bbox t) (fun _ _ => (None, None)))
          t p tol j Hm Hj) as (f & poly & En & Hp & H3 & _).
      destruct (pip_total p poly tol) as (b & Eb).
      { destruct poly; simpl in *; [lia|congruence]. }
      { apply (poly_fin (vertices t) f); auto. apply Hm. }
      exists b. split.
      + intros g. destruct (face_test_ok g t p tol j Hm Hj) as (f' & poly' & En' & Hp' & _ & Ef).
        rewrite En in En'. inversion En'; subst f'.
        rewrite (poly_of_fun _ _ _ _ Hp' Hp) in Ef. now rewrite Ef.
      + split.
        * intros ->. exists f, poly. unfold in_range in Hj. repeat split; auto. lia.
        * intros (f' & poly' & _ & En' & Hp' & Eb'). rewrite En in En'. inversion En'; subst f'.
          rewrite (poly_of_fun _ _ _ _ Hp' Hp) in Eb'. congruence.
  Qed.

  Lemma locate_point_on_edge_order (t : celltree T) gt p tol : network_tree gt t ->
    exists j vis, (forall g, locate_point_on_edge g p t tol = Ok j)
      /\ searched (nodes t) (bb_indices t) p 0 vis /\ first_of (edge_passes t p tol) vis j.
  Proof.
    intros Hm. unfold locate_point_on_edge.
    apply (order_answer t p (fun g => edge_test g t p tol) (edge_passes t p tol)).
    - apply Hm.
    - intros j Hj. destruct (edge_test_ok (Garbage T (fun _ _ => 0) (fun _ _ => (0,0)) (fun _ _ => (0,0,0))
          (fun _ _ => p) (fun _ _ => create_node 0 0 false) (fun _ _ => bbox t) (fun _ _ => (None, None)))
          t gt p tol j Hm Hj) as (e & v0 & v1 & En & He & _).
      destruct (point_on_edge_total p v0 v1 tol) as (b & Eb).
      exists b. split.
      + intros g. destruct (edge_test_ok g t gt p tol j Hm Hj) as (e' & w0 & w1 & En' & He' & Ef).
        rewrite En in En'. inversion En'; subst e'.
        destruct (edge_of_fun _ _ _ _ _ _ He He') as (<- & <-). now rewrite Ef.
      + split.
        * intros ->. exists e, v0, v1. unfold in_range in Hj. repeat split; auto. lia.
        * intros (e' & w0 & w1 & _ & En' & He' & Eb'). rewrite En in En'. inversion En'; subst e'.
          destruct (edge_of_fun _ _ _ _ _ _ He He') as (<- & <-). congruence.
  Qed.

  (** C87: CellTree2d.locate_points answers with the first face of the search order that passes the point test *)
  Theorem C87_locate_points g0 (vs : list point) faces fill nb cpl t tolerance :
    mesh_ok vs faces fill -> CellTree2d_init g0 vs faces fill nb cpl = Ok t ->
    exists tol, get_tolerance t tolerance = Ok tol
      /\ forall points, exists js,
          (forall g, CellTree2d_locate_points g t points tolerance = Ok js)
          /\ Forall2 (fun p j => exists vis,
                searched (nodes (celltree_data t)) (bb_indices (celltree_data t)) p 0 vis
                /\ first_of (face_passes (celltree_data t) p tol) vis j) points js.
  Proof.
    intros Hm E. pose proof (init_built _ _ _ _ _ _ _ Hm E) as Hb. pose proof (built_valid _ _ _ _ _ Hb) as Hv.
    destruct (get_tolerance_ok t tolerance (bt_dist _ _ _ _ _ Hb) Hv) as (tol & Et).
    exists tol. split; auto. intros points.
    destruct (Forall2_choose (fun p j => (forall g, locate_point g p (celltree_data t) tol = Ok j)
       /\ exists vis, searched (nodes (celltree_data t)) (bb_indices (celltree_data t)) p 0 vis
                /\ first_of (face_passes (celltree_data t) p tol) vis j) points) as (js & HF).
    { intros p _. destruct (locate_point_order (celltree_data t) p tol (bt_mesh _ _ _ _ _ Hb)) as (j & vis & Ej & Hs & Hf).
      exists j. split; eauto. }
    exists js. split.
    - intros g. unfold CellTree2d_locate_points. rewrite Et. cbn [bind].
      apply mapres_ok. eapply Forall2_impl'; [|exact HF]. intros p j (H & _). apply H.
    - eapply Forall2_impl'; [|exact HF]. intros p j (_ & H). exact H.
  Qed.

  (** C87: the same for the edges of a network *)
  Theorem C87_edge_points g0 (vs : list point) edges nb cpl t tolerance :
    network_ok vs edges -> EdgeCellTree2d_init g0 vs edges nb cpl = Ok t ->
    exists tol, get_tolerance t tolerance = Ok tol
      /\ forall points, exists js,
          (forall g, EdgeCellTree2d_locate_points g t points tolerance = Ok js)
          /\ Forall2 (fun p j => exists vis,
                searched (nodes (celltree_data t)) (bb_indices (celltree_data t)) p 0 vis
                /\ first_of (edge_passes (celltree_data t) p tol) vis j) points js.
  Proof.
    intros Hm E. pose proof (init_built_edges _ _ _ _ _ _ Hm E) as Hb. pose proof (built_edges_valid _ _ _ _ Hb) as Hv.
    destruct (get_tolerance_ok t tolerance (be_dist _ _ _ _ Hb) Hv) as (tol & Et).
    exists tol. split; auto. intros points. destruct (be_net _ _ _ _ Hb) as (gt & _ & Hnet).
    destruct (Forall2_choose (fun p j => (forall g, locate_point_on_edge g p (celltree_data t) tol = Ok j)
       /\ exists vis, searched (nodes (celltree_data t)) (bb_indices (celltree_data t)) p 0 vis
                /\ first_of (edge_passes (celltree_data t) p tol) vis j) points) as (js & HF).
    { intros p _. destruct (locate_point_on_edge_order (celltree_data t) gt p tol Hnet) as (j & vis & Ej & Hs & Hf).
      exists j. split; eauto. }
    exists js. split.
    - intros g. unfold EdgeCellTree2d_locate_points. rewrite Et. cbn [bind].
      apply mapres_ok. eapply Forall2_impl'; [|exact HF]. intros p j (H & _). apply H.
    - eapply Forall2_impl'; [|exact HF]. intros p j (_ & H). exact H.
  Qed.
End Search2.

(** ** Concrete orders, computed *)
Section Compute.
  Context {T : Type} {NT : Num T}.
  Fixpoint search_list (fuel : nat) (nodes : list (node T)) (bbi : list Z) (p : point T) (idx : Z) : option (list Z) :=
    match fuel with
    | O => None
    | S f =>
      if idx <? 0 then None else
      match nth_error nodes (Z.to_nat idx) with
      | None => None
      | Some nd =>
        if nchild nd =? -1 then Some (firstn (Z.to_nat (nsize nd)) (skipn (Z.to_nat (nptr nd)) bbi))
        else match nleb (along p nd) (nLmax nd), nleb (nRmin nd) (along p nd) with
        | true, true =>
            match search_list f nodes bbi p (nchild nd), search_list f nodes bbi p (nchild nd + 1) with
            | Some l, Some r => Some (if nltb (nsub (nLmax nd) (along p nd)) (nsub (along p nd) (nRmin nd)) then r ++ l else l ++ r)
            | _, _ => None
            end
        | true, false => search_list f nodes bbi p (nchild nd)
        | false, true => search_list f nodes bbi p (nchild nd + 1)
        | false, false => Some []
        end
      end
    end.

  Lemma search_list_ok fuel nodes bbi p : forall idx l, search_list fuel nodes bbi p idx = Some l -> searched nodes bbi p idx l.
  Proof.
    induction fuel as [|f IH]; intros idx l; cbn [search_list]; [discriminate|].
    destruct (idx <? 0) eqn:E0; [discriminate|]. apply Z.ltb_ge in E0.
    destruct (nth_error nodes (Z.to_nat idx)) as [nd|] eqn:En; [|discriminate].
    destruct (nchild nd =? -1) eqn:Ec.
    - apply Z.eqb_eq in Ec. intros H. assert (X : firstn (Z.to_nat (nsize nd)) (skipn (Z.to_nat (nptr nd)) bbi) = l) by congruence.
      rewrite <- X. now apply SLeaf.
    - apply Z.eqb_neq in Ec.
      destruct (nleb (along p nd) (nLmax nd)) eqn:L; destruct (nleb (nRmin nd) (along p nd)) eqn:R.
      + destruct (search_list f nodes bbi p (nchild nd)) as [a|] eqn:Ea; [|discriminate].
        destruct (search_list f nodes bbi p (nchild nd + 1)) as [b|] eqn:Eb; [|discriminate].
        apply IH in Ea. apply IH in Eb.
        destruct (nltb _ _) eqn:D; intros H.
        * assert (X : b ++ a = l) by congruence. rewrite <- X. now apply (SRightFirst _ _ _ idx nd).
        * assert (X : a ++ b = l) by congruence. rewrite <- X. apply (SLeftFirst _ _ _ idx nd); auto. unfold deeper_right. congruence.
      + intros H. apply (SLeft _ _ _ idx nd); auto. unfold reaches_right. congruence.
      + intros H. apply (SRight _ _ _ idx nd); auto. unfold reaches_left. congruence.
      + intros H. assert (X : [] = l) by congruence. rewrite <- X. apply (SNone _ _ _ idx nd); auto; unfold reaches_left, reaches_right; congruence.
  Qed.
End Compute.

(** In binary64: at (2, 1) the faces of the left half are looked at first; on the network the edges of the right
    half are looked at first at (2, 0), where the point is deeper in the right half, and last at (1, 0). The answers
    are the first elements that pass. *)
Theorem C87_example :
  (exists t, mesh_ok (T:=b64) grid grid_faces (-1) /\ CellTree2d_init (T:=b64) g0 grid grid_faces (-1) 4 2 = Ok t
     /\ searched (nodes (celltree_data t)) (bb_indices (celltree_data t)) (Pt (Zb 2) (Zb 1)) 0 [0; 1; 3; 4; 2; 5; 6]
     /\ CellTree2d_locate_points g0 t [Pt (Zb 2) (Zb 1)] None = Ok [1])
  /\ (exists t, network_ok (T:=b64) grid pipes /\ EdgeCellTree2d_init (T:=b64) g0 grid pipes 4 2 = Ok t
     /\ searched (nodes (celltree_data t)) (bb_indices (celltree_data t)) (Pt (Zb 2) (Zb 0)) 0 [3; 4; 2]
     /\ searched (nodes (celltree_data t)) (bb_indices (celltree_data t)) (Pt (Zb 1) (Zb 0)) 0 [0; 1; 2]
     /\ searched (nodes (celltree_data t)) (bb_indices (celltree_data t)) (Pt (Zb 2) (Zb 1)) 0 [3; 4; 2]
     /\ EdgeCellTree2d_locate_points g0 t [Pt (Zb 1) (Zb 0); Pt (Zb 2) (Zb 1)] None = Ok [0; 3]).
Proof.
  split.
  - assert (H : match CellTree2d_init (T:=b64) g0 grid grid_faces (-1) 4 2 with
      | Ok t => (search_list 20 (nodes (celltree_data t)) (bb_indices (celltree_data t)) (Pt (Zb 2) (Zb 1)) 0,
                 CellTree2d_locate_points g0 t [Pt (Zb 2) (Zb 1)] None)
      | Err e => (None, Err e) end = (Some [0; 1; 3; 4; 2; 5; 6], Ok [1])) by (vm_compute; reflexivity).
    destruct grid_built_B64 as (t & E & _). exists t. split; [exact grid_mesh_B64|]. split; [exact E|].
    rewrite E in H. apply pair_equal_spec in H as (H1 & H2). split; [exact (search_list_ok _ _ _ _ _ _ H1)|exact H2].
  - assert (H : match EdgeCellTree2d_init (T:=b64) g0 grid pipes 4 2 with
      | Ok t => (map (fun q => search_list 20 (nodes (celltree_data t)) (bb_indices (celltree_data t)) q 0)
                   [Pt (Zb 2) (Zb 0); Pt (Zb 1) (Zb 0); Pt (Zb 2) (Zb 1)],
                 EdgeCellTree2d_locate_points g0 t [Pt (Zb 1) (Zb 0); Pt (Zb 2) (Zb 1)] None)
      | Err e => ([], Err e) end = ([Some [3; 4; 2]; Some [0; 1; 2]; Some [3; 4; 2]], Ok [0; 3])) by (vm_compute; reflexivity).
    destruct pipes_built_B64 as (t & E & _). exists t. split; [exact pipes_network_B64|]. split; [exact E|].
    rewrite E in H. apply pair_equal_spec in H as (H1 & H2). cbn [map] in H1.
    assert (K : forall A (a b c a' b' c' : A), [a; b; c] = [a'; b'; c'] -> a = a' /\ b = b' /\ c = c')
      by (intros A a b c a' b' c' X; inversion X; auto).
    apply K in H1 as (Ha & Hb & Hc).
    repeat split; try (eapply search_list_ok; eassumption). exact H2.
Qed.

Print Assumptions C87_order_unique.
Print Assumptions C87_locate_points.
Print Assumptions C87_edge_points.
Print Assumptions C87_example.
