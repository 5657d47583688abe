(** Queries on a valid tree: boxes and points, for every number type with
    ordered comparisons. *)
From Verif Require Import Base Num MUtils MGeometry MCreation MAlgorithms MQuery
  PStack PPartition SpecTree PBuild PBuild2 PWalk PCollect SpecQuery.

Lemma iota_length n : length (iota n) = n.
Proof. unfold iota. now rewrite map_length, seq_length. Qed.
Lemma iota_in n i : In i (iota n) <-> 0 <= i < Z.of_nat n.
Proof.
  unfold iota. rewrite in_map_iff. split.
  - intros (k & <- & H). apply in_seq in H. lia.
  - intros H. exists (Z.to_nat i). split; [lia|]. apply in_seq. lia.
Qed.
Lemma iota_nodup n : NoDup (iota n).
Proof.
  unfold iota. apply FinFun.Injective_map_NoDup; [intros x y; apply Nat2Z.inj|apply seq_NoDup].
Qed.

(** a Forall-quantified existence can be collected in a list *)
Lemma Forall2_choose {A B} (P : A -> B -> Prop) l :
  (forall x, In x l -> exists y, P x y) -> exists l', Forall2 P l l'.
Proof.
  induction l as [|x t IH]; intros H.
  - exists []. constructor.
  - destruct (H x (or_introl eq_refl)) as (y & Hy).
    destruct IH as (l' & Hl); [intros; apply H; now right|]. exists (y :: l'). now constructor.
Qed.

Lemma Forall2_impl' {A B} (P Q : A -> B -> Prop) l l' :
  (forall x y, P x y -> Q x y) -> Forall2 P l l' -> Forall2 Q l l'.
Proof. induction 2; constructor; auto. Qed.

Lemma filter_length_le {A} (f : A -> bool) l : (length (filter f l) <= length l)%nat.
Proof. induction l as [|x t IH]; simpl; auto. destruct (f x); simpl; lia. Qed.

Section Queries.
  Context {T : Type} {NT : Num T} {NO : NumOrd T}.
  Notation box := (box T).
  Notation point := (point T).
  Notation node := (node T).
  Notation celltree := (celltree T).

  Variable tree : celltree.
  Hypothesis Hv : valid_tree tree.
  Notation bbc := (bb_coords tree).
  Notation bbi := (bb_indices tree).
  Notation n := (length bbc).

  Lemma zlen_bbi : zlen bbi = zlen bbc.
  Proof.
    unfold zlen. rewrite (Permutation_length (vt_perm _ Hv)), iota_length. reflexivity.
  Qed.

  Lemma bbi_range : Forall (in_range bbc) bbi.
  Proof.
    apply Forall_forall. intros e He. unfold in_range, zlen.
    apply (Permutation_in _ (vt_perm _ Hv)) in He. now apply iota_in in He.
  Qed.

  Lemma traverse_valid children (P : Z -> Prop) :
    (forall nd l e bx, children nd = Ok l -> ~ In (nchild nd) l ->
      aget bbc e = Ok bx -> nleb (side_hi (ndim nd) bx) (nLmax nd) = true -> P e) ->
    (forall nd l e bx, children nd = Ok l -> ~ In (nchild nd + 1) l ->
      aget bbc e = Ok bx -> nleb (nRmin nd) (side_lo (ndim nd) bx) = true -> P e) ->
    (forall i nd, aget (nodes tree) i = Ok nd -> nchild nd <> -1 ->
      exists l, children nd = Ok l /\ good_children l (nchild nd)) ->
    exists vis prn, Permutation (iota n) (vis ++ prn) /\ Forall P prn
      /\ forall (St : Type) (act : list Z -> St -> res (St + St)), seq_act act ->
         forall g st, traverse g tree (visitW tree children act) st =
           match act vis st with
           | Err e => Err e
           | Ok (inl st) => Ok st
           | Ok (inr st) => Ok st
           end.
  Proof.
    intros H3 H4 H5. destruct (vt_tree _ Hv) as (S & HT & HS).
    assert (HT' : TreeAt (nodes tree) bbc bbi 0 0 (zlen bbi) S).
    { rewrite zlen_bbi. exact HT. }
    destruct (traverse_ok tree children P H3 H4 H5 bbi_range S HT')
      as (vis & prn & Hp & HP & Ht).
    { rewrite (Permutation_length HS), iota_length. lia. }
    exists vis, prn. split; [|split; auto].
    rewrite <- Hp. symmetry. apply (vt_perm _ Hv).
  Qed.

  (* ---------------------------------------------------------------- *)
  (** ** boxes *)

  Lemma strict_overlap_b a b : boxes_intersect a b = true <-> strict_overlap a b.
  Proof.
    unfold boxes_intersect, strict_overlap. rewrite !andb_true_iff. tauto.
  Qed.

  Lemma overlap_within a b c : boxes_intersect a b = true -> box_within b c -> boxes_intersect a c = true.
  Proof.
    rewrite !strict_overlap_b. intros (H1 & H2 & H3 & H4) (W1 & W2 & W3 & W4).
    repeat split; eauto using nlt_le_trans, nle_lt_trans.
  Qed.

  (** the rows of query box [bx] *)
  Definition box_row (bx : box) (index e : Z) : option (Z * Z) :=
    match aget bbc e with
    | Ok b => if boxes_intersect bx b then Some (index, e) else None
    | Err _ => None
    end.

  Lemma box_hit_row bx index e : in_range bbc e ->
    box_hit tree bx index e = Ok (box_row bx index e).
  Proof.
    intros He. unfold box_hit, box_row.
    destruct (aget_ok_pos bbc e He) as (b & E & _). rewrite E. reflexivity.
  Qed.

  Lemma runs_nil {A} (run : list A -> Z -> res (collect A)) :
    (forall rows size, run rows size = Ok (Collect rows size 0)) -> runs run [].
  Proof.
    intros H pre free. rewrite H. unfold emitted. simpl. now rewrite Z.add_0_r.
  Qed.

  Lemma collect_runs {A} (hit : Z -> res (option A)) h children (P : Z -> Prop) :
    (forall e, in_range bbc e -> hit e = Ok (h e)) ->
    (forall nd l e bx, children nd = Ok l -> ~ In (nchild nd) l ->
      aget bbc e = Ok bx -> nleb (side_hi (ndim nd) bx) (nLmax nd) = true -> P e) ->
    (forall nd l e bx, children nd = Ok l -> ~ In (nchild nd + 1) l ->
      aget bbc e = Ok bx -> nleb (nRmin nd) (side_lo (ndim nd) bx) = true -> P e) ->
    (forall i nd, aget (nodes tree) i = Ok nd -> nchild nd <> -1 ->
      exists l, children nd = Ok l /\ good_children l (nchild nd)) ->
    (forall e, P e -> h e = None) ->
    exists vis, incl vis (iota n) /\ NoDup vis
      /\ Permutation (hits h vis) (hits h (iota n))
      /\ forall g, runs (fun rows size => traverse g tree (collect_visit tree hit children)
                                           (Collect rows size 0)) (hits h vis).
  Proof.
    intros Hh HL HR Hc HP.
    destruct (traverse_valid children P) as (vis & prn & Hp & HPr & Ht); auto.
    assert (Hin : incl vis (iota n)).
    { intros e He. apply (Permutation_in _ (Permutation_sym Hp)). apply in_or_app. now left. }
    exists vis. split; auto. split; [|split].
    - pose proof (Permutation_NoDup Hp (iota_nodup n)) as HN.
      clear - HN. induction vis as [|x t IH]; constructor; inversion HN; subst; auto.
      intros Hx. apply H1. apply in_or_app. now left.
    - rewrite (hits_perm h _ _ Hp), hits_app.
      rewrite (hits_none h prn), app_nil_r; auto.
      eapply Forall_impl; [|exact HPr]. auto.
    - intros g pre free.
      change (collect_visit tree hit children) with (visitW tree children (emit_hits hit)).
      rewrite Ht by (split; [reflexivity|apply emit_hits_app]). rewrite (emit_hits_ok hit h vis); auto.
      + destruct (emitted pre free (zlen pre) 0 (hits h vis)); reflexivity.
      + apply Forall_forall. intros e He. apply Hh. apply Hin in He. apply iota_in in He. exact He.
  Qed.

  Lemma box_children_good bx (nd : node) :
    exists l, box_children bx nd = Ok l /\ good_children l (nchild nd).
  Proof.
    unfold box_children. eexists; split; [reflexivity|]. unfold good_children.
    destruct (_ && _); auto. destruct (nleb _ _); auto. destruct (nleb _ _); auto.
  Qed.

  Lemma box_children_left bx (nd : node) l :
    box_children bx nd = Ok l -> ~ In (nchild nd) l -> nleb (bmin bx (ndim nd)) (nLmax nd) = false.
  Proof.
    unfold box_children. intros H Hn. inversion H; subst. clear H.
    destruct (nleb (bmin bx (ndim nd)) (nLmax nd)); auto. cbn [andb] in Hn.
    destruct (nleb (nRmin nd) _); exfalso; apply Hn; simpl; auto.
  Qed.
  Lemma box_children_right bx (nd : node) l :
    box_children bx nd = Ok l -> ~ In (nchild nd + 1) l -> nleb (nRmin nd) (bmax bx (ndim nd)) = false.
  Proof.
    unfold box_children. intros H Hn. inversion H; subst. clear H.
    destruct (nleb (nRmin nd) (bmax bx (ndim nd))); auto. rewrite andb_true_r in Hn.
    destruct (nleb _ (nLmax nd)); exfalso; apply Hn; simpl; auto.
  Qed.

  (** Every query box has a list of answers, in an order fixed by the tree,
      which the traversal emits whatever the buffer and the garbage *)
  Lemma locate_box_runs bx index :
    exists js, Permutation js (filter (fun e => match aget bbc e with
                                                | Ok b => boxes_intersect bx b
                                                | Err _ => false end) (iota n))
      /\ forall g, runs (fun rows size => locate_box g bx tree rows size index) (map (pair index) js).
  Proof.
    assert (Hfilter : forall l, hits (box_row bx index) l =
      map (pair index) (filter (fun e => match aget bbc e with
                                         | Ok b => boxes_intersect bx b
                                         | Err _ => false end) l)).
    { induction l as [|e t IH]; auto. cbn [hits filter]. unfold box_row at 1.
      destruct (aget bbc e) as [b|]; auto. destruct (boxes_intersect bx b); auto.
      cbn [map]. now rewrite IH. }
    unfold locate_box. destruct (boxes_intersect bx (bbox tree)) eqn:Ebb; cbn [negb].
    - destruct (collect_runs (box_hit tree bx index) (box_row bx index) (box_children bx)
                  (fun e => box_row bx index e = None)) as (vis & Hin & HN & Hp & Hr); auto.
      + intros e He. now apply box_hit_row.
      + intros nd l e b Hc Hn Eb Hle. apply (box_children_left _ _ _ Hc) in Hn.
        unfold box_row. rewrite Eb. destruct (boxes_intersect bx b) eqn:E; auto. exfalso.
        apply strict_overlap_b in E as (E1 & E2 & E3 & E4).
        assert (Hlt : nltb (bmin bx (ndim nd)) (side_hi (ndim nd) b) = true)
          by (unfold bmin, side_hi; destruct (ndim nd); auto).
        pose proof (nlt_le _ _ (nlt_le_trans _ _ _ Hlt Hle)). congruence.
      + intros nd l e b Hc Hn Eb Hle. apply (box_children_right _ _ _ Hc) in Hn.
        unfold box_row. rewrite Eb. destruct (boxes_intersect bx b) eqn:E; auto. exfalso.
        apply strict_overlap_b in E as (E1 & E2 & E3 & E4).
        assert (Hlt : nltb (side_lo (ndim nd) b) (bmax bx (ndim nd)) = true)
          by (unfold bmax, side_lo; destruct (ndim nd); auto).
        pose proof (nlt_le _ _ (nle_lt_trans _ _ _ Hle Hlt)). congruence.
      + intros i nd _ _. apply box_children_good.
      + rewrite Hfilter in Hr. eexists; split; [|exact Hr].
        rewrite !Hfilter in Hp. apply (Permutation_map snd) in Hp.
        rewrite !map_map in Hp. cbn [snd] in Hp. rewrite !map_id in Hp. exact Hp.
    - exists []. split.
      + assert (Hnone : forall l, filter (fun e => match aget bbc e with
                                         | Ok b => boxes_intersect bx b
                                         | Err _ => false end) l = []).
        { induction l as [|e t IH]; auto. cbn [filter].
          destruct (aget bbc e) as [b|] eqn:Eb; auto.
          destruct (boxes_intersect bx b) eqn:E; auto. exfalso.
          pose proof (vt_bbox _ Hv) as Hb. rewrite Forall_forall in Hb.
          rewrite (overlap_within bx b (bbox tree)) in Ebb; [discriminate|auto|].
          apply Hb. eapply aget_in; eauto. }
        rewrite Hnone. constructor.
      + intros g. simpl map. apply runs_nil. auto.
  Qed.

  (** [answers js bx]: js are, each once, the elements whose box overlaps *)
  Definition box_answers (bx : box) (js : list Z) : Prop :=
    NoDup js /\ forall j, In j js <->
      exists b, 0 <= j /\ nth_error bbc (Z.to_nat j) = Some b /\ strict_overlap bx b.

  Lemma box_answers_filter bx js :
    Permutation js (filter (fun e => match aget bbc e with
                                     | Ok b => boxes_intersect bx b
                                     | Err _ => false end) (iota n)) -> box_answers bx js.
  Proof.
    intros Hp. split.
    - eapply Permutation_NoDup; [symmetry; exact Hp|]. apply NoDup_filter, iota_nodup.
    - intros j. rewrite Hp, filter_In, iota_in.
      split.
      + intros (Hr & E). destruct (aget_ok_pos bbc j Hr) as (b & Eb & En).
        rewrite Eb in E. exists b. split; [lia|]. split; auto. now apply strict_overlap_b.
      + intros (b & H0 & En & Ho). rewrite (aget_pos _ _ _ H0 En).
        split; [|now apply strict_overlap_b].
        assert (Z.to_nat j < n)%nat by (apply nth_error_Some; congruence). lia.
  Qed.

  Theorem locate_boxes_ok boxes :
    exists anss : list (list Z), Forall2 box_answers boxes anss
      /\ forall g n_chunks, (1 <= n_chunks)%nat ->
         locate_boxes g boxes tree n_chunks
         = Ok (concat (map (fun ia => map (pair (fst ia)) (snd ia))
                           (combine (iota (length boxes)) anss))).
  Proof.
    destruct (Forall2_choose
      (fun qi js => Permutation js (filter (fun e => match aget bbc e with
                                                | Ok b => boxes_intersect (fst qi) b
                                                | Err _ => false end) (iota n))
        /\ forall g, runs (fun rows size => locate_box g (fst qi) tree rows size (snd qi))
                (map (pair (snd qi)) js)) (combine boxes (map (fun k => 0 + k) (iota (length boxes)))))
      as (anss & HF).
    { intros (bx & i) _. apply locate_box_runs. }
    exists anss. split.
    - assert (HL : length boxes = length (map (fun k => 0 + k) (iota (length boxes))))
        by now rewrite map_length, iota_length.
      clear - HF HL. remember (map (fun k => 0 + k) (iota (length boxes))) as ix eqn:E. clear E.
      revert ix HL anss HF. induction boxes as [|bx t IH]; intros [|i ix] HL anss HF;
        simpl in *; try discriminate; inversion HF; subst; constructor; eauto.
      destruct H1 as (Hp & _). cbn [fst] in Hp. now apply box_answers_filter.
    - intros g nc Hnc. unfold locate_boxes.
      destruct (chunked_ok (fun c off => locate_boxes_helper g c tree off) (gZZ g)
                  (fun bx i hs => runs (fun rows size => locate_box g bx tree rows size i) hs
                                  /\ (length hs < retry_fuel tree)%nat))
        with (chunks := array_split boxes nc) (off := 0)
             (anss := map (fun ia => map (pair (fst ia)) (snd ia)) (combine (iota (length boxes)) anss))
        as (parts & used & Em & HU & Ec).
      + intros l off anss' HF'. unfold locate_boxes_helper.
        destruct (query_loop_ok (gZZ g)
          (fun bx index indices size => locate_box g bx tree indices size index)
          (retry_fuel tree) l off anss' HF' [] (np_empty (gZZ g) (Nat.max (length l) 256)))
          as (free & E).
        { rewrite np_empty_length. simpl length. lia. }
        exists free. exact E.
      + rewrite array_split_concat by auto.
        assert (HL : length boxes = length (iota (length boxes))) by now rewrite iota_length.
        clear - HF HL.
        replace (map (fun k => 0 + k) (iota (length boxes))) with (iota (length boxes)) in *
          by (rewrite <- (map_id (iota (length boxes))) at 1; apply map_ext; intros; lia).
        remember (iota (length boxes)) as ix eqn:E. clear E.
        revert ix HL anss HF. induction boxes as [|bx t IH]; intros [|i ix] HL anss HF;
          simpl in *; try discriminate; inversion HF; subst; constructor; auto.
        destruct H1 as (Hp & Hr). cbn [fst snd] in *. split; auto.
        rewrite map_length, (Permutation_length Hp).
        unfold retry_fuel. pose proof (filter_length_le (fun e => match aget bbc e with
                         | Ok b => boxes_intersect bx b
                         | Err _ => false end) (iota n)) as HLe.
        rewrite iota_length in HLe. lia.
      + rewrite Em. cbn [bind]. rewrite (concatenate_ok _ _ _ HU). now rewrite Ec.
  Qed.

  (* ---------------------------------------------------------------- *)
  (** ** points *)

  Definition find_act (test : Z -> res bool) (l : list Z) (st : Z) : res (Z + Z) :=
    let* h := first_hit test l in
    match h with Some i => Ok (inl i) | None => Ok (inr st) end.

  Lemma first_hit_app test l1 l2 :
    first_hit test (l1 ++ l2) =
    match first_hit test l1 with
    | Err e => Err e
    | Ok (Some i) => Ok (Some i)
    | Ok None => first_hit test l2
    end.
  Proof.
    induction l1 as [|i t IH]; auto. cbn [app first_hit].
    destruct (test i) as [[|]|]; cbn [bind]; auto.
  Qed.

  Lemma point_visit_W test p i st :
    point_visit tree test p i st
    = visitW tree (fun nd => Ok (point_children p nd)) (find_act test) i st.
  Proof.
    unfold point_visit, visitW, find_act. destruct (aget (nodes tree) i) as [nd|]; auto.
    cbn [bind]. destruct (nchild nd =? -1); auto.
    destruct (leaf_items tree nd) as [items|]; auto. cbn [bind].
    destruct (first_hit test items) as [[j|]|]; auto.
  Qed.

  Lemma point_children_good p (nd : node) : good_children (point_children p nd) (nchild nd).
  Proof.
    unfold point_children, good_children.
    destruct (nleb _ _); destruct (nleb _ _); cbn [andb]; auto.
    destruct (nltb _ _); auto.
  Qed.
  Lemma point_children_left p (nd : node) :
    ~ In (nchild nd) (point_children p nd) -> nleb (pcoord p (ndim nd)) (nLmax nd) = false.
  Proof.
    unfold point_children. destruct (nleb (pcoord p (ndim nd)) (nLmax nd)); auto.
    intros H. exfalso. apply H. destruct (nleb (nRmin nd) _); cbn [andb].
    - destruct (nltb _ _); simpl; auto.
    - simpl; auto.
  Qed.
  Lemma point_children_right p (nd : node) :
    ~ In (nchild nd + 1) (point_children p nd) -> nleb (nRmin nd) (pcoord p (ndim nd)) = false.
  Proof.
    unfold point_children. destruct (nleb (nRmin nd) (pcoord p (ndim nd))); auto.
    intros H. exfalso. apply H. destruct (nleb _ (nLmax nd)); cbn [andb].
    - destruct (nltb _ _); simpl; auto.
    - simpl; auto.
  Qed.

  (** A point query tests elements in an order fixed by tree and point; the
      skipped elements have bounding boxes that do not contain the point. *)
  Theorem point_query p :
    exists vis prn, Permutation (iota n) (vis ++ prn)
      /\ Forall (fun e => forall b, aget bbc e = Ok b -> ~ in_closed_box p b) prn
      /\ forall g test, traverse g tree (point_visit tree test p) (-1)
           = match first_hit test vis with
             | Err e => Err e
             | Ok (Some i) => Ok i
             | Ok None => Ok (-1)
             end.
  Proof.
    assert (HpL : forall nd l e bx, Ok (point_children p nd) = Ok l -> ~ In (nchild nd) l ->
      aget bbc e = Ok bx -> nleb (side_hi (ndim nd) bx) (nLmax nd) = true ->
      forall b, aget bbc e = Ok b -> ~ in_closed_box p b).
    { intros nd l e bx El Hn Eb Hle b Eb' (H1 & H2 & H3 & H4). inversion El; subst l.
      apply point_children_left in Hn. rewrite Eb in Eb'; inversion Eb'; subst b.
      assert (H : nleb (pcoord p (ndim nd)) (side_hi (ndim nd) bx) = true)
        by (unfold pcoord, side_hi; destruct (ndim nd); auto).
      pose proof (nle_trans _ _ _ H Hle). congruence. }
    assert (HpR : forall nd l e bx, Ok (point_children p nd) = Ok l -> ~ In (nchild nd + 1) l ->
      aget bbc e = Ok bx -> nleb (nRmin nd) (side_lo (ndim nd) bx) = true ->
      forall b, aget bbc e = Ok b -> ~ in_closed_box p b).
    { intros nd l e bx El Hn Eb Hle b Eb' (H1 & H2 & H3 & H4). inversion El; subst l.
      apply point_children_right in Hn. rewrite Eb in Eb'; inversion Eb'; subst b.
      assert (H : nleb (side_lo (ndim nd) bx) (pcoord p (ndim nd)) = true)
        by (unfold pcoord, side_lo; destruct (ndim nd); auto).
      pose proof (nle_trans _ _ _ Hle H). congruence. }
    destruct (traverse_valid (fun nd => Ok (point_children p nd))
      (fun e => forall b, aget bbc e = Ok b -> ~ in_closed_box p b) HpL HpR)
      as (vis & prn & Hp & HPr & Ht).
    { intros i nd _ _. eexists; split; [reflexivity|apply point_children_good]. }
    exists vis, prn. split; auto. split; auto. intros g test.
    unfold traverse. destruct (aset (allocate_stack (gZ g)) 0 0) as [stk|] eqn:Es.
    - cbn [bind].
      rewrite (stack_loop_ext _ _ _ (point_visit_W test p)).
      specialize (Ht Z (find_act test)).
      assert (Hact : seq_act (find_act test)).
      { split; [reflexivity|]. intros l1 l2 st. unfold find_act. rewrite first_hit_app.
        destruct (first_hit test l1) as [[j|]|]; auto. }
      specialize (Ht Hact g (-1)). unfold traverse in Ht. rewrite Es in Ht. cbn [bind] in Ht.
      rewrite Ht. unfold find_act. destruct (first_hit test vis) as [[j|]|]; auto.
    - destruct (alloc_rep (gZ g) 0) as (stk & Es' & _). congruence.
  Qed.

  Lemma first_hit_some test l i :
    first_hit test l = Ok (Some i) -> In i l /\ test i = Ok true.
  Proof.
    induction l as [|x t IH]; cbn [first_hit]; [discriminate|].
    destruct (test x) as [[|]|] eqn:E; cbn [bind]; try discriminate.
    - intros H. inversion H; subst. split; auto. now left.
    - intros H. destruct (IH H). split; auto. now right.
  Qed.
  Lemma first_hit_none test l :
    first_hit test l = Ok None -> Forall (fun i => test i = Ok false) l.
  Proof.
    induction l as [|x t IH]; cbn [first_hit]; [constructor|].
    destruct (test x) as [[|]|] eqn:E; cbn [bind]; try discriminate. auto.
  Qed.
  Lemma first_hit_total test l :
    Forall (fun i => exists b, test i = Ok b) l -> exists r, first_hit test l = Ok r.
  Proof.
    induction 1 as [|x t (b & E) _ IH]; cbn [first_hit]; [eauto|].
    rewrite E. cbn [bind]. destruct b; eauto.
  Qed.
End Queries.
