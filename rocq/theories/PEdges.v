(** Edge queries: chunks, threads, retries; independent of the number type. *)
From Verif Require Import Base Num MUtils MGeometry MCreation MAlgorithms MQuery
  PStack PPartition SpecTree PBuild PWalk PCollect SpecQuery PQuery.
From Coq Require Import Sorted.
Open Scope Z_scope.

Lemma sorted_app_const (k : Z) l1 l2 : Forall (fun x => x = k) l1 -> Forall (fun x => k <= x) l2 ->
  StronglySorted Z.le l2 -> StronglySorted Z.le (l1 ++ l2).
Proof.
  intros H1 H2 S. induction l1 as [|x t IHt]; [exact S|]. inversion H1; subst. cbn [app]. constructor; auto.
  apply Forall_app. split; auto. eapply Forall_impl; [|exact H4]. intros; simpl in *; lia.
Qed.

Section Edges.
  Context {T : Type} {NT : Num T} {NO : NumOrd T}.
  Notation point := (point T).
  Notation cd := (option point * option point)%type.
  Variable tree : celltree T.
  Hypothesis Hv : valid_tree tree.
  Notation bbc := (bb_coords tree).
  Notation n := (length (bb_coords tree)).

  (** the row of element [e] for query edge number [index] *)
  Definition edge_row (h : Z -> option cd) (index e : Z) : option (erow (T:=T)) :=
    match h e with Some c => Some ((index, e), c) | None => None end.

  Definition is_hit (h : Z -> option cd) (e : Z) : bool := match h e with Some _ => true | None => false end.
  Definition rows_at (h : Z -> option cd) (index : Z) (js : list Z) : list (erow (T:=T)) :=
    hits (edge_row h index) js.

  Lemma rows_at_filter h index l : rows_at h index (filter (is_hit h) l) = rows_at h index l.
  Proof.
    unfold rows_at. induction l as [|e t IH]; auto. cbn [filter].
    assert (E : edge_row h index e = match h e with Some c => Some ((index, e), c) | None => None end) by reflexivity.
    unfold is_hit at 1. destruct (h e) as [c|]; cbn [hits]; rewrite E, ?IH; auto.
  Qed.

  Lemma rows_at_length h index l : (length (rows_at h index l) <= length l)%nat.
  Proof. apply hits_length. Qed.

  (** One query edge.  [f g] is the element test, [h] its result; [P e] is what
      is known about elements skipped by the traversal. *)
  Lemma locate_edge_runs (okfuel : nat -> Prop) (f : garbage T -> nat -> Z -> point -> point -> res (option cd))
        (h : Z -> option cd) (a b : point) (P : Z -> Prop) c :
    (forall g cs e, okfuel cs -> 0 <= e < zlen bbc -> f g cs e a b = Ok (h e)) ->
    (forall cs, okfuel cs -> cohen_sutherland_line_box_clip cs a b (bbox tree) = Ok c) ->
    (forall nd l e bx, edge_children a b nd = Ok l -> ~ In (nchild nd) l ->
      aget bbc e = Ok bx -> nleb (side_hi (ndim nd) bx) (nLmax nd) = true -> P e) ->
    (forall nd l e bx, edge_children a b nd = Ok l -> ~ In (nchild nd + 1) l ->
      aget bbc e = Ok bx -> nleb (nRmin nd) (side_lo (ndim nd) bx) = true -> P e) ->
    (forall nd, exists l, edge_children a b nd = Ok l /\ good_children l (nchild nd)) ->
    exists vis prn, Permutation (iota n) (vis ++ prn) /\ (c = None \/ Forall P prn)
      /\ (c = None -> vis = [])
      /\ forall g csfuel index, okfuel csfuel ->
         runs (fun rows size => locate_edge g csfuel (f g csfuel) (a, b) tree rows size index)
              (rows_at h index vis).
  Proof.
    intros Hf Hc HL HR Hch. destruct c as [c|].
    - destruct (traverse_valid tree Hv (edge_children a b) P) as (vis & prn & Hp & HPr & Ht); auto.
      exists vis, prn. split; auto. split; auto. split; [discriminate|].
      intros g csfuel index Hcs pre free. unfold locate_edge. rewrite Hc by auto. cbn [bind].
      change (collect_visit tree (edge_hit (f g csfuel) a b index) (edge_children a b))
        with (visitW tree (edge_children a b) (emit_hits (edge_hit (f g csfuel) a b index))).
      rewrite Ht by (split; [reflexivity|apply emit_hits_app]).
      rewrite (emit_hits_ok _ (edge_row h index) vis); auto.
      + unfold rows_at. destruct (emitted pre free (zlen pre) 0 _); reflexivity.
      + apply Forall_forall. intros e He. unfold edge_hit, edge_row.
        assert (In e (iota n)) by (apply (Permutation_in _ (Permutation_sym Hp)); apply in_or_app; auto).
        apply iota_in in H. rewrite Hf by auto. cbn [bind]. now destruct (h e).
    - exists [], (iota n). split; auto. split; auto. split; auto. intros g csfuel index Hcs.
      unfold rows_at. cbn [hits]. apply runs_nil. intros rows size. unfold locate_edge. now rewrite Hc.
  Qed.

  (** All query edges, any number of chunks *)
  Notation qrows hh := (fun (x : Z * ((point * point) * list Z)) =>
                          rows_at (hh (fst (snd x))) (fst x) (snd (snd x))).

  Theorem edges_chunks (okfuel : nat -> Prop) (f : garbage T -> nat -> Z -> point -> point -> res (option cd))
        (hh : point * point -> Z -> option cd) (Q : point * point -> list Z -> Prop) edges :
    (forall ab, In ab edges -> exists js, Q ab js /\ (length js <= n)%nat /\ forall g csfuel index, okfuel csfuel ->
       runs (fun rows size => locate_edge g csfuel (f g csfuel) ab tree rows size index)
            (rows_at (hh ab) index js)) ->
    exists jss, Forall2 Q edges jss
      /\ (forall g csfuel n_chunks, okfuel csfuel -> (1 <= n_chunks)%nat ->
         locate_edges g csfuel (f g csfuel) edges tree n_chunks
         = Ok (concat (map (qrows hh) (combine (iota (length edges)) (combine edges jss)))))
      /\ (forall g csfuel buffer offset, okfuel csfuel -> buffer <> [] -> exists unused,
         query_loop (grow_ g)
           (fun ab index rows size => locate_edge g csfuel (f g csfuel) ab tree rows size index)
           (retry_fuel tree) edges offset buffer 0 0
         = Ok (concat (map (qrows hh) (combine (map (Z.add offset) (iota (length edges))) (combine edges jss)))
               ++ unused,
               zlen (concat (map (qrows hh) (combine (map (Z.add offset) (iota (length edges))) (combine edges jss)))))).
  Proof.
    intros Hq.
    destruct (Forall2_choose (fun ab js => Q ab js /\ (length js <= n)%nat /\ forall g csfuel index, okfuel csfuel ->
       runs (fun rows size => locate_edge g csfuel (f g csfuel) ab tree rows size index)
            (rows_at (hh ab) index js)) edges) as (jss & HF); auto.
    exists jss. split; [eapply Forall2_impl'; [|exact HF]; intros x y (H & _); exact H|].
    assert (HG : forall g csfuel offset, okfuel csfuel -> Forall2 (fun qi hs =>
        runs (fun rows size => locate_edge g csfuel (f g csfuel) (fst qi) tree rows size (snd qi)) hs
        /\ (length hs < retry_fuel tree)%nat)
       (combine edges (map (Z.add offset) (iota (length edges))))
       (map (qrows hh) (combine (map (Z.add offset) (iota (length edges))) (combine edges jss)))).
    { intros g csfuel offset Hcs.
      assert (HL : length edges = length (map (Z.add offset) (iota (length edges))))
        by now rewrite map_length, iota_length.
      remember (map (Z.add offset) (iota (length edges))) as ix eqn:E. clear E. clear Hq.
      revert ix HL. induction HF as [|ab js l l' (HQ & Hlen & Hr) _ IH]; intros [|i ix] HL;
        simpl in *; try discriminate; constructor; auto.
      cbn [fst snd]. split; auto. unfold retry_fuel.
      pose proof (rows_at_length (hh ab) i js). lia. }
    split.
    - intros g csfuel nc Hcs Hnc. unfold locate_edges.
      destruct (chunked_ok (fun c off => locate_edges_helper g csfuel (f g csfuel) c tree off) (grow_ g)
                  (fun ab i hs => runs (fun rows size => locate_edge g csfuel (f g csfuel) ab tree rows size i) hs
                                  /\ (length hs < retry_fuel tree)%nat))
        with (chunks := array_split edges nc) (off := 0)
             (anss := map (qrows hh) (combine (iota (length edges)) (combine edges jss)))
        as (parts & used & Em & HU & Ec).
      + intros l off anss' HF'. unfold locate_edges_helper.
        destruct (query_loop_ok (grow_ g)
          (fun ab index rows size => locate_edge g csfuel (f g csfuel) ab tree rows size index)
          (retry_fuel tree) l off anss' HF' [] (np_empty (grow_ g) (Nat.max (length l) 256)))
          as (free & E).
        { rewrite np_empty_length. simpl length. lia. }
        exists free. exact E.
      + rewrite array_split_concat by auto.
        specialize (HG g csfuel 0 Hcs).
        replace (map (Z.add 0) (iota (length edges))) with (iota (length edges)) in HG
          by (rewrite <- (map_id (iota (length edges))) at 1; apply map_ext; intros; lia).
        replace (map (fun k => 0 + k) (iota (length edges))) with (iota (length edges))
          by (rewrite <- (map_id (iota (length edges))) at 1; apply map_ext; intros; lia).
        exact HG.
      + rewrite Em. cbn [bind]. rewrite (concatenate_ok _ _ _ HU). now rewrite Ec.
    - intros g csfuel buffer offset Hcs Hb.
      destruct (query_loop_ok (grow_ g)
          (fun ab index rows size => locate_edge g csfuel (f g csfuel) ab tree rows size index)
          (retry_fuel tree) edges offset _ (HG g csfuel offset Hcs)) with (pre := @nil (erow (T:=T))) (free := buffer)
        as (free & E).
      + destruct buffer; simpl; [congruence|lia].
      + exists free. exact E.
  Qed.

  (** the rows, read as a set *)
  Lemma qrows_in (hh : point * point -> Z -> option cd) edges jss : length jss = length edges ->
    forall i j c, In ((i, j), c) (concat (map (qrows hh) (combine (iota (length edges)) (combine edges jss))))
      <-> exists ab js, 0 <= i /\ nth_error edges (Z.to_nat i) = Some ab
            /\ nth_error jss (Z.to_nat i) = Some js /\ In j js /\ hh ab j = Some c.
  Proof.
    intros HL i j c.
    assert (G : forall k edges jss, length jss = length edges ->
      (In ((i, j), c) (concat (map (qrows hh) (combine (map Z.of_nat (seq k (length edges))) (combine edges jss))))
      <-> exists ab js, Z.of_nat k <= i /\ nth_error edges (Z.to_nat i - k) = Some ab
            /\ nth_error jss (Z.to_nat i - k) = Some js /\ In j js /\ hh ab j = Some c)).
    { clear. intros k edges. revert k. induction edges as [|ab edges IH]; intros k [|js jss] HL; try discriminate.
      - simpl. split; [intros []|]. intros (ab & js & _ & E & _). destruct (Z.to_nat i - k)%nat; discriminate.
      - cbn [length seq map combine concat fst snd]. rewrite in_app_iff, IH by (simpl in HL; lia).
        assert (Hin : In (i, j, c) (rows_at (hh ab) (Z.of_nat k) js) <-> i = Z.of_nat k /\ In j js /\ hh ab j = Some c).
        { unfold rows_at. clear. induction js as [|e js IH]; cbn [hits].
          - simpl. tauto.
          - unfold edge_row at 1. destruct (hh ab e) as [c'|] eqn:E; cbn [In]; rewrite IH; split.
            + intros [H|H]; [inversion H; subst; auto|tauto].
            + intros (-> & [-> | H] & E'); [left; congruence|right; auto].
            + tauto.
            + intros (-> & [-> | H] & E'); [congruence|auto]. }
        rewrite Hin. split.
        + intros [(-> & Hj & E)|(ab' & js' & H1 & H2 & H3 & H4)].
          * exists ab, js. rewrite Nat2Z.id, Nat.sub_diag. repeat split; auto. lia.
          * exists ab', js'. split; [lia|]. replace (Z.to_nat i - k)%nat with (S (Z.to_nat i - S k)) by lia. auto.
        + intros (ab' & js' & H1 & H2 & H3 & H4). destruct (Z.eq_dec i (Z.of_nat k)) as [->|Hne].
          * rewrite Nat2Z.id, Nat.sub_diag in *. simpl in H2, H3. inversion H2; inversion H3; subst. tauto.
          * right. exists ab', js'. split; [lia|].
            replace (Z.to_nat i - k)%nat with (S (Z.to_nat i - S k)) in * by lia. auto. }
    unfold iota. rewrite (G 0%nat edges jss HL). rewrite !Nat.sub_0_r.
    split; intros (ab & js & H & H'); exists ab, js; split; auto; lia.
  Qed.

  Lemma qrows_nodup (hh : point * point -> Z -> option cd) edges jss : Forall (@NoDup Z) jss ->
    NoDup (map fst (concat (map (qrows hh) (combine (iota (length edges)) (combine edges jss)))))
    /\ StronglySorted Z.le (map (fun r => fst (fst r))
         (concat (map (qrows hh) (combine (iota (length edges)) (combine edges jss))))).
  Proof.
    unfold iota. generalize 0%nat at 1 2 as k. revert jss. induction edges as [|ab edges IH]; intros jss k HN.
    - simpl. split; constructor.
    - cbn [length seq map]. destruct jss as [|js jss]; [simpl; split; constructor|].
      cbn [combine map concat fst snd]. inversion HN as [|? ? N1 N2]; subst.
      destruct (IH jss (S k) N2) as (IH1 & IH2).
      set (rest := concat (map _ (combine (map Z.of_nat (seq (S k) (length edges))) (combine edges jss)))) in *.
      assert (Hrest : forall i j c, In (i, j, c) rest -> Z.of_nat (S k) <= i).
      { unfold rest. clear. intros i j c H. apply in_concat in H as (x & Hx & H).
        apply in_map_iff in Hx as ((i', (ab', js')) & <- & Hx). cbn [fst snd] in H.
        apply in_combine_l in Hx. apply in_map_iff in Hx as (m & <- & Hm). apply in_seq in Hm.
        assert (i = Z.of_nat m).
        { clear - H. unfold rows_at in H. induction js' as [|e t IHt]; cbn [hits] in H; [destruct H|].
          unfold edge_row at 1 in H. destruct (hh ab' e); auto. destruct H as [H|H]; auto.
          inversion H; auto. }
        lia. }
      assert (Hrow : forall i j c, In (i, j, c) (rows_at (hh ab) (Z.of_nat k) js) -> i = Z.of_nat k /\ In j js).
      { clear. intros i j c H. unfold rows_at in H. induction js as [|e t IHt]; cbn [hits] in H; [destruct H|].
        unfold edge_row at 1 in H. destruct (hh ab e).
        - destruct H as [H|H]; [inversion H; subst; simpl; auto|]. destruct (IHt H). simpl. auto.
        - destruct (IHt H). simpl. auto. }
      split.
      + rewrite map_app.
        assert (G : forall (l1 l2 : list (Z * Z)), NoDup l1 -> NoDup l2 ->
           (forall x, In x l1 -> In x l2 -> False) -> NoDup (l1 ++ l2)).
        { induction l1 as [|x l1 IHl]; intros l2 M1 M2 Hd; auto. inversion M1; subst. simpl. constructor.
          - intros Hx. apply in_app_or in Hx as [Hx|Hx]; auto. apply (Hd x); auto. now left.
          - apply IHl; auto. intros y Hy1 Hy2. apply (Hd y); auto. now right. }
        apply G; auto.
        * clear - N1. unfold rows_at. induction N1 as [|e t He _ IHt]; cbn [hits]; [constructor|].
          unfold edge_row at 1. destruct (hh ab e) as [c|]; auto. cbn [map fst]. constructor; auto.
          intros Hin. apply in_map_iff in Hin as (((i, j), c') & E & Hin). cbn [fst] in E. inversion E; subst.
          apply He. clear - Hin. induction t as [|x t IH]; cbn [hits] in Hin; [destruct Hin|].
          unfold edge_row at 1 in Hin. destruct (hh ab x).
          -- destruct Hin as [H|H]; [inversion H; subst; simpl; auto|]. simpl. auto.
          -- simpl. auto.
        * intros x H1 H2. apply in_map_iff in H1 as (((i, j), c) & <- & H1).
          apply in_map_iff in H2 as (((i', j'), c') & E & H2). cbn [fst] in E. inversion E; subst.
          apply Hrow in H1 as (-> & _). apply Hrest in H2. lia.
      + rewrite map_app.
        assert (Hle : Forall (fun x => Z.of_nat k <= x) (map (fun r : erow (T:=T) => fst (fst r)) rest)).
        { apply Forall_forall. intros x Hx. apply in_map_iff in Hx as (((i, j), c) & <- & Hx).
          apply Hrest in Hx. cbn [fst]. lia. }
        assert (Heq : Forall (fun x => x = Z.of_nat k) (map (fun r : erow (T:=T) => fst (fst r)) (rows_at (hh ab) (Z.of_nat k) js))).
        { apply Forall_forall. intros x Hx. apply in_map_iff in Hx as (((i, j), c) & <- & Hx).
          apply Hrow in Hx as (-> & _). reflexivity. }
        apply (sorted_app_const (Z.of_nat k)); assumption.
  Qed.
End Edges.
