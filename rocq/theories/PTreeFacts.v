(** Consequences of the tree specification [TreeAt]: shape of the node array
    and placement of the elements. *)
From Verif Require Import Base Num MUtils MCreation PStack PPartition SpecTree PBuild PBuild2.
Open Scope Z_scope.

Section SpecShape.
  Context {T : Type}.

  (** node [i] is a leaf *)
  Definition is_leaf (nodes : list (node T)) (i : Z) : Prop :=
    0 <= i /\ exists nd, nth_error nodes (Z.to_nat i) = Some nd /\ nchild nd = -1.

  (** node [i] is one of the two children of node [p] *)
  Definition child_of (nodes : list (node T)) (p i : Z) : Prop :=
    0 <= p /\ exists nd, nth_error nodes (Z.to_nat p) = Some nd /\ nchild nd <> -1
      /\ (i = nchild nd \/ i = nchild nd + 1).

  (** node [i] covers the entries [lo, hi) of bb_indices *)
  Definition covers (nodes : list (node T)) (i lo hi : Z) : Prop :=
    0 <= i /\ exists nd, nth_error nodes (Z.to_nat i) = Some nd /\ nptr nd = lo /\ nptr nd + nsize nd = hi.

  (** element [e] is stored at entry [k] of bb_indices, which belongs to leaf [i] *)
  Definition stored (nodes : list (node T)) (bbi : list Z) (e i k : Z) : Prop :=
    is_leaf nodes i /\ (exists lo hi, covers nodes i lo hi /\ lo <= k < hi)
    /\ 0 <= k /\ nth_error bbi (Z.to_nat k) = Some e.

  (** number of leaves *)
  Definition n_leaves (nodes : list (node T)) : nat :=
    length (filter (fun nd => nchild nd =? -1) nodes).
End SpecShape.

Section Facts.
  Context {T : Type} {NT : Num T}.
  Variables (nodes : list (node T)) (bbc : list (box T)) (bbi : list Z).
  Notation TreeAt := (TreeAt nodes bbc bbi).
  Notation child_of := (child_of nodes).
  Notation covers := (covers nodes).
  Notation is_leaf := (is_leaf nodes).

  Lemma TreeAt_root idx lo hi S : TreeAt idx lo hi S -> In idx S /\ 0 <= idx /\ lo < hi.
  Proof.
    induction 1 as [idx lo hi nd H1|idx lo mid hi nd c S1 S2 H1 _ _ _ _ _ _ _ _ _ _ IH1 _ IH2].
    - repeat split; auto. now left.
    - repeat split; auto; [now left|lia].
  Qed.

  Lemma TreeAt_min idx lo hi S : TreeAt idx lo hi S -> Forall (fun i => idx <= i) S.
  Proof.
    induction 1 as [idx lo hi nd H1|idx lo mid hi nd c S1 S2 H1 _ _ Hc _ _ _ _ _ _ _ IH1 _ IH2].
    - constructor; auto; lia.
    - constructor; [lia|]. apply Forall_app. split.
      + eapply Forall_impl; [|exact IH1]. simpl. lia.
      + eapply Forall_impl; [|exact IH2]. simpl. lia.
  Qed.

  Lemma TreeAt_covers idx lo hi S : TreeAt idx lo hi S -> covers idx lo hi.
  Proof.
    destruct 1; split; auto; exists nd; (split; [now apply aget_pos_inv|]); lia.
  Qed.

  Lemma covers_fun i lo hi lo' hi' : covers i lo hi -> covers i lo' hi' -> lo = lo' /\ hi = hi'.
  Proof. intros (_ & nd & E & H1 & H2) (_ & nd' & E' & H1' & H2'). rewrite E in E'. inversion E'; subst. auto. Qed.

  Lemma leaf_no_child i p : is_leaf p -> ~ child_of p i.
  Proof. intros (_ & nd & E & Hl) (_ & nd' & E' & Hc & _). congruence. Qed.

  (** nodes of [S]: leaves, or splits whose children are in [S] *)
  Lemma TreeAt_nodes idx lo hi S : TreeAt idx lo hi S ->
    Forall (fun i => (is_leaf i /\ exists a b, covers i a b /\ lo <= a < b /\ b <= hi)
       \/ exists c a m b, child_of i c /\ child_of i (c + 1) /\ i < c /\ In c S /\ In (c + 1) S
            /\ covers i a b /\ covers c a m /\ covers (c + 1) m b /\ lo <= a < m /\ m < b /\ b <= hi) S.
  Proof.
    induction 1 as [idx lo hi nd H1 H2 H3 H4 H5 H6
                   |idx lo mid hi nd c S1 S2 H1 H2 H3 Hc H4 H5 _ _ _ _ HT1 IH1 HT2 IH2].
    - constructor; auto. left. apply aget_pos_inv in H2; auto.
      split; [split; eauto|]. exists lo, hi. split; [split; auto; exists nd; repeat split; auto; lia|lia].
    - destruct (TreeAt_root _ _ _ _ HT1) as (Hr1 & Hi1 & Hl1).
      destruct (TreeAt_root _ _ _ _ HT2) as (Hr2 & Hi2 & Hl2).
      pose proof (aget_pos_inv _ _ _ H1 H2) as E.
      constructor; [|apply Forall_app; split].
      + right. exists c, lo, mid, hi.
        assert (child_of idx c) by (split; auto; exists nd; repeat split; auto; lia).
        assert (child_of idx (c + 1)) by (split; auto; exists nd; repeat split; auto; lia).
        repeat match goal with |- _ /\ _ => split end; auto; try lia.
        * right. apply in_or_app. auto.
        * right. apply in_or_app. auto.
        * split; auto. exists nd. repeat split; auto. lia.
        * eapply TreeAt_covers; eauto.
        * eapply TreeAt_covers; eauto.
      + eapply Forall_impl; [|exact IH1]. cbv beta. intros i [(Hl & a & b & Hc' & Hab)|(c' & a & m & b & A)].
        * left. split; auto. exists a, b. split; auto. lia.
        * right. exists c', a, m, b. decompose [and] A.
          repeat match goal with |- _ /\ _ => split end; auto; try lia;
            right; apply in_or_app; auto.
      + eapply Forall_impl; [|exact IH2]. cbv beta. intros i [(Hl & a & b & Hc' & Hab)|(c' & a & m & b & A)].
        * left. split; auto. exists a, b. split; auto. lia.
        * right. exists c', a, m, b. decompose [and] A.
          repeat match goal with |- _ /\ _ => split end; auto; try lia;
            right; apply in_or_app; auto.
  Qed.

  Lemma child_of_cases p c i : child_of p c -> child_of p (c + 1) -> child_of p i -> i = c \/ i = c + 1.
  Proof.
    intros (_ & nd & E & _ & H) (_ & nd1 & E1 & _ & H1) (_ & nd2 & E2 & _ & H2).
    rewrite E in E1, E2. inversion E1; inversion E2; subst. lia.
  Qed.

  Lemma TreeAt_closed idx lo hi S p i : TreeAt idx lo hi S -> In p S -> child_of p i -> In i S /\ p < i.
  Proof.
    intros HT Hp Hc. pose proof (TreeAt_nodes _ _ _ _ HT) as H. rewrite Forall_forall in H.
    destruct (H p Hp) as [(Hl & _)|(c & a & m & b & A)].
    - destruct (leaf_no_child _ _ Hl Hc).
    - destruct A as (C1 & C2 & Hlt & I1 & I2 & _).
      destruct (child_of_cases _ _ _ C1 C2 Hc) as [-> | ->]; split; auto; lia.
  Qed.

  (** every node but the root has exactly one parent *)
  Lemma TreeAt_parent idx lo hi S : TreeAt idx lo hi S -> NoDup S ->
    forall i, In i S -> i <> idx -> exists p, In p S /\ child_of p i /\ forall q, In q S -> child_of q i -> q = p.
  Proof.
    induction 1 as [idx lo hi nd H1 H2 H3 H4 H5 H6
                   |idx lo mid hi nd c S1 S2 H1 H2 H3 Hc H4 H5 _ _ _ _ HT1 IH1 HT2 IH2]; intros Hnd i Hi Hne.
    - destruct Hi as [->|[]]. congruence.
    - inversion Hnd as [|? ? Hnotin Hnd']; subst.
      assert (Hdisj : forall x, In x S1 -> In x S2 -> False).
      { clear - Hnd'. induction S1 as [|y S1 IH]; simpl; [tauto|]. inversion Hnd'; subst.
        intros x [->|Hx] Hx2; [apply H1; apply in_or_app; auto|eauto]. }
      assert (N1 : NoDup S1) by (exact (NoDup_app_mid [] S1 S2 Hnd')).
      assert (N2 : NoDup S2) by (apply (NoDup_app_mid S1 S2 []); now rewrite app_nil_r).
      pose proof (aget_pos_inv _ _ _ H1 H2) as E.
      assert (C1 : child_of idx (nchild nd)) by (split; auto; exists nd; repeat split; auto; lia).
      assert (C2 : child_of idx (nchild nd + 1)) by (split; auto; exists nd; repeat split; auto; lia).
      destruct (TreeAt_root _ _ _ _ HT1) as (R1 & _). destruct (TreeAt_root _ _ _ _ HT2) as (R2 & _).
      pose proof (TreeAt_min _ _ _ _ HT1) as M1. pose proof (TreeAt_min _ _ _ _ HT2) as M2.
      rewrite Forall_forall in M1, M2.
      destruct Hi as [Hi|Hi]; [congruence|]. apply in_app_or in Hi as [Hi|Hi].
      + destruct (Z.eq_dec i (nchild nd)) as [->|Hn].
        * exists idx. split; [now left|]. split; auto.
          intros q [->|Hq] Hqc; auto. apply in_app_or in Hq as [Hq|Hq].
          -- destruct (TreeAt_closed _ _ _ _ _ _ HT1 Hq Hqc) as (_ & Hlt). specialize (M1 q Hq). lia.
          -- destruct (TreeAt_closed _ _ _ _ _ _ HT2 Hq Hqc) as (Hin & _). destruct (Hdisj _ Hi Hin).
        * destruct (IH1 N1 i Hi Hn) as (p & Hp & Hpc & Hu). exists p.
          split; [right; apply in_or_app; auto|]. split; auto.
          intros q [->|Hq] Hqc.
          -- destruct (child_of_cases _ _ _ C1 C2 Hqc) as [-> | ->]; [congruence|]. destruct (Hdisj _ Hi R2).
          -- apply in_app_or in Hq as [Hq|Hq]; auto.
             destruct (TreeAt_closed _ _ _ _ _ _ HT2 Hq Hqc) as (Hin & _). destruct (Hdisj _ Hi Hin).
      + destruct (Z.eq_dec i (nchild nd + 1)) as [->|Hn].
        * exists idx. split; [now left|]. split; auto.
          intros q [->|Hq] Hqc; auto. apply in_app_or in Hq as [Hq|Hq].
          -- destruct (TreeAt_closed _ _ _ _ _ _ HT1 Hq Hqc) as (Hin & _). destruct (Hdisj _ Hin Hi).
          -- destruct (TreeAt_closed _ _ _ _ _ _ HT2 Hq Hqc) as (_ & Hlt). specialize (M2 q Hq). lia.
        * destruct (IH2 N2 i Hi Hn) as (p & Hp & Hpc & Hu). exists p.
          split; [right; apply in_or_app; auto|]. split; auto.
          intros q [->|Hq] Hqc.
          -- destruct (child_of_cases _ _ _ C1 C2 Hqc) as [-> | ->]; [|congruence]. destruct (Hdisj _ R1 Hi).
          -- apply in_app_or in Hq as [Hq|Hq]; auto.
             destruct (TreeAt_closed _ _ _ _ _ _ HT1 Hq Hqc) as (Hin & _). destruct (Hdisj _ Hin Hi).
  Qed.

  (** every entry of the range is in exactly one leaf *)
  Lemma TreeAt_leaf_of idx lo hi S : TreeAt idx lo hi S -> forall k, lo <= k < hi ->
    exists i, In i S /\ is_leaf i /\ (exists a b, covers i a b /\ a <= k < b)
      /\ forall j, In j S -> is_leaf j -> (exists a b, covers j a b /\ a <= k < b) -> j = i.
  Proof.
    induction 1 as [idx lo hi nd H1 H2 H3 H4 H5 H6
                   |idx lo mid hi nd c S1 S2 H1 H2 H3 Hc H4 H5 A1 A2 A3 A4 HT1 IH1 HT2 IH2]; intros k Hk.
    - exists idx. pose proof (aget_pos_inv _ _ _ H1 H2) as E.
      split; [now left|]. split; [split; eauto|]. split.
      + exists lo, hi. split; auto. split; auto. exists nd. repeat split; auto. lia.
      + intros j [->|[]]; auto.
    - pose proof (aget_pos_inv _ _ _ H1 H2) as E.
      assert (Hnl : ~ is_leaf idx).
      { intros (_ & nd' & E' & Hl). assert (nd' = nd) by congruence. subst nd'. lia. }
      assert (B1 : forall j, In j S1 -> is_leaf j -> (exists a b, covers j a b /\ a <= k < b) -> k < mid).
      { intros j Hj Hl (a & b & Hcv & Hab). pose proof (TreeAt_nodes _ _ _ _ HT1) as H.
        rewrite Forall_forall in H. destruct (H j Hj) as [(_ & a' & b' & Hcv' & ?)|(c' & ? & ? & ? & Hx & _)].
        - destruct (covers_fun _ _ _ _ _ Hcv Hcv'). lia.
        - destruct (leaf_no_child _ _ Hl Hx). }
      assert (B2 : forall j, In j S2 -> is_leaf j -> (exists a b, covers j a b /\ a <= k < b) -> mid <= k).
      { intros j Hj Hl (a & b & Hcv & Hab). pose proof (TreeAt_nodes _ _ _ _ HT2) as H.
        rewrite Forall_forall in H. destruct (H j Hj) as [(_ & a' & b' & Hcv' & ?)|(c' & ? & ? & ? & Hx & _)].
        - destruct (covers_fun _ _ _ _ _ Hcv Hcv'). lia.
        - destruct (leaf_no_child _ _ Hl Hx). }
      destruct (Z.lt_ge_cases k mid) as [Hm|Hm].
      + destruct (IH1 k ltac:(lia)) as (i & Hi & Hl & Hcv & Hu). exists i.
        split; [right; apply in_or_app; auto|]. split; auto. split; auto.
        intros j [<-|Hj] Hjl Hjc; [tauto|]. apply in_app_or in Hj as [Hj|Hj]; auto.
        specialize (B2 j Hj Hjl Hjc). lia.
      + destruct (IH2 k ltac:(lia)) as (i & Hi & Hl & Hcv & Hu). exists i.
        split; [right; apply in_or_app; auto|]. split; auto. split; auto.
        intros j [<-|Hj] Hjl Hjc; [tauto|]. apply in_app_or in Hj as [Hj|Hj]; auto.
        specialize (B1 j Hj Hjl Hjc). lia.
  Qed.

  (** number of leaves *)
  Definition leafb (i : Z) : bool :=
    match aget nodes i with Ok nd => nchild nd =? -1 | Err _ => false end.

  Lemma TreeAt_count idx lo hi S : TreeAt idx lo hi S ->
    (S <> [] /\ length S + 1 = 2 * length (filter leafb S))%nat.
  Proof.
    induction 1 as [idx lo hi nd H1 H2 H3 H4 H5 H6
                   |idx lo mid hi nd c S1 S2 H1 H2 H3 Hc H4 H5 A1 A2 A3 A4 HT1 IH1 HT2 IH2].
    - split; [congruence|]. cbn [filter]. unfold leafb. rewrite H2. destruct (nchild nd =? -1) eqn:E; [|lia].
      reflexivity.
    - split; [congruence|]. cbn [filter]. unfold leafb at 1. rewrite H2. destruct (nchild nd =? -1) eqn:E; [lia|].
      rewrite filter_app, app_length. cbn [length]. rewrite app_length. lia.
  Qed.

  Lemma leafb_iota : length (filter leafb (iota (length nodes))) = n_leaves nodes.
  Proof.
    unfold n_leaves.
    assert (H : forall l p, nodes = p ++ l ->
      length (filter leafb (map Z.of_nat (seq (length p) (length l))))
      = length (filter (fun nd : node T => nchild nd =? -1) l)).
    { induction l as [|nd l IH]; intros p Hp; [reflexivity|].
      cbn [length seq map filter].
      assert (E : leafb (Z.of_nat (length p)) = (nchild nd =? -1)).
      { unfold leafb. rewrite (aget_nat _ _ nd); auto. rewrite Hp, nth_error_app2, Nat.sub_diag by lia. reflexivity. }
      rewrite E. specialize (IH (p ++ [nd])). rewrite app_length in IH. cbn [length] in IH.
      replace (length p + 1)%nat with (S (length p)) in IH by lia.
      destruct (nchild nd =? -1); cbn [length]; rewrite IH; auto; rewrite <- app_assoc; auto. }
    exact (H nodes [] eq_refl).
  Qed.

  Lemma filter_perm {A} (f : A -> bool) l l' : Permutation l l' -> length (filter f l) = length (filter f l').
  Proof.
    induction 1; simpl; auto.
    - destruct (f x); simpl; lia.
    - destruct (f x), (f y); simpl; lia.
    - lia.
  Qed.
End Facts.

(** A complete tree over [n] elements: the shape properties in one place. *)
Section Shape.
  Context {T : Type} {NT : Num T}.

  Record proper_tree (nodes : list (node T)) (n : Z) : Prop := {
    (* the root covers all elements *)
    pt_root : covers nodes 0 0 n;
    (* a node is a non-empty leaf, or has two later children that split its range *)
    pt_nodes : forall i, 0 <= i < zlen nodes ->
      (is_leaf nodes i /\ exists a b, covers nodes i a b /\ 0 <= a < b /\ b <= n)
      \/ exists c a m b, child_of nodes i c /\ child_of nodes i (c + 1)
            /\ i < c /\ c + 1 < zlen nodes
            /\ covers nodes i a b /\ covers nodes c a m /\ covers nodes (c + 1) m b
            /\ 0 <= a < m /\ m < b /\ b <= n;
    (* every node but the root has exactly one parent, which comes before it *)
    pt_parent : forall i, 0 < i < zlen nodes -> exists! p, p < i /\ child_of nodes p i;
    (* full binary tree *)
    pt_count : zlen nodes = 2 * Z.of_nat (n_leaves nodes) - 1
  }.

  Theorem tree_proper nodes (bbc : list (box T)) bbi n S :
    TreeAt nodes bbc bbi 0 0 n S -> Permutation S (iota (length nodes)) ->
    proper_tree nodes n.
  Proof.
    intros HT HS.
    assert (Hin : forall i, In i S <-> 0 <= i < zlen nodes).
    { intros i. unfold zlen. split; intros H.
      - apply (Permutation_in _ HS) in H. now apply iota_in.
      - apply (Permutation_in _ (Permutation_sym HS)). now apply iota_in. }
    assert (Hnd : NoDup S) by (eapply Permutation_NoDup; [symmetry; eassumption|apply iota_nodup]).
    constructor.
    - eapply TreeAt_covers; eauto.
    - intros i Hi. pose proof (TreeAt_nodes _ _ _ _ _ _ _ HT) as H. rewrite Forall_forall in H.
      destruct (H i (proj2 (Hin i) Hi)) as [A|(c & a & m & b & A)]; [now left|right].
      exists c, a, m, b. decompose [and] A. repeat match goal with |- _ /\ _ => split end; auto.
      match goal with Hx : In (c + 1) S |- _ => apply Hin in Hx; lia end.
    - intros i Hi. destruct (TreeAt_parent _ _ _ _ _ _ _ HT Hnd i) as (p & Hp & Hc & Hu).
      { apply Hin. lia. } { lia. }
      exists p. split; [split; auto; eapply TreeAt_closed; eauto|].
      intros q (_ & Hq). symmetry. apply Hu; auto. apply Hin.
      destruct Hq as (H0 & nd & E & _). assert (Z.to_nat q < length nodes)%nat by (apply nth_error_Some; congruence).
      unfold zlen. lia.
    - destruct (TreeAt_count _ _ _ _ _ _ _ HT) as (_ & H).
      rewrite (filter_perm _ _ _ HS), leafb_iota in H. rewrite (Permutation_length HS), iota_length in H.
      unfold zlen. lia.
  Qed.

  Theorem tree_stored nodes (bbc : list (box T)) bbi n S :
    TreeAt nodes bbc bbi 0 0 (Z.of_nat n) S -> Permutation S (iota (length nodes)) ->
    Permutation bbi (iota n) ->
    forall e, 0 <= e < Z.of_nat n ->
      exists i k, stored nodes bbi e i k /\ forall i' k', stored nodes bbi e i' k' -> i' = i /\ k' = k.
  Proof.
    intros HT HS Hp e He.
    assert (Hin : In e bbi) by (apply (Permutation_in _ (Permutation_sym Hp)); now apply iota_in).
    assert (Hnd : NoDup bbi) by (eapply Permutation_NoDup; [symmetry; eassumption|apply iota_nodup]).
    assert (Hlen : length bbi = n) by (rewrite (Permutation_length Hp); apply iota_length).
    destruct (In_nth_error _ _ Hin) as (k & Ek).
    assert (Hk : (k < n)%nat) by (rewrite <- Hlen; apply nth_error_Some; congruence).
    destruct (TreeAt_leaf_of _ _ _ _ _ _ _ HT (Z.of_nat k) ltac:(lia)) as (i & Hi & Hl & (a & b & Hc & Hab) & Hu).
    exists i, (Z.of_nat k). split.
    - split; auto. split; [eauto|]. split; [lia|]. now rewrite Nat2Z.id.
    - intros i' k' (Hl' & (a' & b' & Hc' & Hab') & Hk' & Ek').
      assert (k' = Z.of_nat k).
      { rewrite NoDup_nth_error in Hnd. assert (Z.to_nat k' = k); [|lia].
        apply Hnd; [|congruence]. apply nth_error_Some. congruence. }
      subst k'. split; auto. apply Hu; eauto.
      apply (Permutation_in _ (Permutation_sym HS)). apply iota_in.
      destruct Hl' as (H0 & nd & E & _). assert (Z.to_nat i' < length nodes)%nat by (apply nth_error_Some; congruence).
      lia.
  Qed.

  Lemma TreeAt_size nodes (bbc : list (box T)) bbi idx lo hi S :
    TreeAt nodes bbc bbi idx lo hi S -> zlen S <= 2 * (hi - lo) - 1.
  Proof.
    induction 1; unfold zlen in *; simpl length; [lia|]. rewrite app_length. lia.
  Qed.

  Lemma tree_node_bound nodes (bbc : list (box T)) bbi n S :
    TreeAt nodes bbc bbi 0 0 n S -> Permutation S (iota (length nodes)) ->
    zlen nodes <= 2 * n - 1.
  Proof.
    intros HT HS. apply TreeAt_size in HT. unfold zlen in *.
    rewrite (Permutation_length HS), iota_length in HT. lia.
  Qed.
End Shape.
