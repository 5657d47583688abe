(** Depth of a tree; a traversal keeps at most one entry per level and one more. *)
From Verif Require Import Base Num MUtils MGeometry MCreation MQuery SpecTree SpecQuery SpecDepth PStack PPartition PBuild PBuild2 PBounds PTreeFacts.
Open Scope Z_scope.

(** ** The stack never outgrows the depth *)
Section Loop.
  Context {St A : Type}.
  Variable mem : nat -> nat -> A.
  Variable visit : A -> St -> res (step St A).
  Variable dep : A -> Z -> Prop.
  Variable D : Z.
  Hypothesis dep_max : forall x d, dep x d -> d <= D.
  Hypothesis visit_deeper : forall x st st' ps d, dep x d -> visit x st = Ok (Next st' ps) ->
    ps = [] \/ (exists y, ps = [y] /\ dep y (d + 1)) \/ (exists y z, ps = [y; z] /\ dep y (d + 1) /\ dep z (d + 1)).

  Definition StackInv (stack : list A) (size : Z) : Prop :=
    0 <= size <= zlen stack
    /\ forall i, 0 <= i < size -> exists x d, aget stack i = Ok x /\ dep x d /\ (i + 1 < size -> i + 1 <= d) /\ i <= d.

  Lemma push_plain stack x size : 0 <= size < zlen stack ->
    exists stack', push mem stack x size = Ok (stack', size + 1) /\ aset stack size x = Ok stack'
      /\ zlen stack' = zlen stack /\ aget stack' size = Ok x /\ forall j, 0 <= j -> j <> size -> aget stack' j = aget stack j.
  Proof.
    intros H. destruct (aset_spec stack size x H) as (s' & E & L & G & O). exists s'.
    unfold push. replace (zlen stack <=? size) with false by lia. rewrite E. cbn [bind].
    split; auto. split; auto. split; [unfold zlen; lia|]. split; auto.
  Qed.

  Lemma loop_fixed fuel : forall stack size st, StackInv stack size -> D + 1 <= zlen stack ->
    stack_loop mem visit fuel stack size st = stack_loop_fixed visit fuel stack size st.
  Proof.
    induction fuel as [|fuel IH]; intros stack size st (Hs & Hi) HD; cbn [stack_loop stack_loop_fixed]; auto.
    destruct (Z.ltb_spec 0 size) as [Hp|]; auto.
    destruct (Hi (size - 1) ltac:(lia)) as (x & d & Ex & Hx & _ & Hd).
    unfold pop. rewrite Ex. cbn [bind fst snd].
    destruct (visit x st) as [[st' ps|st']|e] eqn:Ev; cbn [bind]; auto.
    pose proof (dep_max _ _ Hx) as HxD.
    destruct (visit_deeper _ _ _ _ _ Hx Ev) as [->|[(y & -> & Hy)|(y & z & -> & Hy & Hz)]]; cbn [push_all push_all_fixed bind fst snd].
    - apply IH; auto. split; [lia|]. intros i Hi'. destruct (Hi i ltac:(lia)) as (x' & d' & E' & H1 & H2 & H3).
      exists x', d'. split; auto. split; auto. split; auto. intros; apply H2; lia.
    - destruct (push_plain stack y (size - 1)) as (s1 & P1 & A1 & L1 & G1 & O1); [lia|].
      rewrite P1, A1. cbn [bind fst snd push_all push_all_fixed]. apply IH; [|lia]. split; [lia|].
      intros i Hi'. destruct (Z.eq_dec i (size - 1)) as [->|Hne].
      + exists y, (d + 1). split; auto. split; auto. split; lia.
      + destruct (Hi i ltac:(lia)) as (x' & d' & E' & H1 & H2 & H3). exists x', d'. rewrite O1 by lia.
        split; auto. split; auto. split; auto. intros; apply H2; lia.
    - pose proof (dep_max _ _ Hy) as HyD.
      destruct (push_plain stack y (size - 1)) as (s1 & P1 & A1 & L1 & G1 & O1); [lia|].
      rewrite P1, A1. cbn [bind fst snd push_all push_all_fixed].
      destruct (push_plain s1 z (size - 1 + 1)) as (s2 & P2 & A2 & L2 & G2 & O2); [lia|].
      rewrite P2, A2. cbn [bind fst snd push_all push_all_fixed]. apply IH; [|lia]. split; [lia|].
      intros i Hi'. destruct (Z.eq_dec i (size - 1 + 1)) as [->|Hne2].
      { exists z, (d + 1). split; auto. split; auto. split; lia. }
      rewrite O2 by lia. destruct (Z.eq_dec i (size - 1)) as [->|Hne].
      + exists y, (d + 1). split; auto. split; auto. split; lia.
      + destruct (Hi i ltac:(lia)) as (x' & d' & E' & H1 & H2 & H3). exists x', d'. rewrite O1 by lia.
        split; auto. split; auto. split; auto. intros; apply H2; lia.
  Qed.
End Loop.

Section Traversals.
  Context {T : Type} {NT : Num T}.
  Variables (g : garbage T) (tree : celltree T).
  Hypothesis Hdepth : depth_at_most (nodes tree) 31.
  (** children are stored behind their parent *)
  Hypothesis Hnonneg : forall i d, at_depth (nodes tree) i d -> 0 <= i.

  Lemma alloc_zlen {A} (m : nat -> nat -> A) : zlen (allocate_stack m) = 32.
  Proof. unfold zlen, allocate_stack, np_empty. rewrite map_length, seq_length. reflexivity. Qed.

  Lemma children_deeper i d nd c : at_depth (nodes tree) i d -> aget (nodes tree) i = Ok nd -> nchild nd <> -1 ->
    c = nchild nd \/ c = nchild nd + 1 -> at_depth (nodes tree) c (d + 1).
  Proof.
    intros Hd En Hn Hc. apply at_child with i; auto. split; [eauto|]. exists nd. split; [apply aget_pos_inv; eauto|auto].
  Qed.

  (** the pushes of a visit: none, or one or both children *)
  Definition pushes_children {St} (visit : Z -> St -> res (step St Z)) : Prop :=
    forall i st st' ps, visit i st = Ok (Next st' ps) ->
      ps = [] \/ exists nd, aget (nodes tree) i = Ok nd /\ nchild nd <> -1
        /\ let c := nchild nd in In ps [[]; [c]; [c + 1]; [c; c + 1]; [c + 1; c]].

  Lemma traverse_no_growth {St} (visit : Z -> St -> res (step St Z)) st : pushes_children visit ->
    traverse g tree visit st = traverse_fixed g tree visit st.
  Proof.
    intros Hv. unfold traverse, traverse_fixed.
    destruct (aset_spec (allocate_stack (gZ g)) 0 0) as (s & E & L & G & O); [rewrite alloc_zlen; lia|].
    rewrite E. cbn [bind]. assert (Hz : zlen s = 32) by (unfold zlen; rewrite L; apply alloc_zlen).
    apply loop_fixed with (dep := at_depth (nodes tree)) (D := 31); auto; [| |lia].
    - intros x st0 st' ps d Hd Ex. destruct (Hv _ _ _ _ Ex) as [->|(nd & En & Hn & Hin)]; auto.
      pose proof (children_deeper x d nd (nchild nd) Hd En Hn (or_introl eq_refl)) as C1.
      pose proof (children_deeper x d nd (nchild nd + 1) Hd En Hn (or_intror eq_refl)) as C2.
      cbn in Hin. destruct Hin as [<-|[<-|[<-|[<-|[<-|[]]]]]]; eauto 10.
    - split; [lia|]. intros i Hi. assert (i = 0) by lia. subst i. exists 0, 0. split; auto. split; [constructor|]. lia.
  Qed.

  Lemma point_visit_pushes test p : pushes_children (point_visit tree test p).
  Proof.
    intros i st st' ps H. unfold point_visit in H. apply bind_ok in H as (nd & En & H).
    destruct (Z.eqb_spec (nchild nd) (-1)) as [Hl|Hn].
    - apply bind_ok in H as (items & _ & H). apply bind_ok in H as (h & _ & H). destruct h; inversion H. now left.
    - inversion H. right. exists nd. split; auto. split; auto. unfold point_children.
      repeat match goal with |- context [if ?b then _ else _] => destruct b end; cbn; auto 10.
  Qed.

  Lemma collect_visit_pushes {R} (hit : Z -> res (option R)) (children : node T -> res (list Z)) :
    (forall nd cs, children nd = Ok cs -> let c := nchild nd in In cs [[]; [c]; [c + 1]; [c; c + 1]; [c + 1; c]]) ->
    pushes_children (collect_visit tree hit children).
  Proof.
    intros Hc i st st' ps H. unfold collect_visit in H. apply bind_ok in H as (nd & En & H).
    destruct (Z.eqb_spec (nchild nd) (-1)) as [Hl|Hn].
    - apply bind_ok in H as (items & _ & H). apply bind_ok in H as (r & _ & H). destruct r; inversion H. now left.
    - apply bind_ok in H as (cs & Ec & H). inversion H; subst. right. exists nd. split; [exact En|]. split; [exact Hn|]. now apply Hc.
  Qed.

  Lemma box_children_in bx nd cs : box_children bx nd = Ok cs ->
    let c := nchild nd in In cs [[]; [c]; [c + 1]; [c; c + 1]; [c + 1; c]].
  Proof.
    unfold box_children. intros H. inversion H. clear. repeat match goal with |- context [if ?b then _ else _] => destruct b end; cbn; auto 10.
  Qed.

  Lemma edge_children_in a b nd cs : edge_children a b nd = Ok cs ->
    let c := nchild nd in In cs [[]; [c]; [c + 1]; [c; c + 1]; [c + 1; c]].
  Proof.
    unfold edge_children. intros H. apply bind_ok in H as ((l, r) & _ & H). inversion H. destruct l, r; cbn; auto 10.
  Qed.

  Lemma validate_visit_pushes nb : pushes_children (validate_visit tree nb).
  Proof.
    intros i st st' ps H. unfold validate_visit in H. apply bind_ok in H as (bx & _ & H). apply bind_ok in H as (nd & En & H).
    destruct (Z.eqb_spec (nchild nd) (-1)) as [Hl|Hn].
    - apply bind_ok in H as (items & _ & H). apply bind_ok in H as (v & _ & H). apply bind_ok in H as (v' & _ & H). inversion H. now left.
    - apply bind_ok in H as (lb & _ & H). apply bind_ok in H as (rb & _ & H). apply bind_ok in H as (v & _ & H). inversion H.
      right. exists nd. split; auto. split; auto. cbn. auto 10.
  Qed.

  Lemma bounds_no_growth : child_of (nodes tree) 0 1 -> child_of (nodes tree) 0 2 ->
    collect_node_bounds g tree = collect_node_bounds_fixed g tree.
  Proof.
    intros H1 H2. unfold collect_node_bounds, collect_node_bounds_fixed.
    destruct (aset _ 0 (bbox tree)) as [nb|]; cbn [bind]; auto.
    destruct (aset_spec (allocate_stack (gZZZ g)) 0 (2, 0, 0)) as (s & E & L & G & O); [rewrite alloc_zlen; lia|].
    rewrite E. cbn [bind]. assert (Hz : zlen s = 32) by (unfold zlen; rewrite L; apply alloc_zlen).
    destruct (aset_spec s 1 (1, 0, 1)) as (s2 & E2 & L2 & G2 & O2); [lia|].
    rewrite E2. cbn [bind]. assert (Hz2 : zlen s2 = 32) by (unfold zlen in *; lia).
    pose proof (at_child _ _ _ _ (at_root (nodes tree)) H1) as D1. pose proof (at_child _ _ _ _ (at_root (nodes tree)) H2) as D2.
    apply loop_fixed with (dep := fun x d => at_depth (nodes tree) (fst (fst x)) d) (D := 31); [| | |lia].
    - intros x d Hx. eapply Hdepth; eauto.
    - intros ((i, p), side) st0 st' ps d Hd Ex. cbn [fst] in Hd. unfold bounds_visit in Ex.
      do 6 apply bind_ok in Ex as (? & _ & Ex). apply bind_ok in Ex as (nd & En & Ex).
      destruct (Z.eqb_spec (nchild nd) (-1)) as [Hl|Hn]; inversion Ex; auto.
      right. right. eexists; eexists. split; [reflexivity|]. cbn [fst]. split; eapply children_deeper; eauto.
    - split; [lia|]. intros i Hi. assert (i = 0 \/ i = 1) as [-> | ->] by lia.
      + exists (2, 0, 0), (0 + 1). rewrite O2 by lia. split; auto. split; auto. lia.
      + exists (1, 0, 1), (0 + 1). split; auto. split; auto. lia.
  Qed.
End Traversals.

(** ** How deep a tree can be *)
Section Depth.
  Context {T : Type} {NT : Num T}.
  Variable nds : list (node T).
  Variable n : Z.
  Hypothesis Hpt : proper_tree nds n.

  Lemma root_in : 0 < zlen nds.
  Proof.
    destruct (pt_root _ _ Hpt) as (_ & nd & E & _). assert (Z.to_nat 0 < length nds)%nat by (apply nth_error_Some; congruence).
    unfold zlen. lia.
  Qed.

  (** every step down loses an element *)
  Lemma depth_size i d : at_depth nds i d -> 0 <= i < zlen nds /\ 0 <= d /\ forall lo hi, covers nds i lo hi -> hi - lo + d <= n.
  Proof.
    induction 1 as [|p i d Hp (H0 & H1 & H2) Hc].
    - split; [pose proof root_in; lia|]. split; [lia|]. intros lo hi H. destruct (covers_fun _ _ _ _ _ _ H (pt_root _ _ Hpt)). lia.
    - destruct (pt_nodes _ _ Hpt p H0) as [(Hl & _)|(c & a & m & b & C1 & C2 & L1 & L2 & P & Q1 & Q2 & B1 & B2 & B3)].
      { destruct (leaf_no_child _ _ _ Hl Hc). }
      specialize (H2 _ _ P). split; [destruct (child_of_cases _ _ _ _ C1 C2 Hc); lia|]. split; [lia|]. intros lo hi H.
      destruct (child_of_cases _ _ _ _ C1 C2 Hc) as [-> | ->].
      + destruct (covers_fun _ _ _ _ _ _ H Q1). lia.
      + destruct (covers_fun _ _ _ _ _ _ H Q2). lia.
  Qed.

  Lemma depth_node i d : at_depth nds i d -> exists nd, nth_error nds (Z.to_nat i) = Some nd /\ 1 <= nsize nd /\ nsize nd + d <= n.
  Proof.
    intros H. destruct (depth_size _ _ H) as (Hi & Hd & Hs).
    destruct (pt_nodes _ _ Hpt i Hi) as [(_ & a & b & P & B1 & B2)|(c & a & m & b & _ & _ & _ & _ & P & _ & _ & B1 & B2 & B3)];
      pose proof (Hs _ _ P) as Hab; destruct P as (_ & nd & E & P1 & P2); exists nd; split; auto; split; lia.
  Qed.

  Lemma depth_divided i d cpl : at_depth nds i d -> 0 < d ->
    (forall nd, In nd nds -> nchild nd <> -1 -> cpl < nsize nd) -> d <= n - cpl.
  Proof.
    intros H Hd Hc. destruct H as [|p i d Hp (H0 & nd & En & Hn & _)]; [lia|].
    destruct (depth_node _ _ Hp) as (nd' & E' & H1 & H2). assert (nd' = nd) by congruence. subst nd'.
    pose proof (Hc nd (nth_error_In _ _ En) Hn). lia.
  Qed.

  Lemma root_children : 1 < zlen nds -> child_of nds 0 1 /\ child_of nds 0 2.
  Proof.
    intros H. destruct (pt_parent _ _ Hpt 1 ltac:(lia)) as (p & (Hp & Hc) & _).
    assert (p = 0) by (destruct Hc; lia). subst p. split; auto.
    destruct (pt_nodes _ _ Hpt 0 ltac:(lia)) as [(Hl & _)|(c & a & m & b & C1 & C2 & L1 & L2 & _)].
    { destruct (leaf_no_child _ _ _ Hl Hc). }
    destruct (child_of_cases _ _ _ _ C1 C2 Hc); [|lia]. subst c. exact C2.
  Qed.
End Depth.

Section Capacity.
  Context {T : Type} {NT : Num T}.
  Variables (nds : list (node T)) (bbc : list (box T)) (bbi : list Z).

  Lemma capacity k : 0 <= k -> (forall nd, In nd nds -> nchild nd = -1 -> nsize nd <= k) ->
    forall idx lo hi S, TreeAt nds bbc bbi idx lo hi S -> forall d D, at_depth nds idx d -> depth_at_most nds D ->
      hi - lo <= k * 2 ^ (D - d).
  Proof.
    intros Hk Hl idx lo hi S HT. induction HT as [idx lo hi nd H0 En Hc Hp Hs Hlt|idx lo mid hi nd c S1 S2 H0 En Hc Hi Hp Hs _ _ _ _ HT1 IH1 HT2 IH2];
      intros d D Hd HD.
    - pose proof (HD _ _ Hd). pose proof (Hl nd (aget_in _ _ _ En) Hc). assert (1 <= 2 ^ (D - d)) by (pose proof (Z.pow_pos_nonneg 2 (D - d)); lia).
      nia.
    - assert (Hch : forall c', c' = c \/ c' = c + 1 -> at_depth nds c' (d + 1)).
      { intros c' Hc'. apply at_child with idx; auto. split; auto. exists nd. split; [now apply aget_pos_inv|]. subst c. split; [lia|auto]. }
      pose proof (IH1 _ _ (Hch c ltac:(auto)) HD) as B1. pose proof (IH2 _ _ (Hch (c + 1) ltac:(auto)) HD) as B2.
      pose proof (HD _ _ (Hch c ltac:(auto))).
      replace (2 ^ (D - d)) with (2 * 2 ^ (D - (d + 1))); [lia|]. rewrite <- Z.pow_succ_r by lia. f_equal. lia.
  Qed.
End Capacity.
