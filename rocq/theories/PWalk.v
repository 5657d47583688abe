(** Traversing a correct tree visits every element that is not pruned. *)
From Verif Require Import Base Num MUtils MGeometry MCreation MAlgorithms MQuery
  PStack PPartition SpecTree PBuild PBuild2.

Lemma list_loop_ext {St A} (v1 v2 : A -> St -> res (step St A)) :
  (forall x st, v1 x st = v2 x st) -> forall fuel l st, list_loop v1 fuel l st = list_loop v2 fuel l st.
Proof.
  intros H. induction fuel as [|fuel IH]; intros l st; destruct l as [|x t]; auto.
  cbn [list_loop]. rewrite H. destruct (v2 x st) as [[]|]; simpl; auto.
Qed.

Lemma stack_loop_ext {St A} mem (v1 v2 : A -> St -> res (step St A)) :
  (forall x st, v1 x st = v2 x st) -> forall fuel s n st,
  stack_loop mem v1 fuel s n st = stack_loop mem v2 fuel s n st.
Proof.
  intros H. induction fuel as [|fuel IH]; intros s n st; cbn [stack_loop]; auto.
  destruct (0 <? n); auto. destruct (pop s n) as [[x m]|]; cbn [bind fst snd]; auto.
  rewrite H. destruct (v2 x st) as [[st' ps|]|]; cbn [bind]; auto.
  destruct (push_all mem s m ps) as [[]|]; cbn [bind fst snd]; auto.
Qed.

Lemma skipn_plus {A} (l : list A) n m : skipn n (skipn m l) = skipn (n + m) l.
Proof.
  revert l. induction m as [|m IH]; intros l; [now rewrite Nat.add_0_r|].
  destruct l as [|x l]; [now rewrite !skipn_nil|].
  replace (n + S m)%nat with (S (n + m)) by lia. simpl. apply IH.
Qed.

Lemma slice_split {A} (l : list A) a b c :
  0 <= a <= b -> b <= c -> slice l a c = slice l a b ++ slice l b c.
Proof.
  intros H1 H2. unfold slice.
  replace (Z.to_nat (c - a)) with (Z.to_nat (b - a) + Z.to_nat (c - b))%nat by lia.
  replace (skipn (Z.to_nat b) l) with (skipn (Z.to_nat (b - a)) (skipn (Z.to_nat a) l)).
  - generalize (skipn (Z.to_nat a) l). generalize (Z.to_nat (b - a)). generalize (Z.to_nat (c - b)).
    intros m n. induction n as [|n IH]; intros l'; simpl; auto.
    destruct l' as [|x l']; simpl; [now rewrite firstn_nil|]. f_equal. apply IH.
  - rewrite skipn_plus. f_equal. lia.
Qed.

Lemma nth_error_skipn' {A} (l : list A) n k : nth_error (skipn n l) k = nth_error l (n + k).
Proof.
  revert l. induction n as [|n IH]; intros [|x l]; simpl; auto. now destruct k.
Qed.
Lemma nth_error_firstn' {A} (l : list A) n k a :
  nth_error (firstn n l) k = Some a -> (k < n)%nat /\ nth_error l k = Some a.
Proof.
  revert n k. induction l as [|x l IH]; intros [|n] [|k] H; simpl in *; try discriminate.
  - split; [lia|auto].
  - destruct (IH n k H). split; [lia|auto].
Qed.

Lemma slice_in {A} (l : list A) a b e :
  0 <= a -> In e (slice l a b) -> exists i, a <= i < b /\ aget l i = Ok e.
Proof.
  intros Ha H. unfold slice in H. apply In_nth_error in H as (k & Hk).
  apply nth_error_firstn' in Hk as (Hlt & Hk). rewrite nth_error_skipn' in Hk.
  exists (a + Z.of_nat k). split; [lia|].
  apply aget_pos; [lia|].
  now replace (Z.to_nat (a + Z.of_nat k)) with (Z.to_nat a + k)%nat by lia.
Qed.

Lemma slice_full {A} (l : list A) n : n = zlen l -> slice l 0 n = l.
Proof.
  intros ->. unfold slice. simpl skipn. apply firstn_all2. unfold zlen. lia.
Qed.

Section Walk.
  Context {T : Type} {NT : Num T}.
  Notation node := (node T).
  Notation box := (box T).
  Notation celltree := (celltree T).

  Variable tree : celltree.
  Notation bbc := (bb_coords tree).
  Notation bbi := (bb_indices tree).

  Lemma leaf_items_ok (nd : node) lo hi :
    nptr nd = lo -> nsize nd = hi - lo -> 0 <= lo <= hi -> hi <= zlen bbi ->
    leaf_items tree nd = Ok (slice bbi lo hi).
  Proof.
    intros Hp Hs Hlo Hhi. unfold leaf_items. rewrite Hp, Hs. unfold slice.
    remember (Z.to_nat (hi - lo)) as m eqn:Em.
    assert (Hm : lo + Z.of_nat m <= zlen bbi) by lia. clear Em Hs Hp Hhi nd.
    unfold iota. rewrite map_map.
    assert (G : forall m k, lo + Z.of_nat (k + m) <= zlen bbi ->
      mapres (aget bbi) (map (fun x => lo + Z.of_nat x) (seq k m))
      = Ok (firstn m (skipn (Z.to_nat lo + k) bbi))).
    { clear m Hm. induction m as [|m IH]; intros k Hk; [reflexivity|].
      simpl seq. simpl map. cbn [mapres].
      destruct (aget_ok_pos bbi (lo + Z.of_nat k)) as (a & E & En); [lia|].
      rewrite E. cbn [bind]. rewrite IH by lia. cbn [bind].
      replace (Z.to_nat (lo + Z.of_nat k)) with (Z.to_nat lo + k)%nat in En by lia.
      replace (Z.to_nat lo + S k)%nat with (S (Z.to_nat lo + k)) by lia.
      assert (E2 : skipn (Z.to_nat lo + k) bbi = a :: skipn (S (Z.to_nat lo + k)) bbi).
      { clear - En. revert En. generalize (Z.to_nat lo + k)%nat. generalize bbi.
        induction l as [|x l IH]; intros [|n] H; simpl in *; try discriminate; [congruence|].
        apply IH. auto. }
      rewrite E2. reflexivity. }
    rewrite (G m 0%nat) by (simpl; lia). now rewrite Nat.add_0_r.
  Qed.

  Variable children : node -> res (list Z).

  Definition visitW {St} (act : list Z -> St -> res (St + St)) (idx : Z) (st : St) : res (step St Z) :=
    let* nd := aget (nodes tree) idx in
    if nchild nd =? -1 then
      let* items := leaf_items tree nd in
      let* r := act items st in
      match r with
      | inl st => Ok (Return st)
      | inr st => Ok (Next st [])
      end
    else
      let* cs := children nd in
      Ok (Next st cs).

  (** an action on the elements of the leaves, one after the other *)
  Definition seq_act {St} (act : list Z -> St -> res (St + St)) : Prop :=
    (forall st, act [] st = Ok (inr st))
    /\ forall l1 l2 st,
    act (l1 ++ l2) st =
    match act l1 st with
    | Err e => Err e
    | Ok (inl st') => Ok (inl st')
    | Ok (inr st') => act l2 st'
    end.

  (** elements that may be skipped *)
  Variable P : Z -> Prop.
  Hypothesis HpL : forall nd l e bx, children nd = Ok l -> ~ In (nchild nd) l ->
    aget bbc e = Ok bx -> nleb (side_hi (ndim nd) bx) (nLmax nd) = true -> P e.
  Hypothesis HpR : forall nd l e bx, children nd = Ok l -> ~ In (nchild nd + 1) l ->
    aget bbc e = Ok bx -> nleb (nRmin nd) (side_lo (ndim nd) bx) = true -> P e.
  Definition good_children (l : list Z) (c : Z) : Prop :=
    l = [] \/ l = [c] \/ l = [c + 1] \/ l = [c; c + 1] \/ l = [c + 1; c].
  Hypothesis Hch : forall i nd, aget (nodes tree) i = Ok nd -> nchild nd <> -1 ->
    exists l, children nd = Ok l /\ good_children l (nchild nd).
  Hypothesis Hrange : Forall (in_range bbc) bbi.

  Lemma range_prune lo hi (Q : box -> Prop) :
    0 <= lo -> range_all bbc bbi lo hi Q ->
    (forall e bx, aget bbc e = Ok bx -> Q bx -> P e) ->
    Forall P (slice bbi lo hi).
  Proof.
    intros Hlo H HQ. apply Forall_forall. intros e He.
    destruct (slice_in _ _ _ _ Hlo He) as (i & Hi & E).
    assert (Hin : in_range bbc e).
    { rewrite Forall_forall in Hrange. apply Hrange. eapply aget_in; eauto. }
    destruct (aget_ok_pos bbc e Hin) as (bx & Eb & _). eauto.
  Qed.

  Definition after {St} (act : list Z -> St -> res (St + St)) (F : nat) (rest : list Z) (r : res (St + St)) : res St :=
    match r with
    | Err e => Err e
    | Ok (inl st) => Ok st
    | Ok (inr st) => list_loop (visitW act) F rest st
    end.

  Lemma walk idx lo hi S :
    TreeAt (nodes tree) bbc bbi idx lo hi S -> 0 <= lo -> hi <= zlen bbi ->
    exists c vis prn, (c <= length S)%nat
      /\ Permutation (slice bbi lo hi) (vis ++ prn) /\ Forall P prn
      /\ forall (St : Type) (act : list Z -> St -> res (St + St)), seq_act act ->
         forall F rest st,
           list_loop (visitW act) (c + F) (idx :: rest) st = after act F rest (act vis st).
  Proof.
    induction 1 as [idx lo hi nd H0 E Hc Hp Hs Hlt|
                    idx lo mid hi nd c S1 S2 H0 E Hc Hlt Hp Hs HL HR HLa HRa H1 IH1 H2 IH2];
      intros Hlo Hhi.
    - exists 1%nat, (slice bbi lo hi), []. split; [simpl; lia|].
      split; [now rewrite app_nil_r|]. split; [constructor|].
      intros St act Hact F rest st. destruct Hact as (act_nil & act_app) eqn:Edum; clear Edum. cbn [Nat.add list_loop]. unfold visitW at 1. rewrite E. cbn [bind].
      rewrite Hc. cbn [Z.eqb Pos.eqb]. rewrite (leaf_items_ok nd lo hi) by (auto; lia). cbn [bind].
      destruct (act (slice bbi lo hi) st) as [[st'|st']|e]; reflexivity.
    - assert (Hlm : lo < mid) by (eapply TreeAt_lt; eauto).
      assert (Hmh : mid < hi) by (eapply TreeAt_lt; eauto).
      destruct IH1 as (c1 & v1 & p1 & Hc1 & Hp1 & HP1 & Hl1); [lia|lia|].
      destruct IH2 as (c2 & v2 & p2 & Hc2 & Hp2 & HP2 & Hl2); [lia|lia|].
      destruct (Hch idx nd E) as (l & El & Hgood); [lia|].
      rewrite Hc in *.
      assert (Estep : forall (St : Type) (act : list Z -> St -> res (St + St)) st,
                 visitW act idx st = Ok (Next st l)).
      { intros St act st. unfold visitW. rewrite E. cbn [bind].
        destruct (nchild nd =? -1) eqn:E1; [lia|]. rewrite El. reflexivity. }
      assert (PL : ~ In c l -> Forall P (slice bbi lo mid)).
      { intros Hn. eapply range_prune; [lia|exact HL|]. intros e bx Hb HQ.
        eapply HpL; eauto. now rewrite Hc. }
      assert (PR : ~ In (c + 1) l -> Forall P (slice bbi mid hi)).
      { intros Hn. eapply range_prune; [lia|exact HR|]. intros e bx Hb HQ.
        eapply HpR; eauto. now rewrite Hc. }
      rewrite (slice_split bbi lo mid hi) by lia.
      assert (Hlen : length (idx :: S1 ++ S2) = Datatypes.S (length S1 + length S2))
        by (simpl; now rewrite app_length).
      rewrite Hlen.
      destruct Hgood as [H5 | [H5 | [H5 | [H5 | H5]]]]; subst l.
      + exists 1%nat, [], (slice bbi lo mid ++ slice bbi mid hi).
        split; [lia|]. split; [reflexivity|]. split.
        { apply Forall_app. split; [apply PL|apply PR]; simpl; lia. }
        intros St act Hact F rest st. destruct Hact as (act_nil & act_app) eqn:Edum; clear Edum. cbn [Nat.add list_loop]. rewrite Estep. cbn [bind rev app].
        rewrite act_nil. reflexivity.
      + exists (Datatypes.S c1), v1, (p1 ++ slice bbi mid hi).
        split; [lia|]. split; [rewrite Hp1; now rewrite <- app_assoc|]. split.
        { apply Forall_app. split; auto. apply PR. simpl; lia. }
        intros St act Hact F rest st. destruct Hact as (act_nil & act_app) eqn:Edum; clear Edum. cbn [Nat.add list_loop]. rewrite Estep. cbn [bind rev app]. now apply Hl1.
      + exists (Datatypes.S c2), v2, (p2 ++ slice bbi lo mid).
        split; [lia|]. split.
        { rewrite Hp2. rewrite (Permutation_app_comm (slice bbi lo mid)). now rewrite <- app_assoc. }
        split.
        { apply Forall_app. split; auto. apply PL. simpl; lia. }
        intros St act Hact F rest st. destruct Hact as (act_nil & act_app) eqn:Edum; clear Edum. cbn [Nat.add list_loop]. rewrite Estep. cbn [bind rev app]. now apply Hl2.
      + exists (Datatypes.S (c2 + c1)), (v2 ++ v1), (p2 ++ p1).
        split; [lia|]. split.
        { rewrite Hp1, Hp2. clear. rewrite (Permutation_app_comm (v1 ++ p1)).
          rewrite <- !app_assoc. apply Permutation_app_head.
          rewrite !app_assoc. apply Permutation_app_tail. apply Permutation_app_comm. }
        split; [apply Forall_app; auto|].
        intros St act Hact F rest st. destruct Hact as (act_nil & act_app) eqn:Edum; clear Edum. cbn [Nat.add list_loop]. rewrite Estep. cbn [bind rev app].
        replace (c2 + c1 + F)%nat with (c2 + (c1 + F))%nat by lia.
        rewrite Hl2 by auto. unfold after at 1. rewrite act_app.
        destruct (act v2 st) as [[st1|st1]|e]; auto.
      + exists (Datatypes.S (c1 + c2)), (v1 ++ v2), (p1 ++ p2).
        split; [lia|]. split.
        { rewrite Hp1, Hp2. clear. rewrite <- !app_assoc. apply Permutation_app_head.
          rewrite !app_assoc. apply Permutation_app_tail. apply Permutation_app_comm. }
        split; [apply Forall_app; auto|].
        intros St act Hact F rest st. destruct Hact as (act_nil & act_app) eqn:Edum; clear Edum. cbn [Nat.add list_loop]. rewrite Estep. cbn [bind rev app].
        replace (c1 + c2 + F)%nat with (c1 + (c2 + F))%nat by lia.
        rewrite Hl1 by auto. unfold after at 1. rewrite act_app.
        destruct (act v1 st) as [[st1|st1]|e]; auto.
  Qed.

  (** Traversal from the root *)
  Lemma traverse_ok S :
    TreeAt (nodes tree) bbc bbi 0 0 (zlen bbi) S ->
    (length S <= length (nodes tree))%nat ->
    exists vis prn, Permutation bbi (vis ++ prn) /\ Forall P prn
      /\ forall (St : Type) (act : list Z -> St -> res (St + St)), seq_act act ->
         forall g st, traverse g tree (visitW act) st =
           match act vis st with
           | Err e => Err e
           | Ok (inl st) => Ok st
           | Ok (inr st) => Ok st
           end.
  Proof.
    intros HT HS. destruct (walk 0 0 (zlen bbi) S HT) as (c & vis & prn & Hc & Hp & HP & Hl);
      [lia|lia|].
    exists vis, prn. split; [rewrite slice_full in Hp; auto|]. split; auto.
    intros St act Hact g st. unfold traverse.
    destruct (alloc_rep (gZ g) 0) as (stk & Es & Hstk). rewrite Es. cbn [bind].
    rewrite (stack_loop_list _ _ (traverse_fuel tree) stk 1 [0] _ Hstk).
    unfold traverse_fuel.
    replace (Datatypes.S (length (nodes tree))) with (c + (Datatypes.S (length (nodes tree)) - c))%nat by lia.
    rewrite Hl by auto. unfold after. destruct (act vis st) as [[st'|st']|e]; auto.
    destruct (_ - c)%nat; reflexivity.
  Qed.
End Walk.
