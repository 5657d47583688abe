(** node_bounds and validate_node_bounds on correct trees. *)
From Verif Require Import Base Num MUtils MGeometry MCreation MAlgorithms MQuery MCelltree
  PStack PPartition SpecTree PBuild PBuild2 PWalk PCollect SpecQuery PQuery PMesh PInit SpecApi
  PTreeFacts PApi NumR NumB64.
From Coq Require Import Reals Lra.
Open Scope Z_scope.

(** a number that compares [<=] with anything is not NaN *)
Class NumRefl (T : Type) {NT : Num T} := {
  nle_refl_l : forall x y : T, nleb x y = true -> nleb x x = true;
  nle_refl_r : forall x y : T, nleb x y = true -> nleb y y = true
}.
#[export] Instance NumReflR : NumRefl R.
Proof. constructor; intros x y _; simpl; apply Raux.Rle_bool_true, Rle_refl. Qed.
#[export] Instance NumReflB64 : NumRefl b64.
Proof.
  constructor; intros x y; simpl; rewrite !Bleb_key; intros H;
    apply andb_prop in H as (H & _); apply andb_prop in H as (Hx & Hy);
    rewrite ?Hx, ?Hy; cbn [andb]; apply Z.leb_refl || (apply Raux.Rle_bool_true, Rle_refl) || reflexivity.
Qed.

Section Bounds.
  Context {T : Type} {NT : Num T} {NO : NumOrd T} {NR : NumRefl T}.
  Notation box := (box T).
  Notation celltree := (celltree T).

  Definition self_le (b : box) : Prop := box_within b b.

  Lemma within_self a b : box_within a b -> self_le b.
  Proof.
    intros (H1 & H2 & H3 & H4). unfold self_le, box_within.
    repeat split; (eapply nle_refl_l; eassumption) || (eapply nle_refl_r; eassumption).
  Qed.

  Lemma box_contained_spec a b : box_contained a b = true <-> box_within a b.
  Proof.
    unfold box_contained, box_within. rewrite !andb_true_iff. tauto.
  Qed.

  (** replace the upper side ([side = true], left child) or the lower side *)
  Definition child_box (B : box) (d side : bool) (v : T) : box :=
    match d, side with
    | false, false => Box v (xmax B) (ymin B) (ymax B)
    | false, true => Box (xmin B) v (ymin B) (ymax B)
    | true, false => Box (xmin B) (xmax B) v (ymax B)
    | true, true => Box (xmin B) (xmax B) (ymin B) v
    end.

  Definition zb (b : bool) : Z := if b then 1 else 0.

  Lemma set_col_child B (d side : bool) v :
    set_col B ((if d then 1 else 0) * 2 + zb side) v = Ok (child_box B d side v).
  Proof. destruct B, d, side; reflexivity. Qed.

  Lemma child_left_within e B d v :
    box_within e B -> nleb (side_hi d e) v = true -> box_within e (child_box B d true v).
  Proof. intros (H1 & H2 & H3 & H4) H. destruct B, d; repeat split; simpl in *; auto. Qed.
  Lemma child_right_within e B d v :
    box_within e B -> nleb v (side_lo d e) = true -> box_within e (child_box B d false v).
  Proof. intros (H1 & H2 & H3 & H4) H. destruct B, d; repeat split; simpl in *; auto. Qed.
  Lemma child_left_parent e B d v :
    box_within e B -> nleb v (side_hi d e) = true -> box_within (child_box B d true v) B.
  Proof.
    intros He H. destruct (within_self _ _ He) as (S1 & S2 & S3 & S4).
    destruct He as (H1 & H2 & H3 & H4).
    destruct B, d; repeat split; simpl in *; auto; eapply nle_trans; eauto.
  Qed.
  Lemma child_right_parent e B d v :
    box_within e B -> nleb (side_lo d e) v = true -> box_within (child_box B d false v) B.
  Proof.
    intros He H. destruct (within_self _ _ He) as (S1 & S2 & S3 & S4).
    destruct He as (H1 & H2 & H3 & H4).
    destruct B, d; repeat split; simpl in *; auto; (eapply nle_trans; [|exact H]; assumption) || (eapply nle_trans; eassumption).
  Qed.

  Variable tree : celltree.
  Notation nodes := (nodes tree).
  Notation bbc := (bb_coords tree).
  Notation bbi := (bb_indices tree).
  Notation TreeAt := (TreeAt nodes bbc bbi).

  (** the box of node [i] holds the boxes of the entries it covers and the
      boxes of its children *)
  Definition node_ok (nb : list box) (i : Z) : Prop :=
    exists B, aget nb i = Ok B
      /\ (forall lo hi, covers nodes i lo hi -> range_all bbc bbi lo hi (fun b => box_within b B))
      /\ (forall c, child_of nodes i c -> exists C, aget nb c = Ok C /\ box_within C B).

  Lemma aset_spec {A} (l : list A) i v : 0 <= i < zlen l ->
    exists l', aset l i v = Ok l' /\ length l' = length l /\ aget l' i = Ok v
      /\ forall j, 0 <= j -> j <> i -> aget l' j = aget l j.
  Proof.
    intros Hi. exists (list_set l (Z.to_nat i) v). rewrite aset_pos by auto. unfold zlen in Hi.
    repeat split; auto.
    - apply list_set_length.
    - apply aget_pos; [lia|]. apply nth_error_list_set_eq. lia.
    - intros j Hj Hne. destruct (Z_lt_le_dec j (Z.of_nat (length l))).
      + destruct (aget_ok_pos l j) as (a & Ea & En); [unfold zlen; lia|]. rewrite Ea.
        apply aget_pos; auto. rewrite nth_error_list_set_neq; auto. lia.
      + unfold aget, norm_idx. rewrite list_set_length.
        destruct (j <? Z.of_nat (length l)) eqn:E1; [lia|]. destruct (j <? 0) eqn:E2; [lia|].
        now rewrite !andb_false_r.
  Qed.

  Lemma range_all_sub a b c d (P : box -> Prop) :
    range_all bbc bbi a b P -> a <= c -> d <= b -> range_all bbc bbi c d P.
  Proof. intros H Hc Hd i e bx Hi. apply H. lia. Qed.

  Lemma bounds_sub idx lo hi S : TreeAt idx lo hi S -> NoDup S ->
    Forall (fun i => i < zlen nodes) S ->
    forall nb parent side pb pn,
    length nb = length nodes ->
    0 <= parent < idx -> aget nodes parent = Ok pn -> aget nb parent = Ok pb ->
    let B := child_box pb (ndim pn) side (if side then nLmax pn else nRmin pn) in
    range_all bbc bbi lo hi (fun b => box_within b B) ->
    exists nb', length nb' = length nodes
      /\ (forall F rest, list_loop (bounds_visit tree) (length S + F) ((idx, parent, zb side) :: rest) nb
                     = list_loop (bounds_visit tree) F rest nb')
      /\ (forall j, 0 <= j -> ~ In j S -> aget nb' j = aget nb j)
      /\ aget nb' idx = Ok B
      /\ Forall (node_ok nb') S.
  Proof.
    intros HT. induction HT as [idx lo hi nd H1 H2 H3 H4 H5 H6
                   |idx lo mid hi nd c S1 S2 H1 H2 H3 Hc H4 H5 HL HR EL ER HT1 IH1 HT2 IH2];
      intros Hnd Hlt nb parent side pb pn Hlen Hp Epn Epb B HB.
    - inversion Hlt as [|? ? Hi _]; subst.
      assert (Hi1 : 0 <= idx < zlen nb) by (unfold zlen in *; rewrite Hlen; lia).
      destruct (aset_spec nb idx pb Hi1) as (nb1 & E1 & L1 & G1 & O1).
      assert (Hi2 : 0 <= idx < zlen nb1) by (unfold zlen in *; rewrite L1; lia).
      destruct (aset_spec nb1 idx B Hi2) as (nb2 & E2 & L2 & G2 & O2).
      exists nb2. split; [congruence|]. split; [|split; [|split; [exact G2|]]].
      + intros F rest. cbn [length Nat.add list_loop bounds_visit]. rewrite Epn. cbn [bind].
        rewrite Epb. cbn [bind]. rewrite E1. cbn [bind]. rewrite G1. cbn [bind].
        rewrite set_col_child. cbn [bind].
        replace (if negb (zb side =? 0) then nLmax pn else nRmin pn)
          with (if side then nLmax pn else nRmin pn) by (destruct side; reflexivity).
        fold B. rewrite E2. cbn [bind]. rewrite H2. cbn [bind]. rewrite H3. reflexivity.
      + intros j Hj Hn. rewrite O2, O1; auto; intros ->; apply Hn; now left.
      + constructor; auto. exists B. split; auto. split.
        * intros lo' hi' Hcov. assert (Hc0 : covers nodes idx (nptr nd) hi).
          { split; auto. exists nd. split; [now apply aget_pos_inv|]. lia. }
          destruct (covers_fun nodes _ _ _ _ _ Hcov Hc0) as (-> & ->). exact HB.
        * intros c Hcc. destruct (leaf_no_child nodes c idx); auto. split; auto.
          exists nd. split; auto. now apply aget_pos_inv.
    - inversion Hlt as [|? ? Hi Hlt']; subst. apply Forall_app in Hlt' as (Hlt1 & Hlt2).
      inversion Hnd as [|? ? Hnotin Hnd']; subst.
      assert (N1 : NoDup S1) by (exact (NoDup_app_mid [] S1 S2 Hnd')).
      assert (N2 : NoDup S2) by (apply (NoDup_app_mid S1 S2 []); now rewrite app_nil_r).
      assert (Hdisj : forall x, In x S1 -> In x S2 -> False).
      { clear - Hnd'. induction S1 as [|y S1 IH]; simpl; [tauto|]. inversion Hnd'; subst.
        intros x [->|Hx] Hx2; [apply H1; apply in_or_app; auto|eauto]. }
      destruct (TreeAt_root _ _ _ _ _ _ _ HT1) as (R1 & I1 & Hl1).
      destruct (TreeAt_root _ _ _ _ _ _ _ HT2) as (R2 & I2 & Hl2).
      assert (Hi1 : 0 <= idx < zlen nb) by (unfold zlen in *; rewrite Hlen; lia).
      destruct (aset_spec nb idx pb Hi1) as (nb1 & E1 & L1 & G1 & O1).
      assert (Hi2 : 0 <= idx < zlen nb1) by (unfold zlen in *; rewrite L1; lia).
      destruct (aset_spec nb1 idx B Hi2) as (nb2 & E2 & L2 & G2 & O2).
      assert (HB1 : range_all bbc bbi (nptr nd) mid
                (fun b => box_within b (child_box B (ndim nd) true (nLmax nd)))).
      { intros i e bx Hie Ee Eb. apply child_left_within; [|eapply HL; eauto].
        eapply HB; eauto. lia. }
      assert (HB2 : range_all bbc bbi mid hi
                (fun b => box_within b (child_box B (ndim nd) false (nRmin nd)))).
      { intros i e bx Hie Ee Eb. apply child_right_within; [|eapply HR; eauto].
        eapply HB; eauto. lia. }
      destruct (IH1 N1 Hlt1 nb2 idx true B nd ltac:(congruence) ltac:(lia) H2 G2 HB1)
        as (nb3 & L3 & Lp3 & O3 & G3 & F3).
      assert (G3i : aget nb3 idx = Ok B).
      { rewrite O3; auto. intros Hin. apply Hnotin, in_or_app; auto. }
      destruct (IH2 N2 Hlt2 nb3 idx false B nd L3 ltac:(lia) H2 G3i HB2)
        as (nb4 & L4 & Lp4 & O4 & G4 & F4).
      assert (G4i : aget nb4 idx = Ok B).
      { rewrite O4; auto. intros Hin. apply Hnotin, in_or_app; auto. }
      assert (G4c : aget nb4 (nchild nd) = Ok (child_box B (ndim nd) true (nLmax nd))).
      { rewrite O4; auto. intros Hin. eauto. }
      exists nb4. split; auto. split; [|split; [|split; [exact G4i|]]].
      + intros F rest. cbn [length Nat.add list_loop bounds_visit]. rewrite Epn. cbn [bind].
        rewrite Epb. cbn [bind]. rewrite E1. cbn [bind]. rewrite G1. cbn [bind].
        rewrite set_col_child. cbn [bind].
        replace (if negb (zb side =? 0) then nLmax pn else nRmin pn)
          with (if side then nLmax pn else nRmin pn) by (destruct side; reflexivity).
        fold B. rewrite E2. cbn [bind]. rewrite H2. cbn [bind].
        destruct (nchild nd =? -1) eqn:Em1; [lia|]. cbn [rev app].
        rewrite app_length, <- Nat.add_assoc. 
        etransitivity; [exact (Lp3 _ _)|exact (Lp4 _ _)].
      + intros j Hj Hn. assert (~ In j S1 /\ ~ In j S2 /\ j <> idx) as (A1 & A2 & A3).
        { repeat split; intros Hx; apply Hn; [right|right|left; auto]; apply in_or_app; auto. }
        rewrite O4, O3, O2, O1; auto.
      + constructor.
        * exists B. split; auto. split.
          -- intros lo' hi' Hcov. assert (Hc0 : covers nodes idx (nptr nd) hi).
             { split; auto. exists nd. split; [now apply aget_pos_inv|]. lia. }
             destruct (covers_fun nodes _ _ _ _ _ Hcov Hc0) as (-> & ->). exact HB.
          -- intros c (_ & nd' & En' & _ & Hcc). apply aget_pos_inv in H2; auto.
             assert (nd' = nd) by congruence. subst nd'. destruct Hcc as [-> | ->].
             ++ exists (child_box B (ndim nd) true (nLmax nd)). split; auto.
                destruct EL as (i & e & bx & Hie & Ee & Eb & Hv).
                eapply child_left_parent; [|exact Hv]. eapply HB; eauto.
             ++ exists (child_box B (ndim nd) false (nRmin nd)). split; auto.
                destruct ER as (i & e & bx & Hie & Ee & Eb & Hv).
                eapply child_right_parent; [|exact Hv]. eapply HB; eauto.
        * apply Forall_app. split; auto.
          rewrite Forall_forall in F3 |- *. intros i Hiin.
          destruct (F3 i Hiin) as (B' & EB' & HB1' & HB2').
          assert (Hi0 : 0 <= i).
          { pose proof (TreeAt_min _ _ _ _ _ _ _ HT1) as M. rewrite Forall_forall in M.
            specialize (M i Hiin). lia. }
          exists B'. split; [rewrite O4; eauto|]. split; auto.
          intros c Hcc. destruct (HB2' c Hcc) as (C & EC & HC). exists C. split; auto.
          destruct (TreeAt_closed _ _ _ _ _ _ _ _ _ HT1 Hiin Hcc) as (Hcin & Hcl).
          rewrite O4; eauto. lia.
  Qed.

  Lemma tree_split0 n S : TreeAt 0 0 n S -> Permutation S (iota (length nodes)) ->
    (2 <= length nodes)%nat ->
    exists nd mid S1 S2, S = 0 :: S1 ++ S2 /\ aget nodes 0 = Ok nd /\ nchild nd = 1
      /\ nptr nd = 0 /\ nsize nd = n
      /\ range_all bbc bbi 0 mid (fun b => nleb (side_hi (ndim nd) b) (nLmax nd) = true)
      /\ range_all bbc bbi mid n (fun b => nleb (nRmin nd) (side_lo (ndim nd) b) = true)
      /\ range_ex bbc bbi 0 n (fun b => nleb (nLmax nd) (side_hi (ndim nd) b) = true)
      /\ range_ex bbc bbi 0 n (fun b => nleb (side_lo (ndim nd) b) (nRmin nd) = true)
      /\ TreeAt 1 0 mid S1 /\ TreeAt 2 mid n S2.
  Proof.
    intros HT HP Hn.
    assert (Hnd : NoDup S) by (eapply Permutation_NoDup; [symmetry; exact HP|apply iota_nodup]).
    assert (H1 : In 1 S).
    { eapply Permutation_in; [symmetry; exact HP|]. apply iota_in. lia. }
    destruct (TreeAt_parent _ _ _ _ _ _ _ HT Hnd 1 H1 ltac:(lia)) as (p & Hp & Hpc & _).
    destruct (TreeAt_closed _ _ _ _ _ _ _ _ _ HT Hp Hpc) as (_ & Hlt).
    pose proof (TreeAt_min _ _ _ _ _ _ _ HT) as M. rewrite Forall_forall in M.
    specialize (M p Hp). assert (p = 0) by lia. subst p. clear M Hlt Hp.
    inversion HT as [? ? ? nd A1 A2 A3 A4 A5 A6|? ? mid ? nd c S1 S2 A1 A2 A3 Ac A4 A5 AL AR EL ER HT1 HT2]; subst.
    - destruct Hpc as (_ & nd' & E & Hne & _). apply aget_pos_inv in A2; auto. congruence.
    - destruct Hpc as (_ & nd' & E & Hne & Hc). pose proof (aget_pos_inv _ _ _ A1 A2) as E2.
      assert (nd' = nd) by congruence. subst nd'.
      assert (Hc1 : nchild nd = 1) by lia. rewrite Hc1 in HT1, HT2.
      exists nd, mid, S1, S2. repeat match goal with |- _ /\ _ => split end; auto; lia.
  Qed.

  Theorem collect_node_bounds_ok (g : garbage T) : valid_tree tree -> (2 <= length nodes)%nat ->
    exists nb, collect_node_bounds g tree = Ok nb /\ length nb = length nodes
      /\ aget nb 0 = Ok (bbox tree)
      /\ forall i, 0 <= i < zlen nodes -> node_ok nb i.
  Proof.
    intros HV Hn. destruct (vt_tree _ HV) as (S & HT & HP).
    destruct (tree_split0 _ _ HT HP Hn)
      as (nd & mid & S1 & S2 & -> & En & Hc & Hptr & Hsz & AL & AR & EL & ER & HT1 & HT2).
    assert (Hnd : NoDup (0 :: S1 ++ S2)) by (eapply Permutation_NoDup; [symmetry; exact HP|apply iota_nodup]).
    inversion Hnd as [|? ? Hnotin Hnd']; subst.
    assert (N1 : NoDup S1) by (exact (NoDup_app_mid [] S1 S2 Hnd')).
    assert (N2 : NoDup S2) by (apply (NoDup_app_mid S1 S2 []); now rewrite app_nil_r).
    assert (Hdisj : forall x, In x S1 -> In x S2 -> False).
    { clear - Hnd'. induction S1 as [|y S1 IH]; simpl; [tauto|]. inversion Hnd'; subst.
      intros x [->|Hx] Hx2; [apply H1; apply in_or_app; auto|eauto]. }
    assert (Hlt : forall i, In i (0 :: S1 ++ S2) <-> 0 <= i < zlen nodes).
    { intros i. unfold zlen. rewrite <- iota_in. split; apply Permutation_in; auto. now symmetry. }
    destruct (TreeAt_root _ _ _ _ _ _ _ HT1) as (R1 & I1 & Hl1).
    destruct (TreeAt_root _ _ _ _ _ _ _ HT2) as (R2 & I2 & Hl2).
    unfold collect_node_bounds.
    set (nb0 := np_empty (gbox g) (length nodes)).
    assert (L0 : length nb0 = length nodes) by apply np_empty_length.
    destruct (aset_spec nb0 0 (bbox tree)) as (nb1 & E1 & L1 & G1 & O1); [unfold zlen; lia|].
    rewrite E1. cbn [bind].
    destruct (alloc_rep2 (gZZZ g) (2, 0, 0) (1, 0, 1)) as (arr & arr' & Ea & Ea' & Rep).
    rewrite Ea. cbn [bind]. rewrite Ea'. cbn [bind].
    rewrite (stack_loop_list _ _ _ _ _ _ _ Rep).
    assert (HB : range_all bbc bbi 0 (zlen bbc) (fun b => box_within b (bbox tree))).
    { intros i e bx Hi Ee Eb. pose proof (vt_bbox _ HV) as Hb. rewrite Forall_forall in Hb.
      apply Hb. eapply aget_in; eauto. }
    assert (HB1 : range_all bbc bbi 0 mid
              (fun b => box_within b (child_box (bbox tree) (ndim nd) true (nLmax nd)))).
    { intros i e bx Hie Ee Eb. apply child_left_within; [|eapply AL; eauto].
      eapply HB; eauto. lia. }
    assert (HB2 : range_all bbc bbi mid (zlen bbc)
              (fun b => box_within b (child_box (bbox tree) (ndim nd) false (nRmin nd)))).
    { intros i e bx Hie Ee Eb. apply child_right_within; [|eapply AR; eauto].
      eapply HB; eauto. lia. }
    assert (F1 : Forall (fun i => i < zlen nodes) S1).
    { rewrite Forall_forall. intros i Hi. apply Hlt. right. apply in_or_app; auto. }
    assert (F2 : Forall (fun i => i < zlen nodes) S2).
    { rewrite Forall_forall. intros i Hi. apply Hlt. right. apply in_or_app; auto. }
    destruct (bounds_sub _ _ _ _ HT1 N1 F1 nb1 0 true (bbox tree) nd
                ltac:(congruence) ltac:(lia) En G1 HB1) as (nb3 & L3 & Lp3 & O3 & G3 & F3).
    assert (G3i : aget nb3 0 = Ok (bbox tree)).
    { rewrite O3; auto; [lia|]. intros Hin. apply Hnotin, in_or_app; auto. }
    destruct (bounds_sub _ _ _ _ HT2 N2 F2 nb3 0 false (bbox tree) nd
                L3 ltac:(lia) En G3i HB2) as (nb4 & L4 & Lp4 & O4 & G4 & F4).
    exists nb4.
    assert (HS : length nodes = Datatypes.S (length S1 + length S2)).
    { apply Permutation_length in HP. rewrite iota_length in HP. cbn [length] in HP.
      rewrite app_length in HP. lia. }
    assert (G40 : aget nb4 0 = Ok (bbox tree)).
    { rewrite O4; auto; [lia|]. intros Hin. apply Hnotin, in_or_app; auto. }
    split; [|split; [|split]]; auto.
    - unfold traverse_fuel. rewrite HS.
      replace (Datatypes.S (Datatypes.S (length S1 + length S2)))
        with (length S1 + (length S2 + 2))%nat by lia.
      etransitivity; [exact (Lp3 _ _)|]. etransitivity; [exact (Lp4 _ _)|]. reflexivity.
    - intros i Hi. apply Hlt in Hi. destruct Hi as [<-|Hi]; [|apply in_app_or in Hi as [Hi|Hi]].
      + exists (bbox tree). split; auto. split.
        * intros lo' hi' Hcov. assert (Hc0 : covers nodes 0 0 (zlen bbc)).
          { split; [lia|]. exists nd. split; [apply aget_pos_inv; auto; lia|]. lia. }
          destruct (covers_fun nodes _ _ _ _ _ Hcov Hc0) as (-> & ->). exact HB.
        * intros c (_ & nd' & En' & _ & Hcc). apply aget_pos_inv in En; [|lia].
          assert (nd' = nd) by congruence. subst nd'. rewrite Hc in Hcc. destruct Hcc as [-> | ->].
          -- exists (child_box (bbox tree) (ndim nd) true (nLmax nd)). split.
             { rewrite O4; eauto. }
             destruct EL as (i & e & bx & Hie & Ee & Eb & Hv).
             eapply child_left_parent; [|exact Hv]. eapply HB; eauto.
          -- exists (child_box (bbox tree) (ndim nd) false (nRmin nd)). split; auto.
             destruct ER as (i & e & bx & Hie & Ee & Eb & Hv).
             eapply child_right_parent; [|exact Hv]. eapply HB; eauto.
      + rewrite Forall_forall in F3. destruct (F3 i Hi) as (B' & EB' & HB1' & HB2').
        assert (Hi0 : 0 <= i).
        { pose proof (TreeAt_min _ _ _ _ _ _ _ HT1) as M. rewrite Forall_forall in M.
          specialize (M i Hi). lia. }
        exists B'. split; [rewrite O4; eauto|]. split; auto.
        intros c Hcc. destruct (HB2' c Hcc) as (C & EC & HC). exists C. split; auto.
        destruct (TreeAt_closed _ _ _ _ _ _ _ _ _ HT1 Hi Hcc) as (Hcin & Hcl).
        rewrite O4; eauto. lia.
      + rewrite Forall_forall in F4. auto.
  Qed.

  (** what validate_node_bounds checks at node [i] *)
  Definition valid_at (nb : list box) (i : Z) : Prop :=
    exists B, aget nb i = Ok B
      /\ (is_leaf nodes i -> forall lo hi, covers nodes i lo hi ->
             range_all bbc bbi lo hi (fun b => box_within b B))
      /\ (forall c, child_of nodes i c -> exists C, aget nb c = Ok C /\ box_within C B).

  Lemma fold_contained B items : Forall (fun i => 0 <= i < zlen bbc) items -> forall acc,
    exists b, foldres items (fun i valid => let* lb := aget bbc i in
                                 Ok (valid && box_contained lb B)) acc = Ok b
      /\ (b = true <-> acc = true /\ forall i bx, In i items -> aget bbc i = Ok bx -> box_within bx B).
  Proof.
    induction 1 as [|i items Hi _ IH]; intros acc; cbn [foldres].
    - exists acc. split; auto. split; [intros H; split; auto; intros ? ? []|tauto].
    - destruct (aget_ok_pos bbc i Hi) as (bx & Eb & _). rewrite Eb. cbn [bind].
      destruct (IH (acc && box_contained bx B)) as (b & E & Hb). exists b. split; auto.
      rewrite Hb, andb_true_iff, box_contained_spec. split.
      + intros ((Ha & Hw) & Hr). split; auto. intros j by_ [->|Hj] Ej; [congruence|eauto].
      + intros (Ha & Hr). split; [split; auto|]; intros; eapply Hr; eauto; [now left|now right].
  Qed.

  Lemma nth_skipn {A} : forall (l : list A) m j, nth_error (skipn m l) j = nth_error l (m + j).
  Proof.
    induction l as [|h t IH]; intros [|m] j; cbn [skipn Nat.add nth_error]; auto. destruct j; reflexivity.
  Qed.
  Lemma nth_firstn {A} : forall (l : list A) m j, (j < m)%nat -> nth_error (firstn m l) j = nth_error l j.
  Proof.
    induction l as [|h t IH]; intros [|m] [|j] H; cbn [firstn nth_error]; auto; try lia.
    apply IH. lia.
  Qed.

  Lemma in_slice (l : list Z) a b x : 0 <= a <= b -> b <= zlen l ->
    In x (slice l a b) <-> exists i, a <= i < b /\ aget l i = Ok x.
  Proof.
    unfold zlen. intros Ha Hb. unfold slice. split.
    - intros H. apply In_nth_error in H as (k & Hk).
      assert (Hkl : (k < Z.to_nat (b - a))%nat).
      { assert (k < length (firstn (Z.to_nat (b - a)) (skipn (Z.to_nat a) l)))%nat
          by (apply nth_error_Some; congruence). rewrite firstn_length in H. lia. }
      exists (a + Z.of_nat k). split; [lia|]. apply aget_pos; [lia|].
      rewrite nth_firstn, nth_skipn in Hk by lia.
      replace (Z.to_nat (a + Z.of_nat k)) with (Z.to_nat a + k)%nat by lia. exact Hk.
    - intros (i & Hi & E). apply aget_pos_inv in E; [|lia].
      apply nth_error_In with (n := Z.to_nat (i - a)). rewrite nth_firstn, nth_skipn by lia.
      replace (Z.to_nat a + Z.to_nat (i - a))%nat with (Z.to_nat i) by lia. exact E.
  Qed.

  Lemma validate_sub idx lo hi S nb : TreeAt idx lo hi S -> NoDup S ->
    Forall (fun i => i < zlen nodes) S -> 0 <= lo -> hi <= zlen bbi ->
    Forall (fun e => 0 <= e < zlen bbc) bbi ->
    length nb = length nodes ->
    forall v, length v = length nodes ->
    exists v', length v' = length nodes
      /\ (forall F rest, list_loop (validate_visit tree nb) (length S + F) (idx :: rest) v
                     = list_loop (validate_visit tree nb) F rest v')
      /\ (forall j, 0 <= j -> ~ In j S -> aget v' j = aget v j)
      /\ Forall (fun i => exists b, aget v' i = Ok b /\ (b = true <-> valid_at nb i)) S.
  Proof.
    intros HT. induction HT as [idx lo hi nd H1 H2 H3 H4 H5 H6
                   |idx lo mid hi nd c S1 S2 H1 H2 H3 Hc H4 H5 HL HR EL ER HT1 IH1 HT2 IH2];
      intros Hnd Hlt Hlo Hhi Hbbi Hnb v Hv.
    - inversion Hlt as [|? ? Hi _]; subst.
      destruct (aget_ok_pos nb idx) as (B & EB & _); [unfold zlen in *; rewrite Hnb; lia|].
      assert (Hin : forall x, In x (slice bbi (nptr nd) hi) <-> exists i, nptr nd <= i < hi /\ aget bbi i = Ok x).
      { intros x. apply in_slice; lia. }
      assert (HF : Forall (fun i => 0 <= i < zlen bbc) (slice bbi (nptr nd) hi)).
      { rewrite Forall_forall in Hbbi |- *. intros x Hx. apply Hin in Hx as (i & _ & Ei).
        apply Hbbi. eapply aget_in; eauto. }
      destruct (fold_contained B _ HF true) as (b & Eb & Hb).
      destruct (aset_spec v idx b) as (v1 & E1 & L1 & G1 & O1); [unfold zlen in *; rewrite Hv; lia|].
      exists v1. split; [congruence|]. split; [|split].
      + intros F rest. cbn [length Nat.add list_loop]. unfold validate_visit at 1. rewrite EB. cbn [bind].
        rewrite H2. cbn [bind]. rewrite H3.
        change (-1 =? -1) with true. cbn iota.
        rewrite (leaf_items_ok tree nd (nptr nd) hi) by (auto; lia). cbn [bind].
        rewrite Eb. cbn [bind]. rewrite E1. reflexivity.
      + intros j Hj Hn. apply O1; auto. intros ->; apply Hn; now left.
      + constructor; auto. exists b. split; auto. rewrite Hb.
        assert (Hc0 : covers nodes idx (nptr nd) hi).
        { split; auto. exists nd. split; [now apply aget_pos_inv|]. lia. }
        assert (Hleaf : is_leaf nodes idx).
        { split; auto. exists nd. split; auto. now apply aget_pos_inv. }
        split.
        * intros (_ & Hw). exists B. split; auto. split.
          -- intros _ lo' hi' Hcov. destruct (covers_fun nodes _ _ _ _ _ Hcov Hc0) as (-> & ->).
             intros i e bx Hi' Ei Eb'. eapply Hw; eauto. apply Hin. eauto.
          -- intros c Hcc. destruct (leaf_no_child nodes c idx); auto.
        * intros (B' & EB' & Hr & _). split; auto. assert (B' = B) by congruence. subst B'.
          intros i bx Hi' Ei. apply Hin in Hi' as (k & Hk & Ek). eapply Hr; eauto.
    - inversion Hlt as [|? ? Hi Hlt']; subst. apply Forall_app in Hlt' as (Hlt1 & Hlt2).
      inversion Hnd as [|? ? Hnotin Hnd']; subst.
      assert (N1 : NoDup S1) by (exact (NoDup_app_mid [] S1 S2 Hnd')).
      assert (N2 : NoDup S2) by (apply (NoDup_app_mid S1 S2 []); now rewrite app_nil_r).
      assert (Hdisj : forall x, In x S1 -> In x S2 -> False).
      { clear - Hnd'. induction S1 as [|y S1 IH]; simpl; [tauto|]. inversion Hnd'; subst.
        intros x [->|Hx] Hx2; [apply H1; apply in_or_app; auto|eauto]. }
      destruct (TreeAt_root _ _ _ _ _ _ _ HT1) as (R1 & I1 & Hl1).
      destruct (TreeAt_root _ _ _ _ _ _ _ HT2) as (R2 & I2 & Hl2).
      assert (Hc1 : nchild nd < zlen nodes) by (rewrite Forall_forall in Hlt1; auto).
      assert (Hc2 : nchild nd + 1 < zlen nodes) by (rewrite Forall_forall in Hlt2; auto).
      assert (Hz : zlen nb = zlen nodes) by (unfold zlen; congruence).
      destruct (aget_ok_pos nb idx) as (B & EB & _); [lia|].
      destruct (aget_ok_pos nb (nchild nd)) as (BL & EBL & _); [lia|].
      destruct (aget_ok_pos nb (nchild nd + 1)) as (BR & EBR & _); [lia|].
      destruct (aset_spec v idx (box_contained BL B && box_contained BR B)) as (v1 & E1 & L1 & G1 & O1);
        [unfold zlen in *; rewrite Hv; lia|].
      destruct (IH1 N1 Hlt1 Hlo ltac:(lia) Hbbi Hnb v1 ltac:(congruence)) as (v3 & L3 & Lp3 & O3 & F3).
      destruct (IH2 N2 Hlt2 ltac:(lia) Hhi Hbbi Hnb v3 L3) as (v4 & L4 & Lp4 & O4 & F4).
      exists v4. split; auto. split; [|split].
      + intros F rest. cbn [length Nat.add list_loop]. unfold validate_visit at 1. rewrite EB. cbn [bind].
        rewrite H2. cbn [bind]. destruct (nchild nd =? -1) eqn:Em1; [lia|].
        rewrite EBL. cbn [bind]. rewrite EBR. cbn [bind]. rewrite E1. cbn [bind rev app].
        rewrite app_length, <- Nat.add_assoc.
        etransitivity; [exact (Lp3 _ _)|exact (Lp4 _ _)].
      + intros j Hj Hn. assert (~ In j S1 /\ ~ In j S2 /\ j <> idx) as (A1 & A2 & A3).
        { repeat split; intros Hx; apply Hn; [right|right|left; auto]; apply in_or_app; auto. }
        rewrite O4, O3, O1; auto.
      + constructor; [|apply Forall_app; split; auto].
        * exists (box_contained BL B && box_contained BR B). split.
          { rewrite O4, O3; auto; intros Hx; apply Hnotin, in_or_app; auto. }
          rewrite andb_true_iff, !box_contained_spec.
          pose proof (aget_pos_inv _ _ _ H1 H2) as En. split.
          -- intros (W1 & W2). exists B. split; auto. split.
             ++ intros (_ & nd' & En' & Hm). assert (nd' = nd) by congruence. subst. lia.
             ++ intros c (_ & nd' & En' & _ & Hcc). assert (nd' = nd) by congruence. subst nd'.
                destruct Hcc as [-> | ->]; eauto.
          -- intros (B' & EB' & _ & Hcc). assert (B' = B) by congruence. subst B'. split.
             ++ destruct (Hcc (nchild nd)) as (C & EC & W).
                { split; auto. exists nd. repeat split; auto. lia. }
                assert (C = BL) by congruence. now subst.
             ++ destruct (Hcc (nchild nd + 1)) as (C & EC & W).
                { split; auto. exists nd. repeat split; auto. lia. }
                assert (C = BR) by congruence. now subst.
        * rewrite Forall_forall in F3 |- *. intros i Hiin. destruct (F3 i Hiin) as (b & Eb & Hb).
          exists b. split; auto. rewrite O4; eauto.
          pose proof (TreeAt_min _ _ _ _ _ _ _ HT1) as M. rewrite Forall_forall in M.
          specialize (M i Hiin). lia.
  Qed.

  Theorem validate_node_bounds_ok (g : garbage T) nb : valid_tree tree -> length nb = length nodes ->
    exists v, validate_node_bounds g tree nb = Ok v /\ length v = length nodes
      /\ forall i, 0 <= i < zlen nodes -> exists b, aget v i = Ok b /\ (b = true <-> valid_at nb i).
  Proof.
    intros HV Hnb. destruct (vt_tree _ HV) as (S & HT & HP).
    assert (Hnd : NoDup S) by (eapply Permutation_NoDup; [symmetry; exact HP|apply iota_nodup]).
    assert (Hlt : forall i, In i S <-> 0 <= i < zlen nodes).
    { intros i. unfold zlen. rewrite <- iota_in. split; apply Permutation_in; auto. now symmetry. }
    pose proof (vt_perm _ HV) as HPb.
    assert (Hzb : zlen bbi = zlen bbc).
    { unfold zlen. apply Permutation_length in HPb. rewrite iota_length in HPb. lia. }
    assert (Hbbi : Forall (fun e => 0 <= e < zlen bbc) bbi).
    { rewrite Forall_forall. intros e He. unfold zlen. apply iota_in. eapply Permutation_in; eauto. }
    destruct (validate_sub _ _ _ _ nb HT Hnd
                ltac:(rewrite Forall_forall; intros i Hi; apply Hlt in Hi; lia)
                ltac:(lia) ltac:(lia) Hbbi Hnb (repeat false (length nodes))
                ltac:(apply repeat_length)) as (v & L & Lp & _ & F).
    exists v. split; [|split; auto].
    - unfold validate_node_bounds, traverse.
      destruct (alloc_rep (gZ g) 0) as (arr & Ea & Rep). rewrite Ea. cbn [bind].
      rewrite (stack_loop_list _ _ _ _ _ _ _ Rep). unfold traverse_fuel.
      assert (HS : length nodes = length S).
      { apply Permutation_length in HP. rewrite iota_length in HP. lia. }
      rewrite HS at 1. replace (Datatypes.S (length S)) with (length S + 1)%nat by lia.
      rewrite Lp. reflexivity.
    - intros i Hi. rewrite Forall_forall in F. apply F. now apply Hlt.
  Qed.

  Lemma all_true v n : length v = n -> (forall i, 0 <= i < Z.of_nat n -> aget v i = Ok true) -> v = repeat true n.
  Proof.
    intros L H. apply nth_ext with (d := true) (d' := true); [now rewrite repeat_length|].
    intros k Hk. rewrite nth_repeat. specialize (H (Z.of_nat k) ltac:(lia)).
    apply aget_pos_inv in H; [|lia]. rewrite Nat2Z.id in H. erewrite nth_error_nth; eauto.
  Qed.

  Theorem node_bounds_valid (g : garbage T) : valid_tree tree -> (2 <= length nodes)%nat ->
    exists nb, collect_node_bounds g tree = Ok nb
      /\ validate_node_bounds g tree nb = Ok (repeat true (length nodes)).
  Proof.
    intros HV Hn. destruct (collect_node_bounds_ok g HV Hn) as (nb & E & L & G0 & H).
    exists nb. split; auto. destruct (validate_node_bounds_ok g nb HV L) as (v & Ev & Lv & Hv).
    rewrite Ev. f_equal. apply all_true; auto. intros i Hi.
    destruct (Hv i Hi) as (b & Eb & Hb). rewrite Eb. f_equal. apply Hb.
    destruct (H i Hi) as (B & EB & A1 & A2). exists B. split; auto.
  Qed.

  (** the root is a leaf: the code writes row 1 *)
  Theorem node_bounds_single (g : garbage T) : length nodes = 1%nat ->
    collect_node_bounds g tree = Err EIndex.
  Proof.
    intros Hn. unfold collect_node_bounds. rewrite Hn.
    destruct (alloc_rep2 (gZZZ g) (2, 0, 0) (1, 0, 1)) as (arr & arr' & Ea & Ea' & Rep).
    cbn [np_empty map seq]. unfold aset at 1. cbn [length norm_idx].
    cbn -[stack_loop allocate_stack aset]. rewrite Ea. cbn [bind]. rewrite Ea'. cbn [bind].
    rewrite (stack_loop_list _ _ _ _ _ _ _ Rep). unfold traverse_fuel. rewrite Hn.
    cbn [list_loop bounds_visit].
    destruct nodes as [|nd [|]]; try discriminate. reflexivity.
  Qed.
End Bounds.
