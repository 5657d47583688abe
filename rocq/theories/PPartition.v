(** stable_partition and sort_bbox_indices: functional characterisation. *)
From Verif Require Import Base Num MUtils MGeometry MCreation PStack.

Lemma list_set_mid {A} (p : list A) x q v : list_set (p ++ x :: q) (length p) v = p ++ v :: q.
Proof. induction p; simpl; congruence. Qed.

Lemma aset_mid {A} (p : list A) x q v i :
  i = zlen p -> aset (p ++ x :: q) i v = Ok (p ++ v :: q).
Proof.
  intros ->. rewrite aset_pos.
  - unfold zlen. now rewrite Nat2Z.id, list_set_mid.
  - unfold zlen. rewrite app_length. simpl length. lia.
Qed.

Lemma aget_mid {A} (p : list A) x q i : i = zlen p -> aget (p ++ x :: q) i = Ok x.
Proof.
  intros ->. unfold zlen. apply aget_nat.
  rewrite nth_error_app2, Nat.sub_diag; auto.
Qed.

Lemma norm_idx_neg n i : - Z.of_nat n <= i < 0 -> norm_idx n i = Some (Z.to_nat (Z.of_nat n + i)).
Proof.
  intros H. unfold norm_idx.
  destruct (0 <=? i) eqn:E1; [lia|]. simpl.
  destruct (- Z.of_nat n <=? i) eqn:E2; [|lia].
  destruct (i <? 0) eqn:E3; [|lia]. reflexivity.
Qed.

Lemma aset_mid_neg {A} (p : list A) x q v i :
  i = - 1 - zlen q -> aset (p ++ x :: q) i v = Ok (p ++ v :: q).
Proof.
  intros ->. unfold aset. rewrite norm_idx_neg.
  - replace (Z.to_nat _) with (length p).
    + now rewrite list_set_mid.
    + rewrite app_length. unfold zlen. simpl length. lia.
  - rewrite app_length. unfold zlen. simpl length. lia.
Qed.

Lemma aget_mid_neg {A} (p : list A) x q i :
  i = - 1 - zlen q -> aget (p ++ x :: q) i = Ok x.
Proof.
  intros ->. unfold aget. rewrite norm_idx_neg.
  - replace (Z.to_nat _) with (length p).
    + rewrite nth_error_app2, Nat.sub_diag; auto.
    + rewrite app_length. unfold zlen. simpl length. lia.
  - rewrite app_length. unfold zlen. simpl length. lia.
Qed.

Lemma lget_mid {A} (p : list A) x q i : i = zlen p -> lget (p ++ x :: q) i = Ok x.
Proof. intros H. apply lget_ok. now apply aget_mid. Qed.
Lemma lset_mid {A} (p : list A) x q v i :
  i = zlen p -> lset (p ++ x :: q) i v = Ok (p ++ v :: q).
Proof. intros H. apply lset_ok. now apply aset_mid. Qed.

Lemma zlen_app {A} (a b : list A) : zlen (a ++ b) = zlen a + zlen b.
Proof. unfold zlen. rewrite app_length. lia. Qed.
Lemma zlen_cons {A} x (a : list A) : zlen (x :: a) = zlen a + 1.
Proof. unfold zlen. simpl length. lia. Qed.
Lemma zlen_nil {A} : zlen (@nil A) = 0.
Proof. reflexivity. Qed.
Lemma zlen_nonneg {A} (a : list A) : 0 <= zlen a.
Proof. unfold zlen. lia. Qed.

(** Writing the values f(j0), f(j0+1), ... to consecutive positions *)
Lemma write_loop {A} (f : Z -> res A) vals : forall pre old post j0 off,
  length old = length vals ->
  (forall k v, nth_error vals k = Some v -> f (j0 + Z.of_nat k) = Ok v) ->
  off + j0 = zlen pre ->
  for_loop (length vals) j0 (fun i l => let* v := f i in aset l (off + i) v)
           (pre ++ old ++ post) = Ok (pre ++ vals ++ post).
Proof.
  induction vals as [|v vals IH]; intros pre old post j0 off Hl Hf Ho.
  - destruct old; [reflexivity|discriminate].
  - destruct old as [|x old]; [discriminate|].
    simpl length. simpl for_loop.
    rewrite <- (Z.add_0_r j0) at 1. change 0 with (Z.of_nat 0).
    rewrite (Hf 0%nat v) by reflexivity. cbn [bind].
    simpl app at 2. rewrite aset_mid by lia. cbn [bind].
    replace (pre ++ v :: old ++ post) with ((pre ++ [v]) ++ old ++ post)
      by (rewrite <- app_assoc; reflexivity).
    rewrite IH.
    + rewrite <- app_assoc. reflexivity.
    + simpl in Hl. lia.
    + intros k w Hk. replace (j0 + 1 + Z.of_nat k) with (j0 + Z.of_nat (S k)) by lia.
      apply Hf. exact Hk.
    + rewrite zlen_app, zlen_cons, zlen_nil. lia.
Qed.

(** Rearrangement of the part [a, b) of a list only *)
Definition PermRange {A} (l l' : list A) (a b : Z) : Prop :=
  exists p s s' q, l = p ++ s ++ q /\ l' = p ++ s' ++ q /\ zlen p = a /\ zlen p + zlen s = b
                   /\ Permutation s s'.

Lemma PermRange_refl {A} (l : list A) a b : 0 <= a <= b -> b <= zlen l -> PermRange l l a b.
Proof.
  intros H1 H2. unfold zlen in *.
  exists (firstn (Z.to_nat a) l), (firstn (Z.to_nat (b - a)) (skipn (Z.to_nat a) l)),
         (firstn (Z.to_nat (b - a)) (skipn (Z.to_nat a) l)),
         (skipn (Z.to_nat (b - a)) (skipn (Z.to_nat a) l)).
  assert (E : l = firstn (Z.to_nat a) l ++ firstn (Z.to_nat (b - a)) (skipn (Z.to_nat a) l)
                  ++ skipn (Z.to_nat (b - a)) (skipn (Z.to_nat a) l))
    by (rewrite !firstn_skipn; reflexivity).
  repeat split; auto; unfold zlen; rewrite ?firstn_length, ?skipn_length; lia.
Qed.

Lemma PermRange_length {A} (l l' : list A) a b : PermRange l l' a b -> length l' = length l.
Proof.
  intros (p & s & s' & q & -> & -> & _ & _ & H).
  rewrite !app_length. rewrite (Permutation_length H). reflexivity.
Qed.

Lemma PermRange_Permutation {A} (l l' : list A) a b : PermRange l l' a b -> Permutation l l'.
Proof.
  intros (p & s & s' & q & -> & -> & _ & _ & H).
  apply Permutation_app_head, Permutation_app_tail, H.
Qed.

Lemma app_eq_len {A} (a b c d : list A) :
  a ++ b = c ++ d -> length a = length c -> a = c /\ b = d.
Proof.
  revert c; induction a as [|x a IH]; intros [|y c] H Hl; simpl in *; try discriminate; auto.
  inversion H; subst. destruct (IH c) as (-> & ->); auto.
Qed.

Lemma PermRange_trans {A} (l l' l'' : list A) a b :
  PermRange l l' a b -> PermRange l' l'' a b -> PermRange l l'' a b.
Proof.
  intros (p & s & s' & q & -> & -> & Ha & Hb & H)
         (p2 & s2 & s2' & q2 & E & -> & Ha2 & Hb2 & H2).
  apply app_eq_len in E as (-> & E); [|unfold zlen in *; lia].
  apply app_eq_len in E as (-> & ->); [|apply Permutation_length in H; unfold zlen in *; lia].
  exists p2, s, s2', q2. repeat split; auto. etransitivity; eauto.
Qed.

Lemma PermRange_widen {A} (l l' : list A) a b a' b' :
  PermRange l l' a b -> 0 <= a' <= a -> b <= b' <= zlen l -> PermRange l l' a' b'.
Proof.
  intros (p & s & s' & q & -> & -> & Ha & Hb & H) H1 H2.
  rewrite !zlen_app in H2.
  exists (firstn (Z.to_nat a') p), (skipn (Z.to_nat a') p ++ s ++ firstn (Z.to_nat (b' - b)) q),
         (skipn (Z.to_nat a') p ++ s' ++ firstn (Z.to_nat (b' - b)) q),
         (skipn (Z.to_nat (b' - b)) q).
  repeat split.
  - rewrite <- !app_assoc. rewrite firstn_skipn, (app_assoc _ _ (s ++ q)), firstn_skipn.
    reflexivity.
  - rewrite <- !app_assoc. rewrite firstn_skipn, (app_assoc _ _ (s' ++ q)), firstn_skipn.
    reflexivity.
  - unfold zlen in *. rewrite firstn_length. lia.
  - rewrite !zlen_app. unfold zlen in *. rewrite !firstn_length, skipn_length. lia.
  - apply Permutation_app_head, Permutation_app_tail, H.
Qed.

Lemma slice_mid {A} (p s q : list A) a b :
  zlen p = a -> zlen p + zlen s = b -> slice (p ++ s ++ q) a b = s.
Proof.
  intros <- <-. unfold slice.
  replace (Z.to_nat (zlen p)) with (length p) by (unfold zlen; lia).
  replace (Z.to_nat (zlen p + zlen s - zlen p)) with (length s) by (unfold zlen; lia).
  rewrite skipn_app, skipn_all, Nat.sub_diag. simpl.
  rewrite firstn_app, firstn_all, Nat.sub_diag. simpl. apply app_nil_r.
Qed.

Section Partition.
  Context {T : Type} {NT : Num T}.
  Notation box := (box T).
  Notation bucket := (bucket T).

  (** lower / upper side of a box in a dimension *)
  Definition blo (b : box) (dim : Z) : T := if dim =? 0 then xmin b else ymin b.
  Definition bhi (b : box) (dim : Z) : T := if dim =? 0 then xmax b else ymax b.

  Lemma bcol_lo b dim : dim = 0 \/ dim = 1 -> bcol b (2 * dim) = Ok (blo b dim).
  Proof. intros [-> | ->]; reflexivity. Qed.
  Lemma bcol_hi b dim : dim = 0 \/ dim = 1 -> bcol b (2 * dim + 1) = Ok (bhi b dim).
  Proof. intros [-> | ->]; reflexivity. Qed.

  (** the centroid lies in the bucket *)
  Definition in_bucket (bk : bucket) (b : box) (dim : Z) : bool :=
    let c := centroid (blo b dim) (bhi b dim) in
    nleb (bMin bk) c && nltb c (bMax bk).

  Lemma centroid_test_ok bk b dim :
    dim = 0 \/ dim = 1 -> centroid_test bk b dim = Ok (in_bucket bk b dim).
  Proof.
    intros H. unfold centroid_test. rewrite bcol_lo, bcol_hi by auto. reflexivity.
  Qed.

  Variable bbc : list box.
  Variable dim : Z.
  Hypothesis Hdim : dim = 0 \/ dim = 1.

  (** total version of the predicate on element numbers *)
  Definition ptest (bk : bucket) (i : Z) : bool :=
    match aget bbc i with Ok b => in_bucket bk b dim | Err _ => false end.

  Definition in_range (i : Z) : Prop := 0 <= i < zlen bbc.

  Lemma partition_fill_loop bk l : forall ts mid fs,
    Forall in_range l ->
    length mid = length l ->
    exists mid',
    foldres l (partition_fill bbc bk dim) (ts ++ mid ++ rev fs, zlen ts, -1 - zlen fs)
    = Ok ((ts ++ filter (ptest bk) l) ++ mid' ++ rev (fs ++ filter (fun i => negb (ptest bk i)) l),
          zlen (ts ++ filter (ptest bk) l), -1 - zlen (fs ++ filter (fun i => negb (ptest bk i)) l))
    /\ mid' = [].
  Proof.
    induction l as [|i l IH]; intros ts mid fs Hr Hm.
    - destruct mid; [|discriminate]. exists []. simpl. rewrite !app_nil_r. auto.
    - inversion Hr as [|? ? Hi Hr']; subst.
      destruct (aget_ok_pos bbc i Hi) as (b & Eb & _).
      assert (Es : forall st, partition_fill bbc bk dim i st =
                (let '(temp, ct, cf) := st in
                 if in_bucket bk b dim then let* temp := aset temp ct i in Ok (temp, ct + 1, cf)
                 else let* temp := aset temp cf i in Ok (temp, ct, cf - 1))).
      { intros [[t0 ct] cf]. unfold partition_fill. rewrite Eb. cbn [bind].
        rewrite centroid_test_ok by auto. reflexivity. }
      cbn [foldres]. rewrite Es. cbn iota beta. clear Es.
      assert (Ep : ptest bk i = in_bucket bk b dim) by (unfold ptest; now rewrite Eb).
      cbn [filter]. rewrite Ep.
      destruct (in_bucket bk b dim); cbn [negb].
      + destruct mid as [|m mid]; [discriminate|]. cbn [app].
        rewrite aset_mid by reflexivity. cbn [bind].
        replace (ts ++ i :: mid ++ rev fs) with ((ts ++ [i]) ++ mid ++ rev fs)
          by (rewrite <- app_assoc; reflexivity).
        replace (zlen ts + 1) with (zlen (ts ++ [i]))
          by (rewrite zlen_app; reflexivity).
        destruct (IH (ts ++ [i]) mid fs Hr') as (mid' & E & Hm'); [simpl in Hm; lia|].
        exists mid'. split; auto. rewrite E. rewrite <- !app_assoc. reflexivity.
      + destruct (exists_last (l := mid)) as (mid0 & m & ->);
          [intros ->; discriminate|].
        replace (ts ++ (mid0 ++ [m]) ++ rev fs) with ((ts ++ mid0) ++ m :: rev fs)
          by (rewrite <- !app_assoc; reflexivity).
        rewrite aset_mid_neg by (unfold zlen; rewrite rev_length; reflexivity). cbn [bind].
        replace ((ts ++ mid0) ++ i :: rev fs) with (ts ++ mid0 ++ rev (fs ++ [i]))
          by (rewrite rev_app_distr, <- !app_assoc; reflexivity).
        replace (-1 - zlen fs - 1) with (-1 - zlen (fs ++ [i]))
          by (rewrite zlen_app, zlen_cons, zlen_nil; lia).
        destruct (IH ts mid0 (fs ++ [i]) Hr') as (mid' & E & Hm');
          [rewrite app_length in Hm; simpl in Hm; lia|].
        exists mid'. split; auto. rewrite E. rewrite <- !app_assoc. reflexivity.
  Qed.

  Lemma filter_split_length {A} (f : A -> bool) l :
    (length (filter f l) + length (filter (fun x => negb (f x)) l) = length l)%nat.
  Proof. induction l as [|x l IH]; simpl; auto. destruct (f x); simpl; lia. Qed.

  Lemma filter_split_perm {A} (f : A -> bool) l :
    Permutation l (filter f l ++ filter (fun x => negb (f x)) l).
  Proof.
    induction l as [|x l IH]; simpl; auto.
    destruct (f x); simpl; [constructor; auto|].
    etransitivity; [constructor; exact IH|]. apply Permutation_middle.
  Qed.

  (** stable_partition never fails and moves the elements of the bucket to the
      front, keeping the order within both groups. *)
  Lemma stable_partition_ok mem bk p s q :
    Forall in_range s ->
    stable_partition mem (p ++ s ++ q) bbc (zlen p) (zlen p + zlen s) bk dim
    = Ok (p ++ (filter (ptest bk) s ++ filter (fun i => negb (ptest bk i)) s) ++ q,
          zlen p + zlen (filter (ptest bk) s)).
  Proof.
    intros Hr. unfold stable_partition.
    rewrite slice_mid by auto.
    replace (Z.to_nat (zlen p + zlen s - zlen p)) with (length s) by (unfold zlen; lia).
    pose proof (np_empty_length mem (length s)) as Hm.
    set (ts := filter (ptest bk) s). set (fs := filter (fun i => negb (ptest bk i)) s).
    destruct (partition_fill_loop bk s [] (np_empty mem (length s)) [] Hr Hm) as (m' & E & ->).
    simpl rev in E. rewrite app_nil_r in E. simpl app in E.
    change (zlen (@nil Z)) with 0 in E. change (-1 - 0) with (-1) in E.
    fold ts fs in E. rewrite E. cbn [bind].
    assert (Hlen : (length ts + length fs = length s)%nat) by apply filter_split_length.
    (* split the overwritten part *)
    set (s1 := firstn (length ts) s). set (s2 := skipn (length ts) s).
    assert (Es : s = s1 ++ s2) by (symmetry; apply firstn_skipn).
    assert (Hs1 : length s1 = length ts) by (unfold s1; rewrite firstn_length; lia).
    assert (Hs2 : length s2 = length fs) by (unfold s2; rewrite skipn_length; lia).
    unfold for_range at 1.
    replace (Z.to_nat (zlen ts - 0)) with (length ts) by (unfold zlen; lia).
    rewrite Es at 1.
    replace (p ++ (s1 ++ s2) ++ q) with (p ++ s1 ++ (s2 ++ q)) by (rewrite <- !app_assoc; auto).
    rewrite (write_loop (aget (ts ++ rev fs)) ts p s1 (s2 ++ q) 0 (zlen p)); auto; try lia.
    2:{ intros k v Hk. simpl. apply aget_nat. rewrite nth_error_app1; auto.
        apply nth_error_Some. congruence. }
    cbn [bind].
    unfold for_range.
    replace (Z.to_nat (-1 - (-1 - zlen fs) - 0)) with (length fs) by (unfold zlen; lia).
    replace (p ++ ts ++ s2 ++ q) with ((p ++ ts) ++ s2 ++ q) by (rewrite <- app_assoc; auto).
    rewrite (write_loop (fun i => aget (ts ++ rev fs) (- i - 1)) fs (p ++ ts) s2 q 0
                        (zlen p + zlen ts)); auto.
    - cbn [bind]. rewrite <- !app_assoc. reflexivity.
    - intros k v Hk. simpl.
      apply nth_error_split in Hk as (f1 & f2 & Ef & Hk). rewrite Ef.
      rewrite rev_app_distr. simpl rev. rewrite <- !app_assoc. simpl app.
      rewrite (app_assoc ts). apply aget_mid_neg.
      unfold zlen. rewrite rev_length. lia.
    - rewrite zlen_app. lia.
  Qed.

  (* ---------------------------------------------------------------- *)

  (** The buckets cover [lo, hi) consecutively; the index of an empty bucket
      is irrelevant. *)
  Fixpoint Contig (lo : Z) (bs : list bucket) (hi : Z) : Prop :=
    match bs with
    | [] => lo = hi
    | b :: t => 0 <= bsize b /\ (bsize b <> 0 -> bindex b = lo) /\ Contig (lo + bsize b) t hi
    end.

  Lemma Contig_app lo bs1 bs2 hi :
    Contig lo (bs1 ++ bs2) hi <-> exists m, Contig lo bs1 m /\ Contig m bs2 hi.
  Proof.
    revert lo; induction bs1 as [|b t IH]; intros lo; simpl.
    - split; [intros H; exists lo; auto|intros (m & -> & H); auto].
    - rewrite IH. split.
      + intros (H1 & H2 & m & H3 & H4). exists m; auto.
      + intros (m & (H1 & H2 & H3) & H4). repeat split; auto. exists m; auto.
  Qed.

  Lemma Contig_le lo bs hi : Contig lo bs hi -> lo <= hi.
  Proof.
    revert lo; induction bs as [|b t IH]; simpl; intros lo H; [lia|].
    destruct H as (H1 & _ & H3). apply IH in H3. lia.
  Qed.

  Definition same_limits (b b' : bucket) : Prop := bMin b' = bMin b /\ bMax b' = bMax b.

  Lemma Contig_empty lo bs : Forall (fun b => bsize b = 0) bs -> Contig lo bs lo.
  Proof.
    induction 1 as [|b t Hb _ IH]; simpl; auto.
    rewrite Hb, Z.add_0_r. repeat split; auto; lia.
  Qed.

  Lemma Forall2_same_refl bs : Forall2 same_limits bs bs.
  Proof. induction bs; constructor; auto. split; auto. Qed.

  Lemma sort_loop_spec mem lo fuel : forall rest done i p s q,
    i = zlen done + 1 ->
    Contig lo done (zlen p) ->
    match rest with [] => True | b :: _ => bindex b = zlen p end ->
    Forall (fun b => bsize b = 0) rest ->
    Forall in_range s ->
    (length rest < fuel)%nat ->
    (sort_loop mem bbc (zlen p + zlen s) dim fuel i (zlen p) (p ++ s ++ q) (done ++ rest)
       = Err EList
     /\ exists e, In e s /\ Forall (fun b => ptest b e = false) rest)
    \/ exists s' bs',
        sort_loop mem bbc (zlen p + zlen s) dim fuel i (zlen p) (p ++ s ++ q) (done ++ rest)
          = Ok (p ++ s' ++ q, bs')
        /\ Permutation s s'
        /\ Forall2 same_limits (done ++ rest) bs'
        /\ Contig lo bs' (zlen p + zlen s).
  Proof.
    induction fuel as [|fuel IH]; intros rest done i p s q Hi Hc Hidx Hz Hr Hf; [lia|].
    cbn [sort_loop].
    destruct (zlen p =? zlen p + zlen s) eqn:Eq.
    - apply Z.eqb_eq in Eq. right.
      assert (s = []) by (destruct s; auto; rewrite zlen_cons in Eq; pose proof (zlen_nonneg s); lia).
      subst s. exists [], (done ++ rest). repeat split; auto.
      + apply Forall2_same_refl.
      + apply Contig_app. exists (zlen p). split; auto.
        change (zlen (@nil Z)) with 0. rewrite Z.add_0_r. now apply Contig_empty.
    - apply Z.eqb_neq in Eq.
      assert (Hs : s <> []) by (intros ->; rewrite zlen_nil in Eq; lia).
      destruct rest as [|b rest].
      + (* IndexError *)
        left. split.
        * rewrite app_nil_r. unfold lget, aget.
          replace (norm_idx (length done) (i - 1)) with (@None nat); [reflexivity|].
          unfold norm_idx. unfold zlen in Hi.
          destruct (0 <=? i - 1) eqn:E1; simpl; [|lia].
          destruct (i - 1 <? Z.of_nat (length done)) eqn:E2; [lia|].
          destruct (i - 1 <? 0) eqn:E3; [lia|]. now rewrite andb_false_r.
        * destruct s as [|e s]; [congruence|]. exists e; split; [now left|constructor].
      + assert (Ei : i - 1 = zlen done) by lia.
        rewrite lget_mid by auto. cbn [bind].
        rewrite stable_partition_ok by auto. cbn [bind].
        cbn [bind].
        set (ts := filter (ptest b) s). set (fs := filter (fun i => negb (ptest b i)) s).
        rewrite lset_mid by auto. cbn [bind].
        set (b' := Bucket (bMax b) (bMin b) (bRmin b) (bLmax b) (bindex b)
                          (zlen p + zlen ts - bindex b)).
        assert (Hb' : bsize b' = zlen ts) by (simpl in *; lia).
        assert (Hperm : Permutation s (ts ++ fs)) by apply filter_split_perm.
        assert (Hfr : Forall in_range fs).
        { rewrite Forall_forall in *. intros x Hx. apply Hr.
          eapply filter_In; eauto. }
        assert (Hend : zlen p + zlen s = zlen (p ++ ts) + zlen fs).
        { rewrite zlen_app. pose proof (filter_split_length (ptest b) s) as H.
          unfold zlen. subst ts fs. lia. }
        inversion Hz as [|? ? Hz1 Hz2]; subst.
        assert (Hc' : Contig lo (done ++ [b']) (zlen (p ++ ts))).
        { apply Contig_app. exists (zlen p). split; auto. rewrite zlen_app.
          cbn [Contig]. rewrite Hb'. unfold zlen; repeat split; auto; lia. }
        replace (p ++ (ts ++ fs) ++ q) with ((p ++ ts) ++ fs ++ q)
          by (rewrite <- !app_assoc; reflexivity).
        replace (zlen p + zlen ts) with (zlen (p ++ ts)) by apply zlen_app.
        rewrite Hend.
        assert (Hlim : same_limits b b') by (split; reflexivity).
        destruct rest as [|b1 rest].
        * (* last bucket *)
          replace (zlen done + 1 <? zlen (done ++ [b'])) with false
            by (rewrite zlen_app, zlen_cons, zlen_nil; symmetry; apply Z.ltb_ge; lia).
          cbn [bind].
          destruct (IH [] (done ++ [b']) (zlen done + 1 + 1) (p ++ ts) fs q)
            as [(E & e & He & _)|(s' & bs' & E & Hp' & Hl' & Hc'')]; auto.
          { rewrite zlen_app, zlen_cons, zlen_nil. lia. }
          { simpl in *; lia. }
          -- left. rewrite app_nil_r in E. split; [exact E|].
             exists e. unfold fs in He. apply filter_In in He as (He & Hn).
             split; auto. constructor; [|constructor].
             destruct (ptest b e); auto; discriminate.
          -- right. rewrite app_nil_r in E. exists (ts ++ s'), bs'.
             split; [rewrite E; rewrite <- !app_assoc; reflexivity|].
             split; [etransitivity; [exact Hperm|]; apply Permutation_app_head; auto|].
             split; [|auto].
             rewrite app_nil_r in Hl'.
             apply Forall2_app_inv_l in Hl' as (l1 & l2 & H1 & H2 & ->).
             apply Forall2_app; auto. inversion H2 as [|? b2 ? ? Hbb Hn]; subst.
             inversion Hn; subst. constructor; auto.
        * replace (zlen done + 1 <? zlen (done ++ b' :: b1 :: rest)) with true
            by (rewrite zlen_app, !zlen_cons; pose proof (zlen_nonneg rest);
                symmetry; apply Z.ltb_lt; lia).
          replace (done ++ b' :: b1 :: rest) with ((done ++ [b']) ++ b1 :: rest)
            by (rewrite <- app_assoc; reflexivity).
          rewrite (lget_mid (done ++ [b'])) by (rewrite zlen_app; reflexivity).
          cbn [bind].
          replace ((done ++ [b']) ++ b1 :: rest) with (done ++ b' :: b1 :: rest)
            by (rewrite <- app_assoc; reflexivity).
          rewrite (lget_mid done) by lia. cbn [bind].
          replace (done ++ b' :: b1 :: rest) with ((done ++ [b']) ++ b1 :: rest)
            by (rewrite <- app_assoc; reflexivity).
          rewrite (lset_mid (done ++ [b'])) by (rewrite zlen_app; reflexivity).
          cbn [bind].
          set (b1' := Bucket (bMax b1) (bMin b1) (bRmin b1) (bLmax b1)
                             (bindex b' + bsize b') (bsize b1)).
          inversion Hz2 as [|? ? Hz3 Hz4]; subst.
          destruct (IH (b1' :: rest) (done ++ [b']) (zlen done + 1 + 1) (p ++ ts) fs q)
            as [(E & e & He & Hn)|(s' & bs' & E & Hp' & Hl' & Hc'')]; auto.
          { rewrite zlen_app, zlen_cons, zlen_nil. lia. }
          { subst b1'. cbn [bindex]. rewrite Hb', zlen_app. subst b'. cbn [bindex]. lia. }
          { simpl in *; lia. }
          -- left. split; [exact E|].
             exists e. unfold fs in He. apply filter_In in He as (He & Hneg).
             split; auto. constructor; [destruct (ptest b e); auto; discriminate|].
             inversion Hn as [|? ? Hn1 Hn2]; subst. constructor; auto.
          -- right. exists (ts ++ s'), bs'.
             split; [rewrite E; rewrite <- !app_assoc; reflexivity|].
             split; [etransitivity; [exact Hperm|]; apply Permutation_app_head; auto|].
             split; [|auto].
             rewrite <- app_assoc in Hl'. simpl app in Hl'.
             apply Forall2_app_inv_l in Hl' as (l1 & l2 & H1 & H2 & ->).
             apply Forall2_app; auto.
             inversion H2 as [|? b2 ? ? Hbb Hn]; subst.
             inversion Hn as [|? b3 ? ? Hbb3 Hn3]; subst.
             constructor; auto.
  Qed.
End Partition.
