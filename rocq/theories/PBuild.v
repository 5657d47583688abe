(** Correctness of tree construction (creation.py). *)
From Verif Require Import Base Num MUtils MGeometry MCreation PStack PPartition SpecTree.

(* ------------------------------------------------------------------ *)
(** * Lists *)

Lemma aget_set_eq {A} (l : list A) i v : 0 <= i < zlen l -> aget (list_set l (Z.to_nat i) v) i = Ok v.
Proof.
  intros H. apply aget_pos; [lia|]. apply nth_error_list_set_eq. unfold zlen in H. lia.
Qed.

Lemma aget_set_neq {A} (l : list A) i j v :
  0 <= i -> 0 <= j -> i <> j -> aget (list_set l (Z.to_nat i) v) j = aget l j.
Proof.
  intros Hi Hj Hn. unfold aget. rewrite list_set_length.
  destruct (norm_idx (length l) j) as [k|] eqn:E; auto.
  assert (k = Z.to_nat j).
  { unfold norm_idx in E. destruct (0 <=? j) eqn:E1; [|lia]. simpl in E.
    destruct (j <? Z.of_nat (length l)) eqn:E2; [congruence|].
    destruct (j <? 0) eqn:E3; [lia|]. rewrite andb_false_r in E. discriminate. }
  subst k. rewrite nth_error_list_set_neq by lia. reflexivity.
Qed.

Lemma F2_length {A B} (P : A -> B -> Prop) l l' : Forall2 P l l' -> length l = length l'.
Proof. induction 1; simpl; auto. Qed.

Lemma zlen_set {A} (l : list A) k v : zlen (list_set l k v) = zlen l.
Proof. unfold zlen. now rewrite list_set_length. Qed.

Lemma aget_bound {A} (l : list A) i a : 0 <= i -> aget l i = Ok a -> i < zlen l.
Proof.
  intros Hi H. apply aget_pos_inv in H; auto. unfold zlen.
  assert (Z.to_nat i < length l)%nat by (apply nth_error_Some; congruence). lia.
Qed.

Lemma aget_app {A} (p s q : list A) i :
  zlen p <= i < zlen p + zlen s -> exists e, aget (p ++ s ++ q) i = Ok e /\ In e s.
Proof.
  intros H. unfold zlen in H.
  destruct (nth_error s (Z.to_nat i - length p)) as [e|] eqn:E.
  - exists e. split; [|eapply nth_error_In; eauto].
    apply aget_pos; [lia|]. rewrite nth_error_app2 by lia.
    rewrite nth_error_app1; auto. apply nth_error_Some. congruence.
  - apply nth_error_None in E. lia.
Qed.

Lemma aget_app_in {A} (p s q : list A) e :
  In e s -> exists i, zlen p <= i < zlen p + zlen s /\ aget (p ++ s ++ q) i = Ok e.
Proof.
  intros H. apply In_nth_error in H as (k & Hk).
  assert (Hlt : (k < length s)%nat) by (apply nth_error_Some; congruence).
  exists (Z.of_nat (length p + k)). split; [unfold zlen; lia|].
  apply aget_nat. rewrite nth_error_app2 by lia.
  replace (length p + k - length p)%nat with k by lia.
  rewrite nth_error_app1; auto.
Qed.

Lemma aget_app_out {A} (p s s' q : list A) i :
  length s' = length s -> 0 <= i -> ~ (zlen p <= i < zlen p + zlen s) ->
  aget (p ++ s' ++ q) i = aget (p ++ s ++ q) i.
Proof.
  intros Hl Hi H. unfold zlen in H. unfold aget. rewrite !app_length, Hl.
  destruct (norm_idx _ i) as [k|] eqn:E; auto.
  assert (k = Z.to_nat i).
  { unfold norm_idx in E. destruct (0 <=? i) eqn:E1; [|lia]. simpl in E.
    destruct (i <? _) eqn:E2 in E; [congruence|].
    destruct (i <? 0) eqn:E3; [lia|]. rewrite andb_false_r in E. discriminate. }
  subst k.
  destruct (Nat.lt_ge_cases (Z.to_nat i) (length p)).
  - rewrite !nth_error_app1; auto.
  - rewrite !nth_error_app2 by lia. now rewrite Hl.
Qed.

Lemma PermRange_index {A} (l l' : list A) a b i :
  PermRange l l' a b -> a <= i < b ->
  exists j e, a <= j < b /\ aget l' i = Ok e /\ aget l j = Ok e.
Proof.
  intros (p & s & s' & q & -> & -> & <- & <- & Hp) Hi.
  assert (Hl := Permutation_length Hp).
  destruct (aget_app p s' q i) as (e & E & He); [unfold zlen in *; lia|].
  apply Permutation_in with (l' := s) in He; [|now symmetry].
  destruct (aget_app_in p s q e He) as (j & Hj & Ej).
  exists j, e. auto.
Qed.

Lemma PermRange_out {A} (l l' : list A) a b i :
  PermRange l l' a b -> 0 <= i -> ~ (a <= i < b) -> aget l' i = aget l i.
Proof.
  intros (p & s & s' & q & -> & -> & <- & <- & Hp) Hi Hn.
  apply aget_app_out; auto. now rewrite (Permutation_length Hp).
Qed.

Lemma split_at {A} (l : list A) a b :
  0 <= a <= b -> b <= zlen l -> exists p s q, l = p ++ s ++ q /\ zlen p = a /\ zlen p + zlen s = b.
Proof.
  intros H1 H2. destruct (PermRange_refl l a b H1 H2) as (p & s & s' & q & -> & _ & H3 & H4 & _).
  exists p, s, q. auto.
Qed.

(** integers a, a+1, ..., b-1 *)
Definition zrange (a b : Z) : list Z := map (fun k => a + Z.of_nat k) (seq 0 (Z.to_nat (b - a))).

Lemma zrange_in a b i : In i (zrange a b) <-> a <= i < b.
Proof.
  unfold zrange. rewrite in_map_iff. split.
  - intros (k & <- & H). apply in_seq in H. lia.
  - intros H. exists (Z.to_nat (i - a)). split; [lia|]. apply in_seq. lia.
Qed.

Lemma zrange_nil a : zrange a a = [].
Proof. unfold zrange. now rewrite Z.sub_diag. Qed.

Lemma zrange_cons a b : a < b -> zrange a b = a :: zrange (a + 1) b.
Proof.
  intros H. unfold zrange.
  replace (Z.to_nat (b - a)) with (S (Z.to_nat (b - (a + 1)))) by lia.
  simpl. f_equal; [lia|]. rewrite <- seq_shift, map_map. apply map_ext. intros k. lia.
Qed.

Lemma zrange_app a b c : a <= b <= c -> zrange a c = zrange a b ++ zrange b c.
Proof.
  intros H. remember (Z.to_nat (b - a)) as n eqn:En. revert a H En.
  induction n as [|n IH]; intros a H En.
  - replace b with a by lia. rewrite zrange_nil. reflexivity.
  - rewrite (zrange_cons a c), (zrange_cons a b) by lia. simpl. f_equal. apply IH; lia.
Qed.

Lemma zrange_nodup a b : NoDup (zrange a b).
Proof. unfold zrange. apply FinFun.Injective_map_NoDup; [intros x y; lia|apply seq_NoDup]. Qed.

Lemma zrange_iota n : zrange 0 (Z.of_nat n) = iota n.
Proof.
  unfold zrange, iota. replace (Z.to_nat (Z.of_nat n - 0)) with n by lia.
  apply map_ext. intros; lia.
Qed.

(* ------------------------------------------------------------------ *)
Section Build.
  Context {T : Type} {NT : Num T} {NO : NumOrd T}.
  Notation box := (box T).
  Notation bucket := (bucket T).
  Notation node := (node T).

  Variable bbc : list box.

  (** [fin] box *)
  Definition fin_box (b : box) : Prop := fin (xmin b) /\ fin (xmax b) /\ fin (ymin b) /\ fin (ymax b).
  Hypothesis Hfin : Forall fin_box bbc.

  Notation in_range := (in_range bbc).

  (** sides of the box of an element *)
  Definition elo (dim : Z) (e : Z) : T := match aget bbc e with Ok b => blo b dim | Err _ => nfmax end.
  Definition ehi (dim : Z) (e : Z) : T := match aget bbc e with Ok b => bhi b dim | Err _ => nfmin end.

  Lemma fin_blo b dim : In b bbc -> fin (blo b dim).
  Proof.
    rewrite Forall_forall in Hfin. intros H. destruct (Hfin b H) as (H1 & H2 & H3 & H4).
    unfold blo. destruct (dim =? 0); auto.
  Qed.
  Lemma fin_bhi b dim : In b bbc -> fin (bhi b dim).
  Proof.
    rewrite Forall_forall in Hfin. intros H. destruct (Hfin b H) as (H1 & H2 & H3 & H4).
    unfold bhi. destruct (dim =? 0); auto.
  Qed.
  Lemma fin_elo dim e : fin (elo dim e).
  Proof.
    unfold elo. destruct (aget bbc e) eqn:E; [|apply fin_fmax].
    apply fin_blo. eapply aget_in; eauto.
  Qed.
  Lemma fin_ehi dim e : fin (ehi dim e).
  Proof.
    unfold ehi. destruct (aget bbc e) eqn:E; [|apply fin_fmin].
    apply fin_bhi. eapply aget_in; eauto.
  Qed.

  (** smallest lower side / largest upper side of a list of elements *)
  Definition gmin (dim : Z) (s : list Z) (a : T) : T :=
    fold_left (fun r e => if nltb (elo dim e) r then elo dim e else r) s a.
  Definition gmax (dim : Z) (s : list Z) (a : T) : T :=
    fold_left (fun r e => if nltb r (ehi dim e) then ehi dim e else r) s a.
  Definition GMin (dim : Z) (s : list Z) : T := gmin dim s nfmax.
  Definition GMax (dim : Z) (s : list Z) : T := gmax dim s nfmin.

  Lemma fin_lt_false x y : fin x -> fin y -> nltb x y = false -> nleb y x = true.
  Proof. intros Hx Hy H. rewrite fin_lt_le in H by auto. now destruct (nleb y x). Qed.
  Lemma fin_lt_true x y : fin x -> fin y -> nltb x y = true -> nleb x y = true.
  Proof.
    intros Hx Hy H. rewrite fin_lt_le in H by auto.
    destruct (fin_le_total x y Hx Hy) as [E|E]; auto. rewrite E in H. discriminate.
  Qed.

  Lemma gmin_spec dim s : forall a, fin a ->
    fin (gmin dim s a) /\ nleb (gmin dim s a) a = true
    /\ Forall (fun e => nleb (gmin dim s a) (elo dim e) = true) s.
  Proof.
    induction s as [|e s IH]; intros a Ha; simpl.
    - repeat split; auto. now apply fin_le_refl.
    - pose proof (fin_elo dim e) as He.
      destruct (nltb (elo dim e) a) eqn:E.
      + destruct (IH (elo dim e) He) as (H1 & H2 & H3). repeat split; auto.
        eapply fin_le_trans; [| | |exact H2|]; auto. now apply fin_lt_true.
      + destruct (IH a Ha) as (H1 & H2 & H3). repeat split; auto.
        constructor; auto. eapply fin_le_trans; [| | |exact H2|]; auto.
        now apply fin_lt_false.
  Qed.

  Lemma gmax_spec dim s : forall a, fin a ->
    fin (gmax dim s a) /\ nleb a (gmax dim s a) = true
    /\ Forall (fun e => nleb (ehi dim e) (gmax dim s a) = true) s.
  Proof.
    induction s as [|e s IH]; intros a Ha; simpl.
    - repeat split; auto. now apply fin_le_refl.
    - pose proof (fin_ehi dim e) as He.
      destruct (nltb a (ehi dim e)) eqn:E.
      + destruct (IH (ehi dim e) He) as (H1 & H2 & H3). repeat split; auto.
        eapply fin_le_trans; [| | | |exact H2]; auto. now apply fin_lt_true.
      + destruct (IH a Ha) as (H1 & H2 & H3). repeat split; auto.
        constructor; auto. eapply fin_le_trans; [| | | |exact H2]; auto.
        now apply fin_lt_false.
  Qed.

  (** every value is attained *)
  Lemma gmin_att dim s : forall a, gmin dim s a = a \/ exists e, In e s /\ gmin dim s a = elo dim e.
  Proof.
    induction s as [|e s IH]; intros a; simpl; auto.
    destruct (nltb (elo dim e) a).
    - destruct (IH (elo dim e)) as [H|(e' & H1 & H2)]; right; eauto.
    - destruct (IH a) as [H|(e' & H1 & H2)]; eauto.
  Qed.
  Lemma gmax_att dim s : forall a, gmax dim s a = a \/ exists e, In e s /\ gmax dim s a = ehi dim e.
  Proof.
    induction s as [|e s IH]; intros a; simpl; auto.
    destruct (nltb a (ehi dim e)).
    - destruct (IH (ehi dim e)) as [H|(e' & H1 & H2)]; right; eauto.
    - destruct (IH a) as [H|(e' & H1 & H2)]; eauto.
  Qed.

  Lemma get_bounds_loop dim p q : dim = 0 \/ dim = 1 -> forall s done a,
    Forall in_range s ->
    for_loop (length s) (zlen p + zlen done)
      (get_bounds_step bbc (p ++ (done ++ s) ++ q) dim) a
    = Ok (gmin dim s (fst a), gmax dim s (snd a)).
  Proof.
    intros Hd. induction s as [|e s IH]; intros done [R L] Hr; [reflexivity|].
    inversion Hr as [|? ? He Hr']; subst.
    cbn [length for_loop]. unfold get_bounds_step at 1.
    replace (p ++ (done ++ e :: s) ++ q) with ((p ++ done) ++ e :: (s ++ q))
      by (rewrite <- !app_assoc; reflexivity).
    rewrite aget_mid by (now rewrite zlen_app). cbn [bind].
    destruct (aget_ok_pos bbc e He) as (b & Eb & _). rewrite Eb. cbn [bind].
    rewrite bcol_lo, bcol_hi by auto. cbn [bind].
    replace ((p ++ done) ++ e :: s ++ q) with (p ++ ((done ++ [e]) ++ s) ++ q)
      by (rewrite <- !app_assoc; reflexivity).
    replace (zlen p + zlen done + 1) with (zlen p + zlen (done ++ [e]))
      by (rewrite zlen_app, zlen_cons, zlen_nil; lia).
    rewrite IH by auto. cbn [fst snd gmin gmax fold_left].
    assert (E1 : blo b dim = elo dim e) by (unfold elo; now rewrite Eb).
    assert (E2 : bhi b dim = ehi dim e) by (unfold ehi; now rewrite Eb).
    rewrite E1, E2. reflexivity.
  Qed.

  Lemma get_bounds_ok dim p s q index size :
    dim = 0 \/ dim = 1 -> Forall in_range s -> zlen p = index -> zlen s = size ->
    get_bounds index size bbc (p ++ s ++ q) dim = Ok (GMin dim s, GMax dim s).
  Proof.
    intros Hd Hr <- <-. unfold get_bounds, for_range.
    replace (Z.to_nat (zlen p + zlen s - zlen p)) with (length s) by (unfold zlen; lia).
    pose proof (get_bounds_loop dim p q Hd s [] (nfmax, nfmin) Hr) as H.
    rewrite zlen_nil, Z.add_0_r in H. exact H.
  Qed.

  (* ---------------------------------------------------------------- *)
  (** ** Buckets *)

  (** The buckets hold consecutive segments of [s], starting at [off], with
      exact bounds. *)
  Inductive Segs (dim : Z) : Z -> list bucket -> list Z -> Prop :=
  | Segs_nil off : Segs dim off [] []
  | Segs_cons off b bs seg s :
      bsize b = zlen seg -> (seg <> [] -> bindex b = off) ->
      bRmin b = GMin dim seg -> bLmax b = GMax dim seg ->
      Segs dim (off + zlen seg) bs s ->
      Segs dim off (b :: bs) (seg ++ s).

  Lemma Segs_app_intro dim bs1 : forall off s1 bs2 s2,
    Segs dim off bs1 s1 -> Segs dim (off + zlen s1) bs2 s2 -> Segs dim off (bs1 ++ bs2) (s1 ++ s2).
  Proof.
    induction bs1 as [|b bs1 IH]; intros off s1 bs2 s2 H1 H2; inversion H1; subst.
    - rewrite zlen_nil, Z.add_0_r in H2. exact H2.
    - simpl. rewrite <- app_assoc. constructor; auto. apply IH; auto.
      rewrite zlen_app in H2. now rewrite <- Z.add_assoc.
  Qed.

  Lemma Segs_app_elim dim bs1 : forall off bs2 s,
    Segs dim off (bs1 ++ bs2) s ->
    exists s1 s2, s = s1 ++ s2 /\ Segs dim off bs1 s1 /\ Segs dim (off + zlen s1) bs2 s2.
  Proof.
    induction bs1 as [|b bs1 IH]; intros off bs2 s H; simpl in H.
    - exists [], s. rewrite zlen_nil, Z.add_0_r. repeat split; auto. constructor.
    - inversion H as [|? ? ? seg s' Hs Hi HR HL Hr]; subst.
      apply IH in Hr as (s1 & s2 & -> & H1 & H2).
      exists (seg ++ s1), s2. rewrite app_assoc. repeat split; auto.
      + constructor; auto.
      + rewrite zlen_app, Z.add_assoc. exact H2.
  Qed.

  Lemma bucket_bounds_loop dim p s q : dim = 0 \/ dim = 1 -> Forall in_range s ->
    forall rest done s1 s2 hi,
    s = s1 ++ s2 -> hi = zlen p + zlen s ->
    Contig (zlen p + zlen s1) rest hi ->
    Segs dim (zlen p) done s1 ->
    exists rest',
      for_loop (length rest) (zlen done)
      (fun i buckets =>
         let* b := lget buckets i in
         let* rl := get_bounds (bindex b) (bsize b) bbc (p ++ s ++ q) dim in
         let '(Rmin, Lmax) := rl in
         lset buckets i (Bucket (bMax b) (bMin b) Rmin Lmax (bindex b) (bsize b)))
      (done ++ rest) = Ok (done ++ rest')
      /\ Segs dim (zlen p) (done ++ rest') s
      /\ Forall2 same_limits rest rest'.
  Proof.
    intros Hd Hr. induction rest as [|b rest IH]; intros done s1 s2 hi Es Eh Hc Hs.
    - simpl in Hc. exists []. split; [reflexivity|]. split; [|constructor].
      assert (s2 = []) as ->.
      { subst s. rewrite zlen_app in Eh. destruct s2; auto. rewrite zlen_cons in Eh.
        pose proof (zlen_nonneg s2). lia. }
      rewrite app_nil_r in Es. subst s1. now rewrite app_nil_r.
    - cbn [Contig] in Hc. destruct Hc as (H0 & Hi & Hc).
      assert (Hle := Contig_le _ _ _ Hc).
      destruct (split_at s2 0 (bsize b)) as (e0 & seg & s3 & E2 & He0 & Hseg);
        [lia|subst s hi; rewrite zlen_app in Hle; lia|].
      assert (e0 = []) as -> by (destruct e0; auto; rewrite zlen_cons in He0;
                                 pose proof (zlen_nonneg e0); lia).
      rewrite zlen_nil in Hseg. simpl in E2, Hseg. subst s2.
      assert (Hrs : Forall in_range seg).
      { subst s. apply Forall_app in Hr as (_ & Hr). apply Forall_app in Hr as (Hr & _). auto. }
      cbn [length for_loop].
      rewrite lget_mid by reflexivity. cbn [bind].
      assert (Eg : get_bounds (bindex b) (bsize b) bbc (p ++ s ++ q) dim
                   = Ok (GMin dim seg, GMax dim seg)).
      { destruct seg as [|e seg].
        - rewrite <- Hseg. unfold get_bounds. rewrite for_range_nil by lia. reflexivity.
        - rewrite Hi by (rewrite <- Hseg, zlen_cons; pose proof (zlen_nonneg seg); lia).
          subst s.
          replace (p ++ (s1 ++ (e :: seg) ++ s3) ++ q) with ((p ++ s1) ++ (e :: seg) ++ (s3 ++ q))
            by (rewrite <- !app_assoc; reflexivity).
          apply get_bounds_ok; auto. now rewrite zlen_app. }
      rewrite Eg. cbn [bind].
      rewrite lset_mid by reflexivity. cbn [bind].
      set (b' := Bucket (bMax b) (bMin b) (GMin dim seg) (GMax dim seg) (bindex b) (bsize b)).
      replace (done ++ b' :: rest) with ((done ++ [b']) ++ rest)
        by (rewrite <- app_assoc; reflexivity).
      replace (zlen done + 1) with (zlen (done ++ [b'])) by (rewrite zlen_app; reflexivity).
      destruct (IH (done ++ [b']) (s1 ++ seg) s3 hi) as (rest' & E & HS & HF).
      + subst s. now rewrite <- app_assoc.
      + auto.
      + rewrite zlen_app. rewrite Hseg. now rewrite Z.add_assoc.
      + apply Segs_app_intro; auto.
        replace seg with (seg ++ []) by apply app_nil_r.
        constructor; auto; try constructor.
        intros Hne. apply Hi. rewrite <- Hseg. destruct seg; [congruence|].
        rewrite zlen_cons. pose proof (zlen_nonneg seg). lia.
      + exists (b' :: rest'). rewrite E. rewrite <- app_assoc in *. simpl app in *.
        repeat split; auto. constructor; auto. split; reflexivity.
  Qed.

  Lemma bucket_bounds_ok dim p s q bs :
    dim = 0 \/ dim = 1 -> Forall in_range s -> Contig (zlen p) bs (zlen p + zlen s) ->
    exists bs', bucket_bounds (zlen bs) bbc (p ++ s ++ q) dim bs = Ok bs'
                /\ Segs dim (zlen p) bs' s /\ Forall2 same_limits bs bs'.
  Proof.
    intros Hd Hr Hc. unfold bucket_bounds, for_range.
    replace (Z.to_nat (zlen bs - 0)) with (length bs) by (unfold zlen; lia).
    destruct (bucket_bounds_loop dim p s q Hd Hr bs [] [] s (zlen p + zlen s)) as (bs' & E & H1 & H2);
      auto.
    - rewrite zlen_nil, Z.add_0_r. exact Hc.
    - constructor.
    - exists bs'. auto.
  Qed.

  Lemma same_limits_ptest dim b b' e : same_limits b b' -> ptest bbc dim b' e = ptest bbc dim b e.
  Proof. intros (H1 & H2). unfold ptest, in_bucket. now rewrite H1, H2. Qed.

  (** sort_bbox_indices on fresh buckets: either every element is placed, or
      IndexError because an element lies in none of the buckets. *)
  Lemma sort_bbox_indices_ok dim mem p s q b0 bs nd :
    dim = 0 \/ dim = 1 -> Forall in_range s ->
    nptr nd = zlen p -> nsize nd = zlen s ->
    Forall (fun b => bsize b = 0) (b0 :: bs) ->
    (sort_bbox_indices mem (p ++ s ++ q) bbc (b0 :: bs) nd dim = Err EList
     /\ exists e, In e s /\ Forall (fun b => ptest bbc dim b e = false) (b0 :: bs))
    \/ exists s' bs',
        sort_bbox_indices mem (p ++ s ++ q) bbc (b0 :: bs) nd dim = Ok (p ++ s' ++ q, bs')
        /\ Permutation s s' /\ Forall2 same_limits (b0 :: bs) bs'
        /\ Contig (zlen p) bs' (zlen p + zlen s).
  Proof.
    intros Hd Hr Hp Hs Hz. unfold sort_bbox_indices.
    rewrite (lget_mid [] b0 bs) by reflexivity. cbn [bind].
    rewrite (lset_mid [] b0 bs) by reflexivity. cbn [bind app].
    rewrite Hp, Hs.
    set (b0' := Bucket (bMax b0) (bMin b0) (bRmin b0) (bLmax b0) (zlen p) (bsize b0)).
    inversion Hz as [|? ? Hz0 Hz1]; subst.
    destruct (sort_loop_spec bbc dim Hd mem (zlen p) (S (length (b0' :: bs)))
                (b0' :: bs) [] 1 p s q)
      as [(E & e & He & Hn)|(s' & bs' & E & H1 & H2 & H3)]; auto.
    - reflexivity.
    - left. split; [exact E|]. exists e. split; auto.
      inversion Hn; subst. constructor; auto.
    - right. exists s', bs'. repeat split; auto.
      inversion H2 as [|? ? ? ? Hb Hbs]; subst. constructor; auto.
  Qed.

  Lemma make_buckets_size nb bl R : Forall (fun b => bsize b = 0) (make_buckets nb bl R).
  Proof. unfold make_buckets. apply Forall_forall. intros b H. apply in_map_iff in H as (i & <- & _). reflexivity. Qed.

  Lemma make_buckets_length nb bl R : length (make_buckets nb bl R) = Z.to_nat nb.
  Proof. unfold make_buckets. now rewrite map_length, iota_length. Qed.

  (** No bucket of the range takes element [e] of [s] *)
  Definition no_bucket (nb dim : Z) (s : list Z) (e : Z) : Prop :=
    exists bl, ndiv (nsub (GMax dim s) (GMin dim s)) (nofZ nb) = Ok bl
      /\ Forall (fun b => ptest bbc dim b e = false) (make_buckets nb bl (GMin dim s)).

  Lemma make_sorted_buckets_ok g nb dim p s q nd :
    dim = 0 \/ dim = 1 -> 1 <= nb -> Forall in_range s ->
    nptr nd = zlen p -> nsize nd = zlen s ->
    (exists er, make_sorted_buckets g bbc nb nd dim (p ++ s ++ q) = Err er
       /\ ((er = EZeroDiv /\ neqb (nofZ nb) (nofZ 0) = true)
           \/ (er = EList /\ exists e, In e s /\ no_bucket nb dim s e)))
    \/ exists bl s' bs',
        make_sorted_buckets g bbc nb nd dim (p ++ s ++ q)
          = Ok (GMin dim s, GMax dim s, bl, p ++ s' ++ q, bs')
        /\ ndiv (nsub (GMax dim s) (GMin dim s)) (nofZ nb) = Ok bl
        /\ Permutation s s'
        /\ Segs dim (zlen p) bs' s'
        /\ Forall2 same_limits (make_buckets nb bl (GMin dim s)) bs'.
  Proof.
    intros Hd Hnb Hr Hp Hs. unfold make_sorted_buckets.
    rewrite (get_bounds_ok dim p s q) by auto. cbn [bind].
    destruct (ndiv _ _) as [bl|er] eqn:Ed.
    2:{ left. exists er. split; [reflexivity|]. left. unfold ndiv in Ed.
        destruct (neqb (nofZ nb) (nofZ 0)) eqn:E0; inversion Ed; auto. }
    cbn [bind].
    pose proof (make_buckets_size nb bl (GMin dim s)) as Hz.
    pose proof (make_buckets_length nb bl (GMin dim s)) as Hl.
    destruct (make_buckets nb bl (GMin dim s)) as [|b0 bs] eqn:Em; [simpl in Hl; lia|].
    destruct (sort_bbox_indices_ok dim (gZ g) p s q b0 bs nd Hd Hr Hp Hs Hz)
      as [(E & e & He & Hn)|(s' & bs' & E & H1 & H2 & H3)]; rewrite E; cbn [bind].
    - left. exists EList. split; auto. right. split; auto. exists e. split; auto.
      exists bl. rewrite Em. auto.
    - right.
      assert (Hr' : Forall in_range s').
      { rewrite Forall_forall in *. intros x Hx. apply Hr. eapply Permutation_in; [symmetry|]; eauto. }
      assert (Hls : zlen s' = zlen s) by (unfold zlen; now rewrite (Permutation_length H1)).
      assert (Hnbl : nb = zlen bs').
      { unfold zlen. rewrite <- (F2_length _ _ _ H2), Hl. lia. }
      rewrite <- Hls in H3.
      destruct (bucket_bounds_ok dim p s' q bs' Hd Hr' H3) as (bs'' & E2 & H4 & H5).
      rewrite <- Hnbl in E2. rewrite E2. cbn [bind].
      exists bl, s', bs''. repeat split; auto. rewrite Em.
      clear - H2 H5. revert bs'' H5. induction H2 as [|x y l l' Hxy H IH]; intros bs'' H5;
        inversion H5 as [|? z ? l3 Hyz H6]; subst; constructor; auto.
      destruct Hxy, Hyz; split; congruence.
  Qed.

  (** merging leaves only non-empty buckets *)
  Lemma merge_empty_ok dim : forall rest prev off s,
    Segs dim off (prev :: rest) s -> 0 < bsize prev ->
    Segs dim off (merge_empty prev rest) s
    /\ Forall (fun b => 0 < bsize b) (merge_empty prev rest).
  Proof.
    induction rest as [|b rest IH]; intros prev off s H Hp; simpl.
    - split; auto.
    - inversion H as [|? ? ? seg s1 Hs Hi HR HL Hr]; subst.
      inversion Hr as [|? ? ? seg2 s2 Hs2 Hi2 HR2 HL2 Hr2]; subst.
      destruct (bsize b =? 0) eqn:E.
      + assert (seg2 = []) as -> by (destruct seg2; auto; rewrite zlen_cons in Hs2;
                                     pose proof (zlen_nonneg seg2); lia).
        apply IH; [|auto]. simpl app. constructor; auto.
        rewrite zlen_nil, Z.add_0_r in Hr2. exact Hr2.
      + destruct (IH b _ _ Hr) as (H1 & H2).
        { pose proof (zlen_nonneg seg2). lia. }
        split; [constructor; auto|constructor; auto].
  Qed.

  Lemma drop_empty_front_ok dim : forall rest b0 off s,
    Segs dim off (b0 :: rest) s -> s <> [] ->
    exists b0' rest', drop_empty_front b0 rest = Ok (b0' :: rest')
      /\ Segs dim off (b0' :: rest') s /\ 0 < bsize b0'.
  Proof.
    induction rest as [|b rest IH]; intros b0 off s H Hne; simpl;
      inversion H as [|? ? ? seg s1 Hs Hi HR HL Hr]; subst;
      destruct (bsize b0 =? 0) eqn:E.
    - inversion Hr; subst. assert (seg = []) as -> by (destruct seg; auto; rewrite zlen_cons in Hs;
                                     pose proof (zlen_nonneg seg); lia). simpl in Hne; congruence.
    - exists b0, []. repeat split; auto. pose proof (zlen_nonneg seg). lia.
    - assert (seg = []) as -> by (destruct seg; auto; rewrite zlen_cons in Hs;
                                     pose proof (zlen_nonneg seg); lia).
      simpl app in *. rewrite zlen_nil, Z.add_0_r in Hr.
      inversion Hr as [|? ? ? seg2 s2 Hs2 Hi2 HR2 HL2 Hr2]; subst.
      apply IH; auto. constructor; auto.
    - exists b0, (b :: rest). repeat split; auto. pose proof (zlen_nonneg seg). lia.
  Qed.

  Lemma merge_buckets_ok dim off bs s :
    Segs dim off bs s -> s <> [] ->
    exists bs', merge_buckets bs = Ok bs' /\ Segs dim off bs' s
      /\ Forall (fun b => 0 < bsize b) bs'.
  Proof.
    intros H Hne. destruct bs as [|b0 rest]; [inversion H; congruence|].
    unfold merge_buckets.
    destruct (drop_empty_front_ok dim rest b0 off s H Hne) as (b1 & r1 & E & H1 & Hp).
    rewrite E. cbn [bind]. exists (merge_empty b1 r1). split; auto.
    now apply merge_empty_ok.
  Qed.

  (* ---------------------------------------------------------------- *)
  (** ** The split plane *)

  Lemma lget_in_range {A} (l : list A) i : 0 <= i < zlen l -> exists a, lget l i = Ok a.
  Proof.
    intros H. destruct (aget_ok_pos l i H) as (a & E & _). exists a. now apply lget_ok.
  Qed.

  Lemma plane_loop bs root_size L R bl : forall m i st,
    1 <= i -> i + Z.of_nat m = zlen bs ->
    match snd (fst st) with None => True | Some p => 1 <= p < zlen bs end ->
    for_loop m i (plane_step bs root_size L R bl) st = Err EZeroDiv
    \/ exists st', for_loop m i (plane_step bs root_size L R bl) st = Ok st'
        /\ match snd (fst st') with None => True | Some p => 1 <= p < zlen bs end.
  Proof.
    induction m as [|m IH]; intros i [[c pl] nl] Hi Hm Hst.
    - right. exists (c, pl, nl). auto.
    - cbn [for_loop]. unfold plane_step at 1 3.
      destruct (lget_in_range bs (i - 1)) as (b1 & E1); [lia|].
      destruct (lget_in_range bs i) as (b2 & E2); [lia|].
      rewrite E1, E2. cbn [bind].
      destruct (ndiv (nsub (bLmax b1) R) bl) as [lv|e] eqn:Ed1; cbn [bind].
      2:{ left. unfold ndiv in Ed1. destruct (neqb bl (nofZ 0)); congruence. }
      destruct (ndiv (nsub L (bRmin b2)) bl) as [rv|e] eqn:Ed2; cbn [bind].
      2:{ left. unfold ndiv in Ed2. destruct (neqb bl (nofZ 0)); congruence. }
      destruct (nltb _ c); cbn [bind]; apply IH; simpl; auto; lia.
  Qed.

  Lemma max_loop_ok bs (Hb : Forall (fun b => fin (bLmax b)) bs) : forall m i a done rest,
    bs = done ++ rest -> zlen done = i -> (m <= length rest)%nat -> fin a ->
    exists v, for_loop m i (fun i Lmax => let* b := lget bs i in
                Ok (if nltb Lmax (bLmax b) then bLmax b else Lmax)) a = Ok v
      /\ fin v /\ nleb a v = true
      /\ Forall (fun b => nleb (bLmax b) v = true) (firstn m rest)
      /\ (v = a \/ exists b, In b (firstn m rest) /\ v = bLmax b).
  Proof.
    induction m as [|m IH]; intros i a done rest E Hi Hm Ha.
    - exists a. repeat split; auto. now apply fin_le_refl. constructor.
    - destruct rest as [|b rest]; [simpl in Hm; lia|].
      cbn [for_loop]. subst bs i. rewrite lget_mid by reflexivity. cbn [bind].
      assert (Hfb : fin (bLmax b)).
      { apply Forall_app in Hb as (_ & Hb). inversion Hb; auto. }
      set (a' := if nltb a (bLmax b) then bLmax b else a).
      assert (Ha' : fin a' /\ nleb a a' = true /\ nleb (bLmax b) a' = true).
      { subst a'. destruct (nltb a (bLmax b)) eqn:E.
        - repeat split; auto. now apply fin_lt_true. now apply fin_le_refl.
        - repeat split; auto. now apply fin_le_refl. now apply fin_lt_false. }
      destruct Ha' as (Ha1 & Ha2 & Ha3).
      destruct (IH (zlen done + 1) a' (done ++ [b]) rest) as (v & E & Hv & Hav & HF & Hatt).
      + now rewrite <- app_assoc.
      + now rewrite zlen_app.
      + simpl in Hm; lia.
      + auto.
      + exists v. split; [exact E|]. repeat split; auto.
        * eapply fin_le_trans; [| | |exact Ha2|]; auto.
        * simpl. constructor; auto. eapply fin_le_trans; [| | |exact Ha3|]; auto.
        * simpl. destruct Hatt as [->|(b1 & Hb1 & ->)]; [|right; eauto].
          subst a'. destruct (nltb a (bLmax b)); [right; eauto|auto].
  Qed.

  Lemma min_loop_ok bs (Hb : Forall (fun b => fin (bRmin b)) bs) : forall m i a done rest,
    bs = done ++ rest -> zlen done = i -> (m <= length rest)%nat -> fin a ->
    exists v, for_loop m i (fun i Rmin => let* b := lget bs i in
                Ok (if nltb (bRmin b) Rmin then bRmin b else Rmin)) a = Ok v
      /\ fin v /\ nleb v a = true
      /\ Forall (fun b => nleb v (bRmin b) = true) (firstn m rest)
      /\ (v = a \/ exists b, In b (firstn m rest) /\ v = bRmin b).
  Proof.
    induction m as [|m IH]; intros i a done rest E Hi Hm Ha.
    - exists a. repeat split; auto. now apply fin_le_refl. constructor.
    - destruct rest as [|b rest]; [simpl in Hm; lia|].
      cbn [for_loop]. subst bs i. rewrite lget_mid by reflexivity. cbn [bind].
      assert (Hfb : fin (bRmin b)).
      { apply Forall_app in Hb as (_ & Hb). inversion Hb; auto. }
      set (a' := if nltb (bRmin b) a then bRmin b else a).
      assert (Ha' : fin a' /\ nleb a' a = true /\ nleb a' (bRmin b) = true).
      { subst a'. destruct (nltb (bRmin b) a) eqn:E.
        - repeat split; auto. now apply fin_lt_true. now apply fin_le_refl.
        - repeat split; auto. now apply fin_le_refl. now apply fin_lt_false. }
      destruct Ha' as (Ha1 & Ha2 & Ha3).
      destruct (IH (zlen done + 1) a' (done ++ [b]) rest) as (v & E & Hv & Hav & HF & Hatt).
      + now rewrite <- app_assoc.
      + now rewrite zlen_app.
      + simpl in Hm; lia.
      + auto.
      + exists v. split; [exact E|]. repeat split; auto.
        * eapply fin_le_trans; [| | |exact Hav|]; auto.
        * simpl. constructor; auto. eapply fin_le_trans; [| | |exact Hav|]; auto.
        * simpl. destruct Hatt as [->|(b1 & Hb1 & ->)]; [|right; eauto].
          subst a'. destruct (nltb (bRmin b) a); [right; eauto|auto].
  Qed.

  Lemma Segs_fin dim off bs s : Segs dim off bs s ->
    Forall (fun b => fin (bLmax b)) bs /\ Forall (fun b => fin (bRmin b)) bs.
  Proof.
    induction 1 as [|off b bs seg s Hs Hi HR HL Hr (IH1 & IH2)]; [split; constructor|].
    split; constructor; auto.
    - rewrite HL. apply gmax_spec. apply fin_fmin.
    - rewrite HR. apply gmin_spec. apply fin_fmax.
  Qed.

  Lemma Segs_hi dim off bs s v : fin v -> Segs dim off bs s ->
    Forall (fun b => nleb (bLmax b) v = true) bs -> Forall (fun e => nleb (ehi dim e) v = true) s.
  Proof.
    intros Hv. induction 1 as [|off b bs seg s Hs Hi HR HL Hr IH]; intros HF; [constructor|].
    inversion HF as [|? ? Hb HF']; subst. apply Forall_app. split; [|auto].
    destruct (gmax_spec dim seg nfmin fin_fmin) as (H1 & _ & H3).
    eapply Forall_impl; [|exact H3]. intros e He. rewrite HL in Hb.
    eapply fin_le_trans; [| | |exact He|]; auto. apply fin_ehi.
  Qed.

  Lemma Segs_lo dim off bs s v : fin v -> Segs dim off bs s ->
    Forall (fun b => nleb v (bRmin b) = true) bs -> Forall (fun e => nleb v (elo dim e) = true) s.
  Proof.
    intros Hv. induction 1 as [|off b bs seg s Hs Hi HR HL Hr IH]; intros HF; [constructor|].
    inversion HF as [|? ? Hb HF']; subst. apply Forall_app. split; [|auto].
    destruct (gmin_spec dim seg nfmax fin_fmax) as (H1 & _ & H3).
    eapply Forall_impl; [|exact H3]. intros e He. rewrite HR in Hb.
    eapply fin_le_trans; [| | |exact Hb|]; auto. apply fin_elo.
  Qed.

  Lemma GMax_att dim s : s <> [] -> exists e, In e s /\ nleb (GMax dim s) (ehi dim e) = true.
  Proof.
    intros Hne. destruct (gmax_att dim s nfmin) as [H|(e & H1 & H2)].
    - destruct s as [|e s]; [congruence|]. exists e. split; [now left|].
      unfold GMax. rewrite H. apply fin_fmin_le. apply fin_ehi.
    - exists e. split; auto. unfold GMax. rewrite H2. apply fin_le_refl. apply fin_ehi.
  Qed.
  Lemma GMin_att dim s : s <> [] -> exists e, In e s /\ nleb (elo dim e) (GMin dim s) = true.
  Proof.
    intros Hne. destruct (gmin_att dim s nfmax) as [H|(e & H1 & H2)].
    - destruct s as [|e s]; [congruence|]. exists e. split; [now left|].
      unfold GMin. rewrite H. apply fin_le_fmax. apply fin_elo.
    - exists e. split; auto. unfold GMin. rewrite H2. apply fin_le_refl. apply fin_elo.
  Qed.

  Lemma Segs_in dim off bs s b : Segs dim off bs s -> In b bs ->
    exists seg, bsize b = zlen seg /\ bLmax b = GMax dim seg /\ bRmin b = GMin dim seg /\ incl seg s.
  Proof.
    induction 1 as [|off b1 bs seg s Hs Hi HR HL Hr IH]; intros Hin; [destruct Hin|].
    destruct Hin as [->|Hin].
    - exists seg. repeat split; auto. apply incl_appl. apply incl_refl.
    - destruct (IH Hin) as (seg' & H1 & H2 & H3 & H4). exists seg'. repeat split; auto.
      now apply incl_appr.
  Qed.

  Lemma Segs_nonempty dim off bs s :
    Segs dim off bs s -> Forall (fun b => 0 < bsize b) bs -> bs <> [] -> s <> [].
  Proof.
    intros H HF Hne. destruct H as [|off b bs seg s Hs Hi HR HL Hr]; [congruence|].
    inversion HF; subst. destruct seg; [rewrite zlen_nil in Hs; lia|discriminate].
  Qed.

  Lemma split_plane_ok dim off bs s root L R bl :
    Segs dim off bs s -> Forall (fun b => 0 < bsize b) bs ->
    (exists er, split_plane bs root L R bl = Err er /\ (er = EZeroDiv \/ er = EList))
    \/ exists plane Lmax Rmin pb s1 s2,
        split_plane bs root L R bl = Ok (plane, Lmax, Rmin)
        /\ lget bs plane = Ok pb /\ bindex pb = off + zlen s1
        /\ s = s1 ++ s2 /\ s1 <> [] /\ s2 <> []
        /\ Forall (fun e => nleb (ehi dim e) Lmax = true) s1
        /\ Forall (fun e => nleb Rmin (elo dim e) = true) s2
        /\ (exists e, In e s1 /\ nleb Lmax (ehi dim e) = true)
        /\ (exists e, In e s2 /\ nleb (elo dim e) Rmin = true).
  Proof.
    intros H HF. unfold split_plane.
    destruct (Z.le_gt_cases (zlen bs) 1) as [Hlen|Hlen].
    { rewrite for_range_nil by lia. cbn [bind]. left. eauto. }
    assert (Hm : 1 + Z.of_nat (Z.to_nat (zlen bs - 1)) = zlen bs) by lia.
    pose proof (plane_loop bs (nsize root) L R bl (Z.to_nat (zlen bs - 1)) 1 (nfmax, None, 0)
                  ltac:(lia) Hm I) as HP.
    change (for_loop (Z.to_nat (zlen bs - 1)) 1 (plane_step bs (nsize root) L R bl) (nfmax, None, 0))
      with (for_range 1 (zlen bs) (plane_step bs (nsize root) L R bl) (nfmax, None, 0)) in HP.
    destruct HP as [E|([[c pl] nl] & E & Hpl)]; rewrite E; cbn [bind].
    { left; eauto. }
    simpl in Hpl. destruct pl as [plane|]; [|left; eauto].
    right.
    set (bs1 := firstn (Z.to_nat plane) bs). set (bs2 := skipn (Z.to_nat plane) bs).
    assert (Ebs : bs = bs1 ++ bs2) by (symmetry; apply firstn_skipn).
    assert (Hl1 : zlen bs1 = plane).
    { unfold bs1, zlen in *. rewrite firstn_length. lia. }
    destruct (Segs_fin dim off bs s H) as (Hf1 & Hf2).
    destruct (max_loop_ok bs Hf1 (Z.to_nat (plane - 0)) 0 nfmin [] bs) as (Lm & EL & HLf & _ & HLm & HLa);
      auto using fin_fmin; [unfold zlen in *; lia|].
    unfold for_range at 1. rewrite EL. cbn [bind].
    destruct (min_loop_ok bs Hf2 (Z.to_nat (zlen bs - plane)) plane nfmax bs1 bs2)
      as (Rm & ER & HRf & _ & HRm & HRa); auto using fin_fmax.
    { rewrite Ebs, zlen_app. unfold zlen in *. lia. }
    unfold for_range. rewrite ER. cbn [bind].
    replace (firstn (Z.to_nat (plane - 0)) bs) with bs1 in * by (unfold bs1; f_equal; lia).
    replace (firstn (Z.to_nat (zlen bs - plane)) bs2) with bs2 in *.
    2:{ symmetry. apply firstn_all2. rewrite Ebs, zlen_app. unfold zlen in *. lia. }
    rewrite Ebs in H. apply Segs_app_elim in H as (s1 & s2 & Es & H1 & H2).
    rewrite Ebs in HF. apply Forall_app in HF as (HF1 & HF2).
    destruct bs2 as [|pb bs2'] eqn:E2.
    { rewrite app_nil_r in Ebs. rewrite Ebs in Hpl. lia. }
    exists plane, Lm, Rm, pb, s1, s2. split; [reflexivity|].
    split; [rewrite Ebs; now apply lget_mid|].
    split.
    { inversion H2 as [|? ? ? seg s3 Hs3 Hi3 HR3 HL3 Hr3]. apply Hi3.
      apply Forall_inv in HF2. intros ->. rewrite zlen_nil in Hs3. lia. }
    split; auto.
    assert (Hne1 : s1 <> []).
    { eapply Segs_nonempty; eauto. intros E0; rewrite E0 in Hl1; rewrite zlen_nil in Hl1; lia. }
    assert (Hne2 : s2 <> []) by (eapply Segs_nonempty; eauto; discriminate).
    split; auto. split; auto.
    split; [eapply Segs_hi; eauto|]. split; [eapply Segs_lo; eauto|]. split.
    - destruct HLa as [->|(b & Hb & ->)].
      + destruct s1 as [|e s1]; [congruence|]. exists e. split; [now left|].
        apply fin_fmin_le. apply fin_ehi.
      + rewrite Forall_forall in HF1. specialize (HF1 b Hb).
        destruct (Segs_in dim off bs1 s1 b H1 Hb) as (seg & G1 & G2 & G3 & G4).
        destruct (GMax_att dim seg) as (e & He & He2); [intros ->; rewrite zlen_nil in G1; lia|].
        exists e. rewrite G2. auto.
    - destruct HRa as [->|(b & Hb & ->)].
      + destruct s2 as [|e s2]; [congruence|]. exists e. split; [now left|].
        apply fin_le_fmax. apply fin_elo.
      + rewrite Forall_forall in HF2. specialize (HF2 b Hb).
        destruct (Segs_in dim _ _ s2 b H2 Hb) as (seg & G1 & G2 & G3 & G4).
        destruct (GMin_att dim seg) as (e & He & He2); [intros ->; rewrite zlen_nil in G1; lia|].
        exists e. rewrite G3. auto.
  Qed.
End Build.
