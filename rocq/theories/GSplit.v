(** Where nodes are split: the specification follows from what the
    construction loop does. *)
From Verif Require Import RBase MGeometry MCreation PStack PPartition SpecTree SpecOcc SpecSplit PBuild PBuild2 POcc PSplit.
Open Scope Z_scope.

Section Divided.
  Context {T : Type} {NT : Num T} {NO : NumOrd T}.
  Variable bbc : list (box T).
  Hypothesis Hfin : Forall fin_box bbc.
  Variables nb cpl : Z.
  Hypothesis Hnb : 1 <= nb.
  Notation in_range := (in_range bbc).

  Lemma range_ex_in bbi p s q a b (P : box T -> Prop) e : bbi = p ++ s ++ q -> zlen p = a -> a + zlen s = b ->
    In e s -> in_range e -> (forall bx, aget bbc e = Ok bx -> P bx) -> range_ex bbc bbi a b P.
  Proof.
    intros -> <- <- He Hr HP. destruct (aget_app_in p s q e He) as (i & Hi & E). destruct (in_range_box bbc e Hr) as (bx & Eb).
    exists i, e, bx. auto.
  Qed.
  Lemma range_all_in bbi p s q a b (P : box T -> Prop) : bbi = p ++ s ++ q -> zlen p = a -> a + zlen s = b ->
    (forall e bx, In e s -> aget bbc e = Ok bx -> P bx) -> range_all bbc bbi a b P.
  Proof.
    intros -> <- <- HP i e bx Hi He Hb. destruct (aget_app p s q i Hi) as (e' & E & Hin). rewrite E in He. inversion He; subst e'. eauto.
  Qed.

  Lemma slice_join (bbi : list Z) a mid b : 0 <= a <= mid -> mid <= b -> b <= zlen bbi ->
    exists p s q, bbi = p ++ s ++ q /\ zlen p = a /\ zlen s = b - a /\ s = slice bbi a mid ++ slice bbi mid b.
  Proof.
    intros H1 H2 H3. destruct (split_at bbi a b ltac:(lia) H3) as (p & s & q & E & Hp & Hs).
    exists p, s, q. split; auto. split; auto. split; [lia|].
    pose proof (firstn_skipn (Z.to_nat (mid - a)) s) as Es. set (u := firstn _ s) in *. set (v := skipn _ s) in *.
    assert (Hu : zlen u = mid - a) by (unfold u, zlen in *; rewrite firstn_length; lia).
    assert (Hv : zlen v = b - mid) by (rewrite <- Es, zlen_app in Hs; lia).
    rewrite E, <- Es. rewrite <- app_assoc. rewrite (slice_app p u (v ++ q) a mid) by lia.
    replace (p ++ u ++ v ++ q) with ((p ++ u) ++ v ++ q) by (rewrite <- !app_assoc; reflexivity).
    rewrite (slice_app (p ++ u) v q mid b); auto; rewrite ?zlen_app; lia.
  Qed.

  Theorem cut_divided bbi nd mid : 0 <= nptr nd -> nptr nd + nsize nd <= zlen bbi ->
    Cut bbc nb cpl bbi nd mid -> node_divided nb cpl bbc bbi nd mid.
  Proof.
    intros H0 H1 (Hm & H). split; auto. destruct H as [H|H]; [now left|right].
    destruct H as (sl & s1 & s2 & bl & bs1 & bs2 & c & root & P1 & P2 & P & Hr & N1 & N2 & Hbl & (_ & _ & T1 & T2) & _ & Hc & _ & _ & (e1 & I1 & A1) & (e2 & I2 & A2)).
    set (d := ndim nd) in *.
    destruct (slice_split bbi (nptr nd) mid ltac:(lia) ltac:(lia)) as (p1 & q1 & E1 & Z1 & L1).
    destruct (slice_split bbi mid (nptr nd + nsize nd) ltac:(lia) ltac:(lia)) as (p2 & q2 & E2 & Z2 & L2).
    assert (Hr1 : forall e, In e s1 -> in_range e).
    { intros e He. rewrite Forall_forall in Hr. apply Hr. apply (Permutation_in _ (Permutation_sym P)). apply in_or_app. auto. }
    assert (Hr2 : forall e, In e s2 -> in_range e).
    { intros e He. rewrite Forall_forall in Hr. apply Hr. apply (Permutation_in _ (Permutation_sym P)). apply in_or_app. auto. }
    exists (GMin bbc (b2z d) sl), (GMax bbc (b2z d) sl), bl, c. split; [|split; [exact Hbl|split; [lia|]]].
    - destruct (slice_join bbi (nptr nd) mid (nptr nd + nsize nd)) as (p & s & q & E & Zp & Zs & Es); try lia.
      assert (Pl : Permutation sl s) by (rewrite Es, P, P1, P2; reflexivity).
      rewrite E. apply (extends_perm bbc (p ++ sl ++ q)).
      + assert (Hl : zlen sl = zlen s) by (unfold zlen; f_equal; now apply Permutation_length).
        exists p, sl, s, q. split; auto. split; auto. split; auto. split; [lia|auto].
      + rewrite <- Zp. replace (zlen p + nsize nd) with (zlen p + zlen sl) by (apply Permutation_length in Pl; unfold zlen in *; lia).
        apply extends_ok; auto. intros ->. apply Permutation_nil in P. apply app_eq_nil in P as (? & _). congruence.
    - split; [|split; [|split]].
      + eapply range_all_in; [exact E1|exact Z1|lia|]. intros e bx He Hb.
        destruct (T1 e (Permutation_in _ (Permutation_sym P1) He)) as (j & Hj & Ht). exists j. split; [lia|].
        apply (takes_part bbc nb Hnb) with (bx := bx) in Ht; auto. rewrite Z2Nat.id in Ht by lia. exact Ht.
      + eapply range_all_in; [exact E2|exact Z2|lia|]. intros e bx He Hb.
        destruct (T2 e (Permutation_in _ (Permutation_sym P2) He)) as (j & Hj & Ht). exists j. split; [lia|].
        apply (takes_part bbc nb Hnb) with (bx := bx) in Ht; auto. rewrite Z2Nat.id in Ht by lia. exact Ht.
      + eapply range_ex_in with (e := e1); [exact E1|exact Z1|lia|now apply (Permutation_in _ P1)|auto|].
        intros bx Hb. unfold ehi in A1. rewrite Hb in A1. now rewrite side_hi_b.
      + eapply range_ex_in with (e := e2); [exact E2|exact Z2|lia|now apply (Permutation_in _ P2)|auto|].
        intros bx Hb. unfold elo in A2. rewrite Hb in A2. now rewrite side_lo_b.
  Qed.
End Divided.

Section Cheap.
  Variable bbc : list (box R).
  Hypothesis Hfin : Forall fin_box bbc.
  Variable nb : Z.
  Hypothesis Hnb : 1 <= nb.
  Variable d : bool.
  Notation in_range := (in_range bbc).
  Notation takes := (takes bbc (b2z d)).
  Notation PSegs := (PSegs bbc (b2z d)).

  Lemma takes_unique (mk : list (bucket R)) j k e : takes mk j e -> takes mk k e -> j = k.
  Proof.
    intros ((b & Hb & Pb) & Hj) ((b' & Hb' & Pb') & Hk). destruct (Nat.lt_trichotomy j k) as [H|[H|H]]; auto.
    - rewrite (Hk j b H Hb) in Pb. discriminate.
    - rewrite (Hj k b' H Hb') in Pb'. discriminate.
  Qed.

  Definition sz (l : list (bucket R)) : Z := fold_right Z.add 0 (map bsize l).
  Lemma sz_app a b : sz (a ++ b) = sz a + sz b.
  Proof. unfold sz. rewrite map_app. induction a as [|x a IH]; cbn [map app fold_right]; lia. Qed.
  Lemma sz_prefix A : forall B C D, A ++ B = C ++ D -> Forall (fun b => 0 < bsize b) (A ++ B) -> sz A = sz C -> A = C.
  Proof.
    assert (P : forall l, Forall (fun b : bucket R => 0 < bsize b) l -> 0 <= sz l).
    { induction 1 as [|x l Hx _ IH]; unfold sz in *; cbn [map fold_right]; lia. }
    induction A as [|a A IH]; intros B [|c C] D E HF Hs; auto; cbn [app] in *.
    - subst B. inversion HF as [|? ? K1 K2]; subst. apply Forall_app in K2 as (K2 & _). apply P in K2. unfold sz in *. cbn [map fold_right] in Hs. lia.
    - inversion HF as [|? ? K1 K2]; subst. apply Forall_app in K2 as (K2 & _). apply P in K2. unfold sz in *. cbn [map fold_right] in Hs. lia.
    - inversion E; subst. inversion HF as [|? ? K1 K2]; subst. f_equal. apply (IH B C D); auto. unfold sz in *. cbn [map fold_right] in Hs. lia.
  Qed.
  Lemma sep_prefix {A} (P Q : A -> Prop) : (forall x, P x -> Q x -> False) -> forall a b c e : list A,
    a ++ b = c ++ e -> (forall x, In x a -> P x) -> (forall x, In x c -> P x) -> (forall x, In x b -> Q x) -> (forall x, In x e -> Q x) -> a = c /\ b = e.
  Proof.
    intros HPQ. induction a as [|x a IH]; intros b [|y c] e E Ha Hc Hb He; cbn [app] in *; auto.
    - subst b. exfalso. apply (HPQ y); [apply Hc|apply Hb]; now left.
    - subst e. exfalso. apply (HPQ x); [apply Ha|apply He]; now left.
    - inversion E; subst. destruct (IH b c e) as (-> & ->); auto; intros z Hz; [apply Ha|apply Hc]; now right.
  Qed.

  (** ** The cheapest plane *)
  Open Scope R_scope.
  Definition pc (bs : list (bucket R)) (n : Z) (lo hi bl : R) (i : Z) (v : R) : Prop :=
    exists xs b1 b2 ys, bs = xs ++ b1 :: b2 :: ys /\ zlen xs = (i - 1)%Z
      /\ v = (bLmax b1 - lo) / bl * IZR (sz (xs ++ [b1])) + (hi - bRmin b2) / bl * IZR (n - sz (xs ++ [b1])).

  Lemma firstn_sz (bs : list (bucket R)) xs b r i : bs = xs ++ b :: r -> zlen xs = (i - 1)%Z -> sz (firstn (Z.to_nat (i - 1)) bs) = sz xs.
  Proof.
    intros -> H. replace (Z.to_nat (i - 1)) with (length xs) by (unfold zlen in H; lia).
    rewrite firstn_app, firstn_all, Nat.sub_diag. cbn [firstn]. now rewrite app_nil_r.
  Qed.

  Lemma plane_best bs n lo hi bl : bl <> 0 -> forall m i st,
    (1 <= i)%Z -> (i + Z.of_nat m = zlen bs)%Z ->
    snd st = sz (firstn (Z.to_nat (i - 1)) bs) ->
    match snd (fst st) with None => True | Some p => pc bs n lo hi bl p (fst (fst st)) end ->
    (forall i' v', (i' < i)%Z -> pc bs n lo hi bl i' v' -> fst (fst st) <= v') ->
    forall c pl nl, for_loop m i (plane_step bs n hi lo bl) st = Ok (c, Some pl, nl) ->
      pc bs n lo hi bl pl c /\ forall i' v', pc bs n lo hi bl i' v' -> c <= v'.
  Proof.
    intros Hbl. induction m as [|m IH]; intros i [[c0 pl0] nl0] Hi Hm Hn Hp Hc c pl nl E; cbn [fst snd] in *.
    - cbn [for_loop] in E. inversion E; subst. split; auto. intros i' v' Hv. apply (Hc i'); auto.
      destruct Hv as (xs & b1 & b2 & ys & -> & Hx & _). rewrite zlen_app, !zlen_cons in Hm. pose proof (zlen_nonneg ys). lia.
    - cbn [for_loop] in E. unfold plane_step at 1 in E.
      assert (Hsp : exists xs b1 b2 ys, bs = xs ++ b1 :: b2 :: ys /\ zlen xs = (i - 1)%Z).
      { pose proof (firstn_skipn (Z.to_nat (i - 1)) bs) as Es. set (u := firstn _ bs) in *. set (w := skipn _ bs) in *.
        assert (Hu : zlen u = (i - 1)%Z) by (unfold u, zlen in *; rewrite firstn_length; lia).
        destruct w as [|b1 [|b2 ys]].
        - rewrite app_nil_r in Es. rewrite <- Es in Hm. lia.
        - rewrite <- Es, zlen_app, zlen_cons, zlen_nil in Hm. lia.
        - exists u, b1, b2, ys. auto. }
      destruct Hsp as (xs & b1 & b2 & ys & Ebs & Hx).
      assert (L1 : lget bs (i - 1) = Ok b1) by (rewrite Ebs; apply lget_mid; auto).
      assert (L2 : lget bs i = Ok b2).
      { rewrite Ebs. replace (xs ++ b1 :: b2 :: ys) with ((xs ++ [b1]) ++ b2 :: ys) by (rewrite <- app_assoc; reflexivity).
        apply lget_mid. rewrite zlen_app, zlen_cons, zlen_nil. lia. }
      rewrite L1, L2 in E. cbn [bind] in E. rsimp. rewrite !ndiv_R in E by auto. cbn [bind] in E. rsimp.
      assert (Hn1 : (nl0 + bsize b1 = sz (xs ++ [b1]))%Z).
      { rewrite Hn, (firstn_sz bs xs b1 (b2 :: ys) i Ebs Hx), sz_app. unfold sz at 3. cbn [map fold_right]. lia. }
      assert (Hn2 : (nl0 + bsize b1 = sz (firstn (Z.to_nat (i + 1 - 1)) bs))%Z).
      { rewrite Hn1. symmetry. apply (firstn_sz bs (xs ++ [b1]) b2 ys (i + 1)); [rewrite Ebs, <- app_assoc; reflexivity|].
        rewrite zlen_app, zlen_cons, zlen_nil. lia. }
      assert (Hu : forall v', pc bs n lo hi bl i v' ->
        v' = (bLmax b1 - lo) / bl * IZR (nl0 + bsize b1) + (hi - bRmin b2) / bl * IZR (n - (nl0 + bsize b1))).
      { intros v' (xs' & b1' & b2' & ys' & Eb' & Hx' & ->). rewrite Ebs in Eb'.
        apply app_same_len in Eb' as (-> & Eb'); [|lia]. inversion Eb'; subst. now rewrite Hn1. }
      revert E. case Rlt_bool_spec; intros Hlt E.
      + cbn [bind] in E. apply (IH (i + 1)%Z _ ltac:(lia) ltac:(lia)) in E; cbn [fst snd]; auto.
        * exists xs, b1, b2, ys. now rewrite Hn1.
        * intros i' v' Hi' Hv. destruct (Z.eq_dec i' i) as [->|Hne]; [rewrite (Hu v' Hv); lra|].
          specialize (Hc i' v' ltac:(lia) Hv). lra.
      + cbn [bind] in E. apply (IH (i + 1)%Z _ ltac:(lia) ltac:(lia)) in E; cbn [fst snd]; auto.
        intros i' v' Hi' Hv. destruct (Z.eq_dec i' i) as [->|Hne]; [rewrite (Hu v' Hv); lra|]. apply (Hc i'); auto. lia.
  Qed.

  Lemma split_plane_best bs root lo hi bl plane L R0 : bl <> 0 ->
    split_plane bs root hi lo bl = Ok (plane, L, R0) ->
    exists v, pc bs (nsize root) lo hi bl plane v /\ forall i v', pc bs (nsize root) lo hi bl i v' -> v <= v'.
  Proof.
    intros Hbl E. unfold split_plane in E. destruct (for_range 1 _ _ _) as [[[c pl] nl]|] eqn:Ef; [|discriminate]. cbn [bind] in E.
    destruct pl as [pl|]; [|discriminate].
    destruct (Z.le_gt_cases (zlen bs) 1) as [Hl|Hl]; [rewrite for_range_nil in Ef by lia; discriminate|].
    unfold for_range in Ef.
    apply (plane_best bs (nsize root) lo hi bl Hbl (Z.to_nat (zlen bs - 1)) 1 (nfmax, None, 0%Z) ltac:(lia) ltac:(lia) eq_refl I) in Ef.
    - destruct (for_range 0 pl _ _) as [x|]; [|discriminate]. cbn [bind] in E. destruct (for_range pl _ _ _) as [y|]; [|discriminate]. cbn [bind] in E.
      inversion E; subst. eauto.
    - intros i' v' Hi (xs & b1 & b2 & ys & _ & Hx & _). pose proof (zlen_nonneg xs). lia.
  Qed.

  (** ** The buckets on either side of a cut *)
  Definition Plane (mk bs : list (bucket R)) (s : list Z) (m c : Z) : Prop :=
    exists xs b1 b2 ys sx g1 g2 sy j1 j2,
      bs = xs ++ b1 :: b2 :: ys /\ s = sx ++ g1 ++ g2 ++ sy /\ sz xs = zlen sx /\ bsize b1 = zlen g1
      /\ bLmax b1 = GMax bbc (b2z d) g1 /\ bRmin b2 = GMin bbc (b2z d) g2
      /\ (0 <= j1 /\ m <= j1 /\ j1 < c /\ c <= j2)%Z
      /\ (forall e, In e g1 -> takes mk (Z.to_nat j1) e) /\ (forall e, In e g2 -> takes mk (Z.to_nat j2) e)
      /\ (forall e, In e sx -> exists j, (0 <= j < j1)%Z /\ takes mk (Z.to_nat j) e)
      /\ (forall e, In e sy -> exists j, (j2 < j)%Z /\ takes mk (Z.to_nat j) e)
      /\ g1 <> [] /\ g2 <> [].

  Lemma find_plane mk c m bs s : PSegs mk m bs s -> (0 <= m)%Z -> Forall (fun b => (0 < bsize b)%Z) bs ->
    (exists e j, In e s /\ (0 <= j < c)%Z /\ takes mk (Z.to_nat j) e) ->
    (exists e j, In e s /\ (c <= j)%Z /\ (0 <= j)%Z /\ takes mk (Z.to_nat j) e) -> Plane mk bs s m c.
  Proof.
    induction 1 as [|m j b bs seg s Hj Hj0 Hs HR HL Ht Hr IH]; intros Hm HF (e & k & He & Hk & Te) (e' & k' & He' & Hk' & Hk0 & Te'); [destruct He|].
    inversion HF as [|? ? HF1 HF2]; subst.
    assert (Hjc : (j < c)%Z).
    { destruct (Z_lt_ge_dec j c) as [H|H]; auto. exfalso. apply in_app_iff in He as [He|He].
      - pose proof (takes_unique mk _ _ e Te (Ht e He)). lia.
      - destruct (PSegs_above bbc (b2z d) mk (j + 1) bs s ltac:(lia) Hr e He) as (k2 & Hk2 & Tk2).
        pose proof (takes_unique mk _ _ e Te Tk2). lia. }
    apply in_app_iff in He' as [He'|He'].
    { pose proof (takes_unique mk _ _ e' Te' (Ht e' He')). lia. }
    destruct bs as [|b2 bs]; [inversion Hr; subst; destruct He'|].
    inversion Hr as [|? j2 ? ? seg2 s2 Hj2 Hj20 Hs2 HR2 HL2 Ht2 Hr2]; subst.
    assert (Hn1 : seg <> []) by (intros ->; rewrite zlen_nil in Hs; lia).
    assert (Hn2 : seg2 <> []) by (intros ->; apply Forall_inv in HF2; rewrite zlen_nil in Hs2; lia).
    destruct (Z_lt_ge_dec j2 c) as [Hc|Hc].
    - assert (HP : Plane mk (b2 :: bs) (seg2 ++ s2) (j + 1) c).
      { apply IH; auto; [lia| |].
        - destruct seg2 as [|x seg2]; [congruence|]. exists x, j2. split; [now left|]. split; [lia|]. apply Ht2. now left.
        - exists e', k'. auto. }
      destruct HP as (xs & b1 & b3 & ys & sx & g1 & g2 & sy & j1 & j3 & E1 & E2 & E3 & E4 & E5 & E6 & (E7 & E8 & E9 & E10) & E11 & E12 & E13 & E14 & E15 & E16).
      exists (b :: xs), b1, b3, ys, (seg ++ sx), g1, g2, sy, j1, j3.
      split; [cbn [app]; now rewrite E1|]. split; [rewrite E2, <- app_assoc; reflexivity|].
      split; [rewrite zlen_app, <- E3, <- Hs; reflexivity|]. repeat (split; auto; try lia).
      intros x Hx. apply in_app_iff in Hx as [Hx|Hx]; [exists j; split; [lia|auto]|auto].
    - exists [], b, b2, bs, [], seg, seg2, s2, j, j2.
      repeat (split; auto; try lia); try (intros x []).
      intros x Hx. destruct (PSegs_above bbc (b2z d) mk (j2 + 1) bs s2 ltac:(lia) Hr2 x Hx) as (k2 & Hk2 & Tk2). exists k2. split; auto. lia.
  Qed.

  (** ** Costs *)
  Definition bxe (e : Z) : box R := match aget bbc e with Ok b => b | Err _ => Box 0 0 0 0 end.

  Lemma bxe_ok e : in_range e -> aget bbc e = Ok (bxe e).
  Proof. intros H. destruct (in_range_box bbc e H) as (b & E). unfold bxe. now rewrite E. Qed.
  Lemma hi_bxe e : in_range e -> side_hi d (bxe e) = ehi bbc (b2z d) e.
  Proof. intros H. rewrite side_hi_b. unfold ehi. now rewrite bxe_ok. Qed.
  Lemma lo_bxe e : in_range e -> side_lo d (bxe e) = elo bbc (b2z d) e.
  Proof. intros H. rewrite side_lo_b. unfold elo. now rewrite bxe_ok. Qed.

  Variables lo hi : R.
  Notation x := (part_end nb lo hi).
  Let bl := (hi - lo) / IZR nb.
  Hypothesis Hbl : 0 < bl.
  Notation mk := (make_buckets nb bl lo).

  Lemma x_mono j k : (j <= k)%Z -> x j <= x k.
  Proof. intros H. apply IZR_le in H. unfold part_end. fold bl. nra. Qed.
  Lemma x_same j k t : x j <= t < x (j + 1)%Z -> x k <= t < x (k + 1)%Z -> j = k.
  Proof.
    intros H1 H2. destruct (Z.lt_trichotomy j k) as [H|[H|H]]; auto.
    - pose proof (x_mono (j + 1) k ltac:(lia)). lra.
    - pose proof (x_mono (k + 1) j ltac:(lia)). lra.
  Qed.
  Lemma takes_x j e : in_range e -> (0 <= j)%Z -> takes mk (Z.to_nat j) e -> (j < nb)%Z /\ x j <= centre d (bxe e) < x (j + 1)%Z.
  Proof.
    intros Hr Hj Ht. apply (takes_part bbc nb Hnb) with (bx := bxe e) in Ht; [|now apply bxe_ok]. rewrite Z2Nat.id in Ht by lia.
    destruct Ht as (H1 & H2 & _). split; [lia|]. unfold in_part in H2. apply andb_true_iff in H2 as (H2 & H3). rsimp. rb. unfold part_end. fold bl. auto.
  Qed.

  Lemma cost_unique l c v v' : cut_cost nb d lo hi l c v -> cut_cost nb d lo hi l c v' -> v = v'.
  Proof.
    intros (Hc & i & j & a & b & Hi & Hj & N1 & N2 & (p & I1 & C1 & A1) & M1 & (q & I2 & C2 & B1) & M2 & ->)
           (_ & i' & j' & a' & b' & Hi' & Hj' & N1' & N2' & (p' & I1' & C1' & A1') & M1' & (q' & I2' & C2' & B1') & M2' & ->).
    assert (Eii : i = i').
    { destruct (Z.lt_trichotomy i i') as [H|[H|H]]; auto.
      - exfalso. apply (N1 p' I1'). pose proof (x_mono (i + 1) i' ltac:(lia)). pose proof (x_mono (i' + 1) c ltac:(lia)). lra.
      - exfalso. apply (N1' p I1). pose proof (x_mono (i' + 1) i ltac:(lia)). pose proof (x_mono (i + 1) c ltac:(lia)). lra. }
    assert (Ejj : j = j').
    { destruct (Z.lt_trichotomy j j') as [H|[H|H]]; auto.
      - exfalso. apply (N2' q I2). pose proof (x_mono (j + 1) j' ltac:(lia)). pose proof (x_mono c j ltac:(lia)). lra.
      - exfalso. apply (N2 q' I2'). pose proof (x_mono (j' + 1) j ltac:(lia)). pose proof (x_mono c j' ltac:(lia)). lra. }
    subst i' j'. pose proof (M1 p' I1' C1'). pose proof (M1' p I1 C1). pose proof (M2 q' I2' C2'). pose proof (M2' q I2 C2).
    replace a' with a by lra. replace b' with b by lra. reflexivity.
  Qed.

  Lemma filter_perm_zlen {A} (f : A -> bool) l l' : Permutation l l' -> zlen (filter f l) = zlen (filter f l').
  Proof.
    induction 1 as [|y l l' _ IH|y z l|l l' l'' _ IH1 _ IH2]; auto; cbn [filter]; try congruence.
    - destruct (f y); rewrite ?zlen_cons; lia.
    - destruct (f y), (f z); rewrite ?zlen_cons; lia.
  Qed.
  Lemma cost_perm l l' c v : Permutation l l' -> cut_cost nb d lo hi l c v -> cut_cost nb d lo hi l' c v.
  Proof.
    intros P (Hc & i & j & a & b & Hi & Hj & N1 & N2 & (p & I1 & C1 & A1) & M1 & (q & I2 & C2 & B1) & M2 & ->).
    assert (Q : forall y, In y l' -> In y l) by (intros y; apply Permutation_in; now symmetry).
    split; auto. exists i, j, a, b. split; auto. split; auto. split; [intros; apply N1; auto|]. split; [intros; apply N2; auto|].
    split; [exists p; split; auto; now apply (Permutation_in _ P)|]. split; [intros; apply M1; auto|].
    split; [exists q; split; auto; now apply (Permutation_in _ P)|]. split; [intros; apply M2; auto|].
    now rewrite !(filter_perm_zlen _ l l' P).
  Qed.

  Lemma filter_all {A} (f : A -> bool) l : (forall y, In y l -> f y = true) -> filter f l = l.
  Proof. induction l as [|y l IH]; intros H; cbn [filter]; auto. rewrite (H y) by now left. f_equal. apply IH. intros z Hz. apply H. now right. Qed.
  Lemma filter_none {A} (f : A -> bool) l : (forall y, In y l -> f y = false) -> filter f l = [].
  Proof. induction l as [|y l IH]; intros H; cbn [filter]; auto. rewrite (H y) by now left. apply IH. intros z Hz. apply H. now right. Qed.
  Lemma zlen_map {A B} (f : A -> B) l : zlen (map f l) = zlen l.
  Proof. unfold zlen. now rewrite map_length. Qed.

  Lemma plane_cost bs s c : Forall in_range s -> Plane mk bs s 0 c ->
    exists i v, pc bs (zlen s) lo hi bl i v /\ cut_cost nb d lo hi (map bxe s) c v
      /\ exists A B sA sB, bs = A ++ B /\ zlen A = i /\ s = sA ++ sB /\ sz A = zlen sA
         /\ (forall e, In e sA -> centre d (bxe e) < x c) /\ (forall e, In e sB -> x c <= centre d (bxe e)).
  Proof.
    intros Hr (xs & b1 & b2 & ys & sx & g1 & g2 & sy & j1 & j2 & Ebs & Es & Hxs & Hb1 & HL & HR & (J0 & _ & J1 & J2) & T1 & T2 & Tx & Ty & N1 & N2).
    rewrite Forall_forall in Hr.
    assert (C1 : forall e, In e g1 -> in_range e /\ (j1 < nb)%Z /\ x j1 <= centre d (bxe e) < x (j1 + 1)%Z).
    { intros e He. assert (in_range e) by (apply Hr; rewrite Es, !in_app_iff; auto). split; auto. apply takes_x; auto. }
    assert (C2 : forall e, In e g2 -> in_range e /\ (j2 < nb)%Z /\ x j2 <= centre d (bxe e) < x (j2 + 1)%Z).
    { intros e He. assert (in_range e) by (apply Hr; rewrite Es, !in_app_iff; auto). split; auto. apply takes_x; auto. lia. }
    assert (Cx : forall e, In e sx -> centre d (bxe e) < x j1).
    { intros e He. destruct (Tx e He) as (j & Hj & Ht). apply takes_x in Ht; [|apply Hr; rewrite Es, !in_app_iff; auto|lia].
      pose proof (x_mono (j + 1) j1 ltac:(lia)). lra. }
    assert (Cy : forall e, In e sy -> x (j2 + 1)%Z <= centre d (bxe e)).
    { intros e He. destruct (Ty e He) as (j & Hj & Ht). apply takes_x in Ht; [|apply Hr; rewrite Es, !in_app_iff; auto|lia].
      pose proof (x_mono (j2 + 1) j ltac:(lia)). lra. }
    assert (X1 : x j1 <= x c) by (apply x_mono; lia). assert (X2 : x (j1 + 1)%Z <= x c) by (apply x_mono; lia).
    assert (X3 : x c <= x j2) by (apply x_mono; lia). assert (X4 : x j2 <= x (j2 + 1)%Z) by (apply x_mono; lia).
    assert (HA : forall e, In e (sx ++ g1) -> centre d (bxe e) < x c).
    { intros e He. apply in_app_iff in He as [He|He]; [pose proof (Cx e He)|pose proof (C1 e He)]; lra. }
    assert (HB : forall e, In e (g2 ++ sy) -> x c <= centre d (bxe e)).
    { intros e He. apply in_app_iff in He as [He|He]; [pose proof (C2 e He)|pose proof (Cy e He)]; lra. }
    assert (Hsz : sz (xs ++ [b1]) = zlen (sx ++ g1)).
    { rewrite sz_app, zlen_app, Hxs. unfold sz. cbn [map fold_right]. lia. }
    set (v := (bLmax b1 - lo) / bl * IZR (sz (xs ++ [b1])) + (hi - bRmin b2) / bl * IZR (zlen s - sz (xs ++ [b1]))).
    exists (zlen xs + 1)%Z, v. split; [exists xs, b1, b2, ys; repeat split; auto; lia|]. split.
    - split.
      { destruct g2 as [|e g2]; [congruence|]. destruct (C2 e (or_introl eq_refl)) as (_ & ? & _). lia. }
      exists j1, j2, (bLmax b1), (bRmin b2).
      assert (Hin : forall bx, In bx (map bxe s) -> exists e, bx = bxe e /\ In e s).
      { intros bx Hb. apply in_map_iff in Hb as (e & <- & He). eauto. }
      assert (Hcs : forall e, In e s -> In e sx \/ In e g1 \/ In e g2 \/ In e sy).
      { intros e He. rewrite Es, !in_app_iff in He. tauto. }
      split; [lia|]. split; [destruct g2 as [|e g2]; [congruence|]; destruct (C2 e (or_introl eq_refl)) as (_ & ? & _); lia|].
      split; [|split; [|split; [|split; [|split; [|split]]]]].
      + intros bx Hb Hx. destruct (Hin bx Hb) as (e & -> & He). destruct (Hcs e He) as [H|[H|[H|H]]].
        * pose proof (Cx e H). pose proof (x_mono j1 (j1 + 1) ltac:(lia)). lra.
        * pose proof (C1 e H). lra.
        * pose proof (C2 e H). lra.
        * pose proof (Cy e H). lra.
      + intros bx Hb Hx. destruct (Hin bx Hb) as (e & -> & He). destruct (Hcs e He) as [H|[H|[H|H]]].
        * pose proof (Cx e H). lra.
        * pose proof (C1 e H). lra.
        * pose proof (C2 e H). lra.
        * pose proof (Cy e H). lra.
      + destruct (GMax_att bbc Hfin (b2z d) g1 N1) as (e & He & Hle). destruct (C1 e He) as (Hre & _ & Hce). exists (bxe e). split.
        { apply in_map. rewrite Es, !in_app_iff. auto. }
        split; auto. rewrite hi_bxe by auto. rewrite HL.
        destruct (gmax_spec bbc Hfin (b2z d) g1 nfmin ltac:(apply fin_fmin)) as (_ & _ & HF). rewrite Forall_forall in HF. specialize (HF e He). fold (GMax bbc (b2z d) g1) in HF. rsimp. rb. lra.
      + intros bx Hb Hx. destruct (Hin bx Hb) as (e & -> & He). destruct (Hcs e He) as [H|[H|[H|H]]].
        * pose proof (Cx e H). lra.
        * destruct (C1 e H) as (Hre & _). rewrite hi_bxe, HL by auto.
          destruct (gmax_spec bbc Hfin (b2z d) g1 nfmin ltac:(apply fin_fmin)) as (_ & _ & HF). rewrite Forall_forall in HF. specialize (HF e H). fold (GMax bbc (b2z d) g1) in HF. rsimp. rb. lra.
        * pose proof (C2 e H). lra.
        * pose proof (Cy e H). lra.
      + destruct (GMin_att bbc Hfin (b2z d) g2 N2) as (e & He & Hle). destruct (C2 e He) as (Hre & _ & Hce). exists (bxe e). split.
        { apply in_map. rewrite Es, !in_app_iff. auto. }
        split; auto. rewrite lo_bxe by auto. rewrite HR.
        destruct (gmin_spec bbc Hfin (b2z d) g2 nfmax ltac:(apply fin_fmax)) as (_ & _ & HF). rewrite Forall_forall in HF. specialize (HF e He). fold (GMin bbc (b2z d) g2) in HF. rsimp. rb. lra.
      + intros bx Hb Hx. destruct (Hin bx Hb) as (e & -> & He). destruct (Hcs e He) as [H|[H|[H|H]]].
        * pose proof (Cx e H). lra.
        * pose proof (C1 e H). lra.
        * destruct (C2 e H) as (Hre & _). rewrite lo_bxe, HR by auto.
          destruct (gmin_spec bbc Hfin (b2z d) g2 nfmax ltac:(apply fin_fmax)) as (_ & _ & HF). rewrite Forall_forall in HF. specialize (HF e H). fold (GMin bbc (b2z d) g2) in HF. rsimp. rb. lra.
        * pose proof (Cy e H). lra.
      + assert (Em : map bxe s = map bxe (sx ++ g1) ++ map bxe (g2 ++ sy)) by (rewrite <- map_app, Es, <- !app_assoc; reflexivity).
        rewrite Em, !filter_app.
        rewrite (filter_all (below d (x c)) (map bxe (sx ++ g1))), (filter_none (below d (x c)) (map bxe (g2 ++ sy))).
        2:{ intros bx Hb. apply in_map_iff in Hb as (e & <- & He). apply Rltb_false. auto. }
        2:{ intros bx Hb. apply in_map_iff in Hb as (e & <- & He). apply Rltb_iff. auto. }
        rewrite (filter_none (fun bx => negb (below d (x c) bx)) (map bxe (sx ++ g1))), (filter_all (fun bx => negb (below d (x c) bx)) (map bxe (g2 ++ sy))).
        2:{ intros bx Hb. apply in_map_iff in Hb as (e & <- & He). apply negb_true_iff, Rltb_false. auto. }
        2:{ intros bx Hb. apply in_map_iff in Hb as (e & <- & He). apply negb_false_iff, Rltb_iff. auto. }
        rewrite app_nil_r. cbn [app]. rewrite !zlen_map. unfold v. rewrite Hsz. fold bl.
        replace (zlen s - zlen (sx ++ g1))%Z with (zlen (g2 ++ sy)); auto. rewrite Es, !zlen_app. lia.
    - exists (xs ++ [b1]), (b2 :: ys), (sx ++ g1), (g2 ++ sy). split; [rewrite Ebs, <- app_assoc; reflexivity|].
      split; [rewrite zlen_app, zlen_cons, zlen_nil; lia|]. split; [rewrite Es, <- !app_assoc; reflexivity|]. auto.
  Qed.
End Cheap.

Section CheapCut.
  Open Scope R_scope.
  Variable bbc : list (box R).
  Hypothesis Hfin : Forall fin_box bbc.
  Variables nb cpl : Z.
  Hypothesis Hnb : (1 <= nb)%Z.
  Notation in_range := (in_range bbc).

  Lemma pc_unique bs n lo hi bl i v v' : pc bs n lo hi bl i v -> pc bs n lo hi bl i v' -> v = v'.
  Proof.
    intros (xs & b1 & b2 & ys & E & Hx & ->) (xs' & b1' & b2' & ys' & E' & Hx' & ->). rewrite E in E'.
    apply app_same_len in E' as (-> & E'); [|lia]. inversion E'; subst. reflexivity.
  Qed.

  Theorem cut_cheap bbi nd mid : (0 <= nptr nd)%Z -> (nptr nd + nsize nd <= zlen bbi)%Z ->
    Cut bbc nb cpl bbi nd mid -> divided_cheaply nb cpl bbc bbi nd mid.
  Proof.
    intros H0 H1 (Hm & H). destruct H as [H|H]; [now left|right].
    destruct H as (sl & s1 & s2 & bl & bs1 & bs2 & c & root & P1 & P2 & P & Hr & N1 & N2 & Ebl & (HP & HP2 & T1 & T2) & Hpos & Hc & Es & Hrt & _ & _).
    set (d := ndim nd) in *. set (lo := GMin bbc (b2z d) sl) in *. set (hi := GMax bbc (b2z d) sl) in *.
    assert (Hnb0 : IZR nb <> 0) by (apply not_0_IZR; lia).
    rsimp. rewrite ndiv_R in Ebl by auto. inversion Ebl as [Ebl']. clear Ebl. symmetry in Ebl'.
    assert (Hrs : Forall in_range (s1 ++ s2)) by (rewrite Forall_forall in *; intros e He; apply Hr; apply (Permutation_in _ (Permutation_sym P)); auto).
    assert (Hbl : 0 < bl).
    { destruct s1 as [|e s1]; [congruence|]. destruct (T1 e (or_introl eq_refl)) as (j & Hj & Ht).
      apply (takes_part bbc nb Hnb) with (bx := bxe bbc e) in Ht; [|apply bxe_ok; now apply Forall_inv in Hrs].
      destruct Ht as (_ & Hp & _). unfold in_part in Hp. apply andb_true_iff in Hp as (K1 & K2). rsimp. rb. rewrite plus_IZR in K2. nra. }
    rewrite Ebl' in Hbl.
    assert (Hall : forall e, In e (s1 ++ s2) -> exists j, (0 <= j)%Z /\ takes bbc (b2z d) (make_buckets nb bl lo) (Z.to_nat j) e).
    { apply (PSegs_above bbc (b2z d) (make_buckets nb bl lo) 0 (bs1 ++ bs2)); auto; lia. }
    rewrite Ebl' in HP, HP2, T1, T2, Es, Hall. rewrite <- Ebl' in Es at 1.
    set (x := part_end nb lo hi) in *.
    assert (Hplane : Plane bbc d (make_buckets nb ((hi - lo) / IZR nb) lo) (bs1 ++ bs2) (s1 ++ s2) 0 c).
    { apply find_plane; auto; [lia| |].
      - destruct s1 as [|e s1]; [congruence|]. destruct (T1 e (or_introl eq_refl)) as (j & Hj & Ht). exists e, j. split; [now left|auto].
      - destruct s2 as [|e s2]; [congruence|]. destruct (T2 e (or_introl eq_refl)) as (j & Hj & Ht). exists e, j. split; [apply in_or_app; right; now left|]. split; [lia|split; [lia|auto]]. }
    destruct (plane_cost bbc Hfin nb Hnb d lo hi Hbl _ _ c Hrs Hplane) as (i & v & Hpc & Hcc & A & B & sA & sB & EA & Hi & EsA & HszA & HA & HB).
    destruct (split_plane_best _ _ lo hi bl _ _ _ ltac:(lra) Es) as (v0 & Hv0 & Hmin).
    assert (C1 : forall e, In e s1 -> centre d (bxe bbc e) < x c).
    { intros e He. destruct (T1 e He) as (j & Hj & Ht). apply (takes_x bbc nb Hnb d lo hi) in Ht; [|rewrite Forall_forall in Hrs; apply Hrs, in_or_app; auto|lia].
      pose proof (x_mono nb lo hi Hbl (j + 1) c ltac:(lia)). unfold x. lra. }
    assert (C2 : forall e, In e s2 -> x c <= centre d (bxe bbc e)).
    { intros e He. destruct (T2 e He) as (j & Hj & Ht). apply (takes_x bbc nb Hnb d lo hi) in Ht; [|rewrite Forall_forall in Hrs; apply Hrs, in_or_app; auto|lia].
      pose proof (x_mono nb lo hi Hbl c j ltac:(lia)). unfold x. lra. }
    assert (Hsep : forall e, centre d (bxe bbc e) < x c -> x c <= centre d (bxe bbc e) -> False) by (intros; lra).
    destruct (sep_prefix (fun e => centre d (bxe bbc e) < x c) (fun e => x c <= centre d (bxe bbc e)) Hsep _ _ _ _ EsA C1 HA C2 HB) as (<- & <-).
    assert (Hsz1 : sz bs1 = zlen s1).
    { apply PSegs_len in HP. apply PSegs_len in HP2. fold (sz (bs1 ++ bs2)) in HP. fold (sz bs2) in HP2. rewrite sz_app, zlen_app in HP. lia. }
    assert (bs1 = A) as <- by (apply (sz_prefix bs1 bs2 A B); auto; lia).
    rewrite <- Hi in Hpc.
    assert (Hn : nsize root = zlen (s1 ++ s2)) by (rewrite Hrt; unfold zlen; f_equal; now apply Permutation_length).
    rewrite Hn in Hv0, Hmin. rewrite Ebl' in Hv0, Hmin. rewrite (pc_unique _ _ _ _ _ _ _ _ Hv0 Hpc) in *. clear Hv0 v0.
    assert (Hp12 : Permutation (map (bxe bbc) (s1 ++ s2)) (map (bxe bbc) (slice bbi (nptr nd) mid) ++ map (bxe bbc) (slice bbi mid (nptr nd + nsize nd)))).
    { rewrite map_app, P1, P2. reflexivity. }
    assert (Hin : forall bx, In bx (map (bxe bbc) (slice bbi (nptr nd) mid) ++ map (bxe bbc) (slice bbi mid (nptr nd + nsize nd))) -> exists e, bx = bxe bbc e /\ In e sl).
    { intros bx Hb. apply (Permutation_in _ (Permutation_sym Hp12)) in Hb. apply in_map_iff in Hb as (e & <- & He). exists e. split; auto. apply (Permutation_in _ (Permutation_sym P)); auto. }
    assert (Hin' : forall e, In e sl -> In (bxe bbc e) (map (bxe bbc) (slice bbi (nptr nd) mid) ++ map (bxe bbc) (slice bbi mid (nptr nd + nsize nd)))).
    { intros e He. apply (Permutation_in _ Hp12). apply in_map. apply (Permutation_in _ P); auto. }
    assert (Hsl : sl <> []).
    { intros E0. rewrite E0 in P. apply Permutation_nil in P. apply app_eq_nil in P as (? & _). congruence. }
    assert (F2 : forall l, (forall e, In e l -> in_range e) -> Forall2 (fun e bx => aget bbc e = Ok bx) l (map (bxe bbc) l)).
    { induction l as [|e l IH]; intros Hl; cbn [map]; constructor; [apply bxe_ok; apply Hl; now left|apply IH; intros; apply Hl; now right]. }
    rewrite Forall_forall in Hrs.
    exists lo, hi, (map (bxe bbc) (slice bbi (nptr nd) mid)), (map (bxe bbc) (slice bbi mid (nptr nd + nsize nd))), c, v.
    split; [|split; [|split; [|split; [|split; [|split; [|split; [|split]]]]]]].
    - destruct (slice_split bbi (nptr nd) mid ltac:(lia) ltac:(lia)) as (p & q & E & Zp & Zs). exists p, (slice bbi (nptr nd) mid), q. split; auto. split; auto. split; auto.
      apply F2. intros e He. apply Hrs. apply in_or_app. left. apply (Permutation_in _ (Permutation_sym P1)); auto.
    - destruct (slice_split bbi mid (nptr nd + nsize nd) ltac:(lia) ltac:(lia)) as (p & q & E & Zp & Zs). exists p, (slice bbi mid (nptr nd + nsize nd)), q. split; auto. split; auto. split; auto.
      apply F2. intros e He. apply Hrs. apply in_or_app. right. apply (Permutation_in _ (Permutation_sym P2)); auto.
    - intros bx Hb. destruct (Hin bx Hb) as (e & -> & He). rewrite Forall_forall in Hr. specialize (Hr e He). rewrite hi_bxe, lo_bxe by auto.
      destruct (gmax_spec bbc Hfin (b2z d) sl nfmin ltac:(apply fin_fmin)) as (_ & _ & HF). rewrite Forall_forall in HF. specialize (HF e He). fold (GMax bbc (b2z d) sl) in HF. fold hi in HF.
      destruct (gmin_spec bbc Hfin (b2z d) sl nfmax ltac:(apply fin_fmax)) as (_ & _ & HG). rewrite Forall_forall in HG. specialize (HG e He). fold (GMin bbc (b2z d) sl) in HG. fold lo in HG.
      rsimp. rb. lra.
    - destruct (GMin_att bbc Hfin (b2z d) sl Hsl) as (e & He & Hle). exists (bxe bbc e). split; auto. rewrite Forall_forall in Hr. rewrite lo_bxe by auto.
      destruct (gmin_spec bbc Hfin (b2z d) sl nfmax ltac:(apply fin_fmax)) as (_ & _ & HG). rewrite Forall_forall in HG. specialize (HG e He). fold (GMin bbc (b2z d) sl) in HG. fold lo in HG, Hle.
      rsimp. rb. lra.
    - destruct (GMax_att bbc Hfin (b2z d) sl Hsl) as (e & He & Hle). exists (bxe bbc e). split; auto. rewrite Forall_forall in Hr. rewrite hi_bxe by auto.
      destruct (gmax_spec bbc Hfin (b2z d) sl nfmin ltac:(apply fin_fmin)) as (_ & _ & HF). rewrite Forall_forall in HF. specialize (HF e He). fold (GMax bbc (b2z d) sl) in HF. fold hi in HF, Hle.
      rsimp. rb. lra.
    - intros bx Hb. apply in_map_iff in Hb as (e & <- & He). apply C1. apply (Permutation_in _ (Permutation_sym P1)); auto.
    - intros bx Hb. apply in_map_iff in Hb as (e & <- & He). apply C2. apply (Permutation_in _ (Permutation_sym P2)); auto.
    - eapply cost_perm; eauto.
    - intros c' v' Hcc'. apply (cost_perm nb d lo hi _ _ _ _ (Permutation_sym Hp12)) in Hcc'.
      assert (Hplane' : Plane bbc d (make_buckets nb ((hi - lo) / IZR nb) lo) (bs1 ++ bs2) (s1 ++ s2) 0 c').
      { destruct Hcc' as (Hc' & i' & j' & a & b & Hi' & Hj' & _ & _ & (p & I1 & K1 & _) & _ & (q & I2 & K2 & _) & _).
        apply in_map_iff in I1 as (e1 & <- & I1). apply in_map_iff in I2 as (e2 & <- & I2).
        destruct (Hall e1 I1) as (j1 & Hj1 & Ht1). destruct (Hall e2 I2) as (j2 & Hj2 & Ht2).
        destruct (takes_x bbc nb Hnb d lo hi _ _ (Hrs e1 I1) Hj1 Ht1) as (_ & X1).
        destruct (takes_x bbc nb Hnb d lo hi _ _ (Hrs e2 I2) Hj2 Ht2) as (_ & X2).
        pose proof (x_same nb lo hi Hbl _ _ _ K1 X1). pose proof (x_same nb lo hi Hbl _ _ _ K2 X2). subst j1 j2.
        apply find_plane; auto; [lia| |].
        - exists e1, i'. auto.
        - exists e2, j'. split; auto. split; [lia|split; [lia|auto]]. }
      assert (Hrs' : Forall in_range (s1 ++ s2)) by (apply Forall_forall; auto).
      destruct (plane_cost bbc Hfin nb Hnb d lo hi Hbl _ _ c' Hrs' Hplane') as (i' & v'' & Hpc' & Hcc'' & _).
      rewrite (cost_unique nb d lo hi Hbl _ _ _ _ Hcc' Hcc''). eapply Hmin; eauto.
  Qed.
End CheapCut.
