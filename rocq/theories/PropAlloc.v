(** C75: the number of nodes that is allocated.  The code computes it with
    doubles, [int(np.ceil(n / 2))]; the model with integers.  Both agree up to
    2^53 elements, the result is at most 2 n plus the number of binary digits
    of n, and it is compared with the number of nodes that are used. *)
From Coq Require Import Permutation.
From Flocq Require Import IEEE754.BinarySingleNaN Core.
From Verif Require Import RBase NumB64 FBase MGeometry MCreation MCelltree SpecTree SpecQuery SpecApi SpecGeom SpecMesh
  PBuild2 PPoints PTreeFacts PApi PropTree GHull Examples PropPieces PropOcc.
Open Scope Z_scope.

(** ** The operations of Python on doubles *)
(** creation.py:225, 228: int(np.ceil(n / 2)) *)
Definition int_ceil_half (n : Z) : Z := Btrunc (Bnearbyint mode_UP (Bdiv mode_NE (Zb n) (Zb 2))).
(** geometry_utils.py:535: int(length / 2) *)
Definition int_half (n : Z) : Z := Btrunc (Bdiv mode_NE (Zb n) (Zb 2)).

(** creation.py:217-230 as it is written *)
Fixpoint pessimistic_loop64 (fuel : nat) (n_nodes nodes : Z) : Z :=
  match fuel with
  | O => n_nodes
  | S fuel' => if nodes >? 1 then pessimistic_loop64 fuel' (n_nodes + nodes) (int_ceil_half nodes) else n_nodes
  end.
Definition pessimistic_n_nodes64 (n_elements : Z) : Z :=
  pessimistic_loop64 (Z.to_nat n_elements) n_elements (int_ceil_half n_elements) + 1.

(** geometry_utils.py:533-538 as it is written *)
Definition flip64 (face : list Z) (length : Z) : res (list Z) :=
  let end_ := length - 1 in
  for_range 0 (int_half length)
    (fun i face =>
       let j := end_ - i in
       let* fj := aget face j in
       let* fi := aget face i in
       let* face := aset face i fj in
       aset face j fi) face.

(** ** Halves of integers are doubles *)
Lemma half_exact n : 0 <= n <= 2 ^ 53 ->
  is_finite (Bdiv mode_NE (Zb n) (Zb 2)) = true /\ B2R (Bdiv mode_NE (Zb n) (Zb 2)) = (IZR n / 2)%R.
Proof.
  intros Hn. destruct (Zb_exact n ltac:(lia)) as (Fn & En). destruct (Zb_exact 2 ltac:(vm_compute; discriminate)) as (F2 & E2).
  assert (Hb : (Rabs (B2R (Zb n) / B2R (Zb 2)) <= bpow radix2 53)%R).
  { rewrite En, E2. change (bpow radix2 53) with (IZR (2 ^ 53)).
    assert (0 <= IZR n <= IZR (2 ^ 53))%R by (split; apply IZR_le; lia). rewrite Rabs_pos_eq by lra. lra. }
  assert (H2 : B2R (Zb 2) <> 0%R) by (rewrite E2; lra).
  destruct (div_val 53 (Zb n) (Zb 2) ltac:(lia) Fn F2 H2 Hb) as (_ & HR & HF & _).
  split; [exact HF|]. change (Bdiv mode_NE (Zb n) (Zb 2)) with (ndivraw (Zb n) (Zb 2)). rewrite HR, En, E2.
  apply round_generic; [apply valid_rnd_N|]. apply generic_format_FLT. destruct (Z.eq_dec n (2 ^ 53)) as [->|Hne].
  - apply (FLT_spec _ _ _ _ (Float radix2 1 52)); cbn [Fnum Fexp].
    + unfold F2R; cbn [Fnum Fexp]. change (bpow radix2 52) with (IZR (2 ^ 52)). change (2 ^ 53) with (2 ^ 52 * 2).
      rewrite mult_IZR. lra.
    + vm_compute; reflexivity.
    + unfold SpecFloat.emin, emax, prec. lia.
  - apply (FLT_spec _ _ _ _ (Float radix2 n (-1))); cbn [Fnum Fexp].
    + unfold F2R; cbn [Fnum Fexp]. change (bpow radix2 (-1)) with (/ 2)%R. reflexivity.
    + change (Zpower radix2 prec) with (2 ^ 53)%Z. lia.
    + unfold SpecFloat.emin, emax, prec. lia.
Qed.

Lemma round_fix0 rnd x : round radix2 (FIX_exp 0) rnd x = IZR (rnd x).
Proof.
  unfold round, F2R, scaled_mantissa, cexp, FIX_exp. cbn [Fnum Fexp Z.opp]. change (bpow radix2 0) with 1%R.
  now rewrite !Rmult_1_r.
Qed.

(** the quotient is rounded down by [//] on integers and up by np.ceil *)
Theorem C75_int_half n : 0 <= n <= 2 ^ 53 -> int_ceil_half n = (n + 1) / 2 /\ int_half n = n / 2.
Proof.
  intros Hn. destruct (half_exact n Hn) as (Hf & Hv). split; apply eq_IZR.
  - unfold int_ceil_half.
    destruct (Bnearbyint_correct prec emax prec_lt mode_UP (Bdiv mode_NE (Zb n) (Zb 2))) as (HB & _).
    rewrite Btrunc_correct by exact prec_lt. rewrite HB, Hv, !round_fix0, Ztrunc_IZR. f_equal.
    cbn [round_mode]. unfold Zceil. rewrite <- (Z.opp_involutive ((n + 1) / 2)). f_equal. apply Zfloor_imp.
    pose proof (Z.div_mod (n + 1) 2 ltac:(lia)). pose proof (Z.mod_pos_bound (n + 1) 2 ltac:(lia)).
    assert (A : (IZR n <= 2 * IZR ((n + 1) / 2) < IZR n + 2)%R).
    { change 2%R with (IZR 2). rewrite <- mult_IZR, <- plus_IZR. split; [apply IZR_le|apply IZR_lt]; lia. }
    rewrite plus_IZR, opp_IZR. lra.
  - unfold int_half. rewrite Btrunc_correct by exact prec_lt. rewrite Hv, round_fix0. f_equal.
    assert (H0 : (0 <= IZR n)%R) by (apply IZR_le; lia). rewrite Ztrunc_floor by lra.
    apply Zfloor_imp. pose proof (Z.div_mod n 2 ltac:(lia)). pose proof (Z.mod_pos_bound n 2 ltac:(lia)).
    assert (A : (2 * IZR (n / 2) <= IZR n < 2 * IZR (n / 2) + 2)%R).
    { change 2%R with (IZR 2). rewrite <- mult_IZR, <- plus_IZR. split; [apply IZR_le|apply IZR_lt]; lia. }
    rewrite plus_IZR. lra.
Qed.

(** one more element and it is no longer the half *)
Theorem C75_int_half_refuted : int_ceil_half (2 ^ 53 + 1) <> (2 ^ 53 + 1 + 1) / 2.
Proof. vm_compute. discriminate. Qed.

Lemma pess_loop64_eq fuel : forall acc m, 0 <= m <= 2 ^ 53 -> pessimistic_loop64 fuel acc m = pessimistic_loop fuel acc m.
Proof.
  induction fuel as [|fuel IH]; intros acc m Hm; cbn [pessimistic_loop64 pessimistic_loop]; auto.
  destruct (Z.gtb_spec m 1) as [H|H]; auto. rewrite (proj1 (C75_int_half m Hm)). apply IH.
  split; [apply Z.div_pos; lia|]. apply Z.div_le_upper_bound; lia.
Qed.

(** ** How many nodes are allocated *)
Lemma log2_up_half m : 2 <= m -> Z.log2_up ((m + 1) / 2) + 1 <= Z.log2_up m.
Proof.
  intros Hm. pose proof (Z.log2_up_spec m ltac:(lia)) as (_ & Hs). pose proof (Z.log2_up_pos m ltac:(lia)) as Hp.
  assert (Z.log2_up ((m + 1) / 2) <= Z.log2_up m - 1); [|lia].
  apply Z.log2_up_le_pow2; [apply Z.div_str_pos; lia|]. apply Z.lt_succ_r, Z.div_lt_upper_bound; [lia|].
  assert (2 * 2 ^ (Z.log2_up m - 1) = 2 ^ Z.log2_up m).
  { rewrite <- Z.pow_succ_r by lia. f_equal. lia. }
  lia.
Qed.

Lemma pess_loop_le fuel : forall acc m, 1 <= m -> pessimistic_loop fuel acc m <= acc + 2 * m - 2 + Z.log2_up m.
Proof.
  induction fuel as [|fuel IH]; intros acc m Hm; cbn [pessimistic_loop].
  - pose proof (Z.log2_up_nonneg m). lia.
  - destruct (Z.gtb_spec m 1) as [H|H]; [|pose proof (Z.log2_up_nonneg m); lia].
    assert (H1 : 1 <= (m + 1) / 2) by (apply Z.div_le_lower_bound; lia).
    specialize (IH (acc + m) ((m + 1) / 2) H1). pose proof (log2_up_half m ltac:(lia)).
    pose proof (Z.div_mod (m + 1) 2 ltac:(lia)). pose proof (Z.mod_pos_bound (m + 1) 2 ltac:(lia)). lia.
Qed.

Lemma pessimistic_le n : 1 <= n -> pessimistic_n_nodes n <= 2 * n + Z.log2_up n.
Proof.
  intros Hn. unfold pessimistic_n_nodes. destruct (Z.eq_dec n 1) as [->|Hne]; [vm_compute; discriminate|].
  assert (H1 : 1 <= (n + 1) / 2) by (apply Z.div_le_lower_bound; lia).
  pose proof (pess_loop_le (Z.to_nat n) n ((n + 1) / 2) H1). pose proof (log2_up_half n ltac:(lia)).
  pose proof (Z.div_mod (n + 1) 2 ltac:(lia)). pose proof (Z.mod_pos_bound (n + 1) 2 ltac:(lia)). lia.
Qed.

(** As the code computes it: enough for every binary tree with non-empty
    leaves, not much more, and far from the largest int64 *)
Theorem C75_allocated n : 1 <= n <= 2 ^ 53 ->
  pessimistic_n_nodes64 n = pessimistic_n_nodes n
  /\ 2 * n - 1 <= pessimistic_n_nodes64 n <= 2 * n + Z.log2_up n /\ pessimistic_n_nodes64 n < 2 ^ 55.
Proof.
  intros Hn. assert (E : pessimistic_n_nodes64 n = pessimistic_n_nodes n).
  { unfold pessimistic_n_nodes64, pessimistic_n_nodes. rewrite (proj1 (C75_int_half n ltac:(lia))). f_equal.
    apply pess_loop64_eq. split; [apply Z.div_pos; lia|]. apply Z.div_le_upper_bound; lia. }
  split; auto. rewrite E. pose proof (pessimistic_ge n ltac:(lia)). pose proof (pessimistic_le n ltac:(lia)).
  assert (Z.log2_up n <= 53) by (apply Z.log2_up_le_pow2; lia). split; [lia|].
  change (2 ^ 55) with (4 * 2 ^ 53). assert (54 < 2 ^ 53) by reflexivity. lia.
Qed.

Theorem C75_flip face length : 0 <= length <= 2 ^ 53 -> flip64 face length = flip face length.
Proof. intros H. unfold flip64, flip. now rewrite (proj2 (C75_int_half length H)). Qed.

(** ** How many nodes are used *)
Section Used.
  Context {T : Type} {NT : Num T} {NO : NumOrd T}.

  Lemma TreeAt_fill nds (bbc : list (box T)) bbi k idx lo hi S :
    TreeAt nds bbc bbi idx lo hi S ->
    (forall nd, In nd nds -> nchild nd = -1 -> nsize nd <= k) -> 2 * (hi - lo) <= k * (zlen S + 1).
  Proof.
    intros HT Hk. induction HT; unfold zlen in *.
    - cbn [length]. assert (nsize nd <= k) by (eapply Hk; eauto using aget_in). lia.
    - cbn [length]. rewrite app_length. lia.
  Qed.

  (** leaves of at most [k] faces: at least 2 n / k - 1 nodes; so at most
      about [k] times too many are allocated *)
  Theorem C75_overestimation g vs faces fill nb cpl (t : tree2d (T:=T)) k :
    mesh_ok vs faces fill -> CellTree2d_init g vs faces fill nb cpl = Ok t ->
    (forall nd, In nd (nodes (celltree_data t)) -> nchild nd = -1 -> nsize nd <= k) ->
    2 * zlen faces <= k * (zlen (nodes (celltree_data t)) + 1)
    /\ pessimistic_n_nodes (zlen faces) <= k * (zlen (nodes (celltree_data t)) + 1) + Z.log2_up (zlen faces)
    /\ (k = 1 -> zlen (nodes (celltree_data t)) = 2 * zlen faces - 1).
  Proof.
    intros Hm E Hk. pose proof (init_built _ _ _ _ _ _ _ Hm E) as Hb. pose proof (built_valid _ _ _ _ _ Hb) as Hv.
    destruct (vt_tree _ Hv) as (S & HT & HS). pose proof (TreeAt_fill _ _ _ _ _ _ _ _ HT Hk) as HF.
    pose proof (tree_node_bound _ _ _ _ _ HT HS) as HN. unfold zlen in *.
    rewrite (Permutation_length HS), iota_length in HF. rewrite (bt_len _ _ _ _ _ Hb) in *.
    assert (Hpos : 1 <= Z.of_nat (length faces)).
    { pose proof (mo_nonempty _ _ _ Hm). destruct faces; [congruence|cbn [length]; lia]. }
    pose proof (pessimistic_le _ Hpos). split; [lia|]. split; [lia|]. intros ->. lia.
  Qed.

  (** every integer that is stored in the tree *)
  Theorem C75_tree_integers g vs faces fill nb cpl (t : tree2d (T:=T)) :
    mesh_ok vs faces fill -> CellTree2d_init g vs faces fill nb cpl = Ok t ->
    (forall nd, In nd (nodes (celltree_data t)) ->
       -1 <= nchild nd < 2 * zlen faces - 1 /\ 0 <= nptr nd < zlen faces /\ 1 <= nsize nd <= zlen faces)
    /\ (forall e, In e (bb_indices (celltree_data t)) -> 0 <= e < zlen faces).
  Proof.
    intros Hm E. pose proof (init_built _ _ _ _ _ _ _ Hm E) as Hb. pose proof (built_valid _ _ _ _ _ Hb) as Hv.
    destruct (vt_tree _ Hv) as (S & HT & HS). pose proof (tree_node_bound _ _ _ _ _ HT HS) as HN.
    pose proof (valid_proper _ Hv) as Hpt. pose proof (vt_perm _ Hv) as Hperm. pose proof (bt_len _ _ _ _ _ Hb) as Hlen. split.
    - intros nd Hin. apply In_nth_error in Hin as (i & Hi).
      assert (Hlt : (i < length (nodes (celltree_data t)))%nat) by (apply nth_error_Some; congruence).
      destruct (pt_nodes _ _ Hpt (Z.of_nat i)) as [(Hl & a & b & (_ & nd' & En & H1 & H2) & H3 & H4)
        |(c & a & m & b & Hc & Hc1 & Hc2 & Hc3 & (_ & nd' & En & H1 & H2) & _ & _ & H3 & H4 & H5)].
      { unfold zlen; lia. }
      + rewrite Nat2Z.id in En; assert (nd' = nd) by congruence; subst nd'.
        destruct Hl as (_ & nd' & En' & Hl). rewrite Nat2Z.id in En'; assert (nd' = nd) by congruence; subst nd'.
        unfold zlen in *. lia.
      + rewrite Nat2Z.id in En; assert (nd' = nd) by congruence; subst nd'.
        destruct Hc as (_ & nd' & En' & _ & Hc). rewrite Nat2Z.id in En'; assert (nd' = nd) by congruence; subst nd'.
        destruct Hc1 as (_ & nd' & En'' & _ & Hc1). rewrite Nat2Z.id in En''; assert (nd' = nd) by congruence; subst nd'.
        unfold zlen in *. lia.
    - intros e He. eapply Permutation_in in He; [|exact Hperm]. apply iota_in in He. unfold zlen. lia.
  Qed.
End Used.

(** Exact reals, faces with separate boxes: with two cells per leaf twice as
    many as are used, and a few; with one cell per leaf exactly 2 n - 1 are used *)
Theorem C75_separate_faces g vs faces fill nb cpl (t : tree2d (T:=R)) :
  mesh_ok vs faces fill -> CellTree2d_init g vs faces fill nb cpl = Ok t -> separate_faces vs faces fill ->
  pessimistic_n_nodes (zlen faces) <= cpl * (zlen (nodes (celltree_data t)) + 1) + Z.log2_up (zlen faces)
  /\ (cpl = 1 -> zlen (nodes (celltree_data t)) = 2 * zlen faces - 1).
Proof.
  intros Hm E Hs.
  destruct (C75_overestimation g vs faces fill nb cpl t cpl Hm E) as (_ & H & H1); [|split; auto].
  intros nd Hin Hl. now apply (C66_separate_faces _ _ _ _ _ _ _ Hm E Hs).
Qed.

(** "overestimation is at maximum two times in case of cells_per_leaf == 2"
    (creation.py:218-223): triangles with a common corner are one leaf, so any
    number of times too many may be allocated *)
Theorem C75_overestimation_refuted k : 1 <= k -> (IZR (4 * k) < FMAX)%R ->
  exists vs faces (t : tree2d (T:=R)),
    mesh_ok vs faces (-1) /\ convex_mesh vs faces (-1) /\ disjoint_faces vs faces (-1)
    /\ CellTree2d_init g0 vs faces (-1) 4 2 = Ok t
    /\ pessimistic_n_nodes (zlen faces) >= (2 * k - 1) * zlen (nodes (celltree_data t)).
Proof.
  intros Hk Hbig. exists (fan (Z.to_nat k)), (fan_faces (Z.to_nat k)).
  destruct (C66_leaf_size_refuted (Z.to_nat k) 2 ltac:(lia) ltac:(lia)) as (Hm & Hc & Hd & t & nd & E & Hn & _).
  { now rewrite Z2Nat.id by lia. }
  exists t. split; auto. split; auto. split; auto. split; auto.
  rewrite Hn. unfold zlen, fan_faces. rewrite map_length, iota_length, Z2Nat.id by lia. cbn [length].
  pose proof (pessimistic_ge k Hk). lia.
Qed.

(** ** Examples *)
(** three nodes for two faces, which with two cells per leaf are one leaf;
    2 n + 9 for n = 2^10 + 1 elements; and the grid of seven faces *)
Lemma C75_example :
  map pessimistic_n_nodes64 [1; 2; 3; 7; 24; 1025] = [2; 3; 6; 14; 48; 2059]
  /\ flip64 [4; 5; 6; 7; 8; -1] 5 = Ok [8; 7; 6; 5; 4; -1]
  /\ exists t, mesh_ok (T:=b64) grid grid_faces (-1) /\ CellTree2d_init (T:=b64) g0 grid grid_faces (-1) 4 2 = Ok t
       /\ length (nodes (celltree_data t)) = 7%nat /\ pessimistic_n_nodes 7 = 14
       /\ Forall (fun nd => nchild nd = -1 -> nsize nd <= 2) (nodes (celltree_data t)).
Proof.
  split; [vm_compute; reflexivity|]. split; [vm_compute; reflexivity|].
  destruct C66_example as (_ & t & _ & Hm & _ & _ & E & S). exists t. split; auto. split; auto.
  assert (L : length (nodes (celltree_data t)) = 7%nat) by (rewrite <- (map_length (fun nd => (nchild nd, nsize nd))); cbn [shape] in S; now rewrite S).
  split; auto. split; [reflexivity|]. cbn [shape] in S.
  assert (F : Forall (fun p => fst p = -1 -> snd p <= 2) (map (fun nd => (nchild nd, nsize nd)) (nodes (celltree_data t)))).
  { rewrite S. repeat constructor; cbn; lia. }
  rewrite Forall_map in F. exact F.
Qed.

(** exact reals, four squares and one cell per leaf: seven nodes *)
Lemma C75_separate_example : exists t : tree2d (T:=R),
  CellTree2d_init g0 four four_faces (-1) 4 1 = Ok t /\ separate_faces four four_faces (-1)
  /\ zlen (nodes (celltree_data t)) = 7.
Proof.
  destruct C66_separate_example as (t & E & Hs & _). exists t. split; auto. split; auto.
  exact (proj2 (C75_separate_faces _ _ _ _ _ _ _ four_mesh E Hs) eq_refl).
Qed.

Print Assumptions C75_int_half.
Print Assumptions C75_int_half_refuted.
Print Assumptions C75_allocated.
Print Assumptions C75_flip.
Print Assumptions C75_overestimation.
Print Assumptions C75_tree_integers.
Print Assumptions C75_separate_faces.
Print Assumptions C75_overestimation_refuted.
Print Assumptions C75_example.
Print Assumptions C75_separate_example.
