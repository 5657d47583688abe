(** Wachspress weights over exact reals. *)
From Verif Require Import RBase MUtils MGeometry MAlgorithms SpecPoly PPartition GConvex GHull GTriangle.
From Coq Require Import Permutation.
Open Scope R_scope.

Lemma list_set_other {A} : forall (l : list A) k i v, i <> k -> nth_error (list_set l k v) i = nth_error l i.
Proof. induction l as [|x l IH]; intros [|k] [|i] v N; cbn; auto; try congruence. Qed.
Lemma list_set_same {A} : forall (l : list A) k v, (k < length l)%nat -> nth_error (list_set l k v) k = Some v.
Proof. induction l as [|x l IH]; intros [|k] v N; cbn in *; auto; try lia. apply IH. lia. Qed.

Section Wach.
  Variable p : pt.
  Variable tol : R.
  Notation A u v := (orient u v p).

  (** the model's areas are orientations *)
  Lemma cross_orient (a b c : pt) : cross_product (T:=R) (to_vector a b) (to_vector a c) = orient a b c.
  Proof. unfold cross_product, to_vector, orient. rsimp. ring. Qed.

  Definition within (u v : pt) : bool := within_perpendicular_distance (Rabs (A u v)) (to_vector u v) tol.

  Definition wt (a b c : pt) : R := 2 * Rabs (orient a b c) / (Rabs (A a b) * Rabs (A b c)).
  Fixpoint wts (a b : pt) (cs : list pt) : list R :=
    match cs with [] => [] | c :: t => wt a b c :: wts b c t end.
  Lemma wts_length cs : forall a b, length (wts a b cs) = length cs.
  Proof. induction cs as [|c cs IH]; intros a b; cbn; auto. Qed.

  (** ** The loop *)
  Lemma loop_plain poly n : forall cs i a b pre mid post S0,
    (forall k c, nth_error cs k = Some c -> aget poly ((i + Z.of_nat k + 1) mod n)%Z = Ok c) ->
    zlen pre = i -> length mid = length cs ->
    (forall u v, In (u, v) ((a, b) :: chain b cs) -> A u v <> 0) ->
    (forall u v, In (u, v) (chain b cs) -> within u v = false) ->
    wachspress_loop poly p tol n (length cs) i (pre ++ mid ++ post) S0 a b (to_vector a b) (Rabs (A a b))
    = Ok (inr (pre ++ wts a b cs ++ post, S0 + sumR (wts a b cs))).
  Proof.
    induction cs as [|c cs IH]; intros i a b pre mid post S0 HP Hi Hm HA HW.
    - destruct mid; [|discriminate]. cbn. do 3 f_equal. lra.
    - destruct mid as [|m0 mid]; [discriminate|]. cbn [length wachspress_loop].
      pose proof (HP O c eq_refl) as Hc. rewrite Z.add_0_r in Hc. rewrite Hc. cbn [bind].
      change (nabs (cross_product (to_vector b c) (to_vector b p))) with (Rabs (cross_product (T:=R) (to_vector b c) (to_vector b p))).
      change (nabs (cross_product (to_vector a b) (to_vector a c))) with (Rabs (cross_product (T:=R) (to_vector a b) (to_vector a c))).
      rewrite !cross_orient. fold (within b c). rewrite (HW b c) by (now left). cbn [bind].
      assert (N1 : A a b <> 0) by (apply HA; now left). assert (N2 : A b c <> 0) by (apply HA; right; now left).
      assert (N : Rabs (A a b) * Rabs (A b c) <> 0) by (apply Rmult_integral_contrapositive_currified; now apply Rabs_no_R0).
      unfold ndiv. rsimp. rewrite (Req_bool_false _ _ N). cbn [bind].
      change (2 * Rabs (orient a b c) / (Rabs (A a b) * Rabs (A b c))) with (wt a b c).
      cbn [app]. rewrite aset_mid by (symmetry; exact Hi). cbn [bind].
      replace (pre ++ wt a b c :: mid ++ post) with ((pre ++ [wt a b c]) ++ mid ++ post) by (now rewrite <- app_assoc).
      rewrite (IH (i + 1)%Z b c (pre ++ [wt a b c]) mid post (S0 + wt a b c)).
      + cbn [wts sumR]. rewrite <- app_assoc. cbn [app]. do 3 f_equal. lra.
      + intros k c' Hk. replace (i + 1 + Z.of_nat k + 1)%Z with (i + Z.of_nat (S k) + 1)%Z by lia. apply HP. exact Hk.
      + unfold zlen in *. rewrite app_length. cbn. lia.
      + cbn in Hm. lia.
      + intros u v Huv. apply HA. destruct Huv as [E|E]; [inversion E; subst; right; now left|right; now right].
      + intros u v Huv. apply HW. now right.
  Qed.

  (** the first side within the tolerance decides *)
  Lemma loop_edge poly n : forall cs i a b ws S0, (0 <= i)%Z -> (i + zlen cs <= zlen ws)%Z ->
    (forall k c, nth_error cs k = Some c -> aget poly ((i + Z.of_nat k + 1) mod n)%Z = Ok c) ->
    (forall u v, In (u, v) ((a, b) :: chain b cs) -> within u v = false -> A u v <> 0) -> within a b = false ->
    (exists u v, In (u, v) (chain b cs) /\ within u v = true) ->
    exists ws' k u v, wachspress_loop poly p tol n (length cs) i ws S0 a b (to_vector a b) (Rabs (A a b))
      = (let* r := interp_edge_case u (to_vector u v) p ws' k ((k + 1) mod n)%Z in Ok (inl r))
      /\ length ws' = length ws /\ (i <= k < i + zlen cs)%Z
      /\ nth_error (chain b cs) (Z.to_nat (k - i)) = Some (u, v) /\ within u v = true.
  Proof.
    induction cs as [|c cs IH]; intros i a b ws S0 Hi Hl HP HA Hab (u & v & Huv & Hw); [destruct Huv|].
    cbn [length wachspress_loop].
    pose proof (HP O c eq_refl) as Hc. rewrite Z.add_0_r in Hc. rewrite Hc. cbn [bind].
    change (nabs (cross_product (to_vector b c) (to_vector b p))) with (Rabs (cross_product (T:=R) (to_vector b c) (to_vector b p))).
    change (nabs (cross_product (to_vector a b) (to_vector a c))) with (Rabs (cross_product (T:=R) (to_vector a b) (to_vector a c))).
    rewrite !cross_orient. fold (within b c). unfold zlen in Hl. cbn [length] in Hl. destruct (within b c) eqn:Wbc.
    - exists ws, i, b, c. split; auto. split; auto. split; [unfold zlen; cbn; lia|]. rewrite Z.sub_diag. now split.
    - assert (N1 : A a b <> 0) by (apply HA; auto; now left). assert (N2 : A b c <> 0) by (apply HA; auto; right; now left).
      assert (N : Rabs (A a b) * Rabs (A b c) <> 0) by (apply Rmult_integral_contrapositive_currified; now apply Rabs_no_R0).
      unfold ndiv. rsimp. rewrite (Req_bool_false _ _ N). cbn [bind].
      rewrite aset_pos by (unfold zlen; lia). cbn [bind].
      destruct (IH (i + 1)%Z b c (list_set ws (Z.to_nat i) (2 * Rabs (orient a b c) / (Rabs (A a b) * Rabs (A b c))))
                  (S0 + 2 * Rabs (orient a b c) / (Rabs (A a b) * Rabs (A b c)))) as (ws' & k & u' & v' & E & L & Hk & Hn & Hw').
      + lia.
      + unfold zlen. rewrite list_set_length. lia.
      + intros k c' Hk. replace (i + 1 + Z.of_nat k + 1)%Z with (i + Z.of_nat (S k) + 1)%Z by lia. apply HP. exact Hk.
      + intros u' v' Huv'. apply HA. destruct Huv' as [E|E]; [inversion E; subst; right; now left|right; now right].
      + exact Wbc.
      + destruct Huv as [E|E]; [inversion E; subst; congruence|]. eauto.
      + exists ws', k, u', v'. split; [exact E|]. rewrite list_set_length in L. split; auto.
        unfold zlen in *. cbn [length]. split; [lia|]. split; auto. cbn [chain].
        replace (Z.to_nat (k - i)) with (Datatypes.S (Z.to_nat (k - (i + 1)))) by lia. exact Hn.
  Qed.

  (** ** The identity *)
  Definition gx (u v : pt) : R := (px v - px u) / A u v.
  Definition gy (u v : pt) : R := (py v - py u) / A u v.
  Lemma wt_identity a b c : 0 < A a b -> 0 < A b c -> 0 <= orient a b c ->
    wt a b c * (px b - px p) = 2 * (gx a b - gx b c) /\ wt a b c * (py b - py p) = 2 * (gy a b - gy b c).
  Proof.
    intros H1 H2 H3. unfold wt, gx, gy. rewrite !Rabs_pos_eq by lra.
    assert (N1 : A a b <> 0) by lra. assert (N2 : A b c <> 0) by lra.
    split; apply (Rmult_eq_reg_r (A a b * A b c)); try (now apply Rmult_integral_contrapositive_currified);
      field_simplify; auto; unfold orient; ring.
  Qed.

  Lemma wts_telescope cs : forall a b,
    (forall u v, In (u, v) ((a, b) :: chain b cs) -> 0 < A u v) ->
    (forall k x y z, nth_error (a :: b :: cs) k = Some x -> nth_error (a :: b :: cs) (S k) = Some y ->
        nth_error (a :: b :: cs) (S (S k)) = Some z -> 0 < orient x y z) ->
    forall vs, vs = b :: removelast cs ->
    sumR (map (fun wv => fst wv * (px (snd wv) - px p)) (combine (wts a b cs) vs)) = match cs with [] => 0 | _ => 2 * (gx a b - gx (last (removelast cs) b) (last cs b)) end
    /\ sumR (map (fun wv => fst wv * (py (snd wv) - py p)) (combine (wts a b cs) vs)) = match cs with [] => 0 | _ => 2 * (gy a b - gy (last (removelast cs) b) (last cs b)) end
    /\ Forall (fun w => 0 < w) (wts a b cs).
  Proof.
    induction cs as [|c cs IH]; intros a b HA HC vs ->; [cbn; split; [auto|split; [auto|constructor]]|].
    assert (H1 : 0 < A a b) by (apply HA; now left). assert (H2 : 0 < A b c) by (apply HA; right; now left).
    assert (H3 : 0 < orient a b c) by (apply (HC O); reflexivity).
    destruct (wt_identity a b c H1 H2 ltac:(lra)) as (Ex & Ey).
    assert (Hw : 0 < wt a b c).
    { unfold wt. rewrite !Rabs_pos_eq by lra. apply Rdiv_lt_0_compat; [lra|]. now apply Rmult_lt_0_compat. }
    destruct (IH b c) with (vs := c :: removelast cs) as (IX & IY & IP); auto.
    { intros u v Huv. apply HA. destruct Huv as [E|E]; [inversion E; subst; right; now left|right; now right]. }
    { intros k x y z Hx Hy Hz. apply (HC (S k)); [exact Hx|exact Hy|exact Hz]. }
    destruct cs as [|d cs].
    - cbn [wts combine map sumR fst snd removelast last]. rewrite Ex, Ey. split; [lra|]. split; [lra|]. constructor; auto; constructor.
    - change (removelast (c :: d :: cs)) with (c :: removelast (d :: cs)) in *. change (wts b c (d :: cs)) with (wt b c d :: wts c d cs) in IX, IY, IP. change (wts a b (c :: d :: cs)) with (wt a b c :: wt b c d :: wts c d cs). cbn [combine map sumR fst snd] in *.
      change (removelast (c :: d :: cs)) with (c :: removelast (d :: cs)).
      cbn [combine map sumR fst snd]. rewrite IX, IY, Ex, Ey.
      rewrite (last_cons (removelast (d :: cs)) c b), (last_cons (d :: cs) c b).
      split; [lra|]. split; [lra|]. constructor; auto.
  Qed.

  (** ** The sides of the polygon in the order of the loop *)
  Lemma rot_edges v0 l u v : In (u, v) ((last l v0, v0) :: chain v0 (l ++ [v0])) <-> In (u, v) (poly_edges (v0 :: l)).
  Proof.
    rewrite edges_cons, chain_app. cbn [chain]. split; intros H.
    - destruct H as [H|H]; [now left|]. apply in_app_or in H. destruct H as [H|[H|[]]]; [now right|]. now left.
    - destruct H as [H|H]; [now left|]. right. apply in_or_app. now left.
  Qed.

  Lemma chain_nth2 : forall l (x : pt) k u v, nth_error (x :: l) k = Some u -> nth_error l k = Some v -> nth_error (chain x l) k = Some (u, v).
  Proof.
    induction l as [|y l IH]; intros x [|k] u v Hu Hv; cbn in *; try congruence.
    apply IH; auto.
  Qed.
  Lemma chain_nth2_inv : forall l (x : pt) k u v, nth_error (chain x l) k = Some (u, v) -> nth_error (x :: l) k = Some u /\ nth_error l k = Some v.
  Proof.
    induction l as [|y l IH]; intros x [|k] u v H; cbn in *; try discriminate.
    - inversion H; auto.
    - apply (IH y k) in H. destruct H as (H1 & H2). auto.
  Qed.

  Lemma corner v0 l : convex_ccw (v0 :: l) -> forall k x y z,
    nth_error (last l v0 :: v0 :: l ++ [v0]) k = Some x -> nth_error (last l v0 :: v0 :: l ++ [v0]) (S k) = Some y ->
    nth_error (last l v0 :: v0 :: l ++ [v0]) (S (S k)) = Some z -> 0 < orient x y z.
  Proof.
    intros HC k x y z Hx Hy Hz.
    assert (E1 : In (x, y) (poly_edges (v0 :: l))).
    { apply rot_edges. change ((last l v0, v0) :: chain v0 (l ++ [v0])) with (chain (last l v0) (v0 :: l ++ [v0])).
      eapply nth_error_In. apply chain_nth2; eauto. }
    assert (E2 : In (y, z) (poly_edges (v0 :: l))).
    { apply rot_edges. change ((last l v0, v0) :: chain v0 (l ++ [v0])) with (chain (last l v0) (v0 :: l ++ [v0])).
      eapply nth_error_In. apply chain_nth2; eauto. }
    pose proof HC as (Hl & HN & HO). apply HO; auto.
    - apply edges_in in E2. tauto.
    - intros ->. destruct (third_vertex _ x y HC) as (w & Hw & N1 & N2).
      pose proof (HO _ _ _ E1 Hw N1 N2) as O1. pose proof (HO _ _ _ E2 Hw N2 N1) as O2. rewrite orient_swap in O2. lra.
    - intros ->. revert E2. intros E2. exact (edges_neq _ y y HN ltac:(lia) E2 eq_refl).
  Qed.

  (** ** Normalisation *)
  Lemma normalise_loop (s : R) : s <> 0 -> forall mid pre post i k, zlen pre = i -> k = length mid ->
    for_loop k i (fun i ws => let* w := aget ws i in let* w := ndiv w s in aset ws i w) (pre ++ mid ++ post)
    = Ok (pre ++ map (fun w => w / s) mid ++ post).
  Proof.
    intros Hs. induction mid as [|w mid IH]; intros pre post i k Hi ->; [reflexivity|].
    cbn [length app for_loop]. rewrite aget_mid by (symmetry; exact Hi). cbn [bind].
    unfold ndiv at 1. rsimp. rewrite (Req_bool_false _ _ Hs). cbn [bind].
    rewrite aset_mid by (symmetry; exact Hi). cbn [bind].
    replace (pre ++ w / s :: mid ++ post) with ((pre ++ [w / s]) ++ mid ++ post) by (now rewrite <- app_assoc).
    rewrite IH; auto.
    - cbn [map]. rewrite <- app_assoc. reflexivity.
    - unfold zlen in *. rewrite app_length. cbn. lia.
  Qed.

  Lemma next_vertex (v0 : pt) l k c : nth_error (l ++ [v0]) k = Some c ->
    aget (v0 :: l) ((0 + Z.of_nat k + 1) mod zlen (v0 :: l))%Z = Ok c.
  Proof.
    intros Hk. unfold zlen. cbn [length]. assert (Hl : (k < length (l ++ [v0]))%nat) by (apply nth_error_Some; congruence).
    rewrite app_length in Hl. cbn in Hl. destruct (Nat.eq_dec k (length l)) as [->|N].
    - rewrite nth_error_app2, Nat.sub_diag in Hk by lia. cbn in Hk.
      replace (0 + Z.of_nat (length l) + 1)%Z with (Z.of_nat (Datatypes.S (length l))) by lia.
      rewrite Z_mod_same_full. inversion Hk; subst. reflexivity.
    - rewrite nth_error_app1 in Hk by lia. rewrite Z.mod_small by lia.
      replace (0 + Z.of_nat k + 1)%Z with (Z.of_nat (Datatypes.S k)) by lia. apply aget_nat. exact Hk.
  Qed.

  Lemma last_vertex (v0 : pt) l : aget (v0 :: l) (-1)%Z = Ok (last l v0).
  Proof.
    destruct (exists_last (l:=v0 :: l) ltac:(discriminate)) as (l' & x & E). rewrite E.
    rewrite aget_mid_neg by reflexivity. f_equal. rewrite <- (last_cons l v0 v0), E. symmetry. apply last_last.
  Qed.

  (** ** Away from the sides *)
  Lemma sumR_scale s : forall l, sumR (map (fun w => w / s) l) = sumR l / s.
  Proof. induction l as [|x l IH]; cbn [map sumR]; [unfold Rdiv; ring|]. rewrite IH. unfold Rdiv. ring. Qed.
  Lemma wsum_scale F s : forall l vs, wsum F (map (fun w => w / s) l) vs = wsum F l vs / s.
  Proof.
    induction l as [|x l IH]; intros [|v vs]; try (cbn; unfold Rdiv; ring).
    cbn [map]. rewrite !wsum_cons, IH. unfold Rdiv. ring.
  Qed.
  Lemma wsum_shift F c : forall l vs, length l = length vs -> wsum (fun v => F v - c) l vs = wsum F l vs - c * sumR l.
  Proof.
    induction l as [|x l IH]; intros [|v vs] E; try discriminate; [cbn; ring|].
    rewrite !wsum_cons, IH by (cbn in E; lia). cbn [sumR]. ring.
  Qed.
  Lemma sumR_pos l : l <> [] -> Forall (fun w => 0 < w) l -> 0 < sumR l.
  Proof.
    induction l as [|x l IH]; intros Hn HF; [congruence|]. cbn [sumR]. pose proof (Forall_inv HF).
    destruct l as [|y l]; [cbn; lra|]. assert (0 < sumR (y :: l)); [|lra]. apply IH; [discriminate|]. now apply Forall_inv_tail in HF.
  Qed.

  Lemma wachspress_inside_wts poly row : convex_ccw poly -> (length poly <= length row)%nat ->
    interior poly p -> (forall u v, In (u, v) (poly_edges poly) -> within u v = false) ->
    exists ws, wachspress_weights poly p row tol = Ok (ws ++ skipn (length poly) row)
      /\ length ws = length poly /\ Forall (fun w => 0 < w) ws /\ sumR ws = 1 /\ comb ws poly = p
      /\ exists v0 l, poly = v0 :: l /\ (let W := wts (last l v0) v0 (l ++ [v0]) in 0 < sumR W /\ ws = map (fun w => w / sumR W) W).
  Proof.
    intros HC Hr HI HW. destruct poly as [|v0 l]; [destruct HC as (H & _); cbn in H; lia|].
    set (a := last l v0). set (cs := l ++ [v0]).
    assert (Hlc : length cs = length (v0 :: l)) by (unfold cs; rewrite app_length; cbn; lia).
    assert (HA : forall u v, In (u, v) ((a, v0) :: chain v0 cs) -> 0 < A u v).
    { intros u v H. apply HI. now apply rot_edges. }
    assert (HW' : forall u v, In (u, v) ((a, v0) :: chain v0 cs) -> within u v = false).
    { intros u v H. apply HW. now apply rot_edges. }
    destruct (wts_telescope cs a v0 HA (corner v0 l HC) (v0 :: l)) as (TX & TY & TP).
    { unfold cs. now rewrite removelast_last. }
    assert (Hcs : cs <> []) by (unfold cs; intros H; apply app_eq_nil in H; destruct H; discriminate).
    assert (EL1 : last (removelast cs) v0 = a) by (unfold cs; now rewrite removelast_last).
    assert (EL2 : last cs v0 = v0) by (unfold cs; apply last_last).
    rewrite EL1, EL2 in TX, TY.
    destruct cs as [|c0 cs'] eqn:Ecs; [congruence|]. rewrite <- Ecs in *. clear Hcs.
    set (W := wts a v0 cs) in *. assert (HlW : length W = length (v0 :: l)) by (unfold W; rewrite wts_length; auto).
    assert (HS : 0 < sumR W) by (apply sumR_pos; auto; destruct W; [discriminate|discriminate]).
    exists (map (fun w => w / sumR W) W). split; [|split; [now rewrite map_length|]].
    - unfold wachspress_weights.
      rewrite last_vertex. fold a. cbn [bind]. change (aget (v0 :: l) 0%Z) with (Ok (A:=pt) v0). cbn [bind].
      change (nabs (cross_product (to_vector a v0) (to_vector a p))) with (Rabs (cross_product (T:=R) (to_vector a v0) (to_vector a p))).
      rewrite cross_orient. fold (within a v0). rewrite (HW' a v0) by (now left).
      rewrite <- Hlc. rewrite <- (firstn_skipn (length cs) row) at 1.
      change (nofZ 0) with 0.
      change (firstn (length cs) row ++ skipn (length cs) row) with ([] ++ firstn (length cs) row ++ skipn (length cs) row).
      rewrite (loop_plain (v0 :: l) (zlen (v0 :: l)) cs 0%Z a v0 [] (firstn (length cs) row) (skipn (length cs) row) 0).
      + cbn [bind app]. unfold for_range. fold W. rewrite Rplus_0_l. rewrite Z.sub_0_r. unfold zlen at 1. rewrite Nat2Z.id.
        change (W ++ skipn (length cs) row) with ([] ++ W ++ skipn (length cs) row).
        rewrite (normalise_loop (sumR W)) by (auto; lra). reflexivity.
      + intros k c Hk. now apply next_vertex.
      + reflexivity.
      + rewrite firstn_length. lia.
      + intros u v H. apply Rgt_not_eq. now apply HA.
      + intros u v H. apply HW'. now right.
    - split; [apply Forall_map; eapply Forall_impl; [|exact TP]; intros w Hw; now apply Rdiv_lt_0_compat|].
      split; [rewrite sumR_scale; field; lra|].
      assert (EX : wsum (fun v => px v - px p) W (v0 :: l) = 0) by (unfold wsum; rewrite TX; ring).
      assert (EY : wsum (fun v => py v - py p) W (v0 :: l) = 0) by (unfold wsum; rewrite TY; ring).
      rewrite wsum_shift in EX, EY by exact HlW.
      destruct p as [x y]. unfold comb. fold (wsum px (map (fun w => w / sumR W) W) (v0 :: l)) (wsum py (map (fun w => w / sumR W) W) (v0 :: l)).
      rewrite !wsum_scale. cbn [px py] in EX, EY.
      split; [|exists v0, l; auto].
      f_equal; [replace (wsum px W (v0 :: l)) with (x * sumR W) by lra|replace (wsum py W (v0 :: l)) with (y * sumR W) by lra]; field; lra.
  Qed.
  Lemma wachspress_inside poly row : convex_ccw poly -> (length poly <= length row)%nat ->
    interior poly p -> (forall u v, In (u, v) (poly_edges poly) -> within u v = false) ->
    exists ws, wachspress_weights poly p row tol = Ok (ws ++ skipn (length poly) row)
      /\ length ws = length poly /\ Forall (fun w => 0 < w) ws /\ sumR ws = 1 /\ comb ws poly = p.
  Proof.
    intros HC Hr HI HW. destruct (wachspress_inside_wts poly row HC Hr HI HW) as (ws & A & B & C & D & E & _). exists ws. auto.
  Qed.

  (** ** On a side *)
  Lemma list_set_sum : forall (l : list R) k x y, nth_error l k = Some x -> sumR (list_set l k y) = sumR l + (y - x).
  Proof.
    induction l as [|z l IH]; intros [|k] x y H; cbn in H; try discriminate.
    - inversion H; subst. cbn. lra.
    - cbn [list_set sumR]. rewrite (IH k x); auto. lra.
  Qed.
  Lemma list_set_wsum F : forall (l : list R) vs k x y v, nth_error l k = Some x -> nth_error vs k = Some v ->
    wsum F (list_set l k y) vs = wsum F l vs + (y - x) * F v.
  Proof.
    induction l as [|z l IH]; intros [|v0 vs] [|k] x y v H Hv; cbn in H, Hv; try discriminate.
    - inversion H; inversion Hv; subst. cbn [list_set]. rewrite !wsum_cons. ring.
    - cbn [list_set]. rewrite !wsum_cons. rewrite (IH vs k x y v); auto. ring.
  Qed.

  Definition two (m k k' : nat) (w : R) : list R := list_set (list_set (repeat 0 m) k (1 - w)) k' w.

  Lemma two_spec m k k' w (poly : list pt) u v : (k < m)%nat -> (k' < m)%nat -> k <> k' ->
    nth_error poly k = Some u -> nth_error poly k' = Some v ->
    length (two m k k' w) = m /\ sumR (two m k k' w) = 1 /\ comb (two m k k' w) poly = at_ u v w
    /\ nth_error (two m k k' w) k = Some (1 - w) /\ nth_error (two m k k' w) k' = Some w
    /\ (forall i, (i < m)%nat -> i <> k -> i <> k' -> nth_error (two m k k' w) i = Some 0).
  Proof.
    intros Hk Hk' Hne Hu Hv. unfold two.
    assert (N0 : forall i, (i < m)%nat -> nth_error (repeat 0 m) i = Some 0) by (intros; now apply nth_error_repeat).
    assert (N1 : nth_error (list_set (repeat 0 m) k (1 - w)) k' = Some 0) by (rewrite list_set_other by auto; auto).
    split; [now rewrite !list_set_length, repeat_length|].
    split; [rewrite (list_set_sum _ k' 0), (list_set_sum _ k 0), sumR_repeat0; auto; lra|].
    split.
    { unfold comb. fold (wsum px (list_set (list_set (repeat 0 m) k (1 - w)) k' w) poly) (wsum py (list_set (list_set (repeat 0 m) k (1 - w)) k' w) poly).
      rewrite (list_set_wsum px _ poly k' 0 w v), (list_set_wsum px _ poly k 0 (1 - w) u); auto.
      rewrite (list_set_wsum py _ poly k' 0 w v), (list_set_wsum py _ poly k 0 (1 - w) u); auto.
      rewrite !wsum_repeat0. unfold at_. f_equal; ring. }
    split; [rewrite list_set_other by auto; apply list_set_same; rewrite repeat_length; auto|].
    split; [apply list_set_same; rewrite list_set_length, repeat_length; auto|].
    intros i Hi H1 H2. rewrite !list_set_other by auto. auto.
  Qed.

  Lemma interp_ok u v (ws : list R) k k' : u <> v -> (k < length ws)%nat -> (k' < length ws)%nat ->
    interp_edge_case u (to_vector u v) p ws (Z.of_nat k) (Z.of_nat k') = Ok (two (length ws) k k' (sqrt (dist2 p u) / sqrt (dist2 v u))).
  Proof.
    intros N H H'. unfold interp_edge_case.
    assert (E1 : dot_product (T:=R) (to_vector u p) (to_vector u p) = dist2 p u) by (unfold dot_product, to_vector, dist2; rsimp; ring).
    assert (E2 : dot_product (T:=R) (to_vector u v) (to_vector u v) = dist2 v u) by (unfold dot_product, to_vector, dist2; rsimp; ring).
    rewrite E1, E2. rsimp.
    assert (HP : 0 < dist2 v u).
    { unfold dist2. destruct u as [ux uy], v as [vx vy]. cbn [px py].
      destruct (Req_dec vx ux) as [->|Nx]; [destruct (Req_dec vy uy) as [->|Ny]; [congruence|]|].
      - assert (0 < (vy - uy) * (vy - uy)) by (apply Rsqr_pos_lt; lra). pose proof (Rle_0_sqr (ux - ux)) as Q. unfold Rsqr in Q. lra.
      - assert (0 < (vx - ux) * (vx - ux)) by (apply Rsqr_pos_lt; lra). pose proof (Rle_0_sqr (vy - uy)) as Q. unfold Rsqr in Q. lra. }
    assert (Hs : sqrt (dist2 v u) <> 0) by (apply Rgt_not_eq, sqrt_lt_R0; auto).
    unfold ndiv. rsimp. rewrite (Req_bool_false _ _ Hs). cbn [bind].
    assert (EM : map (fun _ : R => 0) ws = repeat 0 (length ws)).
    { clear. induction ws as [|x ws IH]; cbn; auto. now rewrite IH. }
    rewrite EM. rewrite aset_pos by (unfold zlen; rewrite repeat_length; lia). cbn [bind].
    rewrite aset_pos by (unfold zlen; rewrite list_set_length, repeat_length; lia). rewrite !Nat2Z.id. reflexivity.
  Qed.

  Lemma not_within_nonzero u v : 0 < tol -> u <> v -> within u v = false -> A u v <> 0.
  Proof.
    intros Ht N HW E. unfold within, within_perpendicular_distance in HW. rewrite E, Rabs_R0 in HW.
    unfold length_squared, to_vector in HW. rsimp. rb.
    assert (0 < (px v - px u) * (px v - px u) + (py v - py u) * (py v - py u)).
    { destruct u as [ux uy], v as [vx vy]. cbn [px py].
      destruct (Req_dec vx ux) as [->|Nx]; [destruct (Req_dec vy uy) as [->|Ny]; [congruence|]|].
      - assert (0 < (vy - uy) * (vy - uy)) by (apply Rsqr_pos_lt; lra). pose proof (Rle_0_sqr (ux - ux)) as Q. unfold Rsqr in Q. lra.
      - assert (0 < (vx - ux) * (vx - ux)) by (apply Rsqr_pos_lt; lra). pose proof (Rle_0_sqr (vy - uy)) as Q. unfold Rsqr in Q. lra. }
    assert (0 < tol * ((px v - px u) * (px v - px u) + (py v - py u) * (py v - py u)) * tol) by (repeat apply Rmult_lt_0_compat; auto).
    lra.
  Qed.

  Lemma wachspress_edge poly row : NoDup poly -> (2 <= length poly)%nat -> (length poly <= length row)%nat -> 0 < tol ->
    (exists u v, In (u, v) (poly_edges poly) /\ within u v = true) ->
    exists u v k k', In (u, v) (poly_edges poly) /\ within u v = true
      /\ nth_error poly k = Some u /\ nth_error poly k' = Some v /\ k <> k'
      /\ wachspress_weights poly p row tol = Ok (two (length row) k k' (sqrt (dist2 p u) / sqrt (dist2 v u))).
  Proof.
    intros HN Hn Hr Ht HE. destruct poly as [|v0 l]; [cbn in Hn; lia|].
    set (a := last l v0). set (cs := l ++ [v0]).
    assert (Hlc : length cs = length (v0 :: l)) by (unfold cs; rewrite app_length; cbn; lia).
    assert (Hne : forall u v, In (u, v) (poly_edges (v0 :: l)) -> u <> v) by (intros u v H; exact (edges_neq _ u v HN Hn H)).
    assert (Hk' : forall (u v : pt) k k', u <> v -> nth_error (v0 :: l) k = Some u -> nth_error (v0 :: l) k' = Some v -> k <> k') by (intros; congruence).
    unfold wachspress_weights. rewrite last_vertex. fold a. cbn [bind]. change (aget (v0 :: l) 0%Z) with (Ok (A:=pt) v0). cbn [bind].
    change (nabs (cross_product (to_vector a v0) (to_vector a p))) with (Rabs (cross_product (T:=R) (to_vector a v0) (to_vector a p))).
    rewrite cross_orient. fold (within a v0). destruct (within a v0) eqn:Wa.
    - assert (Hin : In (a, v0) (poly_edges (v0 :: l))) by (apply rot_edges; now left).
      exists a, v0, (length l), O. split; auto. split; auto. split.
      { unfold a. destruct (exists_last (l:=v0 :: l) ltac:(discriminate)) as (l' & x & E).
        rewrite <- (last_cons l v0 v0), E, last_last.
        assert (length l = length l') by (apply (f_equal (@length pt)) in E; rewrite app_length in E; cbn in E; lia).
        rewrite H, nth_error_app2, Nat.sub_diag; auto. }
      split; auto. split; [cbn in Hn; lia|].
      replace (zlen (v0 :: l) - 1)%Z with (Z.of_nat (length l)) by (unfold zlen; cbn [length]; lia).
      change 0%Z with (Z.of_nat 0). cbn [length] in Hr. rewrite interp_ok by (auto; lia). reflexivity.
    - rewrite <- Hlc. change (nofZ 0) with 0.
      destruct (loop_edge (v0 :: l) (zlen (v0 :: l)) cs 0%Z a v0 row 0) as (ws' & k & u & v & E & L & Hk & Hnk & Hw).
      + lia.
      + unfold zlen. cbn [length] in Hlc, Hr. lia.
      + intros k c Hk. now apply next_vertex.
      + intros u v H HW. apply not_within_nonzero; auto. apply Hne. now apply rot_edges.
      + exact Wa.
      + destruct HE as (u & v & Huv & Hw). apply rot_edges in Huv. fold a cs in Huv.
        destruct Huv as [Huv|Huv]; [inversion Huv; subst; congruence|]. eauto.
      + rewrite E. rewrite Z.sub_0_r in Hnk. assert (Hin : In (u, v) (poly_edges (v0 :: l))).
        { apply rot_edges. right. eapply nth_error_In; eauto. }
        apply chain_nth2_inv in Hnk. destruct Hnk as (Hu & Hv).
        assert (Hu' : nth_error (v0 :: l) (Z.to_nat k) = Some u).
        { change (v0 :: cs) with ((v0 :: l) ++ [v0]) in Hu. rewrite nth_error_app1 in Hu; auto.
          unfold zlen in Hk. cbn [length] in *. lia. }
        assert (Hv' : aget (v0 :: l) ((k + 1) mod zlen (v0 :: l))%Z = Ok v).
        { apply next_vertex in Hv. rewrite Z2Nat.id in Hv by lia. exact Hv. }
        assert (Hb : (0 <= (k + 1) mod zlen (v0 :: l) < zlen (v0 :: l))%Z) by (apply Z.mod_pos_bound; unfold zlen; cbn [length]; lia).
        destruct (aget_ok_pos (v0 :: l) ((k + 1) mod zlen (v0 :: l))%Z Hb) as (v' & Ev & Hv2).
        rewrite Hv' in Ev. inversion Ev; subst v'.
        exists u, v, (Z.to_nat k), (Z.to_nat ((k + 1) mod zlen (v0 :: l))). split; auto. split; auto. split; auto. split; auto.
        split; [eapply Hk'; eauto|].
        replace ((k + 1) mod zlen (v0 :: l))%Z with (Z.of_nat (Z.to_nat ((k + 1) mod zlen (v0 :: l)))) by (apply Z2Nat.id; lia).
        replace k with (Z.of_nat (Z.to_nat k)) at 1 by (apply Z2Nat.id; lia).
        unfold zlen in *. cbn [length] in *.
        rewrite interp_ok by (auto; lia). cbn [bind]. now rewrite L, Nat2Z.id.
  Qed.

  (** the interpolation weight of a point of the side, and the error of a point near it *)
  Lemma edge_weight u v : u <> v -> on_segment u v p ->
    0 <= sqrt (dist2 p u) / sqrt (dist2 v u) <= 1 /\ at_ u v (sqrt (dist2 p u) / sqrt (dist2 v u)) = p.
  Proof.
    intros N (t & Ht & E).
    assert (HP : 0 < dist2 v u).
    { unfold dist2. destruct u as [ux uy], v as [vx vy]. cbn [px py].
      destruct (Req_dec vx ux) as [->|Nx]; [destruct (Req_dec vy uy) as [->|Ny]; [congruence|]|].
      - assert (0 < (vy - uy) * (vy - uy)) by (apply Rsqr_pos_lt; lra). pose proof (Rle_0_sqr (ux - ux)) as Q. unfold Rsqr in Q. lra.
      - assert (0 < (vx - ux) * (vx - ux)) by (apply Rsqr_pos_lt; lra). pose proof (Rle_0_sqr (vy - uy)) as Q. unfold Rsqr in Q. lra. }
    assert (Ew : sqrt (dist2 p u) / sqrt (dist2 v u) = t).
    { replace (dist2 p u) with (Rsqr t * dist2 v u) by (rewrite E; unfold dist2, at_, Rsqr; cbn [px py]; ring).
      rewrite sqrt_mult by (try apply Rle_0_sqr; lra). rewrite sqrt_Rsqr by lra.
      pose proof (sqrt_lt_R0 _ HP). field. lra. }
    rewrite Ew. split; auto.
  Qed.
End Wach.
