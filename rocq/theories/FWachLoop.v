(** Wachspress weights in binary64: the loops over the corners. *)
From Coq Require Import Reals Lra Psatz.
From Flocq Require Import IEEE754.BinarySingleNaN Core.
From Verif Require Import RBase NumB64 NumRoom FBase FBuild MUtils MGeometry MAlgorithms FPoint FCut FLocate FWeights
  SpecTree SpecPoly SpecGeom PPartition GTriangle GConvex GHull GWach GWachSpec SpecWach FWach FWachSide.
Open Scope R_scope.

Fixpoint bchain (v0 : point b64) (l : list (point b64)) : list (point b64 * point b64) :=
  match l with [] => [] | v :: t => (v0, v) :: bchain v t end.
Lemma bchain_map l : forall v0, map (fun e => (rp (fst e), rp (snd e))) (bchain v0 l) = chain (rp v0) (map rp l).
Proof. induction l as [|v l IH]; intros v0; cbn; f_equal; auto. Qed.
Lemma bchain_in v0 l u v : In (u, v) (bchain v0 l) -> In (rp u, rp v) (chain (rp v0) (map rp l)).
Proof. intros H. rewrite <- bchain_map. apply in_map_iff. exists (u, v). auto. Qed.
Lemma bchain_nth : forall l x i u v, nth_error (bchain x l) i = Some (u, v) -> nth_error (x :: l) i = Some u /\ nth_error l i = Some v.
Proof.
  induction l as [|y l IH]; intros x [|i] u v H; cbn in *; try discriminate.
  - inversion H; auto.
  - apply (IH y i) in H. destruct H as (H1 & H2). auto.
Qed.

Section Loops.
  Variable p : point b64.
  Variable tol : b64.
  Definition withinB (u v : point b64) : bool := within_perpendicular_distance (areaB u v p) (to_vector u v) tol.

  (** the quotients of the loop exist *)
  Fixpoint quots (a b : point b64) (cs : list (point b64)) : Prop :=
    match cs with
    | [] => True
    | c :: t => (withinB a b = false -> withinB b c = false -> ndiv (nmul (nofZ 2) (areaB a b c)) (nmul (areaB a b p) (areaB b c p)) = Ok (wtB p a b c)) /\ quots b c t
    end.

  Lemma loopB_plain poly n : forall cs i a b pre mid post S0,
    (forall j c, nth_error cs j = Some c -> aget poly ((i + Z.of_nat j + 1) mod n)%Z = Ok c) ->
    zlen pre = i -> length mid = length cs -> quots a b cs -> withinB a b = false ->
    (forall u v, In (u, v) (bchain b cs) -> withinB u v = false) ->
    wachspress_loop poly p tol n (length cs) i (pre ++ mid ++ post) S0 a b (to_vector a b) (areaB a b p)
    = Ok (inr (pre ++ wtsB p a b cs ++ post, fold_left nadd (wtsB p a b cs) S0)).
  Proof.
    induction cs as [|c cs IH]; intros i a b pre mid post S0 HP Hi Hm HQ Wab HW.
    - destruct mid; [|discriminate]. reflexivity.
    - destruct mid as [|m0 mid]; [discriminate|]. cbn [length wachspress_loop].
      pose proof (HP O c eq_refl) as Hc. rewrite Z.add_0_r in Hc. rewrite Hc. cbn [bind].
      fold (areaB b c p). fold (areaB a b c). fold (withinB b c). destruct HQ as (HQ0 & HQ).
      pose proof (HW b c ltac:(now left)) as Wbc. rewrite Wbc. rewrite (HQ0 Wab Wbc). cbn [bind].
      cbn [app]. rewrite aset_mid by (symmetry; exact Hi). cbn [bind].
      replace (pre ++ wtB p a b c :: mid ++ post) with ((pre ++ [wtB p a b c]) ++ mid ++ post) by (now rewrite <- app_assoc).
      rewrite (IH (i + 1)%Z b c (pre ++ [wtB p a b c]) mid post (nadd S0 (wtB p a b c))); auto.
      + cbn [wtsB fold_left]. rewrite <- app_assoc. reflexivity.
      + intros j c' Hj. replace (i + 1 + Z.of_nat j + 1)%Z with (i + Z.of_nat (S j) + 1)%Z by lia. apply HP. exact Hj.
      + unfold zlen in *. rewrite app_length. cbn. lia.
      + intros u v Huv. apply HW. now right.
  Qed.

  (** the first side within the tolerance decides *)
  Lemma loopB_edge poly n : forall cs i a b ws S0, (0 <= i)%Z -> (i + zlen cs <= zlen ws)%Z ->
    (forall j c, nth_error cs j = Some c -> aget poly ((i + Z.of_nat j + 1) mod n)%Z = Ok c) ->
    quots a b cs -> withinB a b = false ->
    (exists u v, In (u, v) (bchain b cs) /\ withinB u v = true) ->
    exists ws' j u v, wachspress_loop poly p tol n (length cs) i ws S0 a b (to_vector a b) (areaB a b p)
      = (let* r := interp_edge_case u (to_vector u v) p ws' j ((j + 1) mod n)%Z in Ok (inl r))
      /\ length ws' = length ws /\ (i <= j < i + zlen cs)%Z
      /\ nth_error (bchain b cs) (Z.to_nat (j - i)) = Some (u, v) /\ withinB u v = true.
  Proof.
    induction cs as [|c cs IH]; intros i a b ws S0 Hi Hl HP HQ Hab (u & v & Huv & Hw); [destruct Huv|].
    cbn [length wachspress_loop].
    pose proof (HP O c eq_refl) as Hc. rewrite Z.add_0_r in Hc. rewrite Hc. cbn [bind].
    fold (areaB b c p). fold (areaB a b c). fold (withinB b c). unfold zlen in Hl. cbn [length] in Hl. destruct (withinB b c) eqn:Wbc.
    - exists ws, i, b, c. split; auto. split; auto. split; [unfold zlen; cbn; lia|]. rewrite Z.sub_diag. now split.
    - destruct HQ as (HQ0 & HQ). rewrite (HQ0 Hab Wbc). cbn [bind].
      rewrite aset_pos by (unfold zlen; lia). cbn [bind].
      destruct (IH (i + 1)%Z b c (list_set ws (Z.to_nat i) (wtB p a b c)) (nadd S0 (wtB p a b c))) as (ws' & j & u' & v' & E & L & Hj & Hn & Hw'); auto.
      + lia.
      + unfold zlen. rewrite list_set_length. lia.
      + intros j c' Hj. replace (i + 1 + Z.of_nat j + 1)%Z with (i + Z.of_nat (S j) + 1)%Z by lia. apply HP. exact Hj.
      + destruct Huv as [E|E]; [inversion E; subst; congruence|]. eauto.
      + exists ws', j, u', v'. split; [exact E|]. rewrite list_set_length in L. split; auto.
        unfold zlen in *. cbn [length]. split; [lia|]. split; auto. cbn [bchain].
        replace (Z.to_nat (j - i)) with (Datatypes.S (Z.to_nat (j - (i + 1)))) by lia. exact Hn.
  Qed.

  Lemma normaliseB_loop (s : b64) : forall mid pre post i m, zlen pre = i -> m = length mid ->
    Forall (fun w => ndiv w s = Ok (ndivraw w s)) mid ->
    for_loop m i (fun i ws => let* w := aget ws i in let* w := ndiv w s in aset ws i w) (pre ++ mid ++ post)
    = Ok (pre ++ map (fun w => ndivraw w s) mid ++ post).
  Proof.
    induction mid as [|w mid IH]; intros pre post i m Hi -> HF; [reflexivity|]. inversion HF as [|? ? H1 H2]; subst.
    cbn [length app for_loop]. rewrite aget_mid by reflexivity. cbn [bind].
    rewrite H1. cbn [bind]. rewrite aset_mid by reflexivity. cbn [bind].
    replace (pre ++ ndivraw w s :: mid ++ post) with ((pre ++ [ndivraw w s]) ++ mid ++ post) by (now rewrite <- app_assoc).
    rewrite IH; auto.
    - cbn [map]. rewrite <- app_assoc. reflexivity.
    - unfold zlen in *. rewrite app_length. cbn. lia.
  Qed.
End Loops.

(** indices around the polygon *)
Lemma next_vertexB {A} (v0 : A) l j c : nth_error (l ++ [v0]) j = Some c ->
  aget (v0 :: l) ((0 + Z.of_nat j + 1) mod zlen (v0 :: l))%Z = Ok c.
Proof.
  intros Hk. unfold zlen. cbn [length]. assert (Hl : (j < length (l ++ [v0]))%nat) by (apply nth_error_Some; congruence).
  rewrite app_length in Hl. cbn in Hl. destruct (Nat.eq_dec j (length l)) as [->|N].
  - rewrite nth_error_app2, Nat.sub_diag in Hk by lia. cbn in Hk.
    replace (0 + Z.of_nat (length l) + 1)%Z with (Z.of_nat (Datatypes.S (length l))) by lia.
    rewrite Z_mod_same_full. inversion Hk; subst. reflexivity.
  - rewrite nth_error_app1 in Hk by lia. rewrite Z.mod_small by lia.
    replace (0 + Z.of_nat j + 1)%Z with (Z.of_nat (Datatypes.S j)) by lia. apply aget_nat. exact Hk.
Qed.
Lemma last_vertexB {A} (v0 : A) l : aget (v0 :: l) (-1)%Z = Ok (last l v0).
Proof.
  destruct (exists_last (l:=v0 :: l) ltac:(discriminate)) as (l' & x & E). rewrite E.
  rewrite aget_mid_neg by reflexivity. f_equal. rewrite <- (last_cons l v0 v0), E. symmetry. apply last_last.
Qed.

(** the two entries written on a side *)
Definition twoB (m k k' : nat) (x y : b64) : list b64 := list_set (list_set (repeat (Zb 0) m) k x) k' y.
Lemma interpB u v p (ws : list b64) i j w : (i < length ws)%nat -> (j < length ws)%nat ->
  ndiv (nsqrt (dot_product (to_vector u p) (to_vector u p))) (nsqrt (dot_product (to_vector u v) (to_vector u v))) = Ok w ->
  interp_edge_case u (to_vector u v) p ws (Z.of_nat i) (Z.of_nat j) = Ok (twoB (length ws) i j (nsub (nofZ 1) w) w).
Proof.
  intros H H' E. unfold interp_edge_case. rewrite E. cbn [bind].
  assert (EM : map (fun _ : b64 => nofZ 0 : b64) ws = repeat (Zb 0) (length ws)).
  { clear. induction ws as [|x ws IH]; cbn [map repeat length]; auto. now rewrite IH. }
  rewrite EM. rewrite aset_pos by (unfold zlen; rewrite repeat_length; lia). cbn [bind].
  rewrite aset_pos by (unfold zlen; rewrite list_set_length, repeat_length; lia). rewrite !Nat2Z.id. reflexivity.
Qed.
Lemma twoB_spec m i j x y : (i < m)%nat -> (j < m)%nat -> i <> j ->
  length (twoB m i j x y) = m /\ nth_error (twoB m i j x y) i = Some x /\ nth_error (twoB m i j x y) j = Some y
  /\ (forall e z, e <> i -> e <> j -> nth_error (twoB m i j x y) e = Some z -> z = Zb 0).
Proof.
  intros Hi Hj Hne. unfold twoB. split; [now rewrite !list_set_length, repeat_length|].
  split; [rewrite list_set_other by auto; apply list_set_same; rewrite repeat_length; auto|].
  split; [apply list_set_same; rewrite list_set_length, repeat_length; auto|].
  intros e z N1 N2 H. rewrite !list_set_other in H by auto. now apply nth_error_In, repeat_spec in H.
Qed.
