(** Cyrus-Beck over exact reals: the search loop and totality. *)
From Verif Require Import RBase MGeometry MAlgorithms SpecQuery PBuild PMesh PInit NumSub PPoints GBox GLines.
Open Scope R_scope.

Lemma crosses_totalR (p v0 v1 : pt) : exists b, crosses p v0 v1 = Ok b.
Proof.
  unfold crosses. destruct (negb _) eqn:E; eauto. unfold ndiv. rsimp.
  rewrite Req_bool_false; [cbn [bind]; eauto|]. intros H. revert E. repeat rcase; cbn; try discriminate; lra.
Qed.

Lemma pip_or_edge_loop_totalR (p : pt) tol : forall l v0 U c, exists b, pip_or_edge_loop p tol v0 U l c = Ok b.
Proof.
  induction l as [|v1 t IH]; intros v0 U c; cbn [pip_or_edge_loop]; eauto.
  destruct (point_eqb v1 v0); auto. cbv zeta. destruct (_ && _)%bool; eauto.
  destruct (crosses_totalR p v0 v1) as (b & ->). cbn [bind]. apply IH.
Qed.

Lemma pip_totalR p (poly : list pt) tol : poly <> [] ->
  exists b, point_in_polygon_or_on_edge p poly tol = Ok b.
Proof.
  intros Hn. unfold point_in_polygon_or_on_edge. destruct (exists_last Hn) as (l & v & ->).
  rewrite aget_last. cbn [bind]. apply pip_or_edge_loop_totalR.
Qed.

Section Search.
  Variables a b : pt.
  Variable poly : list pt.
  Notation n := (zlen poly).
  Notation s := (to_vector a b).
  (** the side of a vertex with respect to the line: positive to the right *)
  Definition side (v : pt) : R := cross_product (to_vector a v) s.

  Lemma side_orient v : side v = - orient a b v.
  Proof. unfold side, orient, cross_product, to_vector. rsimp. ring. Qed.

  Definition edge_at (i : Z) (v0 v1 : pt) : Prop :=
    (0 <= i < n)%Z /\ aget poly i = Ok v0 /\ aget poly ((i + 1) mod n)%Z = Ok v1.

  Lemma edge_exists_at i : (0 <= i < n)%Z -> exists v0 v1, edge_at i v0 v1.
  Proof.
    intros Hi. destruct (aget_ok_pos poly i Hi) as (v0 & E0 & _).
    destruct (aget_ok_pos poly ((i + 1) mod n)%Z) as (v1 & E1 & _); [apply Z.mod_pos_bound; lia|].
    exists v0, v1. split; auto.
  Qed.

  Definition changes (v0 v1 : pt) : Prop :=
    (side v0 < 0 /\ 0 <= side v1) \/ (0 <= side v0 /\ side v1 < 0).
  Definition flat (v0 v1 : pt) : Prop := side v0 = 0 /\ side v1 = 0.
  Definition change_at (i : Z) : Prop := exists v0 v1, edge_at i v0 v1 /\ changes v0 v1.
  Definition quiet_at (i : Z) : Prop := exists v0 v1, edge_at i v0 v1 /\ ~ changes v0 v1 /\ ~ flat v0 v1.
  Definition flat_at (i : Z) : Prop := exists v0 v1, edge_at i v0 v1 /\ flat v0 v1.

  Definition search_result (r : clip (T:=R) + Z * Z * Z) : Prop :=
    match r with
    | inl c => exists i v0 v1, edge_at i v0 v1 /\ flat v0 v1 /\ c = collinear_case a b v0 v1
    | inr (k, i0, i1) =>
        (k = 0%Z /\ forall i, (0 <= i < n)%Z -> quiet_at i)
        \/ (k = 2%Z /\ (i0 < i1)%Z /\ change_at i0 /\ change_at i1
            /\ forall i, (0 <= i < i1)%Z -> i <> i0 -> quiet_at i)
    end.

  Definition neg (v : pt) : bool := Rlt_bool (side v) 0.

  Lemma neg_changes v0 v1 : xorb (neg v0) (neg v1) = true <-> changes v0 v1.
  Proof.
    unfold neg, changes. repeat rcase; cbn [xorb]; split; intros HH; try discriminate; auto.
    all: exfalso; lra.
  Qed.

  Lemma search_step m : forall i k i0 i1 v first,
    (0 <= i)%Z -> (i + Z.of_nat m = n)%Z ->
    aget poly 0%Z = Ok first -> aget poly (i mod n)%Z = Ok v ->
    ( (k = 0%Z /\ neg v = neg first /\ forall j, (0 <= j < i)%Z -> quiet_at j)
      \/ (k = 1%Z /\ neg v <> neg first /\ (0 <= i0 < i)%Z /\ change_at i0
          /\ forall j, (0 <= j < i)%Z -> j <> i0 -> quiet_at j)
      \/ (k = 2%Z /\ (i0 < i1)%Z /\ change_at i0 /\ change_at i1
            /\ forall i, (0 <= i < i1)%Z -> i <> i0 -> quiet_at i)) ->
    exists r, cb_search a b s poly n m i k i0 i1 (side v) = Ok r /\ search_result r.
  Proof.
    induction m as [|m IH]; intros i k i0 i1 v first Hi Hm Ef Ev H; cbn [cb_search].
    - eexists; split; [reflexivity|]. simpl.
      assert (i = n) by lia. subst i.
      destruct H as [(-> & Hs & Hq)|[(-> & Hs & _)|H]]; auto.
      exfalso. apply Hs. rewrite Z.mod_same in Ev; [congruence|].
      intros E0. unfold zlen in E0. destruct poly; [|simpl in E0; lia]. simpl in Ef. discriminate.
    - destruct (k <? 2)%Z eqn:Ek.
      2:{ eexists; split; [reflexivity|]. simpl. destruct H as [(-> & _)|[(-> & _)|H]]; [discriminate..|auto]. }
      assert (Hin : (0 <= i < n)%Z) by lia.
      destruct (edge_exists_at i Hin) as (v0 & v1 & He). pose proof He as (_ & E0 & E1).
      rewrite Z.mod_small in Ev by lia. assert (v0 = v) by congruence. subst v0.
      rewrite E0. cbn [bind]. rewrite E1. cbn [bind]. fold (side v1).
      change (side v <? 0)%num with (neg v). change (side v1 <? 0)%num with (neg v1).
      destruct (xorb (neg v) (neg v1)) eqn:Ex.
      + assert (Hc : change_at i) by (exists v, v1; split; auto; now apply neg_changes).
        assert (Hn : neg v1 <> neg v) by (destruct (neg v), (neg v1); discriminate).
        destruct H as [(-> & Hs & Hq)|[(-> & Hs & Hi0 & Hc0 & Hq)|(-> & _)]]; [| |discriminate].
        * cbn [Z.eqb]. apply (IH _ _ _ _ _ first); auto; try lia. right. left.
          split; auto. split; [congruence|]. split; [lia|]. split; auto.
          intros j Hj Hne. apply Hq. lia.
        * cbn [Z.eqb]. apply (IH _ _ _ _ _ first); auto; try lia. right. right.
          split; auto. split; [lia|]. split; auto.
      + destruct ((side v =? 0)%num && (side v1 =? 0)%num)%bool eqn:Ez.
        * eexists; split; [reflexivity|]. simpl. exists i, v, v1. split; auto. split; auto.
          rsimp. rb. split; auto.
        * assert (Hq : quiet_at i).
          { exists v, v1. split; auto. split.
            - intros H'. apply neg_changes in H'. congruence.
            - intros (Z1 & Z2). rsimp. rewrite Z1, Z2 in Ez. rewrite Req_bool_true in Ez by auto. discriminate. }
          assert (Hn : neg v1 = neg v) by (destruct (neg v), (neg v1); auto; discriminate).
          apply (IH _ _ _ _ _ first); auto; try lia.
          destruct H as [(-> & Hs & Hq')|[(-> & Hs & Hi0 & Hc0 & Hq')|(-> & _)]]; [left|right; left|discriminate].
          -- split; auto. split; [congruence|]. intros j Hj. destruct (Z.eq_dec j i) as [->|]; auto. apply Hq'. lia.
          -- split; auto. split; [congruence|]. split; [lia|]. split; auto. intros j Hj Hne.
             destruct (Z.eq_dec j i) as [->|]; auto. apply Hq'; auto. lia.
  Qed.

  Lemma search_ok first : aget poly 0%Z = Ok first ->
    exists r, cb_search a b s poly n (length poly) 0 0 (-1) (-1) (side first) = Ok r /\ search_result r.
  Proof.
    intros Ef. apply (search_step (length poly) 0 0 (-1) (-1) first first); auto; try (unfold zlen; lia).
    left. split; auto. split; auto. intros j Hj. lia.
  Qed.

  (** the parameter at which the line ab meets the line of a changing edge *)
  Definition param (v0 v1 : pt) : R := orient v0 v1 a / (side v0 - side v1).

  Lemma compute_intersection_ok v0 v1 : changes v0 v1 ->
    compute_intersection a s v0 v1 = Ok (Rlt_bool (orient v0 v1 a) 0, param v0 v1).
  Proof.
    intros Hc. unfold compute_intersection, ndiv.
    assert (Hk : side v1 - side v0 <> 0) by (unfold changes in Hc; lra).
    set (nn := Pt (- (py v1 - py v0))%num (px v1 - px v0)%num).
    assert (E : dot_product nn s = side v1 - side v0).
    { unfold nn, dot_product, side, cross_product, to_vector. rsimp. ring. }
    assert (E' : dot_product nn (to_vector a v0) = - orient v0 v1 a).
    { unfold nn, dot_product, orient, to_vector. rsimp. ring. }
    rewrite E, E'. rsimp. rewrite Req_bool_false by auto. cbn [bind]. do 2 f_equal.
    - repeat rcase; auto; lra.
    - unfold param. field. lra.
  Qed.

  Lemma intersections_ok i0 i1 v0 v01 v1 v11 : edge_at i0 v0 v01 -> edge_at i1 v1 v11 ->
    changes v0 v01 -> changes v1 v11 ->
    intersections a s poly n i0 i1 =
      Ok (if Rlt_bool (orient v1 v11 a) 0 then (param v1 v11, param v0 v01)
          else (param v0 v01, param v1 v11)).
  Proof.
    intros (_ & A0 & A1) (_ & B0 & B1) C0 C1. unfold intersections.
    rewrite A0. cbn [bind]. rewrite A1. cbn [bind]. rewrite B0. cbn [bind]. rewrite B1. cbn [bind].
    rewrite !compute_intersection_ok by auto. reflexivity.
  Qed.
End Search.

(** Cyrus-Beck never fails over reals, whatever the polygon *)
Lemma cyrus_beck_total (a b : pt) poly tol : poly <> [] ->
  exists r, cyrus_beck_line_polygon_clip a b poly tol = Ok r.
Proof.
  intros Hn. unfold cyrus_beck_line_polygon_clip.
  destruct (_ && _)%bool; eauto.
  destruct (pip_totalR a poly tol Hn) as (ia & ->). destruct (pip_totalR b poly tol Hn) as (ib & ->). cbn [bind].
  destruct (ia && ib)%bool; eauto.
  destruct (aget_ok_pos poly 0) as (v & E & _).
  { destruct poly; [congruence|]. unfold zlen. simpl length. lia. }
  rewrite E. cbn [bind]. change (cross_product (to_vector a v) (to_vector a b)) with (side a b v).
  destruct (search_ok a b poly v E) as ([c|((k, i0), i1)] & -> & H); cbn [bind]; eauto.
  destruct H as [(-> & _)|(-> & _ & (v0 & v01 & E0 & C0) & (v1 & v11 & E1 & C1) & _)]; cbn [Z.eqb]; eauto.
  rewrite (intersections_ok a b poly i0 i1 v0 v01 v1 v11) by auto. cbn [bind]. eauto.
Qed.
