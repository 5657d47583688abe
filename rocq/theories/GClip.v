(** Clipping a strictly convex polygon by a half-plane: geometry of one
    Sutherland-Hodgman step. *)
From Verif Require Import RBase SpecPoly GTriangle GConvex GHull GArea GRay.
From Coq Require Import Permutation.
Open Scope R_scope.

Definition neqe (e : pt * pt) : bool := if pt_dec (fst e) (snd e) then false else true.

Lemma neqe_cases u v : (u = v /\ neqe (u, v) = false) \/ (u <> v /\ neqe (u, v) = true).
Proof. unfold neqe. cbn [fst snd]. destruct (pt_dec u v); auto. Qed.

(** the polygon without repeated neighbours *)
Definition dd (Q : list pt) : list pt := map snd (filter neqe (poly_edges Q)).

Lemma chain_dd : forall l v0, chain v0 (map snd (filter neqe (chain v0 l))) = filter neqe (chain v0 l)
  /\ last (map snd (filter neqe (chain v0 l))) v0 = last l v0.
Proof.
  induction l as [|x l IH]; intros v0; [split; reflexivity|]. cbn [chain filter].
  rewrite last_cons. destruct (neqe_cases v0 x) as [(<- & En)|(Hn & En)]; rewrite En.
  - apply IH.
  - cbn [map snd chain]. destruct (IH x) as (A & B). rewrite A. split; auto. now rewrite last_cons.
Qed.

Lemma dd_edges Q : poly_edges (dd Q) = filter neqe (poly_edges Q).
Proof.
  unfold dd, poly_edges. set (v0 := last Q (Pt 0 0)).
  destruct (chain_dd Q v0) as (A & B). rewrite <- A at 3.
  destruct (map snd (filter neqe (chain v0 Q))) as [|y m] eqn:E; [reflexivity|].
  replace (last (y :: m) (Pt 0 0)) with v0; [reflexivity|].
  rewrite (last_default _ _ v0) by discriminate. rewrite B. unfold v0.
  destruct Q as [|q Q]; [discriminate|]. apply last_default. discriminate.
Qed.

Lemma dd_length Q : (length (dd Q) <= length Q)%nat.
Proof.
  unfold dd. rewrite map_length, <- (edges_length Q). induction (poly_edges Q) as [|e E IH]; cbn; auto.
  destruct (neqe e); cbn; lia.
Qed.
Lemma dd_in Q w : In w (dd Q) -> In w Q.
Proof.
  unfold dd. intros H. apply in_map_iff in H as ((u, v) & <- & H). apply filter_In in H as (H & _).
  now apply edges_in in H.
Qed.

Lemma dd_id Q : NoDup Q -> (2 <= length Q)%nat -> dd Q = Q.
Proof.
  intros Hn Hl. unfold dd. rewrite <- (edges_snd Q) at 2. f_equal.
  assert (H : forall e, In e (poly_edges Q) -> neqe e = true).
  { intros (u, v) He. unfold neqe. cbn. destruct (pt_dec u v) as [E|]; auto. now apply (edges_neq Q u v Hn Hl He) in E. }
  induction (poly_edges Q) as [|e E IH]; cbn; auto. rewrite (H e (or_introl eq_refl)). f_equal. apply IH.
  intros e' He'. apply H. now right.
Qed.

Lemma dd_rot l1 l2 : exists m1 m2, dd (l1 ++ l2) = m1 ++ m2 /\ dd (l2 ++ l1) = m2 ++ m1.
Proof.
  destruct l1 as [|x l1]; [exists [], (dd l2); rewrite !app_nil_r; auto|].
  destruct l2 as [|y l2]; [exists (dd (x :: l1)), []; rewrite !app_nil_r; auto|].
  unfold dd. rewrite !edges_app by discriminate. rewrite !filter_app, !map_app. eauto.
Qed.

Lemma shoelace_dd Q : shoelace (dd Q) = shoelace Q.
Proof.
  unfold shoelace. rewrite dd_edges. f_equal. induction (poly_edges Q) as [|(u, v) E IH]; auto.
  cbn [filter]. destruct (neqe (u, v)) eqn:En; cbn [map sumR]; rewrite IH; auto.
  unfold neqe in En. cbn [fst snd] in *. destruct (pt_dec u v) as [->|]; [|discriminate]. lra.
Qed.

Lemma nodup_parts {A} (l1 l2 : list A) : NoDup (l1 ++ l2) -> NoDup l1 /\ NoDup l2.
Proof.
  induction l1 as [|x l1 IH]; cbn [app]; intros H; [split; [constructor|exact H]|].
  apply NoDup_cons_iff in H as (Hx & H). destruct (IH H). split; auto. constructor; auto.
  intros K. apply Hx. apply in_or_app. now left.
Qed.

Section Clip.
  Variables r s : pt.
  Notation f := (orient r s).

  Definition ins (p : pt) : bool := Rlt_bool 0 (f p).
  Definition cutp (u v : pt) : pt := at_ u v (f u / (f u - f v)).
  Definition she (e : pt * pt) : list pt :=
    if neqe e then
      if ins (snd e) then (if ins (fst e) then [snd e] else [cutp (fst e) (snd e); snd e])
      else if ins (fst e) then [cutp (fst e) (snd e)] else []
    else [].
  Definition sh (Q : list pt) : list pt := flat_map she (poly_edges Q).

  Lemma sh_dd Q : sh (dd Q) = sh Q.
  Proof.
    unfold sh. rewrite dd_edges. induction (poly_edges Q) as [|e E IH]; auto. cbn [filter].
    destruct (neqe e) eqn:En; cbn [flat_map]; rewrite IH; auto.
    unfold she. now rewrite En.
  Qed.

  Lemma ins_iff p : ins p = true <-> 0 < f p. Proof. apply Rltb_iff. Qed.
  Lemma ins_false p : ins p = false <-> f p <= 0. Proof. apply Rltb_false. Qed.

  Lemma f_at u v t : f (at_ u v t) = f u + t * (f v - f u). Proof. apply orient_at. Qed.

  Lemma cut_down u v : 0 < f u -> f v <= 0 -> exists t, 0 < t <= 1 /\ cutp u v = at_ u v t /\ f (cutp u v) = 0.
  Proof.
    intros Hu Hv. exists (f u / (f u - f v)). 
    assert (E : f u / (f u - f v) * (f u - f v) = f u) by (field; lra).
    split; [split; [apply (Rmult_lt_reg_r (f u - f v))|apply (Rmult_le_reg_r (f u - f v))]; lra|].
    split; auto. unfold cutp. rewrite f_at. lra.
  Qed.
  Lemma cut_up u v : f u <= 0 -> 0 < f v -> exists t, 0 <= t < 1 /\ cutp u v = at_ u v t /\ f (cutp u v) = 0.
  Proof.
    intros Hu Hv. exists (f u / (f u - f v)).
    assert (E : f u / (f u - f v) * (f v - f u) = - f u) by (field; lra).
    split; [split; [apply (Rmult_le_reg_r (f v - f u))|apply (Rmult_lt_reg_r (f v - f u))]; lra|].
    split; auto. unfold cutp. rewrite f_at. lra.
  Qed.

  (** affine functions that vanish at x and y are proportional *)
  Lemma plucker x y z w : f x = 0 -> f y = 0 -> orient x y w * f z = orient x y z * f w.
  Proof.
    intros Hx Hy.
    assert (E : orient x y w * f z - orient x y z * f w = - (orient y z w * f x + orient z x w * f y))
      by (unfold orient; ring).
    rewrite Hx, Hy in E. lra.
  Qed.

  Section Mixed.
    Variables (fA : pt) (A' : list pt) (fB : pt) (B' : list pt).
    Notation A := (fA :: A').
    Notation B := (fB :: B').
    Notation K := (A ++ B).
    Notation lA := (last A' fA).
    Notation lB := (last B' fB).
    Hypothesis HK : convex_ccw K.
    Hypothesis HA : forall w, In w A -> 0 < f w.
    Hypothesis HB : forall w, In w B -> f w <= 0.

    Let x := cutp lA fB.
    Let y := cutp lB fA.

    Lemma K_edges : poly_edges K = (lB, fA) :: chain fA A' ++ (lA, fB) :: chain fB B'.
    Proof.
      rewrite edges_app by discriminate. rewrite !last_cons. cbn [chain app]. reflexivity.
    Qed.
    Lemma lA_in : In lA A. Proof. rewrite <- (last_cons A' fA fA). apply last_in. discriminate. Qed.
    Lemma lB_in : In lB B. Proof. rewrite <- (last_cons B' fB fB). apply last_in. discriminate. Qed.
    Lemma e_up : In (lB, fA) (poly_edges K). Proof. rewrite K_edges. now left. Qed.
    Lemma e_down : In (lA, fB) (poly_edges K).
    Proof. rewrite K_edges. right. apply in_or_app. right. now left. Qed.
    Lemma e_A u v : In (u, v) (chain fA A') -> In (u, v) (poly_edges K).
    Proof. intros H. rewrite K_edges. right. apply in_or_app. now left. Qed.
    Lemma A_in w : In w A -> In w K. Proof. intros. apply in_or_app. now left. Qed.
    Lemma B_in w : In w B -> In w K. Proof. intros. apply in_or_app. now right. Qed.
    Lemma AB w w' : In w A -> In w' B -> w <> w'.
    Proof. intros H1 H2 ->. apply HA in H1. apply HB in H2. lra. Qed.

    Lemma x_def : exists t, 0 < t <= 1 /\ x = at_ lA fB t /\ f x = 0.
    Proof. apply cut_down; [apply HA, lA_in|apply HB; now left]. Qed.
    Lemma y_def : exists t, 0 <= t < 1 /\ y = at_ lB fA t /\ f y = 0.
    Proof. apply cut_up; [apply HB, lB_in|apply HA; now left]. Qed.

    Lemma sh_mixed : sh K = y :: A ++ [x].
    Proof.
      assert (NE : forall u v, In (u, v) (poly_edges K) -> neqe (u, v) = true).
      { intros u v He. unfold neqe. cbn. destruct (pt_dec u v) as [E|]; auto. exfalso. revert E.
        destruct HK as (L & N & _). apply (edges_neq K u v N); [lia|exact He]. }
      unfold sh. pose proof K_edges as KE. rewrite KE. cbn [flat_map].
      rewrite flat_map_app. cbn [flat_map].
      assert (E1 : she (lB, fA) = [y; fA]).
      { unfold she. rewrite (NE _ _ e_up). cbn [fst snd].
        rewrite (proj2 (ins_iff fA)) by (apply HA; now left). rewrite (proj2 (ins_false lB)) by (apply HB, lB_in). reflexivity. }
      assert (E2 : she (lA, fB) = [x]).
      { unfold she. rewrite (NE _ _ e_down). cbn [fst snd].
        rewrite (proj2 (ins_false fB)) by (apply HB; now left). rewrite (proj2 (ins_iff lA)) by (apply HA, lA_in). reflexivity. }
      assert (E3 : flat_map she (chain fA A') = A').
      { assert (G : forall l a, 0 < f a -> (forall w, In w l -> 0 < f w) -> (forall e, In e (chain a l) -> neqe e = true) ->
                  flat_map she (chain a l) = l).
        { induction l as [|z l IH]; intros a Ha Hl Hn; auto. cbn [chain flat_map].
          unfold she at 1. rewrite (Hn _ (or_introl eq_refl)). cbn [fst snd].
          rewrite (proj2 (ins_iff z)) by (apply Hl; now left). rewrite (proj2 (ins_iff a)) by auto.
          cbn [app]. rewrite IH; auto.
          - apply Hl. now left.
          - intros w Hw. apply Hl. now right.
          - intros e He. apply Hn. now right. }
        apply G; [apply HA; now left|intros w Hw; apply HA; now right|].
        intros (u, v) He. apply NE. now apply e_A. }
      assert (E4 : flat_map she (chain fB B') = []).
      { assert (G : forall l a, f a <= 0 -> (forall w, In w l -> f w <= 0) -> flat_map she (chain a l) = []).
        { induction l as [|z l IH]; intros a Ha Hl; auto. cbn [chain flat_map].
          unfold she at 1. cbn [fst snd].
          rewrite (proj2 (ins_false z)) by (apply Hl; now left). rewrite (proj2 (ins_false a)) by auto.
          rewrite IH; [destruct neqe; reflexivity|apply Hl; now left|]. intros w Hw. apply Hl. now right. }
        apply G; [apply HB; now left|]. intros w Hw. apply HB. now right. }
      rewrite E1, E2, E3, E4. reflexivity.
    Qed.

    Lemma strictK u v w : In (u, v) (poly_edges K) -> In w K -> w <> u -> w <> v -> 0 < orient u v w.
    Proof. apply HK. Qed.
    Lemma weakK u v w : In (u, v) (poly_edges K) -> In w K -> 0 <= orient u v w.
    Proof. intros. now apply (orient_vertex K). Qed.

    Lemma not_two : A' <> [] \/ B' <> [].
    Proof.
      destruct A', B'; auto; try (left; discriminate); try (right; discriminate).
      destruct HK as (L & _). cbn in L. lia.
    Qed.
    Lemma last_first (l : list pt) a : NoDup (a :: l) -> last l a = a -> l = [].
    Proof.
      intros N E. destruct l as [|b l]; auto. exfalso. inversion N as [|? ? H _]; subst. apply H.
      rewrite <- E at 1. apply last_in. discriminate.
    Qed.
    Lemma nodup_A : NoDup A. Proof. destruct HK as (_ & N & _). now apply nodup_parts in N. Qed.
    Lemma nodup_B : NoDup B. Proof. destruct HK as (_ & N & _). now apply nodup_parts in N. Qed.

    (** the two cut points coincide only in a single touching vertex *)
    Lemma cuts_equal : x = y -> B' = [] /\ x = fB /\ f fB = 0.
    Proof.
      intros E. destruct x_def as (t & Ht & Ex & Fx). destruct y_def as (t' & Ht' & Ey & Fy).
      assert (O : orient lA fB y = 0).
      { rewrite <- E, Ex, orient_at, orient_12, orient_22. ring. }
      rewrite Ey, orient_at in O.
      pose proof (weakK _ _ lB e_down (B_in _ lB_in)) as W1.
      pose proof (weakK _ _ fA e_down (A_in fA (or_introl eq_refl))) as W2.
      assert (P1 : 0 <= (1 - t') * orient lA fB lB) by (apply Rmult_le_pos; lra).
      assert (P2 : 0 <= t' * orient lA fB fA) by (apply Rmult_le_pos; lra).
      assert (Z1 : (1 - t') * orient lA fB lB = 0) by lra.
      assert (Z2 : t' * orient lA fB fA = 0) by lra.
      apply Rmult_integral in Z1 as [Z1|Z1]; [lra|].
      assert (EB : lB = fB).
      { destruct (pt_dec lB fB) as [|Hn]; auto. exfalso.
        pose proof (strictK _ _ lB e_down (B_in _ lB_in) ltac:(intros H; symmetry in H; revert H; apply AB; [apply lA_in|apply lB_in]) Hn). lra. }
      apply (last_first B' fB nodup_B) in EB. split; auto.
      apply Rmult_integral in Z2 as [Z2|Z2].
      - assert (y = fB) by (rewrite Ey, Z2, EB; cbn; apply at_0). split; congruence.
      - exfalso. assert (EA : fA = lA).
        { destruct (pt_dec fA lA) as [|Hn]; auto. exfalso.
          pose proof (strictK _ _ fA e_down (A_in fA (or_introl eq_refl)) Hn ltac:(apply AB; now left)). lra. }
        symmetry in EA. apply (last_first A' fA nodup_A) in EA. destruct not_two; congruence.
    Qed.

    Notation K2 := (y :: A ++ [x]).

    Lemma K2_edges : poly_edges K2 = (x, y) :: (y, fA) :: chain fA A' ++ [(lA, x)].
    Proof.
      rewrite edges_cons. rewrite last_last. cbn [app chain]. rewrite chain_app. reflexivity.
    Qed.

    Section Apart.
      Hypothesis Hxy : x <> y.

      Lemma down_y : 0 < orient lA fB y.
      Proof.
        destruct x_def as (t & Ht & Ex & Fx). destruct y_def as (t' & Ht' & Ey & Fy).
        rewrite Ey, orient_at.
        pose proof (weakK _ _ lB e_down (B_in _ lB_in)) as W1.
        pose proof (weakK _ _ fA e_down (A_in fA (or_introl eq_refl))) as W2.
        assert (P1 : 0 <= (1 - t') * orient lA fB lB) by (apply Rmult_le_pos; lra).
        assert (P2 : 0 <= t' * orient lA fB fA) by (apply Rmult_le_pos; lra).
        destruct (pt_dec lB fB) as [EB|EB].
        - (* one outside vertex: then the cut is beyond it *)
          pose proof (last_first B' fB nodup_B EB) as EB'.
          assert (EA : fA <> lA) by (intros EA; symmetry in EA; apply (last_first A' fA nodup_A) in EA; destruct not_two; congruence).
          pose proof (strictK _ _ fA e_down (A_in fA (or_introl eq_refl)) EA ltac:(apply AB; now left)) as S2.
          destruct (Req_dec t' 0) as [Z|Z].
          + exfalso. apply Hxy. assert (Ey' : y = fB) by (rewrite Ey, Z, EB; apply at_0).
            rewrite Ey'. rewrite Ey' in Fy. rewrite Ex. rewrite Ex, f_at, Fy in Fx.
            assert (Ht1 : t = 1). { pose proof (HA lA lA_in). assert (Hz : f lA * (1 - t) = 0) by lra. apply Rmult_integral in Hz as [Hz|Hz]; lra. }
            rewrite Ht1. apply at_1.
          + assert (0 < t' * orient lA fB fA) by (apply Rmult_lt_0_compat; lra). lra.
        - pose proof (strictK _ _ lB e_down (B_in _ lB_in) ltac:(intros H; symmetry in H; revert H; apply AB; [apply lA_in|apply lB_in]) EB) as S1.
          assert (0 < (1 - t') * orient lA fB lB) by (apply Rmult_lt_0_compat; lra). lra.
      Qed.

      Lemma up_x : 0 < orient lB fA x.
      Proof.
        destruct x_def as (t & Ht & Ex & Fx). destruct y_def as (t' & Ht' & Ey & Fy).
        rewrite Ex, orient_at.
        pose proof (weakK _ _ lA e_up (A_in _ lA_in)) as W1.
        pose proof (weakK _ _ fB e_up (B_in fB (or_introl eq_refl))) as W2.
        assert (P1 : 0 <= (1 - t) * orient lB fA lA) by (apply Rmult_le_pos; lra).
        assert (P2 : 0 <= t * orient lB fA fB) by (apply Rmult_le_pos; lra).
        destruct (pt_dec fB lB) as [EB|EB].
        - pose proof (last_first B' fB nodup_B (eq_sym EB)) as EB'.
          assert (EA : lA <> fA) by (intros EA; apply (last_first A' fA nodup_A) in EA; destruct not_two; congruence).
          assert (S1 : 0 < orient lB fA lA).
          { apply strictK; auto; [apply e_up|apply A_in, lA_in|apply AB; [apply lA_in|apply lB_in]]. }
          destruct (Req_dec t 1) as [Z|Z].
          + exfalso. apply Hxy. assert (Ex' : x = fB) by (rewrite Ex, Z; apply at_1).
            rewrite Ex'. rewrite Ex' in Fx. rewrite Ey. rewrite Ey, f_at, <- EB, Fx in Fy.
            assert (Ht0 : t' = 0). { pose proof (HA fA (or_introl eq_refl)). assert (Hz : t' * f fA = 0) by lra. apply Rmult_integral in Hz as [Hz|Hz]; lra. }
            rewrite Ht0, at_0. exact EB.
          + assert (0 < (1 - t) * orient lB fA lA) by (apply Rmult_lt_0_compat; lra). lra.
        - assert (S2 : 0 < orient lB fA fB).
          { apply strictK; auto; [apply e_up|apply B_in; now left|]. intros H. symmetry in H. revert H. apply AB; now left. }
          assert (0 < t * orient lB fA fB) by (apply Rmult_lt_0_compat; lra). lra.
      Qed.

      Lemma lAx w : exists t, 0 < t /\ orient lA x w = t * orient lA fB w.
      Proof.
        destruct x_def as (t & Ht & Ex & Fx). exists t. split; [lra|]. rewrite Ex. unfold orient, at_. cbn. ring.
      Qed.
      Lemma yfA w : exists t, 0 < t /\ orient y fA w = t * orient lB fA w.
      Proof.
        destruct y_def as (t & Ht & Ey & Fy). exists (1 - t). split; [lra|]. rewrite Ey. unfold orient, at_. cbn. ring.
      Qed.

      Lemma xy_lA : 0 < orient x y lA.
      Proof.
        rewrite <- orient_rot. destruct (lAx y) as (t & Ht & ->). apply Rmult_lt_0_compat; [lra|]. apply down_y.
      Qed.

      Lemma K2_convex : convex_ccw K2.
      Proof.
        destruct x_def as (tx & Htx & Ex & Fx). destruct y_def as (ty & Hty & Ey & Fy).
        assert (NA : forall w, In w A -> w <> x /\ w <> y).
        { intros w Hw. pose proof (HA w Hw). split; intros ->; lra. }
        split; [cbn; rewrite app_length; cbn; lia|]. split.
        - constructor.
          + intros H. apply in_app_or in H as [H|[H|[]]]; [destruct (NA y H); congruence|congruence].
          + pose proof (NoDup_rev nodup_A) as N. rewrite <- (rev_involutive (A ++ [x])). apply NoDup_rev.
            rewrite rev_app_distr. cbn [rev app]. constructor; [|exact N].
            intros H. assert (Hx : In x A) by (apply in_rev; exact H). destruct (NA x Hx); congruence.
        - intros u v w He Hw N1 N2. rewrite K2_edges in He.
          destruct He as [He|[He|He]].
          + inversion He; subst u v; clear He.
            destruct Hw as [Hw|Hw]; [congruence|]. apply in_app_or in Hw as [Hw|[Hw|[]]]; [|congruence].
            pose proof (plucker x y lA w Fx Fy) as P. pose proof (HA w Hw). pose proof (HA lA lA_in). pose proof xy_lA.
            assert (0 < orient x y w * f lA) by (rewrite P; apply Rmult_lt_0_compat; lra).
            apply (Rmult_lt_reg_r (f lA)); lra.
          + inversion He; subst u v; clear He. destruct (yfA w) as (t & Ht & ->). apply Rmult_lt_0_compat; auto.
            destruct Hw as [Hw|Hw]; [congruence|]. apply in_app_or in Hw as [Hw|[Hw|[]]].
            * apply strictK; auto; [apply e_up|now apply A_in|]. apply AB; [exact Hw|apply lB_in].
            * subst w. apply up_x.
          + apply in_app_or in He as [He|[He|[]]].
            * assert (HuA : In u A /\ In v A) by (destruct (chain_in _ _ _ _ He) as ([->|] & ?); split; [now left|now right|now right|now right]).
              destruct HuA as (HuA & HvA).
              destruct Hw as [Hw|Hw]; [|apply in_app_or in Hw as [Hw|[Hw|[]]]].
              -- subst w. rewrite Ey, orient_at.
                 pose proof (strictK u v lB (e_A u v He) (B_in _ lB_in) ltac:(intros H; symmetry in H; revert H; apply AB; [auto|apply lB_in])
                               ltac:(intros H; symmetry in H; revert H; apply AB; [auto|apply lB_in])) as S1.
                 pose proof (weakK u v fA (e_A u v He) (A_in fA (or_introl eq_refl))) as S2.
                 assert (0 < (1 - ty) * orient u v lB) by (apply Rmult_lt_0_compat; lra).
                 assert (0 <= ty * orient u v fA) by (apply Rmult_le_pos; lra). lra.
              -- apply strictK; auto; [now apply e_A|now apply A_in].
              -- subst w. rewrite Ex, orient_at.
                 pose proof (strictK u v fB (e_A u v He) (B_in _ (or_introl eq_refl)) ltac:(intros H; symmetry in H; revert H; apply AB; [auto|now left])
                               ltac:(intros H; symmetry in H; revert H; apply AB; [auto|now left])) as S1.
                 pose proof (weakK u v lA (e_A u v He) (A_in _ lA_in)) as S2.
                 assert (0 < tx * orient u v fB) by (apply Rmult_lt_0_compat; lra).
                 assert (0 <= (1 - tx) * orient u v lA) by (apply Rmult_le_pos; lra). lra.
            * inversion He; subst u v; clear He. destruct (lAx w) as (t & Ht & ->). apply Rmult_lt_0_compat; auto.
              destruct Hw as [Hw|Hw]; [subst w; apply down_y|]. apply in_app_or in Hw as [Hw|[Hw|[]]]; [|congruence].
              apply strictK; auto; [apply e_down|now apply A_in|]. apply AB; [exact Hw|now left].
      Qed.

      Lemma K2_region p : in_poly K2 p <-> in_poly K p /\ 0 <= f p.
      Proof.
        destruct x_def as (tx & Htx & Ex & Fx). destruct y_def as (ty & Hty & Ey & Fy).
        split.
        - intros H. apply in_poly_hull in H; [|exact K2_convex]. destruct H as (ws & El & Hpos & Hs & ->).
          assert (Hv : forall w, In w K2 -> in_poly K w /\ 0 <= f w).
          { intros w [<-|Hw]; [|apply in_app_or in Hw as [Hw|[<-|[]]]].
            - split; [|lra]. rewrite Ey. apply in_poly_at; [| |lra]; apply vertex_in_poly; auto;
                [apply B_in, lB_in|apply A_in; now left].
            - split; [apply vertex_in_poly; auto; now apply A_in|]. pose proof (HA w Hw). lra.
            - split; [|lra]. rewrite Ex. apply in_poly_at; [| |lra]; apply vertex_in_poly; auto;
                [apply A_in, lA_in|apply B_in; now left]. }
          split.
          + intros u v He. rewrite (comb_orient u v ws K2 El Hs). apply wsum_nonneg; auto.
            intros w Hw. now apply (Hv w Hw).
          + rewrite (comb_orient r s ws K2 El Hs). apply wsum_nonneg; auto. intros w Hw. now apply (Hv w Hw).
        - intros (Hp & Hf) u v He. rewrite K2_edges in He.
          destruct He as [He|[He|He]]; [| |apply in_app_or in He as [He|[He|[]]]].
          + inversion He; subst u v; clear He.
            pose proof (plucker x y lA p Fx Fy) as P. pose proof (HA lA lA_in). pose proof xy_lA.
            assert (0 <= orient x y p * f lA) by (rewrite P; apply Rmult_le_pos; lra).
            apply (Rmult_le_reg_r (f lA)); lra.
          + inversion He; subst u v; clear He. destruct (yfA p) as (t & Ht & ->). apply Rmult_le_pos; [lra|]. apply Hp, e_up.
          + apply Hp. now apply e_A.
          + inversion He; subst u v; clear He. destruct (lAx p) as (t & Ht & ->). apply Rmult_le_pos; [lra|]. apply Hp, e_down.
      Qed.
    End Apart.

    Lemma touch_dd : x = y -> dd K2 = K.
    Proof.
      intros E. destruct (cuts_equal E) as (EB & Efb & Ff).
      unfold dd. rewrite K2_edges. rewrite <- E, Efb. pose proof K_edges as KE. rewrite EB in KE |- *. cbn [chain last] in KE.
      assert (HN : filter neqe (poly_edges (A ++ [fB])) = poly_edges (A ++ [fB])).
      { pose proof (dd_edges (A ++ [fB])) as D. rewrite EB in HK. rewrite dd_id in D; [now symmetry|apply HK|destruct HK; lia]. }
      rewrite KE in HN. set (L := (fB, fA) :: chain fA A' ++ [(lA, fB)]) in *. cbn [filter].
      destruct (neqe_cases fB fB) as [(_ & En)|(? & _)]; [rewrite En|congruence]. rewrite HN. unfold L.
      cbn [map snd]. rewrite map_app, chain_snd. reflexivity.
    Qed.

    (** the clipped polygon in the mixed case *)
    Lemma mixed_result : convex_ccw (dd (sh K)) /\ (3 <= length (sh K) <= length K + 1)%nat
      /\ forall p, in_poly (dd (sh K)) p <-> in_poly K p /\ 0 <= f p.
    Proof.
      rewrite sh_mixed. split; [|split].
      2:{ cbn. rewrite !app_length. cbn. lia. }
      all: destruct (pt_dec x y) as [E|E].
      - rewrite (touch_dd E). exact HK.
      - rewrite dd_id; [now apply K2_convex|apply (K2_convex E)|destruct (K2_convex E); lia].
      - intros p. destruct (cuts_equal E) as (EB & Efb & Ff). rewrite (touch_dd E).
        split; [|tauto]. intros Hp. split; auto.
        apply in_poly_hull in Hp; auto. destruct Hp as (ws & El & Hpos & Hs & ->).
        rewrite (comb_orient r s ws K El Hs). apply wsum_nonneg; auto. intros w Hw. apply in_app_or in Hw as [Hw|Hw].
        + pose proof (HA w Hw). lra.
        + rewrite EB in Hw. destruct Hw as [<-|[]]. lra.
      - rewrite dd_id; [now apply K2_region|apply (K2_convex E)|destruct (K2_convex E); lia].
    Qed.
  End Mixed.

  (** at most one side of a convex polygon enters the half-plane *)
  Lemma enter_unique K a b c d : convex_ccw K -> In (a, b) (poly_edges K) -> In (c, d) (poly_edges K) ->
    f a <= 0 -> 0 < f b -> f c <= 0 -> 0 < f d -> (a, b) = (c, d).
  Proof.
    intros HC Hab Hcd Fa Fb Fc Fd.
    destruct (cut_up a b Fa Fb) as (t & Ht & Ep & Fp). destruct (cut_up c d Fc Fd) as (t' & Ht' & Eq & Fq).
    set (p := cutp a b) in *. set (q := cutp c d) in *.
    destruct (edges_in _ _ _ Hab) as (Ia & Ib). destruct (edges_in _ _ _ Hcd) as (Ic & Id).
    assert (Hp : in_poly K p) by (rewrite Ep; apply in_poly_at; [now apply vertex_in_poly|now apply vertex_in_poly|lra]).
    assert (Hq : in_poly K q) by (rewrite Eq; apply in_poly_at; [now apply vertex_in_poly|now apply vertex_in_poly|lra]).
    pose proof (Hp c d Hcd) as O1. pose proof (Hq a b Hab) as O2.
    assert (E1 : orient p q d = (1 - t') * orient c d p) by (rewrite Eq; unfold orient, at_; cbn; ring).
    assert (E2 : orient p q b = - ((1 - t) * orient a b q)) by (rewrite Ep; unfold orient, at_; cbn; ring).
    pose proof (plucker p q b d Fp Fq) as P.
    assert (P1 : 0 <= orient p q d) by (rewrite E1; apply Rmult_le_pos; lra).
    assert (P2 : orient p q b <= 0).
    { assert (0 <= (1 - t) * orient a b q) by (apply Rmult_le_pos; lra). lra. }
    assert (P3 : 0 <= orient p q d * f b) by (apply Rmult_le_pos; lra).
    assert (P4 : 0 <= - orient p q b * f d) by (apply Rmult_le_pos; lra).
    assert (Z : orient p q d * f b = 0) by lra.
    apply Rmult_integral in Z as [Z|Z]; [|lra]. rewrite E1 in Z. apply Rmult_integral in Z as [Z|Z]; [lra|].
    rewrite Ep, orient_at in Z.
    pose proof (orient_vertex K c d a HC Hcd Ia). pose proof (orient_vertex K c d b HC Hcd Ib).
    assert (0 <= t * orient c d b) by (apply Rmult_le_pos; lra).
    assert (0 <= (1 - t) * orient c d a) by (apply Rmult_le_pos; lra).
    assert (Z2 : (1 - t) * orient c d a = 0) by lra.
    apply Rmult_integral in Z2 as [Z2|Z2]; [lra|].
    destruct (pt_dec a c) as [->|N1].
    - f_equal. destruct HC as (_ & N & _). apply (edges_start_unique K c b d N Hab Hcd).
    - destruct (pt_dec a d) as [->|N2]; [lra|]. destruct HC as (_ & _ & HS). pose proof (HS c d a Hcd Ia N1 N2). lra.
  Qed.

  Lemma edge_rotate K u v : In (u, v) (poly_edges K) ->
    exists l1 l2, K = l1 ++ v :: l2 /\ last (l2 ++ l1) v = u.
  Proof.
    intros H. unfold poly_edges in H.
    assert (G : forall l v0, In (u, v) (chain v0 l) -> exists l1 l2, l = l1 ++ v :: l2 /\ last l1 v0 = u).
    { clear H. induction l as [|z l IH]; intros v0 []; [inversion H; subst; exists [], l; auto|].
      destruct (IH z H) as (l1 & l2 & -> & E). exists (z :: l1), l2. split; auto. now rewrite last_cons. }
    destruct (G _ _ H) as (l1 & l2 & -> & E). exists l1, l2. split; auto.
    destruct l1 as [|z l1].
    - rewrite app_nil_r. change (last (v :: l2) (Pt 0 0) = u) in E. rewrite last_cons in E. exact E.
    - rewrite last_app_ne by discriminate. rewrite last_cons in *. exact E.
  Qed.

  Lemma split_signs : forall l v, 0 < f v -> (forall a b, In (a, b) (chain v l) -> f a <= 0 -> f b <= 0) ->
    exists A' B, l = A' ++ B /\ (forall w, In w A' -> 0 < f w) /\ (forall w, In w B -> f w <= 0).
  Proof.
    assert (G : forall l v, f v <= 0 -> (forall a b, In (a, b) (chain v l) -> f a <= 0 -> f b <= 0) ->
      forall w, In w l -> f w <= 0).
    { induction l as [|z l IH]; intros v Hv H w []; subst.
      - apply (H v w); [now left|auto].
      - apply (IH z); auto; [apply (H v z); [now left|auto]|]. intros a b Hab. apply H. now right. }
    induction l as [|z l IH]; intros v Hv H; [exists [], []; repeat split; intros w []|].
    destruct (Rlt_or_le 0 (f z)) as [Hz|Hz].
    - destruct (IH z Hz) as (A' & B & -> & HA & HB); [intros a b Hab; apply H; now right|].
      exists (z :: A'), B. repeat split; auto. intros w [<-|Hw]; auto.
    - exists [], (z :: l). repeat split; [intros w []|]. intros w [<-|Hw]; auto.
      apply (G l z Hz); auto. intros a b Hab. apply H. now right.
  Qed.

  Lemma she_all_in E : (forall e, In e E -> neqe e = true /\ 0 < f (fst e) /\ 0 < f (snd e)) -> flat_map she E = map snd E.
  Proof.
    induction E as [|e E IH]; intros H; auto. cbn [flat_map map].
    rewrite IH by (intros e' He'; apply H; now right). destruct (H e (or_introl eq_refl)) as (N & F1 & F2).
    unfold she. rewrite N, (proj2 (ins_iff _) F1), (proj2 (ins_iff _) F2). reflexivity.
  Qed.
  Lemma she_all_out E : (forall e, In e E -> f (fst e) <= 0 /\ f (snd e) <= 0) -> flat_map she E = [].
  Proof.
    induction E as [|e E IH]; intros H; auto. cbn [flat_map].
    rewrite IH by (intros e' He'; apply H; now right). destruct (H e (or_introl eq_refl)) as (F1 & F2).
    unfold she. rewrite (proj2 (ins_false _) F1), (proj2 (ins_false _) F2). now destruct neqe.
  Qed.

  Lemma sh_rot l1 l2 : exists m1 m2, sh (l1 ++ l2) = m1 ++ m2 /\ sh (l2 ++ l1) = m2 ++ m1.
  Proof.
    destruct l1 as [|x l1]; [exists [], (sh l2); rewrite !app_nil_r; auto|].
    destruct l2 as [|y l2]; [exists (sh (x :: l1)), []; rewrite !app_nil_r; auto|].
    unfold sh. rewrite !edges_app by discriminate. rewrite !flat_map_app. eauto.
  Qed.

  Lemma in_poly_rot l1 l2 p : in_poly (l1 ++ l2) p <-> in_poly (l2 ++ l1) p.
  Proof. unfold in_poly. split; intros H u v He; apply H; now apply edges_rot_in. Qed.

  (** the three cases of one clipping step *)
  Lemma sides K : K <> [] -> (forall v, In v K -> f v <= 0) \/ (forall v, In v K -> 0 < f v)
    \/ exists x y, In x K /\ In y K /\ f x <= 0 /\ 0 < f y.
  Proof.
    induction K as [|v K IH]; [congruence|]. intros _. destruct K as [|w K].
    - destruct (Rlt_or_le 0 (f v)); [right; left|left]; intros z [<-|[]]; auto.
    - destruct IH as [H|[H|(x & y & Hx & Hy & F)]]; [discriminate| | |].
      + destruct (Rlt_or_le 0 (f v)).
        * right; right. exists w, v. split; [right; now left|]. split; [now left|]. split; auto. apply H. now left.
        * left. intros z [<-|Hz]; auto.
      + destruct (Rlt_or_le 0 (f v)).
        * right; left. intros z [<-|Hz]; auto.
        * right; right. exists v, w. split; [now left|]. split; [right; now left|]. split; auto. apply H. now left.
      + right; right. exists x, y. split; [now right|]. split; [now right|]. auto.
  Qed.

  Lemma mixed_rotate K x y : convex_ccw K -> In x K -> In y K -> f x <= 0 -> 0 < f y ->
    exists l1 l2 fA A' fB B', K = l1 ++ l2 /\ l2 ++ l1 = (fA :: A') ++ (fB :: B')
      /\ (forall w, In w (fA :: A') -> 0 < f w) /\ (forall w, In w (fB :: B') -> f w <= 0).
  Proof.
    intros HC Hx Hy Fx Fy.
    destruct (switch ins K x y Hx Hy) as (u & v & Huv & Fu & Fv); [now apply ins_false|now apply ins_iff|].
    apply ins_false in Fu. apply ins_iff in Fv.
    destruct (edge_rotate K u v Huv) as (l1 & l2 & EK & EL).
    assert (HC' : convex_ccw (v :: l2 ++ l1)).
    { change (v :: l2 ++ l1) with ((v :: l2) ++ l1). apply convex_ccw_rot. now rewrite <- EK. }
    destruct (split_signs (l2 ++ l1) v Fv) as (A' & B & E & HA & HB).
    { intros a b Hab Fa. destruct (Rle_or_lt (f b) 0) as [|Fb]; auto. exfalso.
      assert (He : (a, b) = (u, v)).
      { apply (enter_unique (v :: l2 ++ l1)); auto.
        - rewrite edges_cons. now right.
        - rewrite edges_cons, EL. now left. }
      inversion He; subst a b. apply chain_in in Hab as (_ & Hv).
      destruct HC' as (_ & N & _). apply NoDup_cons_iff in N as (N & _). contradiction. }
    destruct B as [|fB B'].
    { exfalso. rewrite app_nil_r in E. assert (K0 : 0 < f u); [|lra]. rewrite <- EL, E. destruct A' as [|z A']; auto.
      apply HA. apply last_in. discriminate. }
    exists l1, (v :: l2), v, A', fB, B'. split; auto. split; [cbn; now rewrite E|]. split; auto.
    intros w [<-|Hw]; auto.
  Qed.

  Theorem sh_step Q : convex_ccw (dd Q) ->
    (sh Q = [] /\ forall v, In v (dd Q) -> f v <= 0)
    \/ (convex_ccw (dd (sh Q)) /\ (3 <= length (sh Q) <= length Q + 1)%nat
        /\ forall p, in_poly (dd (sh Q)) p <-> in_poly (dd Q) p /\ 0 <= f p).
  Proof.
    intros HC. pose proof (dd_length Q) as HL. rewrite <- (sh_dd Q). set (K := dd Q) in *.
    assert (Kne : K <> []) by (destruct HC as (L & _); destruct K; [cbn in L; lia|discriminate]).
    destruct (sides K Kne) as [H|[H|(x & y & Hx & Hy & Fx & Fy)]].
    - left. split; auto. apply she_all_out. intros (u, v) He. destruct (edges_in _ _ _ He). cbn. auto.
    - right. assert (E : sh K = K).
      { unfold sh. rewrite she_all_in; [apply edges_snd|]. intros (u, v) He. destruct (edges_in _ _ _ He).
        split; [|cbn; auto]. destruct (neqe_cases u v) as [(E & _)|(_ & E)]; auto. exfalso. revert E.
        destruct HC as (L & N & _). apply (edges_neq K u v N); [lia|auto]. }
      rewrite E. rewrite dd_id; [|apply HC|destruct HC; lia]. split; auto. split; [destruct HC; lia|].
      intros p. split; [|tauto]. intros Hp. split; auto.
      apply in_poly_hull in Hp; auto. destruct Hp as (ws & El & Hpos & Hs & ->).
      rewrite (comb_orient r s ws K El Hs). apply wsum_nonneg; auto. intros w Hw. left. auto.
    - right. destruct (mixed_rotate K x y HC Hx Hy Fx Fy) as (l1 & l2 & fA & A' & fB & B' & EK & ER & HA & HB).
      assert (HC' : convex_ccw ((fA :: A') ++ fB :: B')) by (rewrite <- ER; apply convex_ccw_rot; now rewrite <- EK).
      destruct (mixed_result fA A' fB B' HC' HA HB) as (M1 & M2 & M3). rewrite <- ER in M1, M2, M3.
      destruct (sh_rot l1 l2) as (m1 & m2 & E1 & E2). destruct (dd_rot m1 m2) as (n1 & n2 & D1 & D2).
      rewrite E2 in *. rewrite EK, E1. rewrite D1. rewrite D2 in *.
      split; [now apply convex_ccw_rot|]. split.
      + clear - M2 HL EK. rewrite EK in HL. rewrite !app_length in *. lia.
      + intros p. rewrite in_poly_rot, M3, (in_poly_rot l1 l2). reflexivity.
  Qed.
End Clip.
