(** The clipping loops on arrays, and exactness of the clipped area. *)
From Verif Require Import RBase MUtils MGeometry MAlgorithms SpecPoly SpecArea GTriangle GConvex GHull GArea GClip.
From Coq Require Import Permutation.
Open Scope R_scope.

(** ** area_of is a function of the set *)
Lemma convex_not_flat K u v : convex_ccw K -> u <> v -> (forall p, hull K p -> orient u v p = 0) -> False.
Proof.
  intros HC Hne H. destruct (interior_exists K HC) as (p & Hp).
  assert (Hd : px u <> px v \/ py u <> py v).
  { destruct (Req_dec (px u) (px v)); [|now left]. right. intros E. apply Hne. now apply pt_eq. }
  destruct (interior_beyond K p (- (py v - py u)) (px v - px u) HC Hp) as (w & Hw & L); [destruct Hd; [right|left]; lra|].
  pose proof (H w (hull_vertex K w Hw)) as E1.
  pose proof (H p (proj1 (in_poly_hull K p HC) (interior_in_poly K p Hp))) as E2.
  unfold orient in E1, E2. lra.
Qed.

Lemma area_of_unique S A B : area_of S A -> area_of S B -> A = B.
Proof.
  intros [(K & HC & HK & ->)|((u & v & Hne & Hf) & ->)] [(L & HD & HL & ->)|((u' & v' & Hne' & Hf') & ->)]; auto.
  - apply area_unique; auto. intros p. rewrite HK, HL. reflexivity.
  - exfalso. apply (convex_not_flat K u' v'); auto. intros p Hp. apply Hf', HK, Hp.
  - exfalso. apply (convex_not_flat L u v); auto. intros p Hp. apply Hf, HL, Hp.
Qed.

Lemma area_of_ext (S S' : pt -> Prop) A : (forall p, S p <-> S' p) -> area_of S A -> area_of S' A.
Proof.
  intros E [(K & HC & HK & ->)|((u & v & Hne & Hf) & ->)].
  - left. exists K. split; auto. split; auto. intros p. rewrite HK. apply E.
  - right. split; auto. exists u, v. split; auto. intros p Hp. apply Hf, E, Hp.
Qed.

Lemma area_of_nonneg S A : area_of S A -> 0 <= A.
Proof. intros [(K & HC & _ & ->)|(_ & ->)]; [|lra]. left. now apply shoelace_pos. Qed.

(** ** Arrays *)
Lemma list_set_firstn {A} (l : list A) k v : (k < length l)%nat ->
  firstn (S k) (list_set l k v) = firstn k l ++ [v].
Proof.
  revert k. induction l as [|h t IH]; intros [|k] H; cbn in *; try lia; auto. f_equal. apply IH. lia.
Qed.

Lemma push_ok (out acc : list pt) p : firstn (length acc) out = acc -> (length acc < length out)%nat ->
  exists out', push_point out (zlen acc) p = Ok (out', zlen (acc ++ [p]))
    /\ firstn (length (acc ++ [p])) out' = acc ++ [p] /\ length out' = length out.
Proof.
  intros H L. exists (list_set out (length acc) p). unfold push_point, zlen. rewrite aset_nat by auto. cbn [bind].
  rewrite app_length. cbn [length]. split; [do 2 f_equal; lia|]. split; [|apply list_set_length].
  replace (length acc + 1)%nat with (S (length acc)) by lia. rewrite list_set_firstn by auto. now rewrite H.
Qed.

Section Step.
  Variables r s : pt.
  Notation f := (orient r s).
  Notation U := (Pt (px s - px r) (py s - py r)).
  Notation N := (Pt (- py U) (px U)).

  Lemma inside_ins p : inside p r U = ins r s p.
  Proof.
    unfold inside, ins, orient. rsimp.
    destruct (Rlt_bool_spec ((py s - py r) * (px p - px r)) ((px s - px r) * (py p - py r)));
    destruct (Rlt_bool_spec 0 ((px s - px r) * (py p - py r) - (py s - py r) * (px p - px r))); auto; lra.
  Qed.

  Lemma intersection_cut a b : f a <> f b -> intersection a (Pt (px b - px a) (py b - py a)) r N = Ok (Some (cutp r s a b)).
  Proof.
    intros H. unfold intersection, dot_product. rsimp.
    assert (E1 : - (py s - py r) * (px r - px a) + (px s - px r) * (py r - py a) = - f a) by (unfold orient; ring).
    assert (E2 : - (py s - py r) * (px b - px a) + (px s - px r) * (py b - py a) = f b - f a) by (unfold orient; ring).
    rewrite E1, E2. rewrite Req_bool_false by lra. cbn [negb]. rewrite ndiv_R by lra. cbn [bind].
    do 2 f_equal. unfold cutp, at_.
    assert (E3 : - f a / (f b - f a) = f a / (f a - f b)) by (field; split; lra).
    rewrite E3. reflexivity.
  Qed.

  Lemma clip_edge_ok a b out acc : firstn (length acc) out = acc ->
    (length acc + length (she r s (a, b)) <= length out)%nat ->
    exists out', clip_edge r U N b (out, zlen acc, a, ins r s a)
        = Ok (out', zlen (acc ++ she r s (a, b)), b, ins r s b)
      /\ firstn (length (acc ++ she r s (a, b))) out' = acc ++ she r s (a, b) /\ length out' = length out.
  Proof.
    intros HA HL. unfold clip_edge. cbn [px py]. rsimp.
    assert (EV : Req_bool (px b - px a) 0 && Req_bool (py b - py a) 0 = negb (neqe (a, b))).
    { destruct (neqe_cases a b) as [(-> & ->)|(Hn & ->)]; cbn [negb].
      - rewrite !Req_bool_true by ring. reflexivity.
      - apply andb_false_iff. destruct (Req_dec (px b - px a) 0) as [E1|E1]; [|left; now apply Req_bool_false].
        destruct (Req_dec (py b - py a) 0) as [E2|E2]; [|right; now apply Req_bool_false].
        exfalso. apply Hn. apply diff_zero. auto. }
    rewrite EV. unfold she in *. cbn [fst snd] in *.
    destruct (neqe_cases a b) as [(-> & En)|(Hn & En)]; rewrite En in *; cbn [negb].
    { rewrite app_nil_r. exists out. auto. }
    rewrite inside_ins.
    destruct (ins r s b) eqn:Ib; destruct (ins r s a) eqn:Ia; cbn [negb length] in *.
    - cbn [bind fst snd]. destruct (push_ok out acc b HA ltac:(lia)) as (o1 & E1 & F1 & L1). rewrite E1. cbn [bind fst snd].
      exists o1. auto.
    - apply ins_iff in Ib. apply ins_false in Ia. rewrite intersection_cut by lra. cbn [bind].
      destruct (push_ok out acc (cutp r s a b) HA ltac:(lia)) as (o1 & E1 & F1 & L1). rewrite E1. cbn [bind fst snd].
      destruct (push_ok o1 (acc ++ [cutp r s a b]) b F1) as (o2 & E2 & F2 & L2); [rewrite L1, app_length; cbn; lia|].
      rewrite E2. cbn [bind fst snd]. exists o2. rewrite <- app_assoc in *. cbn [app] in *. split; auto. split; auto. lia.
    - apply ins_iff in Ia. apply ins_false in Ib. rewrite intersection_cut by lra. cbn [bind].
      destruct (push_ok out acc (cutp r s a b) HA ltac:(lia)) as (o1 & E1 & F1 & L1). rewrite E1. cbn [bind fst snd].
      exists o1. auto.
    - rewrite app_nil_r. exists out. auto.
  Qed.

  Lemma clip_edges_ok subject : forall l j a out acc,
    (forall i, (i < length l)%nat -> nth_error subject (j + i) = nth_error l i) ->
    firstn (length acc) out = acc ->
    (length acc + length (flat_map (she r s) (chain a l)) <= length out)%nat ->
    exists out', for_loop (length l) (Z.of_nat j)
        (fun j st => let* b := aget subject j in clip_edge r U N b st) (out, zlen acc, a, ins r s a)
        = Ok (out', zlen (acc ++ flat_map (she r s) (chain a l)), last l a, ins r s (last l a))
      /\ firstn (length (acc ++ flat_map (she r s) (chain a l))) out' = acc ++ flat_map (she r s) (chain a l)
      /\ length out' = length out.
  Proof.
    induction l as [|b l IH]; intros j a out acc Hs HA HL.
    - cbn. rewrite app_nil_r. exists out. auto.
    - cbn [for_loop chain flat_map length] in *. rewrite app_length in HL.
      pose proof (Hs O ltac:(lia)) as H0. rewrite Nat.add_0_r in H0. cbn in H0. rewrite (aget_nat subject j b H0). cbn [bind].
      destruct (clip_edge_ok a b out acc HA ltac:(lia)) as (o1 & E1 & F1 & L1). rewrite E1. cbn [bind].
      replace (Z.of_nat j + 1)%Z with (Z.of_nat (S j)) by lia.
      destruct (IH (S j) b o1 (acc ++ she r s (a, b))) as (o2 & E2 & F2 & L2); auto.
      + intros i Hi. specialize (Hs (S i) ltac:(lia)). rewrite Nat.add_succ_r in Hs. exact Hs.
      + rewrite app_length. lia.
      + rewrite E2. rewrite last_cons. exists o2. rewrite app_assoc. split; auto. split; auto. lia.
  Qed.

  Lemma copy_firstn {A} (src dst : list A) n : (n <= length src)%nat -> (n <= length dst)%nat ->
    copy src dst (Z.of_nat n) = Ok (firstn n src ++ skipn n dst).
  Proof.
    intros H1 H2. unfold copy, for_range. rewrite Z.sub_0_r, Nat2Z.id.
    assert (G : forall m k (d : list A), (k + m = n)%nat -> length d = length dst -> firstn k d = firstn k src ->
       skipn k d = skipn k dst ->
       for_loop m (Z.of_nat k) (fun i dst => let* v := aget src i in aset dst i v) d = Ok (firstn n src ++ skipn n dst)).
    { induction m as [|m IH]; intros k d E L F Sk0.
      - cbn. replace n with k by lia. rewrite <- F, <- Sk0. now rewrite firstn_skipn.
      - cbn [for_loop]. destruct (nth_error src k) as [v|] eqn:Ev; [|apply nth_error_None in Ev; lia].
        rewrite (aget_nat _ _ _ Ev). cbn [bind]. rewrite aset_nat by lia. cbn [bind].
        replace (Z.of_nat k + 1)%Z with (Z.of_nat (S k)) by lia. apply IH; [lia|now rewrite list_set_length| |].
        + rewrite list_set_firstn by lia. rewrite F. symmetry. clear - Ev. revert k Ev.
          induction src as [|x src IH]; intros [|k] Ev; cbn in *; try discriminate; [congruence|]. f_equal. now apply IH.
        + assert (Sk : forall (l : list A) k v, skipn (S k) (list_set l k v) = skipn (S k) l).
          { induction l as [|x l IH']; intros [|k'] v'; cbn; auto. apply IH'. }
          assert (T : forall (l : list A) k, skipn (S k) l = tl (skipn k l)).
          { induction l as [|x l IH']; intros [|k']; auto. apply (IH' k'). }
          rewrite Sk, !T. now rewrite Sk0. }
    apply (G n 0%nat dst); auto.
  Qed.

  Lemma clip_by_edge_ok subject out Q : Q <> [] -> firstn (length Q) out = Q -> (length Q <= length subject)%nat ->
    (length (sh r s Q) <= length out)%nat ->
    exists subject' out', clip_by_edge r U subject out (zlen Q) = Ok (subject', out', zlen (sh r s Q))
      /\ firstn (length (sh r s Q)) out' = sh r s Q /\ length out' = length out /\ length subject' = length subject.
  Proof.
    intros Hne HQ HL HS. unfold clip_by_edge.
    assert (HO : (length Q <= length out)%nat) by (rewrite <- HQ at 1; rewrite firstn_length; lia).
    unfold zlen. rewrite (copy_firstn out subject (length Q)) by auto. cbn [bind].
    rewrite HQ. set (sub := Q ++ skipn (length Q) subject).
    assert (Hlast : nth_error sub (length Q - 1) = Some (last Q (Pt 0 0))).
    { unfold sub. rewrite nth_error_app1 by (destruct Q; [congruence|cbn; lia]).
      destruct (exists_last Hne) as (l & x & ->). rewrite last_last, app_length. cbn [length].
      rewrite nth_error_app2 by lia. replace (length l + 1 - 1 - length l)%nat with O by lia. reflexivity. }
    assert (Hpos : (0 < length Q)%nat) by (destruct Q; [congruence|cbn; lia]).
    replace (Z.of_nat (length Q) - 1)%Z with (Z.of_nat (length Q - 1)) by lia.
    rewrite (aget_nat _ _ _ Hlast). cbn [bind]. rewrite inside_ins.
    unfold for_range. rewrite Z.sub_0_r, Nat2Z.id.
    destruct (clip_edges_ok sub Q 0 (last Q (Pt 0 0)) out []) as (o & E & F & L).
    - intros i Hi. cbn. unfold sub. now apply nth_error_app1.
    - reflexivity.
    - exact HS.
    - cbn [Z.of_nat] in E. change (zlen (@nil pt)) with 0%Z in E.
      match goal with |- context [for_loop ?n0 ?i0 ?b0 ?st0] => change (for_loop n0 i0 b0 st0) with (for_loop (length Q) 0
        (fun (j : Z) (st : list pt * Z * pt * bool) => let* b := aget sub j in clip_edge r U N b st)
        (out, 0%Z, last Q (Pt 0 0), ins r s (last Q (Pt 0 0)))) end.
      rewrite E. cbn [bind app].
      exists sub, o. split; auto. split; auto. split; auto. unfold sub. rewrite app_length, skipn_length. lia.
  Qed.
End Step.

(** ** The whole clipping loop *)
Lemma in_Q_dd Q w : (exists u v, In (u, v) (poly_edges Q) /\ u <> v) -> In w Q -> In w (dd Q).
Proof.
  (* a vertex that is skipped equals its predecessor; go back to one that is kept *)
  intros (u0 & v0 & He & Hne) Hw.
  assert (G : forall l a, In w l -> In w (map snd (filter neqe (chain a l))) \/ w = a).
  { induction l as [|x l IH]; intros a []; cbn [chain filter].
    - subst x. destruct (neqe_cases a w) as [(-> & En)|(Hn & En)]; rewrite En; [now right|]. left. now left.
    - destruct (neqe_cases a x) as [(<- & En)|(Hn & En)]; rewrite En; [now apply IH|].
      destruct (IH x H) as [K| ->]; left; [now right|now left]. }
  destruct (G Q (last Q (Pt 0 0)) Hw) as [K|E]; [exact K|]. subst w.
  destruct (chain_dd Q (last Q (Pt 0 0))) as (_ & B).
  unfold dd, poly_edges in *. set (m := map snd _) in *.
  assert (Hm : m <> []).
  { intros E. assert (K : In v0 m).
    { apply in_map_iff. exists (u0, v0). split; auto. apply filter_In. split; auto.
      destruct (neqe_cases u0 v0) as [(? & _)|(_ & ?)]; [contradiction|auto]. }
    rewrite E in K. destruct K. }
  destruct Q as [|q Q]; [destruct Hw|]. rewrite !last_cons in *. rewrite <- B. now apply last_in.
Qed.

Lemma dd_nonempty Q : dd Q <> [] -> exists u v, In (u, v) (poly_edges Q) /\ u <> v.
Proof.
  unfold dd. intros H. destruct (filter neqe (poly_edges Q)) as [|(u, v) E] eqn:F; [now cbn in H|].
  assert (K : In (u, v) (filter neqe (poly_edges Q))) by (rewrite F; now left).
  apply filter_In in K as (K & N). exists u, v. split; auto.
  destruct (neqe_cases u v) as [(_ & N')|(? & _)]; [congruence|auto].
Qed.

Lemma dd_area Q : convex_ccw (dd Q) -> polygon_area Q = Ok (shoelace (dd Q)).
Proof.
  intros HC. rewrite shoelace_dd.
  assert (Hne : dd Q <> []) by (destruct HC as (L & _); destruct (dd Q); [cbn in L; lia|discriminate]).
  apply polygon_area_exact; [pose proof (dd_length Q); destruct HC; lia|].
  intros u v w He Hw. destruct (pt_dec u v) as [->|N]; [rewrite orient_11; lra|].
  apply (orient_vertex (dd Q) u v w HC).
  - rewrite dd_edges. apply filter_In. split; auto. destruct (neqe_cases u v) as [(? & _)|(_ & ?)]; [contradiction|auto].
  - apply in_Q_dd; auto. now apply dd_nonempty.
Qed.

Lemma area_of_dd Q (S : pt -> Prop) : convex_ccw (dd Q) -> (forall p, S p <-> in_poly (dd Q) p) -> area_of S (shoelace (dd Q)).
Proof.
  intros HC E. left. exists (dd Q). split; auto. split; auto. intros p. rewrite E. symmetry. now apply in_poly_hull.
Qed.

Lemma clip_loop_ok : forall l r Q subject out,
  convex_ccw (dd Q) -> firstn (length Q) out = Q ->
  (length Q + length l <= length out)%nat -> length subject = length out ->
  (forall u v, In (u, v) (chain r l) -> u <> v) ->
  exists A, clip_loop r l subject out (zlen Q) = Ok A
    /\ area_of (fun p => in_poly (dd Q) p /\ forall u v, In (u, v) (chain r l) -> 0 <= orient u v p) A.
Proof.
  induction l as [|s l IH]; intros r Q subject out HC HQ HL HS HN.
  - cbn [clip_loop chain]. unfold zlen. rewrite Nat2Z.id, HQ. exists (shoelace (dd Q)). split; [now apply dd_area|].
    apply area_of_dd; auto. intros p. split; [tauto|]. intros Hp. split; auto. intros u v [].
  - cbn [clip_loop chain]. pose proof (HN r s (or_introl eq_refl)) as Hrs. rsimp.
    assert (EV : Req_bool (px s - px r) 0 && Req_bool (py s - py r) 0 = false).
    { apply andb_false_iff. destruct (Req_dec (px s - px r) 0) as [E1|E1]; [|left; now apply Req_bool_false].
      destruct (Req_dec (py s - py r) 0) as [E2|E2]; [|right; now apply Req_bool_false].
      exfalso. apply Hrs. apply diff_zero. auto. }
    rewrite EV. cbn [length] in HL.
    pose proof (dd_length Q) as HdL.
    assert (Qne : Q <> []) by (destruct HC as (L & _); destruct Q; [cbn in *; lia|discriminate]).
    destruct (sh_step r s Q HC) as [(E0 & Hout)|(HC2 & HL2 & HR)].
    + destruct (clip_by_edge_ok r s subject out Q Qne HQ ltac:(lia)) as (s1 & o1 & E & _); [rewrite E0; cbn; lia|].
      rewrite E, E0. cbn. exists 0. split; auto. right. split; auto. exists r, s. split; auto.
      intros p (Hp & Hc). pose proof (Hc r s (or_introl eq_refl)) as H1.
      apply in_poly_hull in Hp; auto. destruct Hp as (ws & El & Hpos & Hs & ->).
      rewrite (comb_orient r s ws _ El Hs) in *.
      assert (H2 : 0 <= wsum (fun v => - orient r s v) ws (dd Q)).
      { apply wsum_nonneg; auto. intros v Hv. pose proof (Hout v Hv). lra. }
      assert (Eo : forall ws vs, wsum (fun v => - orient r s v) ws vs = - wsum (orient r s) ws vs).
      { clear. induction ws as [|w ws IH]; intros [|v vs]; unfold wsum; cbn; try lra.
        specialize (IH vs). unfold wsum in IH. cbn in IH. rewrite IH. lra. }
      rewrite Eo in H2. lra.
    + destruct (clip_by_edge_ok r s subject out Q Qne HQ ltac:(lia) ltac:(lia)) as (s1 & o1 & E & F & L1 & L2).
      rewrite E. cbn [bind]. 
      assert (E3 : (zlen (sh r s Q) <? 3)%Z = false) by (unfold zlen; apply Z.ltb_ge; lia). rewrite E3.
      destruct (IH s (sh r s Q) s1 o1) as (A & EA & HA); auto; try lia.
      { intros u v Huv. apply HN. now right. }
      exists A. split; auto. eapply area_of_ext; [|exact HA]. intros p. cbn beta. rewrite HR. split.
      * intros ((H1 & H2) & H3). split; auto. intros u v [Huv|Huv]; [inversion Huv; subst; auto|auto].
      * intros (H1 & H2). split; [split; auto; apply H2; now left|]. intros u v Huv. apply H2. now right.
Qed.

Theorem clip_area_exact g a b : convex_ccw a -> convex_ccw b -> (length a + length b <= 64)%nat ->
  exists A, polygon_polygon_clip_area g a b = Ok A /\ area_of (fun p => hull a p /\ hull b p) A.
Proof.
  intros HA HB HL. unfold polygon_polygon_clip_area, allocate_clip_polygon.
  set (work := np_empty (gpt g) CLIP_MAX_N_VERTEX).
  assert (LW : length work = 64%nat) by (unfold work, np_empty; rewrite map_length, seq_length; reflexivity).
  unfold zlen at 1. rewrite (copy_firstn a work (length a)) by (auto; lia). cbn [bind].
  rewrite firstn_all.
  assert (Hb : b <> []) by (destruct HB as (L & _); destruct b; [cbn in L; lia|discriminate]).
  assert (Hlast : aget b (zlen b - 1)%Z = Ok (last b (Pt 0 0))).
  { destruct (exists_last Hb) as (l & x & E). subst b. rewrite last_last. unfold zlen. rewrite app_length. cbn [length].
    replace (Z.of_nat (length l + 1) - 1)%Z with (Z.of_nat (length l)) by lia. apply aget_nat.
    rewrite nth_error_app2 by lia. now rewrite Nat.sub_diag. }
  rewrite Hlast. cbn [bind].
  assert (Da : dd a = a) by (apply dd_id; [apply HA|destruct HA; lia]).
  destruct (clip_loop_ok b (last b (Pt 0 0)) a work (a ++ skipn (length a) work)) as (A & E & H).
  - now rewrite Da.
  - rewrite firstn_app, Nat.sub_diag, firstn_all. cbn. apply app_nil_r.
  - rewrite app_length, skipn_length. lia.
  - rewrite app_length, skipn_length. lia.
  - intros u v Huv. destruct HB as (L & N & _). apply (edges_neq b u v N); [lia|exact Huv].
  - exists A. split; auto. eapply area_of_ext; [|exact H]. intros p. cbn beta. rewrite Da.
    rewrite <- (in_poly_hull a p HA), <- (in_poly_hull b p HB). reflexivity.
Qed.
