(** How many vertices Sutherland-Hodgman clipping can produce, for any number
    type and any polygons, rounding included: no law of arithmetic is used. *)
From Verif Require Import Base Num MUtils MGeometry MAlgorithms.
From Coq Require Import Lia.

(** n vertices clipped by one edge: at most (3 n + 1) / 2 vertices *)
Fixpoint clip_bound (m : nat) (n : Z) : Z :=
  match m with O => n | S m => clip_bound m ((3 * n + 1) / 2) end.
Lemma clip_bound_mono m : forall n n', n <= n' -> clip_bound m n <= clip_bound m n'.
Proof. induction m as [|m IH]; intros n n' H; cbn [clip_bound]; auto. apply IH. apply Z.div_le_mono; lia. Qed.
Lemma clip_bound_grows m : forall n, 0 <= n -> n <= clip_bound m n.
Proof.
  induction m as [|m IH]; intros n H; cbn [clip_bound]; [lia|].
  assert (n <= (3 * n + 1) / 2) by (apply Z.div_le_lower_bound; lia). specialize (IH ((3 * n + 1) / 2)). lia.
Qed.

Section Clip.
  Context {T : Type} {NT : Num T}.
  Notation point := (point T).

  Lemma push_any (out : list point) n p : 0 <= n < zlen out ->
    exists out', push_point out n p = Ok (out', n + 1) /\ length out' = length out.
  Proof.
    intros H. unfold push_point. rewrite aset_pos by exact H. cbn [bind]. eexists. split; [reflexivity|]. apply list_set_length.
  Qed.

  Lemma intersection_any a V r N : exists x, intersection (T:=T) a V r N = Ok x.
  Proof.
    unfold intersection, ndiv. destruct (neqb (dot_product N V) (nofZ 0)) eqn:E; cbn [negb]; [eauto|]. cbn [bind]. eauto.
  Qed.

  (** twice the number of vertices written after [i] edges, by the state *)
  Definition budget (start now : bool) (i : Z) : Z :=
    3 * i + (if start then (if now then 0 else -1) else (if now then 1 else 0)).

  Lemma clip_edge_any start r U N b out n a ai i : 0 <= n -> 0 <= i -> 2 * n <= budget start ai i ->
    (budget start true (i + 1) < 2 * (zlen out + 1)) ->
    exists out' n' a' ai', clip_edge (T:=T) r U N b (out, n, a, ai) = Ok (out', n', a', ai')
      /\ length out' = length out /\ 0 <= n' /\ 2 * n' <= budget start ai' (i + 1).
  Proof.
    intros H0 Hi HB HL. unfold clip_edge.
    match goal with |- context [if ?c then Ok _ else _] => destruct c end.
    { exists out, n, a, ai. split; auto. split; auto. split; auto. unfold budget in *. destruct start, ai; lia. }
    unfold budget in *.
    set (V := Pt _ _). destruct (inside b r U).
    - destruct ai; cbn [negb bind fst snd].
      + destruct (push_any out n b) as (o & E & L); [destruct start; lia|]. rewrite E. cbn [bind fst snd].
        exists o, (n + 1), b, true. split; auto. split; auto. split; [lia|]. destruct start; lia.
      + destruct (intersection_any a V r N) as (x & ->). cbn [bind]. destruct x as [p|]; cbn [bind].
        * destruct (push_any out n p) as (o & E & L); [destruct start; lia|]. rewrite E. cbn [bind fst snd].
          destruct (push_any o (n + 1) b) as (o2 & E2 & L2); [unfold zlen in *; rewrite L; destruct start; lia|]. rewrite E2. cbn [bind fst snd].
          exists o2, (n + 1 + 1), b, true. split; auto. split; [lia|]. split; [lia|]. destruct start; lia.
        * cbn [fst snd]. destruct (push_any out n b) as (o & E & L); [destruct start; lia|]. rewrite E. cbn [bind fst snd].
          exists o, (n + 1), b, true. split; auto. split; auto. split; [lia|]. destruct start; lia.
    - destruct ai.
      + destruct (intersection_any a V r N) as (x & ->). cbn [bind]. destruct x as [p|].
        * destruct (push_any out n p) as (o & E & L); [destruct start; lia|]. rewrite E. cbn [bind fst snd].
          exists o, (n + 1), b, false. split; auto. split; auto. split; [lia|]. destruct start; lia.
        * destruct (push_any out n b) as (o & E & L); [destruct start; lia|]. rewrite E. cbn [bind fst snd].
          exists o, (n + 1), b, true. split; auto. split; auto. split; [lia|]. destruct start; lia.
      + exists out, n, b, false. split; auto. split; auto. split; [lia|]. destruct start; lia.
  Qed.

  Lemma clip_edges_any start r U N subject m : forall i out n a ai,
    (forall j, i <= j < i + Z.of_nat m -> exists b, aget subject j = Ok b) ->
    0 <= n -> 0 <= i -> 2 * n <= budget start ai i ->
    budget start true (i + Z.of_nat m) < 2 * (zlen out + 1) ->
    exists out' n' a' ai', for_loop m i (fun j st => let* b := aget subject j in clip_edge (T:=T) r U N b st) (out, n, a, ai)
      = Ok (out', n', a', ai')
      /\ length out' = length out /\ 0 <= n' /\ 2 * n' <= budget start ai' (i + Z.of_nat m).
  Proof.
    induction m as [|m IH]; intros i out n a ai HS H0 Hi HB HL.
    - cbn [for_loop]. exists out, n, a, ai. replace (i + Z.of_nat 0) with i by lia. auto.
    - cbn [for_loop]. destruct (HS i ltac:(lia)) as (b & ->). cbn [bind].
      destruct (clip_edge_any start r U N b out n a ai i H0 Hi HB) as (o & n1 & a1 & ai1 & E & L & P & B); [unfold budget in *; destruct start; lia|].
      rewrite E. cbn [bind].
      destruct (IH (i + 1) o n1 a1 ai1) as (o2 & n2 & a2 & ai2 & E2 & L2 & P2 & B2); auto; try lia.
      + intros j Hj. apply HS. lia.
      + replace (i + 1 + Z.of_nat m) with (i + Z.of_nat (S m)) by lia. unfold zlen in *. rewrite L. exact HL.
      + exists o2, n2, a2, ai2. split; auto. split; [lia|]. split; auto.
        replace (i + Z.of_nat (S m)) with (i + 1 + Z.of_nat m) by lia. exact B2.
  Qed.

  Lemma copy_any {A} (src dst : list A) n : n <= zlen src -> n <= zlen dst ->
    exists out, copy src dst n = Ok out /\ length out = length dst.
  Proof.
    intros H1 H2. unfold copy, for_range. replace (n - 0) with n by lia.
    assert (G : forall m (dst : list A) i, 0 <= i -> i + Z.of_nat m <= zlen src -> i + Z.of_nat m <= zlen dst ->
      exists out, for_loop m i (fun i dst => let* v := aget src i in aset dst i v) dst = Ok out /\ length out = length dst).
    { clear H1 H2 dst. induction m as [|m IH]; intros dst i Hi H1 H2; cbn [for_loop]; [eauto|].
      destruct (aget_ok_pos src i ltac:(lia)) as (v & -> & _). cbn [bind]. rewrite aset_pos by lia. cbn [bind].
      destruct (IH (list_set dst (Z.to_nat i) v) (i + 1)) as (out & E & L); try lia.
      { unfold zlen in *. rewrite list_set_length. lia. }
      exists out. split; [exact E|]. now rewrite L, list_set_length. }
    destruct (Z_le_gt_dec 0 n) as [Hn|Hn]; [apply G; lia|]. replace (Z.to_nat n) with O by lia. cbn. eauto.
  Qed.

  Lemma clip_by_edge_any r U subject out n : 1 <= n -> (3 * n + 1) / 2 <= zlen out -> length subject = length out ->
    exists subject' out' n', clip_by_edge (T:=T) r U subject out n = Ok (subject', out', n')
      /\ length subject' = length out /\ length out' = length out /\ 0 <= n' <= (3 * n + 1) / 2.
  Proof.
    intros Hn HB HL. assert (Hle : n <= zlen out) by (assert (n <= (3 * n + 1) / 2) by (apply Z.div_le_lower_bound; lia); lia).
    unfold clip_by_edge. destruct (copy_any out subject n) as (sub & E & L); [lia|unfold zlen in *; lia|]. rewrite E. cbn [bind].
    assert (Ls : zlen sub = zlen out) by (unfold zlen; lia).
    destruct (aget_ok_pos sub (n - 1) ltac:(lia)) as (a & -> & _). cbn [bind].
    unfold for_range. rewrite Z.sub_0_r.
    destruct (clip_edges_any (inside a r U) r U (Pt (nopp (py U)) (px U)) sub (Z.to_nat n) 0 out 0 a (inside a r U)) as (o & n' & a' & ai' & E2 & L2 & P & B).
    - intros j Hj. destruct (aget_ok_pos sub j ltac:(lia)) as (b & Eb & _). eauto.
    - lia.
    - lia.
    - unfold budget. destruct (inside a r U); lia.
    - rewrite Z2Nat.id by lia. unfold budget. pose proof (Z.div_mod (3 * n + 1) 2 ltac:(lia)) as D.
      pose proof (Z.mod_pos_bound (3 * n + 1) 2 ltac:(lia)). destruct (inside a r U); lia.
    - rewrite E2. cbn [bind]. exists sub, o, n'. split; auto. split; [lia|]. split; auto. split; auto.
      apply Z.div_le_lower_bound; [lia|]. rewrite Z2Nat.id in B by lia. unfold budget in B. destruct (inside a r U), ai'; lia.
  Qed.

  Lemma clip_loop_any : forall l r subject out n, 3 <= n -> clip_bound (length l) n <= zlen out ->
    length subject = length out -> exists A, clip_loop (T:=T) r l subject out n = Ok A.
  Proof.
    induction l as [|s l IH]; intros r subject out n Hn HB HL; cbn [clip_loop].
    - cbn in HB. assert (Lf : (2 <= length (firstn (Z.to_nat n) out))%nat) by (rewrite firstn_length; unfold zlen in HB; lia).
      destruct (firstn (Z.to_nat n) out) as [|x [|y q]]; cbn in Lf; try lia. cbn. eauto.
    - cbn [length clip_bound] in HB.
      assert (Hg : n <= (3 * n + 1) / 2) by (apply Z.div_le_lower_bound; lia).
      match goal with |- context [if ?c then clip_loop _ _ _ _ _ else _] => destruct c end.
      + apply IH; auto. pose proof (clip_bound_mono (length l) _ _ Hg). lia.
      + destruct (clip_by_edge_any r (Pt (nsub (px s) (px r)) (nsub (py s) (py r))) subject out n) as (sub & o & n' & E & L1 & L2 & P); [lia| |auto|].
        { pose proof (clip_bound_grows (length l) ((3 * n + 1) / 2) ltac:(lia)). lia. }
        rewrite E. cbn [bind]. destruct (Z.ltb_spec n' 3) as [Hl|Hl]; [eauto|]. apply IH; [lia| |lia].
        pose proof (clip_bound_mono (length l) n' ((3 * n + 1) / 2) ltac:(lia)). unfold zlen in *. rewrite L2. lia.
  Qed.

  (** clipping succeeds whenever the bound fits the work arrays *)
  Lemma clip_area_any g (a b : list point) : (3 <= length a)%nat -> (1 <= length b)%nat ->
    clip_bound (length b) (zlen a) <= 64 -> exists A, polygon_polygon_clip_area g a b = Ok A.
  Proof.
    intros Ha Hb HB. unfold polygon_polygon_clip_area.
    assert (W : zlen (allocate_clip_polygon g) = 64) by (unfold allocate_clip_polygon, np_empty, zlen; rewrite map_length, seq_length; reflexivity).
    pose proof (clip_bound_grows (length b) (zlen a) ltac:(unfold zlen; lia)).
    destruct (copy_any a (allocate_clip_polygon g) (zlen a)) as (out & E & L); [lia|lia|]. rewrite E. cbn [bind].
    destruct (aget_ok_pos b (zlen b - 1)) as (r & -> & _); [unfold zlen; lia|]. cbn [bind].
    apply clip_loop_any; [unfold zlen; lia| |lia]. unfold zlen in *. lia.
  Qed.
End Clip.
