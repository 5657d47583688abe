(** Intervals that do not overlap, and the pieces of a segment in the faces of a mesh. *)
From Verif Require Import RBase SpecGeom SpecPoly GConvex GHull GFaces.
Open Scope R_scope.

(** ** numbered intervals *)
Definition interval : Type := Z * (R * R).
Definition lo (I : interval) : R := fst (snd I).
Definition hi (I : interval) : R := snd (snd I).
Definition apart (I J : interval) : Prop := hi I <= lo J \/ hi J <= lo I.
Definition widths (L : list interval) : R := sumR (map (fun I => hi I - lo I) L).

(** the first interval *)
Lemma first_interval : forall (L : list interval), L <> [] ->
  exists I l1 l2, L = l1 ++ I :: l2 /\ forall J, In J L -> lo I <= lo J.
Proof.
  induction L as [|I L IH]; [congruence|]. intros _. destruct L as [|J L].
  - exists I, [], []. split; auto. intros J [->|[]]; lra.
  - destruct IH as (M & l1 & l2 & E & HM); [discriminate|].
    destruct (Rle_or_lt (lo I) (lo M)) as [H|H].
    + exists I, [], (J :: L). split; auto. intros K [->|HK]; [lra|]. specialize (HM K HK). lra.
    + exists M, (I :: l1), l2. rewrite E. split; auto. intros K [->|HK]; [lra|]. apply HM. now rewrite E.
Qed.

Lemma widths_app l1 I l2 : widths (l1 ++ I :: l2) = (hi I - lo I) + widths (l1 ++ l2).
Proof.
  unfold widths. rewrite !map_app. cbn [map]. induction (map (fun I => hi I - lo I) l1) as [|x l IH]; cbn [app sumR]; [auto|].
  rewrite IH. ring.
Qed.

Section Within.
  Definition packed (x y : R) (L : list interval) : Prop :=
    NoDup (map fst L) /\ (forall I, In I L -> x <= lo I /\ lo I < hi I /\ hi I <= y)
    /\ forall I J, In I L -> In J L -> fst I <> fst J -> apart I J.
  (** every part has a point in one of the intervals *)
  Definition covered (x y : R) (L : list interval) : Prop :=
    forall s t, x <= s -> s < t -> t <= y -> exists u I, s < u < t /\ In I L /\ lo I <= u <= hi I.

  Lemma packed_rest x y l1 I l2 : packed x y (l1 ++ I :: l2) -> (forall J, In J (l1 ++ I :: l2) -> lo I <= lo J) ->
    packed (hi I) y (l1 ++ l2).
  Proof.
    intros (ND & HB & HP) HM. rewrite map_app in ND. cbn [map] in ND. pose proof (NoDup_remove _ _ _ ND) as (ND' & NI).
    assert (Hin : forall J, In J (l1 ++ l2) -> In J (l1 ++ I :: l2)) by (intros J H; apply in_app_iff in H as [H|H]; apply in_app_iff; [left|right; right]; auto).
    assert (II : In I (l1 ++ I :: l2)) by (apply in_elt).
    assert (Hne : forall J, In J (l1 ++ l2) -> fst I <> fst J).
    { intros J HJ E. apply NI. rewrite <- map_app. apply in_map_iff. exists J. auto. }
    split; [now rewrite map_app|]. split.
    - intros J HJ. destruct (HB J (Hin J HJ)) as (A & B & C). destruct (HB I II) as (A' & B' & C').
      pose proof (HM J (Hin J HJ)). destruct (HP I J II (Hin J HJ) (Hne J HJ)); lra.
    - intros J K HJ HK. apply HP; auto.
  Qed.

  Theorem packed_widths : forall L x y, x <= y -> packed x y L -> widths L <= y - x.
  Proof.
    intros L. remember (length L) as n eqn:En. revert L En. induction n as [|n IH]; intros L En x y Hxy HL.
    - destruct L; [|discriminate]. unfold widths. cbn. lra.
    - destruct (first_interval L) as (I & l1 & l2 & -> & HM); [intros ->; discriminate|].
      pose proof HL as (_ & HB & _). destruct (HB I ltac:(apply in_elt)) as (A & B & C).
      rewrite widths_app. pose proof (packed_rest _ _ _ _ _ HL HM) as HR.
      rewrite app_length in En. cbn [length] in En.
      specialize (IH (l1 ++ l2) ltac:(rewrite app_length; lia) (hi I) y C HR). lra.
  Qed.

  Theorem covered_widths : forall L x y, x < y -> packed x y L -> covered x y L -> widths L = y - x.
  Proof.
    intros L. remember (length L) as n eqn:En. revert L En. induction n as [|n IH]; intros L En x y Hxy HL HC.
    - destruct L; [|discriminate]. destruct (HC x y ltac:(lra) Hxy ltac:(lra)) as (? & ? & _ & [] & _).
    - destruct (first_interval L) as (I & l1 & l2 & -> & HM); [intros ->; discriminate|].
      pose proof HL as (_ & HB & _). destruct (HB I ltac:(apply in_elt)) as (A & B & C).
      assert (Elo : lo I = x).
      { destruct (Rle_lt_or_eq_dec _ _ A) as [A'|]; auto.
        destruct (HC x (lo I) ltac:(lra) A' ltac:(lra)) as (u & J & Hu & HJ & HJu). pose proof (HM J HJ). lra. }
      rewrite widths_app. pose proof (packed_rest _ _ _ _ _ HL HM) as HR.
      rewrite app_length in En. cbn [length] in En.
      destruct (Req_dec (hi I) y) as [E|E].
      + destruct HR as (_ & HB2 & _). destruct (l1 ++ l2) as [|J l] eqn:El.
        * unfold widths. cbn. lra.
        * destruct (HB2 J ltac:(now left)). lra.
      + assert (HCR : covered (hi I) y (l1 ++ l2)).
        { intros s t Hs Hst Ht. destruct (HC s t ltac:(lra) Hst Ht) as (u & J & Hu & HJ & HJu). exists u, J. split; auto. split; auto.
          apply in_app_iff in HJ as [H|[<-|H]]; [|lra|]; apply in_app_iff; auto. }
        specialize (IH (l1 ++ l2) ltac:(rewrite app_length; lia) (hi I) y ltac:(lra) HR HCR). lra.
  Qed.
End Within.

(** ** finitely many convex sets that cover a segment *)
Lemma repeated : forall l : list Z, ~ NoDup l -> exists i j z, (i < j)%nat /\ nth_error l i = Some z /\ nth_error l j = Some z.
Proof.
  induction l as [|z l IH]; intros H; [destruct H; constructor|].
  destruct (in_dec Z.eq_dec z l) as [Hi|Hn].
  - apply In_nth_error in Hi as (j & Ej). exists O, (S j), z. split; [lia|]. auto.
  - destruct IH as (i & j & w & A & B & C).
    + intros N. apply H. now constructor.
    + exists (S i), (S j), w. split; [lia|]. auto.
Qed.

Lemma two_in_one (C : Z -> R -> Prop) (n : nat) s t : s < t ->
  (forall u, s < u < t -> exists j, (0 <= j < Z.of_nat n)%Z /\ C j u) ->
  exists j u w, s < u < t /\ s < w < t /\ u <> w /\ C j u /\ C j w.
Proof.
  intros Hst H.
  set (h := (t - s) / IZR (Z.of_nat n + 2)). set (u := fun k : nat => s + IZR (Z.of_nat k + 1) * h).
  assert (P2 : 0 < IZR (Z.of_nat n + 2)) by (apply IZR_lt; lia).
  assert (Ph : 0 < h) by (unfold h; apply Rdiv_lt_0_compat; lra).
  assert (Eh : IZR (Z.of_nat n + 2) * h = t - s) by (unfold h; field; lra).
  assert (Hu : forall k, (k <= n)%nat -> s < u k < t).
  { intros k Hk. unfold u.
    assert (0 < IZR (Z.of_nat k + 1)) by (apply IZR_lt; lia).
    assert (IZR (Z.of_nat k + 1) < IZR (Z.of_nat n + 2)) by (apply IZR_lt; lia).
    pose proof (Rmult_lt_0_compat _ _ H0 Ph). pose proof (Rmult_lt_compat_r h _ _ Ph H1). lra. }
  assert (HJ : forall m, (m <= S n)%nat -> exists js, length js = m /\ (forall k j, nth_error js k = Some j -> (0 <= j < Z.of_nat n)%Z /\ C j (u k))).
  { induction m as [|m IH]; intros Hm.
    - exists []. split; auto. intros [|k] j E; discriminate.
    - destruct IH as (js & El & Hjs); [lia|]. destruct (H (u m) (Hu m ltac:(lia))) as (j & Hj & Cj).
      exists (js ++ [j]). split; [rewrite app_length; cbn; lia|]. intros k j' E.
      destruct (Nat.lt_ge_cases k (length js)) as [Hk|Hk].
      + rewrite nth_error_app1 in E by auto. auto.
      + rewrite nth_error_app2 in E by auto. destruct (k - length js)%nat as [|k'] eqn:Ek.
        * cbn in E. injection E as <-. replace k with m by lia. auto.
        * cbn in E. destruct k'; discriminate. }
  destruct (HJ (S n) (le_n _)) as (js & El & Hjs).
  destruct (repeated js) as (i & j & z & Hij & Ei & Ej).
  - intros ND. assert (L : (length js <= length (map Z.of_nat (seq 0 n)))%nat).
    { apply NoDup_incl_length; auto. intros z Hz. apply In_nth_error in Hz as (k & Ek). apply Hjs in Ek as (Hz & _).
      apply in_map_iff. exists (Z.to_nat z). split; [lia|]. apply in_seq. lia. }
    rewrite map_length, seq_length in L. lia.
  - assert (j < length js)%nat by (apply nth_error_Some; congruence).
    exists z, (u i), (u j). split; [apply Hu; lia|]. split; [apply Hu; lia|]. split; [|split; [now apply (Hjs i)|now apply (Hjs j)]].
    unfold u. intros E. assert (IZR (Z.of_nat i + 1) < IZR (Z.of_nat j + 1)) by (apply IZR_lt; lia).
    pose proof (Rmult_lt_compat_r h _ _ Ph H1). lra.
Qed.

(** ** segments and convex polygons *)
Lemma orient_at u v a b t : orient u v (at_ a b t) = (1 - t) * orient u v a + t * orient u v b.
Proof. unfold orient, at_. cbn [px py]. ring. Qed.

Lemma at_at a b s t w : at_ (at_ a b s) (at_ a b t) w = at_ a b (s + w * (t - s)).
Proof. unfold at_. cbn [px py]. f_equal; ring. Qed.

Lemma on_segment_swap u v x : on_segment u v x -> on_segment v u x.
Proof. intros (t & Ht & ->). exists (1 - t). split; [lra|]. unfold at_. cbn [px py]. f_equal; ring. Qed.

(** the segment a-b runs along the segment u-v: more than one common point *)
Definition runs_along (a b u v : pt) : Prop :=
  exists x y, x <> y /\ on_segment a b x /\ on_segment a b y /\ on_segment u v x /\ on_segment u v y.

(** a piece of the segment in the polygon and along no side of it has its middle in the interior *)
Lemma middle_interior poly a b s t : convex poly -> a <> b ->
  (forall u v, In (u, v) (poly_edges poly) -> ~ runs_along a b u v) ->
  0 <= s -> s < t -> t <= 1 -> hull poly (at_ a b s) -> hull poly (at_ a b t) -> open_hull poly (at_ a b ((s + t) / 2)).
Proof.
  intros HC Hab HS H0 Hst H1 Hs Ht.
  assert (Hne : at_ a b s <> at_ a b t).
  { intros E. apply Hab. unfold at_ in E. injection E as Ex Ey.
    assert (X : (t - s) * (px b - px a) = 0) by lra. assert (Y : (t - s) * (py b - py a) = 0) by lra.
    apply Rmult_integral in X as [X|X]; [lra|]. apply Rmult_integral in Y as [Y|Y]; [lra|]. apply pt_eq; lra. }
  assert (G : forall P, convex_ccw P -> (forall u v, In (u, v) (poly_edges P) -> ~ runs_along a b u v) ->
     hull P (at_ a b s) -> hull P (at_ a b t) -> open_hull P (at_ a b ((s + t) / 2))).
  { clear - H0 Hst H1 Hne. intros P HC HS Hs Ht. apply interior_open_hull; auto. apply in_poly_hull in Hs, Ht; auto.
    intros u v Huv. specialize (HS u v Huv). pose proof (Hs u v Huv) as Qs. pose proof (Ht u v Huv) as Qt.
    rewrite orient_at in *. set (A := orient u v a) in *. set (B := orient u v b) in *.
    destruct (Rle_lt_dec ((1 - (s + t) / 2) * A + (s + t) / 2 * B) 0) as [H|]; auto. exfalso. apply HS.
    assert (Es : (1 - s) * A + s * B = 0) by lra. assert (Et : (1 - t) * A + t * B = 0) by lra.
    exists (at_ a b s), (at_ a b t). split; auto. split; [exists s; split; auto; lra|]. split; [exists t; split; auto; lra|].
    split; apply (on_side P); auto; rewrite orient_at; auto. }
  destruct HC as [HC|HC]; [now apply G|]. apply open_hull_rev. apply hull_rev in Hs, Ht. apply G; auto.
  intros u v Huv. apply edges_rev_in in Huv. specialize (HS v u Huv).
  intros (x & y & A & B & C & D & E). apply HS. exists x, y. auto 7 using on_segment_swap.
Qed.
