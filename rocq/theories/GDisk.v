(** demo.py:generate_disk: the vertices are the centre and [depth] rings. *)
From Coq Require Import Reals Lra Psatz.
From Verif Require Import Base MUtils RBase MDemo MDisk PDemo.
Open Scope R_scope.

(** vertex [j] of ring [k]: k * partitions vertices, evenly spaced on the circle
    of radius k / depth, the first one straight above the centre *)
Definition ring_point (partitions depth k j : Z) : pt :=
  let angle := / 2 * PI + 2 * PI * IZR j / IZR (partitions * k) in
  Pt (cos angle * (IZR k / IZR depth)) (sin angle * (IZR k / IZR depth)).
Definition ring (partitions depth k : Z) : list pt := map (ring_point partitions depth k) (iota (Z.to_nat (partitions * k))).
Definition disk (partitions depth : Z) : list pt := Pt 0 0 :: concat (map (ring partitions depth) (map (fun k => (k + 1)%Z) (iota (Z.to_nat depth)))).

(** ** the array computations, block by block *)
Fixpoint starts (s : Z) (ns : list Z) : list Z := match ns with [] => [] | n :: t => s :: starts (s + n) t end.
Lemma starts_ok ns : forall s, ns <> [] -> s :: removelast (cumsumZ s ns) = starts s ns.
Proof.
  induction ns as [|n ns IH]; intros s H; [congruence|]. destruct ns as [|n' ns]; [reflexivity|].
  change (starts s (n :: n' :: ns)) with (s :: starts (s + n) (n' :: ns)). f_equal. rewrite <- IH by discriminate. reflexivity.
Qed.

Lemma cumsum_app c a b : cumsumR c (a ++ b) = cumsumR c a ++ cumsumR (last (cumsumR c a) c) b.
Proof.
  revert c. induction a as [|x a IH]; intros c; auto. cbn [app cumsumR]. cbn [app]. f_equal. rewrite IH. f_equal. f_equal.
  destruct (cumsumR (c + x) a) as [|z l]; auto. cbn [last].
  assert (G : forall (l : list R) d d' z, last (z :: l) d = last (z :: l) d').
  { induction l0 as [|w l0 IHl]; intros; auto. exact (IHl d d' w). }
  exact (G l (c + x) c z).
Qed.
Lemma cumsum_repeat c d n : cumsumR c (repeat d n) = map (fun j => c + INR (S j) * d) (seq 0 n).
Proof.
  revert c. induction n as [|n IH]; intros c; auto. cbn [repeat cumsumR seq map]. f_equal; [simpl; lra|]. rewrite IH.
  rewrite <- seq_shift, map_map. apply map_ext. intros j. rewrite (S_INR (S j)). lra.
Qed.

Lemma mapres_app {A B} (f : A -> res B) a b ra rb : mapres f a = Ok ra -> mapres f b = Ok rb -> mapres f (a ++ b) = Ok (ra ++ rb).
Proof.
  revert ra. induction a as [|x a IH]; intros ra E F; cbn in *; [inversion E; auto|].
  destruct (f x) as [y|]; [|discriminate]. cbn in *. destruct (mapres f a) as [ys|]; [|discriminate]. cbn in *. inversion E.
  rewrite (IH ys); auto.
Qed.
Lemma mapres_repeat {A B} (f : A -> res B) x y n : f x = Ok y -> mapres f (repeat x n) = Ok (repeat y n).
Proof. intros H. induction n; cbn; auto. rewrite H, IHn. reflexivity. Qed.

Lemma map_repeat_np {A B} (f : A -> B) vs cs : map f (np_repeat vs cs) = np_repeat (map f vs) cs.
Proof. revert cs. induction vs as [|v vs IH]; intros [|c cs]; cbn; auto. rewrite map_app, IH. f_equal. induction c; cbn; auto. now f_equal. Qed.

Lemma combine_repeat_r {A B} (l : list A) (y : B) n : length l = n -> combine l (repeat y n) = map (fun x => (x, y)) l.
Proof. revert n. induction l as [|x l IH]; intros [|n] H; try discriminate; auto. cbn. f_equal. apply IH. auto. Qed.

Lemma blocks (f : Z -> R) ns : Forall (fun n => (1 <= n)%Z) ns -> forall pre c,
  exists firsts, mapres (aget (pre ++ cumsumR c (np_repeat (map f ns) (map Z.to_nat ns)))) (np_repeat (starts (zlen pre) ns) (map Z.to_nat ns)) = Ok firsts
   /\ map (fun ab => fst ab - snd ab + / 2 * PI) (combine (cumsumR c (np_repeat (map f ns) (map Z.to_nat ns))) firsts)
      = concat (map (fun n => map (fun j => / 2 * PI + IZR j * f n) (iota (Z.to_nat n))) ns).
Proof.
  induction 1 as [|n ns Hn H IH]; intros pre c; [exists []; auto|].
  cbn [map np_repeat starts]. set (d := f n). set (K := Z.to_nat n). assert (HK : (1 <= K)%nat) by (unfold K; lia).
  rewrite cumsum_app. set (B := cumsumR c (repeat d K)). set (c' := last B c).
  assert (LB : length B = K) by (unfold B; rewrite cumsum_repeat, map_length, seq_length; auto).
  destruct (IH (pre ++ B) c') as (firsts & E & D).
  assert (EL : zlen (pre ++ B) = (zlen pre + n)%Z) by (unfold zlen; rewrite app_length, LB; unfold K; lia). rewrite EL in E.
  exists (repeat (c + d) K ++ firsts). split.
  - apply mapres_app; [|rewrite <- app_assoc in E; exact E]. apply mapres_repeat.
    apply aget_nat. rewrite nth_error_app2, Nat.sub_diag by lia. unfold B. destruct K as [|K]; [lia|]. reflexivity.
  - rewrite combine_app by (now rewrite repeat_length). rewrite map_app, D. cbn [concat]. f_equal.
    rewrite (combine_repeat_r B (c + d) K LB), map_map. unfold B. rewrite cumsum_repeat, map_map. unfold iota. rewrite map_map. fold K.
    apply map_ext. intros j. cbn [fst snd]. fold d. rewrite <- INR_IZR_INZ, S_INR. lra.
Qed.

Lemma combine_blocks {A B C} (f : A -> list B) (g : A -> C) ns : 
  combine (concat (map f ns)) (np_repeat (map g ns) (map (fun n => length (f n)) ns)) = concat (map (fun n => map (fun x => (x, g n)) (f n)) ns).
Proof.
  induction ns as [|n ns IH]; auto. cbn. rewrite combine_app by (now rewrite repeat_length). rewrite IH. f_equal. now apply combine_repeat_r.
Qed.

Lemma np_repeat_cons {A} (v : A) vs c cs : np_repeat (v :: vs) (c :: cs) = repeat v c ++ np_repeat vs cs.
Proof. reflexivity. Qed.
Lemma combine_cons {A B} (x : A) (y : B) l l' : combine (x :: l) (y :: l') = (x, y) :: combine l l'.
Proof. reflexivity. Qed.

Theorem disk_vertices_ok partitions depth : (3 <= partitions)%Z -> (0 <= depth)%Z -> disk_vertices partitions depth = Ok (disk partitions depth).
Proof.
  intros HP HD. unfold disk_vertices. destruct (partitions <? 3)%Z eqn:E; [lia|]. clear E.
  replace (Z.to_nat (depth + 1)) with (S (Z.to_nat depth)) by lia. unfold iota at 1. cbn [seq map]. 
  unfold aset. rewrite norm_idx_pos by (cbn; lia). cbn [bind Z.to_nat list_set]. rewrite <- seq_shift, !map_map.
  set (lv := map (fun x => (partitions * Z.of_nat (S x))%Z) (seq 0 (Z.to_nat depth))).
  assert (HL : Forall (fun n => (1 <= n)%Z) (1%Z :: lv)).
  { constructor; [lia|]. unfold lv. apply Forall_map, Forall_forall. intros. nia. }
  rewrite starts_ok by discriminate. rewrite map_repeat_np.
  destruct (blocks (fun n => 2 * PI / IZR n) (1%Z :: lv) HL [] 0) as (firsts & E1 & E2). cbn [app] in E1. change (zlen []) with 0%Z in E1.
  rewrite E1. cbn [bind]. rewrite E2. f_equal.
  unfold disk.
  assert (ER : linspace01 (depth + 1) = 0 :: map (fun k => IZR k / IZR depth) (map (fun k => (k + 1)%Z) (iota (Z.to_nat depth)))).
  { unfold linspace01. destruct (depth + 1 =? 1)%Z eqn:E0.
    - replace depth with 0%Z by lia. reflexivity.
    - replace (Z.to_nat (depth + 1)) with (S (Z.to_nat depth)) by lia. unfold iota. cbn [seq map]. rewrite <- seq_shift, !map_map.
      replace (depth + 1 - 1)%Z with depth by lia. apply (f_equal2 cons); [unfold Rdiv; change (IZR (Z.of_nat 0)) with 0; rewrite Rmult_0_l; auto|]. apply map_ext. intros j. f_equal. f_equal. lia. }
  rewrite ER, !map_cons, np_repeat_cons, concat_cons. change (Z.to_nat 1) with 1%nat. change (iota 1) with [0%Z].
  cbn [repeat]. rewrite !map_cons. change (map ?f (@nil ?A)) with (@nil R). rewrite <- !app_comm_cons, !app_nil_l, combine_cons, map_cons. cbn [fst snd]. apply (f_equal2 cons); [now rewrite !Rmult_0_r|].
  assert (EL : lv = map (fun k => (partitions * k)%Z) (map (fun k => (k + 1)%Z) (iota (Z.to_nat depth)))).
  { unfold lv, iota. rewrite !map_map. apply map_ext. intros. lia. }
  rewrite EL. set (ks := map (fun k => (k + 1)%Z) (iota (Z.to_nat depth))). rewrite !map_map.
  set (F := fun k => map (fun j => / 2 * PI + IZR j * (2 * PI / IZR (partitions * k))) (iota (Z.to_nat (partitions * k)))).
  replace (map (fun x => Z.to_nat (partitions * x)) ks) with (map (fun k => length (F k)) ks).
  2:{ apply map_ext. intros k. unfold F. unfold iota. now rewrite !map_length, seq_length. }
  rewrite (combine_blocks F (fun k => IZR k / IZR depth) ks), concat_map, map_map. f_equal. apply map_ext. intros k.
  unfold F, ring. rewrite !map_map. apply map_ext. intros j. unfold ring_point. cbn [fst snd].
  replace (/ 2 * PI + IZR j * (2 * PI / IZR (partitions * k))) with (/ 2 * PI + 2 * PI * IZR j / IZR (partitions * k)); [reflexivity|unfold Rdiv; ring].
Qed.

(** ** geometry *)
Lemma angle_inj a b : cos a = cos b -> sin a = sin b -> - (2 * PI) < a - b < 2 * PI -> a = b.
Proof.
  intros Hc Hs H. assert (S0 : sin (a - b) = 0) by (rewrite sin_minus, Hc, Hs; ring).
  assert (C1 : cos (a - b) = 1) by (rewrite cos_minus, Hc, Hs; pose proof (sin2_cos2 b); unfold Rsqr in *; lra).
  destruct (sin_eq_0_0 _ S0) as (k & Ek). pose proof PI_RGT_0. 
  assert (K : (-2 < k < 2)%Z) by (split; apply lt_IZR; simpl; nra).
  assert (D : (k = 0 \/ k = 1 \/ k = -1)%Z) by lia. destruct D as [->|[->| ->]].
  - lra.
  - rewrite Ek, Rmult_1_l, cos_PI in C1. lra.
  - rewrite Ek in C1. replace (-1 * PI) with (- PI) in C1 by ring. rewrite cos_neg, cos_PI in C1. lra.
Qed.

Definition norm2 (p : pt) : R := px p * px p + py p * py p.
Lemma ring_norm partitions depth k j : norm2 (ring_point partitions depth k j) = (IZR k / IZR depth) * (IZR k / IZR depth).
Proof.
  unfold norm2, ring_point. cbn [px py]. set (a := / 2 * PI + _). pose proof (sin2_cos2 a) as H. unfold Rsqr in H.
  set (r := IZR k / IZR depth). replace (cos a * r * (cos a * r) + sin a * r * (sin a * r)) with ((sin a * sin a + cos a * cos a) * (r * r)) by ring.
  rewrite H. ring.
Qed.

Lemma iota_in n k : In k (iota n) <-> (0 <= k < Z.of_nat n)%Z.
Proof.
  unfold iota. rewrite in_map_iff. split.
  - intros (x & <- & H). apply in_seq in H. lia.
  - intros H. exists (Z.to_nat k). split; [lia|]. apply in_seq. lia.
Qed.
Lemma iota_nodup n : NoDup (iota n).
Proof. unfold iota. apply FinFun.Injective_map_NoDup; [intros x y; lia|apply seq_NoDup]. Qed.

Lemma nodup_map_in {A B} (f : A -> B) l : NoDup l -> (forall x y, In x l -> In y l -> f x = f y -> x = y) -> NoDup (map f l).
Proof.
  induction 1 as [|x l Hx H IH]; intros Hf; cbn; constructor.
  - intros Hi. apply in_map_iff in Hi as (y & E & Hy). assert (y = x) by (apply Hf; auto; [now right|now left]). subst. auto.
  - apply IH. intros. apply Hf; auto; now right.
Qed.
Lemma nodup_concat {A B} (f : A -> list B) l : NoDup l -> (forall x, In x l -> NoDup (f x)) ->
  (forall x y z, In x l -> In y l -> In z (f x) -> In z (f y) -> x = y) -> NoDup (concat (map f l)).
Proof.
  induction 1 as [|x l Hx H IH]; intros H1 H2; cbn; [constructor|].
  assert (G : NoDup (concat (map f l))) by (apply IH; [intros; apply H1; now right|intros ? ? z ? ?; apply (H2 _ _ z); now right]).
  assert (Nx : NoDup (f x)) by (apply H1; now left).
  assert (D : forall z, In z (f x) -> ~ In z (concat (map f l))).
  { intros z Hz Hi. apply in_concat in Hi as (l' & Hl' & Hi). apply in_map_iff in Hl' as (y & <- & Hy).
    assert (x = y) by (apply (H2 x y z); auto; [now left|now right]). subst. auto. }
  revert Nx D. generalize (f x). intros u. induction u as [|z u IHu]; intros Nx D; auto. cbn. inversion Nx. subst. constructor.
  - intros Hi. apply in_app_or in Hi as [Hi|Hi]; auto. apply (D z); auto. now left.
  - apply IHu; auto. intros w Hw. apply D. now right.
Qed.

Theorem disk_geometry partitions depth : (3 <= partitions)%Z -> (0 <= depth)%Z ->
  NoDup (disk partitions depth) /\ (2 * (zlen (disk partitions depth) - 1) = partitions * depth * (depth + 1))%Z
  /\ Forall (fun p => norm2 p <= 1) (disk partitions depth).
Proof.
  intros HP HD. unfold disk. set (ks := map (fun k => (k + 1)%Z) (iota (Z.to_nat depth))).
  assert (Hk : forall k, In k ks -> (1 <= k <= depth)%Z).
  { intros k H. apply in_map_iff in H as (i & <- & H). apply iota_in in H. lia. }
  assert (Nk : NoDup ks) by (apply nodup_map_in; [apply iota_nodup|intros; lia]).
  assert (HR : forall k z, In k ks -> In z (ring partitions depth k) -> norm2 z = (IZR k / IZR depth) * (IZR k / IZR depth) /\ 0 < IZR k / IZR depth <= 1).
  { intros k z Hi Hz. apply in_map_iff in Hz as (j & <- & _). split; [apply ring_norm|]. apply Hk in Hi.
    assert (0 < IZR k) by (apply IZR_lt; lia). assert (IZR k <= IZR depth) by (apply IZR_le; lia). split.
    - apply Rdiv_lt_0_compat; lra.
    - apply Rmult_le_reg_r with (IZR depth); [lra|]. unfold Rdiv. rewrite Rmult_assoc, Rinv_l by lra. lra. }
  split; [|split].
  - constructor.
    + intros Hi. apply in_concat in Hi as (l & Hl & Hi). apply in_map_iff in Hl as (k & <- & Hl).
      destruct (HR k _ Hl Hi) as (E & P). unfold norm2 in E. cbn [px py] in E. nra.
    + apply nodup_concat; auto.
      * intros k Hi. apply Hk in Hi. apply nodup_map_in; [apply iota_nodup|]. intros x y Hx Hy E. apply iota_in in Hx, Hy.
        unfold ring_point in E. injection E as E1 E2.
        assert (P : 0 < IZR k / IZR depth) by (apply Rdiv_lt_0_compat; apply IZR_lt; lia).
        apply Rmult_eq_reg_r in E1; [|lra]. apply Rmult_eq_reg_r in E2; [|lra].
        assert (PN : 0 < IZR (partitions * k)) by (apply IZR_lt; nia). pose proof PI_RGT_0.
        apply angle_inj in E1; auto.
        -- apply eq_IZR. apply Rmult_eq_reg_l with (2 * PI / IZR (partitions * k)); [unfold Rdiv in *; lra|].
           assert (0 < 2 * PI / IZR (partitions * k)) by (apply Rdiv_lt_0_compat; lra). lra.
        -- assert (X : - IZR (partitions * k) < IZR x - IZR y < IZR (partitions * k)).
           { rewrite <- minus_IZR, <- opp_IZR. split; apply IZR_lt; lia. }
           replace (/ 2 * PI + 2 * PI * IZR x / IZR (partitions * k) - (/ 2 * PI + 2 * PI * IZR y / IZR (partitions * k)))
             with (2 * PI * ((IZR x - IZR y) / IZR (partitions * k))) by (unfold Rdiv; ring).
           assert (-1 < (IZR x - IZR y) / IZR (partitions * k) < 1).
           { split; apply Rmult_lt_reg_r with (IZR (partitions * k)); auto; unfold Rdiv; rewrite Rmult_assoc, Rinv_l by lra; lra. }
           nra.
      * intros k k' z Hi Hi' Hz Hz'. destruct (HR k z Hi Hz) as (E & P). destruct (HR k' z Hi' Hz') as (E' & P').
        assert (EE : IZR k / IZR depth = IZR k' / IZR depth) by nra. apply Hk in Hi.
        assert (0 < IZR depth) by (apply IZR_lt; lia). apply eq_IZR. unfold Rdiv in EE. apply Rmult_eq_reg_r in EE; auto.
        apply Rinv_neq_0_compat. lra.
  - unfold zlen. cbn [length].
    assert (G : forall n, (2 * Z.of_nat (length (concat (map (ring partitions depth) (map (fun k => (k + 1)%Z) (iota n))))) = partitions * Z.of_nat n * (Z.of_nat n + 1))%Z).
    { induction n as [|n IH]; [cbn; lia|]. unfold iota in *. rewrite seq_S, !map_app, concat_app, app_length. cbn [map concat app]. rewrite app_nil_r.
      assert (LR : forall k, length (ring partitions depth k) = Z.to_nat (partitions * k)) by (intros; unfold ring, iota; now rewrite !map_length, seq_length).
      rewrite LR, Nat2Z.inj_add, Z.mul_add_distr_l, IH. nia. }
    unfold ks. specialize (G (Z.to_nat depth)). rewrite (Z2Nat.id depth) in G by lia. lia.
  - constructor; [unfold norm2; cbn; lra|]. apply Forall_forall. intros z Hi. apply in_concat in Hi as (l & Hl & Hi). apply in_map_iff in Hl as (k & <- & Hl).
    destruct (HR k z Hl Hi) as (-> & P). nra.
Qed.
