(** Iterations that touch disjoint cells: every schedule ends, and ends in the
    same memory.  (Facts about MPar.v.) *)
From Verif Require Import Base MPar SpecPar.
From Coq Require Import Relation_Operators Wellfounded.

Lemma F2_nth_l {A B} (P : A -> B -> Prop) l l' k a : Forall2 P l l' -> nth_error l k = Some a ->
  exists b, nth_error l' k = Some b /\ P a b.
Proof.
  intros H. revert k. induction H as [|x y l l' Hxy _ IH]; intros [|k] E; simpl in *; try discriminate.
  - inversion E; subst. eauto.
  - eauto.
Qed.

Section Run.
  Context {C : Type}.
  Notation prog := (prog C).
  Notation mem := (mem C).
  Notation state := (state C).

  (** A program running alone *)
  Fixpoint run {X} (p : prog X) (m : mem) : res X * mem :=
    match p with
    | Ret x => (Ok x, m)
    | Crash e => (Err e, m)
    | Rd a k => match m a with Some c => run (k c) m | None => (Err EIndex, m) end
    | Wr a c k => match m a with Some _ => run k (upd m a c) | None => (Err EIndex, m) end
    end.

  (** All accesses of the program are to cells in [P] *)
  Inductive within {X} (P : addr -> Prop) : prog X -> Prop :=
  | WRet x : within P (Ret x)
  | WCrash e : within P (Crash e)
  | WRd a k : P a -> (forall c, within P (k c)) -> within P (Rd a k)
  | WWr a c k : P a -> within P k -> within P (Wr a c k).

  Lemma addr_eqb_eq a b : addr_eqb a b = true <-> a = b.
  Proof.
    unfold addr_eqb. destruct a, b. simpl. rewrite andb_true_iff, !Nat.eqb_eq.
    split; [intros [-> ->]; auto|intros H; inversion H; auto].
  Qed.
  Lemma upd_eq (m : mem) a c : upd m a c a = Some c.
  Proof. unfold upd. now rewrite (proj2 (addr_eqb_eq a a) eq_refl). Qed.
  Lemma upd_neq (m : mem) a b c : b <> a -> upd m a c b = m b.
  Proof.
    intros H. unfold upd. destruct (addr_eqb b a) eqn:E; auto. apply addr_eqb_eq in E. congruence.
  Qed.

  (** it leaves all other cells alone *)
  Lemma run_frame {X} P (p : prog X) : within P p -> forall m a, ~ P a -> snd (run p m) a = m a.
  Proof.
    induction 1 as [| |a k Ha _ IH|a c k Ha _ IH]; intros m b Hb; simpl; auto.
    - destruct (m a); auto.
    - destruct (m a); auto. rewrite IH by auto. apply upd_neq. congruence.
  Qed.

  (** it only depends on its own cells *)
  Lemma run_agree {X} P (p : prog X) : within P p -> forall m m',
    (forall a, P a -> m a = m' a) ->
    fst (run p m) = fst (run p m') /\ (forall a, P a -> snd (run p m) a = snd (run p m') a).
  Proof.
    induction 1 as [| |a k Ha _ IH|a c k Ha _ IH]; intros m m' Hm; simpl; auto.
    - rewrite <- (Hm a Ha). destruct (m a); auto.
    - rewrite <- (Hm a Ha). destruct (m a); simpl; auto. apply IH. intros b Hb.
      destruct (addr_eqb b a) eqn:E.
      + apply addr_eqb_eq in E. subst. now rewrite !upd_eq.
      + assert (b <> a) by (intros ->; rewrite (proj2 (addr_eqb_eq a a) eq_refl) in E; discriminate).
        rewrite !upd_neq; auto.
  Qed.

  Lemma step1_within {X} P (p p' : prog X) m m' : within P p -> step1 p m = Some (p', m') ->
    within P p' /\ (forall a, ~ P a -> m' a = m a)
    /\ fst (run p' m') = fst (run p m) /\ (forall a, snd (run p' m') a = snd (run p m) a).
  Proof.
    intros H E. destruct H as [| |a k Ha Hk|a c k Ha Hk]; simpl in *; try discriminate.
    - inversion E; subst. destruct (m' a); split; auto. constructor.
    - destruct (m a) eqn:Em; inversion E; subst.
      + split; auto. split; [|auto]. intros b Hb. apply upd_neq. congruence.
      + split; [constructor|auto].
  Qed.
End Run.

Section Pool.
  Context {C : Type}.
  Notation prog := (prog C).
  Notation mem := (mem C).
  Notation state := (state C).

  (** ** Every schedule ends *)
  Inductive psub : prog unit -> prog unit -> Prop :=
  | PRd a k c : psub (k c) (Rd a k)
  | PRdC a k : psub (Crash EIndex) (Rd a k)
  | PWr a c k : psub k (Wr a c k)
  | PWrC a c k : psub (Crash EIndex) (Wr a c k).

  Lemma psub_acc p : Acc psub p.
  Proof.
    assert (HC : forall e, Acc psub (Crash e)) by (intros; constructor; intros y H; inversion H).
    induction p as [x|e|a k IH|a c k IH]; auto; constructor; intros y H; inversion H; subst; auto.
  Qed.

  Lemma step1_psub p p' m m' : step1 p m = Some (p', m') -> psub p' p.
  Proof.
    destruct p; simpl; intros E; try discriminate.
    - inversion E; subst. destruct (m' a); constructor.
    - destruct (m a); inversion E; subst; constructor.
  Qed.

  Inductive pools : list (prog unit) -> list (prog unit) -> Prop :=
  | PoolStep ps i p p' : nth_error ps i = Some p -> psub p' p -> pools (list_set ps i p') ps.

  Lemma pools_acc ps : Acc pools ps.
  Proof.
    induction ps as [|p ps IH].
    - constructor. intros y H. inversion H; subst. destruct i; discriminate.
    - revert ps IH. induction (psub_acc p) as [p _ IHp]. intros ps IH.
      induction IH as [ps Hps IHps]. constructor. intros y H. inversion H as [? i q q' E Hq]; subst.
      destruct i as [|i]; simpl in *.
      + inversion E; subst. apply IHp; auto. constructor; auto.
      + apply IHps. econstructor; eauto.
  Qed.

  Theorem schedules_end (s : state) : Acc (fun a b => pstep b a) s.
  Proof.
    destruct s as [ps m]. revert m. induction (pools_acc ps) as [ps _ IH]. intros m.
    constructor. intros [ps' m'] H. inversion H as [? ? i p p' ? E1 E2]; subst.
    apply IH. econstructor; eauto. eapply step1_psub; eauto.
  Qed.

  (** ** What a finished pool looks like *)
  Definition stopped (p : prog unit) : Prop := p = Ret tt \/ exists e, p = Crash e.

  Lemma step1_stopped p m : step1 p m = None -> stopped p.
  Proof.
    destruct p as [[]| | |]; simpl; intros H; try discriminate; [left|right]; eauto.
  Qed.

  Lemma finished_stopped ps m : finished (ps, m) -> forall p, In p ps -> stopped p.
  Proof.
    intros Hf p Hp. apply In_nth_error in Hp as (i & Hi).
    destruct (step1 p m) as [[p' m']|] eqn:E; [|eapply step1_stopped; eauto].
    exfalso. apply (Hf (list_set ps i p', m')). econstructor; eauto.
  Qed.

  (** a pool that is not finished can go on *)
  Lemma not_stuck (s : state) : finished s \/ exists s', pstep s s'.
  Proof.
    destruct s as [ps m].
    assert (H : (forall i p, nth_error ps i = Some p -> step1 p m = None)
              \/ exists i p q, nth_error ps i = Some p /\ step1 p m = Some q).
    { induction ps as [|p ps [IH|(i & q & r & H1 & H2)]].
      - left. intros [|i]; discriminate.
      - destruct (step1 p m) as [q|] eqn:E.
        + right. exists O, p, q. auto.
        + left. intros [|i] r; simpl; intros Hr; [congruence|eauto].
      - right. exists (S i), q, r. auto. }
    destruct H as [H|(i & p & [p' m'] & H1 & H2)].
    - left. intros s' Hs. inversion Hs as [? ? i p p' ? E1 E2]; subst. rewrite (H _ _ E1) in E2. discriminate.
    - right. exists (list_set ps i p', m'). econstructor; eauto.
  Qed.

  Lemma some_schedule (s : state) : exists s', reach s s' /\ finished s'.
  Proof.
    induction (schedules_end s) as [s _ IH].
    destruct (not_stuck s) as [H|(s' & H)].
    - exists s. split; auto. constructor.
    - destruct (IH s' H) as (s'' & H1 & H2). exists s''. split; auto. econstructor; eauto.
  Qed.

  (** ** Disjoint iterations *)
  Variable own : nat -> addr -> Prop.
  Hypothesis own_disjoint : forall i j a, own i a -> own j a -> i = j.

  Record tracks (ps0 : list (prog unit)) (m0 : mem) (ps : list (prog unit)) (m : mem) : Prop := {
    tr_len : length ps = length ps0;
    tr_within : forall i p, nth_error ps i = Some p -> within (own i) p;
    tr_run : forall i p p0, nth_error ps i = Some p -> nth_error ps0 i = Some p0 ->
      fst (run p m) = fst (run p0 m0) /\ (forall a, own i a -> snd (run p m) a = snd (run p0 m0) a);
    tr_rest : forall a, (forall i, (i < length ps)%nat -> ~ own i a) -> m a = m0 a }.

  Lemma tracks_step ps0 m0 ps m ps' m' :
    tracks ps0 m0 ps m -> pstep (ps, m) (ps', m') -> tracks ps0 m0 ps' m'.
  Proof.
    intros [T1 T2 T3 T4] H. inversion H as [? ? i p p' ? E1 E2]; subst.
    destruct (step1_within _ _ _ _ _ (T2 _ _ E1) E2) as (S1 & S2 & S3 & S4).
    assert (Hi : (i < length ps)%nat) by (apply nth_error_Some; congruence).
    assert (Hget : forall j q, nth_error (list_set ps i p') j = Some q ->
              (j = i /\ q = p') \/ (j <> i /\ nth_error ps j = Some q)).
    { intros j q Hq. destruct (Nat.eq_dec i j) as [<-|Hn].
      - left. rewrite nth_error_list_set_eq in Hq by auto. split; congruence.
      - right. rewrite nth_error_list_set_neq in Hq by auto. auto. }
    constructor.
    - now rewrite list_set_length.
    - intros j q Hq. destruct (Hget j q Hq) as [(-> & ->)|(Hj & Hq')]; auto.
    - intros j q q0 Hq Hq0. destruct (Hget j q Hq) as [(-> & ->)|(Hj & Hq')].
      + destruct (T3 _ _ _ E1 Hq0) as (R1 & R2). split; [congruence|].
        intros a Ha. rewrite S4. auto.
      + destruct (T3 _ _ _ Hq' Hq0) as (R1 & R2).
        assert (Hm : forall a, own j a -> m' a = m a).
        { intros a Ha. apply S2. intros Ha'. apply Hj. eauto. }
        destruct (run_agree (own j) q (T2 _ _ Hq') m' m Hm) as (A1 & A2).
        split; [congruence|]. intros a Ha. rewrite A2 by auto. auto.
    - intros a Ha. rewrite list_set_length in Ha. rewrite S2; auto.
  Qed.

  Lemma tracks_reach ps0 m0 s s' : reach s s' -> tracks ps0 m0 (fst s) (snd s) -> tracks ps0 m0 (fst s') (snd s').
  Proof.
    induction 1 as [s|[ps m] [ps' m'] s'' H _ IH]; auto. intros Ht. apply IH. simpl in *.
    eapply tracks_step; eauto.
  Qed.

  (** In every schedule every iteration ends as it does alone, with what it
      alone would have written, and nothing else changes. *)
  Theorem disjoint_schedules (ps0 : list (prog unit)) (m0 : mem) (s : state) :
    (forall i (p : prog unit), nth_error ps0 i = Some p -> within (own i) p) ->
    reach (ps0, m0) s -> finished s ->
    length (fst s) = length ps0
    /\ (forall i p p0, nth_error (fst s) i = Some p -> nth_error ps0 i = Some p0 ->
          (p = match fst (run p0 m0) with Ok x => Ret x | Err e => Crash e end)
          /\ forall a, own i a -> snd s a = snd (run p0 m0) a)
    /\ (forall a, (forall i, (i < length ps0)%nat -> ~ own i a) -> snd s a = m0 a).
  Proof.
    intros Hw Hr Hf.
    assert (HT : tracks ps0 m0 (fst s) (snd s)).
    { eapply (tracks_reach ps0 m0 (ps0, m0) s); auto. simpl. constructor; auto.
      intros i p p0 E E'. rewrite E in E'. inversion E'; subst. auto. }
    destruct HT as [T1 T2 T3 T4]. split; auto. split; [|rewrite <- T1; auto].
    intros i p p0 E E0. destruct (T3 _ _ _ E E0) as (R1 & R2).
    destruct s as [ps m]; simpl in *.
    destruct (finished_stopped ps m Hf p (nth_error_In _ _ E)) as [->|(e & ->)]; simpl in *;
      rewrite <- R1; auto.
  Qed.
End Pool.

(** ** Loops over the rows of an array *)
Section Rows.
  Context {C : Type}.
  Notation prog := (prog C).
  Notation mem := (mem C).

  Definition in_row (i : nat) (a : addr) : Prop := fst a = i.

  Definition row_at (m : mem) (i : nat) (row : list C) : Prop := forall c, m (i, c) = nth_error row c.

  (** [p] turns row [i] into [r] *)
  Definition computes {X} (p : prog X) (i : nat) (row : list C) (r : res (X * list C)) : Prop :=
    forall m, row_at m i row ->
    match r with
    | Ok (x, row') => fst (run p m) = Ok x /\ row_at (snd (run p m)) i row'
    | Err e => exists e', fst (run p m) = Err e'
    end.

  Lemma run_bindp {X Y} (p : prog X) (f : X -> prog Y) : forall m,
    run (bindp p f) m = match run p m with (Ok x, m') => run (f x) m' | (Err e, m') => (Err e, m') end.
  Proof.
    induction p as [x|e|a k IH|a c k IH]; intros m; simpl; auto; destruct (m a); auto.
  Qed.

  Lemma within_bindp {X Y} P (p : prog X) (f : X -> prog Y) :
    within P p -> (forall x, within P (f x)) -> within P (bindp p f).
  Proof. intros Hp Hf. induction Hp; simpl; auto; constructor; auto. Qed.
  Lemma within_local {X} P (r : res X) : within P (local (C:=C) r).
  Proof. destruct r; constructor. Qed.
  Lemma within_vget i n k : within (in_row i) (vget (C:=C) (View i n) k).
  Proof. unfold vget. destruct (norm_idx _ _); repeat constructor. Qed.
  Lemma within_vset i n k (c : C) : within (in_row i) (vset (View i n) k c).
  Proof. unfold vset. destruct (norm_idx _ _); repeat constructor. Qed.
  Lemma within_for_p {St} P n : forall i (body : Z -> St -> prog St) s,
    (forall i s, within P (body i s)) -> within P (for_p n i body s).
  Proof.
    induction n as [|n IH]; intros i body s H; simpl; [constructor|]. apply within_bindp; auto.
  Qed.

  Lemma computes_ret {X} i row (x : X) : computes (Ret x) i row (Ok (x, row)).
  Proof. intros m Hm. simpl. auto. Qed.
  Lemma computes_err {X} i row (e e' : err) : computes (X:=X) (Crash e) i row (Err e').
  Proof. intros m Hm. simpl. eauto. Qed.
  Lemma computes_bind {X Y} i row (p : prog X) (f : X -> prog Y) r r' :
    computes p i row r ->
    match r with Ok (x, row') => computes (f x) i row' r' | Err _ => exists e, r' = Err e end ->
    computes (bindp p f) i row r'.
  Proof.
    intros Hp Hf m Hm. specialize (Hp m Hm). rewrite run_bindp.
    destruct r as [[x row']|e].
    - destruct (run p m) as [v m']; simpl in *. destruct Hp as (-> & Hm'). apply (Hf m' Hm').
    - destruct Hf as (e' & ->). destruct Hp as (e'' & E). destruct (run p m) as [v m']; simpl in *. subst v. simpl. eauto.
  Qed.
  Lemma computes_local {X Y} i row (r : res X) (f : X -> prog Y) (h : X -> res (Y * list C)) :
    (forall x, r = Ok x -> computes (f x) i row (h x)) ->
    computes (bindp (local r) f) i row (bind r h).
  Proof.
    intros H. destruct r as [x|e]; simpl.
    - apply H; auto.
    - intros m Hm. simpl. eauto.
  Qed.

  Lemma computes_vget {Y} i row k (f : C -> prog Y) h :
    (forall c, aget row k = Ok c -> computes (f c) i row (h c)) ->
    computes (bindp (vget (View i (length row)) k) f) i row (bind (aget row k) h).
  Proof.
    intros H m Hm. unfold vget, aget in *. cbn [v_len v_row].
    destruct (norm_idx (length row) k) as [j|] eqn:E; simpl; [|eauto].
    rewrite (Hm j). destruct (nth_error row j) as [c|] eqn:Ej; simpl; [|eauto].
    apply H; auto.
  Qed.

  Lemma computes_vset {Y} i row k c (f : unit -> prog Y) h :
    (forall row', aset row k c = Ok row' -> length row' = length row -> computes (f tt) i row' (h row')) ->
    computes (bindp (vset (View i (length row)) k c) f) i row (bind (aset row k c) h).
  Proof.
    intros H m Hm. unfold vset, aset in *. cbn [v_len v_row].
    destruct (norm_idx (length row) k) as [j|] eqn:E; simpl; [|eauto].
    pose proof (norm_idx_bound _ _ _ E) as Hj. rewrite (Hm j).
    destruct (nth_error row j) as [c'|] eqn:Ej; [|apply nth_error_None in Ej; lia].
    apply (H _ eq_refl (list_set_length _ _ _)). intros q. destruct (Nat.eq_dec j q) as [<-|Hn].
    - rewrite upd_eq, nth_error_list_set_eq; auto.
    - rewrite upd_neq, nth_error_list_set_neq by congruence. apply Hm.
  Qed.

  Lemma computes_vset_last i row k c :
    computes (vset (View i (length row)) k c) i row (let* row' := aset row k c in Ok (tt, row')).
  Proof.
    intros m Hm. unfold vset, aset in *. cbn [v_len v_row].
    destruct (norm_idx (length row) k) as [j|] eqn:E; simpl; [|eauto].
    pose proof (norm_idx_bound _ _ _ E) as Hj. rewrite (Hm j).
    destruct (nth_error row j) as [c'|] eqn:Ej; [|apply nth_error_None in Ej; lia].
    split; auto. intros q. simpl. destruct (Nat.eq_dec j q) as [<-|Hn].
    - rewrite upd_eq, nth_error_list_set_eq; auto.
    - rewrite upd_neq, nth_error_list_set_neq by congruence. apply Hm.
  Qed.

  (** loops inside an iteration whose only state is the row *)
  Lemma computes_for i n : forall lo (body : Z -> unit -> prog unit) (seqb : Z -> list C -> res (list C)) row,
    (forall j row', length row' = length row -> computes (body j tt) i row' (let* r := seqb j row' in Ok (tt, r))
       /\ forall r, seqb j row' = Ok r -> length r = length row) ->
    computes (for_p n lo body tt) i row (let* r := for_loop n lo seqb row in Ok (tt, r))
    /\ forall r, for_loop n lo seqb row = Ok r -> length r = length row.
  Proof.
    induction n as [|n IH]; intros lo body seqb row H; simpl.
    - split; [apply computes_ret|]. intros r Hr. inversion Hr; auto.
    - destruct (H lo row eq_refl) as (Hc & Hl).
      destruct (seqb lo row) as [r|e] eqn:E; simpl.
      + specialize (Hl r eq_refl).
        destruct (IH (lo + 1) body seqb r) as (Hc' & Hl').
        { intros j row' Hrow'. rewrite Hl in *. apply H; auto. }
        split; [|intros r' Hr'; rewrite <- Hl; auto].
        eapply computes_bind; [exact Hc|]. simpl. exact Hc'.
      + split; [|discriminate]. eapply computes_bind; [exact Hc|]. simpl. eauto.
  Qed.

  Lemma mem_of_row rows i row : nth_error rows i = Some row -> row_at (mem_of (C:=C) rows) i row.
  Proof. intros H c. unfold mem_of. simpl. now rewrite H. Qed.

  Theorem rows_schedules (body : nat -> prog unit) rows0 (r : nat -> list C -> res (list C)) :
    (forall i, (i < length rows0)%nat -> within (in_row i) (body i)) ->
    (forall i row, nth_error rows0 i = Some row ->
       computes (body i) i row (let* row' := r i row in Ok (tt, row'))) ->
    every_schedule body rows0 (mapres (fun ir => r (fst ir) (snd ir)) (combine (seq 0 (length rows0)) rows0)).
  Proof.
    intros Hw Hc. split; [apply schedules_end|]. intros s Hr Hf.
    assert (Hnth : forall i, (i < length rows0)%nat ->
              nth_error (map body (seq 0 (length rows0))) i = Some (body i)).
    { intros i Hi. rewrite nth_error_map.
      rewrite (nth_error_nth' _ O) by (rewrite seq_length; auto). now rewrite seq_nth. }
    assert (Hlen : length (map body (seq 0 (length rows0))) = length rows0) by now rewrite map_length, seq_length.
    assert (Hd : forall i j a, in_row i a -> in_row j a -> i = j) by (unfold in_row; congruence).
    destruct (disjoint_schedules (C:=C) in_row Hd (map body (seq 0 (length rows0))) (mem_of rows0) s)
      as (D1 & D2 & D3); auto.
    { intros i p E. assert (Hi : (i < length rows0)%nat).
      { rewrite <- Hlen. apply nth_error_Some. congruence. }
      rewrite Hnth in E by auto. inversion E. auto. }
    assert (Hcomb : forall i row, nth_error rows0 i = Some row ->
              nth_error (combine (seq 0 (length rows0)) rows0) i = Some (i, row)).
    { intros i row E. assert (Hi : (i < length rows0)%nat) by (apply nth_error_Some; congruence).
      rewrite (nth_error_nth' _ (O, row)).
      - rewrite combine_nth by now rewrite seq_length. rewrite seq_nth by auto.
        f_equal. f_equal. now apply nth_error_nth.
      - rewrite combine_length, seq_length. lia. }
    assert (Hex : forall i, (i < length rows0)%nat -> exists row p, nth_error rows0 i = Some row
              /\ nth_error (fst s) i = Some p).
    { intros i Hi. destruct (nth_error rows0 i) as [row|] eqn:E; [|apply nth_error_None in E; lia].
      destruct (nth_error (fst s) i) as [p|] eqn:E'; [|apply nth_error_None in E'; lia]. eauto. }
    assert (Hone : forall i row p, nth_error rows0 i = Some row -> nth_error (fst s) i = Some p ->
              match r i row with
              | Ok row' => p = Ret tt /\ row_at (snd s) i row'
              | Err _ => exists e, p = Crash e end).
    { intros i row p E E'. assert (Hi : (i < length rows0)%nat) by (apply nth_error_Some; congruence).
      destruct (D2 i p (body i) E' (Hnth i Hi)) as (P1 & P2).
      specialize (Hc i row E _ (mem_of_row _ _ _ E)).
      destruct (r i row) as [row'|e]; simpl in Hc.
      - destruct Hc as (H1 & H2). rewrite H1 in P1. split; auto.
        intros c. rewrite P2 by reflexivity. apply H2.
      - destruct Hc as (e' & H1). rewrite H1 in P1. eauto. }
    destruct (mapres _ _) as [rows|e] eqn:EM.
    - pose proof (mapres_ok_inv _ _ _ EM) as HF.
      assert (Hl : length rows = length rows0).
      { apply mapres_length in EM. rewrite combine_length, seq_length in EM. lia. }
      assert (Hrow : forall i row, nth_error rows0 i = Some row -> exists row', nth_error rows i = Some row' /\ r i row = Ok row').
      { intros i row E. destruct (F2_nth_l _ _ _ _ _ HF (Hcomb i row E)) as (row' & H1 & H2). eauto. }
      split.
      + intros p Hp. apply In_nth_error in Hp as (i & Hi).
        assert (Hil : (i < length rows0)%nat) by (rewrite <- Hlen, <- D1; apply nth_error_Some; congruence).
        destruct (Hex i Hil) as (row & _ & E & _). destruct (Hrow i row E) as (row' & _ & Er).
        specialize (Hone i row p E Hi). rewrite Er in Hone. tauto.
      + intros [i c]. destruct (lt_dec i (length rows0)) as [Hil|Hil].
        * destruct (Hex i Hil) as (row & p & E & Ep). destruct (Hrow i row E) as (row' & E' & Er).
          specialize (Hone i row p E Ep). rewrite Er in Hone. destruct Hone as (_ & H). rewrite (H c).
          symmetry. exact (mem_of_row rows i row' E' c).
        * rewrite D3.
          -- unfold mem_of. simpl. rewrite !(proj2 (nth_error_None _ _)) by lia. auto.
          -- intros j Hj. unfold in_row. simpl. lia.
    - assert (exists i row e', nth_error rows0 i = Some row /\ r i row = Err e') as (i & row & e' & E & Er).
      { clear - EM Hcomb.
        assert (exists ir e', In ir (combine (seq 0 (length rows0)) rows0) /\ r (fst ir) (snd ir) = Err e') as ([i row] & e' & Hin & He).
        { remember (combine (seq 0 (length rows0)) rows0) as l eqn:El. clear El Hcomb.
          induction l as [|x l IH]; simpl in EM; [discriminate|].
          destruct (r (fst x) (snd x)) as [y|e1] eqn:E1; simpl in EM.
          - destruct (mapres (fun ir => r (fst ir) (snd ir)) l) eqn:E2; simpl in EM; [discriminate|].
            destruct IH as (ir & e' & H1 & H2); auto. exists ir, e'. simpl. auto.
          - exists x, e1. simpl. auto. }
        apply In_nth_error in Hin as (k & Hk).
        assert (Hk' : (k < length rows0)%nat).
        { assert (k < length (combine (seq 0 (length rows0)) rows0))%nat by (apply nth_error_Some; congruence).
          rewrite combine_length, seq_length in H. lia. }
        destruct (nth_error rows0 k) as [row'|] eqn:E; [|apply nth_error_None in E; lia].
        rewrite (Hcomb _ _ E) in Hk. inversion Hk; subst. exists i, row, e'. auto. }
      assert (Hil : (i < length rows0)%nat) by (apply nth_error_Some; congruence).
      destruct (Hex i Hil) as (row2 & p & E2 & Ep).
      specialize (Hone i row p E Ep). rewrite Er in Hone. destruct Hone as (e2 & ->).
      exists e2. eapply nth_error_In; eauto.
  Qed.
End Rows.
