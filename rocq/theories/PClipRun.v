(** What one clipping step writes, as a list, for any number type. *)
From Verif Require Import Base Num MUtils MGeometry MAlgorithms PClip.
From Coq Require Import Lia.

Section Run.
  Context {T : Type} {NT : Num T}.
  Notation point := (point T).

  (** the points put out for the side a -> b, the new start and its flag *)
  Definition edge_out (r U N a : point) (ai : bool) (b : point) : list point * (point * bool) :=
    let V := Pt (nsub (px b) (px a)) (nsub (py b) (py a)) in
    if neqb (px V) (nofZ 0) && neqb (py V) (nofZ 0) then ([], (a, ai))
    else
      let x := match intersection a V r N with Ok (Some p) => [p] | _ => [] end in
      if inside b r U then ((if ai then [] else x) ++ [b], (b, true))
      else if ai then (match x with [] => ([b], (b, true)) | _ => (x, (b, false)) end)
      else ([], (b, false)).
  Fixpoint edges_out (r U N a : point) (ai : bool) (l : list point) : list point * (point * bool) :=
    match l with
    | [] => ([], (a, ai))
    | b :: l => let '(E, (a', ai')) := edge_out r U N a ai b in
                let '(E', st) := edges_out r U N a' ai' l in (E ++ E', st)
    end.

  Lemma push_rel (out acc : list point) p out' n' : firstn (length acc) out = acc ->
    push_point out (zlen acc) p = Ok (out', n') -> n' = zlen (acc ++ [p]) /\ firstn (length (acc ++ [p])) out' = acc ++ [p].
  Proof.
    intros HA H. unfold push_point in H. destruct (aset out (zlen acc) p) as [o|] eqn:E; cbn [bind] in H; [|discriminate].
    inversion H; subst o n'; clear H.
    assert (HL : (length acc < length out)%nat).
    { unfold aset, norm_idx, zlen in E. destruct (Nat.lt_ge_cases (length acc) (length out)) as [L|L]; auto. exfalso. revert E.
      repeat match goal with |- context [if ?c then _ else _] => destruct c eqn:? end; try discriminate; intros _; lia. }
    assert (Es : aset out (zlen acc) p = Ok (list_set out (length acc) p)).
    { rewrite aset_pos by (unfold zlen; lia). unfold zlen. now rewrite Nat2Z.id. }
    rewrite Es in E. inversion E; subst out'; clear E Es.
    rewrite app_length. cbn [length]. split; [unfold zlen; rewrite app_length; cbn [length]; lia|].
    replace (length acc + 1)%nat with (S (length acc)) by lia.
    assert (G : forall (l : list point) k v, (k < length l)%nat -> firstn (S k) (list_set l k v) = firstn k l ++ [v]).
    { clear. induction l as [|x l IH]; intros [|k] v H; cbn in *; try lia; auto. f_equal. apply IH. lia. }
    rewrite G by auto. now rewrite HA.
  Qed.

  Lemma clip_edge_rel r U N b out acc a ai out' n' a' ai' : firstn (length acc) out = acc ->
    clip_edge (T:=T) r U N b (out, zlen acc, a, ai) = Ok (out', n', a', ai') ->
    exists E, edge_out r U N a ai b = (E, (a', ai')) /\ n' = zlen (acc ++ E) /\ firstn (length (acc ++ E)) out' = acc ++ E.
  Proof.
    intros HA H. unfold clip_edge in H. unfold edge_out. cbn zeta in *.
    match type of H with context [if ?c then Ok _ else _] => destruct c end.
    { injection H as <- <- <- <-. exists []. rewrite app_nil_r. auto. }
    destruct (intersection_any a (Pt (nsub (px b) (px a)) (nsub (py b) (py a))) r N) as (x & Ex).
    rewrite Ex in *. destruct (inside b r U).
    - destruct ai; cbn [negb bind fst snd] in H.
      + destruct (push_point out (zlen acc) b) as [(o, n)|] eqn:E; cbn [bind fst snd] in H; [|discriminate].
        injection H as <- <- <- <-. apply (push_rel out acc) in E as (E1 & E2); auto. exists [b]. auto.
      + destruct x as [p|]; cbn [bind fst snd] in H.
        * destruct (push_point out (zlen acc) p) as [(o, n)|] eqn:E; cbn [bind fst snd] in H; [|discriminate].
          apply (push_rel out acc) in E as (-> & E2); auto.
          destruct (push_point o (zlen (acc ++ [p])) b) as [(o2, n2)|] eqn:E'; cbn [bind fst snd] in H; [|discriminate].
          injection H as <- <- <- <-. apply (push_rel o (acc ++ [p])) in E' as (E1' & E2'); auto. rewrite <- app_assoc in *. exists [p; b]. auto.
        * destruct (push_point out (zlen acc) b) as [(o, n)|] eqn:E; cbn [bind fst snd] in H; [|discriminate].
          injection H as <- <- <- <-. apply (push_rel out acc) in E as (E1 & E2); auto. exists [b]. auto.
    - destruct ai; cbn [bind] in H.
      + destruct x as [p|].
        * destruct (push_point out (zlen acc) p) as [(o, n)|] eqn:E; cbn [bind fst snd] in H; [|discriminate].
          injection H as <- <- <- <-. apply (push_rel out acc) in E as (E1 & E2); auto. exists [p]. auto.
        * destruct (push_point out (zlen acc) b) as [(o, n)|] eqn:E; cbn [bind fst snd] in H; [|discriminate].
          injection H as <- <- <- <-. apply (push_rel out acc) in E as (E1 & E2); auto. exists [b]. auto.
      + injection H as <- <- <- <-. exists []. rewrite app_nil_r. auto.
  Qed.

  Lemma clip_edges_rel r U N subject : forall l j a ai out acc out' n' a' ai',
    (forall i, (i < length l)%nat -> nth_error subject (j + i) = nth_error l i) -> firstn (length acc) out = acc ->
    for_loop (length l) (Z.of_nat j) (fun j st => let* b := aget subject j in clip_edge (T:=T) r U N b st) (out, zlen acc, a, ai)
      = Ok (out', n', a', ai') ->
    exists E, edges_out r U N a ai l = (E, (a', ai')) /\ n' = zlen (acc ++ E) /\ firstn (length (acc ++ E)) out' = acc ++ E.
  Proof.
    induction l as [|b l IH]; intros j a ai out acc out' n' a' ai' Hs HA H.
    - cbn in H. inversion H; subst. exists []. rewrite app_nil_r. auto.
    - cbn [for_loop length] in H. pose proof (Hs O ltac:(cbn; lia)) as H0. rewrite Nat.add_0_r in H0. cbn in H0.
      assert (Eg : aget subject (Z.of_nat j) = Ok b).
      { destruct (aget_ok_pos subject (Z.of_nat j)) as (b' & -> & Hb').
        - assert (j < length subject)%nat by (apply nth_error_Some; congruence). unfold zlen; lia.
        - rewrite Nat2Z.id in Hb'. congruence. }
      rewrite Eg in H. cbn [bind] in H.
      destruct (clip_edge r U N b (out, zlen acc, a, ai)) as [(((o1, n1), a1), ai1)|] eqn:E1; cbn [bind] in H; [|discriminate].
      apply (clip_edge_rel r U N b out acc) in E1 as (E & Ee & -> & F1); auto.
      replace (Z.of_nat j + 1)%Z with (Z.of_nat (S j)) in H by lia.
      apply (IH (S j) a1 ai1 o1 (acc ++ E)) in H as (E' & Ee' & -> & F'); auto.
      + exists (E ++ E'). cbn [edges_out]. rewrite Ee, Ee'. rewrite app_assoc. auto.
      + intros i Hi. specialize (Hs (S i) ltac:(cbn; lia)). rewrite Nat.add_succ_r in Hs. exact Hs.
  Qed.

  Lemma copy_any_firstn {A} (src dst : list A) n out : (n <= length src)%nat -> (n <= length dst)%nat ->
    copy src dst (Z.of_nat n) = Ok out -> firstn n out = firstn n src.
  Proof.
    intros H1 H2. unfold copy, for_range. rewrite Z.sub_0_r, Nat2Z.id.
    assert (G : forall m k (d : list A), (k + m = n)%nat -> length d = length dst -> firstn k d = firstn k src ->
       for_loop m (Z.of_nat k) (fun i dst => let* v := aget src i in aset dst i v) d = Ok out -> firstn n out = firstn n src).
    { induction m as [|m IH]; intros k d E L F H.
      - cbn in H. inversion H; subst. replace (k + 0)%nat with k by lia. auto.
      - cbn [for_loop] in H. destruct (nth_error src k) as [v|] eqn:Ev; [|apply nth_error_None in Ev; lia].
        destruct (aget_ok_pos src (Z.of_nat k)) as (v' & Eg & Hv'); [unfold zlen; lia|].
        rewrite Eg in H. cbn [bind] in H. rewrite Nat2Z.id in Hv'. assert (v' = v) by congruence. subst v'.
        rewrite aset_pos in H by (unfold zlen; lia). cbn [bind] in H. rewrite Nat2Z.id in H.
        replace (Z.of_nat k + 1)%Z with (Z.of_nat (S k)) in H by lia. apply IH in H; auto; [lia|now rewrite list_set_length|].
        assert (G : forall (l : list A) k v, (k < length l)%nat -> firstn (S k) (list_set l k v) = firstn k l ++ [v]).
        { clear. induction l as [|x l IH]; intros [|k] v H; cbn in *; try lia; auto. f_equal. apply IH. lia. }
        rewrite G by lia. rewrite F. symmetry. clear - Ev. revert k Ev.
        induction src as [|x src IH]; intros [|k] Ev; cbn in *; try discriminate; [congruence|]. f_equal. now apply IH. }
    apply (G n 0%nat dst); auto.
  Qed.

  (** one step: from the first points of the output array to the first points of the new one *)
  Lemma clip_by_edge_rel r U subject out P d subject' out' n' : P <> [] -> firstn (length P) out = P -> length subject = length out ->
    clip_by_edge (T:=T) r U subject out (zlen P) = Ok (subject', out', n') ->
    exists Q fl, edges_out r U (Pt (nopp (py U)) (px U)) (last P d) (inside (last P d) r U) P = (Q, fl)
      /\ n' = zlen Q /\ firstn (length Q) out' = Q.
  Proof.
    intros HP HF HL H. unfold clip_by_edge in H.
    assert (HO : (length P <= length out)%nat) by (rewrite <- HF at 1; rewrite firstn_length; lia).
    destruct (copy out subject (zlen P)) as [sub|] eqn:Ec; cbn [bind] in H; [|discriminate].
    assert (Ls : length sub = length out).
    { destruct (copy_any out subject (zlen P)) as (s2 & E2 & L2); [unfold zlen; lia|unfold zlen; lia|]. rewrite Ec in E2. inversion E2; subst. lia. }
    apply copy_any_firstn in Ec; [|auto|lia]. rewrite HF in Ec.
    assert (Hn : forall i, (i < length P)%nat -> nth_error sub i = nth_error P i).
    { intros i Hi. transitivity (nth_error (firstn (length P) sub) i); [|now rewrite Ec]. clear - Hi. revert i Hi sub. generalize (length P). induction n as [|n IH]; intros [|i] Hi [|x sub]; cbn; try lia; auto. apply IH. lia. }
    assert (Hlast : aget sub (zlen P - 1)%Z = Ok (last P d)).
    { destruct (exists_last HP) as (l & x & E). 
      destruct (aget_ok_pos sub (zlen P - 1)%Z) as (v & -> & Hv); [subst P; unfold zlen; rewrite app_length in *; cbn [length] in *; lia|].
      f_equal. assert (Ei : Z.to_nat (zlen P - 1) = length l) by (subst P; unfold zlen; rewrite app_length; cbn [length]; lia).
      rewrite Ei, Hn in Hv by (subst P; rewrite app_length; cbn [length]; lia). rewrite E in *. rewrite nth_error_app2, Nat.sub_diag in Hv by lia.
      cbn in Hv. rewrite last_last. congruence. }
    rewrite Hlast in H. cbn [bind] in H. unfold for_range in H. rewrite Z.sub_0_r in H. unfold zlen in H at 1. rewrite Nat2Z.id in H.
    destruct (for_loop (length P) 0 _ _) as [(((o, n), a'), ai')|] eqn:El; cbn [bind] in H; [|discriminate].
    inversion H; subst subject' out' n'; clear H.
    change 0%Z with (Z.of_nat 0) in El. change (Z.of_nat 0) with (zlen (@nil point)) in El at 2.
    apply (clip_edges_rel r U _ sub P 0 _ _ out []) in El as (E & Ee & -> & F); auto.
    exists E, (a', ai'). auto.
  Qed.
End Run.
