(** A clipping step succeeds when what it puts out fits the work array. *)
From Verif Require Import Base Num MUtils MGeometry MAlgorithms PClip PClipRun.
From Coq Require Import Lia.

Section Fwd.
  Context {T : Type} {NT : Num T}.
  Notation point := (point T).

  Lemma clip_edge_fwd r U N b (out : list point) n a ai E a' ai' : 0 <= n ->
    edge_out r U N a ai b = (E, (a', ai')) -> n + zlen E <= zlen out ->
    exists out', clip_edge (T:=T) r U N b (out, n, a, ai) = Ok (out', n + zlen E, a', ai') /\ length out' = length out.
  Proof.
    intros Hn H HL. unfold edge_out in H. unfold clip_edge. cbn zeta in *.
    match goal with |- context [if ?c then Ok _ else _] => destruct c end.
    { inversion H; subst. cbn [zlen length Z.of_nat]. exists out. rewrite Z.add_0_r. auto. }
    destruct (intersection_any a (Pt (nsub (px b) (px a)) (nsub (py b) (py a))) r N) as (x & Ex). rewrite Ex in *.
    destruct (inside b r U).
    - destruct ai; cbn [negb bind fst snd app] in *.
      + inversion H; subst. cbn in HL. destruct (push_any out n a') as (o & Eo & Lo); [lia|]. rewrite Eo. cbn. eauto.
      + destruct x as [p|]; cbn [app] in H; inversion H; subst; cbn in HL; cbn [bind].
        * destruct (push_any out n p) as (o & Eo & Lo); [lia|]. rewrite Eo. cbn [bind fst snd].
          destruct (push_any o (n + 1) a') as (o2 & Eo2 & Lo2); [unfold zlen in *; lia|]. rewrite Eo2. cbn [bind fst snd]. exists o2.
          cbn. rewrite <- Z.add_assoc. split; auto. lia.
        * cbn [fst snd]. destruct (push_any out n a') as (o & Eo & Lo); [lia|]. rewrite Eo. cbn. eauto.
    - destruct ai; cbn [bind].
      + destruct x as [p|]; inversion H; subst; cbn in HL.
        * destruct (push_any out n p) as (o & Eo & Lo); [lia|]. rewrite Eo. cbn. eauto.
        * destruct (push_any out n a') as (o & Eo & Lo); [lia|]. rewrite Eo. cbn. eauto.
      + inversion H; subst. exists out. cbn. rewrite Z.add_0_r. auto.
  Qed.

  Lemma clip_edges_fwd r U N subject : forall l j a ai (out : list point) n E a' ai',
    (forall i, (i < length l)%nat -> nth_error subject (j + i) = nth_error l i) -> 0 <= n ->
    edges_out r U N a ai l = (E, (a', ai')) -> n + zlen E <= zlen out ->
    exists out', for_loop (length l) (Z.of_nat j) (fun j st => let* b := aget subject j in clip_edge (T:=T) r U N b st) (out, n, a, ai)
      = Ok (out', n + zlen E, a', ai') /\ length out' = length out.
  Proof.
    induction l as [|b l IH]; intros j a ai out n E a' ai' Hs Hn H HL.
    - cbn in H. inversion H; subst. exists out. cbn. rewrite Z.add_0_r. auto.
    - cbn [edges_out] in H. destruct (edge_out r U N a ai b) as (E1, (a1, ai1)) eqn:Ee.
      destruct (edges_out r U N a1 ai1 l) as (E2, (a2, ai2)) eqn:El. inversion H; subst; clear H.
      unfold zlen in HL. rewrite app_length, Nat2Z.inj_add in HL. fold (zlen E1) (zlen E2) (zlen out) in HL.
      cbn [for_loop length]. pose proof (Hs O ltac:(cbn; lia)) as H0. rewrite Nat.add_0_r in H0. cbn in H0.
      assert (Eg : aget subject (Z.of_nat j) = Ok b).
      { destruct (aget_ok_pos subject (Z.of_nat j)) as (b' & -> & Hb').
        - assert (j < length subject)%nat by (apply nth_error_Some; congruence). unfold zlen; lia.
        - rewrite Nat2Z.id in Hb'. congruence. }
      rewrite Eg. cbn [bind].
      destruct (clip_edge_fwd r U N b out n a ai E1 a1 ai1 Hn Ee) as (o1 & Eo & Lo); [unfold zlen in *; lia|].
      rewrite Eo. cbn [bind]. replace (Z.of_nat j + 1) with (Z.of_nat (S j)) by lia.
      destruct (IH (S j) a1 ai1 o1 (n + zlen E1) E2 a' ai') as (o2 & Eo2 & Lo2); auto.
      + intros i Hi. specialize (Hs (S i) ltac:(cbn; lia)). rewrite Nat.add_succ_r in Hs. exact Hs.
      + unfold zlen; lia.
      + unfold zlen in *. lia.
      + exists o2. rewrite Eo2. split; [|lia]. do 4 f_equal. unfold zlen. rewrite app_length. lia.
  Qed.

  Lemma clip_by_edge_fwd r U subject (out : list point) P d Q fl : P <> [] -> firstn (length P) out = P -> length subject = length out ->
    edges_out r U (Pt (nopp (py U)) (px U)) (last P d) (inside (last P d) r U) P = (Q, fl) -> zlen Q <= zlen out ->
    exists subject' out', clip_by_edge (T:=T) r U subject out (zlen P) = Ok (subject', out', zlen Q)
      /\ length subject' = length out /\ length out' = length out /\ firstn (length Q) out' = Q.
  Proof.
    intros HP HF HL H HQ.
    assert (HO : (length P <= length out)%nat) by (rewrite <- HF at 1; rewrite firstn_length; lia).
    assert (G : exists subject' out', clip_by_edge (T:=T) r U subject out (zlen P) = Ok (subject', out', zlen Q)
      /\ length subject' = length out /\ length out' = length out).
    { unfold clip_by_edge.
      destruct (copy_any out subject (zlen P)) as (sub & Ec & Lc); [unfold zlen; lia|unfold zlen; lia|]. rewrite Ec. cbn [bind].
      apply copy_any_firstn in Ec; [|auto|lia]. rewrite HF in Ec.
      assert (Hn : forall i, (i < length P)%nat -> nth_error sub i = nth_error P i).
      { intros i Hi. transitivity (nth_error (firstn (length P) sub) i); [|now rewrite Ec]. clear - Hi. revert i Hi sub. generalize (length P). induction n as [|n IH]; intros [|i] Hi [|x sub]; cbn; try lia; auto. apply IH. lia. }
      assert (Hlast : aget sub (zlen P - 1)%Z = Ok (last P d)).
      { destruct (exists_last HP) as (l & x & E). 
        destruct (aget_ok_pos sub (zlen P - 1)%Z) as (v & -> & Hv); [subst P; unfold zlen; rewrite app_length in *; cbn [length] in *; lia|].
        f_equal. assert (Ei : Z.to_nat (zlen P - 1) = length l) by (subst P; unfold zlen; rewrite app_length; cbn [length]; lia).
        rewrite Ei, Hn in Hv by (subst P; rewrite app_length; cbn [length]; lia). rewrite E in *. rewrite nth_error_app2, Nat.sub_diag in Hv by lia.
        cbn in Hv. rewrite last_last. congruence. }
      rewrite Hlast. cbn [bind]. unfold for_range. rewrite Z.sub_0_r. unfold zlen at 1. rewrite Nat2Z.id.
      destruct fl as (a', ai').
      destruct (clip_edges_fwd r U (Pt (nopp (py U)) (px U)) sub P 0 (last P d) (inside (last P d) r U) out 0 Q a' ai') as (o & Eo & Lo); auto; [lia|].
      change (Z.of_nat 0) with 0 in Eo. rewrite Eo. cbn [bind]. exists sub, o. rewrite Z.add_0_l. split; auto. split; lia. }
    destruct G as (s' & o' & E & L1 & L2). exists s', o'. split; auto. split; auto. split; auto.
    destruct (clip_by_edge_rel r U subject out P d s' o' (zlen Q) HP HF HL E) as (Q' & fl' & E' & _ & F').
    rewrite H in E'. inversion E'; subst. exact F'.
  Qed.
End Fwd.
