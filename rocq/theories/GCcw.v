(** Counter-clockwise normalisation of strictly convex faces, exact reals. *)
From Verif Require Import RBase MGeometry MCelltree SpecTree SpecQuery SpecApi PMesh PInit PBuild PApi SpecPoly GTriangle GConvex.
Open Scope R_scope.

Lemma product_orient a b c : cross_product (to_vector a b) (to_vector a c) = orient a b c.
Proof. unfold cross_product, to_vector, orient. rsimp. ring. Qed.

Lemma edge_nth (poly : list pt) k a b : nth_error poly k = Some a -> nth_error poly (S k) = Some b ->
  In (a, b) (poly_edges poly).
Proof.
  unfold poly_edges. generalize (last poly (Pt 0 0)). revert k.
  induction poly as [|x l IH]; intros k v0 Ha Hb; [destruct k; discriminate|].
  destruct k as [|k].
  - destruct l as [|y l]; [discriminate|]. cbn in Ha, Hb. right. left. congruence.
  - right. cbn in Ha. eapply IH; eauto.
Qed.

Lemma nodup_nth (poly : list pt) i j a b : NoDup poly -> nth_error poly i = Some a ->
  nth_error poly j = Some b -> i <> j -> a <> b.
Proof.
  intros Hn Ha Hb Hij ->. apply Hij. eapply NoDup_nth_error; eauto.
  - apply nth_error_Some. congruence.
  - congruence.
Qed.

Section Face.
  Variable vs : list pt.

  (** reading vertex k of a face with entries [u] and padding [t] *)
  Lemma read_vertex u t (poly : list pt) k c :
    Forall2 (fun i p => (0 <= i)%Z /\ nth_error vs (Z.to_nat i) = Some p) u poly ->
    nth_error poly k = Some c ->
    exists i, aget (u ++ t) (Z.of_nat k) = Ok i /\ aget vs i = Ok c.
  Proof.
    intros HF Hk.
    assert (Hlt : (k < length u)%nat) by (rewrite (F2_length _ _ _ HF); apply nth_error_Some; congruence).
    destruct (nth_error u k) as [i|] eqn:Ei; [|apply nth_error_None in Ei; lia].
    destruct (Forall2_nth _ _ _ _ _ _ HF Ei Hk) as (H0 & Hv).
    exists i. split.
    - apply aget_pos; [lia|]. rewrite Nat2Z.id, nth_error_app1 by auto. auto.
    - now apply aget_pos.
  Qed.

  Lemma ccw_face_keep f poly : wf_face (length vs) f -> poly_of vs f poly -> convex_ccw poly ->
    ccw_face vs f = Ok f.
  Proof.
    intros Hw Hp (Hl & Hn & Hc). pose proof Hw as (H3 & H32 & Hr & Hf).
    pose proof (poly_of_length _ _ _ Hp) as El.
    pose proof (until_fill_prefix f) as Ef. set (u := until_fill f) in *. set (t := skipn (length u) f) in *.
    unfold ccw_face. rewrite polygon_length_ok by auto. fold u. unfold poly_of in Hp. fold u in Hp.
    set (n := length u) in *.
    destruct (nth_error poly (n - 2)) as [a|] eqn:Ea; [|apply nth_error_None in Ea; lia].
    destruct (nth_error poly (n - 1)) as [b|] eqn:Eb; [|apply nth_error_None in Eb; lia].
    destruct (nth_error poly 0) as [c|] eqn:Ec; [|apply nth_error_None in Ec; lia].
    destruct (read_vertex u t poly _ _ Hp Ea) as (ia & Ra & Va).
    destruct (read_vertex u t poly _ _ Hp Eb) as (ib & Rb & Vb).
    destruct (read_vertex u t poly _ _ Hp Ec) as (ic & Rc & Vc).
    rewrite <- Ef in *.
    replace (Z.of_nat n - 2)%Z with (Z.of_nat (n - 2)) by lia.
    replace (Z.of_nat n - 1)%Z with (Z.of_nat (n - 1)) by lia.
    rewrite Ra. cbn [bind]. rewrite Rb. cbn [bind]. rewrite Va. cbn [bind]. rewrite Vb. cbn [bind].
    destruct n as [|n']; [lia|]. cbn [ccw_loop]. change (aget f 0%Z) with (aget f (Z.of_nat 0)).
    rewrite Rc. cbn [bind]. rewrite Vc. cbn [bind]. cbv zeta. rewrite product_orient.
    assert (HO : 0 < orient a b c).
    { apply Hc.
      - apply (edge_nth poly (S n' - 2)); auto. replace (S (S n' - 2)) with (S n' - 1)%nat by lia. auto.
      - eapply nth_error_In; eauto.
      - eapply nodup_nth; eauto. lia.
      - eapply nodup_nth; eauto. lia. }
    rsimp. rewrite Req_bool_false by lra. rewrite Rlt_bool_false by lra. reflexivity.
  Qed.

  Lemma nth_error_rev {A} (l : list A) k : (k < length l)%nat -> nth_error (rev l) k = nth_error l (length l - S k).
  Proof.
    intros H. destruct (nth_error l (length l - S k)) as [x|] eqn:E;
      [|apply nth_error_None in E; lia].
    rewrite <- (rev_length l) in H.
    rewrite (nth_error_nth' _ x H). rewrite rev_length in H. rewrite rev_nth by auto.
    f_equal. now apply nth_error_nth.
  Qed.

  Lemma Forall2_rev {A B} (P : A -> B -> Prop) l m : Forall2 P l m -> Forall2 P (rev l) (rev m).
  Proof.
    induction 1; cbn; auto. apply Forall2_app; auto.
  Qed.

  Lemma ccw_face_flip f poly : wf_face (length vs) f -> poly_of vs f poly -> convex_ccw (rev poly) ->
    ccw_face vs f = Ok (rev (until_fill f) ++ skipn (length (until_fill f)) f).
  Proof.
    intros Hw Hp (Hl & Hn & Hc). pose proof Hw as (H3 & H32 & Hr & Hf).
    pose proof (poly_of_length _ _ _ Hp) as El. rewrite rev_length in Hl.
    pose proof (until_fill_prefix f) as Ef. set (u := until_fill f) in *. set (t := skipn (length u) f) in *.
    unfold ccw_face. rewrite polygon_length_ok by auto. fold u. unfold poly_of in Hp. fold u in Hp.
    set (n := length u) in *. pose proof (Forall2_rev _ _ _ Hp) as Hp'.
    destruct (nth_error (rev poly) 1) as [a|] eqn:Ea; [|apply nth_error_None in Ea; rewrite rev_length in Ea; lia].
    destruct (nth_error (rev poly) 0) as [b|] eqn:Eb; [|apply nth_error_None in Eb; rewrite rev_length in Eb; lia].
    destruct (nth_error (rev poly) (n - 1)) as [c|] eqn:Ec; [|apply nth_error_None in Ec; rewrite rev_length in Ec; lia].
    destruct (nth_error (rev poly) 2) as [d|] eqn:Ed; [|apply nth_error_None in Ed; rewrite rev_length in Ed; lia].
    destruct (read_vertex (rev u) t (rev poly) _ _ Hp' Ea) as (ja & Ra' & Va').
    destruct (read_vertex (rev u) t (rev poly) _ _ Hp' Ed) as (jd & Rd' & Vd').
    pose proof Ea as Ea'. pose proof Eb as Eb'. pose proof Ec as Ec'.
    rewrite nth_error_rev in Ea', Eb', Ec' by lia.
    destruct (read_vertex u t poly _ _ Hp Ea') as (ia & Ra & Va).
    destruct (read_vertex u t poly _ _ Hp Eb') as (ib & Rb & Vb).
    destruct (read_vertex u t poly _ _ Hp Ec') as (ic & Rc & Vc).
    rewrite <- Ef in Ra, Rb, Rc.
    replace (Z.of_nat n - 2)%Z with (Z.of_nat (length poly - 2)) by lia.
    replace (Z.of_nat n - 1)%Z with (Z.of_nat (length poly - 1)) by lia.
    rewrite Ra. cbn [bind]. rewrite Rb. cbn [bind]. rewrite Va. cbn [bind]. rewrite Vb. cbn [bind].
    replace (length poly - S (n - 1))%nat with 0%nat in Rc by lia.
    assert (HO : orient a b c < 0).
    { assert (0 < orient b a c).
      { apply Hc.
        - apply (edge_nth (rev poly) 0); auto.
        - eapply nth_error_In; eauto.
        - eapply nodup_nth; eauto. lia.
        - eapply nodup_nth; eauto. lia. }
      rewrite (orient_swap b a). lra. }
    assert (HO2 : 0 < orient b a d).
    { apply Hc.
      - apply (edge_nth (rev poly) 0); auto.
      - eapply nth_error_In; eauto.
      - eapply nodup_nth; eauto.
      - eapply nodup_nth; eauto. }
    assert (En : exists m, n = S (S (S m))) by (exists (n - 3)%nat; lia). destruct En as (m & En).
    replace (ccw_loop vs n n 0%Z f a b) with (ccw_loop vs n (S (S (S m))) 0%Z f a b) by now rewrite <- En.
    cbn [ccw_loop]. change (aget f 0%Z) with (aget f (Z.of_nat 0)).
    rewrite Rc. cbn [bind]. rewrite Vc. cbn [bind]. cbv zeta. rewrite product_orient.
    rsimp. rewrite Req_bool_false by lra. rewrite Rlt_bool_true by lra.
    replace (Z.of_nat n) with (zlen u) by reflexivity. rewrite Ef at 1. rewrite flip_ok. cbn [bind].
    change (0 + 1)%Z with (Z.of_nat 1). change (Z.of_nat 1 + 1)%Z with (Z.of_nat 2).
    rewrite Ra'. cbn [bind]. rewrite Va'. cbn [bind]. rewrite !product_orient.
    rewrite (orient_12 a b). rewrite Req_bool_true by reflexivity.
    rewrite Rd'. cbn [bind]. rewrite Vd'. cbn [bind]. rewrite !product_orient.
    rewrite Req_bool_false by lra. rewrite Rlt_bool_false by lra. reflexivity.
  Qed.
End Face.
