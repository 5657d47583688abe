(** locate_faces for any number type: it never fails on documented input, and
    its rows are the box pairs that pass the separating axis test both ways. *)
From Verif Require Import Base Num MUtils MGeometry MCreation MAlgorithms MQuery MCelltree PStack PPartition
  SpecTree PBuild PWalk SpecQuery PQuery PMesh PInit SpecApi PPoints PTreeFacts PApi.
Local Open Scope Z_scope.

Section Faces.
  Context {T : Type} {NT : Num T} {NO : NumOrd T}.
  Notation point := (point T).

  Lemma separating_axes_total (a b : list point) : a <> [] -> exists r, separating_axes a b = Ok r.
  Proof.
    intros H. unfold separating_axes. destruct (exists_last H) as (l & x & E).
    assert (Ea : aget a (zlen a - 1) = Ok x).
    { rewrite E. unfold zlen. rewrite app_length. cbn [length].
      replace (Z.of_nat (length l + 1) - 1) with (Z.of_nat (length l)) by lia.
      apply aget_nat. rewrite nth_error_app2 by lia. now rewrite Nat.sub_diag. }
    rewrite Ea. cbn [bind]. eauto.
  Qed.

  (** both polygons pass each other's axes *)
  Definition axes_pass (a b : list point) : Prop :=
    separating_axes a b = Ok true /\ separating_axes b a = Ok true.

  Lemma polygons_intersect_one_ok g (va vb : list point) fas fbs i j fa fb a b :
    0 <= i -> 0 <= j -> nth_error fas (Z.to_nat i) = Some fa -> nth_error fbs (Z.to_nat j) = Some fb ->
    wf_face (length va) fa -> wf_face (length vb) fb -> poly_of va fa a -> poly_of vb fb b ->
    exists r, polygons_intersect_one g va vb fas fbs (i, j) = Ok r /\ (r = true <-> axes_pass a b).
  Proof.
    intros Hi Hj Ea Eb Wa Wb Pa Pb. unfold polygons_intersect_one. cbn [fst snd].
    rewrite (aget_pos _ _ _ Hi Ea), (aget_pos _ _ _ Hj Eb). cbn [bind].
    rewrite (copy_vertices_ok g _ _ _ Wa Pa), (copy_vertices_ok g _ _ _ Wb Pb). cbn [bind].
    assert (N : forall (vs : list point) f poly, wf_face (length vs) f -> poly_of vs f poly -> poly <> []).
    { intros vs f poly (H3 & _) Hp ->. apply F2_length in Hp. cbn in Hp. lia. }
    destruct (separating_axes_total a b) as (r1 & E1); [now apply (N va fa)|].
    destruct (separating_axes_total b a) as (r2 & E2); [now apply (N vb fb)|].
    unfold axes_pass. rewrite E1, E2. cbn [bind]. destruct r1.
    - exists r2. split; auto. destruct r2; [tauto|]. split; [discriminate|intros (_ & H); discriminate].
    - exists false. split; auto. split; [discriminate|]. intros (H & _). discriminate.
  Qed.

  Lemma mask_map {A} (f : A -> bool) (l : list A) : mask l (map f l) = filter f l.
  Proof. unfold mask. induction l as [|x l IH]; cbn; auto. destruct (f x); cbn; now rewrite IH. Qed.

  (** documented query faces: finite vertices, faces padded with -1 *)
  Record faces_ok (vs : list point) (faces : list (list Z)) : Prop := {
    fo_vertices : Forall finite_point vs;
    fo_faces : Forall (wf_face (length vs)) faces
  }.

  Theorem locate_faces_result g vs faces fill nb cpl (t : tree2d (T:=T)) :
    mesh_ok vs faces fill -> CellTree2d_init g vs faces fill nb cpl = Ok t ->
    forall vs_ qfaces, faces_ok vs_ qfaces ->
    exists pairs qfaces', counter_clockwise vs_ qfaces = Ok qfaces'
      /\ (forall g' n, (1 <= n)%nat -> CellTree2d_locate_faces g' n t vs_ qfaces = Ok (pairs, qfaces'))
      /\ NoDup pairs
      /\ forall i j, In (i, j) pairs <->
           exists fa fb a b ba bb, 0 <= i /\ 0 <= j
             /\ nth_error qfaces' (Z.to_nat i) = Some fa
             /\ nth_error (elements (celltree_data t)) (Z.to_nat j) = Some fb
             /\ poly_of vs_ fa a /\ poly_of vs fb b /\ tight_box a ba /\ tight_box b bb
             /\ nth_error (bb_coords (celltree_data t)) (Z.to_nat j) = Some bb
             /\ strict_overlap ba bb /\ axes_pass a b.
  Proof.
    intros Hm E vs_ qf (Hv & Hf). pose proof (init_built _ _ _ _ _ _ _ Hm E) as Hb.
    destruct (counter_clockwise_ok vs_ qf Hf) as (qf' & Ecc & Hf' & Hsame).
    destruct (build_face_bboxes_ok vs_ qf' Hv Hf') as (bbs & Ebb & Hfin & Hboxes).
    destruct (boxes_result t bbs (built_valid _ _ _ _ _ Hb)) as (rows & Hrows & Hnd & Hin & _).
    pose proof (bt_mesh _ _ _ _ _ Hb) as Hmt. pose proof (bt_vertices _ _ _ _ _ Hb) as Evs.
    (* every short-listed pair *)
    assert (P : forall i j, In (i, j) rows -> exists fa fb a b ba bb, 0 <= i /\ 0 <= j
             /\ nth_error qf' (Z.to_nat i) = Some fa
             /\ nth_error (elements (celltree_data t)) (Z.to_nat j) = Some fb
             /\ poly_of vs_ fa a /\ poly_of vs fb b /\ tight_box a ba /\ tight_box b bb
             /\ nth_error (bb_coords (celltree_data t)) (Z.to_nat j) = Some bb
             /\ strict_overlap ba bb /\ wf_face (length vs_) fa /\ wf_face (length vs) fb).
    { intros i j Hij. apply Hin in Hij as (ba & bb & H0 & H1 & Ea & Eb & Ho).
      assert (Hla : (Z.to_nat i < length qf')%nat).
      { rewrite (F2_length _ _ _ Hboxes). apply nth_error_Some. congruence. }
      destruct (nth_error qf' (Z.to_nat i)) as [fa|] eqn:Efa; [|apply nth_error_None in Efa; lia].
      assert (Hlb : (Z.to_nat j < length (elements (celltree_data t)))%nat).
      { rewrite (F2_length _ _ _ (mt_boxes _ Hmt)). apply nth_error_Some. congruence. }
      destruct (nth_error (elements (celltree_data t)) (Z.to_nat j)) as [fb|] eqn:Efb; [|apply nth_error_None in Efb; lia].
      destruct (Forall2_nth _ _ _ _ _ _ Hboxes Efa Ea) as (a & Pa & Ta).
      destruct (Forall2_nth _ _ _ _ _ _ (mt_boxes _ Hmt) Efb Eb) as (b & Pb & Tb).
      rewrite Evs in Pb. exists fa, fb, a, b, ba, bb.
      assert (wf_face (length vs_) fa) by (rewrite Forall_forall in Hf'; apply Hf'; eapply nth_error_In; eauto).
      assert (wf_face (length vs) fb).
      { pose proof (mt_faces _ Hmt) as Hw. rewrite Forall_forall in Hw. rewrite <- Evs. apply Hw. eapply nth_error_In; eauto. }
      repeat (split; [first [assumption|reflexivity]|]). assumption. }
    set (f := fun ij => match polygons_intersect_one g vs_ vs qf' (elements (celltree_data t)) ij with Ok r => r | Err _ => false end).
    assert (Q : forall i j a b fa fb, 0 <= i -> 0 <= j -> nth_error qf' (Z.to_nat i) = Some fa ->
              nth_error (elements (celltree_data t)) (Z.to_nat j) = Some fb ->
              wf_face (length vs_) fa -> wf_face (length vs) fb -> poly_of vs_ fa a -> poly_of vs fb b ->
              (f (i, j) = true <-> axes_pass a b)
              /\ forall g', polygons_intersect_one g' vs_ vs qf' (elements (celltree_data t)) (i, j) = Ok (f (i, j))).
    { intros i j a b fa fb H0 H1 Ea Eb Wa Wb Pa Pb.
      destruct (polygons_intersect_one_ok g _ _ _ _ _ _ _ _ _ _ H0 H1 Ea Eb Wa Wb Pa Pb) as (r & Er & Hr).
      unfold f. rewrite Er. split; auto. intros g'.
      destruct (polygons_intersect_one_ok g' _ _ _ _ _ _ _ _ _ _ H0 H1 Ea Eb Wa Wb Pa Pb) as (r' & Er' & Hr').
      rewrite Er'. f_equal. rewrite <- Hr' in Hr. destruct r, r'; auto; exfalso; discriminate (proj1 Hr eq_refl) || discriminate (proj2 Hr eq_refl). }
    exists (filter f rows), qf'. split; auto. split; [|split].
    - intros g' n Hn. unfold CellTree2d_locate_faces. rewrite Ecc. cbn [bind]. rewrite Ebb. cbn [bind].
      specialize (Hrows g' n Hn). unfold CellTree2d_locate_boxes in Hrows. rewrite Hrows. cbn [bind].
      unfold polygons_intersect. rewrite Evs. rewrite (Base.mapres_ok _ f).
      + cbn [bind]. now rewrite mask_map.
      + intros (i, j) Hij. destruct (P i j Hij) as (fa & fb & a & b & ba & bb & H0 & H1 & Ea & Eb & Pa & Pb & _ & _ & _ & _ & Wa & Wb).
        now apply (Q i j a b fa fb).
    - now apply NoDup_filter.
    - intros i j. rewrite filter_In. split.
      + intros (Hij & Hfij).
        destruct (P i j Hij) as (fa & fb & a & b & ba & bb & H0 & H1 & Ea & Eb & Pa & Pb & Ta & Tb & Ebb' & Ho & Wa & Wb).
        exists fa, fb, a, b, ba, bb. repeat (split; [assumption|]).
        now apply (Q i j a b fa fb).
      + intros (fa & fb & a & b & ba & bb & H0 & H1 & Ea & Eb & Pa & Pb & Ta & Tb & Ebb' & Ho & Hx).
        assert (Wa : wf_face (length vs_) fa) by (rewrite Forall_forall in Hf'; apply Hf'; eapply nth_error_In; eauto).
        assert (Wb : wf_face (length vs) fb).
        { pose proof (mt_faces _ Hmt) as Hw. rewrite Forall_forall in Hw. rewrite <- Evs. apply Hw. eapply nth_error_In; eauto. }
        split; [|now apply (Q i j a b fa fb)].
        apply Hin. destruct (Forall2_nth_l _ _ _ _ _ Hboxes Ea) as (ba' & Eba & a' & Pa' & Ta').
        assert (a' = a).
        { clear - Pa Pa'. revert a' Pa'. unfold poly_of in *. induction Pa as [|? ? ? ? (_ & E1) _ IH]; intros a' Pa'; inversion Pa' as [|? ? ? ? (_ & E2)]; subst; auto.
          f_equal; [congruence|auto]. }
        subst a'. exists ba', bb. repeat (split; [assumption|]).
        destruct Ta as (A1 & A2 & A3 & A4 & A5), Ta' as (B1 & B2 & B3 & B4 & B5).
        destruct Ho as (O1 & O2 & O3 & O4).
        rewrite Forall_forall in A1, B1. rewrite Exists_exists in *.
        destruct A2 as (p1 & I1 & X1), A3 as (p2 & I2 & X2), A4 as (p3 & I3 & X3), A5 as (p4 & I4 & X4).
        destruct (B1 _ I1) as (C1 & _), (B1 _ I2) as (_ & C2 & _), (B1 _ I3) as (_ & _ & C3 & _), (B1 _ I4) as (_ & _ & _ & C4).
        unfold strict_overlap.
        split; [eapply nle_lt_trans; [exact C1|rewrite X1; exact O1]|].
        split; [eapply nlt_le_trans; [rewrite X2 in C2; exact O2|rewrite <- X2; exact C2]|].
        split; [eapply nle_lt_trans; [exact C3|rewrite X3; exact O3]|].
        eapply nlt_le_trans; [exact O4|rewrite <- X4; exact C4].
  Qed.
End Faces.
