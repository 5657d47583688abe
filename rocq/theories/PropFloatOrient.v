(** Property theorems about binary64: the orientation of faces (C52). *)
From Coq Require Import Reals Lra Psatz.
From Flocq Require Import IEEE754.BinarySingleNaN Core.
From Verif Require Import RBase NumB64 NumSub NumRoom FBase MUtils MGeometry MAlgorithms MCreation MQuery MCelltree
  SpecTree SpecQuery SpecApi SpecPoly SpecMesh SpecArea PMesh PInit PBuild PPoints PApi GTriangle GConvex GHull GCcw GFaces GArea
  FBuild FMesh FPoint FLocate FCut FClip FArea FOrient FTurn FOverlap Examples PropEdges PropPoints PropFloat PropFloatPoints.
Open Scope R_scope.

(** ** C52: faces are stored counter-clockwise in binary64, if no corner is nearly straight *)
Theorem C52_float_counter_clockwise k g (vs : list (point b64)) faces fill nb cpl t :
  (-251 <= k <= 400)%Z -> mesh_ok vs faces fill -> bounded_vertices k vs ->
  CellTree2d_init g vs faces fill nb cpl = Ok t ->
  Forall2 (fun f f' => same_face f f' /\ forall poly, poly_of vs f poly -> convex (map rp poly) -> clear_face (map rp poly) ->
             exists poly', poly_of vs f' poly' /\ convex_ccw (map rp poly') /\ (poly' = poly \/ poly' = rev poly))
          (map (with_fill fill) faces) (elements (celltree_data t)).
Proof.
  intros Hk Hm HB E. pose proof (init_ccw_float _ _ _ _ _ _ _ Hm E) as Hc.
  pose proof (mo_faces _ _ _ Hm) as Hw. unfold counter_clockwise in Hc. apply mapres_ok_inv in Hc.
  revert Hw. induction Hc as [|f f' l l' Ef _ IH]; intros Hw; constructor; [|apply IH; now inversion Hw].
  inversion Hw as [|? ? Hf Hl]; subst.
  destruct (ccw_face_ok vs f Hf) as (f1 & E1 & Hw1 & Hs1). rewrite Ef in E1. apply Ok_inj in E1. subst f1.
  split; auto. intros poly Hp Hc HC.
  assert (Hpoly : Forall (bpt k) poly).
  { unfold bounded_vertices in HB. rewrite Forall_forall in HB. clear - HB Hp. unfold poly_of in Hp.
    induction Hp as [|i q l l' (_ & Eq) _ IH]; constructor; auto. apply HB. eapply nth_error_In; eauto. }
  destruct (clear_ccw_face k vs f poly Hk Hpoly Hf Hp Hc HC) as (f1 & poly' & E1 & _ & _ & Hp' & Hc' & Ho).
  rewrite Ef in E1. apply Ok_inj in E1. subst f1. eauto.
Qed.

(** normalising twice changes nothing *)
Theorem C52_float_normalisation k (vs : list (point b64)) f poly : (-251 <= k <= 400)%Z ->
  wf_face (length vs) f -> poly_of vs f poly -> Forall (bpt k) poly -> convex (map rp poly) -> clear_face (map rp poly) ->
  exists f', ccw_face vs f = Ok f' /\ ccw_face vs f' = Ok f'
    /\ (convex_ccw (map rp poly) -> f' = f)
    /\ (convex_ccw (map rp (rev poly)) -> until_fill f' = rev (until_fill f)).
Proof.
  intros Hk Hw Hp HB Hc HC.
  assert (H3 : (3 <= length poly)%nat).
  { destruct Hc as [(H & _)|(H & _)]; [now rewrite map_length in H|]. now rewrite rev_length, map_length in H. }
  destruct (clear_ccw_face k vs f poly Hk HB Hw Hp Hc HC) as (f' & poly' & E & Hw' & Hs & Hp' & Hc' & Ho).
  assert (HT : last_turns_ok poly').
  { destruct Ho as [->| ->]; [apply (clear_last_turns k); auto|]. apply (clear_last_turns k); auto.
    - now apply Forall_rev.
    - now rewrite rev_length.
    - rewrite map_rev. intros a b c H1 H2. apply edges_rev_in in H1, H2. apply clear_corner_rev. now apply HC. }
  exists f'. split; auto. split; [eapply ccw_keep_float; eauto|]. split.
  - intros H. rewrite (ccw_keep_float vs f poly Hw Hp H) in E by (apply (clear_last_turns k); auto). apply Ok_inj in E. auto.
  - intros H. rewrite (ccw_flip_float vs f poly Hw Hp H) in E by (apply (clear_last_turns k); auto). apply Ok_inj in E. subst f'.
    now destruct (wf_face_rev _ f Hw) as (_ & ->).
Qed.

(** A strictly convex face with two nearly straight corners in a row, listed
    counter-clockwise, coordinates with one decimal: (7.3, 4.5), (1, 4),
    (3.3, 1.3), (3.8, 1.7), (5.3, 2.9).  Both turns are rounded to the wrong
    sign and the face is stored clockwise; a box well inside the face is found
    to touch it, but their overlap is not reported. *)
Notation q m e := (B754_finite (prec:=prec) (emax:=emax) false m e eq_refl).
Definition dart : list (point b64) :=
  [Pt (q 8219069319951155 (-50)) (q 5066549580791808 (-50)); Pt (q 4503599627370496 (-52)) (q 4503599627370496 (-50));
   Pt (q 7430939385161318 (-51)) (q 5854679515581645 (-52)); Pt (q 8556839292003942 (-51)) (q 7656119366529843 (-52));
   Pt (q 5967269506265907 (-50)) (q 6530219459687219 (-51))].
Definition dart_box : box b64 := Box (Zb 3) (Zb 4) (Zb 3) (Zb 4).

Lemma dart_points : map rp dart =
  [Pt (8219069319951155 / 2 ^ 50) (5066549580791808 / 2 ^ 50); Pt (4503599627370496 / 2 ^ 52) (4503599627370496 / 2 ^ 50);
   Pt (7430939385161318 / 2 ^ 51) (5854679515581645 / 2 ^ 52); Pt (8556839292003942 / 2 ^ 51) (7656119366529843 / 2 ^ 52);
   Pt (5967269506265907 / 2 ^ 50) (6530219459687219 / 2 ^ 51)].
Proof.
  unfold dart. cbn [map]. unfold rp, B2R, F2R. cbn [px py cond_Zopp Fnum Fexp].
  change (bpow radix2 (-50)) with (/ IZR (2 ^ 50)). change (bpow radix2 (-51)) with (/ IZR (2 ^ 51)). change (bpow radix2 (-52)) with (/ IZR (2 ^ 52)).
  replace (IZR (2 ^ 50)) with (2 ^ 50) by (rewrite (pow_IZR 2 50); reflexivity).
  replace (IZR (2 ^ 51)) with (2 ^ 51) by (rewrite (pow_IZR 2 51); reflexivity).
  replace (IZR (2 ^ 52)) with (2 ^ 52) by (rewrite (pow_IZR 2 52); reflexivity).
  unfold Rdiv. reflexivity.
Qed.

Lemma dart_convex : convex_ccw (map rp dart).
Proof. rewrite dart_points. convex_check. Qed.

Lemma dart_run g g' : match CellTree2d_init (T:=b64) g dart [[0; 1; 2; 3; 4]]%Z (-1) 4 2 with
    Ok t => match CellTree2d_locate_boxes g' 1 t [dart_box], CellTree2d_intersect_boxes g' 1 t [dart_box] with
            | Ok a, Ok b => (elements (celltree_data t), a, map fst b) | _, _ => ([], [], []) end
    | Err e => ([], [], []) end = ([[4; 3; 2; 1; 0]]%Z, [(0, 0)]%Z, []).
Proof. vm_compute. reflexivity. Qed.

Theorem C52_float_orientation_refuted : exists (vs : list (point b64)) faces b,
  mesh_ok vs faces (-1) /\ bounded_vertices 3 vs /\ convex_ccw (map rp vs)
  (* the box is inside the face *)
  /\ (forall p, in_box (rbox b) p -> hull (map rp vs) p) /\ float_box 3 b
  /\ forall g g', exists t, CellTree2d_init g vs faces (-1) 4 2 = Ok t
       /\ poly_of vs (nth 0 faces []) vs /\ elements (celltree_data t) = map (@rev Z) faces
       /\ CellTree2d_locate_boxes g' 1 t [b] = Ok [(0, 0)]%Z /\ CellTree2d_intersect_boxes g' 1 t [b] = Ok [].
Proof.
  exists dart, [[0; 1; 2; 3; 4]]%Z, dart_box.
  split. { constructor; [|discriminate|repeat constructor; simpl; lia].
    rewrite Forall_forall. intros p [<-|[<-|[<-|[<-|[<-|[]]]]]]; split; reflexivity. }
  split.
  { assert (G : forall p, In p (map rp dart) -> Rabs (px p) <= bpow radix2 3 /\ Rabs (py p) <= bpow radix2 3).
    { rewrite dart_points. change (bpow radix2 3) with 8. intros p [<-|[<-|[<-|[<-|[<-|[]]]]]]; cbn [px py]; split; apply Rabs_le_iff; lra. }
    apply Forall_forall. intros p Hp. destruct (G _ (in_map rp _ _ Hp)) as (G1 & G2).
    destruct Hp as [<-|[<-|[<-|[<-|[<-|[]]]]]]; split; (split; [reflexivity|assumption]). }
  split; [exact dart_convex|].
  split.
  { intros p (X & Y). apply (in_poly_hull _ _ dart_convex). cbn [rbox xmin xmax ymin ymax dart_box] in X, Y.
    destruct (Zb_exact 3 ltac:(lia)) as (_ & E3), (Zb_exact 4 ltac:(lia)) as (_ & E4). rewrite E3, E4 in X, Y.
    rewrite dart_points. intros u v He. cbn in He. repeat destruct He as [He|He]; try contradiction; inversion He; subst u v;
      unfold orient; cbn [px py]; lra. }
  split.
  { destruct (Zb_exact 3 ltac:(lia)) as (F3 & E3), (Zb_exact 4 ltac:(lia)) as (F4 & E4).
    assert (B3 : NumRoom.bounded 3 (Zb 3)) by (split; [exact F3|rewrite E3; change (bpow radix2 3) with 8; apply Rabs_le_iff; lra]).
    assert (B4 : NumRoom.bounded 3 (Zb 4)) by (split; [exact F4|rewrite E4; change (bpow radix2 3) with 8; apply Rabs_le_iff; lra]).
    unfold float_box, dart_box. cbn [xmin xmax ymin ymax]. repeat (split; auto).
    all: cbn [rbox xmin xmax ymin ymax]; rewrite E3, E4; lra. }
  intros g g'. pose proof (dart_run g g') as H.
  destruct (CellTree2d_init g dart [[0; 1; 2; 3; 4]]%Z (-1) 4 2) as [t|e]; [|discriminate H].
  destruct (CellTree2d_locate_boxes g' 1 t [dart_box]) as [la|e] eqn:EA; [|discriminate H].
  destruct (CellTree2d_intersect_boxes g' 1 t [dart_box]) as [lb|e] eqn:EB; [|discriminate H].
  injection H as H1 H2 H3. exists t. split; auto. split; [unfold poly_of; cbn; repeat constructor; auto; lia|].
  split; [exact H1|]. split; [rewrite EA; now rewrite H2|]. rewrite EB. destruct lb; [reflexivity|discriminate H3].
Qed.

(** ** A concrete case: the grid of Examples *)
Lemma grid_clear j poly : face_poly (@grid R _) grid_faces (-1) j poly -> clear_face poly.
Proof.
  intros (f & _ & En & Hp). apply nth_error_In in En. cbn in En.
  assert (Hu : 9 * (uro * (4 * 4)) < 1 / 2).
  { unfold uro. change 4 with (bpow radix2 2). rewrite <- !bpow_plus. apply Rle_lt_trans with (9 * bpow radix2 (-10)); [|change (bpow radix2 (-10)) with (/ 1024); lra].
    apply Rmult_le_compat_l; [lra|]. apply bpow_le. cbv; discriminate. }
  repeat destruct En as [En|En]; try contradiction; subst f; unfold poly_of in Hp; cbn in Hp; invert_poly;
    intros a b c H1 H2; cbn in H1, H2;
    repeat destruct H1 as [H1|H1]; try contradiction; inversion H1; subst a b;
    repeat destruct H2 as [H2|H2]; try contradiction; injection H2; intros; subst;
    try (exfalso; lra);
    (exists 4; split; [change 4 with (bpow radix2 2); apply bpow_le; lia|split;
      [intros p p' Hp Hp'; cbn in Hp, Hp'; repeat destruct Hp as [<-|Hp]; try contradiction; repeat destruct Hp' as [<-|Hp']; try contradiction;
        cbn [px py ptZ fst snd nofZ NumR]; split; apply Rabs_le_iff; lra
      |eapply Rlt_le_trans; [exact Hu|]; unfold orient; cbn [px py ptZ fst snd nofZ NumR]; unfold Rabs; destruct Rcase_abs; lra]]).
Qed.

Example C52_example : exists t, CellTree2d_init (T:=b64) g0 grid grid_faces (-1) 4 2 = Ok t
  /\ Forall (fun f' => exists poly', poly_of grid f' poly' /\ convex_ccw (map rp poly')) (elements (celltree_data t))
  (* two faces had to be reversed *)
  /\ elements (celltree_data t) <> map (with_fill (-1)) grid_faces.
Proof.
  destruct grid_built_B64 as (t & E & _). exists t. split; auto. split.
  - pose proof (C52_float_counter_clockwise 2 g0 grid grid_faces (-1) 4 2 t ltac:(lia) grid_mesh_B64 ltac:(apply zbounded; [lia|vm_compute; reflexivity]) E) as H.
    pose proof (mo_faces _ _ _ grid_mesh_B64) as Hw. rewrite Forall_forall in Hw.
    apply Forall_forall. intros f' Hf'. apply In_nth_error in Hf' as (n & En').
    destruct (Forall2_nth_r _ _ _ _ _ H En') as (f & En & _ & G).
    destruct (wf_poly grid f (Hw f (nth_error_In _ _ En))) as (poly & Hp).
    assert (F : face_poly (@grid R _) grid_faces (-1) (Z.of_nat n) (map rp poly)).
    { exists f. split; [lia|]. rewrite Nat2Z.id. split; auto. rewrite <- grid_rp. now apply poly_of_map. }
    destruct (G poly Hp (grid_convex _ _ F) (grid_clear _ _ F)) as (poly' & Hp' & Hc' & _). eauto.
  - assert (B : match CellTree2d_init (T:=b64) g0 grid grid_faces (-1) 4 2 with
                | Ok t => nth 2 (elements (celltree_data t)) [] | Err _ => [] end = [3; 7; 6; 2]%Z) by (vm_compute; reflexivity).
    rewrite E in B. intros H. rewrite H in B. discriminate B.
Qed.

Print Assumptions C52_float_counter_clockwise.
Print Assumptions C52_float_normalisation.
Print Assumptions C52_float_orientation_refuted.
