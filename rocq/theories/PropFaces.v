(** Property theorems over exact reals: locate_faces (C23, C24). *)
From Verif Require Import RBase MGeometry MAlgorithms MQuery MCelltree SpecTree SpecQuery SpecApi PMesh PInit PBuild PQuery PPoints PTreeFacts PApi
  NumSub SpecPoly SpecMesh GTriangle GConvex GHull GRay GCcw GBuild GFaces GHelly GSat PFaces PropSmall Examples PropEdges PropPoints.
Open Scope R_scope.

(** ** C23: the separating axis test is exact *)
Theorem C23_separating_axes_exact a b : convex_ccw a -> convex_ccw b -> small a -> small b ->
  exists r1 r2, separating_axes a b = Ok r1 /\ separating_axes b a = Ok r2
    /\ ((r1 && r2 = true)%bool <-> exists p, open_hull a p /\ open_hull b p).
Proof.
  intros Ca Cb Sa Sb.
  assert (N : forall poly, convex_ccw poly -> poly <> []) by (intros [|x l] (H & _); [cbn in H; lia|discriminate]).
  destruct (separating_axes_iff a b) as (r1 & E1 & H1); auto.
  destruct (separating_axes_iff b a) as (r2 & E2 & H2); auto.
  exists r1, r2. split; auto. split; auto.
  rewrite andb_true_iff, H1, H2, (sat_exact a b Ca Cb).
  split; intros (p & A & B); exists p; split; apply interior_open_hull; auto.
Qed.

Lemma poly_of_in (vs : list pt) f poly p : poly_of vs f poly -> In p poly -> In p vs.
Proof.
  intros H. induction H as [|? ? ? ? (_ & E) _ IH]; intros []; auto. subst. eapply nth_error_In; eauto.
Qed.
Lemma small_poly vs f poly : small vs -> poly_of vs f poly -> small poly.
Proof.
  unfold small. intros H Hp. rewrite Forall_forall in *. intros p Hin. apply H. eapply poly_of_in; eauto.
Qed.

(** boxes of polygons whose interiors meet overlap strictly *)
Lemma interior_box poly b p : convex_ccw poly -> tight_box poly b -> interior poly p ->
  xmin b < px p < xmax b /\ ymin b < py p < ymax b.
Proof.
  intros Hc (HF & _) Hp. rewrite Forall_forall in HF.
  destruct (interior_beyond poly p 1 0 Hc Hp) as (v1 & I1 & L1); [left; lra|].
  destruct (interior_beyond poly p (-1) 0 Hc Hp) as (v2 & I2 & L2); [left; lra|].
  destruct (interior_beyond poly p 0 1 Hc Hp) as (v3 & I3 & L3); [right; lra|].
  destruct (interior_beyond poly p 0 (-1) Hc Hp) as (v4 & I4 & L4); [right; lra|].
  destruct (HF v1 I1) as (_ & A1 & _), (HF v2 I2) as (A2 & _), (HF v3 I3) as (_ & _ & _ & A3), (HF v4 I4) as (_ & _ & A4 & _).
  rsimp. rb. lra.
Qed.

Lemma with_fill_id faces : map (with_fill (-1)) faces = faces.
Proof.
  rewrite <- (map_id faces) at 2. apply map_ext. intros f. unfold with_fill. rewrite <- (map_id f) at 2.
  apply map_ext. intros i. destruct (Z.eqb_spec i (-1)); lia.
Qed.

Lemma stored_faces vs fs fs' j : Forall (wf_face (length vs)) fs -> counter_clockwise vs fs = Ok fs' ->
  forall f', nth_error fs' j = Some f' ->
  exists f poly, nth_error fs j = Some f /\ poly_of vs f poly /\ same_face f f'
    /\ (convex poly -> exists poly', poly_of vs f' poly' /\ convex_ccw poly' /\ (poly' = poly \/ poly' = rev poly)).
Proof.
  intros Hw E f' En. pose proof (counter_clockwise_convex vs fs fs' Hw E) as HF.
  assert (Hl : (j < length fs)%nat) by (rewrite (F2_length _ _ _ HF); apply nth_error_Some; congruence).
  destruct (nth_error fs j) as [f|] eqn:Ef; [|apply nth_error_None in Ef; lia].
  destruct (Forall2_nth _ _ _ _ _ _ HF Ef En) as (Hs & H).
  rewrite Forall_forall in Hw. destruct (wf_poly vs f (Hw f (nth_error_In _ _ Ef))) as (poly & Hp).
  exists f, poly. split; auto.
Qed.

Definition poly_same (a b : list pt) : Prop := b = a \/ b = rev a.
Lemma same_face_poly vs f f' poly : wf_face (length vs) f -> same_face f f' -> poly_of vs f poly ->
  exists poly', poly_of vs f' poly' /\ poly_same poly poly'.
Proof.
  intros Hw (_ & [E|E]) Hp.
  - exists poly. split; [|now left]. unfold poly_of. now rewrite E.
  - exists (rev poly). split; [|now right]. unfold poly_of. rewrite E. now apply Forall2_rev.
Qed.

(** locate_faces returns exactly the pairs of faces whose interiors overlap *)
Theorem C23_locate_faces_exact g vs faces fill nb cpl (t : tree2d (T:=R)) :
  mesh_ok vs faces fill -> convex_mesh vs faces fill -> small vs ->
  CellTree2d_init g vs faces fill nb cpl = Ok t ->
  forall vs_ qfaces, faces_ok vs_ qfaces -> convex_mesh vs_ qfaces (-1) -> small vs_ ->
  exists pairs qfaces',
    (forall g' n_threads, (1 <= n_threads)%nat ->
       CellTree2d_locate_faces g' n_threads t vs_ qfaces = Ok (pairs, qfaces'))
    /\ NoDup pairs
    /\ forall i j, In (i, j) pairs <->
         exists a b p, face_poly vs_ qfaces (-1) i a /\ face_poly vs faces fill j b
           /\ open_hull a p /\ open_hull b p.
Proof.
  intros Hm Hc Hs E vs_ qf Hq Hcq Hsq.
  destruct (locate_faces_result _ _ _ _ _ _ _ Hm E vs_ qf Hq) as (pairs & qf' & Ecc & Hr & Hnd & Hin).
  exists pairs, qf'. split; auto. split; auto.
  pose proof (init_built _ _ _ _ _ _ _ Hm E) as Hb.
  intros i j. rewrite Hin. split.
  - intros (fa & fb & a & b & ba & bb & H0 & H1 & Ea & Eb & Pa & Pb & Ta & Tb & Ebb & Ho & (X1 & X2)).
    destruct (stored_faces vs_ qf qf' _ (fo_faces _ _ Hq) Ecc fa Ea) as (f & a0 & Ef & Pf & _ & Hcv).
    assert (FA : face_poly vs_ qf (-1) i a0) by (exists f; rewrite with_fill_id; auto).
    destruct (Hcv (Hcq _ _ FA)) as (a' & Pa' & Ca & Oa).
    assert (a' = a) by (eapply poly_of_unique; eauto). subst a'.
    destruct (stored_back _ _ _ _ _ _ _ _ _ Hm E H1 Eb) as (b0 & FB).
    destruct (stored_poly _ _ _ _ _ _ _ _ _ Hm Hc E FB) as (fb2 & b' & b2 & _ & Eb2 & _ & Pb2 & Cb & Ob & _).
    rewrite Eb in Eb2. inversion Eb2; subst fb2.
    assert (b' = b) by (eapply poly_of_unique; eauto). subst b'.
    destruct (C23_separating_axes_exact a b Ca Cb (small_poly _ _ _ Hsq Pa) (small_poly _ _ _ Hs Pb)) as (r1 & r2 & E1 & E2 & H).
    rewrite X1 in E1. rewrite X2 in E2. apply Ok_inj in E1, E2. subst r1 r2.
    destruct (proj1 H eq_refl) as (p & A & B).
    exists a0, b0, p. split; auto. split; auto. split; [now apply (open_hull_either a0 a)|now apply (open_hull_either b0 b)].
  - intros (a0 & b0 & p & FA & FB & A & B).
    pose proof (Hcq _ _ FA) as Cva. pose proof FA as (f & H0 & Ef & Pf). rewrite with_fill_id in Ef.
    destruct (Forall2_nth_l _ _ _ _ _ (counter_clockwise_convex vs_ qf qf' (fo_faces _ _ Hq) Ecc) Ef) as (fa & Ea & _ & Hcv).
    destruct (Hcv a0 Pf Cva) as (a & Pa & Ca & Oa).
    destruct (stored_poly _ _ _ _ _ _ _ _ _ Hm Hc E FB) as (fb & b & bb & H1 & Eb & Ebb & Pb & Cb & Ob & Tb).
    assert (A' : open_hull a p) by now apply (open_hull_either a0 a).
    assert (B' : open_hull b p) by now apply (open_hull_either b0 b).
    apply interior_open_hull in A'; auto. apply interior_open_hull in B'; auto.
    assert (Wa : Forall (wf_face (length vs_)) qf').
    { destruct (counter_clockwise_ok vs_ qf (fo_faces _ _ Hq)) as (q2 & E2 & W2 & _).
      rewrite Ecc in E2. apply Ok_inj in E2. now subst. }
    destruct (build_face_bboxes_ok vs_ qf' (fo_vertices _ _ Hq) Wa) as (bbs & _ & _ & Hboxes).
    destruct (Forall2_nth_l _ _ _ _ _ Hboxes Ea) as (ba & _ & a' & Pa' & Ta).
    assert (a' = a) by (eapply poly_of_unique; eauto). subst a'.
    pose proof (interior_box a ba p Ca Ta A') as (Xa & Ya). pose proof (interior_box b bb p Cb Tb B') as (Xb & Yb).
    exists fa, fb, a, b, ba, bb. repeat (split; [assumption|]). split.
    + unfold strict_overlap. rsimp. rewrite !Rlt_bool_true by lra. auto.
    + destruct (C23_separating_axes_exact a b Ca Cb (small_poly _ _ _ Hsq Pa) (small_poly _ _ _ Hs Pb)) as (r1 & r2 & E1 & E2 & H).
      assert (HT : (r1 && r2)%bool = true) by (apply H; exists p; split; apply interior_open_hull; auto).
      apply andb_true_iff in HT as (-> & ->). now split.
Qed.

(** ** C24: faces on opposite sides of the line of one of their edges are never
    reported, whatever their shape *)
Lemma lnorm_swap_apart u v a b : apart (lnorm v u) a b <-> apart (lnorm u v) a b.
Proof.
  assert (H : forall u v a b, apart (lnorm v u) a b -> apart (lnorm u v) a b).
  { clear. intros u v a b [H|H]; [right|left]; intros x y Hx Hy; specialize (H x y Hx Hy);
      unfold proj, lnorm in *; cbn [px py] in *; lra. }
  split; apply H.
Qed.

Lemma line_apart u v a b : line_separates u v a b -> apart (lnorm u v) a b.
Proof.
  intros [(A & B)|(A & B)]; [right|left]; intros x y Hx Hy; rewrite (lnorm_proj u v x), (lnorm_proj u v y);
    specialize (A x Hx); specialize (B y Hy); lra.
Qed.
Lemma line_separates_sym u v a b : line_separates u v a b -> line_separates u v b a.
Proof. intros [(A & B)|(A & B)]; [right|left]; auto. Qed.

Lemma poly_same_in a a' w : poly_same a a' -> In w a' <-> In w a.
Proof. intros [-> | ->]; [tauto|]. symmetry. apply in_rev. Qed.
Lemma poly_same_edge a a' u v : poly_same a a' -> In (u, v) (poly_edges a) ->
  In (u, v) (poly_edges a') \/ In (v, u) (poly_edges a').
Proof. intros [-> | ->] H; auto. right. now apply edges_rev. Qed.
Lemma line_separates_same u v a b a' b' : poly_same a a' -> poly_same b b' ->
  line_separates u v a b -> line_separates u v a' b'.
Proof.
  intros Ha Hb [(A & B)|(A & B)]; [left|right]; (split; intros w Hw);
    try apply (poly_same_in a a' w Ha) in Hw; try apply (poly_same_in b b' w Hb) in Hw; auto.
Qed.

Theorem C24_opposite_sides_not_reported g vs faces fill nb cpl (t : tree2d (T:=R)) :
  mesh_ok vs faces fill -> small vs -> CellTree2d_init g vs faces fill nb cpl = Ok t ->
  forall vs_ qfaces, faces_ok vs_ qfaces -> small vs_ ->
  forall g' n pairs qfaces', (1 <= n)%nat -> CellTree2d_locate_faces g' n t vs_ qfaces = Ok (pairs, qfaces') ->
  forall i j a b, In (i, j) pairs -> face_poly vs_ qfaces (-1) i a -> face_poly vs faces fill j b ->
  forall u v, In (u, v) (poly_edges a) \/ In (u, v) (poly_edges b) -> u <> v -> ~ line_separates u v a b.
Proof.
  intros Hm Hs E vs_ qf Hq Hsq g' n pairs qf1 Hn EL i j a0 b0 Hij FA FB u v He Hne HL.
  destruct (locate_faces_result _ _ _ _ _ _ _ Hm E vs_ qf Hq) as (pairs' & qf' & Ecc & Hr & _ & Hin).
  rewrite (Hr g' n Hn) in EL. apply Ok_inj in EL. inversion EL; subst pairs' qf1; clear EL.
  apply Hin in Hij as (fa & fb & a & b & ba & bb & H0 & H1 & Ea & Eb & Pa & Pb & Ta & Tb & Ebb & Ho & (X1 & X2)).
  destruct FA as (f & _ & Ef & Pf). rewrite with_fill_id in Ef.
  destruct FB as (f2 & _ & Ef2 & Pf2).
  pose proof (init_built _ _ _ _ _ _ _ Hm E) as Hb.
  assert (Sa : poly_same a0 a).
  { pose proof (Forall2_nth _ _ _ _ _ _ (counter_clockwise_convex vs_ qf qf' (fo_faces _ _ Hq) Ecc) Ef Ea) as (Hsf & _).
    pose proof (fo_faces _ _ Hq) as Hw. rewrite Forall_forall in Hw.
    destruct (same_face_poly vs_ f fa a0 (Hw f (nth_error_In _ _ Ef)) Hsf Pf) as (a' & Pa' & S).
    assert (a' = a) by (eapply poly_of_unique; eauto). now subst. }
  assert (Sb : poly_same b0 b).
  { pose proof (Forall2_nth _ _ _ _ _ _ (bt_elements _ _ _ _ _ Hb) Ef2 Eb) as Hsf.
    pose proof (mo_faces _ _ _ Hm) as Hw. rewrite Forall_forall in Hw.
    destruct (same_face_poly vs f2 fb b0 (Hw f2 (nth_error_In _ _ Ef2)) Hsf Pf2) as (b' & Pb' & S).
    assert (b' = b) by (eapply poly_of_unique; eauto). now subst. }
  pose proof (line_separates_same _ _ _ _ _ _ Sa Sb HL) as HL'.
  assert (Na : a <> []) by (destruct Ta as (_ & Hx & _); intros ->; inversion Hx).
  assert (Nb : b <> []) by (destruct Tb as (_ & Hx & _); intros ->; inversion Hx).
  pose proof (small_poly _ _ _ Hsq Pa) as Sma. pose proof (small_poly _ _ _ Hs Pb) as Smb.
  destruct (separating_axes_iff a b Na Nb Sma Smb) as (r1 & E1 & K1).
  destruct (separating_axes_iff b a Nb Na Smb Sma) as (r2 & E2 & K2).
  rewrite X1 in E1. rewrite X2 in E2. apply Ok_inj in E1, E2. subst r1 r2.
  destruct He as [He|He].
  - destruct (poly_same_edge a0 a u v Sa He) as [He'|He'].
    + apply (proj1 K1 eq_refl u v He' Hne). now apply line_apart.
    + apply (proj1 K1 eq_refl v u He' (fun e => Hne (eq_sym e))). apply lnorm_swap_apart. now apply line_apart.
  - apply line_separates_sym in HL'. destruct (poly_same_edge b0 b u v Sb He) as [He'|He'].
    + apply (proj1 K2 eq_refl u v He' Hne). now apply line_apart.
    + apply (proj1 K2 eq_refl v u He' (fun e => Hne (eq_sym e))). apply lnorm_swap_apart. now apply line_apart.
Qed.

(** ** Concrete cases: the mesh against one of its own triangles *)
Lemma grid_small : small (@grid R _).
Proof.
  assert (H : 100 <= IZR (2 ^ 500)) by (apply IZR_le, Z.leb_le; vm_compute; reflexivity).
  unfold small. set (M := IZR (2 ^ 500)) in *. clearbody M.
  apply Forall_forall. intros p Hp. unfold grid in Hp. cbn in Hp.
  repeat destruct Hp as [<-|Hp]; try contradiction; cbn; split; apply Rabs_le; lra.
Qed.
Definition tri_query : list (list Z) := [[6; 7; 11; -1]]%Z.
Lemma tri_ok : faces_ok (@grid R _) tri_query.
Proof.
  constructor; [apply (mo_vertices _ _ _ grid_mesh_R)|].
  repeat constructor; cbn; try lia.
Qed.
Lemma tri_convex : convex_mesh (@grid R _) tri_query (-1).
Proof.
  intros j poly (f & _ & En & Hp). apply nth_error_In in En. cbn in En. destruct En as [<-|[]].
  unfold poly_of in Hp; cbn in Hp; invert_poly. left. convex_check.
Qed.
Lemma tri_a : face_poly (@grid R _) tri_query (-1) 0 [ptZ (2, 1); ptZ (3, 1); ptZ (3, 2)]%Z.
Proof. exists [6; 7; 11; -1]%Z; (split; [lia|]); (split; [reflexivity|]); unfold poly_of; cbn; repeat constructor; auto; lia. Qed.
Lemma tri_b : face_poly (@grid R _) grid_faces (-1) 6 [ptZ (2, 1); ptZ (2, 2); ptZ (3, 2)]%Z.
Proof. exists [6; 10; 11; -1]%Z; (split; [lia|]); (split; [reflexivity|]); unfold poly_of; cbn; repeat constructor; auto; lia. Qed.

(** the triangle overlaps itself ... *)
Example C23_example : exists t pairs q, CellTree2d_init (T:=R) g0 grid grid_faces (-1) 4 2 = Ok t
  /\ CellTree2d_locate_faces g0 2 t grid tri_query = Ok (pairs, q) /\ In (0, 5)%Z pairs.
Proof.
  destruct C04_example as (t & E). exists t.
  destruct (C23_locate_faces_exact _ _ _ _ _ _ _ grid_mesh_R grid_convex grid_small E _ _ tri_ok tri_convex grid_small)
    as (pairs & q & H & _ & Hi). exists pairs, q. split; auto. split; [apply H; lia|].
  apply Hi. exists [ptZ (2, 1); ptZ (3, 1); ptZ (3, 2)]%Z, [ptZ (2, 1); ptZ (3, 1); ptZ (3, 2)]%Z, (Pt (11/4) (5/4)).
  assert (O : open_hull [ptZ (2, 1); ptZ (3, 1); ptZ (3, 2)]%Z (Pt (11/4) (5/4))).
  { exists [1/4; 1/2; 1/4]. split; [reflexivity|]. split; [repeat constructor; lra|]. split; [cbn; lra|].
    apply pt_eq; cbn; lra. }
  split; [exact tri_a|]. split; auto.
  exists [6; 7; 11; -1]%Z; (split; [lia|]); (split; [reflexivity|]); unfold poly_of; cbn; repeat constructor; auto; lia.
Qed.

(** ... but the other triangle of the same square, with which it shares a whole
    edge, is not reported although their boxes coincide: the docstring "Only
    sharing an edge also counts as an intersection" (celltree.py:188-190) is
    wrong *)
Theorem C24_sharing_an_edge_refuted : exists t pairs q a b u v,
  CellTree2d_init (T:=R) g0 grid grid_faces (-1) 4 2 = Ok t
  /\ CellTree2d_locate_faces g0 2 t grid tri_query = Ok (pairs, q)
  /\ face_poly (@grid R _) tri_query (-1) 0 a /\ face_poly (@grid R _) grid_faces (-1) 6 b
  /\ u <> v /\ In (u, v) (poly_edges a) /\ In (u, v) (poly_edges b)
  /\ ~ In (0, 6)%Z pairs.
Proof.
  destruct C04_example as (t & E).
  destruct (C23_locate_faces_exact _ _ _ _ _ _ _ grid_mesh_R grid_convex grid_small E _ _ tri_ok tri_convex grid_small)
    as (pairs & q & H & _ & _).
  assert (HL : CellTree2d_locate_faces g0 2 t grid tri_query = Ok (pairs, q)) by (apply H; lia).
  exists t, pairs, q, [ptZ (2, 1); ptZ (3, 1); ptZ (3, 2)]%Z, [ptZ (2, 1); ptZ (2, 2); ptZ (3, 2)]%Z, (ptZ (3, 2)%Z), (ptZ (2, 1)%Z).
  assert (Hne : ptZ (T:=R) (3, 2)%Z <> ptZ (2, 1)%Z) by (intros Hx; inversion Hx; lra).
  split; [exact E|]. split; [exact HL|]. split; [exact tri_a|]. split; [exact tri_b|]. split; [exact Hne|].
  split; [now left|]. split; [now left|]. intros Hin.
  apply (C24_opposite_sides_not_reported _ _ _ _ _ _ _ grid_mesh_R grid_small E _ _ tri_ok grid_small g0 2%nat _ _ ltac:(lia) HL
           0%Z 6%Z _ _ Hin tri_a tri_b (ptZ (3, 2)%Z) (ptZ (2, 1)%Z)); [left; now left|exact Hne|].
  left. split; intros w Hw; cbn in Hw; repeat destruct Hw as [<-|Hw]; try contradiction; unfold orient; cbn; lra.
Qed.

Print Assumptions C23_separating_axes_exact.
Print Assumptions C23_locate_faces_exact.
Print Assumptions C24_opposite_sides_not_reported.
Print Assumptions C24_sharing_an_edge_refuted.
