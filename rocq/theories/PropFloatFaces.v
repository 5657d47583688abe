(** Property theorems about binary64: locate_faces (C53). *)
From Coq Require Import Reals Lra Psatz.
From Flocq Require Import IEEE754.BinarySingleNaN Core.
From Verif Require Import RBase NumB64 NumSub NumRoom FBase MUtils MGeometry MAlgorithms MCreation MQuery MCelltree
  SpecTree SpecQuery SpecApi SpecPoly SpecMesh PMesh PInit PBuild PPoints PApi PFaces GTriangle GConvex GHull GCcw GFaces GHelly GSat
  FBuild FMesh FPoint FLocate FCut FOrient FSat Examples PropEdges PropPoints PropFaces PropFloat PropFloatPoints.
Open Scope R_scope.

(** no face has an extremely short side, except repeated corners *)
Definition plain_sides (vs : list pt) (faces : list (list Z)) (fill : Z) : Prop :=
  forall j poly u v, face_poly vs faces fill j poly -> In (u, v) (poly_edges poly) -> plain_side u v.

Lemma plain_side_sym u v : plain_side u v -> plain_side v u.
Proof. intros [->|H]; [now left|]. right. now rewrite extent2_sym. Qed.

Lemma plain_same a a' : poly_same a a' -> (forall u v, In (u, v) (poly_edges a) -> plain_side u v) ->
  forall u v, In (u, v) (poly_edges a') -> plain_side u v.
Proof.
  intros [-> | ->] H u v Hi; auto. apply edges_rev_in in Hi. apply plain_side_sym. auto.
Qed.

Lemma hull_in_rbox poly b p : tight_box poly b -> hull poly p -> in_closed_box p b.
Proof.
  intros (HF & _) H. rewrite Forall_forall in HF. unfold in_closed_box in *.
  destruct (hull_reach poly (Pt 0 0) (Pt 1 0) p H) as (w1 & I1 & L1).
  destruct (hull_reach_down poly (Pt 0 0) (Pt 1 0) p H) as (w2 & I2 & L2).
  destruct (hull_reach poly (Pt 0 0) (Pt 0 1) p H) as (w3 & I3 & L3).
  destruct (hull_reach_down poly (Pt 0 0) (Pt 0 1) p H) as (w4 & I4 & L4).
  unfold orient in *. cbn [px py] in *.
  destruct (HF _ I1) as (? & ? & ? & ?), (HF _ I2) as (? & ? & ? & ?), (HF _ I3) as (? & ? & ? & ?), (HF _ I4) as (? & ? & ? & ?).
  rsimp. rb. repeat split; apply Rle_bool_true; lra.
Qed.

Lemma boxes_meet k (a b : list (point b64)) ba bb c r : Forall (bpt k) a -> Forall (bpt k) b -> tight_box a ba -> tight_box b bb -> 0 < r ->
  (forall p, diamond r c p -> hull (map rp a) p /\ hull (map rp b) p) -> strict_overlap ba bb.
Proof.
  intros Ha Hb Ta Tb Hr HD.
  pose proof (tight_box_B k a ba Ha Ta) as Ta'. pose proof (tight_box_B k b bb Hb Tb) as Tb'.
  destruct (tight_bounded k a ba Ha Ta) as ((A1 & _) & (A2 & _) & (A3 & _) & (A4 & _)).
  destruct (tight_bounded k b bb Hb Tb) as ((B1 & _) & (B2 & _) & (B3 & _) & (B4 & _)).
  assert (D : forall x y, Rabs x + Rabs y <= r -> in_closed_box (Pt (px c + x) (py c + y)) (rbox ba)
                                              /\ in_closed_box (Pt (px c + x) (py c + y)) (rbox bb)).
  { intros x y H. destruct (HD (Pt (px c + x) (py c + y))) as (P & Q).
    - unfold diamond. cbn [px py]. replace (px c + x - px c) with x by ring. now replace (py c + y - py c) with y by ring.
    - split; eapply hull_in_rbox; eauto. }
  assert (R0 : Rabs 0 = 0) by apply Rabs_R0. assert (Rr : Rabs r = r) by (apply Rabs_right; lra).
  assert (Rm : Rabs (- r) = r) by (rewrite Rabs_Ropp; exact Rr).
  destruct (D r 0) as (P1 & Q1); [lra|]. destruct (D (- r) 0) as (P2 & Q2); [lra|].
  destruct (D 0 r) as (P3 & Q3); [lra|]. destruct (D 0 (- r)) as (P4 & Q4); [lra|].
  destruct P1 as (? & ? & ? & ?), P2 as (? & ? & ? & ?), P3 as (? & ? & ? & ?), P4 as (? & ? & ? & ?).
  destruct Q1 as (? & ? & ? & ?), Q2 as (? & ? & ? & ?), Q3 as (? & ? & ? & ?), Q4 as (? & ? & ? & ?).
  cbn [px py rbox xmin xmax ymin ymax] in *. rsimp. rb.
  unfold strict_overlap. rewrite !nltb_B by auto. repeat split; apply Rlt_bool_true; lra.
Qed.

(** ** C53: what locate_faces reports in binary64 *)
Theorem C53_float_locate_faces k g (vs : list (point b64)) faces fill nb cpl (t : tree2d (T:=b64)) :
  (-250 <= k <= 400)%Z -> mesh_ok vs faces fill -> bounded_vertices k vs -> plain_sides (map rp vs) faces fill ->
  CellTree2d_init g vs faces fill nb cpl = Ok t ->
  forall vs_ qfaces, faces_ok vs_ qfaces -> bounded_vertices k vs_ -> plain_sides (map rp vs_) qfaces (-1) ->
  exists pairs qfaces',
    (forall g' n_threads, (1 <= n_threads)%nat -> CellTree2d_locate_faces g' n_threads t vs_ qfaces = Ok (pairs, qfaces'))
    /\ NoDup pairs
    (* every reported pair is a pair of faces *)
    /\ (forall i j, In (i, j) pairs -> exists a b, face_poly (map rp vs_) qfaces (-1) i a /\ face_poly (map rp vs) faces fill j b)
    (* an overlap that is not extremely thin is reported *)
    /\ (forall i j a b c r, face_poly (map rp vs_) qfaces (-1) i a -> face_poly (map rp vs) faces fill j b ->
          7 * bpow radix2 (k - 53) <= r -> (forall p, diamond r c p -> hull a p /\ hull b p) -> In (i, j) pairs)
    (* faces with more than a hairline between them across one of their sides are not reported *)
    /\ (forall i j a b u v, In (i, j) pairs -> face_poly (map rp vs_) qfaces (-1) i a -> face_poly (map rp vs) faces fill j b ->
          In (u, v) (poly_edges a) \/ In (u, v) (poly_edges b) -> u <> v -> ~ line_gap (13 * bpow radix2 (k - 53)) u v a b).
Proof.
  intros Hk Hm HB HP E vs_ qf Hq HBq HPq.
  destruct (locate_faces_result _ _ _ _ _ _ _ Hm E vs_ qf Hq) as (pairs & qf' & Ecc & Hr & Hnd & Hin).
  exists pairs, qf'. split; auto. split; auto.
  pose proof (init_built _ _ _ _ _ _ _ Hm E) as Hb.
  destruct (counter_clockwise_ok vs_ qf (fo_faces _ _ Hq)) as (qf2 & Ecc2 & Wq & Hsame).
  rewrite Ecc in Ecc2. apply Ok_inj in Ecc2. subst qf2.
  (* the polygons of the query *)
  assert (QA : forall i fa a, (0 <= i)%Z -> nth_error qf' (Z.to_nat i) = Some fa -> poly_of vs_ fa a ->
    exists a0, face_poly (map rp vs_) qf (-1) i a0 /\ poly_same a0 (map rp a)).
  { intros i fa a H0 Ea Pa. destruct (Forall2_nth_r _ _ _ _ _ Hsame Ea) as (f & Ef & Hs).
    pose proof (fo_faces _ _ Hq) as Hw. rewrite Forall_forall in Hw.
    destruct (wf_poly vs_ f (Hw f (nth_error_In _ _ Ef))) as (p0 & Hp0). exists (map rp p0). split.
    - exists f. rewrite with_fill_id. split; auto. split; auto. now apply poly_of_map.
    - apply (poly_of_same (map rp vs_) f fa); auto using poly_of_map. }
  assert (FQ : forall i a0, face_poly (map rp vs_) qf (-1) i a0 -> exists fa a, (0 <= i)%Z /\ nth_error qf' (Z.to_nat i) = Some fa
    /\ poly_of vs_ fa a /\ Forall (bpt k) a /\ poly_same a0 (map rp a)).
  { intros i a0 (f & H0 & Ef & Pf). rewrite with_fill_id in Ef.
    destruct (Forall2_nth_l _ _ _ _ _ Hsame Ef) as (fa & Ea & Hs).
    rewrite Forall_forall in Wq. destruct (wf_poly vs_ fa (Wq fa (nth_error_In _ _ Ea))) as (a & Pa).
    exists fa, a. split; auto. split; auto. split; auto. split; [eapply poly_of_bounded; eauto|].
    apply (poly_of_same (map rp vs_) f fa); auto using poly_of_map. }
  assert (U : forall (vs : list (point b64)) f p p', poly_of vs f p -> poly_of vs f p' -> p' = p) by (intros; eapply poly_of_fun; eauto).
  split; [|split].
  - intros i j Hij. apply Hin in Hij as (fa & fb & a & b & ba & bb & H0 & H1 & Ea & Eb & Pa & Pb & _).
    destruct (QA i fa a H0 Ea Pa) as (a0 & FA & _).
    destruct (stored_back_float _ _ _ _ _ _ _ Hm Hb H1 Eb) as (b0 & FB). eauto.
  - intros i j a0 b0 c r FA FB Hrr HD. apply Hin.
    destruct (FQ i a0 FA) as (fa & a & H0 & Ea & Pa & Ba & Sa).
    destruct (stored_float k _ _ _ _ _ _ _ Hb HB FB) as (fb & b & bb & H1 & Eb & Ebb & Pb & Bb & Sb & Tb).
    destruct (build_face_bboxes_ok vs_ qf' (fo_vertices _ _ Hq) Wq) as (bbs & _ & _ & Hboxes).
    destruct (Forall2_nth_l _ _ _ _ _ Hboxes Ea) as (ba & _ & a' & Pa' & Ta).
    rewrite (U _ _ _ _ Pa Pa') in Ta.
    assert (HD' : forall p, diamond r c p -> hull (map rp a) p /\ hull (map rp b) p).
    { intros p Hp. destruct (HD p Hp). split; [now apply (hull_either a0)|now apply (hull_either b0)]. }
    exists fa, fb, a, b, ba, bb. repeat (split; [assumption|]).
    pose proof (bpow_gt_0 radix2 (k - 53)) as Pm.
    split; [apply (boxes_meet k a b ba bb c r); auto; lra|]. split.
    + apply (axes_diamond k a b c r); auto. intros u v Hi. eapply plain_same; [exact Sa| |exact Hi]. intros u' v' Hi'. eapply HPq; eauto.
    + apply (axes_diamond k b a c r); auto.
      * intros u v Hi. eapply plain_same; [exact Sb| |exact Hi]. intros u' v' Hi'. eapply HP; eauto.
      * intros p Hp. destruct (HD' p Hp). now split.
  - intros i j a0 b0 u v Hij FA FB He Hne HG.
    apply Hin in Hij as (fa & fb & a & b & ba & bb & H0 & H1 & Ea & Eb & Pa & Pb & Ta & Tb & Ebb & Ho & (X1 & X2)).
    destruct (FQ i a0 FA) as (fa' & a' & _ & Ea' & Pa' & Ba & Sa). rewrite Ea in Ea'. injection Ea' as <-.
    rewrite (U _ _ _ _ Pa Pa') in Ba, Sa.
    destruct (stored_float k _ _ _ _ _ _ _ Hb HB FB) as (fb' & b' & bb' & _ & Eb' & _ & Pb' & Bb & Sb & _).
    rewrite Eb in Eb'. injection Eb' as <-. rewrite (U _ _ _ _ Pb Pb') in Bb, Sb.
    assert (Na : a <> []) by (destruct Ta as (_ & Hx & _); intros ->; inversion Hx).
    assert (Nb : b <> []) by (destruct Tb as (_ & Hx & _); intros ->; inversion Hx).
    assert (HG' : line_gap (13 * bpow radix2 (k - 53)) u v (map rp a) (map rp b)).
    { destruct HG as [G|G]; [left|right]; intros w x Hw Hx; apply (poly_same_in a0 _ w Sa) in Hw; apply (poly_same_in b0 _ x Sb) in Hx; auto. }
    destruct He as [He|He].
    + rewrite (axes_line_gap k a b u v) in X1; auto; try discriminate; [now apply (poly_same_edge a0)|eapply HPq; eauto].
    + rewrite (axes_line_gap k b a u v) in X2; auto; try discriminate;
        [now apply (poly_same_edge b0)|eapply HP; eauto|now apply line_gap_sym].
Qed.

(** ** Closer than that the answer is decided by rounding *)
Notation q m e := (B754_finite (prec:=prec) (emax:=emax) false m e eq_refl).

(** Two triangles with the side (1.9, 1.8) -- (3.7, 5.6) in common, on either
    side of it: (3.1, 5.4) and (6, 3.2) are the third corners. *)
Definition shared_a : list (point b64) :=
  [Pt (q 8556839292003942 (-52)) (q 8106479329266893 (-52)); Pt (q 8331659310635418 (-51)) (q 6305039478318694 (-50));
   Pt (q 6980579422424269 (-51)) (q 6079859496950170 (-50))].
Definition shared_b : list (point b64) :=
  [Pt (q 8331659310635418 (-51)) (q 6305039478318694 (-50)); Pt (q 8556839292003942 (-52)) (q 8106479329266893 (-52));
   Pt (q 6755399441055744 (-50)) (q 7205759403792794 (-51))].
(** (3.4, 4.6), (4.6, 3.4), (3.1, 6) and (3.8, 4.2), (2.3, 3), (0.3, 0.7): in
    decimals the first corner of the second lies on the first side of the first;
    as doubles it lies inside *)
Definition prick_a : list (point b64) :=
  [Pt (q 7656119366529843 (-51)) (q 5179139571476070 (-50)); Pt (q 5179139571476070 (-50)) (q 7656119366529843 (-51));
   Pt (q 6980579422424269 (-51)) (q 6755399441055744 (-50))].
Definition prick_b : list (point b64) :=
  [Pt (q 8556839292003942 (-51)) (q 4728779608739021 (-50)); Pt (q 5179139571476070 (-51)) (q 6755399441055744 (-51));
   Pt (q 5404319552844595 (-54)) (q 6305039478318694 (-53))].

Lemma two_pow n : IZR (2 ^ Z.of_nat n) = 2 ^ n. Proof. now rewrite <- pow_IZR. Qed.
Ltac b64_points :=
  cbn [map]; unfold rp, B2R, F2R; cbn [px py cond_Zopp Fnum Fexp];
  change (bpow radix2 (-50)) with (/ IZR (2 ^ 50)); change (bpow radix2 (-51)) with (/ IZR (2 ^ 51));
  change (bpow radix2 (-52)) with (/ IZR (2 ^ 52)); change (bpow radix2 (-53)) with (/ IZR (2 ^ 53));
  change (bpow radix2 (-54)) with (/ IZR (2 ^ 54));
  pose proof (two_pow 50) as E0; pose proof (two_pow 51) as E1; pose proof (two_pow 52) as E2; pose proof (two_pow 53) as E3; pose proof (two_pow 54) as E4;
  cbn [Z.of_nat Pos.of_succ_nat Pos.succ] in *; rewrite ?E0, ?E1, ?E2, ?E3, ?E4; unfold Rdiv; reflexivity.

Lemma shared_a_points : map rp shared_a =
  [Pt (8556839292003942 / 2 ^ 52) (8106479329266893 / 2 ^ 52); Pt (8331659310635418 / 2 ^ 51) (6305039478318694 / 2 ^ 50);
   Pt (6980579422424269 / 2 ^ 51) (6079859496950170 / 2 ^ 50)].
Proof. unfold shared_a. b64_points. Qed.
Lemma shared_b_points : map rp shared_b =
  [Pt (8331659310635418 / 2 ^ 51) (6305039478318694 / 2 ^ 50); Pt (8556839292003942 / 2 ^ 52) (8106479329266893 / 2 ^ 52);
   Pt (6755399441055744 / 2 ^ 50) (7205759403792794 / 2 ^ 51)].
Proof. unfold shared_b. b64_points. Qed.
Lemma prick_a_points : map rp prick_a =
  [Pt (7656119366529843 / 2 ^ 51) (5179139571476070 / 2 ^ 50); Pt (5179139571476070 / 2 ^ 50) (7656119366529843 / 2 ^ 51);
   Pt (6980579422424269 / 2 ^ 51) (6755399441055744 / 2 ^ 50)].
Proof. unfold prick_a. b64_points. Qed.
Lemma prick_b_points : map rp prick_b =
  [Pt (8556839292003942 / 2 ^ 51) (4728779608739021 / 2 ^ 50); Pt (5179139571476070 / 2 ^ 51) (6755399441055744 / 2 ^ 51);
   Pt (5404319552844595 / 2 ^ 54) (6305039478318694 / 2 ^ 53)].
Proof. unfold prick_b. b64_points. Qed.

Definition run_faces g g' (a b : list (point b64)) : option (list (Z * Z)) :=
  match CellTree2d_init (T:=b64) g b [[0; 1; 2]]%Z (-1) 4 2 with
  | Ok t => match CellTree2d_locate_faces g' 1 t a [[0; 1; 2]]%Z with Ok r => Some (fst r) | Err _ => None end
  | Err _ => None
  end.
Lemma run_faces_ok g g' a b l : run_faces g g' a b = Some l -> exists t r, CellTree2d_init (T:=b64) g b [[0; 1; 2]]%Z (-1) 4 2 = Ok t
  /\ CellTree2d_locate_faces g' 1 t a [[0; 1; 2]]%Z = Ok (l, r).
Proof.
  unfold run_faces. destruct (CellTree2d_init _ _ _ _ _ _) as [t|]; [|discriminate].
  destruct (CellTree2d_locate_faces _ _ _ _ _) as [(l', r)|] eqn:E; [|discriminate].
  intros H. injection H as <-. exists t, r. auto.
Qed.

Lemma shared_run g g' : run_faces g g' shared_a shared_b = Some [(0, 0)]%Z.
Proof. vm_compute. reflexivity. Qed.
Lemma prick_run g g' : run_faces g g' prick_a prick_b = Some [].
Proof. vm_compute. reflexivity. Qed.

Lemma shared_a_convex : convex_ccw (map rp shared_a). Proof. rewrite shared_a_points. convex_check. Qed.
Lemma shared_b_convex : convex_ccw (map rp shared_b). Proof. rewrite shared_b_points. convex_check. Qed.
Lemma prick_a_convex : convex_ccw (map rp prick_a). Proof. rewrite prick_a_points. convex_check. Qed.
Lemma prick_b_convex : convex_ccw (map rp prick_b). Proof. rewrite prick_b_points. convex_check. Qed.

Lemma three_ok (a : list (point b64)) : length a = 3%nat -> Forall (finite_point) a -> faces_ok a [[0; 1; 2]]%Z /\ mesh_ok a [[0; 1; 2]]%Z (-1).
Proof.
  intros H3 HF. split; constructor; auto; try discriminate; repeat constructor; simpl; lia.
Qed.

(** The exactness of C23 does not survive rounding, in either direction: two
    triangles on opposite sides of a common side are reported, two triangles with
    common inner points are not. *)
Theorem C53_float_exact_refuted :
  (exists a b u v, faces_ok a [[0; 1; 2]]%Z /\ mesh_ok b [[0; 1; 2]]%Z (-1) /\ convex_ccw (map rp a) /\ convex_ccw (map rp b)
     /\ In (u, v) (poly_edges (map rp a)) /\ In (v, u) (poly_edges (map rp b)) /\ line_separates u v (map rp a) (map rp b)
     /\ forall g g', exists t r, CellTree2d_init g b [[0; 1; 2]]%Z (-1) 4 2 = Ok t
          /\ CellTree2d_locate_faces g' 1 t a [[0; 1; 2]]%Z = Ok ([(0, 0)]%Z, r))
  /\ (exists a b p, faces_ok a [[0; 1; 2]]%Z /\ mesh_ok b [[0; 1; 2]]%Z (-1) /\ convex_ccw (map rp a) /\ convex_ccw (map rp b)
     /\ open_hull (map rp a) p /\ open_hull (map rp b) p
     /\ forall g g', exists t r, CellTree2d_init g b [[0; 1; 2]]%Z (-1) 4 2 = Ok t
          /\ CellTree2d_locate_faces g' 1 t a [[0; 1; 2]]%Z = Ok ([], r)).
Proof.
  split.
  - exists shared_a, shared_b, (Pt (8556839292003942 / 2 ^ 52) (8106479329266893 / 2 ^ 52)), (Pt (8331659310635418 / 2 ^ 51) (6305039478318694 / 2 ^ 50)).
    split; [apply three_ok; [reflexivity|repeat constructor]|]. split; [apply three_ok; [reflexivity|repeat constructor]|].
    split; [exact shared_a_convex|]. split; [exact shared_b_convex|].
    rewrite shared_a_points, shared_b_points.
    split; [right; now left|]. split; [right; now left|]. split.
    + left. split; intros w Hw; cbn in Hw; repeat destruct Hw as [<-|Hw]; try contradiction; unfold orient; cbn [px py]; lra.
    + intros g g'. apply run_faces_ok. apply shared_run.
  - exists prick_a, prick_b, (comb [1 - 2 / 2 ^ 60; 1 / 2 ^ 60; 1 / 2 ^ 60] (map rp prick_b)).
    split; [apply three_ok; [reflexivity|repeat constructor]|]. split; [apply three_ok; [reflexivity|repeat constructor]|].
    split; [exact prick_a_convex|]. split; [exact prick_b_convex|]. split; [|split].
    + apply (interior_open_hull _ _ prick_a_convex). rewrite prick_a_points, prick_b_points.
      intros u v He. cbn in He. repeat destruct He as [He|He]; try contradiction; inversion He; subst u v;
        unfold orient, comb; cbn [px py map combine fst snd sumR]; lra.
    + eexists. split; [|split; [|split; [|reflexivity]]]; [reflexivity|repeat constructor; lra|cbn [sumR]; lra].
    + intros g g'. apply run_faces_ok. apply prick_run.
Qed.

(** ** A concrete case: the grid of Examples against one of its triangles *)
Definition wedge {T} {NT : Num T} : list (point T) := map ptZ [(2, 0); (4, 0); (4, 3)]%Z.
Definition wedge_faces : list (list Z) := [[0; 1; 2]]%Z.

Lemma far_side (u v : pt) : 1 <= Rabs (px v - px u) \/ 1 <= Rabs (py v - py u) -> plain_side u v.
Proof.
  intros H. right. apply Rle_trans with 1; [change 1 with (bpow radix2 0); apply bpow_le; lia|]. unfold extent2.
  destruct H; eapply Rle_trans; [eassumption|apply Rmax_l|eassumption|apply Rmax_r].
Qed.
Ltac plain_check :=
  let j := fresh in let poly := fresh in let u := fresh in let v := fresh in let f := fresh in let En := fresh in let Hp := fresh in let He := fresh in
  intros j poly u v (f & _ & En & Hp) He; apply nth_error_In in En; cbn in En;
  repeat destruct En as [En|En]; try contradiction; subst f; unfold poly_of in Hp; cbn in Hp; invert_poly; cbn in He;
  repeat destruct He as [He|He]; try contradiction; inversion He; subst u v;
  apply far_side; cbn [px py ptZ fst snd nofZ NumR];
  first [left; unfold Rabs; destruct Rcase_abs; lra | right; unfold Rabs; destruct Rcase_abs; lra].

Lemma grid_plain : plain_sides (@grid R _) grid_faces (-1). Proof. plain_check. Qed.
Lemma wedge_plain : plain_sides (@wedge R _) wedge_faces (-1). Proof. plain_check. Qed.
Lemma wedge_rp : map rp (@wedge b64 _) = @wedge R _.
Proof.
  unfold wedge. cbn [map]. unfold rp, ptZ. cbn [px py fst snd]. change (@nofZ b64 _) with Zb.
  rewrite !(fun n H => proj2 (Zb_exact n H)) by lia. reflexivity.
Qed.
Lemma wedge_ok : faces_ok (@wedge b64 _) wedge_faces.
Proof. apply three_ok; [reflexivity|repeat constructor]. Qed.

Lemma diamond_lin r c p : diamond r c p -> px p - px c + (py p - py c) <= r /\ px p - px c - (py p - py c) <= r
  /\ - (px p - px c) + (py p - py c) <= r /\ - (px p - px c) - (py p - py c) <= r.
Proof.
  unfold diamond. pose proof (Rle_abs (px p - px c)). pose proof (Rle_abs (py p - py c)).
  pose proof (Rle_abs (- (px p - px c))). pose proof (Rle_abs (- (py p - py c))). rewrite Rabs_Ropp in *. lra.
Qed.

(** The wedge (2, 0), (4, 0), (4, 3) cuts the corner off one of the two triangles
    of the last square and misses the other, although their boxes overlap. *)
Example C53_example : exists t pairs q', CellTree2d_init (T:=b64) g0 grid grid_faces (-1) 4 2 = Ok t
  /\ CellTree2d_locate_faces g0 2 t wedge wedge_faces = Ok (pairs, q')
  /\ In (0, 5)%Z pairs /\ ~ In (0, 6)%Z pairs.
Proof.
  destruct grid_built_B64 as (t & E & _).
  assert (Bg : bounded_vertices 2 (@grid b64 _)) by (apply zbounded; [lia|vm_compute; reflexivity]).
  assert (Bw : bounded_vertices 2 (@wedge b64 _)) by (apply zbounded; [lia|vm_compute; reflexivity]).
  destruct (C53_float_locate_faces 2 g0 grid grid_faces (-1) 4 2 t ltac:(lia) grid_mesh_B64 Bg ltac:(rewrite grid_rp; exact grid_plain) E
              wedge wedge_faces wedge_ok Bw ltac:(rewrite wedge_rp; exact wedge_plain)) as (pairs & q' & HR & _ & _ & HC & HS).
  rewrite grid_rp, wedge_rp in HC, HS.
  exists t, pairs, q'. split; auto. split; [apply HR; lia|].
  assert (FW : face_poly (@wedge R _) wedge_faces (-1) 0 [ptZ (2, 0); ptZ (4, 0); ptZ (4, 3)]%Z).
  { exists [0; 1; 2]%Z; (split; [lia|]); (split; [reflexivity|]); unfold poly_of; cbn; repeat constructor; auto; lia. }
  assert (F5 : face_poly (@grid R _) grid_faces (-1) 5 [ptZ (2, 1); ptZ (3, 1); ptZ (3, 2)]%Z).
  { exists [6; 7; 11; -1]%Z; (split; [lia|]); (split; [reflexivity|]); unfold poly_of; cbn; repeat constructor; auto; lia. }
  assert (Um : 13 * bpow radix2 (2 - 53) <= / 32).
  { apply Rle_trans with (13 * bpow radix2 (-9)); [apply Rmult_le_compat_l; [lra|apply bpow_le; lia]|change (bpow radix2 (-9)) with (/ 512); lra]. }
  pose proof (bpow_gt_0 radix2 (2 - 53)) as Pm. split.
  - apply (HC 0%Z 5%Z _ _ (Pt (29 / 10) (11 / 10)) (/ 32) FW F5); [lra|]. intros p Hp. apply diamond_lin in Hp. cbn [px py] in Hp.
    split; apply in_poly_hull; try convex_check; intros u v He; cbn in He; repeat destruct He as [He|He]; try contradiction; inversion He; subst u v;
      unfold orient; cbn [px py ptZ fst snd nofZ NumR]; lra.
  - intros Hin. apply (HS 0%Z 6%Z _ _ (ptZ (4, 3)%Z) (ptZ (2, 0)%Z) Hin FW tri_b); [left; now left|intros H; inversion H; lra|].
    right. intros w x Hw Hx. assert (Ex : extent2 (ptZ (4, 3)%Z) (ptZ (2, 0)%Z) = 3).
    { unfold extent2. cbn [px py ptZ fst snd nofZ NumR]. rewrite !Rabs_left by lra. rewrite Rmax_right; lra. }
    assert (13 * bpow radix2 (2 - 53) * extent2 (ptZ (4, 3)%Z) (ptZ (2, 0)%Z) <= / 10) by (rewrite Ex; lra).
    cbn in Hw, Hx. repeat destruct Hw as [<-|Hw]; try contradiction; repeat destruct Hx as [<-|Hx]; try contradiction;
      unfold orient in *; cbn [px py ptZ fst snd nofZ NumR] in *; lra.
Qed.

Print Assumptions C53_float_locate_faces.
Print Assumptions C53_float_exact_refuted.
