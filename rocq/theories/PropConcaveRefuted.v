(** What convexity is needed for, with concrete inputs in IEEE binary64 (C69). *)
From Coq Require Import Reals Lra.
From Flocq Require Import Core BinarySingleNaN.
From Verif Require Import Base Num MUtils MGeometry MCreation MAlgorithms MQuery MCelltree
  SpecTree SpecQuery SpecApi NumR NumB64 NumRoom SpecGeom SpecPoly SpecMesh SpecConcave Examples CsHang GHull PropRefuted PropConcave.
Open Scope Z_scope.

Definition ell_box : box b64 := Box (Zb 0) (Zb 2) (Zb 0) (Zb 2).
Definition ell_edge : point b64 * point b64 := (Pt (bf 3 (-2)) (bf 7 (-2)), Pt (bf 7 (-2)) (bf 3 (-2))).

Lemma ell_meshB : mesh_ok (T:=b64) grid ell_faces (-1).
Proof. constructor; [apply (mo_vertices _ _ _ grid_mesh_B64)|discriminate|]. repeat constructor; cbn; try lia. Qed.
Definition osf (p : option (point b64)) := match p with Some q => Some (B2SF (px q), B2SF (py q)) | None => None end.

(** the L of [PropConcave]: locate_faces reports it for the missing corner, with
    which it shares no interior point; intersect_boxes gives area 1 for a box
    that contains the L, whose area is 3; intersect_edges gives the L all of a
    segment whose middle lies in the missing corner *)
Theorem C69_concave_refuted : exists t rows pairs q area,
  mesh_ok (T:=b64) grid ell_faces (-1)
  /\ CellTree2d_init g0 grid ell_faces (-1) 4 2 = Ok t
  /\ CellTree2d_locate_faces g0 1 t grid [[5; 6; 10; 9]] = Ok (pairs, q)
  /\ In (0, 0) pairs /\ (forall P p, In P [ell_lower; ell_upper] -> ~ (open_hull P p /\ open_hull notch p))
  /\ CellTree2d_intersect_boxes g0 1 t [ell_box] = Ok area
  /\ In ((0, 0), Zb 1) area /\ (shoelace ell_lower + shoelace ell_upper = 3)%R
  /\ CellTree2d_intersect_edges g0 9 1 t [ell_edge] = Ok rows
  /\ In ((0, 0), (Some (fst ell_edge), Some (snd ell_edge))) rows
  /\ ~ region [ell_lower; ell_upper] (Pt (5/4) (5/4))%R.
Proof.
  assert (H : match CellTree2d_init (T:=b64) g0 grid ell_faces (-1) 4 2 with
     | Ok t => match CellTree2d_locate_faces g0 1 t grid [[5; 6; 10; 9]] with
       | Ok a => match CellTree2d_intersect_boxes g0 1 t [ell_box] with
         | Ok b => match CellTree2d_intersect_edges g0 9 1 t [ell_edge] with
           | Ok c => (fst a, map (fun r => (fst r, B2SF (snd r))) b, map (fun r => (fst r, (osf (fst (snd r)), osf (snd (snd r))))) (firstn 1 c))
           | Err _ => ([], [], []) end
         | Err _ => ([], [], []) end
       | Err _ => ([], [], []) end
     | Err _ => ([], [], []) end
     = ([(0, 0); (0, 1)], [((0, 0), B2SF (Zb 1)); ((0, 1), B2SF (Zb 1))],
        [((0, 0), (osf (Some (fst ell_edge)), osf (Some (snd ell_edge))))])) by (vm_compute; reflexivity).
  okay t E1. okay (pairs, q) E2. okay area E3. okay rows E4. exists t, rows, pairs, q, area.
  pose proof (f_equal (fun x => fst (fst x)) H) as H1. pose proof (f_equal (fun x => snd (fst x)) H) as H2. pose proof (f_equal snd H) as H3.
  cbn [fst snd] in H1, H2, H3. clear H.
  split; [exact ell_meshB|]. split; auto. split; auto. split; [rewrite H1; now left|]. split.
  { intros P p HP (A & B). apply GHull.interior_open_hull in B; [|exact notch_convex].
    destruct HP as [<-|[<-|[]]].
    - apply GHull.interior_open_hull in A; [|exact lower_convex].
      specialize (A (ptZ (2, 1)) (ptZ (1, 1)) ltac:(cbn; auto 6)). specialize (B (ptZ (1, 1)) (ptZ (2, 1)) ltac:(cbn; auto 6)).
      unfold orient in *. cbn in *. lra.
    - apply GHull.interior_open_hull in A; [|exact upper_convex].
      specialize (A (ptZ (1, 1)) (ptZ (1, 2)) ltac:(cbn; auto 6)). specialize (B (ptZ (1, 2)) (ptZ (1, 1)) ltac:(cbn; auto 6)).
      unfold orient in *. cbn in *. lra. }
  split; auto. split.
  { destruct area as [|(ij, x) area]; [discriminate|]. cbn [map fst snd] in H2.
    assert (Hx : B2SF x = B2SF (Zb 1)) by congruence. assert (ij = (0, 0)) by congruence.
    subst ij. apply B2SF_inj in Hx. subst x. now left. }
  split; [unfold shoelace, ell_lower, ell_upper; cbn; lra|]. split; auto. split.
  { destruct rows as [|(ij, (x, y)) rows]; [discriminate|]. cbn [firstn map fst snd] in H3.
    assert (HO : forall a b, osf a = osf b -> a = b).
    { intros [(a1, a2)|] [(b1, b2)|] HE; try discriminate; auto. cbn [osf px py] in HE.
      assert (A : B2SF a1 = B2SF b1) by congruence. assert (B : B2SF a2 = B2SF b2) by congruence.
      apply B2SF_inj in A, B. now subst. }
    assert (Hij : ij = (0, 0)) by congruence.
    assert (Hx : osf x = osf (Some (fst ell_edge))) by congruence. assert (Hy : osf y = osf (Some (snd ell_edge))) by congruence.
    apply HO in Hx, Hy. subst. now left. }
  intros (P & HP & HH). destruct HP as [<-|[<-|[]]].
  - apply GHull.in_poly_hull in HH; [|exact lower_convex]. specialize (HH (ptZ (2, 1)) (ptZ (1, 1)) ltac:(cbn; auto 6)). unfold orient in HH. cbn in HH. lra.
  - apply GHull.in_poly_hull in HH; [|exact upper_convex]. specialize (HH (ptZ (1, 1)) (ptZ (1, 2)) ltac:(cbn; auto 6)). unfold orient in HH. cbn in HH. lra.
Qed.

Print Assumptions C69_concave_refuted.
