(** Property theorems over exact reals: faces that are not convex (C69). *)
From Verif Require Import RBase MUtils MGeometry MAlgorithms MQuery MCelltree SpecTree SpecQuery SpecApi PMesh PInit PBuild PQuery PPoints PTreeFacts PApi
  NumSub SpecPoly SpecArea SpecMesh SpecHang SpecConcave GTriangle GConvex GHull GRay GCcw GBuild GFaces GArea GHang GHangMesh GConcave
  PFaces PropSmall Examples PropEdges PropPoints PropFaces PropArea.
From Coq Require Import Permutation.
Open Scope R_scope.

Lemma same_pieces Q Q' Ps : poly_same Q Q' -> pieces Q Ps ->
  exists Ps', pieces Q' Ps' /\ (forall p, region Ps' p <-> region Ps p).
Proof.
  intros [->| ->] H; [exists Ps; split; auto; tauto|].
  exists (map (@rev pt) Ps). split; [now apply pieces_rev|]. intros p. apply region_rev.
Qed.
Lemma same_on_outline Q Q' p : poly_same Q Q' -> (on_outline Q' p <-> on_outline Q p).
Proof. intros [->| ->]; [tauto|apply on_outline_rev]. Qed.

Theorem C69_locate_points g vs faces fill nb cpl (t : tree2d (T:=R)) :
  mesh_ok vs faces fill -> simple_mesh vs faces fill -> CellTree2d_init g vs faces fill nb cpl = Ok t ->
  forall g' points tolerance, exists tol js,
    get_tolerance t tolerance = Ok tol
    /\ CellTree2d_locate_points g' t points tolerance = Ok js
    /\ length js = length points
    /\ forall k p j, nth_error points k = Some p -> nth_error js k = Some j -> 0 <= tol ->
         (j <> (-1)%Z -> exists poly, face_poly vs faces fill j poly
            /\ forall Ps, pieces poly Ps -> region Ps p \/ near_boundary (2 * tol) poly p)
         /\ (forall j' poly Ps, face_poly vs faces fill j' poly -> pieces poly Ps ->
               region Ps p -> ~ on_outline poly p -> j <> (-1)%Z)
         /\ (0 < tol -> forall j' poly Ps, face_poly vs faces fill j' poly -> pieces poly Ps -> region Ps p -> j <> (-1)%Z)
         /\ (forall j', (exists poly Ps, face_poly vs faces fill j' poly /\ pieces poly Ps /\ region Ps p /\ ~ on_outline poly p) ->
               (forall j'' poly Ps, face_poly vs faces fill j'' poly -> pieces poly Ps ->
                  region Ps p \/ near_boundary (2 * tol) poly p -> j'' = j') -> j = j').
Proof.
  intros Hm Hc E g' points tolerance. pose proof (init_built _ _ _ _ _ _ _ Hm E) as Hb.
  destruct (points_result _ _ _ _ t tolerance Hb) as (tol & Et & H). destruct (H points) as (js & Hj & HF).
  exists tol, js. split; auto. split; auto. split; [symmetry; eapply F2_length; eauto|].
  intros k p j Ep Ej Htol. pose proof (Forall2_nth _ _ _ _ _ _ HF Ep Ej) as A.
  assert (S : (j <> -1)%Z -> exists poly, face_poly vs faces fill j poly
            /\ forall Ps, pieces poly Ps -> region Ps p \/ near_boundary (2 * tol) poly p).
  { intros Hj1. destruct A as [(f' & poly' & H0 & En & Hp' & Hpass)|(-> & _)]; [|congruence].
    destruct (stored_back _ _ _ _ _ _ _ _ _ Hm E H0 En) as (poly & Hpoly).
    destruct (hang_stored _ _ _ _ _ _ _ _ _ Hm E Hpoly) as (f2 & poly2 & b & _ & En2 & _ & _ & Hp2 & Ho & _).
    rewrite En in En2. inversion En2; subst f2.
    rewrite (bt_vertices _ _ _ _ _ Hb) in Hp'. assert (poly2 = poly') by (eapply poly_of_unique; eauto). subst poly2.
    exists poly. split; auto. intros Ps HP. destruct (same_pieces _ _ _ Ho HP) as (Ps' & HP' & HR).
    destruct (pieces_pip_sound poly' Ps' p tol HP' Htol Hpass) as [Hi|Hn].
    - left. now apply HR.
    - right. now apply (near_either _ poly poly' p Ho). }
  assert (C : forall j' poly Ps, face_poly vs faces fill j' poly -> pieces poly Ps -> region Ps p ->
              (forall poly' Ps', poly_same poly poly' -> pieces poly' Ps' -> region Ps' p ->
                 point_in_polygon_or_on_edge p poly' tol = Ok true) -> j <> (-1)%Z).
  { intros j' poly Ps Hpoly HP Hr Hpip ->. destruct A as [(f' & poly' & H0 & _)|(_ & Hn)]; [lia|].
    destruct (hang_stored _ _ _ _ _ _ _ _ _ Hm E Hpoly) as (f2 & poly2 & b & H0 & En2 & Eb & _ & Hp2 & Ho & _ & Htb).
    destruct (same_pieces _ _ _ Ho HP) as (Ps' & HP' & HR).
    apply (Hn j').
    - exists f2, poly2. split; auto. split; auto. rewrite (bt_vertices _ _ _ _ _ Hb). split; auto.
      apply (Hpip poly2 Ps'); auto. now apply HR.
    - exists b. split; auto. split; auto. eapply tight_box_hull; eauto.
      apply (pieces_hull poly2 Ps'); [apply HP'|now apply HR]. }
  assert (I : forall j' poly Ps, face_poly vs faces fill j' poly -> pieces poly Ps -> region Ps p -> ~ on_outline poly p -> j <> (-1)%Z).
  { intros j' poly Ps Hpoly HP Hr Hn. apply (C j' poly Ps Hpoly HP Hr).
    intros poly' Ps' Ho HP' Hr'. apply (pieces_pip_open poly' Ps'); auto. intros K. apply Hn. now apply (same_on_outline poly poly' p Ho). }
  split; [exact S|]. split; [exact I|]. split.
  - intros Ht j' poly Ps Hpoly HP Hr. apply (C j' poly Ps Hpoly HP Hr).
    intros poly' Ps' Ho HP' Hr'. now apply (pieces_pip_complete poly' Ps').
  - intros j' (poly & Ps & Hpoly & HP & Hr & Hn) Hu.
    destruct (S (I j' poly Ps Hpoly HP Hr Hn)) as (poly2 & Hp2 & Hs). destruct (Hc _ _ Hp2) as (Ps2 & HP2).
    apply (Hu j poly2 Ps2); auto.
Qed.

Theorem C69_default_tolerance g vs faces fill nb cpl (t : tree2d (T:=R)) :
  mesh_ok vs faces fill -> simple_mesh vs faces fill -> CellTree2d_init g vs faces fill nb cpl = Ok t ->
  forall g' points, exists js, CellTree2d_locate_points g' t points None = Ok js
    /\ length js = length points
    /\ forall k p j, nth_error points k = Some p -> nth_error js k = Some j ->
         forall j' poly Ps, face_poly vs faces fill j' poly -> pieces poly Ps -> region Ps p -> j <> (-1)%Z.
Proof.
  intros Hm Hc E g' points.
  destruct (C69_locate_points _ _ _ _ _ _ _ Hm Hc E g' points None) as (tol & js & Et & Hj & Hl & H).
  exists js. split; auto. split; auto. intros k p j Ep Ej j' poly Ps Hpoly HP Hr.
  destruct (C43_default_tolerance_constructed _ _ _ _ _ _ _ Hm E) as (tol' & Et' & Hpos & _).
  rewrite Et in Et'. apply Ok_inj in Et'. subst tol'.
  assert (H0 : 0 < / 10 ^ 15) by (apply Rinv_0_lt_compat, pow_lt; lra).
  destruct (H k p j Ep Ej ltac:(lra)) as (_ & _ & H3 & _). apply (H3 ltac:(lra) j' poly Ps); auto.
Qed.

(** meshes with hanging nodes, and so strictly convex ones, are a special case *)
Theorem C69_hanging_mesh vs faces fill : hanging_mesh vs faces fill -> simple_mesh vs faces fill.
Proof. intros H j poly Hj. exists [poly]. apply hanging_pieces. eapply H; eauto. Qed.

(** two ways of cutting a polygon give the same points, but for its outline *)
Theorem C69_region_unique Q Ps Ps' p : pieces Q Ps -> pieces Q Ps' -> ~ on_outline Q p -> (region Ps p <-> region Ps' p).
Proof.
  intros H H' Ho. split; intros K.
  - apply (pieces_sound Q Ps' p H'). now apply (pieces_complete Q Ps p H).
  - apply (pieces_sound Q Ps p H). now apply (pieces_complete Q Ps' p H').
Qed.

(** ** Concrete case: an L of three unit squares, the missing corner as a face of its own *)
Definition ell_faces : list (list Z) := [[0; 2; 6; 5; 9; 8]; [5; 6; 10; 9; -1; -1]]%Z.
Lemma ell_mesh : mesh_ok (T:=R) grid ell_faces (-1).
Proof. constructor; [apply (mo_vertices _ _ _ grid_mesh_R)|discriminate|]. repeat constructor; cbn; try lia. Qed.
Definition ell : list pt := [ptZ (0, 0); ptZ (2, 0); ptZ (2, 1); ptZ (1, 1); ptZ (1, 2); ptZ (0, 2)]%Z.
Definition ell_lower : list pt := [ptZ (0, 0); ptZ (2, 0); ptZ (2, 1); ptZ (1, 1)]%Z.
Definition ell_upper : list pt := [ptZ (1, 1); ptZ (1, 2); ptZ (0, 2); ptZ (0, 0)]%Z.
Definition notch : list pt := [ptZ (1, 1); ptZ (2, 1); ptZ (2, 2); ptZ (1, 2)]%Z.
Lemma ell_face j b : face_poly (@grid R _) ell_faces (-1) j b -> j = 0%Z /\ b = ell \/ j = 1%Z /\ b = notch.
Proof.
  intros H. pose proof (face_range _ _ _ _ _ H) as Hj. unfold zlen, ell_faces in Hj. cbn in Hj. destruct H as (f & _ & En & Hb).
  assert (C : (j = 0 \/ j = 1)%Z) by lia.
  repeat destruct C as [C|C]; subst j; cbn in En; inversion En; subst f; clear En; unfold poly_of in Hb; cbn in Hb; invert_poly; auto.
Qed.
Lemma ell_first : face_poly (@grid R _) ell_faces (-1) 0 ell.
Proof. exists [0; 2; 6; 5; 9; 8]%Z; (split; [lia|]); (split; [reflexivity|]); unfold poly_of; cbn; repeat constructor; auto; lia. Qed.
Lemma ell_second : face_poly (@grid R _) ell_faces (-1) 1 notch.
Proof. exists [5; 6; 10; 9; -1; -1]%Z; (split; [lia|]); (split; [reflexivity|]); unfold poly_of; cbn; repeat constructor; auto; lia. Qed.
Lemma lower_convex : convex_ccw ell_lower. Proof. unfold ell_lower. convex_check. Qed.
Lemma upper_convex : convex_ccw ell_upper. Proof. unfold ell_upper. convex_check. Qed.
Lemma notch_convex : convex_ccw notch. Proof. unfold notch. convex_check. Qed.
Lemma ell_pieces : pieces ell [ell_lower; ell_upper].
Proof.
  split.
  - apply (cut_chord (ptZ (0, 0)%Z) (ptZ (1, 1)%Z) [ptZ (2, 0); ptZ (2, 1)]%Z [ptZ (1, 2); ptZ (0, 2)]%Z [ell_lower] [ell_upper]).
    + apply cut_convex, convex_hanging. left. exact lower_convex.
    + apply cut_convex, convex_hanging. left. exact upper_convex.
  - constructor; [|repeat constructor]. constructor; [|constructor]. intros p (A & B).
    apply interior_open_hull in A; [|exact lower_convex]. apply interior_open_hull in B; [|exact upper_convex].
    specialize (A (ptZ (1, 1)%Z) (ptZ (0, 0)%Z) ltac:(cbn; auto 6)). specialize (B (ptZ (0, 0)%Z) (ptZ (1, 1)%Z) ltac:(cbn; auto 6)).
    unfold orient in *. cbn in *. lra.
Qed.
Lemma notch_pieces : pieces notch [notch].
Proof. apply hanging_pieces, convex_hanging. left. exact notch_convex. Qed.
Lemma ell_simple : simple_mesh (@grid R _) ell_faces (-1).
Proof. intros j b H. apply ell_face in H as [(_ & ->)|(_ & ->)]; eauto using ell_pieces, notch_pieces. Qed.
Lemma ell_tree : exists t, CellTree2d_init (T:=R) g0 grid ell_faces (-1) 4 2 = Ok t.
Proof.
  apply C04_nondegenerate_succeeds; [exact ell_mesh|lia|lia| |].
  - pose proof FMAX_big. change (IZR (4 * zlen ell_faces)) with 8. lra.
  - unfold ell_faces. cbn [map].
    repeat (apply Forall_cons; [intros poly Hp; unfold poly_of in Hp; cbn in Hp; invert_poly; extent|]). apply Forall_nil.
Qed.

(** a point of either arm, the inner corner of the L and a point on the chord
    are found; a point in the middle of the missing corner is given to the
    other face, although it lies in the convex hull of the L *)
Theorem C69_example : exists t js j, CellTree2d_init (T:=R) g0 grid ell_faces (-1) 4 2 = Ok t
  /\ CellTree2d_locate_points g0 t [Pt (3/2) (1/2); Pt (1/2) (3/2); Pt 1 1; Pt (1/2) (1/2)] None = Ok js
  /\ Forall (fun j => j <> (-1)%Z) js
  /\ CellTree2d_locate_points g0 t [Pt (5/4) (5/4)] (Some (1/100)) = Ok [j]
  /\ j = 1%Z /\ hull ell (Pt (5/4) (5/4)).
Proof.
  destruct ell_tree as (t & E). exists t.
  destruct (C69_default_tolerance _ _ _ _ _ _ _ ell_mesh ell_simple E g0 [Pt (3/2) (1/2); Pt (1/2) (3/2); Pt 1 1; Pt (1/2) (1/2)]) as (js & Hj & Hl & H).
  destruct (C69_locate_points _ _ _ _ _ _ _ ell_mesh ell_simple E g0 [Pt (5/4) (5/4)] (Some (1/100))) as (tol & js2 & Et & Hj2 & Hl2 & H2).
  destruct js2 as [|j [|]]; try discriminate Hl2. exists js, j. split; auto. split; auto.
  assert (LO : forall x y, 0 <= y <= x -> y <= 1 -> x <= 2 -> region [ell_lower; ell_upper] (Pt x y)).
  { intros x y A B C. exists ell_lower. split; [now left|]. apply in_poly_hull; [exact lower_convex|].
    intros u v He. cbn in He. repeat destruct He as [He|He]; try contradiction; inversion He; subst; clear He; unfold orient; cbn; lra. }
  assert (UP : forall x y, 0 <= x <= y -> x <= 1 -> y <= 2 -> region [ell_lower; ell_upper] (Pt x y)).
  { intros x y A B C. exists ell_upper. split; [right; now left|]. apply in_poly_hull; [exact upper_convex|].
    intros u v He. cbn in He. repeat destruct He as [He|He]; try contradiction; inversion He; subst; clear He; unfold orient; cbn; lra. }
  split; [|split; [auto|split]].
  - apply Forall_forall. intros i Hin. apply In_nth_error in Hin as (k & Ek).
    assert (Hk : (k < length js)%nat) by (apply nth_error_Some; congruence). cbn in Hl.
    destruct k as [|[|[|[|k]]]]; [| | | |lia].
    + apply (H 0%nat _ i eq_refl Ek 0%Z ell _ ell_first ell_pieces). apply LO; lra.
    + apply (H 1%nat _ i eq_refl Ek 0%Z ell _ ell_first ell_pieces). apply UP; lra.
    + apply (H 2%nat _ i eq_refl Ek 0%Z ell _ ell_first ell_pieces). apply LO; lra.
    + apply (H 3%nat _ i eq_refl Ek 0%Z ell _ ell_first ell_pieces). apply LO; lra.
  - cbn in Et. apply Ok_inj in Et. subst tol.
    destruct (H2 0%nat _ j eq_refl eq_refl ltac:(lra)) as (S & _ & F & _).
    assert (Hne : j <> (-1)%Z).
    { apply (F ltac:(lra) 1%Z notch [notch] ell_second notch_pieces). exists notch. split; [now left|].
      apply in_poly_hull; [exact notch_convex|].
      intros u v He. cbn in He. repeat destruct He as [He|He]; try contradiction; inversion He; subst; clear He; unfold orient; cbn; lra. }
    destruct (S Hne) as (poly & Hpoly & HS). apply ell_face in Hpoly as [(-> & ->)|(-> & ->)]; auto. exfalso.
    destruct (HS _ ell_pieces) as [(P & HP & HH)|(u & v & He & q & (s & Hs & ->) & Hd)].
    + destruct HP as [<-|[<-|[]]].
      * apply in_poly_hull in HH; [|exact lower_convex]. specialize (HH (ptZ (2, 1)%Z) (ptZ (1, 1)%Z) ltac:(cbn; auto 6)). unfold orient in HH. cbn in HH. lra.
      * apply in_poly_hull in HH; [|exact upper_convex]. specialize (HH (ptZ (1, 1)%Z) (ptZ (1, 2)%Z) ltac:(cbn; auto 6)). unfold orient in HH. cbn in HH. lra.
    + unfold dist2, at_ in Hd. cbn in He. repeat destruct He as [He|He]; try contradiction; inversion He; subst; clear He; cbn in Hd;
        match type of Hd with ?a * ?a + ?b * ?b <= _ => pose proof (Rle_0_sqr a); pose proof (Rle_0_sqr b) end; unfold Rsqr in *; lra.
  - exists [0; 0; 1/4; 1/2; 1/4; 0]. split; [reflexivity|]. split; [repeat constructor; lra|]. split; [cbn; lra|]. apply pt_eq; cbn; lra.
Qed.

Print Assumptions C69_locate_points.
Print Assumptions C69_default_tolerance.
Print Assumptions C69_hanging_mesh.
Print Assumptions C69_region_unique.
Print Assumptions C69_example.
