(** Property theorems about binary64: locating points in faces that are not convex (C70). *)
From Coq Require Import Reals Lra Psatz.
From Flocq Require Import IEEE754.BinarySingleNaN Core.
From Verif Require Import RBase NumB64 NumSub NumRoom FBase MUtils MGeometry MCreation MQuery MCelltree
  SpecTree SpecQuery SpecApi SpecPoly SpecMesh SpecHang SpecConcave PMesh PInit PBuild PPoints PApi GTriangle GConvex GBuild GFaces GHang GConcave
  FBuild FMesh FPoint FLocate FConcave Examples PropEdges PropPoints PropFloat PropFloatPoints PropConcave.
Open Scope R_scope.

(** Coordinates up to 2^k in magnitude; the margins are 8 to 64 units in the
    last place of 2^k. Strictly convex faces and faces with hanging nodes are
    instances (C69_hanging_mesh). *)
Theorem C70_float_locate_points k g (vs : list (point b64)) faces fill nb cpl t :
  (-150 <= k <= 250)%Z -> mesh_ok vs faces fill -> bounded_vertices k vs ->
  simple_mesh (map rp vs) faces fill -> sides_ok (map rp vs) faces fill ->
  CellTree2d_init g vs faces fill nb cpl = Ok t ->
  forall g' points tolerance, exists tol js,
    get_tolerance t tolerance = Ok tol /\ CellTree2d_locate_points g' t points tolerance = Ok js /\ length js = length points
    /\ forall i p j, nth_error points i = Some p -> nth_error js i = Some j ->
         bpt k p -> bounded k tol -> 0 <= B2R tol ->
         (* the assigned face contains the point or nearly touches it *)
         (j <> (-1)%Z -> exists poly, face_poly (map rp vs) faces fill j poly
            /\ forall Ps, pieces poly Ps -> region Ps (rp p) \/ near_boundary (2 * B2R tol + bpow radix2 (k - 48)) poly (rp p))
         (* a point of a face, away from the boundary, is assigned a face *)
         /\ (forall j' poly Ps, face_poly (map rp vs) faces fill j' poly -> pieces poly Ps -> region Ps (rp p) ->
               ~ near_boundary (bpow radix2 (k - 49)) poly (rp p) -> j <> (-1)%Z)
         (* with a tolerance that covers the rounding, so is every point of a face away from its corners *)
         /\ (bpow radix2 (k - 47) <= B2R tol ->
             forall j' poly Ps, face_poly (map rp vs) faces fill j' poly -> pieces poly Ps -> region Ps (rp p) ->
               (forall w, In w poly -> bpow radix2 (k - 47) * bpow radix2 (k - 47) < dist2 (rp p) w) -> j <> (-1)%Z)
         (* the only candidate is assigned *)
         /\ (forall j' poly Ps, face_poly (map rp vs) faces fill j' poly -> pieces poly Ps -> region Ps (rp p) ->
               ~ near_boundary (bpow radix2 (k - 49)) poly (rp p) ->
               (forall j'' poly Ps, face_poly (map rp vs) faces fill j'' poly -> pieces poly Ps ->
                  region Ps (rp p) \/ near_boundary (2 * B2R tol + bpow radix2 (k - 48)) poly (rp p) -> j'' = j') -> j = j').
Proof.
  intros Hk Hm Hbd Hc Hs E g' points tolerance. pose proof (init_built _ _ _ _ _ _ _ Hm E) as Hb.
  destruct (points_result _ _ _ _ t tolerance Hb) as (tol & Et & H). destruct (H points) as (js & Hj & HF).
  exists tol, js. split; auto. split; auto. split; [symmetry; eapply F2_length; eauto|].
  intros i p j Ep Ej Bp Bt Pt0.
  destruct (float_points_concave k _ _ _ _ t g' points tolerance tol js Hk Hm Hb Hbd Hc Hs Et Bt Pt0 (Hj g') i p j Ep Ej Bp) as (S & I & C).
  split; [exact S|]. split; [exact I|]. split; [exact C|].
  intros j' poly Ps Hp HP Hr Hn Hu. destruct (S (I j' poly Ps Hp HP Hr Hn)) as (poly2 & Hp2 & H2).
  destruct (Hc _ _ Hp2) as (Ps2 & HP2). eauto.
Qed.

(** the default tolerance covers the rounding if some face extends over 2^(k-7) *)
Theorem C70_float_default_tolerance k g (vs : list (point b64)) faces fill nb cpl t :
  (-49 <= k <= 250)%Z -> mesh_ok vs faces fill -> bounded_vertices k vs ->
  simple_mesh (map rp vs) faces fill -> sides_ok (map rp vs) faces fill ->
  CellTree2d_init g vs faces fill nb cpl = Ok t ->
  (exists j poly p q, face_poly (map rp vs) faces fill j poly /\ In p poly /\ In q poly
     /\ (px p + bpow radix2 (k - 7) <= px q \/ py p + bpow radix2 (k - 7) <= py q)) ->
  forall g' points, exists js,
    CellTree2d_locate_points g' t points None = Ok js
    /\ forall i p j j' poly Ps, nth_error points i = Some p -> nth_error js i = Some j -> bpt k p ->
         face_poly (map rp vs) faces fill j' poly -> pieces poly Ps -> region Ps (rp p) ->
         (forall w, In w poly -> bpow radix2 (k - 47) * bpow radix2 (k - 47) < dist2 (rp p) w) -> j <> (-1)%Z.
Proof.
  intros Hk Hm Hbd Hc Hs E Hd g' points. pose proof (init_built _ _ _ _ _ _ _ Hm E) as Hb.
  destruct (default_tolerance_float k _ _ _ _ t Hk Hb Hbd) as (tol & Et & Bt & Pt0 & Hl). specialize (Hl Hd).
  destruct (C70_float_locate_points k g vs faces fill nb cpl t ltac:(lia) Hm Hbd Hc Hs E g' points None) as (tol' & js & Et' & Ej & _ & H).
  rewrite Et in Et'. apply Ok_inj in Et'. subst tol'. exists js. split; auto.
  intros i p j j' poly Ps Ep Eji Bp Hp HP Hr Hf. destruct (H i p j Ep Eji Bp Bt Pt0) as (_ & _ & C & _). eauto.
Qed.

(** ** Concrete case: the L and its notch of C69 *)
Lemma simple_sides_Z zs faces fill : simple_mesh (map ptZ zs) faces fill -> sides_ok (map ptZ zs) faces fill.
Proof.
  intros Hc j poly u v Hp He.
  assert (Hin : forall w, In w poly -> In w (map ptZ zs)).
  { destruct Hp as (f & _ & _ & Hp). unfold poly_of in Hp. clear - Hp. induction Hp as [|i q l l' (_ & E) _ IH]; intros w Hw; [destruct Hw|].
    destruct Hw as [<-|Hw]; auto. eapply nth_error_In; eauto. }
  destruct (Hc j poly Hp) as (Ps & HP & _). pose proof (cut_neq _ _ _ _ HP He) as Hn.
  destruct (edges_in _ _ _ He) as (Iu & Iv). apply Hin, in_map_iff in Iu as (a & <- & _). apply Hin, in_map_iff in Iv as (b & <- & _).
  apply side_ok_Z. congruence.
Qed.
Lemma ell_mesh_B : mesh_ok (T:=b64) grid ell_faces (-1).
Proof. constructor; [apply (mo_vertices _ _ _ grid_mesh_B64)|discriminate|]. repeat constructor; cbn; try lia. Qed.
Lemma ell_tree_B : exists t, CellTree2d_init (T:=b64) g0 grid ell_faces (-1) 4 2 = Ok t.
Proof.
  assert (H : match CellTree2d_init (T:=b64) g0 grid ell_faces (-1) 4 2 with Ok _ => true | Err _ => false end = true) by (vm_compute; reflexivity).
  destruct (CellTree2d_init _ _ _ _ _ _) as [t|e]; [now exists t|discriminate].
Qed.

(** every point of the L that is not within 2^-45 of a corner is found *)
Theorem C70_example : exists t, CellTree2d_init (T:=b64) g0 grid ell_faces (-1) 4 2 = Ok t
  /\ forall points, exists js, CellTree2d_locate_points g0 t points None = Ok js
     /\ forall i p j, nth_error points i = Some p -> nth_error js i = Some j -> bpt 2 p ->
         region [ell_lower; ell_upper] (rp p) ->
         (forall w, In w ell -> bpow radix2 (-45) * bpow radix2 (-45) < dist2 (rp p) w) -> j <> (-1)%Z.
Proof.
  destruct ell_tree_B as (t & E). exists t. split; auto. intros points.
  pose proof (C70_float_default_tolerance 2 g0 grid ell_faces (-1) 4 2 t) as H. rewrite grid_rp in H.
  destruct (fun a b c d e f h => H a b c d e f h g0 points) as (js & Hj & K); auto; try lia.
  - exact ell_mesh_B.
  - apply zbounded; [lia|]. vm_compute. reflexivity.
  - exact ell_simple.
  - apply simple_sides_Z. exact ell_simple.
  - exists 0%Z, ell, (ptZ (0, 0)%Z), (ptZ (2, 0)%Z). split; [exact ell_first|]. split; [now left|]. split; [right; now left|].
    left. cbn [px ptZ fst nofZ NumR]. rewrite Rplus_0_l. apply Rle_trans with (bpow radix2 1); [apply bpow_le; lia|]. cbn. lra.
  - exists js. split; auto. intros i p j Ep Ej Bp Hr Hf. eapply K; eauto using ell_first, ell_pieces.
Qed.

Print Assumptions C70_float_locate_points.
Print Assumptions C70_float_default_tolerance.
Print Assumptions C70_example.
