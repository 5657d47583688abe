(** Property theorems about binary64: barycentric weights in triangles (C54). *)
From Coq Require Import Reals Lra Psatz.
From Flocq Require Import IEEE754.BinarySingleNaN Core.
From Verif Require Import RBase NumB64 NumSub NumRoom FBase MUtils MGeometry MAlgorithms MCreation MQuery MCelltree
  SpecTree SpecQuery SpecApi SpecPoly SpecGeom SpecMesh PMesh PInit PBuild PPoints PApi PFaces GTriangle GConvex GHull GCcw GFaces
  FBuild FMesh FPoint FLocate FCut FOrient FWeights Examples PropEdges PropPoints PropWach PropFloat PropFloatPoints.
Open Scope R_scope.

Lemma as_triangle_b (vs : list (point b64)) f a b c : poly_of vs f [a; b; c] -> as_triangle vs f = Ok (a, b, c).
Proof.
  unfold poly_of. intros H. inversion H as [|i1 ? l1 ? (A1 & B1) H1 E1]; subst. inversion H1 as [|i2 ? l2 ? (A2 & B2) H2 E2]; subst.
  inversion H2 as [|i3 ? l3 ? (A3 & B3) H3 E3]; subst. inversion H3; subst.
  assert (Hf : exists r, f = i1 :: i2 :: i3 :: r).
  { destruct f as [|x1 [|x2 [|x3 r]]]; cbn in E1; repeat (destruct (_ =? _)%Z; [discriminate|]); try discriminate.
    inversion E1. eauto. }
  destruct Hf as (r & ->). unfold as_triangle.
  replace (aget (i1 :: i2 :: i3 :: r) 0%Z) with (Ok i1) by (symmetry; apply (aget_nat _ 0); reflexivity). cbn [bind].
  replace (aget vs i1) with (Ok a) by (symmetry; rewrite <- (Z2Nat.id i1) by lia; apply aget_nat; auto). cbn [bind].
  replace (aget (i1 :: i2 :: i3 :: r) 1%Z) with (Ok i2) by (symmetry; apply (aget_nat _ 1); reflexivity). cbn [bind].
  replace (aget vs i2) with (Ok b) by (symmetry; rewrite <- (Z2Nat.id i2) by lia; apply aget_nat; auto). cbn [bind].
  replace (aget (i1 :: i2 :: i3 :: r) 2%Z) with (Ok i3) by (symmetry; apply (aget_nat _ 2); reflexivity). cbn [bind].
  replace (aget vs i3) with (Ok c) by (symmetry; rewrite <- (Z2Nat.id i3) by lia; apply aget_nat; auto). reflexivity.
Qed.

(** a point of the triangle, or within r of its boundary *)
Lemma near_coordinates a b c p r : 0 <= r -> orient a b c <> 0 -> hull [a; b; c] p \/ near_boundary r [a; b; c] p ->
  exists u v w, coordinates a b c p u v w
    /\ (let t := 1.5 * (r * span3 a b c) / Rabs (orient a b c) in - t <= u /\ - t <= v /\ - t <= w).
Proof.
  intros Hr HD H. cbv zeta. set (W := span3 a b c). set (D := orient a b c) in *.
  pose proof (span3_bounds a b c) as (X1 & X2 & X3 & Y1 & Y2 & Y3). fold W in X1, X2, X3, Y1, Y2, Y3.
  assert (PD : 0 < Rabs D) by now apply Rabs_pos_lt.
  assert (PW : 0 <= W) by (pose proof (Rabs_pos (px b - px a)); lra).
  set (t := 1.5 * (r * W) / Rabs D).
  assert (Pt0 : 0 <= t) by (unfold t; apply Rmult_le_pos; [apply Rmult_le_pos; [lra|now apply Rmult_le_pos]|apply Rlt_le, Rinv_0_lt_compat; lra]).
  (* a point q of the triangle within r of p *)
  assert (HQ : exists q u v w, coordinates a b c q u v w /\ 0 <= u /\ 0 <= v /\ 0 <= w /\ dist2 p q <= r * r).
  { destruct H as [(ws & L & HP & HS & Ep)|(s & e & He & (q & (z & Hz & ->) & Hd))].
    - destruct ws as [|x [|y [|z [|]]]]; try discriminate.
      inversion HP as [|? ? Q1 HP1]; subst. inversion HP1 as [|? ? Q2 HP2]; subst. inversion HP2 as [|? ? Q3 _]; subst.
      exists (Pt (x * px a + y * px b + z * px c) (x * py a + y * py b + z * py c)), x, y, z. cbn in HS.
      split; [split; [lra|split; reflexivity]|]. split; auto. split; auto. split; auto. unfold dist2, comb. cbn. nra.
    - cbn in He. repeat destruct He as [He|He]; try contradiction; inversion He; subst s e.
      + exists (at_ c a z), z, 0, (1 - z). repeat split; auto; try lra; unfold at_; cbn; ring.
      + exists (at_ a b z), (1 - z), z, 0. repeat split; auto; try lra; unfold at_; cbn; ring.
      + exists (at_ b c z), 0, (1 - z), z. repeat split; auto; try lra; unfold at_; cbn; ring. }
  destruct HQ as (q & u & v & w & HC & P1 & P2 & P3 & Hd).
  destruct (coordinates_unique a b c q u v w HD HC) as (E1 & E2 & E3). fold D in E1, E2, E3.
  pose proof (coordinates_exist a b c p HD) as HP. fold D in HP.
  eexists _, _, _. split; [exact HP|].
  assert (M : forall s e x0, Rabs (px e - px s) <= W -> Rabs (py e - py s) <= W -> 0 <= x0 -> x0 = orient s e q / D -> - t <= orient s e p / D).
  { intros s e x0 H1 H2 H0 Ex. pose proof (orient_move s e p q W r Hr H1 H2 Hd) as Hm.
    assert (HM : Rabs (orient s e p / D - orient s e q / D) <= t).
    { replace (orient s e p / D - orient s e q / D) with ((orient s e p - orient s e q) / D) by (field; auto).
      unfold Rdiv, t. rewrite Rabs_mult, Rabs_inv. unfold Rdiv. apply Rmult_le_compat_r; [apply Rlt_le, Rinv_0_lt_compat; lra|exact Hm]. }
    apply Rabs_le_iff in HM. lra. }
  split; [|split].
  - apply (M b c u); auto.
  - apply (M c a v); auto; rewrite Rabs_minus_sym; auto.
  - apply (M a b w); auto.
Qed.

(** ** C54: the weights of the points of a mesh of triangles *)
Definition triangle_mesh (vs : list pt) (faces : list (list Z)) (fill : Z) : Prop :=
  forall j poly, face_poly vs faces fill j poly -> exists a b c, poly = [a; b; c] /\ clear_triangle a b c.

(** the error of one rounding, amplified by the shape of the triangle *)
Definition shape_error (a b c : pt) : R := uro * (span3 a b c * span3 a b c) / Rabs (orient a b c).

Theorem C54_float_triangle_weights k g (vs : list (point b64)) faces fill nb cpl t :
  (-150 <= k <= 250)%Z -> mesh_ok vs faces fill -> bounded_vertices k vs ->
  convex_mesh (map rp vs) faces fill -> sides_ok (map rp vs) faces fill -> triangle_mesh (map rp vs) faces fill ->
  CellTree2d_init g vs faces fill nb cpl = Ok t ->
  forall g' points tolerance tol, Forall (bpt k) points -> get_tolerance t tolerance = Ok tol -> bounded k tol -> 0 <= B2R tol ->
  exists js rows, CellTree2d_compute_barycentric_weights g' t 3 points tolerance = Ok (js, rows)
    /\ CellTree2d_locate_points g' t points tolerance = Ok js /\ length rows = length points
    /\ forall i p j row, nth_error points i = Some p -> nth_error js i = Some j -> nth_error rows i = Some row ->
         (j = (-1)%Z -> row = [Zb 0; Zb 0; Zb 0])
         /\ (j <> (-1)%Z -> exists f a b c u v w u0 v0 w0,
              nth_error (elements (celltree_data t)) (Z.to_nat j) = Some f /\ poly_of vs f [a; b; c] /\ row = [u; v; w]
              (* the exact coordinates of the point, which is in the triangle or hardly outside *)
              /\ coordinates (rp a) (rp b) (rp c) (rp p) u0 v0 w0
              /\ (let far := 1.5 * ((2 * B2R tol + bpow radix2 (k - 48)) * span3 (rp a) (rp b) (rp c)) / Rabs (orient (rp a) (rp b) (rp c)) in
                  - far <= u0 /\ - far <= v0 /\ - far <= w0)
              (* the weights found *)
              /\ (forall tau, 0 <= tau <= / 4 -> - tau <= u0 -> - tau <= v0 -> - tau <= w0 ->
                    let q := shape_error (rp a) (rp b) (rp c) in let W := span3 (rp a) (rp b) (rp c) in
                    is_finite u = true /\ is_finite v = true /\ is_finite w = true
                    /\ Rabs (B2R u - u0) <= 80 * q + 4 * tau /\ Rabs (B2R v - v0) <= 35 * q + 2 * tau /\ Rabs (B2R w - w0) <= 35 * q + 2 * tau
                    /\ Rabs (B2R u + B2R v + B2R w - 1) <= 3 * uro
                    (* interpolating the coordinates gives the point *)
                    /\ Rabs (B2R u * px (rp a) + B2R v * px (rp b) + B2R w * px (rp c) - px (rp p)) <= (70 * q + 4 * tau) * W + 3 * uro * Rabs (px (rp a))
                    /\ Rabs (B2R u * py (rp a) + B2R v * py (rp b) + B2R w * py (rp c) - py (rp p)) <= (70 * q + 4 * tau) * W + 3 * uro * Rabs (py (rp a)))).
Proof.
  intros Hk Hm HB Hc Hs HT E g' points tolerance tol HP Et Bt Pt0.
  pose proof (init_built _ _ _ _ _ _ _ Hm E) as Hb.
  destruct (C48_float_locate_points k g vs faces fill nb cpl t Hk Hm HB Hc Hs E g' points tolerance) as (tol' & js & Et' & Hj & Hl & HF).
  rewrite Et in Et'. apply Ok_inj in Et'. subst tol'.
  assert (HO : forall i p j, nth_error points i = Some p -> nth_error js i = Some j -> exists row,
    barycentric_triangle_one (elements (celltree_data t)) (vertices (celltree_data t)) (p, j) = Ok row
    /\ (j = (-1)%Z -> row = [Zb 0; Zb 0; Zb 0])
         /\ (j <> (-1)%Z -> exists f a b c u v w u0 v0 w0,
              nth_error (elements (celltree_data t)) (Z.to_nat j) = Some f /\ poly_of vs f [a; b; c] /\ row = [u; v; w]
              /\ coordinates (rp a) (rp b) (rp c) (rp p) u0 v0 w0
              /\ (let far := 1.5 * ((2 * B2R tol + bpow radix2 (k - 48)) * span3 (rp a) (rp b) (rp c)) / Rabs (orient (rp a) (rp b) (rp c)) in
                  - far <= u0 /\ - far <= v0 /\ - far <= w0)
              /\ (forall tau, 0 <= tau <= / 4 -> - tau <= u0 -> - tau <= v0 -> - tau <= w0 ->
                    let q := shape_error (rp a) (rp b) (rp c) in let W := span3 (rp a) (rp b) (rp c) in
                    is_finite u = true /\ is_finite v = true /\ is_finite w = true
                    /\ Rabs (B2R u - u0) <= 80 * q + 4 * tau /\ Rabs (B2R v - v0) <= 35 * q + 2 * tau /\ Rabs (B2R w - w0) <= 35 * q + 2 * tau
                    /\ Rabs (B2R u + B2R v + B2R w - 1) <= 3 * uro
                    /\ Rabs (B2R u * px (rp a) + B2R v * px (rp b) + B2R w * px (rp c) - px (rp p)) <= (70 * q + 4 * tau) * W + 3 * uro * Rabs (px (rp a))
                    /\ Rabs (B2R u * py (rp a) + B2R v * py (rp b) + B2R w * py (rp c) - py (rp p)) <= (70 * q + 4 * tau) * W + 3 * uro * Rabs (py (rp a))))).
  { intros i p j Ep Ej. assert (Bp : bpt k p) by (rewrite Forall_forall in HP; apply HP; eapply nth_error_In; eauto).
    destruct (HF i p j Ep Ej Bp Bt Pt0) as (HL & _). unfold barycentric_triangle_one.
    destruct (Z.eqb_spec j (-1)) as [->|Hne].
    { eexists. split; [reflexivity|]. split; [reflexivity|congruence]. }
    destruct (HL Hne) as (polyR & Hpoly & Hnear).
    destruct (HT j polyR Hpoly) as (a0 & b0 & c0 & -> & Hclear).
    destruct (stored_float k _ _ _ _ _ _ _ Hb HB Hpoly) as (f & poly & bb & H0 & En & _ & Pf & Bf & Hsame & _).
    destruct poly as [|a [|b [|c [|]]]]; try (destruct Hsame as [X|X]; discriminate X).
    assert (HC : clear_triangle (rp a) (rp b) (rp c)).
    { destruct Hsame as [X|X]; injection X as -> -> ->; [exact Hclear|now apply clear_triangle_rev]. }
    assert (HN : hull [rp a; rp b; rp c] (rp p) \/ near_boundary (2 * B2R tol + bpow radix2 (k - 48)) [rp a; rp b; rp c] (rp p)).
    { change [rp a; rp b; rp c] with (map rp [a; b; c]).
      rewrite (hull_either _ _ _ Hsame), (near_either _ _ _ _ Hsame). exact Hnear. }
    inversion Bf as [|? ? Ba Bf1]; subst. inversion Bf1 as [|? ? Bb Bf2]; subst. inversion Bf2 as [|? ? Bc _]; subst.
    rewrite (bt_vertices _ _ _ _ _ Hb).
    assert (Ef : aget (elements (celltree_data t)) j = Ok f) by (rewrite <- (Z2Nat.id j) by lia; now apply aget_nat).
    rewrite Ef. cbn [bind]. rewrite (as_triangle_b _ _ _ _ _ Pf). cbn [bind].
    destruct (weights_exist k Hk a b c p Ba Bb Bc HC) as (u & v & w & Ew). rewrite Ew. cbn [bind].
    exists [u; v; w]. split; auto. split; [congruence|]. intros _.
    destruct (clear_scale k Hk a b c Ba Bb Bc HC) as (PS & HA & _). cbv zeta in PS, HA. pose proof (bpow_gt_0 radix2 (-560)) as P560.
    assert (HD : orient (rp a) (rp b) (rp c) <> 0) by (intros X; rewrite X, Rabs_R0 in HA; lra).
    pose proof (bpow_gt_0 radix2 (k - 48)) as P48.
    destruct (near_coordinates (rp a) (rp b) (rp c) (rp p) (2 * B2R tol + bpow radix2 (k - 48)) ltac:(lra) HD HN) as (u0 & v0 & w0 & HCo & Hfar).
    exists f, a, b, c, u, v, w, u0, v0, w0. split; auto. split; auto. split; auto. split; auto. split; auto.
    intros tau Ht T1 T2 T3. cbv zeta.
    destruct (weights_float k Hk a b c p u0 v0 w0 tau Ba Bb Bc Bp HC HCo Ht T1 T2 T3) as (u' & v' & w' & Ew' & Fu & Fv & Fw & Hq & Hsum).
    rewrite Ew in Ew'. apply Ok_inj in Ew'. injection Ew' as <- <- <-. cbv zeta in Hq.
    fold (shape_error (rp a) (rp b) (rp c)) in Hq. destruct Hq as (Q1 & Q2 & Q3).
    repeat (split; [assumption|]).
    pose proof (span3_bounds (rp a) (rp b) (rp c)) as (X1 & X2 & _ & Y1 & Y2 & _). set (W := span3 (rp a) (rp b) (rp c)) in *.
    set (q := shape_error (rp a) (rp b) (rp c)) in *. destruct HCo as (Es & Ex & Ey).
    assert (G : forall xa xb xc, Rabs (xb - xa) <= W -> Rabs (xc - xa) <= W ->
      Rabs (B2R u * xa + B2R v * xb + B2R w * xc - (u0 * xa + v0 * xb + w0 * xc)) <= (70 * q + 4 * tau) * W + 3 * uro * Rabs xa).
    { intros xa xb xc Hb' Hc'.
      replace (B2R u * xa + B2R v * xb + B2R w * xc - (u0 * xa + v0 * xb + w0 * xc))
        with ((B2R v - v0) * (xb - xa) + (B2R w - w0) * (xc - xa) + (B2R u + B2R v + B2R w - 1) * xa)
        by (replace u0 with (1 - v0 - w0) by lra; ring).
      assert (G1 : Rabs ((B2R v - v0) * (xb - xa)) <= (35 * q + 2 * tau) * W) by now apply mul_abs.
      assert (G2 : Rabs ((B2R w - w0) * (xc - xa)) <= (35 * q + 2 * tau) * W) by now apply mul_abs.
      assert (G3 : Rabs ((B2R u + B2R v + B2R w - 1) * xa) <= 3 * uro * Rabs xa) by (apply mul_abs; [exact Hsum|lra]).
      apply Rabs_le_iff in G1, G2, G3. apply Rabs_le_iff. lra. }
    split; [rewrite Ex; now apply G|rewrite Ey; now apply G]. }
  assert (HR : exists rows, length rows = length points /\ forall i p j row, nth_error points i = Some p -> nth_error js i = Some j -> nth_error rows i = Some row ->
     barycentric_triangle_one (elements (celltree_data t)) (vertices (celltree_data t)) (p, j) = Ok row).
  { clear - HO Hl. revert js Hl HO. induction points as [|p ps IH]; intros js Hl HO; destruct js as [|j js]; try discriminate Hl.
    - exists []. split; auto. intros [|i] ? ? ? X; discriminate X.
    - destruct (HO 0%nat p j eq_refl eq_refl) as (row & Er & _).
      destruct (IH js) as (rows & L & HI); [cbn in Hl; lia|intros i p' j' A B; apply (HO (S i)); auto|].
      exists (row :: rows). split; [cbn; now rewrite L|]. intros [|i] p' j' row' A B C; cbn [nth_error] in A, B, C; [congruence|eauto]. }
  destruct HR as (rows & Hlr & HR). exists js, rows.
  assert (HM : barycentric_triangle_weights points js (elements (celltree_data t)) (vertices (celltree_data t)) = Ok rows).
  { unfold barycentric_triangle_weights. apply PCollect.mapres_ok. apply Forall2_nth_intro; [now rewrite iota_length|].
    intros i z row Hi Hr.
    assert (Hi' : (i < length points)%nat) by (rewrite <- Hlr; apply nth_error_Some; congruence).
    rewrite iota_nth in Hi by auto. inversion Hi; subst z.
    destruct (nth_error points i) as [p|] eqn:Ep; [|apply nth_error_None in Ep; lia].
    destruct (nth_error js i) as [j|] eqn:Ej; [|apply nth_error_None in Ej; lia].
    rewrite (aget_nat _ _ _ Ej). cbn [bind]. rewrite (aget_nat _ _ _ Ep). cbn [bind]. eapply HR; eauto. }
  split.
  { unfold CellTree2d_compute_barycentric_weights. rewrite Et. cbn [bind].
    unfold CellTree2d_locate_points in *. rewrite Et in Hj. cbn [bind get_tolerance] in *. rewrite Hj. cbn [bind].
    cbn [Nat.ltb Nat.leb]. rewrite HM. reflexivity. }
  split; auto. split; auto.
  intros i p j row Ep Ej Er. destruct (HO i p j Ep Ej) as (row' & Er' & A & B). rewrite (HR i p j row Ep Ej Er) in Er'.
  apply Ok_inj in Er'. subst row'. split; auto.
Qed.

(** ** Exact statements fail: a vertex does not get weight one, and a point of the triangle may get a negative weight *)
Definition seven {T} {NT : Num T} : list (point T) := map ptZ [(0, 0); (7, 0); (0, 7)]%Z.
Definition five {T} {NT : Num T} : list (point T) := map ptZ [(0, 0); (5, 0); (0, 5)]%Z.
Definition run_weights (g g' : garbage b64) (vs : list (point b64)) (p : point b64) : option (list Z * list (list b64)) :=
  match CellTree2d_init (T:=b64) g vs [[0; 1; 2]]%Z (-1) 4 2 with
  | Ok t => match CellTree2d_compute_barycentric_weights g' t 3 [p] None with Ok r => Some r | _ => None end
  | _ => None end.

Theorem C54_float_exact_refuted :
  (* a corner of the face it is located in does not get weight one *)
  (forall g g', exists t u v w, CellTree2d_init g (@seven b64 _) [[0; 1; 2]]%Z (-1) 4 2 = Ok t
     /\ CellTree2d_compute_barycentric_weights g' t 3 [ptZ (7, 0)%Z] None = Ok ([0%Z], [[u; v; w]])
     /\ 0 < B2R u /\ B2R v < 1 /\ B2R w = 0)
  (* a point on the boundary of its face gets a negative weight *)
  /\ (forall g g', exists t u v w, CellTree2d_init g (@five b64 _) [[0; 1; 2]]%Z (-1) 4 2 = Ok t
     /\ CellTree2d_compute_barycentric_weights g' t 3 [ptZ (4, 1)%Z] None = Ok ([0%Z], [[u; v; w]])
     /\ in_triangle (ptZ (0, 0)%Z) (ptZ (5, 0)%Z) (ptZ (0, 5)%Z) (ptZ (4, 1)%Z) /\ B2R u < 0).
Proof.
  split; intros g g'.
  - assert (H : match run_weights g g' seven (ptZ (7, 0)%Z) with
      | Some ([0%Z], [[u; v; w]]) => (nltb (Zb 0) u && nltb v (Zb 1) && neqb w (Zb 0) && is_finite u && is_finite v && is_finite w)%bool
      | _ => false end = true) by (vm_compute; reflexivity).
    unfold run_weights in H. destruct (CellTree2d_init g seven [[0; 1; 2]]%Z (-1) 4 2) as [t|] eqn:Et; [|discriminate H].
    destruct (CellTree2d_compute_barycentric_weights g' t 3 [ptZ (7, 0)%Z] None) as [(js, rows)|] eqn:Er; [|discriminate H].
    destruct js as [|[| |] [|]]; try discriminate H. destruct rows as [|[|u [|v [|w [|]]]] [|]]; try discriminate H.
    exists t, u, v, w. split; auto. split; [exact Er|].
    apply andb_prop in H as (H & Fw). apply andb_prop in H as (H & Fv). apply andb_prop in H as (H & Fu).
    apply andb_prop in H as (H & H3). apply andb_prop in H as (H1 & H2).
    destruct (Zb_exact 0 ltac:(lia)) as (F0 & E0), (Zb_exact 1 ltac:(lia)) as (F1 & E1).
    rewrite nltb_B in H1, H2 by auto. rewrite neqb_B in H3 by auto. rewrite E0 in H1, H3. rewrite E1 in H2. rb. repeat split; auto.
  - assert (H : match run_weights g g' five (ptZ (4, 1)%Z) with
      | Some ([0%Z], [[u; v; w]]) => (nltb u (Zb 0) && is_finite u)%bool
      | _ => false end = true) by (vm_compute; reflexivity).
    unfold run_weights in H. destruct (CellTree2d_init g five [[0; 1; 2]]%Z (-1) 4 2) as [t|] eqn:Et; [|discriminate H].
    destruct (CellTree2d_compute_barycentric_weights g' t 3 [ptZ (4, 1)%Z] None) as [(js, rows)|] eqn:Er; [|discriminate H].
    destruct js as [|[| |] [|]]; try discriminate H. destruct rows as [|[|u [|v [|w [|]]]] [|]]; try discriminate H.
    exists t, u, v, w. split; auto. split; [exact Er|].
    apply andb_prop in H as (H & Fu). destruct (Zb_exact 0 ltac:(lia)) as (F0 & E0).
    rewrite nltb_B in H by auto. rewrite E0 in H. rb. split; auto.
    exists 0, (4 / 5), (1 / 5). cbn [px py ptZ fst snd nofZ NumR]. repeat split; lra.
Qed.

(** ** A concrete case: the triangles (0,0), (4,0), (0,4) and (4,0), (4,4), (0,4) *)
Definition pair_pts : list (Z * Z) := [(0, 0); (4, 0); (4, 4); (0, 4)]%Z.
Definition pair_faces : list (list Z) := [[0; 1; 3]; [1; 2; 3]]%Z.
Lemma pair_mesh : mesh_ok (map (ptZ (T:=b64)) pair_pts) pair_faces (-1).
Proof. apply zmesh_ok; [vm_compute; reflexivity|discriminate|]. repeat constructor; simpl; lia. Qed.
Lemma pair_convex : convex_mesh (map (ptZ (T:=R)) pair_pts) pair_faces (-1).
Proof.
  intros j poly (f & _ & En & Hp). apply nth_error_In in En. unfold pair_faces in En. cbn in En.
  repeat destruct En as [En|En]; try contradiction; subst f; unfold poly_of in Hp; cbn in Hp; invert_poly; left; convex_check.
Qed.
Lemma span3_four (a b c : pt) : Rmax (Rabs (px b - px a)) (Rabs (px c - px b)) = 4 -> Rabs (px a - px c) <= 4 ->
  Rabs (py b - py a) <= 4 -> Rabs (py c - py b) <= 4 -> Rabs (py a - py c) <= 4 -> span3 a b c = 4.
Proof. intros H1 H2 H3 H4 H5. unfold span3. rewrite H1, (Rmax_left 4) by lra. apply Rmax_left. repeat apply Rmax_lub; auto. Qed.
Ltac abs4 := cbn [px py ptZ fst snd nofZ NumR]; unfold Rabs; repeat destruct Rcase_abs; lra.
Lemma pair_triangles : triangle_mesh (map (ptZ (T:=R)) pair_pts) pair_faces (-1).
Proof.
  assert (U : bpow radix2 (-250) <= 4 /\ 1000 * (uro * (4 * 4)) <= 16).
  { split; [apply Rle_trans with (bpow radix2 2); [apply bpow_le; lia|change (bpow radix2 2) with 4; lra]|].
    pose proof uro_small. lra. }
  intros j poly (f & _ & En & Hp). apply nth_error_In in En. unfold pair_faces in En. cbn in En.
  repeat destruct En as [En|En]; try contradiction; subst f; unfold poly_of in Hp; cbn in Hp; invert_poly;
    (eexists _, _, _; split; [reflexivity|]); unfold clear_triangle; (rewrite span3_four; [|unfold Rmax; destruct Rle_dec as [L|L]; revert L; abs4|abs4..]);
    (split; [apply U|]); (eapply Rle_trans; [apply U|]); unfold orient; abs4.
Qed.

Example C54_example : exists t u v w u' v' w', CellTree2d_init (T:=b64) g0 (map ptZ pair_pts) pair_faces (-1) 4 2 = Ok t
  /\ CellTree2d_compute_barycentric_weights g0 t 3 [ptZ (1, 2); ptZ (3, 1); ptZ (6, 6)]%Z (Some (Zb 0))
     = Ok ([0; 1; -1]%Z, [[u; v; w]; [u'; v'; w']; [Zb 0; Zb 0; Zb 0]])
  /\ Rabs (B2R u - 1 / 4) <= 80 * uro /\ Rabs (B2R v - 1 / 4) <= 35 * uro /\ Rabs (B2R w - 1 / 2) <= 35 * uro
  (* the second point is on the side that the triangles share *)
  /\ Rabs (B2R u' - 3 / 4) <= 80 * uro /\ Rabs (B2R v') <= 35 * uro /\ Rabs (B2R w' - 1 / 4) <= 35 * uro.
Proof.
  assert (Er : map rp (map (ptZ (T:=b64)) pair_pts) = map (ptZ (T:=R)) pair_pts) by (apply rp_ptZ; vm_compute; reflexivity).
  assert (H : match CellTree2d_init (T:=b64) g0 (map ptZ pair_pts) pair_faces (-1) 4 2 with
    | Ok t => match CellTree2d_locate_points g0 t [ptZ (1, 2); ptZ (3, 1); ptZ (6, 6)]%Z (Some (Zb 0)) with
              | Ok js => (elements (celltree_data t), js) | _ => ([], []) end
    | _ => ([], []) end = (pair_faces, [0; 1; -1]%Z)) by (vm_compute; reflexivity).
  destruct (CellTree2d_init g0 (map ptZ pair_pts) pair_faces (-1) 4 2) as [t|] eqn:Et; [|discriminate H].
  destruct (CellTree2d_locate_points g0 t [ptZ (1, 2); ptZ (3, 1); ptZ (6, 6)]%Z (Some (Zb 0))) as [js|] eqn:Ej; [|discriminate H].
  injection H as He ->.
  assert (BP : forall z, (Z.abs z <= 8)%Z -> bounded 3 (Zb z)).
  { intros z Hz. apply bounded_Zb; lia. }
  destruct (C54_float_triangle_weights 3 g0 (map ptZ pair_pts) pair_faces (-1) 4 2 t ltac:(lia) pair_mesh
              ltac:(apply zbounded; [lia|vm_compute; reflexivity]) ltac:(rewrite Er; exact pair_convex)
              ltac:(rewrite Er; apply sides_ok_Z; exact pair_convex) ltac:(rewrite Er; exact pair_triangles) Et
              g0 [ptZ (1, 2); ptZ (3, 1); ptZ (6, 6)]%Z (Some (Zb 0)) (Zb 0)) as (js & rows & Ew & Ejs & Hl & HR).
  { do 3 (apply Forall_cons; [split; apply BP; vm_compute; discriminate|]). apply Forall_nil. }
  { reflexivity. }
  { apply BP; lia. }
  { rewrite (proj2 (Zb_exact 0 ltac:(lia))). lra. }
  rewrite Ej in Ejs. apply Ok_inj in Ejs. subst js.
  destruct rows as [|r1 [|r2 [|r3 [|]]]]; try discriminate Hl.
  destruct (HR 2%nat _ _ _ eq_refl eq_refl eq_refl) as (H3 & _). specialize (H3 eq_refl). subst r3.
  assert (RP : forall x y, (Z.abs x <= 8)%Z -> (Z.abs y <= 8)%Z -> rp (ptZ (T:=b64) (x, y)) = ptZ (x, y)).
  { intros x' y' Hx' Hy'. unfold rp, ptZ. cbn [px py fst snd]. change (@nofZ b64 _) with Zb.
    rewrite !(fun n H => proj2 (Zb_exact n H)) by lia. reflexivity. }
  destruct (HR 0%nat _ _ _ eq_refl eq_refl eq_refl) as (_ & H). destruct (H ltac:(discriminate)) as
    (f & a & b & c & u & v & w & u0 & v0 & w0 & Ef & Pf & -> & HC & _ & HQ). clear H.
  rewrite He in Ef. cbn in Ef. injection Ef as <-. unfold poly_of in Pf. cbn in Pf. invert_poly.
  rewrite !RP in HC by lia. rewrite !RP in HQ by lia.
  apply coordinates_unique in HC as (E1 & E2 & E3); [|unfold orient; cbn [px py ptZ fst snd nofZ NumR]; lra].
  unfold orient in E1, E2, E3; cbn [px py ptZ fst snd nofZ NumR] in E1, E2, E3.
  replace u0 with (1 / 4) in * by (rewrite E1; field). replace v0 with (1 / 4) in * by (rewrite E2; field).
  replace w0 with (1 / 2) in * by (rewrite E3; field).
  destruct (HQ 0 ltac:(lra) ltac:(lra) ltac:(lra) ltac:(lra)) as (_ & _ & _ & A1 & A2 & A3 & _).
  assert (Eq : shape_error (ptZ (0, 0)%Z) (ptZ (4, 0)%Z) (ptZ (0, 4)%Z) = uro).
  { unfold shape_error. rewrite span3_four; [|unfold Rmax; destruct Rle_dec as [L|L]; revert L; abs4|abs4..].
    replace (Rabs (orient (ptZ (0, 0)%Z) (ptZ (4, 0)%Z) (ptZ (0, 4)%Z))) with 16 by (unfold orient; abs4). field. }
  rewrite Eq in A1, A2, A3. clear HQ.
  destruct (HR 1%nat _ _ _ eq_refl eq_refl eq_refl) as (_ & H). destruct (H ltac:(discriminate)) as
    (f & a & b & c & u' & v' & w' & u1 & v1 & w1 & Ef & Pf & -> & HC & _ & HQ). clear H HR.
  rewrite He in Ef. cbn in Ef. injection Ef as <-. unfold poly_of in Pf. cbn in Pf. invert_poly.
  rewrite !RP in HC by lia. rewrite !RP in HQ by lia.
  apply coordinates_unique in HC as (E4 & E5 & E6); [|unfold orient; cbn [px py ptZ fst snd nofZ NumR]; lra].
  unfold orient in E4, E5, E6; cbn [px py ptZ fst snd nofZ NumR] in E4, E5, E6.
  replace u1 with (3 / 4) in * by (rewrite E4; field). replace v1 with 0 in * by (rewrite E5; field).
  replace w1 with (1 / 4) in * by (rewrite E6; field).
  destruct (HQ 0 ltac:(lra) ltac:(lra) ltac:(lra) ltac:(lra)) as (_ & _ & _ & B1 & B2 & B3 & _).
  assert (Eq' : shape_error (ptZ (4, 0)%Z) (ptZ (4, 4)%Z) (ptZ (0, 4)%Z) = uro).
  { unfold shape_error. rewrite span3_four; [|unfold Rmax; destruct Rle_dec as [L|L]; revert L; abs4|abs4..].
    replace (Rabs (orient (ptZ (4, 0)%Z) (ptZ (4, 4)%Z) (ptZ (0, 4)%Z))) with 16 by (unfold orient; abs4). field. }
  rewrite Eq' in B1, B2, B3. rewrite Rminus_0_r in B2.
  exists t, u, v, w, u', v', w'. split; auto. split; auto.
  repeat split; lra.
Qed.

Print Assumptions C54_float_triangle_weights.
Print Assumptions C54_float_exact_refuted.
