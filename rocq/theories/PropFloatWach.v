(** Property theorems about binary64: Wachspress weights (C60). *)
From Coq Require Import Reals Lra Psatz.
From Flocq Require Import IEEE754.BinarySingleNaN Core.
From Verif Require Import RBase NumB64 NumSub NumRoom FBase MUtils MGeometry MAlgorithms MCreation MQuery MCelltree
  SpecTree SpecQuery SpecApi SpecPoly SpecGeom SpecMesh SpecWach PMesh PInit PBuild PPoints PApi PFaces GTriangle GConvex GHull GCcw GFaces
  FBuild FMesh FPoint FLocate FCut FOrient FWeights FWach FWachPoly FWachLocate Examples PropEdges PropPoints PropWach PropFloat PropFloatPoints PropFloatWeights.
Open Scope R_scope.

(** ** C60: Wachspress weights of points in binary64 *)

(** Away from the lines of all sides: the row starts with weights that are, up to
    the relative error e, the Wachspress weights of the point; the rest is zero. *)
Definition weights_away (e t : R) (poly : list (point b64)) (p : point b64) (n : nat) (row : list b64) : Prop :=
  exists ws ws0, row = ws ++ repeat (Zb 0) (n - length poly)
    /\ (forall u v, In (u, v) (poly_edges (map rp poly)) -> ~ line_near (0.98 * t) u v (rp p))
    /\ wachspress (map rp poly) (rp p) ws0
    /\ Forall2 (fun w w0 => is_finite w = true /\ 0 < w0 /\ Rabs (B2R w - w0) <= e * w0) ws ws0
    (* they sum to one, and reproduce a point of the polygon *)
    /\ Rabs (sumR (map B2R ws) - 1) <= e
    /\ (hull (map rp poly) (rp p) -> comb ws0 (map rp poly) = rp p
        /\ forall M, (forall v, In v poly -> Rabs (px (rp v) - px (rp p)) <= M /\ Rabs (py (rp v) - py (rp p)) <= M) ->
             Rabs (px (comb (map B2R ws) (map rp poly)) - px (rp p)) <= e * (M + Rabs (px (rp p)))
             /\ Rabs (py (comb (map B2R ws) (map rp poly)) - py (rp p)) <= e * (M + Rabs (py (rp p)))).

(** Close to the line of a side: only the two ends of that side have a weight; they
    interpolate by the distance from the first end. *)
Definition weights_side (t : R) (poly : list (point b64)) (p : point b64) (n : nat) (row : list b64) : Prop :=
  exists u v i j w0 x y, In (rp u, rp v) (poly_edges (map rp poly)) /\ line_near (1.01 * t) (rp u) (rp v) (rp p)
    /\ nth_error poly i = Some u /\ nth_error poly j = Some v /\ i <> j
    /\ 0 <= w0 /\ w0 * w0 * dist2 (rp v) (rp u) = dist2 (rp p) (rp u)
    /\ length row = n /\ nth_error row i = Some x /\ nth_error row j = Some y
    /\ (forall l z, l <> i -> l <> j -> nth_error row l = Some z -> z = Zb 0)
    /\ is_finite x = true /\ is_finite y = true
    /\ Rabs (B2R x - (1 - w0)) <= 14 * uro * (1 + w0) /\ Rabs (B2R y - w0) <= 12 * uro * (1 + w0).

(** rounding, amplified by the shape of the polygon *)
Definition polygon_error (W D : R) (n : nat) : R := 72 * (uro * (W * W) / D) + 2 * (IZR (Z.of_nat n) * uro).

Lemma skipn_repeat {A} (x : A) : forall m n, skipn m (repeat x n) = repeat x (n - m).
Proof. induction m as [|m IH]; intros [|n]; cbn; auto. Qed.

(** one polygon and one point *)
Theorem C60_float_wachspress k poly p (tol : b64) W D n : (-150 <= k <= 250)%Z ->
  Forall (bpt k) poly -> bpt k p -> bounded k tol -> 0 <= B2R tol ->
  convex (map rp poly) -> clear_weights W D (B2R tol) (map rp poly) (rp p) ->
  (length poly <= n)%nat -> (Z.of_nat n <= 2 ^ 40)%Z ->
  exists row, wachspress_weights poly p (repeat (Zb 0) n) tol = Ok row
    /\ (weights_away (polygon_error W D (length poly)) (B2R tol) poly p n row \/ weights_side (B2R tol) poly p n row).
Proof.
  intros Hk HB Bp Bt Pt0 HC HW Hn Hn40.
  assert (H3 : (3 <= length poly)%nat /\ NoDup (map rp poly)).
  { destruct HC as [(A & B & _)|(A & B & _)].
    - rewrite map_length in A. auto.
    - rewrite rev_length, map_length in A. split; auto. rewrite <- (rev_involutive (map rp poly)). now apply NoDup_rev. }
  destruct H3 as (H3 & HN). destruct poly as [|v0 l]; [cbn in H3; lia|].
  destruct (float_wachspress k Hk p tol Bp Bt Pt0 W D v0 l HB HW (repeat (Zb 0) n) HN H3) as
    [(ws & ws0 & E & HA & HWs & HF & HCo)|(out & u & v & i & j & w0 & x & y & E & H)].
  - now rewrite repeat_length.
  - unfold zlen. lia.
  - exists (ws ++ skipn (length (v0 :: l)) (repeat (Zb 0) n)). split; auto. left. exists ws, ws0.
    split; [now rewrite skipn_repeat|]. split; auto. split; auto.
    fold (polygon_error W D (length (v0 :: l))) in HF. set (e := polygon_error W D (length (v0 :: l))) in *.
    split; [exact HF|]. pose proof HWs as (L0 & S0 & _).
    assert (Pe : 0 <= e).
    { destruct HW as (H1 & H2 & _). pose proof (q_small W D H1 H2) as (Q & _). pose proof uro_pos.
      assert (0 <= IZR (Z.of_nat (length (v0 :: l))) * uro) by (apply Rmult_le_pos; [apply IZR_le; lia|lra]). unfold e, polygon_error. lra. }
    pose proof (rel_sum e ws ws0 HF) as HS. rewrite S0, Rmult_1_r in HS. split; auto.
    intros Hh. specialize (HCo HC Hh). split; auto. intros M HM.
    assert (Lw : length (map rp (v0 :: l)) = length ws) by (rewrite <- L0; symmetry; eapply F2_length; eauto).
    assert (G : forall f : pt -> R, (forall v, In v (map rp (v0 :: l)) -> Rabs (f v - f (rp p)) <= M) ->
       sumR (map (fun wv => fst wv * f (snd wv)) (combine ws0 (map rp (v0 :: l)))) = f (rp p) ->
       Rabs (sumR (map (fun wv => fst wv * f (snd wv)) (combine (map B2R ws) (map rp (v0 :: l)))) - f (rp p)) <= e * (M + Rabs (f (rp p)))).
    { intros f Hf Ef. pose proof (rel_comb e M f (f (rp p)) Pe ws ws0 HF _ Lw Hf) as G. rewrite Ef, S0, Rmult_1_r in G.
      assert (G2 : Rabs (f (rp p) * (sumR (map B2R ws) - 1)) <= Rabs (f (rp p)) * e) by (apply mul_abs; [lra|auto]).
      apply Rabs_le_iff in G, G2. apply Rabs_le_iff. lra. }
    split; apply G.
    + intros v Hv. apply in_map_iff in Hv as (v' & <- & Hv). now apply HM.
    + exact (f_equal px HCo).
    + intros v Hv. apply in_map_iff in Hv as (v' & <- & Hv). now apply HM.
    + exact (f_equal py HCo).
  - exists out. split; auto. right. exists u, v, i, j, w0, x, y. rewrite repeat_length in H. exact H.
Qed.

(** meshes: the whole query *)
Theorem C60_float_wachspress_weights k g (vs : list (point b64)) faces fill nb cpl t (W D : Z -> R) :
  (-150 <= k <= 250)%Z -> mesh_ok vs faces fill -> bounded_vertices k vs ->
  convex_mesh (map rp vs) faces fill -> sides_ok (map rp vs) faces fill ->
  CellTree2d_init g vs faces fill nb cpl = Ok t ->
  forall g' n points tolerance tol, (4 <= n)%nat -> (Z.of_nat n <= 2 ^ 40)%Z -> Forall (fun f => (length f <= n)%nat) faces ->
  Forall (bpt k) points -> get_tolerance t tolerance = Ok tol -> bounded k tol -> 0 <= B2R tol ->
  (forall j poly, face_poly (map rp vs) faces fill j poly -> clear_polygon (W j) (D j) (B2R tol) (2 * B2R tol + bpow radix2 (k - 48)) poly) ->
  exists js rows, CellTree2d_compute_barycentric_weights g' t n points tolerance = Ok (js, rows)
    /\ CellTree2d_locate_points g' t points tolerance = Ok js /\ length rows = length points
    /\ forall i p j row, nth_error points i = Some p -> nth_error js i = Some j -> nth_error rows i = Some row ->
         (j = (-1)%Z -> row = repeat (Zb 0) n)
         /\ (j <> (-1)%Z -> exists f poly, nth_error (elements (celltree_data t)) (Z.to_nat j) = Some f /\ poly_of vs f poly
              /\ convex (map rp poly)
              /\ (weights_away (polygon_error (W j) (D j) (length poly)) (B2R tol) poly p n row
                  (* with a tolerance that covers the rounding the point is in the face, or at the tolerance from a side *)
                  /\ (bpow radix2 (k - 47) <= B2R tol -> hull (map rp poly) (rp p)
                      \/ exists u v, In (u, v) (poly_edges (map rp poly)) /\ line_near (1.01 * B2R tol) u v (rp p))
                  \/ weights_side (B2R tol) poly p n row)).
Proof.
  intros Hk Hm HB Hc Hs E g' n points tolerance tol Hn Hn40 Hw HP Et Bt Pt0 HCl.
  pose proof (init_built _ _ _ _ _ _ _ Hm E) as Hb.
  destruct (points_result _ _ _ _ t tolerance Hb) as (tol' & Et' & H). rewrite Et in Et'. apply Ok_inj in Et'. subst tol'.
  destruct (H points) as (js & Hj & HF). clear H.
  assert (Hl : length js = length points) by (symmetry; eapply F2_length; eauto).
  set (P := fun (p : point b64) (j : Z) (row : list b64) =>
         (j = (-1)%Z -> row = repeat (Zb 0) n)
         /\ (j <> (-1)%Z -> exists f poly, nth_error (elements (celltree_data t)) (Z.to_nat j) = Some f /\ poly_of vs f poly
              /\ convex (map rp poly)
              /\ (weights_away (polygon_error (W j) (D j) (length poly)) (B2R tol) poly p n row
                  /\ (bpow radix2 (k - 47) <= B2R tol -> hull (map rp poly) (rp p)
                      \/ exists u v, In (u, v) (poly_edges (map rp poly)) /\ line_near (1.01 * B2R tol) u v (rp p))
                  \/ weights_side (B2R tol) poly p n row))).
  assert (HO : forall i p j, nth_error points i = Some p -> nth_error js i = Some j -> exists row,
    barycentric_wachspress_one g' n (elements (celltree_data t)) (vertices (celltree_data t)) tol (p, j) = Ok row /\ P p j row).
  { intros i p j Ep Ej. assert (Bp : bpt k p) by (rewrite Forall_forall in HP; apply HP; eapply nth_error_In; eauto).
    pose proof (PApi.Forall2_nth _ _ _ _ _ _ HF Ep Ej) as HA. unfold barycentric_wachspress_one.
    destruct HA as [(f & poly & H0 & En & Hp & Hpass)|(-> & _)].
    2:{ eexists. split; [reflexivity|]. split; [reflexivity|congruence]. }
    destruct (stored_back_float _ _ _ _ _ _ _ Hm Hb H0 En) as (polyR & Hpoly).
    destruct (stored_float k _ _ _ _ _ _ _ Hb HB Hpoly) as (f2 & poly2 & bb & _ & En2 & _ & Hp2 & Bf & Hsame & _).
    rewrite En in En2. inversion En2; subst f2. rewrite (bt_vertices _ _ _ _ _ Hb) in Hp.
    assert (poly2 = poly).
    { clear - Hp2 Hp. unfold poly_of in *. revert poly2 Hp2. induction Hp as [|z q l l' (_ & E) _ IH]; intros poly2 H; inversion H; subst; auto.
      destruct H2 as (_ & E2). f_equal; [congruence|auto]. }
    subst poly2.
    assert (HCv : convex (map rp poly)) by (eapply convex_either; eauto).
    assert (HSd : forall u v, In (u, v) (poly_edges (map rp poly)) -> side_ok u v) by (eapply sides_either; eauto).
    assert (Hlen : (length poly <= n)%nat).
    { pose proof (PropWach.Forall2_nth_r _ _ _ _ _ (bt_elements _ _ _ _ _ Hb) En) as (f0 & En0 & Hsf).
      assert (El : length (until_fill f) = length (until_fill f0)).
      { destruct Hsf as (_ & [->| ->]); auto. apply rev_length. }
      assert (Ell : length poly = length (until_fill f)) by (unfold poly_of in Hp; symmetry; eapply F2_length; eauto).
      rewrite Ell, El. apply nth_error_In in En0. apply in_map_iff in En0 as (f1 & <- & Hf1).
      rewrite Forall_forall in Hw. specialize (Hw f1 Hf1).
      eapply Nat.le_trans; [apply until_fill_length|]. unfold with_fill. rewrite map_length. exact Hw. }
    pose proof (bpow_gt_0 radix2 (k - 48)) as P48.
    assert (HCW : clear_weights (W j) (D j) (B2R tol) (map rp poly) (rp p)).
    { apply (clear_located _ _ _ (2 * B2R tol + bpow radix2 (k - 48))); [lra| |].
      - eapply clear_polygon_either; [exact Hsame|]. now apply HCl.
      - apply (pip_float_sound k Hk p tol Bp Bt Pt0 poly); auto. }
    assert (Hwf : wf_face (length vs) f).
    { pose proof (mt_faces _ (bt_mesh _ _ _ _ _ Hb)) as Hwf. rewrite (bt_vertices _ _ _ _ _ Hb) in Hwf.
      rewrite Forall_forall in Hwf. apply Hwf. eapply nth_error_In; eauto. }
    assert (Ef : aget (elements (celltree_data t)) j = Ok f) by (rewrite <- (Z2Nat.id j) by lia; now apply aget_nat).
    assert (Nj : (j =? -1)%Z = false) by (apply Z.eqb_neq; lia).
    rewrite Nj, Ef. cbn [bind]. rewrite (bt_vertices _ _ _ _ _ Hb).
    rewrite (copy_vertices_ok _ _ _ _ Hwf Hp). cbn [bind]. change (nofZ 0) with (Zb 0).
    destruct (C60_float_wachspress k poly p tol (W j) (D j) n Hk Bf Bp Bt Pt0 HCv HCW Hlen Hn40) as (row & Er & HR).
    exists row. split; auto. split; [lia|]. intros _. exists f, poly. split; auto. split; auto. split; auto.
    destruct HR as [HR|HR]; [left|now right]. split; auto. intros Ht.
    destruct poly as [|v0 l]; [destruct HCv as [(X & _)|(X & _)]; cbn in X; lia|].
    exact (pip_side_or_hull k Hk p tol Bp Bt Pt0 (W j) (D j) v0 l HCv Bf HSd HCW Ht Hpass). }
  assert (HR : exists rows, length rows = length points /\ forall i p j row, nth_error points i = Some p -> nth_error js i = Some j -> nth_error rows i = Some row ->
     barycentric_wachspress_one g' n (elements (celltree_data t)) (vertices (celltree_data t)) tol (p, j) = Ok row).
  { clear - HO Hl. revert js Hl HO. induction points as [|p ps IH]; intros js Hl HO; destruct js as [|j js]; try discriminate Hl.
    - exists []. split; auto. intros [|i] ? ? ? X; discriminate X.
    - destruct (HO 0%nat p j eq_refl eq_refl) as (row & Er & _).
      destruct (IH js) as (rows & L & HI); [cbn in Hl; lia|intros i p' j' A B; apply (HO (S i)); auto|].
      exists (row :: rows). split; [cbn; now rewrite L|]. intros [|i] p' j' row' A B C; cbn [nth_error] in A, B, C; [congruence|eauto]. }
  destruct HR as (rows & Hlr & HR). exists js, rows.
  assert (HM : barycentric_wachspress_weights g' n points js (elements (celltree_data t)) (vertices (celltree_data t)) tol = Ok rows).
  { unfold barycentric_wachspress_weights. apply PCollect.mapres_ok. apply Forall2_nth_intro; [now rewrite iota_length|].
    intros i z row Hi Hr.
    assert (Hi' : (i < length points)%nat) by (rewrite <- Hlr; apply nth_error_Some; congruence).
    rewrite iota_nth in Hi by auto. inversion Hi; subst z.
    destruct (nth_error points i) as [p|] eqn:Ep; [|apply nth_error_None in Ep; lia].
    destruct (nth_error js i) as [j|] eqn:Ej; [|apply nth_error_None in Ej; lia].
    rewrite (aget_nat _ _ _ Ej). cbn [bind]. rewrite (aget_nat _ _ _ Ep). cbn [bind]. eapply HR; eauto. }
  split.
  { unfold CellTree2d_compute_barycentric_weights. rewrite Et. cbn [bind]. specialize (Hj g').
    unfold CellTree2d_locate_points in *. rewrite Et in Hj. cbn [bind get_tolerance] in *. rewrite Hj. cbn [bind].
    replace (3 <? n)%nat with true by (symmetry; apply Nat.ltb_lt; lia). rewrite HM. reflexivity. }
  split; auto. split; auto.
  intros i p j row Ep Ej Er. destruct (HO i p j Ep Ej) as (row' & Er' & HQ). rewrite (HR i p j row Ep Ej Er) in Er'.
  apply Ok_inj in Er'. subst row'. exact HQ.
Qed.

(** ** A concrete case: a square and a triangle beside it; tolerance one *)
Definition kite_pts : list (Z * Z) := [(0, 0); (64, 0); (64, 64); (0, 64); (128, 32)]%Z.
Definition kite_faces : list (list Z) := [[0; 1; 2; 3]; [1; 4; 2; -1]]%Z.
Lemma kite_mesh : mesh_ok (map (ptZ (T:=b64)) kite_pts) kite_faces (-1).
Proof. apply zmesh_ok; [vm_compute; reflexivity|discriminate|]. repeat constructor; simpl; lia. Qed.
Lemma kite_convex : convex_mesh (map (ptZ (T:=R)) kite_pts) kite_faces (-1).
Proof.
  intros j poly (f & _ & En & Hp). apply nth_error_In in En. unfold kite_faces in En. cbn in En.
  repeat destruct En as [En|En]; try contradiction; subst f; unfold poly_of in Hp; cbn in Hp; invert_poly; left; convex_check.
Qed.
Lemma kite_clear j poly : face_poly (map (ptZ (T:=R)) kite_pts) kite_faces (-1) j poly -> clear_polygon 68 50 1 (2 * 1 + bpow radix2 (7 - 48)) poly.
Proof.
  assert (P : 0 < bpow radix2 (7 - 48) <= 1) by (split; [apply bpow_gt_0|change 1 with (bpow radix2 0); apply bpow_le; lia]).
  intros (f & _ & En & Hp). apply nth_error_In in En. unfold kite_faces in En. cbn in En.
  assert (S : bpow radix2 (-200) <= 68 <= bpow radix2 252 /\ 1000 * (uro * (68 * 68)) <= 50).
  { split; [split|].
    - apply Rle_trans with (bpow radix2 6); [apply bpow_le; lia|change (bpow radix2 6) with 64; lra].
    - apply Rle_trans with (bpow radix2 7); [change (bpow radix2 7) with 128; lra|apply bpow_le; lia].
    - pose proof uro_small. lra. }
  destruct S as (S1 & S2).
  repeat destruct En as [En|En]; try contradiction; subst f; unfold poly_of in Hp; cbn in Hp; invert_poly;
    (split; [exact S1|split; [exact S2|split; [|split]]]).
  1,4: intros u v Hu Hv; cbn [In] in Hu, Hv; repeat (destruct Hu as [Hu|Hu]); try contradiction; subst u;
    repeat (destruct Hv as [Hv|Hv]); try contradiction; subst v; split; abs4.
  1,3: intros a b c H1 H2; cbn [poly_edges chain last In] in H1, H2; repeat (destruct H1 as [H1|H1]); try contradiction;
    repeat (destruct H2 as [H2|H2]); try contradiction; injection H1 as <- <-;
    pose proof (f_equal (fun e : pt * pt => px (fst e)) H2) as Q1; pose proof (f_equal (fun e : pt * pt => py (fst e)) H2) as Q2;
    pose proof (f_equal snd H2) as Q3; cbn [snd] in Q3; subst c; cbn [fst snd px py ptZ nofZ NumR] in Q1, Q2; first [exfalso; lra|unfold orient; abs4].
  all: intros u v H1; cbn [poly_edges chain last In] in H1; repeat (destruct H1 as [H1|H1]); try contradiction; injection H1 as <- <-;
    unfold dist2; cbn [px py ptZ fst snd nofZ NumR]; lra.
Qed.

Theorem C60_example : exists t a b c d x y u v w, CellTree2d_init (T:=b64) g0 (map ptZ kite_pts) kite_faces (-1) 4 2 = Ok t
  /\ CellTree2d_compute_barycentric_weights g0 t 4 [ptZ (16, 16); ptZ (32, 0); ptZ (96, 32); ptZ (20, 100)]%Z (Some (Zb 1))
     = Ok ([0; 0; 1; -1]%Z, [[a; b; c; d]; [x; y; Zb 0; Zb 0]; [u; v; w; Zb 0]; [Zb 0; Zb 0; Zb 0; Zb 0]])
  /\ Rabs (B2R a - 9 / 16) <= 6700 * uro /\ Rabs (B2R b - 3 / 16) <= 6700 * uro /\ Rabs (B2R c - 1 / 16) <= 6700 * uro /\ Rabs (B2R d - 3 / 16) <= 6700 * uro
  (* the second point is on a side *)
  /\ Rabs (B2R x - 1 / 2) <= 21 * uro /\ Rabs (B2R y - 1 / 2) <= 18 * uro
  (* the third is in the triangle *)
  /\ Rabs (B2R u - 1 / 4) <= 6700 * uro /\ Rabs (B2R v - 1 / 2) <= 6700 * uro /\ Rabs (B2R w - 1 / 4) <= 6700 * uro.
Proof.
  assert (Er : map rp (map (ptZ (T:=b64)) kite_pts) = map (ptZ (T:=R)) kite_pts) by (apply rp_ptZ; vm_compute; reflexivity).
  assert (H : match CellTree2d_init (T:=b64) g0 (map ptZ kite_pts) kite_faces (-1) 4 2 with
    | Ok t => match CellTree2d_locate_points g0 t [ptZ (16, 16); ptZ (32, 0); ptZ (96, 32); ptZ (20, 100)]%Z (Some (Zb 1)) with
              | Ok js => (elements (celltree_data t), js) | _ => ([], []) end
    | _ => ([], []) end = (kite_faces, [0; 0; 1; -1]%Z)) by (vm_compute; reflexivity).
  destruct (CellTree2d_init g0 (map ptZ kite_pts) kite_faces (-1) 4 2) as [t|] eqn:Et; [|discriminate H].
  destruct (CellTree2d_locate_points g0 t [ptZ (16, 16); ptZ (32, 0); ptZ (96, 32); ptZ (20, 100)]%Z (Some (Zb 1))) as [js|] eqn:Ej; [|discriminate H].
  injection H as He ->.
  assert (BP : forall z, (Z.abs z <= 128)%Z -> bounded 7 (Zb z)).
  { intros z Hz. apply bounded_Zb; lia. }
  assert (E1 : B2R (Zb 1) = 1) by (rewrite (proj2 (Zb_exact 1 ltac:(lia))); reflexivity).
  destruct (C60_float_wachspress_weights 7 g0 (map ptZ kite_pts) kite_faces (-1) 4 2 t (fun _ => 68) (fun _ => 50) ltac:(lia) kite_mesh
              ltac:(apply zbounded; [lia|vm_compute; reflexivity]) ltac:(rewrite Er; exact kite_convex)
              ltac:(rewrite Er; apply sides_ok_Z; exact kite_convex) Et
              g0 4%nat [ptZ (16, 16); ptZ (32, 0); ptZ (96, 32); ptZ (20, 100)]%Z (Some (Zb 1)) (Zb 1)) as (js & rows & Ew & Ejs & Hl & HR).
  { lia. }
  { lia. }
  { repeat constructor. }
  { do 4 (apply Forall_cons; [split; apply BP; vm_compute; discriminate|]). apply Forall_nil. }
  { reflexivity. }
  { apply BP; lia. }
  { rewrite E1. lra. }
  { rewrite Er, E1. intros j poly Hj. exact (kite_clear j poly Hj). }
  rewrite Ej in Ejs. apply Ok_inj in Ejs. subst js.
  destruct rows as [|r1 [|r2 [|r3 [|r4 [|]]]]]; try discriminate Hl.
  destruct (HR 3%nat _ _ _ eq_refl eq_refl eq_refl) as (H3 & _). specialize (H3 eq_refl). cbn [repeat] in H3. subst r4.
  assert (RP : forall x y, (Z.abs x <= 128)%Z -> (Z.abs y <= 128)%Z -> rp (ptZ (T:=b64) (x, y)) = ptZ (x, y)).
  { intros x' y' Hx' Hy'. unfold rp, ptZ. cbn [px py fst snd]. change (@nofZ b64 _) with Zb.
    rewrite !(fun n H => proj2 (Zb_exact n H)) by lia. reflexivity. }
  pose proof uro_pos as Pu.
  assert (PE : polygon_error 68 50 4 <= 6700 * uro /\ polygon_error 68 50 3 <= 6700 * uro).
  { unfold polygon_error. cbn [Z.of_nat Pos.of_succ_nat Pos.succ]. lra. }
  (* the first point *)
  assert (G1 : exists a b c d, r1 = [a; b; c; d] /\ Rabs (B2R a - 9 / 16) <= 6700 * uro /\ Rabs (B2R b - 3 / 16) <= 6700 * uro
     /\ Rabs (B2R c - 1 / 16) <= 6700 * uro /\ Rabs (B2R d - 3 / 16) <= 6700 * uro).
  { destruct (HR 0%nat _ _ _ eq_refl eq_refl eq_refl) as (_ & H). destruct (H ltac:(discriminate)) as (f & poly & Ef & Pf & _ & HQ). clear H HR.
    rewrite He in Ef. cbn in Ef. injection Ef as <-. unfold poly_of in Pf. cbn in Pf. invert_poly. rewrite E1 in HQ.
    destruct HQ as [(HQ & _)|HQ].
    - destruct HQ as (ws & ws0 & -> & _ & (L & HS & s & Ps & HI) & HF & _). cbn [map] in *. rewrite !RP in HI by lia.
      destruct ws0 as [|a0 [|b0 [|c0 [|d0 [|]]]]]; try discriminate L.
      inversion HF as [|a ? wa ? Fa HF1]; subst. inversion HF1 as [|b ? wb ? Fb HF2]; subst. inversion HF2 as [|c ? wc ? Fc HF3]; subst.
      inversion HF3 as [|d ? wd ? Fd HF4]; subst. inversion HF4; subst. clear HF HF1 HF2 HF3 HF4.
      set (p0 := ptZ (0, 0)%Z : pt) in *. set (p1 := ptZ (64, 0)%Z : pt) in *. set (p2 := ptZ (64, 64)%Z : pt) in *. set (p3 := ptZ (0, 64)%Z : pt) in *.
      pose proof (HI 0%nat p3 p0 p1 a0 ltac:(cbn; tauto) ltac:(cbn; tauto) eq_refl eq_refl) as I0.
      pose proof (HI 1%nat p0 p1 p2 b0 ltac:(cbn; tauto) ltac:(cbn; tauto) eq_refl eq_refl) as I1.
      pose proof (HI 2%nat p1 p2 p3 c0 ltac:(cbn; tauto) ltac:(cbn; tauto) eq_refl eq_refl) as I2.
      pose proof (HI 3%nat p2 p3 p0 d0 ltac:(cbn; tauto) ltac:(cbn; tauto) eq_refl eq_refl) as I3.
      clear HI. cbn [sumR] in HS.
      assert (O1 : Rabs (orient p3 p0 (ptZ (16, 16)%Z)) = 1024) by (unfold orient, p0, p3; abs4).
      assert (O2 : Rabs (orient p0 p1 (ptZ (16, 16)%Z)) = 1024) by (unfold orient, p0, p1; abs4).
      assert (O3 : Rabs (orient p1 p2 (ptZ (16, 16)%Z)) = 3072) by (unfold orient, p1, p2; abs4).
      assert (O4 : Rabs (orient p2 p3 (ptZ (16, 16)%Z)) = 3072) by (unfold orient, p2, p3; abs4).
      assert (O5 : Rabs (orient p3 p0 p1) = 4096) by (unfold orient, p0, p1, p3; abs4).
      assert (O6 : Rabs (orient p0 p1 p2) = 4096) by (unfold orient, p0, p1, p2; abs4).
      assert (O7 : Rabs (orient p1 p2 p3) = 4096) by (unfold orient, p1, p2, p3; abs4).
      assert (O8 : Rabs (orient p2 p3 p0) = 4096) by (unfold orient, p0, p2, p3; abs4).
      rewrite O1, O2, O5 in I0. rewrite O2, O3, O6 in I1. rewrite O3, O4, O7 in I2. rewrite O4, O1, O8 in I3.
      assert (A0 : a0 = 9 / 16) by lra. assert (B0 : b0 = 3 / 16) by lra. assert (C0 : c0 = 1 / 16) by lra. assert (D0 : d0 = 3 / 16) by lra.
      subst a0 b0 c0 d0. destruct Fa as (_ & _ & Fa), Fb as (_ & _ & Fb), Fc as (_ & _ & Fc), Fd as (_ & _ & Fd). cbn [length] in *.
      exists a, b, c, d. split; [reflexivity|]. lra.
    - exfalso. destruct HQ as (u & v & i & j & w0 & x & y & Hin & Hn & _). cbn [map] in Hin. rewrite !RP in * by lia.
      unfold line_near in Hn. cbn [poly_edges chain last In] in Hin. repeat (destruct Hin as [Hin|Hin]); try contradiction;
        pose proof (f_equal fst Hin) as Q1; pose proof (f_equal snd Hin) as Q2; cbn [fst snd] in Q1, Q2; rewrite <- Q1, <- Q2 in Hn; unfold orient, dist2 in Hn; cbn [px py ptZ fst snd nofZ NumR] in Hn; lra. }
  destruct G1 as (a & b & c & d & -> & GA & GB & GC & GD).
  (* the third point *)
  assert (G3 : exists u v w, r3 = [u; v; w; Zb 0] /\ Rabs (B2R u - 1 / 4) <= 6700 * uro /\ Rabs (B2R v - 1 / 2) <= 6700 * uro /\ Rabs (B2R w - 1 / 4) <= 6700 * uro).
  { destruct (HR 2%nat _ _ _ eq_refl eq_refl eq_refl) as (_ & H). destruct (H ltac:(discriminate)) as (f & poly & Ef & Pf & _ & HQ). clear H HR.
    rewrite He in Ef. cbn in Ef. injection Ef as <-. unfold poly_of in Pf. cbn in Pf. invert_poly. rewrite E1 in HQ.
    destruct HQ as [(HQ & _)|HQ].
    - destruct HQ as (ws & ws0 & -> & _ & (L & HS & s & Ps & HI) & HF & _). cbn [map] in *. rewrite !RP in HI by lia.
      destruct ws0 as [|a0 [|b0 [|c0 [|]]]]; try discriminate L.
      inversion HF as [|u ? wa ? Fa HF1]; subst. inversion HF1 as [|v ? wb ? Fb HF2]; subst. inversion HF2 as [|w ? wc ? Fc HF3]; subst.
      inversion HF3; subst. clear HF HF1 HF2 HF3.
      set (p0 := ptZ (64, 0)%Z : pt) in *. set (p1 := ptZ (128, 32)%Z : pt) in *. set (p2 := ptZ (64, 64)%Z : pt) in *.
      pose proof (HI 0%nat p2 p0 p1 a0 ltac:(cbn; tauto) ltac:(cbn; tauto) eq_refl eq_refl) as I0.
      pose proof (HI 1%nat p0 p1 p2 b0 ltac:(cbn; tauto) ltac:(cbn; tauto) eq_refl eq_refl) as I1.
      pose proof (HI 2%nat p1 p2 p0 c0 ltac:(cbn; tauto) ltac:(cbn; tauto) eq_refl eq_refl) as I2.
      clear HI. cbn [sumR] in HS.
      assert (O1 : Rabs (orient p2 p0 (ptZ (96, 32)%Z)) = 2048) by (unfold orient, p0, p2; abs4).
      assert (O2 : Rabs (orient p0 p1 (ptZ (96, 32)%Z)) = 1024) by (unfold orient, p0, p1; abs4).
      assert (O3 : Rabs (orient p1 p2 (ptZ (96, 32)%Z)) = 1024) by (unfold orient, p1, p2; abs4).
      assert (O5 : Rabs (orient p2 p0 p1) = 4096) by (unfold orient, p0, p1, p2; abs4).
      assert (O6 : Rabs (orient p0 p1 p2) = 4096) by (unfold orient, p0, p1, p2; abs4).
      assert (O7 : Rabs (orient p1 p2 p0) = 4096) by (unfold orient, p1, p2, p0; abs4).
      rewrite O1, O2, O5 in I0. rewrite O2, O3, O6 in I1. rewrite O3, O1, O7 in I2.
      assert (A0 : a0 = 1 / 4) by lra. assert (B0 : b0 = 1 / 2) by lra. assert (C0 : c0 = 1 / 4) by lra.
      subst a0 b0 c0. destruct Fa as (_ & _ & Fa), Fb as (_ & _ & Fb), Fc as (_ & _ & Fc). cbn [length] in *.
      exists u, v, w. split; [reflexivity|]. lra.
    - exfalso. destruct HQ as (u & v & i & j & w0 & x & y & Hin & Hn & _). cbn [map] in Hin. rewrite !RP in * by lia.
      unfold line_near in Hn. cbn [poly_edges chain last In] in Hin. repeat (destruct Hin as [Hin|Hin]); try contradiction;
        pose proof (f_equal fst Hin) as Q1; pose proof (f_equal snd Hin) as Q2; cbn [fst snd] in Q1, Q2; rewrite <- Q1, <- Q2 in Hn; unfold orient, dist2 in Hn; cbn [px py ptZ fst snd nofZ NumR] in Hn; lra. }
  destruct G3 as (u & v & w & -> & GU & GV & GW).
  (* the second point *)
  assert (G2 : exists x y, r2 = [x; y; Zb 0; Zb 0] /\ Rabs (B2R x - 1 / 2) <= 21 * uro /\ Rabs (B2R y - 1 / 2) <= 18 * uro).
  { destruct (HR 1%nat _ _ _ eq_refl eq_refl eq_refl) as (_ & H). destruct (H ltac:(discriminate)) as (f & poly & Ef & Pf & _ & HQ). clear H HR.
    rewrite He in Ef. cbn in Ef. injection Ef as <-. unfold poly_of in Pf. cbn in Pf. invert_poly. rewrite E1 in HQ.
    destruct HQ as [(HQ & _)|HQ].
    - exfalso. destruct HQ as (ws & ws0 & _ & HN & _). cbn [map] in HN. rewrite !RP in HN by lia.
      apply (HN (ptZ (0, 0)%Z) (ptZ (64, 0)%Z) ltac:(cbn [poly_edges chain last In]; tauto)).
      unfold line_near, orient, dist2. cbn [px py ptZ fst snd nofZ NumR]. lra.
    - destruct HQ as (u' & v' & i & j & w0 & x & y & Hin & Hn & Ni & Nj & Hne & P0 & Hw & L & Nx & Ny & Nz & _ & _ & H1 & H2).
      cbn [map] in Hin.
      assert (EI : i = 0%nat /\ j = 1%nat /\ u' = ptZ (0, 0)%Z /\ v' = ptZ (64, 0)%Z).
      { assert (Iu : (i < 4)%nat) by (change 4%nat with (length [ptZ (0, 0)%Z; ptZ (64, 0)%Z; ptZ (64, 64)%Z; @ptZ b64 _ (0, 64)%Z]); apply nth_error_Some; congruence).
        assert (Ju : (j < 4)%nat) by (change 4%nat with (length [ptZ (0, 0)%Z; ptZ (64, 0)%Z; ptZ (64, 64)%Z; @ptZ b64 _ (0, 64)%Z]); apply nth_error_Some; congruence).
        destruct i as [|[|[|[|i]]]]; try lia; destruct j as [|[|[|[|j]]]]; try lia; try congruence; cbn [nth_error] in Ni, Nj; injection Ni as <-; injection Nj as <-; auto;
          exfalso; rewrite !RP in Hn by lia; rewrite !RP in Hin by lia; unfold line_near, orient, dist2 in Hn; cbn [px py ptZ fst snd nofZ NumR] in Hn; try lra;
          cbn [poly_edges chain last In] in Hin; repeat (destruct Hin as [Hin|Hin]); try contradiction;
          pose proof (f_equal (fun e : pt * pt => px (fst e)) Hin) as Q1; pose proof (f_equal (fun e : pt * pt => py (fst e)) Hin) as Q2;
          pose proof (f_equal (fun e : pt * pt => px (snd e)) Hin) as Q3; pose proof (f_equal (fun e : pt * pt => py (snd e)) Hin) as Q4;
          cbn [px py ptZ fst snd nofZ NumR] in Q1, Q2, Q3, Q4; lra. }
      destruct EI as (-> & -> & -> & ->). rewrite !RP in Hw by lia. unfold dist2 in Hw. cbn [px py ptZ fst snd nofZ NumR] in Hw.
      assert (w0 = 1 / 2) by nra. subst w0.
      destruct r2 as [|x' [|y' [|z1 [|z2 [|]]]]]; try discriminate L. cbn [nth_error] in Nx, Ny. injection Nx as ->. injection Ny as ->.
      rewrite (Nz 2%nat z1 ltac:(lia) ltac:(lia) eq_refl), (Nz 3%nat z2 ltac:(lia) ltac:(lia) eq_refl).
      exists x, y. split; auto. replace (1 - 1 / 2) with (1 / 2) in H1 by lra. split; lra. }
  destruct G2 as (x & y & -> & GX & GY).
  exists t, a, b, c, d, x, y, u, v, w. split; auto. split; [exact Ew|]. tauto.
Qed.

Print Assumptions C60_float_wachspress.
Print Assumptions C60_float_wachspress_weights.
