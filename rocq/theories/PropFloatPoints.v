(** Property theorems about binary64: locating points (C48). *)
From Coq Require Import Reals Lra Psatz.
From Flocq Require Import IEEE754.BinarySingleNaN Core.
From Verif Require Import RBase NumB64 NumSub NumRoom FBase MUtils MGeometry MCreation MQuery MCelltree
  SpecTree SpecQuery SpecApi SpecPoly SpecMesh PMesh PInit PBuild PPoints PApi GTriangle GConvex GBuild GFaces FBuild FMesh FPoint FLocate Examples PropEdges PropPoints PropFloat.
Open Scope R_scope.

(** ** C48: faces found in binary64 are the geometric ones up to a margin *)

(** Coordinates up to 2^k in magnitude; the margins are 8 to 64 units in the
    last place of 2^k *)
Theorem C48_float_locate_points k g (vs : list (point b64)) faces fill nb cpl t :
  (-150 <= k <= 250)%Z -> mesh_ok vs faces fill -> bounded_vertices k vs ->
  convex_mesh (map rp vs) faces fill -> sides_ok (map rp vs) faces fill ->
  CellTree2d_init g vs faces fill nb cpl = Ok t ->
  forall g' points tolerance, exists tol js,
    get_tolerance t tolerance = Ok tol /\ CellTree2d_locate_points g' t points tolerance = Ok js /\ length js = length points
    /\ forall i p j, nth_error points i = Some p -> nth_error js i = Some j ->
         bpt k p -> bounded k tol -> 0 <= B2R tol ->
         (* the assigned face contains the point or nearly touches it *)
         (j <> (-1)%Z -> exists poly, face_poly (map rp vs) faces fill j poly
            /\ (hull poly (rp p) \/ near_boundary (2 * B2R tol + bpow radix2 (k - 48)) poly (rp p)))
         (* a point in the interior of a face, away from the boundary, is assigned a face *)
         /\ (forall j' poly, face_poly (map rp vs) faces fill j' poly -> open_hull poly (rp p) ->
               ~ near_boundary (bpow radix2 (k - 49)) poly (rp p) -> j <> (-1)%Z)
         (* with a tolerance that covers the rounding, so is every point of a face away from its corners *)
         /\ (bpow radix2 (k - 47) <= B2R tol ->
             forall j' poly, face_poly (map rp vs) faces fill j' poly -> hull poly (rp p) ->
               (forall w, In w poly -> bpow radix2 (k - 47) * bpow radix2 (k - 47) < dist2 (rp p) w) -> j <> (-1)%Z)
         (* the only candidate is assigned *)
         /\ (forall j' poly, face_poly (map rp vs) faces fill j' poly -> open_hull poly (rp p) ->
               ~ near_boundary (bpow radix2 (k - 49)) poly (rp p) ->
               (forall j'' poly, face_poly (map rp vs) faces fill j'' poly ->
                  hull poly (rp p) \/ near_boundary (2 * B2R tol + bpow radix2 (k - 48)) poly (rp p) -> j'' = j') -> j = j').
Proof.
  intros Hk Hm Hbd Hc Hs E g' points tolerance. pose proof (init_built _ _ _ _ _ _ _ Hm E) as Hb.
  destruct (points_result _ _ _ _ t tolerance Hb) as (tol & Et & H). destruct (H points) as (js & Hj & HF).
  exists tol, js. split; auto. split; auto. split; [symmetry; eapply F2_length; eauto|].
  intros i p j Ep Ej Bp Bt Pt0.
  destruct (float_points k _ _ _ _ t g' points tolerance tol js Hk Hm Hb Hbd Hc Hs Et Bt Pt0 (Hj g') i p j Ep Ej Bp) as (S & I & C).
  split; [exact S|]. split; [exact I|]. split; [exact C|].
  intros j' poly Hp Ho Hn Hu. destruct (S (I j' poly Hp Ho Hn)) as (poly2 & Hp2 & H2). eauto.
Qed.

(** the default tolerance covers the rounding if some face extends over 2^(k-7) *)
Theorem C48_float_default_tolerance k g (vs : list (point b64)) faces fill nb cpl t :
  (-49 <= k <= 250)%Z -> mesh_ok vs faces fill -> bounded_vertices k vs ->
  convex_mesh (map rp vs) faces fill -> sides_ok (map rp vs) faces fill ->
  CellTree2d_init g vs faces fill nb cpl = Ok t ->
  (exists j poly p q, face_poly (map rp vs) faces fill j poly /\ In p poly /\ In q poly
     /\ (px p + bpow radix2 (k - 7) <= px q \/ py p + bpow radix2 (k - 7) <= py q)) ->
  forall g' points, exists js,
    CellTree2d_locate_points g' t points None = Ok js
    /\ forall i p j j' poly, nth_error points i = Some p -> nth_error js i = Some j -> bpt k p ->
         face_poly (map rp vs) faces fill j' poly -> hull poly (rp p) ->
         (forall w, In w poly -> bpow radix2 (k - 47) * bpow radix2 (k - 47) < dist2 (rp p) w) -> j <> (-1)%Z.
Proof.
  intros Hk Hm Hbd Hc Hs E Hd g' points. pose proof (init_built _ _ _ _ _ _ _ Hm E) as Hb.
  destruct (default_tolerance_float k _ _ _ _ t Hk Hb Hbd) as (tol & Et & Bt & Pt0 & Hl). specialize (Hl Hd).
  destruct (C48_float_locate_points k g vs faces fill nb cpl t ltac:(lia) Hm Hbd Hc Hs E g' points None) as (tol' & js & Et' & Ej & _ & H).
  rewrite Et in Et'. apply Ok_inj in Et'. subst tol'. exists js. split; auto.
  intros i p j j' poly Ep Eji Bp Hp Hh Hf. destruct (H i p j Ep Eji Bp Bt Pt0) as (_ & _ & C & _). eauto.
Qed.

(** ** Networks *)
Theorem C48_float_edge_points k g (vs : list (point b64)) edges nb cpl t :
  (-40 <= k <= 250)%Z -> network_ok vs edges -> bounded_vertices k vs -> edges_ok (map rp vs) edges ->
  EdgeCellTree2d_init g vs edges nb cpl = Ok t ->
  forall g' points tolerance, exists tol js,
    get_tolerance t tolerance = Ok tol /\ EdgeCellTree2d_locate_points g' t points tolerance = Ok js /\ length js = length points
    /\ forall i p j, nth_error points i = Some p -> nth_error js i = Some j ->
         bpt k p -> bounded k tol -> 0 <= B2R tol ->
         (* the assigned edge passes near the point *)
         (j <> (-1)%Z -> exists v0 v1, edge_ends (map rp vs) edges j v0 v1
            /\ near_segment (2 * B2R tol + bpow radix2 (k - 48)) v0 v1 (rp p))
         (* a point next to an edge, away from its ends, is assigned an edge *)
         /\ (bpow radix2 (k - 47) <= B2R tol -> (k <= -3)%Z \/ spread (bpow radix2 (k - 7)) vs ->
             forall j' v0 v1, edge_ends (map rp vs) edges j' v0 v1 -> near_segment (bpow radix2 (k - 49)) v0 v1 (rp p) ->
               bpow radix2 (k - 47) * bpow radix2 (k - 47) < dist2 (rp p) v0 ->
               bpow radix2 (k - 47) * bpow radix2 (k - 47) < dist2 (rp p) v1 -> j <> (-1)%Z).
Proof.
  intros Hk Hm Hbd Hs E g' points tolerance. pose proof (init_built_edges _ _ _ _ _ _ Hm E) as Hb.
  destruct (edge_points_result _ _ _ t tolerance Hb) as (tol & Et & H). destruct (H points) as (js & Hj & HF).
  exists tol, js. split; auto. split; auto. split; [symmetry; eapply F2_length; eauto|].
  intros i p j Ep Ej Bp Bt Pt0.
  exact (float_edge_points k _ _ _ t g' points tolerance tol js Hk Hb Hbd Hs Et Bt Pt0 (Hj g') i p j Ep Ej Bp).
Qed.

(** ** Points of a mesh that no face claims *)

(** Two triangles of extent 1024 at an offset of 2^30; the common side is
    evaluated from either end, and the two results differ in the last place *)
Definition gap_pts : list (Z * Z) :=
  map (fun p => (1073741825 + fst p, snd p)%Z) [(-1024, 0); (0, 0); (-1024, 1024); (1024, 1024)]%Z.
Definition gap_faces : list (list Z) := [[0; 1; 2]; [1; 3; 2]]%Z.
(** 2^30 + 1 - 2^-22, 2^-23 + 2^-50 *)
Definition gap_point : point b64 :=
  Pt (B754_finite (prec:=prec) (emax:=emax) false 4503599631564799 (-22) eq_refl) (B754_finite (prec:=prec) (emax:=emax) false 4503599660924928 (-75) eq_refl).

Lemma rp_ptZ zs : forallb (fun a => (Z.abs (fst a) <=? 2 ^ 53) && (Z.abs (snd a) <=? 2 ^ 53))%Z zs = true ->
  map rp (map ptZ zs) = map ptZ zs.
Proof.
  intros H. rewrite map_map. apply map_ext_in. intros a Ha. rewrite forallb_forall in H. apply H in Ha.
  apply andb_prop in Ha as (A & B). unfold rp, ptZ. cbn [px py nofZ NumB64].
  destruct (Zb_exact (fst a) ltac:(lia)) as (_ & ->). destruct (Zb_exact (snd a) ltac:(lia)) as (_ & ->). reflexivity.
Qed.

Lemma zmesh_ok zs faces : forallb (fun a => (Z.abs (fst a) <=? 2 ^ 53) && (Z.abs (snd a) <=? 2 ^ 53))%Z zs = true ->
  faces <> [] -> Forall (wf_face (length zs)) (map (with_fill (-1)) faces) -> mesh_ok (map (ptZ (T:=b64)) zs) faces (-1).
Proof.
  intros H Hn Hf. constructor; auto; [|now rewrite map_length].
  rewrite Forall_forall. intros p Hp. apply in_map_iff in Hp as (a & <- & Ha). rewrite forallb_forall in H. apply H in Ha.
  apply andb_prop in Ha as (A & B). split; apply Zb_exact; lia.
Qed.

Lemma gap_mesh : mesh_ok (map (ptZ (T:=b64)) gap_pts) gap_faces (-1).
Proof. apply zmesh_ok; [vm_compute; reflexivity|discriminate|]. repeat constructor; simpl; lia. Qed.

Lemma gap_convex : convex_mesh (map (ptZ (T:=R)) gap_pts) gap_faces (-1).
Proof.
  intros j poly (f & _ & En & Hp). apply nth_error_In in En. unfold gap_faces in En. cbn in En.
  repeat destruct En as [En|En]; try contradiction; subst f; unfold poly_of in Hp; cbn in Hp; invert_poly;
    left; convex_check.
Qed.

Lemma gap_lost g g' : match CellTree2d_init g (map (ptZ (T:=b64)) gap_pts) gap_faces (-1) 4 2 with
  | Ok t => CellTree2d_locate_points g' t [gap_point] None | Err e => Err e end = Ok [(-1)%Z].
Proof. vm_compute. reflexivity. Qed.

Lemma gap_x : B2R (px gap_point) = 1073741825 - / 2 ^ 22.
Proof.
  unfold gap_point, B2R, F2R. cbn [px cond_Zopp Fnum Fexp]. change (bpow radix2 (-22)) with (/ IZR (2 ^ 22)). 
  replace (/ IZR (2 ^ 22)) with (/ 2 ^ 22) by (f_equal; rewrite (pow_IZR 2 22); reflexivity). lra.
Qed.
Lemma gap_y : B2R (py gap_point) = / 2 ^ 23 + / 2 ^ 50.
Proof.
  unfold gap_point, B2R, F2R. cbn [py cond_Zopp Fnum Fexp]. change (bpow radix2 (-75)) with (/ IZR (2 ^ 75)). 
  replace (/ IZR (2 ^ 75)) with (/ 2 ^ 75) by (f_equal; rewrite (pow_IZR 2 75); reflexivity). lra.
Qed.

Theorem C48_float_gap_refuted : exists (vs : list (point b64)) faces p,
  mesh_ok vs faces (-1) /\ bounded_vertices 31 vs /\ bpt 31 p /\ convex_mesh (map rp vs) faces (-1)
  /\ (exists j poly, face_poly (map rp vs) faces (-1) j poly /\ open_hull poly (rp p))
  /\ forall g g', exists t, CellTree2d_init g vs faces (-1) 4 2 = Ok t /\ CellTree2d_locate_points g' t [p] None = Ok [(-1)%Z].
Proof.
  exists (map ptZ gap_pts), gap_faces, gap_point. split; [exact gap_mesh|].
  split; [apply zbounded; [lia|vm_compute; reflexivity]|]. split; [|split; [|split]].
  - split; (split; [reflexivity|]).
    + rewrite gap_x. change (bpow radix2 31) with 2147483648. apply Rabs_le_iff. lra.
    + rewrite gap_y. change (bpow radix2 31) with 2147483648. apply Rabs_le_iff. lra.
  - rewrite rp_ptZ by (vm_compute; reflexivity). exact gap_convex.
  - rewrite rp_ptZ by (vm_compute; reflexivity).
    exists 0%Z, [ptZ (1073741825 - 1024, 0); ptZ (1073741825, 0); ptZ (1073741825 - 1024, 1024)]%Z. split.
    + exists [0; 1; 2]%Z. split; [lia|]. split; [reflexivity|]. unfold poly_of. cbn. repeat constructor; auto; lia.
    + exists [(/ 2 ^ 22 - / 2 ^ 23 - / 2 ^ 50) / 1024; 1 - / 2 ^ 32; (/ 2 ^ 23 + / 2 ^ 50) / 1024].
      split; [reflexivity|]. split; [repeat constructor; lra|]. split; [cbn [sumR]; lra|].
      unfold rp. rewrite gap_x, gap_y. apply pt_eq; unfold comb; cbn [px py map combine sumR fst snd ptZ nofZ NumR]; rsimp; rewrite ?minus_IZR; lra.
  - intros g g'. pose proof (gap_lost g g') as H. destruct (CellTree2d_init g _ _ _ _ _) as [t|e]; [|discriminate].
    exists t. auto.
Qed.

(** ** Sides that climb by less than the smallest normal number *)

(** (0, 2^-1074), (5/8, 0), (1/4, 1), and the point (7/8, 0) *)
Definition tiny_vertices : list (point b64) :=
  [Pt (Zb 0) (B754_finite (prec:=prec) (emax:=emax) false 1 (-1074) eq_refl);
   Pt (B754_finite (prec:=prec) (emax:=emax) false 5629499534213120 (-53) eq_refl) (Zb 0);
   Pt (B754_finite (prec:=prec) (emax:=emax) false 4503599627370496 (-54) eq_refl) (Zb 1)].
Definition tiny_point : point b64 := Pt (B754_finite (prec:=prec) (emax:=emax) false 7881299347898368 (-53) eq_refl) (Zb 0).

Lemma tiny_rp : map rp tiny_vertices = [Pt 0 (bpow radix2 (-1074)); Pt (5 / 8) 0; Pt (1 / 4) 1].
Proof.
  unfold tiny_vertices, rp. cbn [map px py].
  destruct (Zb_exact 0 ltac:(lia)) as (_ & ->). destruct (Zb_exact 1 ltac:(lia)) as (_ & ->).
  unfold B2R, F2R. cbn [cond_Zopp Fnum Fexp].
  change (bpow radix2 (-53)) with (/ IZR (2 ^ 53)). change (bpow radix2 (-54)) with (/ IZR (2 ^ 54)).
  change (2 ^ 53)%Z with 9007199254740992%Z. change (2 ^ 54)%Z with 18014398509481984%Z.
  rewrite Rmult_1_l. f_equal. f_equal; [f_equal; lra|]. f_equal. f_equal. lra.
Qed.
Lemma tiny_rp_point : rp tiny_point = Pt (7 / 8) 0.
Proof.
  unfold tiny_point, rp. cbn [px py]. destruct (Zb_exact 0 ltac:(lia)) as (_ & ->). unfold B2R, F2R. cbn [cond_Zopp Fnum Fexp].
  change (bpow radix2 (-53)) with (/ IZR (2 ^ 53)). change (2 ^ 53)%Z with 9007199254740992%Z. f_equal. lra.
Qed.

Lemma tiny_found g g' : match CellTree2d_init g tiny_vertices [[0; 1; 2]%Z] (-1) 4 2 with
  | Ok t => CellTree2d_locate_points g' t [tiny_point] None | Err e => Err e end = Ok [0%Z].
Proof. vm_compute. reflexivity. Qed.

(** a point at distance 1/4 from the only face is assigned to it *)
Theorem C48_float_denormal_refuted : exists (vs : list (point b64)) faces p,
  mesh_ok vs faces (-1) /\ bounded_vertices 0 vs /\ bpt 0 p /\ convex_mesh (map rp vs) faces (-1)
  /\ (forall v, In v (map rp vs) -> px v + 1 / 4 <= px (rp p))
  /\ forall g g', exists t, CellTree2d_init g vs faces (-1) 4 2 = Ok t /\ CellTree2d_locate_points g' t [p] None = Ok [0%Z].
Proof.
  assert (P : 0 < bpow radix2 (-1074) < 1 / 16).
  { split; [apply bpow_gt_0|]. apply Rlt_le_trans with (bpow radix2 (-4)); [apply bpow_lt; lia|].
    change (bpow radix2 (-4)) with (/ 16). lra. }
  exists tiny_vertices, [[0; 1; 2]%Z], tiny_point.
  assert (B : forall v, In v tiny_vertices -> bpt 0 v).
  { intros v Hv. assert (Hr : In (rp v) (map rp tiny_vertices)) by now apply in_map. rewrite tiny_rp in Hr.
    assert (F : forallb (fun v => is_finite (px v) && is_finite (py v)) tiny_vertices = true) by (vm_compute; reflexivity).
    rewrite forallb_forall in F. apply F in Hv. apply andb_prop in Hv as (F1 & F2).
    split; (split; [assumption|]); change (bpow radix2 0) with 1;
      [change (B2R (px v)) with (px (rp v))|change (B2R (py v)) with (py (rp v))];
      destruct Hr as [<-|[<-|[<-|[]]]]; cbn [px py]; apply Rabs_le_iff; lra. }
  split; [|split; [|split; [|split; [|split]]]].
  - constructor; [|discriminate|repeat constructor; simpl; lia].
    apply Forall_forall. intros v Hv. destruct (B v Hv) as ((F1 & _) & (F2 & _)). now split.
  - apply Forall_forall. exact B.
  - assert (F : is_finite (px tiny_point) && is_finite (py tiny_point) = true) by (vm_compute; reflexivity).
    apply andb_prop in F as (F1 & F2).
    split; (split; [assumption|]); change (bpow radix2 0) with 1;
      [change (B2R (px tiny_point)) with (px (rp tiny_point))|change (B2R (py tiny_point)) with (py (rp tiny_point))];
      rewrite tiny_rp_point; cbn [px py]; apply Rabs_le_iff; lra.
  - rewrite tiny_rp. set (d := bpow radix2 (-1074)) in *. clearbody d.
    intros j poly (f & _ & En & Hp). apply nth_error_In in En. cbn in En.
    destruct En as [En|[]]. subst f. unfold poly_of in Hp. cbn in Hp. invert_poly. left. convex_check.
  - rewrite tiny_rp, tiny_rp_point. intros v [<-|[<-|[<-|[]]]]; cbn [px]; lra.
  - intros g g'. pose proof (tiny_found g g') as H. destruct (CellTree2d_init g _ _ _ _ _) as [t|e]; [|discriminate].
    exists t. auto.
Qed.

(** ** Examples meeting the hypotheses *)
Lemma side_ok_Z (a b : Z * Z) : a <> b -> side_ok (ptZ a) (ptZ b).
Proof.
  intros H. assert (P : bpow radix2 (-250) <= 1) by (change 1 with (bpow radix2 0); apply bpow_le; lia).
  assert (K : forall x y : Z, x <> y -> bpow radix2 (-250) <= Rabs (IZR y - IZR x)).
  { intros x y Hxy. rewrite <- minus_IZR, <- abs_IZR. eapply Rle_trans; [exact P|]. apply IZR_le. lia. }
  unfold side_ok, ptZ. cbn [px py nofZ NumR]. destruct (Z.eq_dec (snd b) (snd a)) as [E|E].
  - right. split; [now rewrite E|]. apply K. intros E'. apply H. destruct a, b. cbn in *. congruence.
  - left. apply K. congruence.
Qed.

Lemma sides_ok_Z zs faces fill : convex_mesh (map ptZ zs) faces fill -> sides_ok (map ptZ zs) faces fill.
Proof.
  intros Hc j poly u v Hp He.
  assert (Hin : forall w, In w poly -> In w (map ptZ zs)).
  { destruct Hp as (f & _ & _ & Hp). unfold poly_of in Hp. clear - Hp. induction Hp as [|i q l l' (_ & E) _ IH]; intros w Hw; [destruct Hw|].
    destruct Hw as [<-|Hw]; auto. eapply nth_error_In; eauto. }
  assert (Hn : u <> v).
  { assert (Hr : forall q, convex_ccw q -> forall a b, In (a, b) (poly_edges q) -> a <> b).
    { intros q (Hl & Hd & _) a b Hab. eapply edges_neq; eauto. lia. }
    destruct (Hc j poly Hp) as [H|H]; [eapply Hr; eauto|].
    intros E. assert (He' : In (v, u) (poly_edges (rev poly))) by (apply edges_rev; exact He).
    apply (Hr _ H v u He'). congruence. }
  destruct (edges_in _ _ _ He) as (Iu & Iv). apply Hin, in_map_iff in Iu as (a & <- & _). apply Hin, in_map_iff in Iv as (b & <- & _).
  apply side_ok_Z. congruence.
Qed.

Lemma grid_rp : map rp (@grid b64 _) = @grid R _.
Proof. apply rp_ptZ. vm_compute. reflexivity. Qed.

(** every point of the mesh that is not within 2^-45 of a corner is found *)
Example C48_example : exists t, CellTree2d_init (T:=b64) g0 grid grid_faces (-1) 4 2 = Ok t
  /\ forall points, exists js, CellTree2d_locate_points g0 t points None = Ok js
     /\ forall i p j j' poly, nth_error points i = Some p -> nth_error js i = Some j -> bpt 2 p ->
         face_poly grid grid_faces (-1) j' poly -> hull poly (rp p) ->
         (forall w, In w poly -> bpow radix2 (-45) * bpow radix2 (-45) < dist2 (rp p) w) -> j <> (-1)%Z.
Proof.
  destruct grid_built_B64 as (t & E & _). exists t. split; auto. intros points.
  pose proof (C48_float_default_tolerance 2 g0 grid grid_faces (-1) 4 2 t) as H. rewrite grid_rp in H.
  apply H; auto; try lia.
  - exact grid_mesh_B64.
  - apply zbounded; [lia|]. vm_compute. reflexivity.
  - exact grid_convex.
  - apply sides_ok_Z. exact grid_convex.
  - exists 0%Z, [ptZ (0, 0); ptZ (1, 0); ptZ (1, 1); ptZ (0, 1)]%Z, (ptZ (0, 0)%Z), (ptZ (1, 0)%Z). split; [|split; [|split]].
    + exists [0; 1; 5; 4]%Z. split; [lia|]. split; [reflexivity|]. unfold poly_of. cbn. repeat constructor; auto; lia.
    + now left.
    + right. now left.
    + left. cbn [px ptZ fst nofZ NumR]. rewrite Rplus_0_l. change 1 with (bpow radix2 0). apply bpow_le. lia.
Qed.

Lemma edges_ok_Z zs edges : edges_ok (map ptZ zs) edges.
Proof.
  intros j u v (e & _ & _ & i & i' & _ & _ & _ & A1 & A2). apply nth_error_In, in_map_iff in A1 as (a & <- & _).
  apply nth_error_In, in_map_iff in A2 as (b & <- & _).
  destruct (Z.eq_dec (fst a) (fst b)) as [E|E]; [destruct (Z.eq_dec (snd a) (snd b)) as [E'|E']|].
  - left. destruct a, b. cbn in *. congruence.
  - right. apply side_ok_Z. congruence.
  - right. apply side_ok_Z. congruence.
Qed.

Example C48_edge_example : exists t, EdgeCellTree2d_init (T:=b64) g0 grid pipes 4 2 = Ok t
  /\ forall points tol, bounded 2 tol -> bpow radix2 (-45) <= B2R tol ->
     exists js, EdgeCellTree2d_locate_points g0 t points (Some tol) = Ok js
     /\ forall i p j j' v0 v1, nth_error points i = Some p -> nth_error js i = Some j -> bpt 2 p ->
         edge_ends grid pipes j' v0 v1 -> near_segment (bpow radix2 (-47)) v0 v1 (rp p) ->
         bpow radix2 (-45) * bpow radix2 (-45) < dist2 (rp p) v0 ->
         bpow radix2 (-45) * bpow radix2 (-45) < dist2 (rp p) v1 -> j <> (-1)%Z.
Proof.
  destruct pipes_built_B64 as (t & E & _). exists t. split; auto. intros points tol Bt Ht.
  pose proof (C48_float_edge_points 2 g0 grid pipes 4 2 t ltac:(lia) pipes_network_B64) as H. rewrite grid_rp in H.
  destruct (H ltac:(apply zbounded; [lia|]; vm_compute; reflexivity) (edges_ok_Z grid_pts pipes) E g0 points (Some tol)) as (tol' & js & Et & Ej & _ & K).
  apply Ok_inj in Et. subst tol'. exists js. split; auto. intros i p j j' v0 v1 Ep Eji Bp HE Hn D0 D1.
  assert (P : 0 <= B2R tol) by (pose proof (bpow_ge_0 radix2 (-45)); lra).
  destruct (K i p j Ep Eji Bp Bt P) as (_ & C). apply (C Ht) with (j' := j') (v0 := v0) (v1 := v1); auto.
  right. exists (ptZ (0, 0)%Z), (ptZ (1, 0)%Z).
  split; [apply in_map; cbn; tauto|]. split; [apply in_map; cbn; tauto|]. left.
  unfold ptZ. cbn [px fst nofZ NumB64]. destruct (Zb_exact 0 ltac:(lia)) as (_ & ->).
  destruct (Zb_exact 1 ltac:(lia)) as (_ & ->). rewrite Rplus_0_l.
  change 1 with (bpow radix2 0). apply bpow_le. lia.
Qed.

Print Assumptions C48_float_locate_points.
Print Assumptions C48_float_default_tolerance.
Print Assumptions C48_float_edge_points.
Print Assumptions C48_float_gap_refuted.
Print Assumptions C48_float_denormal_refuted.
