(** Property theorems over exact reals: which weights they are, and that the
    coordinate system does not matter (C83). *)
From Verif Require Import RBase MUtils MGeometry MAlgorithms MQuery MCelltree SpecTree SpecQuery SpecApi PMesh PInit PBuild PQuery PPoints PTreeFacts PApi
  NumSub SpecPoly SpecArea SpecMesh SpecWach GTriangle GConvex GHull GRay GCcw GBuild GFaces GArea GWach GWachSpec GAffine PFaces PSmall PropSmall
  Examples PropEdges PropPoints PropWach PropPad PropArea PropAffine.
From Coq Require Import Permutation.
Open Scope R_scope.

(** ** The weights are the Wachspress weights *)
Lemma inside_wachspress poly p tol row : convex_ccw poly -> interior poly p ->
  (forall u v, In (u, v) (poly_edges poly) -> ~ line_near tol u v p) -> (length poly <= length row)%nat ->
  exists ws, wachspress_weights poly p row tol = Ok (ws ++ skipn (length poly) row)
    /\ Forall (fun w => 0 < w) ws /\ wachspress poly p ws.
Proof.
  intros HC HI HN Hl. destruct (wachspress_inside_wts p tol poly row HC Hl HI) as (ws & E & _ & HP & _ & _ & v0 & l & -> & HS & Ew).
  { intros u v H. destruct (within_cases p tol u v) as [X|X]; auto. apply within_iff in X. destruct (HN u v H X). }
  exists ws. split; auto. split; auto. rewrite Ew. apply wts_wachspress; auto; [apply HC|].
  intros u v H. pose proof (HI u v H). lra.
Qed.

(** ** They are determined by the corners, and invariant *)
Lemma rabs_orient_flip a b c : Rabs (orient b a c) = Rabs (orient a b c).
Proof. replace (orient b a c) with (- orient a b c) by (unfold orient; ring). apply Rabs_Ropp. Qed.
Lemma rabs_orient_rev a b c : Rabs (orient c b a) = Rabs (orient a b c).
Proof. replace (orient c b a) with (- orient a b c) by (unfold orient; ring). apply Rabs_Ropp. Qed.

Lemma combine_nth {A B} (l : list A) : forall (l' : list B) i x y, nth_error l i = Some x -> nth_error l' i = Some y ->
  nth_error (combine l l') i = Some (x, y).
Proof. induction l as [|a l IH]; intros [|b l'] [|i] x y; cbn; intros H H'; try discriminate; [congruence|auto]. Qed.
Lemma combine_nth_inv {A B} (l : list A) : forall (l' : list B) i x y, nth_error (combine l l') i = Some (x, y) ->
  nth_error l i = Some x /\ nth_error l' i = Some y.
Proof. induction l as [|a l IH]; intros [|b l'] [|i] x y; cbn; intros H; try discriminate; [split; congruence|auto]. Qed.

Lemma nth_error_ext {A} (l : list A) : forall l', (forall i, nth_error l i = nth_error l' i) -> l = l'.
Proof.
  induction l as [|x l IH]; intros [|y l'] H; auto; [discriminate (H O)|discriminate (H O)|].
  pose proof (H O) as H0. cbn in H0. injection H0 as ->. f_equal. apply IH. intros i. exact (H (S i)).
Qed.

Section Invariant.
  Variable m : affine.
  Hypothesis Hd : det m <> 0.
  Variables P Q : list pt.
  Hypothesis HP : convex_ccw P.
  Hypothesis HQ : convex_ccw Q.
  Hypothesis HPQ : Permutation (map (amap m) P) Q.

  (** the sides of the image are the images of the sides *)
  Lemma image_sides : (forall u v, In (u, v) (poly_edges P) -> In (amap m u, amap m v) (poly_edges Q))
    \/ (forall u v, In (u, v) (poly_edges P) -> In (amap m v, amap m u) (poly_edges Q)).
  Proof.
    destruct (Rtotal_order (det m) 0) as [H|[H|H]]; [right|congruence|left]; intros u v He.
    - apply (same_edges (rev (map (amap m) P)) Q); auto; [now apply convex_aff_neg| |].
      + intros p. rewrite <- (hull_perm _ _ _ HPQ). apply hull_perm. symmetry. apply Permutation_rev.
      + apply edges_rev. rewrite edges_aff. apply (in_map (amap2 m) _ (u, v)). exact He.
    - apply (same_edges (map (amap m) P) Q); auto; [now apply convex_aff_pos| |].
      + intros p. now apply hull_perm.
      + rewrite edges_aff. apply (in_map (amap2 m) _ (u, v)). exact He.
  Qed.

  Variable p : pt.
  Hypothesis HI : interior P p.

  Lemma corner_same ws ws' : wachspress P p ws -> wachspress Q (amap m p) ws' ->
    forall c c' q w, nth_error P c = Some q -> nth_error Q c' = Some (amap m q) -> nth_error ws c = Some w -> nth_error ws' c' = Some w.
  Proof.
    intros (L & S & s & Ps & H) (L' & S' & s' & Ps' & H').
    set (r := s' / (s * Rabs (det m))).
    assert (Pd : 0 < Rabs (det m)) by now apply Rabs_pos_lt.
    (* proportional *)
    assert (G : forall c c' q w w', nth_error P c = Some q -> nth_error Q c' = Some (amap m q) ->
       nth_error ws c = Some w -> nth_error ws' c' = Some w' -> w' = r * w).
    { intros c c' q w w' Ec Ec' Ew Ew'.
      assert (Iq : In q P) by (eapply nth_error_In; eauto).
      destruct (edges_end P q Iq) as (a & Ha). destruct (edges_start P q Iq) as (b & Hb).
      pose proof (H c a q b w Ha Hb Ec Ew) as E1.
      assert (E2 : w' * (Rabs (det m * orient a q p) * Rabs (det m * orient q b p)) = s' * Rabs (det m * orient a q b)).
      { rewrite <- !orient_amap. destruct image_sides as [X|X].
        - apply (H' c' (amap m a) (amap m q) (amap m b) w'); auto.
        - pose proof (H' c' (amap m b) (amap m q) (amap m a) w' (X _ _ Hb) (X _ _ Ha) Ec' Ew') as Y.
          rewrite (rabs_orient_flip (amap m q) (amap m b)), (rabs_orient_flip (amap m a) (amap m q)), (rabs_orient_rev (amap m a)) in Y. lra. }
      rewrite !Rabs_mult in E2.
      assert (A1 : 0 < Rabs (orient a q p)) by (apply Rabs_pos_lt, Rgt_not_eq, HI, Ha).
      assert (A2 : 0 < Rabs (orient q b p)) by (apply Rabs_pos_lt, Rgt_not_eq, HI, Hb).
      set (A := Rabs (orient a q p)) in *. set (B := Rabs (orient q b p)) in *. set (D := Rabs (det m)) in *. set (C := Rabs (orient a q b)) in *.
      assert (EC : C = w * (A * B) / s) by (rewrite E1; field; lra).
      rewrite EC in E2. unfold r. apply (Rmult_eq_reg_r (D * A * (D * B))); [|apply Rgt_not_eq; repeat apply Rmult_lt_0_compat; lra].
      rewrite E2. field. split; lra. }
    destruct (combine_perm _ _ HPQ ws) as (w2 & L2 & HP2 & HC2); [now rewrite map_length|].
    assert (NQ : NoDup Q) by apply HQ.
    assert (K : forall c' y, nth_error w2 c' = Some y -> nth_error ws' c' = Some (r * y)).
    { intros c' y Ey. assert (Lc : (c' < length Q)%nat) by (rewrite <- L2; apply nth_error_Some; congruence).
      destruct (nth_error Q c') as [q'|] eqn:Eq; [|apply nth_error_None in Eq; lia].
      destruct (nth_error ws' c') as [w'|] eqn:Ew'; [|apply nth_error_None in Ew'; lia].
      assert (In (y, q') (combine ws (map (amap m) P))).
      { eapply Permutation_in; [symmetry; exact HC2|]. eapply nth_error_In. apply combine_nth; eauto. }
      apply In_nth_error in H0 as (c & Ec). apply combine_nth_inv in Ec as (Ec1 & Ec2). rewrite nth_error_map in Ec2.
      destruct (nth_error P c) as [q|] eqn:EP; [|discriminate]. cbn in Ec2. injection Ec2 as <-. f_equal. eapply G; eauto. }
    assert (E2 : ws' = map (fun y => r * y) w2).
    { apply nth_error_ext. intros c'. rewrite nth_error_map. destruct (nth_error w2 c') as [y|] eqn:Ey; cbn; [now apply K|].
      apply nth_error_None. apply nth_error_None in Ey. lia. }
    assert (S2 : sumR w2 = 1) by (rewrite <- S; apply sumR_perm; now symmetry).
    assert (ER : r = 1).
    { rewrite E2 in S'. rewrite <- S', <- (Rmult_1_r r) at 1. rewrite <- S2. clear. induction w2 as [|x l IH]; cbn; [ring|]. rewrite <- IH. ring. }
    intros c c' q w Ec Ec' Ew.
    assert (Lc : (c' < length ws')%nat) by (rewrite L'; apply nth_error_Some; congruence).
    destruct (nth_error ws' c') as [w'|] eqn:Ew'; [|apply nth_error_None in Ew'; lia].
    f_equal. rewrite (G c c' q w w'); auto. rewrite ER. ring.
  Qed.
End Invariant.

(** ** C83: rows of compute_barycentric_weights *)

(** A located point that is not within the tolerance of the line of a side of
    its face: the row holds the Wachspress weights of the point, all positive,
    then zeros; by either algorithm. *)
Theorem C83_rows_are_wachspress g vs faces fill nb cpl (t : tree2d (T:=R)) :
  mesh_ok vs faces fill -> convex_mesh vs faces fill -> CellTree2d_init g vs faces fill nb cpl = Ok t ->
  forall g' n points tolerance tol, (3 <= n)%nat -> Forall (fun f => (length f <= n)%nat) faces ->
  get_tolerance t tolerance = Ok tol -> 0 < tol ->
  exists js rows, CellTree2d_compute_barycentric_weights g' t n points tolerance = Ok (js, rows)
    /\ CellTree2d_locate_points g' t points tolerance = Ok js /\ length rows = length points
    /\ forall k p j row, nth_error points k = Some p -> nth_error js k = Some j -> nth_error rows k = Some row -> j <> (-1)%Z ->
         exists f poly corners, nth_error (elements (celltree_data t)) (Z.to_nat j) = Some f /\ poly_of vs f poly /\ convex_ccw poly
           /\ face_poly vs faces fill j corners /\ (poly = corners \/ poly = rev corners)
           /\ ((forall u v, In (u, v) (poly_edges poly) -> ~ line_near tol u v p) ->
               interior poly p /\ exists ws, row = ws ++ repeat 0 (n - length poly) /\ Forall (fun w => 0 < w) ws /\ wachspress poly p ws).
Proof.
  intros Hm Hc E g' n points tolerance tol Hn Hw Et Ht.
  destruct (C31_compute_barycentric_weights _ _ _ _ _ _ _ Hm Hc E g' n points tolerance tol Hn Hw Et Ht) as (js & rows & EC & EJ & HL & _).
  exists js, rows. split; auto. split; auto. split; auto. intros k p j row Ep Ej Er Hj.
  pose proof (init_built _ _ _ _ _ _ _ Hm E) as Hb.
  destruct (points_result _ _ _ _ t tolerance Hb) as (tol' & Et' & H). rewrite Et in Et'. apply Ok_inj in Et'. subst tol'.
  destruct (H points) as (js' & Hj' & HF). clear H. specialize (Hj' g'). rewrite EJ in Hj'. apply Ok_inj in Hj'. subst js'.
  pose proof (Forall2_nth _ _ _ _ _ _ HF Ep Ej) as HA. destruct HA as [(f & poly & H0 & En & Hp & Hpass)|(-> & _)]; [|congruence].
  destruct (stored_back _ _ _ _ _ _ _ _ _ Hm E H0 En) as (corners & Hpoly).
  destruct (stored_poly _ _ _ _ _ _ _ _ _ Hm Hc E Hpoly) as (f2 & poly2 & b & _ & En2 & _ & Hp2 & Hcc & Ho & _).
  rewrite En in En2. inversion En2; subst f2.
  rewrite (bt_vertices _ _ _ _ _ Hb) in Hp. assert (poly2 = poly) by (eapply poly_of_unique; eauto). subst poly2.
  exists f, poly, corners. split; auto. split; auto. split; auto. split; auto. split; auto. intros HN.
  assert (Hlen : (length poly <= n)%nat).
  { pose proof (Forall2_nth_r _ _ _ _ _ (bt_elements _ _ _ _ _ Hb) En) as (f0 & En0 & Hsame).
    assert (El : length (until_fill f) = length (until_fill f0)).
    { destruct Hsame as (_ & [->| ->]); auto. apply rev_length. }
    rewrite (poly_of_length _ _ _ Hp), El. apply nth_error_In in En0. apply in_map_iff in En0 as (f1 & <- & Hf1).
    rewrite Forall_forall in Hw. specialize (Hw f1 Hf1).
    eapply Nat.le_trans; [apply until_fill_length|]. unfold with_fill. rewrite map_length. exact Hw. }
  assert (Hwf : wf_face (length vs) f).
  { pose proof (mt_faces _ (bt_mesh _ _ _ _ _ Hb)) as Hwf. rewrite (bt_vertices _ _ _ _ _ Hb) in Hwf.
    rewrite Forall_forall in Hwf. apply Hwf. eapply nth_error_In; eauto. }
  assert (Eg : aget (elements (celltree_data t)) j = Ok f) by (rewrite <- (Z2Nat.id j) by lia; now apply aget_nat).
  assert (Nj : (j =? -1)%Z = false) by (apply Z.eqb_neq; lia).
  assert (HI : interior poly p).
  { destruct (near_or_interior poly p tol Hcc Ht Hpass) as [(u & v & He & X)|(X & _)]; auto. apply within_iff in X. destruct (HN u v He X). }
  split; auto.
  destruct (inside_wachspress poly p tol (repeat 0 n) Hcc HI HN ltac:(now rewrite repeat_length)) as (ws & EW & PW & HW).
  assert (SK : skipn (length poly) (repeat 0 n) = repeat 0 (n - length poly)).
  { clear. generalize (length poly) as q. induction n as [|m IH]; intros [|q]; cbn; auto. }
  rewrite SK in EW. exists ws. split; auto.
  (* the row that was computed *)
  unfold CellTree2d_compute_barycentric_weights in EC. rewrite Et in EC. cbn [bind] in EC.
  unfold CellTree2d_locate_points in EC, EJ. rewrite Et in EJ. cbn [bind get_tolerance] in EC, EJ. rewrite EJ in EC. cbn [bind] in EC.
  assert (Hi : (k < length points)%nat) by (apply nth_error_Some; congruence).
  destruct (3 <? n)%nat eqn:E3; apply bind_ok in EC as (rows' & ER & EC); apply Ok_inj in EC; injection EC as ->.
  - unfold barycentric_wachspress_weights in ER. apply PCollect.mapres_inv in ER.
    pose proof (Forall2_nth _ _ _ _ _ _ ER (iota_nth _ _ Hi) Er) as EI. cbv beta in EI.
    rewrite (aget_nat _ _ _ Ej) in EI. cbn [bind] in EI. rewrite (aget_nat _ _ _ Ep) in EI. cbn [bind] in EI.
    unfold barycentric_wachspress_one in EI. rewrite Nj, Eg in EI. cbn [bind] in EI. rewrite (bt_vertices _ _ _ _ _ Hb) in EI.
    rewrite (copy_vertices_ok _ _ _ _ Hwf Hp) in EI. cbn [bind] in EI. change (nofZ 0) with 0 in EI. rewrite EW in EI. now apply Ok_inj in EI.
  - apply Nat.ltb_ge in E3. assert (n = 3)%nat by lia. subst n.
    unfold barycentric_triangle_weights in ER. apply PCollect.mapres_inv in ER.
    pose proof (Forall2_nth _ _ _ _ _ _ ER (iota_nth _ _ Hi) Er) as EI. cbv beta in EI.
    rewrite (aget_nat _ _ _ Ej) in EI. cbn [bind] in EI. rewrite (aget_nat _ _ _ Ep) in EI. cbn [bind] in EI.
    unfold barycentric_triangle_one in EI. rewrite Nj, Eg in EI. cbn [bind] in EI. rewrite (bt_vertices _ _ _ _ _ Hb) in EI.
    pose proof Hcc as (Hl & HD & HO).
    destruct poly as [|a [|b' [|c [|]]]]; cbn in Hl, Hlen; try lia.
    rewrite (as_triangle_ok _ _ _ _ _ Hp) in EI. cbn [bind] in EI.
    assert (Ho3 : 0 < orient a b' c).
    { apply HO; [right; left; reflexivity|right; right; now left| |]; intros ->; inversion HD as [|? ? X1 X2]; subst.
      - apply X1. right. now left.
      - inversion X2 as [|? ? X3 X4]; subst. apply X3. now left. }
    destruct (C58_triangle_wachspress a b' c p tol 3 Ho3) as (u & v & w & E1 & E2); auto.
    { assert (Hh : hull [a; b'; c] p) by (apply open_hull_hull, interior_open_hull; auto).
      destruct Hh as (xs & L & HP & HS & Epx). destruct xs as [|x [|y [|z [|]]]]; try discriminate.
      inversion HP as [|? ? Q1 HP1]; subst. inversion HP1 as [|? ? Q2 HP2]; subst. inversion HP2 as [|? ? Q3 _]; subst.
      exists x, y, z. cbn in HS. repeat split; auto; try lra; cbn; ring. }
    { intros u v He X. destruct (HN u v He X). }
    rewrite E1 in EI. cbn [bind] in EI. apply Ok_inj in EI. rewrite E2 in EW. apply Ok_inj in EW. cbn [Nat.sub length repeat] in *. rewrite !app_nil_r in *. congruence.
Qed.

(** Two meshes, the second the image of the first under an invertible affine map
    (faces listed in any way): a point and its image that are assigned the same
    face, away from the lines of its sides, have the same weight at each corner. *)
Theorem C83_same_weights m vs faces fill vs' faces' fill' g1 nb cpl (t : tree2d (T:=R)) g2 nb' cpl' (t' : tree2d (T:=R)) :
  det m <> 0 -> image_mesh m vs faces fill vs' faces' fill' ->
  mesh_ok vs faces fill -> mesh_ok vs' faces' fill' -> convex_mesh vs faces fill -> convex_mesh vs' faces' fill' ->
  CellTree2d_init g1 vs faces fill nb cpl = Ok t -> CellTree2d_init g2 vs' faces' fill' nb' cpl' = Ok t' ->
  forall g n n' points tolerance tolerance' tol tol', (3 <= n)%nat -> (3 <= n')%nat ->
  Forall (fun f => (length f <= n)%nat) faces -> Forall (fun f => (length f <= n')%nat) faces' ->
  get_tolerance t tolerance = Ok tol -> get_tolerance t' tolerance' = Ok tol' -> 0 < tol -> 0 < tol' ->
  exists js rows js' rows', CellTree2d_compute_barycentric_weights g t n points tolerance = Ok (js, rows)
    /\ CellTree2d_compute_barycentric_weights g t' n' (map (amap m) points) tolerance' = Ok (js', rows')
    /\ CellTree2d_locate_points g t points tolerance = Ok js
    /\ CellTree2d_locate_points g t' (map (amap m) points) tolerance' = Ok js'
    /\ length rows = length points /\ length rows' = length points
    /\ forall k p j row row', nth_error points k = Some p -> nth_error js k = Some j -> nth_error js' k = Some j -> j <> (-1)%Z ->
         nth_error rows k = Some row -> nth_error rows' k = Some row' ->
         exists f poly f' poly', nth_error (elements (celltree_data t)) (Z.to_nat j) = Some f /\ poly_of vs f poly
           /\ nth_error (elements (celltree_data t')) (Z.to_nat j) = Some f' /\ poly_of vs' f' poly'
           /\ Permutation (map (amap m) poly) poly'
           /\ ((forall u v, In (u, v) (poly_edges poly) -> ~ line_near tol u v p) ->
               (forall u v, In (u, v) (poly_edges poly') -> ~ line_near tol' u v (amap m p)) ->
               forall c c' q, nth_error poly c = Some q -> nth_error poly' c' = Some (amap m q) ->
                 exists w, 0 < w /\ nth_error row c = Some w /\ nth_error row' c' = Some w).
Proof.
  intros Hd HI Hm Hm' Hc Hc' E E' g n n' points tolerance tolerance' tol tol' Hn Hn' Hw Hw' Et Et' Ht Ht'.
  destruct (C83_rows_are_wachspress _ _ _ _ _ _ _ Hm Hc E g n points tolerance tol Hn Hw Et Ht) as (js & rows & E1 & E2 & L & H).
  destruct (C83_rows_are_wachspress _ _ _ _ _ _ _ Hm' Hc' E' g n' (map (amap m) points) tolerance' tol' Hn' Hw' Et' Ht') as (js' & rows' & E1' & E2' & L' & H').
  rewrite map_length in L'.
  exists js, rows, js', rows'. split; auto. split; auto. split; auto. split; auto. split; auto. split; auto.
  intros k p j row row' Ep Ej Ej' Hj Er Er'.
  destruct (H k p j row Ep Ej Er Hj) as (f & poly & cs & En & Hp & HC & Fc & Ho & HR).
  destruct (H' k (amap m p) j row' (map_nth_error _ _ _ Ep) Ej' Er' Hj) as (f' & poly' & cs' & En' & Hp' & HC' & Fc' & Ho' & HR').
  assert (HP : Permutation (map (amap m) poly) poly').
  { destruct (proj1 HI _ _ Fc) as (q & Fq & HP). rewrite <- (face_unique _ _ _ _ _ _ Fc' Fq) in HP.
    assert (P1 : Permutation poly cs) by (destruct Ho as [-> | ->]; [reflexivity|symmetry; apply Permutation_rev]).
    assert (P2 : Permutation cs' poly') by (destruct Ho' as [-> | ->]; [reflexivity|apply Permutation_rev]).
    etransitivity; [apply Permutation_map; exact P1|]. etransitivity; [exact HP|exact P2]. }
  exists f, poly, f', poly'. split; auto. split; auto. split; auto. split; auto. split; auto.
  intros HN HN' c c' q Ec Ec'. destruct (HR HN) as (I & ws & -> & PW & W). destruct (HR' HN') as (I' & ws' & -> & PW' & W').
  assert (Lc : (c < length ws)%nat) by (rewrite (proj1 W); apply nth_error_Some; congruence).
  destruct (nth_error ws c) as [w|] eqn:Ew; [|apply nth_error_None in Ew; lia].
  pose proof (corner_same m Hd poly poly' HC HC' HP p I ws ws' W W' c c' q w Ec Ec' Ew) as Ew'.
  exists w. split; [|split; [now rewrite nth_error_app1|]].
  - rewrite Forall_forall in PW. apply PW. eapply nth_error_In; eauto.
  - rewrite nth_error_app1; auto. apply nth_error_Some. congruence.
Qed.

(** ** A concrete case: a square, and the same square sheared, mirrored and stretched *)
Definition sq_vs : list pt := [Pt 0 0; Pt 1 0; Pt 1 1; Pt 0 1].
Definition sq_faces : list (list Z) := [[0; 1; 2; 3]]%Z.
Definition sq_p : pt := Pt (1/4) (1/2).
Lemma sq_mesh (m : affine) : m = ident \/ m = shear -> mesh_ok (T:=R) (map (amap m) sq_vs) sq_faces (-1).
Proof.
  intros H. constructor.
  - pose proof FMAX_big. destruct H as [-> | ->]; unfold sq_vs, amap; cbn [map px py aa ab ac ad ae af ident shear]; repeat constructor; cbn; lra.
  - discriminate.
  - repeat constructor; cbn; try lia; try discriminate.
Qed.
Lemma sq_convex : convex_mesh sq_vs sq_faces (-1).
Proof.
  intros j poly H. pose proof (face_range _ _ _ _ _ H) as Hj. unfold sq_faces, zlen in Hj. cbn in Hj.
  destruct H as (f & _ & En & Hb). assert (j = 0)%Z by lia. subst j. cbn in En. inversion En; subst f; clear En.
  unfold poly_of in Hb; cbn in Hb; invert_poly; left; convex_check.
Qed.
Lemma sq_face (m : affine) j poly : face_poly (map (amap m) sq_vs) sq_faces (-1) j poly -> j = 0%Z /\ poly = map (amap m) sq_vs.
Proof.
  intros H. pose proof (face_range _ _ _ _ _ H) as Hj. unfold sq_faces, zlen in Hj. cbn in Hj.
  destruct H as (f & _ & En & Hb). assert (j = 0)%Z by lia. subst j. cbn in En. inversion En; subst f; clear En.
  split; auto. unfold poly_of in Hb; cbn in Hb; invert_poly. reflexivity.
Qed.
Lemma sq_index (m : affine) g nb cpl (t : tree2d (T:=R)) js : m = ident \/ m = shear -> det m <> 0 ->
  CellTree2d_init g (map (amap m) sq_vs) sq_faces (-1) nb cpl = Ok t ->
  CellTree2d_locate_points g0 t (map (amap m) [sq_p]) (Some (1/100)) = Ok js -> js = [0]%Z.
Proof.
  intros Hi Hd E Ej.
  pose proof (proj2 (C76_mapped_vertices m sq_vs sq_faces (-1) Hd) sq_convex) as Hc.
  destruct (C10_locate_points_geometric _ _ _ _ _ _ _ (sq_mesh m Hi) Hc E g0 (map (amap m) [sq_p]) (Some (1/100))) as (tol & js' & Et & Ej' & L & H).
  rewrite Ej in Ej'. apply Ok_inj in Ej'. subst js'. cbn in Et. apply Ok_inj in Et. subst tol.
  destruct js as [|j [|]]; try discriminate L. f_equal.
  destruct (H 0%nat _ j eq_refl eq_refl ltac:(lra)) as (H1 & H2 & _).
  assert (Nj : j <> (-1)%Z).
  { apply (H2 0%Z (map (amap m) sq_vs)).
    - exists [0; 1; 2; 3]%Z. split; [lia|]. split; [reflexivity|]. unfold poly_of. cbn. repeat constructor; auto; lia.
    - apply open_hull_aff; auto. exists [3/8; 1/8; 1/8; 3/8]. split; [reflexivity|]. split; [repeat constructor; lra|]. split; [cbn; lra|]. apply pt_eq; cbn; lra. }
  destruct (H1 Nj) as (poly & Hp & _). now apply sq_face in Hp.
Qed.

Theorem C83_example : exists t t' row row' c c', CellTree2d_init (T:=R) g0 sq_vs sq_faces (-1) 4 2 = Ok t
  /\ CellTree2d_init (T:=R) g0 (map (amap shear) sq_vs) sq_faces (-1) 2 1 = Ok t'
  /\ CellTree2d_compute_barycentric_weights g0 t 4 [sq_p] (Some (1/100)) = Ok ([0%Z], [row])
  /\ CellTree2d_compute_barycentric_weights g0 t' 5 [amap shear sq_p] (Some (1/100)) = Ok ([0%Z], [row'])
  /\ nth_error row c = Some (3/8) /\ nth_error row' c' = Some (3/8).
Proof.
  assert (Ei : map (amap ident) sq_vs = sq_vs) by apply map_ident.
  assert (Di : det ident <> 0) by (rewrite det_ident; lra). assert (Ds : det shear <> 0) by (rewrite det_shear; lra).
  pose proof (sq_mesh ident (or_introl eq_refl)) as M. rewrite Ei in M. pose proof (sq_mesh shear (or_intror eq_refl)) as M'.
  destruct (C76_mapped_vertices shear sq_vs sq_faces (-1) Ds) as (HI & Hc'). specialize (Hc' sq_convex).
  destruct (C76_convex_built g0 sq_vs sq_faces (-1) 4 2 M sq_convex) as (t & E); [lia|lia| |].
  { pose proof FMAX_big. change (4 * zlen sq_faces)%Z with 4%Z. lra. }
  destruct (C76_convex_built g0 (map (amap shear) sq_vs) sq_faces (-1) 2 1 M' Hc') as (t' & E'); [lia|lia| |].
  { pose proof FMAX_big. change (2 * zlen sq_faces)%Z with 2%Z. lra. }
  destruct (C83_same_weights shear _ _ _ _ _ _ _ _ _ _ _ _ _ _ Ds HI M M' sq_convex Hc' E E' g0 4 5 [sq_p] (Some (1/100)) (Some (1/100)) (1/100) (1/100))
    as (js & rows & js' & rows' & E1 & E2 & E3 & E4 & L & L' & H); auto; try lra.
  { repeat constructor. }
  { repeat constructor. }
  assert (js = [0]%Z).
  { eapply (sq_index ident); [now left|auto|rewrite Ei; exact E|]. cbn [map]. rewrite ident_id. exact E3. }
  assert (js' = [0]%Z) by (eapply (sq_index shear); [now right|auto|exact E'|exact E4]). subst js js'.
  destruct rows as [|row [|]]; try discriminate L. destruct rows' as [|row' [|]]; try discriminate L'.
  destruct (H 0%nat _ 0%Z row row' eq_refl eq_refl eq_refl ltac:(discriminate) eq_refl eq_refl) as (f & poly & f' & poly' & En & Hp & En' & Hp' & HP & HW). clear H.
  destruct (C83_rows_are_wachspress _ _ _ _ _ _ _ M sq_convex E g0 4 [sq_p] (Some (1/100)) (1/100)) as (js & rows & F1 & _ & _ & H); auto; try lra.
  { repeat constructor. }
  rewrite E1 in F1. injection F1 as <- <-.
  destruct (C83_rows_are_wachspress _ _ _ _ _ _ _ M' Hc' E' g0 5 [amap shear sq_p] (Some (1/100)) (1/100)) as (js & rows & F1 & _ & _ & H'); auto; try lra.
  { repeat constructor. }
  cbn [map] in E2. rewrite E2 in F1. injection F1 as <- <-.
  destruct (H 0%nat _ _ _ eq_refl eq_refl eq_refl ltac:(discriminate)) as (f2 & poly2 & cs & Y1 & Y2 & HC & Y3 & Y4 & HR).
  destruct (H' 0%nat _ _ _ eq_refl eq_refl eq_refl ltac:(discriminate)) as (f3 & poly3 & cs' & Y1' & Y2' & _ & Y3' & Y4' & _).
  rewrite En in Y1. injection Y1 as <-. assert (poly2 = poly) by (eapply poly_of_unique; eauto). subst poly2.
  rewrite En' in Y1'. injection Y1' as <-. assert (poly3 = poly') by (eapply poly_of_unique; eauto). subst poly3.
  apply (sq_face shear) in Y3'. destruct Y3' as (_ & ->). rewrite <- Ei in Y3. apply sq_face in Y3. destruct Y3 as (_ & ->). rewrite Ei in Y4.
  assert (poly = sq_vs).
  { destruct Y4 as [-> | ->]; auto. exfalso. destruct HC as (_ & _ & HO). cbn in HO.
    specialize (HO (Pt 0 1) (Pt 1 1) (Pt 1 0) ltac:(cbn; tauto) ltac:(cbn; tauto)). unfold orient in HO. cbn [px py] in HO.
    assert (0 < (1 - 0) * (0 - 1) - (1 - 1) * (1 - 0)) by (apply HO; intros X; injection X; lra). lra. }
  subst poly. clear Y4 H H'.
  assert (N1 : forall u v, In (u, v) (poly_edges sq_vs) -> ~ line_near (1/100) u v sq_p).
  { intros u v He Hn. unfold line_near, orient, dist2 in Hn. cbn in He.
    destruct He as [X|[X|[X|[X|[]]]]]; injection X as <- <-; cbn [px py sq_p] in Hn; lra. }
  assert (N2 : forall u v, In (u, v) (poly_edges poly') -> ~ line_near (1/100) u v (amap shear sq_p)).
  { assert (G : forall u v, In (u, v) (poly_edges (map (amap shear) sq_vs)) -> ~ line_near (1/100) u v (amap shear sq_p) /\ ~ line_near (1/100) v u (amap shear sq_p)).
    { intros u v He. rewrite edges_aff in He. apply in_map_iff in He as ((x & y) & Exy & He). injection Exy as <- <-.
      unfold line_near, dist2. rewrite !orient_amap, det_shear. cbn in He.
      destruct He as [X|[X|[X|[X|[]]]]]; injection X as <- <-; unfold orient, amap, sq_p; cbn [px py aa ab ac ad ae af shear]; split; intros Hn; lra. }
    intros u v He. destruct Y4' as [Y|Y]; rewrite Y in He; [exact (proj1 (G u v He))|]. apply edges_rev in He. exact (proj2 (G v u He)). }
  destruct (HR N1) as (_ & ws & -> & _ & (Lw & Sw & s & Ps & HQ)).
  destruct ws as [|w0 [|w1 [|w2 [|w3 [|]]]]]; try discriminate Lw.
  pose proof (HQ 0%nat (Pt 0 1) (Pt 0 0) (Pt 1 0) w0 ltac:(cbn; tauto) ltac:(cbn; tauto) eq_refl eq_refl) as Q0.
  pose proof (HQ 1%nat (Pt 0 0) (Pt 1 0) (Pt 1 1) w1 ltac:(cbn; tauto) ltac:(cbn; tauto) eq_refl eq_refl) as Q1.
  pose proof (HQ 2%nat (Pt 1 0) (Pt 1 1) (Pt 0 1) w2 ltac:(cbn; tauto) ltac:(cbn; tauto) eq_refl eq_refl) as Q2.
  pose proof (HQ 3%nat (Pt 1 1) (Pt 0 1) (Pt 0 0) w3 ltac:(cbn; tauto) ltac:(cbn; tauto) eq_refl eq_refl) as Q3.
  unfold orient, sq_p in Q0, Q1, Q2, Q3. cbn [px py] in Q0, Q1, Q2, Q3.
  rewrite !Rabs_pos_eq in Q0, Q1, Q2, Q3 by lra. cbn [sumR] in Sw.
  assert (W0 : w0 = 3 / 8) by lra. subst w0.
  assert (Iq : In (amap shear (Pt 0 0)) poly') by (eapply Permutation_in; [exact HP|]; apply in_map; now left).
  apply In_nth_error in Iq as (c' & Ec').
  destruct (HW N1 N2 0%nat c' (Pt 0 0) eq_refl Ec') as (w & _ & X1 & X2). cbn in X1. injection X1 as <-.
  exists t, t', ([3 / 8; w1; w2; w3] ++ repeat 0 (4 - length sq_vs)), row', 0%nat, c'. repeat (split; auto).
Qed.

Print Assumptions C83_rows_are_wachspress.
Print Assumptions C83_same_weights.
Print Assumptions C83_example.
