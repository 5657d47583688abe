(** Property theorems: construction over exact reals (C04), edge queries (C06,
    C07, C15, C16), box clipping (C17, C18, C45), segment intersection (C21, C22). *)
From Verif Require Import RBase MGeometry MCreation MAlgorithms MQuery MCelltree
  SpecTree PBuild PCollect SpecQuery SpecApi PQuery PMesh PInit NumSub PPoints
  PApi PEdges PEdgesAny GBox GEdges GLines GCyrus GTreeEdges GBuild NumB64 NumRoom Examples CsHang.
From Flocq Require Import BinarySingleNaN.
From Coq Require Import Sorted.
Open Scope R_scope.

(** ** C04: construction succeeds for non-degenerate meshes *)

Theorem C04_nondegenerate_succeeds g vs faces fill nb cpl :
  mesh_ok (T:=R) vs faces fill -> (2 <= nb)%Z -> (1 <= cpl)%Z -> IZR (nb * zlen faces) < FMAX ->
  Forall (fun f => forall poly, poly_of vs f poly -> has_extent poly) (map (with_fill fill) faces) ->
  exists t, CellTree2d_init g vs faces fill nb cpl = Ok t.
Proof. exact (mesh_succeeds g vs faces fill nb cpl). Qed.

Theorem C04_network_succeeds g vs edges nb cpl :
  network_ok (T:=R) vs edges -> (2 <= nb)%Z -> (1 <= cpl)%Z -> IZR (nb * zlen edges) < FMAX ->
  exists t, EdgeCellTree2d_init g vs edges nb cpl = Ok t.
Proof. exact (network_succeeds g vs edges nb cpl). Qed.

(** A face that is a vertical segment on the right border of the mesh *)
Theorem C04_degenerate_fails g vs faces fill nb cpl X :
  mesh_ok (T:=R) vs faces fill -> (2 <= nb)%Z -> (1 <= cpl < zlen faces)%Z ->
  Forall (fun f => forall poly, poly_of vs f poly -> Forall (fun p => px p <= X) poly) (map (with_fill fill) faces) ->
  Exists (fun f => exists poly, poly_of vs f poly /\ Forall (fun p => px p = X) poly) (map (with_fill fill) faces) ->
  CellTree2d_init g vs faces fill nb cpl = Err EList.
Proof. exact (degenerate_fails g vs faces fill nb cpl X). Qed.

(** The exact-arithmetic guarantee for networks does not survive binary64: a
    vertical line in projected coordinates (metres), default parameters *)
Definition utm_vertices : list (point b64) :=
  [Pt (Zb 600000) (Zb 4000000); Pt (Zb 600000) (Zb 4000005); Pt (Zb 600000) (Zb 4000010); Pt (Zb 600000) (Zb 4000015)].
Definition utm_edges : list (list Z) := [[0; 1]; [1; 2]; [2; 3]]%Z.

Theorem C04_float_network_refuted :
  exists vs edges nb cpl, network_ok (T:=b64) vs edges /\ (2 <= nb)%Z /\ (1 <= cpl)%Z
    /\ zlen edges = 3%Z /\ Forall (fun e => exists p q, edge_of vs e p q /\ p <> q) edges
    /\ forall g, EdgeCellTree2d_init g vs edges nb cpl = Err EList.
Proof.
  exists utm_vertices, utm_edges, 4%Z, 2%Z. split; [|split; [lia|split; [lia|split; [reflexivity|split]]]].
  - constructor.
    + repeat constructor.
    + discriminate.
    + repeat constructor; simpl; try lia; try (eexists; eexists; split; [reflexivity|lia]).
    + intros tol. apply moderate_room.
      assert (H : forallb (fun p => smallb (px p) && smallb (py p)) utm_vertices = true)
        by (vm_compute; reflexivity).
      unfold moderate. rewrite forallb_forall in H. rewrite Forall_forall. intros p Hp.
      apply H in Hp. apply andb_prop in Hp as (A & B). split; now apply smallb_bounded.
  - repeat constructor.
    + exists (Pt (Zb 600000) (Zb 4000000)), (Pt (Zb 600000) (Zb 4000005)). split.
      * exists 0%Z, 1%Z. repeat split; auto; lia.
      * intros E. apply (f_equal (fun p => B2SF (py p))) in E. vm_compute in E. discriminate.
    + exists (Pt (Zb 600000) (Zb 4000005)), (Pt (Zb 600000) (Zb 4000010)). split.
      * exists 1%Z, 2%Z. repeat split; auto; lia.
      * intros E. apply (f_equal (fun p => B2SF (py p))) in E. vm_compute in E. discriminate.
    + exists (Pt (Zb 600000) (Zb 4000010)), (Pt (Zb 600000) (Zb 4000015)). split.
      * exists 2%Z, 3%Z. repeat split; auto; lia.
      * intros E. apply (f_equal (fun p => B2SF (py p))) in E. vm_compute in E. discriminate.
  - intros g. vm_compute. reflexivity.
Qed.

(** ** C06: the result does not depend on the number of threads *)

(** in binary64 and every other number type, if every clip returns *)
Theorem C06_edge_faces_thread_independent {T} {NT : Num T} {NO : NumOrd T} {NS : NumSub T} {NZ : NumZero T}
    g vs faces fill nb cpl (t : tree2d (T:=T)) :
  mesh_ok vs faces fill -> CellTree2d_init g vs faces fill nb cpl = Ok t ->
  forall csfuel edges, clips_return (celltree_data t) csfuel edges ->
  exists rows, NoDup (map fst rows) /\ StronglySorted Z.le (map (fun r => fst (fst r)) rows)
    /\ forall g' n_threads, (1 <= n_threads)%nat ->
         CellTree2d_intersect_edges g' csfuel n_threads t edges = Ok rows.
Proof.
  intros Hm E csfuel edges Hr. pose proof (init_built _ _ _ _ _ _ _ Hm E) as Hb.
  destruct (edge_faces_any _ (bt_mesh _ _ _ _ _ Hb) csfuel edges Hr) as (rows & H1 & H2 & H3 & _).
  exists rows. auto.
Qed.

Theorem C06_edge_edges_thread_independent {T} {NT : Num T} {NO : NumOrd T} {NS : NumSub T} {NZ : NumZero T}
    g vs edges nb cpl (t : tree2d (T:=T)) :
  network_ok vs edges -> EdgeCellTree2d_init g vs edges nb cpl = Ok t ->
  forall csfuel queries, tests_return (celltree_data t) csfuel queries ->
  exists rows, NoDup (map fst rows) /\ StronglySorted Z.le (map (fun r => fst (fst r)) rows)
    /\ forall g' n_threads, (1 <= n_threads)%nat ->
         EdgeCellTree2d_intersect_edges g' csfuel n_threads t queries = Ok rows.
Proof.
  intros Hm E csfuel queries Hr. pose proof (init_built_edges _ _ _ _ _ _ Hm E) as Hb.
  destruct (be_net _ _ _ _ Hb) as (tol & _ & Hn).
  destruct (edge_edges_any _ _ Hn csfuel queries Hr) as (rows & H1 & H2 & H3 & _).
  exists (map (fun r => (fst r, fst (snd r))) rows). split; [|split].
  - rewrite map_map. exact H2.
  - rewrite map_map. exact H3.
  - intros g' n Hn'. unfold EdgeCellTree2d_intersect_edges. rewrite (H1 g' n Hn'). reflexivity.
Qed.

(** ** C07: the buffers of the edge queries grow without losing or duplicating
    rows: from every buffer of positive size the loop delivers the rows that
    the public method returns *)
Theorem C07_edge_face_buffer_growth {T} {NT : Num T} {NO : NumOrd T} {NZ : NumZero T} (t : celltree T) csfuel edges :
  mesh_tree t -> clips_return t csfuel edges ->
  exists rows, (forall g, locate_edge_faces g csfuel edges t 1 = Ok rows)
    /\ forall g buffer, buffer <> [] -> exists unused,
       query_loop (grow_ g)
         (fun ab index rows size =>
            locate_edge g csfuel (compute_edge_face_intersect g csfuel t) ab t rows size index)
         (retry_fuel t) edges 0 buffer 0 0
       = Ok (rows ++ unused, zlen rows).
Proof.
  intros Ht Hr. destruct (edge_faces_any t Ht csfuel edges Hr) as (rows & H1 & _ & _ & _ & H5).
  exists rows. split; auto.
Qed.

Theorem C07_edge_edge_buffer_growth {T} {NT : Num T} {NO : NumOrd T} {NZ : NumZero T} (t : celltree T) tol csfuel edges :
  network_tree tol t -> tests_return t csfuel edges ->
  exists rows, (forall g, locate_edge_edges g csfuel edges t 1 = Ok rows)
    /\ forall g buffer, buffer <> [] -> exists unused,
       query_loop (grow_ g)
         (fun ab index rows size =>
            locate_edge g csfuel (compute_edge_edge_intersect t) ab t rows size index)
         (retry_fuel t) edges 0 buffer 0 0
       = Ok (rows ++ unused, zlen rows).
Proof.
  intros Ht Hr. destruct (edge_edges_any t tol Ht csfuel edges Hr) as (rows & H1 & _ & _ & _ & H5).
  exists rows. split; auto.
Qed.

(** ** C15: CellTree2d.intersect_edges equals brute force (exact reals) *)
Theorem C15_intersect_edges_brute_force g vs faces fill nb cpl (t : tree2d (T:=R)) :
  mesh_ok vs faces fill -> CellTree2d_init g vs faces fill nb cpl = Ok t ->
  forall edges, exists rows,
    (forall g' csfuel n_threads, (4 <= csfuel)%nat -> (1 <= n_threads)%nat ->
       CellTree2d_intersect_edges g' csfuel n_threads t edges = Ok rows)
    /\ NoDup (map fst rows)
    /\ forall i j c, In ((i, j), c) rows <->
         exists a b c1 c2, (0 <= i)%Z /\ nth_error edges (Z.to_nat i) = Some (a, b)
           /\ edge_face_hit (celltree_data t) a b j c1 c2 /\ c = (Some c1, Some c2).
Proof.
  intros Hm E edges. pose proof (init_built _ _ _ _ _ _ _ Hm E) as Hb.
  destruct (edge_faces_exact _ (bt_mesh _ _ _ _ _ Hb) edges) as (rows & H1 & H2 & H3 & H4 & _).
  exists rows. auto.
Qed.

(** ** C16: EdgeCellTree2d.intersect_edges equals brute force (exact reals) *)
Theorem C16_edge_intersect_edges_brute_force g vs edges nb cpl (t : tree2d (T:=R)) :
  network_ok vs edges -> EdgeCellTree2d_init g vs edges nb cpl = Ok t ->
  forall queries, exists rows,
    (forall g' csfuel n_threads, (4 <= csfuel)%nat -> (1 <= n_threads)%nat ->
       EdgeCellTree2d_intersect_edges g' csfuel n_threads t queries = Ok rows)
    /\ NoDup (map fst rows)
    /\ forall i j c, In ((i, j), c) rows <->
         exists a b, (0 <= i)%Z /\ nth_error queries (Z.to_nat i) = Some (a, b)
           /\ edge_edge_hit (celltree_data t) a b j c.
Proof.
  intros Hm E queries. pose proof (init_built_edges _ _ _ _ _ _ Hm E) as Hb.
  destruct (be_net _ _ _ _ Hb) as (tol & Hx & Hn). rewrite <- (be_vertices _ _ _ _ Hb) in Hx.
  destruct (edge_edges_exact _ _ Hx Hn queries) as (rows & H1 & H2 & H3 & H4 & _).
  exists (map (fun r => (fst r, fst (snd r))) rows). split; [|split].
  - intros g' cs n Hcs Hn'. unfold EdgeCellTree2d_intersect_edges. rewrite (H1 g' cs n Hcs Hn'). reflexivity.
  - rewrite map_map. exact H2.
  - intros i j c. rewrite in_map_iff. split.
    + intros (r & Eq & Hin). destruct r as (ij, (c1, c2)). cbn [fst snd] in Eq. inversion Eq; subst.
      apply H4 in Hin as (a & b & x & Hi & Ei & Hh & Ec). inversion Ec; subst. eauto.
    + intros (a & b & Hi & Ei & Hh). exists ((i, j), (c, c)). split; auto.
      apply H4. exists a, b, c. auto.
Qed.

(** ** C17, C18: box clipping *)
Theorem C17_cohen_sutherland_exact (K : bx) fuel a b : wf_box K -> (4 <= fuel)%nat ->
  exists r, cohen_sutherland_line_box_clip fuel a b K = Ok r /\ clip_result (in_box K) a b r.
Proof. intros H. exact (cohen_sutherland_exact K H fuel a b). Qed.

Theorem C18_liang_barsky_exact (a b : pt) (K : bx) : wf_box K ->
  exists r, liang_barsky_line_box_clip a b K = Ok r /\ clip_result (in_box K) a b r.
Proof. exact (liang_barsky_exact a b K). Qed.

Theorem C18_clippers_agree (a b : pt) (K : bx) fuel : wf_box K -> (4 <= fuel)%nat ->
  liang_barsky_line_box_clip a b K = cohen_sutherland_line_box_clip fuel a b K.
Proof.
  intros H Hf. destruct (liang_barsky_exact a b K H) as (r & -> & R1).
  destruct (cohen_sutherland_exact K H fuel a b Hf) as (r' & -> & R2).
  f_equal. eapply clip_result_fun; eauto.
Qed.

(** ** C45: in binary64 the clipping loop can run forever, on the public API *)
Theorem C45_clip_terminates_refuted :
  exists (K : box b64) (a b : point b64),
    nltb (xmin K) (xmax K) = true /\ nltb (ymin K) (ymax K) = true
    /\ is_finite (px a) = true /\ is_finite (py a) = true
    /\ is_finite (px b) = true /\ is_finite (py b) = true
    /\ forall fuel, cohen_sutherland_line_box_clip fuel a b K = Err EFuel.
Proof.
  exists hang_box, hang_a, hang_b. do 6 (split; [vm_compute; reflexivity|]). exact clip_hangs.
Qed.

Theorem C45_intersect_edges_terminates_refuted :
  exists vs faces a b t, mesh_ok (T:=b64) vs faces (-1)
    /\ CellTree2d_init g0 vs faces (-1) 4 2 = Ok t
    /\ is_finite (px a) = true /\ is_finite (py a) = true
    /\ is_finite (px b) = true /\ is_finite (py b) = true
    /\ forall g csfuel n_threads, (1 <= n_threads)%nat ->
       CellTree2d_intersect_edges g csfuel n_threads t [(a, b)] = Err EFuel.
Proof.
  destruct hang_built as (t & E & Hb).
  exists hang_vertices, hang_faces, hang_a, hang_b, t. split; [exact hang_mesh_ok|]. split; [exact E|].
  do 4 (split; [vm_compute; reflexivity|]). exact (query_hangs t Hb).
Qed.

(** ** C21: segment-segment intersection *)
Theorem C21_crossing_found a b p q : orient a b p * orient a b q < 0 -> orient p q a * orient p q b < 0 ->
  exists t s, 0 < t < 1 /\ 0 < s < 1 /\ at_ a b t = at_ p q s
    /\ lines_intersect a b p q =
       Ok (true, if Rlt_bool (den a b p q * den a b p q) (seg_tol p q * len2 a b * seg_tol p q)
                 then None else Some (at_ a b t)).
Proof. exact (crossing_found a b p q). Qed.

Theorem C21_apart_not_found a b p q : ~ overlap_within a b p q (seg_tol p q) ->
  lines_intersect a b p q = Ok (false, None).
Proof. exact (apart_not_found a b p q). Qed.

(** a True answer: a common point, or both ends of p-q are within the
    tolerance of the line a-b *)
Theorem C21_found_sound a b p q c : lines_intersect a b p q = Ok (true, c) ->
  (exists x, on_segment a b x /\ on_segment p q x /\ (c = None \/ c = Some x))
  \/ (near_line a b p q /\ c = midpoint_collinear_lines a b p q).
Proof. exact (found_sound a b p q c). Qed.

(** segments that cross properly, reported with NaN coordinates *)
Theorem C21_crossing_point_refuted :
  exists a b p q : pt, orient a b p * orient a b q < 0 /\ orient p q a * orient p q b < 0
    /\ lines_intersect a b p q = Ok (true, None).
Proof.
  set (e := / 10000000000000).
  exists (Pt 0 (- e)), (Pt 1 e), (Pt 0 0), (Pt 1 0).
  assert (H1 : orient (Pt 0 (- e)) (Pt 1 e) (Pt 0 0) * orient (Pt 0 (- e)) (Pt 1 e) (Pt 1 0) < 0)
    by (unfold orient, e; cbn [px py]; lra).
  assert (H2 : orient (Pt 0 0) (Pt 1 0) (Pt 0 (- e)) * orient (Pt 0 0) (Pt 1 0) (Pt 1 e) < 0)
    by (unfold orient, e; cbn [px py]; lra).
  split; auto. split; auto.
  destruct (crossing_found _ _ _ _ H1 H2) as (t & s & _ & _ & _ & ->).
  rewrite Rlt_bool_true; auto.
  unfold den, len2, seg_tol. cbn [px py].
  assert (Hm : Rmax (Rabs (1 - 0)) (Rabs (0 - 0)) = 1).
  { rewrite !Rminus_0_r, Rabs_R0, Rabs_R1. apply Rmax_left. lra. }
  rewrite Hm, Rmult_1_r, Rmax_right by lra. unfold e. lra.
Qed.

(** ** C22: collinear overlapping segments *)
Theorem C22_ascending_midpoint o d ka kb kp kq : ka <> kb -> kp <> kq ->
  0 <= px d -> 0 <= py d -> (px d <> 0 \/ py d <> 0) ->
  let lo := Rmax (Rmin ka kb) (Rmin kp kq) in let hi := Rmin (Rmax ka kb) (Rmax kp kq) in
  lo <= hi ->
  lines_intersect (on_line o d ka) (on_line o d kb) (on_line o d kp) (on_line o d kq)
  = Ok (true, Some (on_line o d ((lo + hi) / 2))).
Proof. exact (ascending_midpoint o d ka kb kp kq). Qed.

Theorem C22_descending_nan o d ka kb kp kq : ka <> kb -> kp <> kq ->
  0 < px d -> py d < 0 ->
  Rmax (Rmin ka kb) (Rmin kp kq) <= Rmin (Rmax ka kb) (Rmax kp kq) ->
  lines_intersect (on_line o d ka) (on_line o d kb) (on_line o d kp) (on_line o d kq) = Ok (true, None).
Proof. exact (descending_nan o d ka kb kp kq). Qed.

(** ** Concrete cases meeting the hypotheses *)

Lemma FMAX_28 : IZR (4 * zlen grid_faces) < FMAX.
Proof. pose proof FMAX_big. change (IZR (4 * zlen grid_faces)) with 28. lra. Qed.
Lemma FMAX_24 : IZR (4 * zlen pipes) < FMAX.
Proof. pose proof FMAX_big. change (IZR (4 * zlen pipes)) with 24. lra. Qed.

Ltac invert_poly := repeat match goal with
  | H : Forall2 _ (_ :: _) _ |- _ => inversion H; clear H; subst
  | H : Forall2 _ [] _ |- _ => inversion H; clear H; subst
  | H : (_ <= _)%Z /\ nth_error _ _ = Some _ |- _ => destruct H as (_ & H); cbn in H; inversion H; clear H; subst
  end.
Ltac extent := split; match goal with |- exists p q, In p ?l /\ In q ?l /\ _ =>
    first [exists (nth 0 l (Pt 0 0)), (nth 2 l (Pt 0 0)); cbn; split; [tauto|]; split; [tauto|]; lra
          |exists (nth 0 l (Pt 0 0)), (nth 1 l (Pt 0 0)); cbn; split; [tauto|]; split; [tauto|]; lra
          |exists (nth 1 l (Pt 0 0)), (nth 2 l (Pt 0 0)); cbn; split; [tauto|]; split; [tauto|]; lra] end.

Lemma grid_extent : Forall (fun f => forall poly, poly_of (@grid R _) f poly -> has_extent poly)
  (map (with_fill (-1)) grid_faces).
Proof.
  unfold grid_faces. cbn [map].
  repeat (apply Forall_cons; [intros poly Hp; unfold poly_of in Hp; cbn in Hp; invert_poly; extent|]).
  apply Forall_nil.
Qed.

(** the seven faces of the example, over exact reals *)
Example C04_example : exists t, CellTree2d_init (T:=R) g0 grid grid_faces (-1) 4 2 = Ok t.
Proof. apply C04_nondegenerate_succeeds; [exact grid_mesh_R|lia|lia|exact FMAX_28|exact grid_extent]. Qed.

Example C04_network_example : exists t, EdgeCellTree2d_init (T:=R) g0 grid pipes 4 2 = Ok t.
Proof. apply C04_network_succeeds; [exact pipes_network_R|lia|lia|exact FMAX_24]. Qed.

(** a square and a triangle whose three vertices lie on the right border *)
Example C04_degenerate_example : CellTree2d_init (T:=R) g0 grid [[0;1;5;4];[3;7;11;-1]]%Z (-1) 4 1 = Err EList.
Proof.
  apply (C04_degenerate_fails _ _ _ _ _ _ 3).
  - constructor.
    + exact (mo_vertices _ _ _ grid_mesh_R).
    + discriminate.
    + repeat constructor; simpl; try lia.
  - lia.
  - cbn. lia.
  - cbn [map].
    repeat (apply Forall_cons; [intros poly Hp; unfold poly_of in Hp; cbn in Hp; invert_poly;
      repeat (apply Forall_cons; [cbn; lra|]); apply Forall_nil|]).
    apply Forall_nil.
  - right. left. exists [ptZ (3, 0); ptZ (3, 1); ptZ (3, 2)]%Z. split.
    + unfold poly_of. cbn. repeat constructor; auto; lia.
    + repeat (apply Forall_cons; [cbn; lra|]); apply Forall_nil.
Qed.

(** two query edges through the example mesh in binary64 *)
Definition query_edges : list (point b64 * point b64) :=
  [(Pt (Zb (-1)) (bf 1 (-1)), Pt (Zb 4) (bf 1 (-1))); (Pt (bf 5 (-1)) (bf 5 (-1)), Pt (Zb 0) (Zb 0))].

Example C06_example t : CellTree2d_init (T:=b64) g0 grid grid_faces (-1) 4 2 = Ok t ->
  clips_return (celltree_data t) 10 query_edges
  /\ exists rows, length rows = 5%nat /\ forall g n, (1 <= n)%nat ->
     CellTree2d_intersect_edges g 10 n t query_edges = Ok rows.
Proof.
  intros E.
  assert (Hc : clips_return (celltree_data t) 10 query_edges).
  { apply clips_return_check with (g := g0); [apply (bt_mesh _ _ _ _ _ (init_built _ _ _ _ _ _ _ grid_mesh_B64 E))|].
    assert (H : match CellTree2d_init (T:=b64) g0 grid grid_faces (-1) 4 2 with
      | Ok t => forallb (fun ab => isok (cohen_sutherland_line_box_clip 10 (fst ab) (snd ab) (bbox (celltree_data t)))
         && forallb (fun j => isok (compute_edge_face_intersect g0 10 (celltree_data t) j (fst ab) (snd ab)))
                  (iota (length (bb_coords (celltree_data t))))) query_edges
      | Err _ => false end = true) by (vm_compute; reflexivity).
    rewrite E in H. exact H. }
  split; auto.
  destruct (C06_edge_faces_thread_independent _ _ _ _ _ _ _ grid_mesh_B64 E 10 query_edges Hc) as (rows & _ & _ & H).
  exists rows. split; auto.
  assert (L : match CellTree2d_init (T:=b64) g0 grid grid_faces (-1) 4 2 with
      | Ok t => match CellTree2d_intersect_edges g0 10 1 t query_edges with
                | Ok r => length r | Err _ => 0%nat end
      | Err _ => 0%nat end = 5%nat) by (vm_compute; reflexivity).
  rewrite E, H in L by lia. exact L.
Qed.

(** a diagonal through the corner of a box, and one that only touches it *)
Example C17_example : let K := Box 0 2 0 1 in
  (exists r, cohen_sutherland_line_box_clip 4 (Pt (-1) (-1)) (Pt 2 2) K = Ok r
     /\ clip_result (in_box K) (Pt (-1) (-1)) (Pt 2 2) r)
  /\ clip_result (in_box K) (Pt (-1) (-1)) (Pt 2 2) (Some (Pt 0 0, Pt 1 1)).
Proof.
  cbv zeta. split; [apply C17_cohen_sutherland_exact; [split; cbn; lra|lia]|].
  split; [intros E; inversion E; lra|]. exists (/ 3), (2 / 3).
  split; [lra|]. split; [lra|].
  split; [unfold at_; cbn [px py]; apply f_equal2; lra|].
  split; [unfold at_; cbn [px py]; apply f_equal2; lra|].
  intros u Hu. unfold in_box, at_. cbn [px py xmin xmax ymin ymax]. split; intros; lra.
Qed.

Example C21_example : let a := Pt 0 0 in let b := Pt 2 2 in let p := Pt 0 2 in let q := Pt 2 0 in
  orient a b p * orient a b q < 0 /\ orient p q a * orient p q b < 0
  /\ lines_intersect a b p q = Ok (true, Some (Pt 1 1)).
Proof.
  cbv zeta.
  assert (H1 : orient (Pt 0 0) (Pt 2 2) (Pt 0 2) * orient (Pt 0 0) (Pt 2 2) (Pt 2 0) < 0)
    by (unfold orient; cbn [px py]; lra).
  assert (H2 : orient (Pt 0 2) (Pt 2 0) (Pt 0 0) * orient (Pt 0 2) (Pt 2 0) (Pt 2 2) < 0)
    by (unfold orient; cbn [px py]; lra).
  split; auto. split; auto.
  destruct (C21_crossing_found _ _ _ _ H1 H2) as (t & s & Ht & Hs & E & ->).
  rewrite Rlt_bool_false.
  - unfold at_ in *. cbn [px py] in *. inversion E as [[E1 E2]]. apply f_equal, f_equal, f_equal. apply f_equal2; lra.
  - unfold den, len2, seg_tol. cbn [px py].
    replace (Rabs (2 - 0)) with 2 by (rewrite Rabs_pos_eq; lra).
    replace (Rabs (0 - 2)) with 2 by (rewrite Rabs_left; lra).
    rewrite (Rmax_left 2 2), Rmax_right by lra. lra.
Qed.

(** the overlap of (0,0)-(2,2) and (1,1)-(3,3), and of (0,3)-(2,1), (1,2)-(3,0) *)
Example C22_example :
  lines_intersect (Pt 0 0) (Pt 2 2) (Pt 1 1) (Pt 3 3) = Ok (true, Some (Pt (3 / 2) (3 / 2)))
  /\ lines_intersect (Pt 0 3) (Pt 2 1) (Pt 1 2) (Pt 3 0) = Ok (true, None).
Proof.
  split.
  - pose proof (C22_ascending_midpoint (Pt 0 0) (Pt 1 1) 0 2 1 3) as H. cbv zeta in H.
    unfold on_line in H. cbn [px py] in H.
    rewrite (Rmin_left 0 2), (Rmin_left 1 3), (Rmax_right 0 2), (Rmax_right 1 3), (Rmax_right 0 1), (Rmin_left 2 3) in H by lra.
    replace (Pt (0 + 0 * 1) (0 + 0 * 1)) with (Pt 0 0) in H by (f_equal; lra).
    replace (Pt (0 + 2 * 1) (0 + 2 * 1)) with (Pt 2 2) in H by (f_equal; lra).
    replace (Pt (0 + 1 * 1) (0 + 1 * 1)) with (Pt 1 1) in H by (f_equal; lra).
    replace (Pt (0 + 3 * 1) (0 + 3 * 1)) with (Pt 3 3) in H by (f_equal; lra).
    replace (Pt (0 + (1 + 2) / 2 * 1) (0 + (1 + 2) / 2 * 1)) with (Pt (3 / 2) (3 / 2)) in H by (f_equal; lra).
    apply H; lra.
  - pose proof (C22_descending_nan (Pt 0 3) (Pt 1 (-1)) 0 2 1 3) as H.
    unfold on_line in H. cbn [px py] in H.
    rewrite (Rmin_left 0 2), (Rmin_left 1 3), (Rmax_right 0 2), (Rmax_right 1 3), (Rmax_right 0 1), (Rmin_left 2 3) in H by lra.
    replace (Pt (0 + 0 * 1) (3 + 0 * -1)) with (Pt 0 3) in H by (f_equal; lra).
    replace (Pt (0 + 2 * 1) (3 + 2 * -1)) with (Pt 2 1) in H by (f_equal; lra).
    replace (Pt (0 + 1 * 1) (3 + 1 * -1)) with (Pt 1 2) in H by (f_equal; lra).
    replace (Pt (0 + 3 * 1) (3 + 3 * -1)) with (Pt 3 0) in H by (f_equal; lra).
    apply H; lra.
Qed.

Print Assumptions C04_nondegenerate_succeeds.
Print Assumptions C04_network_succeeds.
Print Assumptions C04_degenerate_fails.
Print Assumptions C04_float_network_refuted.
Print Assumptions C06_edge_faces_thread_independent.
Print Assumptions C06_edge_edges_thread_independent.
Print Assumptions C07_edge_face_buffer_growth.
Print Assumptions C07_edge_edge_buffer_growth.
Print Assumptions C15_intersect_edges_brute_force.
Print Assumptions C16_edge_intersect_edges_brute_force.
Print Assumptions C17_cohen_sutherland_exact.
Print Assumptions C18_liang_barsky_exact.
Print Assumptions C18_clippers_agree.
Print Assumptions C45_clip_terminates_refuted.
Print Assumptions C45_intersect_edges_terminates_refuted.
Print Assumptions C21_crossing_found.
Print Assumptions C21_apart_not_found.
Print Assumptions C21_found_sound.
Print Assumptions C21_crossing_point_refuted.
Print Assumptions C22_ascending_midpoint.
Print Assumptions C22_descending_nan.
