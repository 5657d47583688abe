(** Property theorems over exact reals: the pieces of an edge in a mesh (C64). *)
From Verif Require Import RBase MGeometry MAlgorithms MQuery MCelltree SpecTree SpecQuery SpecApi SpecGeom SpecPoly SpecMesh
  PMesh PInit PApi GBox GEdges GConvex GHull GFaces GTreeEdges GClipLine GPieces
  PropSmall Examples PropEdges PropPoints PropClipLine PropArea.
Open Scope R_scope.

(** ** C64: lengths of edges through a mesh *)
Definition piece_length (r : erow (T:=R)) : R :=
  match snd r with (Some c, Some d) => sqrt (dist2 c d) | _ => 0 end.
Definition edge_rows (i : Z) (rows : list (erow (T:=R))) : list erow := filter (fun r => (fst (fst r) =? i)%Z) rows.

(** the ends of the edge are in each face or out of reach of its tolerance *)
Definition ends_clear (vs : list pt) (faces : list (list Z)) (fill : Z) (a b : pt) : Prop :=
  forall j poly tol, face_poly vs faces fill j poly -> poly_tol poly tol -> off_band (2 * tol) poly a /\ off_band (2 * tol) poly b.
(** no side of the mesh runs along the edge *)
Definition off_sides (vs : list pt) (faces : list (list Z)) (fill : Z) (a b : pt) : Prop :=
  forall j poly u v, face_poly vs faces fill j poly -> In (u, v) (poly_edges poly) -> ~ runs_along a b u v.
(** the faces do not overlap *)
Definition disjoint_faces (vs : list pt) (faces : list (list Z)) (fill : Z) : Prop :=
  forall j j' b b' p, face_poly vs faces fill j b -> face_poly vs faces fill j' b' -> j <> j' -> ~ (open_hull b p /\ open_hull b' p).

Lemma dist_at a b s t : s <= t -> sqrt (dist2 (at_ a b s) (at_ a b t)) = (t - s) * sqrt (dist2 a b).
Proof.
  intros H. replace (dist2 (at_ a b s) (at_ a b t)) with ((t - s) * (t - s) * dist2 a b) by (unfold dist2, at_; cbn [px py]; ring).
  assert (0 <= dist2 a b) by (unfold dist2; pose proof (Rle_0_sqr (px a - px b)); pose proof (Rle_0_sqr (py a - py b)); unfold Rsqr in *; lra).
  rewrite sqrt_mult by (auto; apply Rle_0_sqr). now rewrite sqrt_square by lra.
Qed.

Lemma at_inj (a b : pt) x y : a <> b -> at_ a b x = at_ a b y -> x = y.
Proof.
  intros Hne E. unfold at_ in E. injection E as Ex Ey. destruct (Req_dec x y) as [|N]; auto. exfalso. apply Hne.
  assert (X : (x - y) * (px b - px a) = 0) by lra. assert (Y : (x - y) * (py b - py a) = 0) by lra.
  apply Rmult_integral in X as [X|X]; [lra|]. apply Rmult_integral in Y as [Y|Y]; [lra|]. apply pt_eq; lra.
Qed.

(** the intervals of the rows of an edge *)
Lemma rows_intervals (a b : pt) : forall rows : list (erow (T:=R)),
  (forall r, In r rows -> exists c d, snd r = (Some c, Some d) /\ exists s t, 0 <= s < t /\ t <= 1 /\ c = at_ a b s /\ d = at_ a b t) ->
  exists L, map (fun r => snd (fst r)) rows = map fst L
    /\ Forall2 (fun r I => exists s t, snd I = (s, t) /\ snd r = (Some (at_ a b s), Some (at_ a b t)) /\ 0 <= s < t /\ t <= 1) rows L
    /\ sumR (map piece_length rows) = widths L * sqrt (dist2 a b).
Proof.
  induction rows as [|r rows IH]; intros H.
  - exists []. split; auto. split; [constructor|]. unfold widths. cbn. lra.
  - destruct IH as (L & E1 & E2 & E3); [intros; apply H; now right|].
    destruct (H r (or_introl eq_refl)) as (c & d & Er & s & t & H1 & H2 & -> & ->).
    exists ((snd (fst r), (s, t)) :: L). split; [cbn [map fst]; now rewrite E1|]. split.
    + constructor; auto. exists s, t. auto.
    + cbn [map sumR]. unfold piece_length at 1. rewrite Er, E3, dist_at by lra. unfold widths, hi, lo. cbn [map snd fst sumR]. ring.
Qed.

Section Pieces.
  Variables (g : garbage R) (vs : list pt) (faces : list (list Z)) (fill nb cpl : Z) (t : tree2d (T:=R)).
  Hypothesis Hm : mesh_ok vs faces fill.
  Hypothesis Hc : convex_mesh vs faces fill.
  Hypothesis HI : CellTree2d_init g vs faces fill nb cpl = Ok t.

  Lemma pieces_packed edges g' csfuel n rows i a b : (4 <= csfuel)%nat -> (1 <= n)%nat ->
    CellTree2d_intersect_edges g' csfuel n t edges = Ok rows ->
    nth_error edges i = Some (a, b) -> a <> b -> ends_clear vs faces fill a b -> off_sides vs faces fill a b -> disjoint_faces vs faces fill ->
    exists L, sumR (map piece_length (edge_rows (Z.of_nat i) rows)) = widths L * sqrt (dist2 a b)
      /\ packed 0 1 L /\ forall u, 0 <= u <= 1 -> (exists I, In I L /\ lo I <= u <= hi I) <->
           exists j poly, face_poly vs faces fill j poly /\ hull poly (at_ a b u) /\ shares (hull poly) a b.
  Proof.
    intros Hf Hn ER Hab Hne Hcl Hoff Hdis.
    destruct (C19_intersect_edges_geometric _ _ _ _ _ _ _ Hm Hc HI edges) as (rows' & H1 & HN & HE & H).
    rewrite (H1 g' csfuel n Hf Hn) in ER. apply Ok_inj in ER. subst rows'.
    assert (HR : forall j poly, face_poly vs faces fill j poly ->
       (forall c, In ((Z.of_nat i, j), c) rows <-> exists c1 c2, c = (Some c1, Some c2) /\ clip_result (hull poly) a b (Some (c1, c2)))
       /\ ((exists c, In ((Z.of_nat i, j), c) rows) <-> shares (hull poly) a b)).
    { intros j poly Hp. apply (H i j a b poly Hab Hp). intros tol Ht. eapply Hcl; eauto. }
    set (er := edge_rows (Z.of_nat i) rows).
    assert (Her : forall j c, In ((Z.of_nat i, j), c) rows <-> In ((Z.of_nat i, j), c) er).
    { intros j c. unfold er, edge_rows. rewrite filter_In. cbn [fst]. rewrite Z.eqb_refl. tauto. }
    assert (Hei : forall r, In r er -> fst (fst r) = Z.of_nat i) by (intros r Hr; apply filter_In in Hr as (_ & Hr); now apply Z.eqb_eq in Hr).
    assert (Hrow : forall r, In r er -> exists poly, face_poly vs faces fill (snd (fst r)) poly
       /\ exists c1 c2, snd r = (Some c1, Some c2) /\ clip_result (hull poly) a b (Some (c1, c2))).
    { intros ((i', j), c) Hr. pose proof (Hei _ Hr) as E. cbn [fst snd] in *. subst i'. apply Her in Hr.
      destruct (HE _ _ _ Hr) as (_ & poly & _ & _ & Hp). exists poly. split; auto. apply (HR j poly Hp). auto. }
    destruct (rows_intervals a b er) as (L & EL & HF & HS).
    { intros r Hr. destruct (Hrow r Hr) as (poly & _ & c1 & c2 & -> & _ & s & u & A & B & C & D & _). eauto 10. }
    exists L. split; auto.
    (* an interval is the part of the edge in its face *)
    assert (HL : forall I, In I L -> exists poly, face_poly vs faces fill (fst I) poly /\ 0 <= lo I < hi I /\ hi I <= 1
       /\ (forall u, 0 <= u <= 1 -> (hull poly (at_ a b u) <-> lo I <= u <= hi I)) /\ shares (hull poly) a b).
    { intros I HI'. apply In_nth_error in HI' as (k & Ek).
      assert (exists r, nth_error er k = Some r) as (r & Er).
      { destruct (nth_error er k) eqn:E; eauto. apply nth_error_None in E. apply nth_error_Some in Ek || idtac.
        assert (length er = length L) by (rewrite <- (map_length fst L), <- EL; now rewrite map_length).
        assert (nth_error L k <> None) by congruence. apply nth_error_Some in H2. lia. }
      pose proof (PApi.Forall2_nth _ _ _ _ _ _ HF Er Ek) as (s & u & EI & Esr & A & B).
      assert (Ef : fst I = snd (fst r)).
      { assert (X : nth_error (map fst L) k = Some (fst I)) by (now apply map_nth_error).
        rewrite <- EL in X. rewrite (map_nth_error _ _ _ Er) in X. congruence. }
      destruct (Hrow r (nth_error_In _ _ Er)) as (poly & Hp & c1 & c2 & Es2 & Cl). rewrite <- Ef in Hp.
      exists poly. split; auto. unfold lo, hi. rewrite EI. cbn [fst snd]. split; auto. split; auto.
      rewrite Esr in Es2. injection Es2 as <- <-. split.
      - destruct Cl as (_ & s' & u' & A' & B' & Ec & Ed & Hu).
        assert (s' = s /\ u' = u) as (-> & ->); [|auto].
        split; eapply at_inj; eauto.
      - apply (shares_clip _ _ _ _ Cl). discriminate. }
    split; [split; [|split]|].
    - rewrite <- EL. unfold er. clear - HN. induction rows as [|((i', j), c) rows IH]; cbn [edge_rows filter map]; [constructor|].
      cbn [map fst] in HN. apply NoDup_cons_iff in HN as (N & HN). specialize (IH HN). cbn [fst].
      destruct (Z.eqb_spec i' (Z.of_nat i)) as [->|]; auto. cbn [map fst snd]. constructor; auto.
      intros K. apply in_map_iff in K as (((i2, j2), c2) & E & K). apply filter_In in K as (K & Ei). cbn in E, Ei.
      apply Z.eqb_eq in Ei. subst. apply N. apply in_map_iff. now exists ((Z.of_nat i, j), c2).
    - intros I HI'. destruct (HL I HI') as (_ & _ & ? & ? & _). lra.
    - intros I J HI' HJ Hij. destruct (HL I HI') as (P & FP & AI & BI & HP & _). destruct (HL J HJ) as (Q & FQ & AJ & BJ & HQ & _).
      unfold apart. destruct (Rle_lt_dec (hi I) (lo J)); auto. destruct (Rle_lt_dec (hi J) (lo I)); auto. exfalso.
      set (s := Rmax (lo I) (lo J)). set (u := Rmin (hi I) (hi J)).
      assert (Hs : lo I <= s /\ lo J <= s) by (split; [apply Rmax_l|apply Rmax_r]).
      assert (Hu : u <= hi I /\ u <= hi J) by (split; [apply Rmin_l|apply Rmin_r]).
      assert (Hsu : s < u) by (apply Rmax_lub_lt; apply Rmin_glb_lt; lra).
      apply (Hdis _ _ _ _ (at_ a b ((s + u) / 2)) FP FQ Hij).
      split; (apply middle_interior; auto; try lra; [eapply Hc; eassumption|intros u1 v1 He; eapply Hoff; [|exact He]; eassumption| |]);
        first [apply HP|apply HQ]; lra.
    - intros u Hu. split.
      + intros (I & HI' & Hiu). destruct (HL I HI') as (P & FP & AI & BI & HP & Hsh). exists (fst I), P. split; auto. split; auto. now apply HP.
      + intros (j & poly & Hp & Hh & Hsh). apply (HR j poly Hp) in Hsh as (c & Hin). apply Her in Hin.
        apply In_nth_error in Hin as (k & Ek).
        assert (exists I, nth_error L k = Some I) as (I & EI).
        { destruct (nth_error L k) eqn:E; eauto. apply nth_error_None in E.
          assert (length er = length L) by (rewrite <- (map_length fst L), <- EL; now rewrite map_length).
          assert (k < length er)%nat by (apply nth_error_Some; intros X; pose proof (eq_trans (eq_sym X) Ek) as Y; discriminate Y). lia. }
        exists I. split; [eapply nth_error_In; eauto|]. destruct (HL I (nth_error_In _ _ EI)) as (P & FP & AI & BI & HP & _).
        assert (Ef : fst I = j).
        { assert (X : nth_error (map fst L) k = Some (fst I)) by (now apply map_nth_error).
          rewrite <- EL in X. rewrite (map_nth_error _ _ _ Ek) in X. cbn in X. congruence. }
        apply HP; auto. rewrite Ef in FP. now rewrite (face_unique _ _ _ _ _ _ FP Hp).
  Qed.
End Pieces.

(** An edge within the mesh: its pieces add up to its length. *)
Theorem C64_edge_length g vs faces fill nb cpl (t : tree2d (T:=R)) :
  mesh_ok vs faces fill -> convex_mesh vs faces fill -> disjoint_faces vs faces fill ->
  CellTree2d_init g vs faces fill nb cpl = Ok t ->
  forall edges g' csfuel n rows, (4 <= csfuel)%nat -> (1 <= n)%nat -> CellTree2d_intersect_edges g' csfuel n t edges = Ok rows ->
  forall i a b, nth_error edges i = Some (a, b) -> a <> b -> ends_clear vs faces fill a b -> off_sides vs faces fill a b ->
  (forall x, on_segment a b x -> exists j poly, face_poly vs faces fill j poly /\ hull poly x) ->
  sumR (map piece_length (edge_rows (Z.of_nat i) rows)) = sqrt (dist2 a b).
Proof.
  intros Hm Hc Hd E edges g' csfuel n rows Hf Hn ER i a b Ei Hab Hcl Hoff Hcov.
  destruct (pieces_packed _ _ _ _ _ _ _ Hm Hc E edges g' csfuel n rows i a b Hf Hn ER Ei Hab Hcl Hoff Hd) as (L & -> & HP & HL).
  rewrite (covered_widths L 0 1); [lra|lra|auto|].
  intros s u Hs Hsu Hu.
  destruct (two_in_one (fun j w => exists poly, face_poly vs faces fill j poly /\ hull poly (at_ a b w)) (length faces) s u Hsu) as
    (j & w & w' & Hw & Hw' & Hne & (poly & F & H1) & (poly' & F' & H2)).
  - intros w Hw. destruct (Hcov (at_ a b w)) as (j & poly & F & H); [exists w; split; auto; lra|].
    exists j. split; [|eauto]. exact (face_range _ _ _ _ _ F).
  - rewrite (face_unique _ _ _ _ _ _ F' F) in H2.
    destruct (proj2 (HL w ltac:(lra))) as (I & HI & HIw); [|exists w, I; auto].
    exists j, poly. split; auto. split; auto. exists (at_ a b w), (at_ a b w').
    split; [intros E'; apply Hne; exact (at_inj _ _ _ _ Hab E')|]. split; [exists w; split; auto; lra|]. split; [exists w'; split; auto; lra|]. auto.
Qed.

(** Any edge: no part of it is counted twice. *)
Theorem C64_edge_length_bound g vs faces fill nb cpl (t : tree2d (T:=R)) :
  mesh_ok vs faces fill -> convex_mesh vs faces fill -> disjoint_faces vs faces fill ->
  CellTree2d_init g vs faces fill nb cpl = Ok t ->
  forall edges g' csfuel n rows, (4 <= csfuel)%nat -> (1 <= n)%nat -> CellTree2d_intersect_edges g' csfuel n t edges = Ok rows ->
  forall i a b, nth_error edges i = Some (a, b) -> a <> b -> ends_clear vs faces fill a b -> off_sides vs faces fill a b ->
  sumR (map piece_length (edge_rows (Z.of_nat i) rows)) <= sqrt (dist2 a b).
Proof.
  intros Hm Hc Hd E edges g' csfuel n rows Hf Hn ER i a b Ei Hab Hcl Hoff.
  destruct (pieces_packed _ _ _ _ _ _ _ Hm Hc E edges g' csfuel n rows i a b Hf Hn ER Ei Hab Hcl Hoff Hd) as (L & -> & HP & HL).
  pose proof (packed_widths L 0 1 ltac:(lra) HP). pose proof (sqrt_pos (dist2 a b)).
  pose proof (Rmult_le_compat_r (sqrt (dist2 a b)) _ _ H0 H). lra.
Qed.

(** An edge along a side shared by two faces: both report all of it. *)
Theorem C64_shared_side_twice g vs faces fill nb cpl (t : tree2d (T:=R)) :
  mesh_ok vs faces fill -> convex_mesh vs faces fill -> CellTree2d_init g vs faces fill nb cpl = Ok t ->
  forall edges g' csfuel n rows, (4 <= csfuel)%nat -> (1 <= n)%nat -> CellTree2d_intersect_edges g' csfuel n t edges = Ok rows ->
  forall i a b, nth_error edges i = Some (a, b) -> a <> b ->
  forall j j' poly poly' u v, j <> j' -> face_poly vs faces fill j poly -> face_poly vs faces fill j' poly' ->
  In (u, v) (poly_edges poly) -> In (v, u) (poly_edges poly') -> on_segment u v a -> on_segment u v b ->
  In ((Z.of_nat i, j), (Some a, Some b)) rows /\ In ((Z.of_nat i, j'), (Some a, Some b)) rows
  /\ 2 * sqrt (dist2 a b) <= sumR (map piece_length (edge_rows (Z.of_nat i) rows)).
Proof.
  intros Hm Hc E edges g' csfuel n rows Hf Hn ER i a b Ei Hab j j' P Q u v Hj FP FQ EP EQ Ha Hb.
  destruct (C19_intersect_edges_geometric _ _ _ _ _ _ _ Hm Hc E edges) as (rows' & H1 & HN & HE & H).
  rewrite (H1 g' csfuel n Hf Hn) in ER. apply Ok_inj in ER. subst rows'.
  assert (G : forall k K u v, face_poly vs faces fill k K -> In (u, v) (poly_edges K) -> on_segment u v a -> on_segment u v b ->
    In ((Z.of_nat i, k), (Some a, Some b)) rows).
  { clear - H Ei Hab Hc. intros k K u v FK EK Ha Hb.
    assert (HK : forall x, on_segment u v x -> hull K x).
    { intros x (s & Hs & ->). destruct (edges_in _ _ _ EK). apply hull_at; auto; now apply hull_vertex. }
    apply (H i k a b K Ei FK); [intros; split; left; auto|].
    exists a, b. split; auto. split; auto. exists 0, 1. rewrite at_0, at_1. repeat split; auto; try lra.
    intros _. apply HK. destruct Ha as (s & Hs & ->). destruct Hb as (w & Hw & ->). rewrite at_at.
    exists (s + u0 * (w - s)). split; auto. nra. }
  pose proof (G j P u v FP EP Ha Hb) as R1.
  pose proof (G j' Q v u FQ EQ (on_segment_swap _ _ _ Ha) (on_segment_swap _ _ _ Hb)) as R2.
  split; auto. split; auto.
  set (er := edge_rows (Z.of_nat i) rows).
  assert (I1 : In ((Z.of_nat i, j), (Some a, Some b)) er) by (apply filter_In; split; auto; cbn; apply Z.eqb_refl).
  assert (I2 : In ((Z.of_nat i, j'), (Some a, Some b)) er) by (apply filter_In; split; auto; cbn; apply Z.eqb_refl).
  assert (Pos : forall r : erow (T:=R), 0 <= piece_length r).
  { intros (?, ([c|], [d|])); unfold piece_length; cbn; try lra. apply sqrt_pos. }
  assert (Q1 : forall (l : list (erow (T:=R))), 0 <= sumR (map piece_length l)).
  { induction l as [|r l IH]; cbn; [lra|]. pose proof (Pos r). lra. }
  assert (Q2 : forall (l : list (erow (T:=R))) r, In r l -> piece_length r <= sumR (map piece_length l)).
  { induction l as [|r0 l IH]; intros r Hr; [destruct Hr|]. destruct Hr as [->|Hr]; cbn; [pose proof (Q1 l); lra|]. pose proof (IH r Hr). pose proof (Pos r0). lra. }
  clearbody er. clear - I1 I2 Hj Pos Q2. revert I1 I2.
  induction er as [|r er IH]; [intros []|]. intros [->|I1] [E2|I2]; [congruence| | |].
  - cbn [map sumR]. pose proof (Q2 er _ I2) as X. unfold piece_length in X at 1. unfold piece_length at 1. cbn [snd] in *. lra.
  - subst r. cbn [map sumR]. pose proof (Q2 er _ I1) as X. unfold piece_length in X at 1. unfold piece_length at 1. cbn [snd] in *. lra.
  - cbn [map sumR]. specialize (IH I1 I2). pose proof (Pos r). lra.
Qed.

(** ** Concrete cases *)
Lemma runs_along_orient a b u v : runs_along a b u v -> orient u v a = 0 /\ orient u v b = 0.
Proof.
  intros (x & y & Hxy & (s & Hs & ->) & (t & Ht & ->) & (s' & _ & Es) & (t' & _ & Et)).
  assert (A : orient u v (at_ a b s) = 0) by (rewrite Es; unfold orient, at_; cbn [px py]; ring).
  assert (B : orient u v (at_ a b t) = 0) by (rewrite Et; unfold orient, at_; cbn [px py]; ring).
  rewrite orient_at in A, B. assert (N : s <> t) by (intros ->; now apply Hxy).
  set (X := orient u v a) in *. set (Y := orient u v b) in *.
  assert (E : (s - t) * (Y - X) = 0) by lra. apply Rmult_integral in E as [E|E]; [lra|].
  assert (Y = X) by lra. replace Y with X in *. lra.
Qed.

Definition grid_sides : list (pt * pt) := flat_map (fun e => [(ptZ (fst e), ptZ (snd e)); (ptZ (snd e), ptZ (fst e))])
  [((0, 0), (1, 0)); ((1, 0), (2, 0)); ((2, 0), (3, 0)); ((0, 1), (1, 1)); ((1, 1), (2, 1)); ((2, 1), (3, 1)); ((0, 2), (1, 2)); ((1, 2), (2, 2)); ((2, 2), (3, 2));
   ((0, 0), (0, 1)); ((1, 0), (1, 1)); ((2, 0), (2, 1)); ((3, 0), (3, 1)); ((0, 1), (0, 2)); ((1, 1), (1, 2)); ((2, 1), (2, 2)); ((3, 1), (3, 2)); ((2, 1), (3, 2))]%Z.
Lemma grid_edges j b : face_poly (@grid R _) grid_faces (-1) j b ->
  (forall e, In e (poly_edges b) -> In e grid_sides) /\ forall p, In p b -> 0 <= px p <= 3 /\ 0 <= py p <= 2.
Proof.
  intros H. pose proof (grid_index j b H) as Hj. destruct H as (f & _ & En & Hb).
  assert (C : (j = 0 \/ j = 1 \/ j = 2 \/ j = 3 \/ j = 4 \/ j = 5 \/ j = 6)%Z) by lia.
  repeat destruct C as [C|C]; subst j; cbn in En; inversion En; subst f; clear En; unfold poly_of in Hb; cbn in Hb; invert_poly; split;
    try (intros e He; cbn in He; repeat destruct He as [<-|He]; try contradiction; cbn; tauto);
    intros p Hp; cbn in Hp; repeat destruct Hp as [<-|Hp]; try contradiction; cbn; lra.
Qed.

Lemma grid_poly_tol j b tol : face_poly (@grid R _) grid_faces (-1) j b -> poly_tol b tol -> 0 < tol <= / 100000000000.
Proof.
  intros F (K & HT & ->). split; [apply face_tol_pos|]. destruct HT as (_ & X0 & X1 & Y0 & Y1).
  apply Exists_exists in X0 as (x0 & I0 & X0), X1 as (x1 & I1 & X1), Y0 as (y0 & J0 & Y0), Y1 as (y1 & J1 & Y1).
  destruct (grid_edges j b F) as (_ & B).
  pose proof (B x0 I0). pose proof (B x1 I1). pose proof (B y0 J0). pose proof (B y1 J1).
  unfold face_tol. apply Rmax_lub; [lra|].
  assert (Rmax (xmax K - xmin K) (ymax K - ymin K) <= 3) by (apply Rmax_lub; lra). lra.
Qed.

(** from the first square through two others into a triangle *)
Theorem C64_example : exists t rows, CellTree2d_init (T:=R) g0 grid grid_faces (-1) 4 2 = Ok t
  /\ CellTree2d_intersect_edges g0 4 2 t [(Pt (1/2) (1/2), Pt (5/2) (5/4))] = Ok rows
  /\ (2 <= length rows)%nat /\ sumR (map piece_length (edge_rows 0 rows)) = sqrt (73 / 16).
Proof.
  destruct C04_example as (t & E). exists t. set (a := Pt (1/2) (1/2)). set (b := Pt (5/2) (5/4)).
  destruct (C19_intersect_edges_geometric _ _ _ _ _ _ _ grid_mesh_R grid_convex E [(a, b)]) as (rows & H1 & _ & _ & H).
  exists rows. split; auto. split; [apply H1; lia|].
  assert (Hcl : ends_clear grid grid_faces (-1) a b).
  { intros j poly tol F Ht. pose proof (grid_poly_tol _ _ _ F Ht) as Hb. destruct (grid_edges _ _ F) as (HE & _).
    assert (Hb2 : 2 * tol * (2 * tol) <= / 100).
    { assert (Hb1 : 0 <= 2 * tol <= / 10) by lra. clear Hb. set (z := 2 * tol) in *. clearbody z. pose proof (Rmult_le_compat z (/ 10) z (/ 10)). lra. }
    assert (Hn : forall x q, dist2 x q <= 2 * tol * (2 * tol) -> -/ 10 <= px x - px q <= / 10 /\ -/ 10 <= py x - py q <= / 10).
    { intros x q Hd. unfold dist2 in Hd. set (X := px x - px q) in *. set (Y := py x - py q) in *.
      assert (S : X * X + Y * Y <= / 100) by lra. clear - S. split; split; nra. }
    split; right; intros (u & v & Huv & q & (s & Hs & ->) & Hd); apply HE in Huv; apply Hn in Hd; unfold at_ in Hd;
      cbn in Huv; repeat destruct Huv as [Huv|Huv]; try contradiction; inversion Huv; subst u v; cbn in Hd; lra. }
  assert (Hs : sumR (map piece_length (edge_rows (Z.of_nat 0) rows)) = sqrt (dist2 a b)).
  { apply (C64_edge_length g0 grid grid_faces (-1)%Z 4%Z 2%Z t grid_mesh_R grid_convex
             (proj1 (grid_tiles (fun _ => False) ltac:(intros ? []))) E [(a, b)] g0 4%nat 1%nat rows ltac:(lia) ltac:(lia)); auto.
    - intros X. inversion X. lra.
    - intros j poly u v F Huv Hr. apply runs_along_orient in Hr as (X & Y). destruct (grid_edges _ _ F) as (HE & _). apply HE in Huv.
      unfold orient in X, Y. cbn in Huv; repeat destruct Huv as [Huv|Huv]; try contradiction; inversion Huv; subst u v; cbn in X, Y; lra.
    - intros x (s & Hs & ->). apply grid_cover. unfold rect, at_, a, b. cbn. lra. }
  split.
  2:{ change (Z.of_nat 0) with 0%Z in Hs. rewrite Hs. f_equal. unfold dist2, a, b. cbn. field. }
  (* at least two pieces: no face has all of it *)
  destruct rows as [|r [|r' rows]]; [..|cbn; lia]; exfalso.
  - cbn in Hs. assert (0 < sqrt (dist2 a b)) by (apply sqrt_lt_R0; unfold dist2, a, b; cbn; lra). lra.
  - set (P := [ptZ (0, 0); ptZ (1, 0); ptZ (1, 1); ptZ (0, 1)]%Z : list pt).
    set (Q := [ptZ (1, 0); ptZ (2, 0); ptZ (2, 1); ptZ (1, 1)]%Z : list pt).
    assert (FP : face_poly grid grid_faces (-1) 0 P).
    { exists [0; 1; 5; 4]%Z. split; [lia|]. split; [reflexivity|]. unfold poly_of. cbn. repeat constructor; auto; lia. }
    assert (FQ : face_poly grid grid_faces (-1) 1 Q).
    { exists [1; 2; 6; 5]%Z. split; [lia|]. split; [reflexivity|]. unfold poly_of. cbn. repeat constructor; auto; lia. }
    assert (G : forall j K, face_poly grid grid_faces (-1) j K -> shares (hull K) a b -> fst (fst r) = 0%Z /\ snd (fst r) = j).
    { intros j K F Hsh. destruct (H O j a b K eq_refl F) as (_ & HX); [intros; eapply Hcl; eauto|].
      apply HX in Hsh as (c & [Hc|[]]). subst r. auto. }
    assert (SP : snd (fst r) = 0%Z).
    { apply (G 0%Z P FP). assert (HC : convex_ccw P) by (unfold P; convex_check). exists a, (at_ a b (/ 10)). split; [intros X; inversion X; lra|].
      split; [exists 0; split; [lra|now rewrite at_0]|]. split; [exists (/ 10); split; auto; lra|].
      split; apply in_poly_hull; auto; intros u v He; unfold P in He; cbn in He;
        repeat destruct He as [He|He]; try contradiction; inversion He; subst u v; unfold orient, at_, a, b; cbn; lra. }
    assert (SQ : snd (fst r) = 1%Z).
    { apply (G 1%Z Q FQ). assert (HC : convex_ccw Q) by (unfold Q; convex_check). exists (at_ a b (3 / 10)), (at_ a b (4 / 10)).
      split; [intros X; inversion X; lra|].
      split; [exists (3 / 10); split; auto; lra|]. split; [exists (4 / 10); split; auto; lra|].
      split; apply in_poly_hull; auto; intros u v He; unfold Q in He; cbn in He;
        repeat destruct He as [He|He]; try contradiction; inversion He; subst u v; unfold orient, at_, a, b; cbn; lra. }
    congruence.
Qed.

(** along the side between the first two squares *)
Theorem C64_shared_side_example : exists t rows, CellTree2d_init (T:=R) g0 grid grid_faces (-1) 4 2 = Ok t
  /\ CellTree2d_intersect_edges g0 4 2 t [(Pt 1 (1/4), Pt 1 (3/4))] = Ok rows
  /\ 1 <= sumR (map piece_length (edge_rows 0 rows)) /\ sqrt (dist2 (Pt 1 (1/4)) (Pt 1 (3/4))) = 1 / 2.
Proof.
  destruct C04_example as (t & E). exists t. set (a := Pt 1 (1/4)). set (b := Pt 1 (3/4)).
  destruct (C19_intersect_edges_geometric _ _ _ _ _ _ _ grid_mesh_R grid_convex E [(a, b)]) as (rows & H1 & _).
  exists rows. split; auto. split; [apply H1; lia|].
  assert (Ed : sqrt (dist2 a b) = 1 / 2).
  { replace (dist2 a b) with ((1/2) * (1/2)) by (unfold dist2, a, b; cbn; field). apply sqrt_square. lra. }
  split; auto.
  set (P := [ptZ (0, 0); ptZ (1, 0); ptZ (1, 1); ptZ (0, 1)]%Z : list pt).
  set (Q := [ptZ (1, 0); ptZ (2, 0); ptZ (2, 1); ptZ (1, 1)]%Z : list pt).
  assert (FP : face_poly grid grid_faces (-1) 0 P).
  { exists [0; 1; 5; 4]%Z. split; [lia|]. split; [reflexivity|]. unfold poly_of. cbn. repeat constructor; auto; lia. }
  assert (FQ : face_poly grid grid_faces (-1) 1 Q).
  { exists [1; 2; 6; 5]%Z. split; [lia|]. split; [reflexivity|]. unfold poly_of. cbn. repeat constructor; auto; lia. }
  destruct (C64_shared_side_twice _ _ _ _ _ _ _ grid_mesh_R grid_convex E [(a, b)] g0 4%nat 1%nat rows ltac:(lia) ltac:(lia) ltac:(apply H1; lia)
    O a b eq_refl ltac:(intros X; inversion X; lra) 0%Z 1%Z P Q (ptZ (1, 0)%Z) (ptZ (1, 1)%Z) ltac:(lia) FP FQ) as (_ & _ & HS).
  - cbn. auto.
  - cbn. auto.
  - exists (1/4). split; [lra|]. apply pt_eq; cbn; lra.
  - exists (3/4). split; [lra|]. apply pt_eq; cbn; lra.
  - rewrite Ed in HS. change (Z.of_nat 0) with 0%Z in HS. lra.
Qed.

Print Assumptions C64_edge_length.
Print Assumptions C64_edge_length_bound.
Print Assumptions C64_shared_side_twice.
Print Assumptions C64_example.
Print Assumptions C64_shared_side_example.
