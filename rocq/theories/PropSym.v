(** Property theorems: exchanging the roles of two meshes, and a mesh queried with
    itself (C79). *)
From Verif Require Import RBase NumB64 NumSub NumRoom MGeometry MCreation MAlgorithms MQuery MCelltree SpecTree SpecQuery SpecApi SpecGeom SpecPoly SpecMesh SpecArea
  PBuild PMesh PInit PPoints PFaces PApi GConvex GTreeEdges Examples PropEdges PropClip PropClipLine PropFaces PropArea PropQueries PropPieces PropSmall PropSplit PNumber.
Open Scope Z_scope.

Definition swap {A B} (x : A * B) : B * A := (snd x, fst x).

Lemma swap_in {A B} (l : list (A * B)) i j : In (i, j) (map swap l) <-> In (j, i) l.
Proof.
  rewrite in_map_iff. split.
  - intros ((x, y) & E & H). unfold swap in E. cbn in E. now inversion E; subst.
  - intros H. now exists (j, i).
Qed.
Lemma swap_nodup {A B} (l : list (A * B)) : NoDup l -> NoDup (map swap l).
Proof. apply FinFun.Injective_map_NoDup. intros (a, b) (c, d) H. unfold swap in H. cbn in H. now inversion H. Qed.

Section Any.
  Context {T : Type} {NT : Num T} {NO : NumOrd T} {NS : NumSub T}.
  Notation point := (point T).
  Notation tree2d := (tree2d (T:=T)).

  Lemma overlap_sym (a b : box T) : strict_overlap a b -> strict_overlap b a.
  Proof. unfold strict_overlap. tauto. Qed.

  (** tight boxes of the same corners are equal as numbers *)
  Lemma tight_within (poly : list point) (b b' : box T) : tight_box poly b -> tight_box poly b' ->
    nleb (xmin b) (xmin b') = true /\ nleb (xmax b') (xmax b) = true /\ nleb (ymin b) (ymin b') = true /\ nleb (ymax b') (ymax b) = true.
  Proof.
    intros (F & _) (_ & X0 & X1 & Y0 & Y1). rewrite Forall_forall in F.
    apply Exists_exists in X0 as (p0 & I0 & <-), X1 as (p1 & I1 & <-), Y0 as (p2 & I2 & <-), Y1 as (p3 & I3 & <-).
    split; [apply (F _ I0)|]. split; [apply (F _ I1)|]. split; [apply (F _ I2)|apply (F _ I3)].
  Qed.
  Lemma tight_overlap (poly : list point) (b b' c : box T) : tight_box poly b -> tight_box poly b' -> strict_overlap b c -> strict_overlap b' c.
  Proof.
    intros H H' (A & B & C & D). destruct (tight_within _ _ _ H' H) as (E1 & E2 & E3 & E4).
    split; [eapply nle_lt_trans; eauto|]. split; [eapply nlt_le_trans; eauto|]. split; [eapply nle_lt_trans; eauto|eapply nlt_le_trans; eauto].
  Qed.

  (** ** locate_boxes with the boxes of the other tree *)
  Theorem C79_locate_boxes g g' vs faces fill nb cpl vs' faces' fill' nb' cpl' (t t' : tree2d) :
    mesh_ok vs faces fill -> CellTree2d_init g vs faces fill nb cpl = Ok t ->
    mesh_ok vs' faces' fill' -> CellTree2d_init g' vs' faces' fill' nb' cpl' = Ok t' ->
    forall h n n', (1 <= n)%nat -> (1 <= n')%nat ->
    exists pairs pairs', CellTree2d_locate_boxes h n t' (bb_coords (celltree_data t)) = Ok pairs
      /\ CellTree2d_locate_boxes h n' t (bb_coords (celltree_data t')) = Ok pairs'
      /\ Permutation pairs' (map swap pairs).
  Proof.
    intros M E M' E' h n n' Hn Hn'.
    destruct (boxes_result t' (bb_coords (celltree_data t)) (built_valid _ _ _ _ _ (init_built _ _ _ _ _ _ _ M' E'))) as (r & H1 & H2 & H3 & _).
    destruct (boxes_result t (bb_coords (celltree_data t')) (built_valid _ _ _ _ _ (init_built _ _ _ _ _ _ _ M E))) as (r' & H1' & H2' & H3' & _).
    exists r, r'. split; [now apply H1|]. split; [now apply H1'|]. apply NoDup_Permutation; auto using swap_nodup.
    intros (i, j). rewrite swap_in, H3', H3. unfold boxes_pair.
    split; intros (a & b & X1 & X2 & X3 & X4 & X5); exists b, a; apply overlap_sym in X5; auto.
  Qed.

  (** what the tree stores is what the query would use *)
  Lemma tree_query_poly g vs faces fill nb cpl (t : tree2d) :
    mesh_ok vs faces fill -> CellTree2d_init g vs faces fill nb cpl = Ok t ->
    forall i a, tree_poly t i a <-> query_poly vs (map (with_fill fill) faces) i a.
  Proof.
    intros M E i a. pose proof (init_ccw_any _ _ _ _ _ _ _ M E) as C. pose proof (bt_vertices _ _ _ _ _ (init_built _ _ _ _ _ _ _ M E)) as Ev. split.
    - intros (f & Hi & Ef & P). rewrite Ev in P. apply (query_turned vs _ _ i a C Hi). eauto.
    - intros Q. assert (Hi : 0 <= i) by (destruct Q as (? & ? & ? & _); auto). apply (query_turned vs _ _ i a C Hi) in Q as (f & Ef & P).
      exists f. rewrite Ev. auto.
  Qed.
  Lemma tree_box g vs faces fill nb cpl (t : tree2d) :
    mesh_ok vs faces fill -> CellTree2d_init g vs faces fill nb cpl = Ok t ->
    forall i a, tree_poly t i a -> exists b, nth_error (bb_coords (celltree_data t)) (Z.to_nat i) = Some b /\ tight_box a b.
  Proof.
    intros M E i a (f & Hi & Ef & P). pose proof (mt_boxes _ (bt_mesh _ _ _ _ _ (init_built _ _ _ _ _ _ _ M E))) as HB.
    destruct (Forall2_nth_l _ _ _ _ _ HB Ef) as (b & Eb & a' & P' & Tb). rewrite (poly_of_fun _ _ _ _ P P'). eauto.
  Qed.

  Lemma pair_sym g g' vs faces fill nb cpl vs' faces' fill' nb' cpl' (t t' : tree2d) :
    mesh_ok vs faces fill -> CellTree2d_init g vs faces fill nb cpl = Ok t ->
    mesh_ok vs' faces' fill' -> CellTree2d_init g' vs' faces' fill' nb' cpl' = Ok t' ->
    forall i j, face_pair vs (map (with_fill fill) faces) t' i j -> face_pair vs' (map (with_fill fill') faces') t j i.
  Proof.
    intros M E M' E' i j (a & b & ba & bb & Qa & Tb & Ta & Ub & Ebb & Ho & (X1 & X2)).
    apply (tree_query_poly _ _ _ _ _ _ _ M E) in Qa. destruct (tree_box _ _ _ _ _ _ _ M E _ _ Qa) as (ba' & Eba & Ta').
    exists b, a, bb, ba'. split; [now apply (tree_query_poly _ _ _ _ _ _ _ M' E')|]. split; [exact Qa|]. split; [exact Ub|]. split; [exact Ta'|]. split; [exact Eba|].
    split; [apply overlap_sym; exact (tight_overlap a ba ba' bb Ta Ta' Ho)|]. split; [exact X2|exact X1].
  Qed.

  (** ** locate_faces: the pairs are the same whichever mesh is in the tree *)
  Theorem C79_locate_faces g g' vs faces fill nb cpl vs' faces' fill' nb' cpl' (t t' : tree2d) :
    mesh_ok vs faces fill -> CellTree2d_init g vs faces fill nb cpl = Ok t ->
    mesh_ok vs' faces' fill' -> CellTree2d_init g' vs' faces' fill' nb' cpl' = Ok t' ->
    forall h n n', (1 <= n)%nat -> (1 <= n')%nat ->
    exists pairs pairs' q q', CellTree2d_locate_faces h n t' vs (map (with_fill fill) faces) = Ok (pairs, q)
      /\ CellTree2d_locate_faces h n' t vs' (map (with_fill fill') faces') = Ok (pairs', q')
      /\ Permutation pairs' (map swap pairs).
  Proof.
    intros M E M' E' h n n' Hn Hn'.
    assert (Hq : faces_ok vs (map (with_fill fill) faces)) by (destruct M; constructor; auto).
    assert (Hq' : faces_ok vs' (map (with_fill fill') faces')) by (destruct M'; constructor; auto).
    destruct (faces_pairs _ _ _ _ _ _ _ M' E' vs _ Hq) as (pairs & q & _ & H1 & H2 & _ & H3).
    destruct (faces_pairs _ _ _ _ _ _ _ M E vs' _ Hq') as (pairs' & q' & _ & H1' & H2' & _ & H3').
    exists pairs, pairs', q, q'. split; [now apply H1|]. split; [now apply H1'|]. apply NoDup_Permutation; auto using swap_nodup.
    intros (j, i). rewrite swap_in, H3', H3. split; eapply pair_sym; eauto.
  Qed.
End Any.

(** ** Edges over the reals: crossing edges are found whichever network is in the
    tree, with the same point if a point is given in both answers *)
Open Scope R_scope.
Lemma at_unique a b p q t s t' s' : orient a b p * orient a b q < 0 ->
  at_ a b t = at_ p q s -> at_ p q s' = at_ a b t' -> at_ a b t = at_ p q s'.
Proof.
  intros H E E'.
  assert (X : (s - s') * (orient a b q - orient a b p) = 0).
  { assert (O : forall r, orient a b (at_ p q r) = (1 - r) * orient a b p + r * orient a b q) by (intros; unfold orient, at_; cbn [px py]; ring).
    assert (Z0 : forall r, orient a b (at_ a b r) = 0) by (intros; unfold orient, at_; cbn [px py]; ring).
    pose proof (O s) as O1. rewrite <- E, Z0 in O1. pose proof (O s') as O2. rewrite E', Z0 in O2. lra. }
  apply Rmult_integral in X as [X|X]; [replace s' with s by lra; exact E|].
  exfalso. assert (orient a b q = orient a b p) by lra. rewrite H0 in H. pose proof (Rle_0_sqr (orient a b p)). unfold Rsqr in *. lra.
Qed.

Theorem C79_crossing_edges g g' vs edges nb cpl vs' edges' nb' cpl' (t t' : tree2d (T:=R)) :
  network_ok vs edges -> EdgeCellTree2d_init g vs edges nb cpl = Ok t ->
  network_ok vs' edges' -> EdgeCellTree2d_init g' vs' edges' nb' cpl' = Ok t' ->
  forall q q', Forall2 (fun ab e => edge_of vs e (fst ab) (snd ab)) q edges -> Forall2 (fun ab e => edge_of vs' e (fst ab) (snd ab)) q' edges' ->
  forall h cs n n', (4 <= cs)%nat -> (1 <= n)%nat -> (1 <= n')%nat ->
  exists rows rows', EdgeCellTree2d_intersect_edges h cs n t' q = Ok rows /\ EdgeCellTree2d_intersect_edges h cs n' t q' = Ok rows'
    /\ forall i j a b u v, nth_error q i = Some (a, b) -> nth_error q' j = Some (u, v) ->
         orient a b u * orient a b v < 0 -> orient u v a * orient u v b < 0 ->
         exists c c', In ((Z.of_nat i, Z.of_nat j), c) rows /\ In ((Z.of_nat j, Z.of_nat i), c') rows'
           /\ forall x y, c = Some x -> c' = Some y -> x = y /\ on_segment a b x /\ on_segment u v x.
Proof.
  intros M E M' E' q q' HF HF' h cs n n' Hcs Hn Hn'.
  destruct (C16_edge_intersect_edges_brute_force _ _ _ _ _ _ M' E' q) as (rows & H1 & _ & H3).
  destruct (C16_edge_intersect_edges_brute_force _ _ _ _ _ _ M E q') as (rows' & H1' & _ & H3').
  exists rows, rows'. split; [now apply H1|]. split; [now apply H1'|]. intros i j a b u v Ei Ej X Y.
  assert (A : forall (wv : list pt) es nbx cplx gx (tx : tree2d (T:=R)) qq k c d, network_ok wv es -> EdgeCellTree2d_init gx wv es nbx cplx = Ok tx ->
            Forall2 (fun ab e => edge_of wv e (fst ab) (snd ab)) qq es -> nth_error qq k = Some (c, d) -> edge_at_ (celltree_data tx) (Z.of_nat k) c d).
  { clear. intros wv es nbx cplx gx tx qq k c d M E HF Ek. pose proof (init_built_edges _ _ _ _ _ _ M E) as Hb.
    destruct (Forall2_nth_l _ _ _ _ _ HF Ek) as (e & Ee & Hed). cbn [fst snd] in Hed. unfold edge_at_.
    rewrite (be_elements _ _ _ _ Hb), (be_vertices _ _ _ _ Hb), Nat2Z.id. split; [lia|eauto]. }
  destruct (C21_crossing_found a b u v X Y) as (s1 & s2 & S1 & S2 & P1 & L1).
  destruct (C21_crossing_found u v a b Y X) as (r2 & r1 & R2 & R1 & P2 & L2).
  eexists. eexists. split; [apply H3; exists a, b; split; [lia|]; split; [now rewrite Nat2Z.id|]; exists u, v; split; [exact (A _ _ _ _ _ _ _ _ _ _ M' E' HF' Ej)|exact L1]|].
  split; [apply H3'; exists u, v; split; [lia|]; split; [now rewrite Nat2Z.id|]; exists a, b; split; [exact (A _ _ _ _ _ _ _ _ _ _ M E HF Ei)|exact L2]|].
  intros x y Hx Hy. destruct (Rlt_bool _ _) in Hx; [discriminate|]. destruct (Rlt_bool _ _) in Hy; [discriminate|]. injection Hx as <-. injection Hy as <-.
  split; [eapply at_unique; eauto|]. split; [exists s1; split; [lra|reflexivity]|exists s2; split; [lra|exact P1]].
Qed.

(** ** In binary64 the areas depend on which mesh is in the tree *)
Open Scope Z_scope.
Definition one_face : list (list Z) := [[0; 1; 2]].
Definition tri_a : list (point b64) := map ptZ [(0, 0); (7, 1); (3, 5)].
Definition tri_b : list (point b64) := map ptZ [(1, 0); (6, 3); (0, 4)].
Lemma tri_mesh (a b c : point b64) : finite_point a -> finite_point b -> finite_point c -> mesh_ok (T:=b64) [a; b; c] one_face (-1).
Proof. intros. constructor; [auto|discriminate|]. repeat constructor; simpl; lia. Qed.

Definition compare_areas (r r' : res (list (Z * Z * b64))) : option bool :=
  match r, r' with
  | Ok [((0, 0), x)], Ok [((0, 0), y)] => Some (neqb x y)
  | _, _ => None
  end.
Lemma compare_areas_some r r' v : compare_areas r r' = Some v -> exists x y, r = Ok [((0, 0), x)] /\ r' = Ok [((0, 0), y)] /\ neqb x y = v.
Proof.
  unfold compare_areas. intros H. destruct r as [[|(([|p|p], [|q|q]), x) [|]]|e]; try discriminate H.
  destruct r' as [[|(([|p|p], [|q|q]), y) [|]]|e]; try discriminate H. exists x, y. split; auto. split; auto. now injection H.
Qed.
Definition two_areas (t t' : tree2d (T:=b64)) : option bool :=
  compare_areas (CellTree2d_intersect_faces g0 1 t' tri_a one_face (-1)) (CellTree2d_intersect_faces g0 1 t tri_b one_face (-1)).

Theorem C79_area_refuted : exists vs vs' faces (t t' : tree2d (T:=b64)) x y,
  mesh_ok vs faces (-1) /\ CellTree2d_init g0 vs faces (-1) 4 2 = Ok t
  /\ mesh_ok vs' faces (-1) /\ CellTree2d_init g0 vs' faces (-1) 4 2 = Ok t'
  /\ CellTree2d_intersect_faces g0 1 t' vs faces (-1) = Ok [((0, 0), x)]
  /\ CellTree2d_intersect_faces g0 1 t vs' faces (-1) = Ok [((0, 0), y)]
  /\ neqb x y = false.
Proof.
  destruct (CellTree2d_init (T:=b64) g0 tri_a one_face (-1) 4 2) as [t|e] eqn:E.
  2:{ exfalso. assert (S : of_ok (CellTree2d_init (T:=b64) g0 tri_a one_face (-1) 4 2) (fun _ => tt) = Some tt) by (vm_compute; reflexivity).
      rewrite E in S. discriminate S. }
  destruct (CellTree2d_init (T:=b64) g0 tri_b one_face (-1) 4 2) as [t'|e] eqn:E'.
  2:{ exfalso. assert (S : of_ok (CellTree2d_init (T:=b64) g0 tri_b one_face (-1) 4 2) (fun _ => tt) = Some tt) by (vm_compute; reflexivity).
      rewrite E' in S. discriminate S. }
  assert (S : two_areas t t' = Some false).
  { apply (of_ok_some _ (fun t' => two_areas t t') _ _ E').
    apply (of_ok_some _ (fun t => of_ok (CellTree2d_init (T:=b64) g0 tri_b one_face (-1) 4 2) (fun t' => two_areas t t')) _ _ E). vm_compute. reflexivity. }
  apply compare_areas_some in S as (x & y & X & Y & S).
  exists tri_a, tri_b, one_face, t, t', x, y. split; [apply tri_mesh; split; vm_compute; reflexivity|]. split; [exact E|].
  split; [apply tri_mesh; split; vm_compute; reflexivity|]. split; [exact E'|]. split; [exact X|]. split; [exact Y|exact S].
Qed.

(** ** In binary64 a sliver is not found when it is queried with itself *)
Definition sliver : list (point b64) := map ptZ [(0, 0); (165580141, 102334155); (267914296, 165580141)].
Definition self_pairs (t : tree2d (T:=b64)) : option (list (Z * Z)) :=
  match CellTree2d_locate_faces g0 1 t sliver one_face with Ok (p, _) => Some p | Err _ => None end.

Theorem C79_self_refuted : exists a b c faces (t : tree2d (T:=b64)) q,
  mesh_ok (map ptZ [a; b; c]) faces (-1) /\ faces = [[0; 1; 2]]
  (* twice the area of the triangle *)
  /\ (fst b - fst a) * (snd c - snd a) - (fst c - fst a) * (snd b - snd a) = 1
  /\ CellTree2d_init g0 (map ptZ [a; b; c]) faces (-1) 4 2 = Ok t
  /\ CellTree2d_locate_faces g0 1 t (map ptZ [a; b; c]) faces = Ok ([], q).
Proof.
  destruct (CellTree2d_init (T:=b64) g0 sliver one_face (-1) 4 2) as [t|e] eqn:E.
  2:{ exfalso. assert (S : of_ok (CellTree2d_init (T:=b64) g0 sliver one_face (-1) 4 2) (fun _ => tt) = Some tt) by (vm_compute; reflexivity).
      rewrite E in S. discriminate S. }
  assert (S : self_pairs t = Some []) by (apply (of_ok_some _ _ _ _ E); vm_compute; reflexivity).
  unfold self_pairs in S. destruct (CellTree2d_locate_faces g0 1 t sliver one_face) as [(p, q)|e] eqn:X; [|discriminate S]. injection S as ->.
  exists (0, 0), (165580141, 102334155), (267914296, 165580141), one_face, t, q.
  split; [apply tri_mesh; split; vm_compute; reflexivity|]. split; [reflexivity|]. split; [reflexivity|]. split; [exact E|exact X].
Qed.

(** ** Edges: the tolerance is taken from the edge in the tree, so the answer
    depends on which network is in the tree *)
Definition short_a : point b64 := ptZ (0, 0).
Definition short_b : point b64 := ptZ (2 ^ 20, 2 ^ 19).
Definition long_a : point b64 := ptZ (0, 100).
Definition long_b : point b64 := ptZ (2 ^ 50, 2 ^ 49).
Definition found (t : tree2d (T:=b64)) (a b : point b64) : option (list (Z * Z)) :=
  match EdgeCellTree2d_intersect_edges g0 20 1 t [(a, b)] with Ok r => Some (map fst r) | Err _ => None end.

Lemma one_edge (a b : point b64) : forallb (fun p => smallb (px p) && smallb (py p)) [a; b] = true ->
  finite_point a -> finite_point b -> network_ok (T:=b64) [a; b] [[0; 1]].
Proof.
  intros H Ha Hb. constructor.
  - auto.
  - discriminate.
  - repeat constructor; simpl; try lia; try (eexists; eexists; split; [reflexivity|lia]).
  - intros tol. apply moderate_room. unfold moderate. rewrite forallb_forall in H. rewrite Forall_forall. intros p Hp.
    apply H in Hp. apply andb_prop in Hp as (A & B). split; now apply smallb_bounded.
Qed.

Lemma found_some t a b y : found t a b = Some y ->
  exists r, EdgeCellTree2d_intersect_edges g0 20 1 t [(a, b)] = Ok r /\ map fst r = y.
Proof.
  unfold found. destruct (EdgeCellTree2d_intersect_edges g0 20 1 t [(a, b)]) as [r|e]; [|discriminate].
  intros H. injection H as H. exists r. split; [reflexivity|exact H].
Qed.

Lemma ok_ex {A} (m : res A) : of_ok m (fun _ => tt) = Some tt -> exists t, m = Ok t.
Proof. destruct m as [t|e]; [|discriminate]. intros _. exists t. reflexivity. Qed.

Lemma map_nil {A B} (f : A -> B) l : map f l = [] -> l = [].
Proof. destruct l; [reflexivity|discriminate]. Qed.

Lemma short_ok : network_ok (T:=b64) [short_a; short_b] [[0; 1]].
Proof. apply one_edge; [|split|split]; vm_compute; reflexivity. Qed.

Lemma long_ok : network_ok (T:=b64) [long_a; long_b] [[0; 1]].
Proof. apply one_edge; [|split|split]; vm_compute; reflexivity. Qed.

Lemma short_tree : exists t, EdgeCellTree2d_init (T:=b64) g0 [short_a; short_b] [[0; 1]] 4 2 = Ok t.
Proof. apply ok_ex. vm_compute. reflexivity. Qed.

Lemma long_tree : exists t, EdgeCellTree2d_init (T:=b64) g0 [long_a; long_b] [[0; 1]] 4 2 = Ok t.
Proof. apply ok_ex. vm_compute. reflexivity. Qed.

Lemma long_missed t : EdgeCellTree2d_init (T:=b64) g0 [short_a; short_b] [[0; 1]] 4 2 = Ok t -> found t long_a long_b = Some [].
Proof. intros E. apply (of_ok_some _ (fun t => found t long_a long_b) _ _ E). vm_compute. reflexivity. Qed.

Lemma short_found t : EdgeCellTree2d_init (T:=b64) g0 [long_a; long_b] [[0; 1]] 4 2 = Ok t -> found t short_a short_b = Some [(0, 0)].
Proof. intros E. apply (of_ok_some _ (fun t => found t short_a short_b) _ _ E). vm_compute. reflexivity. Qed.

Theorem C79_edges_refuted : exists a b p q (t t' : tree2d (T:=b64)) r,
  network_ok [a; b] [[0; 1]] /\ EdgeCellTree2d_init g0 [a; b] [[0; 1]] 4 2 = Ok t
  /\ network_ok [p; q] [[0; 1]] /\ EdgeCellTree2d_init g0 [p; q] [[0; 1]] 4 2 = Ok t'
  /\ EdgeCellTree2d_intersect_edges g0 20 1 t' [(a, b)] = Ok r /\ map fst r = [(0, 0)]
  /\ EdgeCellTree2d_intersect_edges g0 20 1 t [(p, q)] = Ok [].
Proof.
  destruct short_tree as (t & E). destruct long_tree as (t' & E').
  destruct (found_some _ _ _ _ (long_missed t E)) as (r & X & S).
  destruct (found_some _ _ _ _ (short_found t' E')) as (r' & X' & S').
  apply map_nil in S. rewrite S in X.
  exists short_a, short_b, long_a, long_b, t, t', r'.
  exact (conj short_ok (conj E (conj long_ok (conj E' (conj X' (conj S' X)))))).
Qed.

(** ** Examples *)
(** binary64: two triangles, found both ways *)
Example C79_example : exists (t t' : tree2d (T:=b64)) q q',
  mesh_ok tri_a one_face (-1) /\ CellTree2d_init g0 tri_a one_face (-1) 4 2 = Ok t
  /\ mesh_ok tri_b one_face (-1) /\ CellTree2d_init g0 tri_b one_face (-1) 4 2 = Ok t'
  /\ CellTree2d_locate_faces g0 1 t' tri_a one_face = Ok ([(0, 0)], q) /\ CellTree2d_locate_faces g0 1 t tri_b one_face = Ok ([(0, 0)], q').
Proof.
  assert (H : exists t, CellTree2d_init (T:=b64) g0 tri_a one_face (-1) 4 2 = Ok t) by (apply ok_ex; vm_compute; reflexivity).
  assert (H' : exists t, CellTree2d_init (T:=b64) g0 tri_b one_face (-1) 4 2 = Ok t) by (apply ok_ex; vm_compute; reflexivity).
  destruct H as (t & E). destruct H' as (t' & E').
  assert (S : CellTree2d_locate_faces g0 1 t' tri_a one_face = Ok ([(0, 0)], one_face))
    by (apply (of_ok_some _ (fun t' => CellTree2d_locate_faces g0 1 t' tri_a one_face) _ _ E'); vm_compute; reflexivity).
  assert (S' : CellTree2d_locate_faces g0 1 t tri_b one_face = Ok ([(0, 0)], one_face))
    by (apply (of_ok_some _ (fun t => CellTree2d_locate_faces g0 1 t tri_b one_face) _ _ E); vm_compute; reflexivity).
  exists t, t', one_face, one_face. split; [apply tri_mesh; split; vm_compute; reflexivity|]. split; [exact E|].
  split; [apply tri_mesh; split; vm_compute; reflexivity|]. split; [exact E'|]. split; [exact S|exact S'].
Qed.
(** exact reals: the pipe from (2,2) to (3,0) crosses the edge from (2,1) to (3,1) *)
Example C79_crossing_example : exists t t' q q',
  network_ok (T:=R) grid pipes /\ EdgeCellTree2d_init (T:=R) g0 grid pipes 4 2 = Ok t
  /\ network_ok (T:=R) grid [[6; 7]] /\ EdgeCellTree2d_init (T:=R) g0 grid [[6; 7]] 4 2 = Ok t'
  /\ Forall2 (fun ab e => edge_of (T:=R) grid e (fst ab) (snd ab)) q pipes /\ Forall2 (fun ab e => edge_of (T:=R) grid e (fst ab) (snd ab)) q' [[6; 7]]
  /\ exists a b u v, nth_error q 4 = Some (a, b) /\ nth_error q' 0 = Some (u, v)
       /\ (orient a b u * orient a b v < 0)%R /\ (orient u v a * orient u v b < 0)%R.
Proof.
  assert (M' : network_ok (T:=R) grid [[6; 7]]).
  { pose proof pipes_network_R as [A B C D]. constructor; [exact A|discriminate| |exact D].
    repeat constructor; simpl; try lia; try (eexists; eexists; split; [reflexivity|lia]). }
  destruct C04_network_example as (t & E).
  destruct (C04_network_succeeds g0 grid [[6; 7]] 4 2 M') as (t' & E'); [lia|lia|pose proof FMAX_big; change (IZR (4 * zlen [[6; 7]])) with 4%R; lra|].
  exists t, t', (map (fun e => (ptZ (fst e), ptZ (snd e))) [((0,0),(1,0)); ((1,0),(1,1)); ((1,1),(2,1)); ((2,1),(2,2)); ((2,2),(3,0)); ((0,2),(1,2))]), [(ptZ (2, 1), ptZ (3, 1))].
  split; [exact pipes_network_R|]. split; [exact E|]. split; [exact M'|]. split; [exact E'|].
  split; [unfold pipes; repeat constructor; eexists; eexists; (split; [reflexivity|]); repeat split; try lia; reflexivity|].
  split; [repeat constructor; eexists; eexists; (split; [reflexivity|]); repeat split; try lia; reflexivity|].
  exists (ptZ (2, 2)), (ptZ (3, 0)), (ptZ (2, 1)), (ptZ (3, 1)). split; [reflexivity|]. split; [reflexivity|].
  unfold orient. cbn. lra.
Qed.

Print Assumptions C79_locate_boxes.
Print Assumptions C79_locate_faces.
Print Assumptions C79_crossing_edges.
Print Assumptions C79_area_refuted.
Print Assumptions C79_self_refuted.
Print Assumptions C79_edges_refuted.
