(** C58: padding of the face array and the queries. *)
From Coq Require Import Reals Lra.
From Verif Require Import RBase NumB64 MUtils MGeometry MCreation MAlgorithms MQuery MCelltree SpecTree SpecQuery SpecApi PQuery PMesh PInit NumSub
  PApi PFaces PSmall PPad SpecMesh SpecGeom SpecPoly GTriangle GConvex GHull Examples PropSmall PropPoints PropEdges PropWach.

Section Any.
  Context {T : Type} {NT : Num T} {NO : NumOrd T}.
  Open Scope Z_scope.

  (** two face arrays with the same faces: other fill value, other number of columns *)
  Definition same_mesh (faces : list (list Z)) (fill : Z) (faces' : list (list Z)) (fill' : Z) : Prop :=
    Forall2 (fun f f' => until_fill (with_fill fill f) = until_fill (with_fill fill' f')) faces faces'.

  Lemma same_face_length f f' : same_face f f' -> length f' = length f.
  Proof.
    intros (E & H). assert (L : length (until_fill f') = length (until_fill f)) by (destruct H as [->| ->]; rewrite ?rev_length; auto).
    rewrite (until_fill_prefix f), (until_fill_prefix f'), !app_length, L, E. reflexivity.
  Qed.
  Lemma init_width g (vs : list (point T)) faces fill nb cpl t m : mesh_ok vs faces fill ->
    CellTree2d_init g vs faces fill nb cpl = Ok t -> Forall (fun f => length f = m) faces ->
    Forall (fun f => length f = m) (elements (celltree_data t)).
  Proof.
    intros H E F. pose proof (bt_elements _ _ _ _ _ (init_built _ _ _ _ _ _ _ H E)) as B. apply Forall_forall. intros f Hf.
    apply In_nth_error in Hf as (k & En). destruct (Forall2_nth_r _ _ _ _ _ B En) as (f0 & En0 & HS).
    rewrite (same_face_length _ _ HS). apply nth_error_In in En0. apply in_map_iff in En0 as (f1 & <- & I).
    unfold with_fill. rewrite map_length. rewrite Forall_forall in F. auto.
  Qed.

  (** ** C58: no query depends on how the faces are padded *)
  Theorem C58_padding_answers g (vs : list (point T)) faces fill faces' fill' nb cpl t t' :
    mesh_ok vs faces fill -> mesh_ok vs faces' fill' -> same_mesh faces fill faces' fill' ->
    CellTree2d_init g vs faces fill nb cpl = Ok t -> CellTree2d_init g vs faces' fill' nb cpl = Ok t' ->
    (forall g points tol, CellTree2d_locate_points g t points tol = CellTree2d_locate_points g t' points tol)
    /\ (forall g n boxes, CellTree2d_locate_boxes g n t boxes = CellTree2d_locate_boxes g n t' boxes)
    /\ (forall g n boxes, CellTree2d_intersect_boxes g n t boxes = CellTree2d_intersect_boxes g n t' boxes)
    /\ (forall g csfuel n queries, CellTree2d_intersect_edges g csfuel n t queries = CellTree2d_intersect_edges g csfuel n t' queries)
    (* faces given to a query: any padding with -1 for locate_faces, any fill value for intersect_faces *)
    /\ (forall g n vs_ q q', Forall (wf_face (length vs_)) q -> Forall (wf_face (length vs_)) q' -> same_mesh q (-1) q' (-1) ->
          match CellTree2d_locate_faces g n t vs_ q, CellTree2d_locate_faces g n t' vs_ q' with
          | Ok (pairs, _), Ok (pairs', _) => pairs = pairs'
          | Err e, Err e' => e = e'
          | _, _ => False
          end)
    /\ (forall g n vs_ q fill q' fill', Forall (wf_face (length vs_)) (map (with_fill fill) q) ->
          Forall (wf_face (length vs_)) (map (with_fill fill') q') -> same_mesh q fill q' fill' ->
          CellTree2d_intersect_faces g n t vs_ q fill = CellTree2d_intersect_faces g n t' vs_ q' fill')
    (* weights: followed by more or fewer zeros *)
    /\ (forall g m m' points tol, (3 < m)%nat -> (3 < m')%nat ->
          Forall (fun f => length f = m) faces -> Forall (fun f => length f = m') faces' ->
          match CellTree2d_compute_barycentric_weights g t m points tol, CellTree2d_compute_barycentric_weights g t' m' points tol with
          | Ok (ix, rows), Ok (ix', rows') => ix = ix'
              /\ Forall2 (fun r r' => exists w k k', r = w ++ repeat (nofZ 0) k /\ r' = w ++ repeat (nofZ 0) k') rows rows'
          | Err e, Err e' => e = e'
          | _, _ => False
          end).
  Proof.
    intros H H' HS E E'. pose proof (init_pad _ _ _ _ _ _ _ _ _ _ (mo_faces _ _ _ H) (mo_faces _ _ _ H') HS E E') as HP.
    assert (PF : forall nv q fl q' fl', Forall (wf_face nv) (map (with_fill fl) q) -> Forall (wf_face nv) (map (with_fill fl') q') ->
      same_mesh q fl q' fl' -> pad_faces nv (map (with_fill fl) q) (map (with_fill fl') q')).
    { intros nv q fl q' fl' W W' S. induction S as [|f f' l l' Ef _ IH]; cbn in *; constructor.
      - inversion W; inversion W'; subst. auto.
      - inversion W; inversion W'; subst. apply IH; auto. }
    split; [intros; now apply locate_points_pad|]. split; [intros; now apply locate_boxes_pad|].
    split; [intros; now apply intersect_boxes_pad|]. split; [intros; now apply intersect_edges_pad|]. split; [|split].
    - intros g1 n vs_ q q' W W' S.
      assert (I : forall l, map (with_fill (-1)) l = l).
      { intros l. rewrite <- (map_id l) at 2. apply map_ext. intros f. unfold with_fill. rewrite <- (map_id f) at 2. apply map_ext.
        intros i. destruct (Z.eqb_spec i (-1)); auto. }
      assert (P : pad_faces (length vs_) q q') by (rewrite <- (I q), <- (I q'); apply PF; rewrite ?I; auto).
      pose proof (locate_faces_pad g1 n t t' vs_ q q' HP P) as L.
      destruct (CellTree2d_locate_faces g1 n t vs_ q) as [(x, y)|], (CellTree2d_locate_faces g1 n t' vs_ q') as [(x', y')|]; tauto.
    - intros g1 n vs_ q fl q' fl' W W' S. apply intersect_faces_pad; auto.
    - intros g1 m m' pts tol Hm Hm' Fm Fm'.
      apply (weights_pad g1 t t' m m' pts tol HP Hm Hm').
      + exact (init_width _ _ _ _ _ _ _ m H E Fm).
      + exact (init_width _ _ _ _ _ _ _ m' H' E' Fm').
  Qed.
End Any.

Open Scope R_scope.

(** ** C58: triangles in an array with more columns

    Then the general weights are computed instead of those of a triangle. In exact
    arithmetic they are the same. *)
Theorem C58_triangle_wachspress a b c p tol m : 0 < orient a b c -> in_triangle a b c p -> 0 < tol -> (3 <= m)%nat ->
  (forall u v, In (u, v) (poly_edges [a; b; c]) -> line_near tol u v p -> on_segment u v p) ->
  exists u v w, triangle_weights a b c p = Ok (u, v, w)
    /\ wachspress_weights [a; b; c] p (repeat 0 m) tol = Ok ([u; v; w] ++ repeat 0 (m - 3)).
Proof.
  intros HO HI Ht Hm HN.
  assert (HC : convex_ccw [a; b; c]) . 
  { assert (O2 : 0 < orient b c a) by (unfold orient in *; lra). assert (O3 : 0 < orient c a b) by (unfold orient in *; lra).
    split; [cbn; lia|]. split.
    - repeat constructor; cbn; intros H; repeat destruct H as [H|H]; try contradiction; subst; unfold orient in HO; lra.
    - intros x y z He Hz Nx Ny. cbn in He, Hz. destruct He as [E|[E|[E|[]]]]; inversion E; subst x y;
        destruct Hz as [<-|[<-|[<-|[]]]]; try congruence; auto. }
  assert (Hh : hull [a; b; c] p) by (eapply (hull_triangle _ a b c); eauto; cbn; tauto).
  destruct (C30_triangle_weights a b c p ltac:(lra)) as (u & v & w & E & S & HT). destruct (HT HI) as (P1 & P2 & P3 & Ep).
  destruct (C31_wachspress_convex [a; b; c] p tol m HC Hh Ht Hm HN) as (ws & Ew & L & HP & HS & Hc & HZ).
  exists u, v, w. split; auto. rewrite Ew. f_equal.
  destruct ws as [|x [|y [|z rest]]]; cbn in L; try lia.
  assert (Er : rest = repeat 0 (m - 3)).
  { replace (m - 3)%nat with (length rest) by lia. clear - HZ. assert (G : forall r, In r rest -> r = 0).
    { intros r Hr. apply In_nth_error in Hr as (k & Ek). apply (HZ (3 + k)%nat r); [cbn; lia|exact Ek]. }
    clear HZ. induction rest as [|r rest IH]; cbn; auto. rewrite (G r) by now left. f_equal. apply IH. intros r' Hr'. apply G. now right. }
  assert (S0 : sumR rest = 0). { rewrite Er. clear. induction (m - 3)%nat; cbn; lra. }
  cbn [sumR] in HS. rewrite S0 in HS. unfold comb in Hc. cbn [combine map sumR fst snd] in Hc.
  assert (C : combine rest ([] : list pt) = []) by (destruct rest; reflexivity).
  rewrite C in Hc. cbn [map sumR] in Hc. rewrite Ep in Hc. injection Hc as Hx Hy.
  unfold orient in HO.
  set (D := (px b - px a) * (py c - py a) - (py b - py a) * (px c - px a)) in *.
  assert (Ex : x = 1 - y - z) by lra. assert (Eu : u = 1 - v - w) by lra. subst x u.
  assert (X1 : (y - v) * (px b - px a) + (z - w) * (px c - px a) = 0) by lra.
  assert (Y1 : (y - v) * (py b - py a) + (z - w) * (py c - py a) = 0) by lra.
  assert (Ey : (y - v) * D = 0).
  { unfold D. replace ((y - v) * _) with (((y - v) * (px b - px a) + (z - w) * (px c - px a)) * (py c - py a)
      - ((y - v) * (py b - py a) + (z - w) * (py c - py a)) * (px c - px a)) by ring. rewrite X1, Y1. ring. }
  assert (Ez : (z - w) * D = 0).
  { unfold D. replace ((z - w) * _) with (((y - v) * (py b - py a) + (z - w) * (py c - py a)) * (px b - px a)
      - ((y - v) * (px b - px a) + (z - w) * (px c - px a)) * (py b - py a)) by ring. rewrite X1, Y1. ring. }
  apply Rmult_integral in Ey as [Ey|Ey]; [|lra]. apply Rmult_integral in Ez as [Ez|Ez]; [|lra].
  cbn [app]. rewrite <- Er. repeat f_equal; lra.
Qed.

(** ** C58: locate_faces has no fill value

    Its docstring asks for faces padded with [fill_value], as intersect_faces does,
    but it takes -1 only: other fill values are read as vertex numbers, counted from
    the end of the vertex array. *)
Definition fill_query : list (point b64) := map ptZ [(3, 2); (0, 0); (1, 0); (0, 1)]%Z.

Theorem C58_locate_faces_fill_refuted g g' : exists (vs_ : list (point b64)) t,
  CellTree2d_init g grid grid_faces (-1) 4 2 = Ok t
  (* a triangle in the first face; the padding is documented *)
  /\ faces_ok vs_ (map (with_fill (-4)) [[1; 2; 3; -4]]%Z)
  /\ (exists area, CellTree2d_intersect_faces g' 1 t vs_ [[1; 2; 3; -4]]%Z (-4) = Ok [((0, 0)%Z, area)])
  /\ (exists pairs h, CellTree2d_locate_faces g' 1 t vs_ [[1; 2; 3; -4]]%Z = Ok (pairs, h) /\ In (0, 6)%Z pairs)
  (* with the usual fill value of UGRID files the read is out of bounds *)
  /\ (exists area, CellTree2d_intersect_faces g' 1 t vs_ [[1; 2; 3; -999]]%Z (-999) = Ok [((0, 0)%Z, area)])
  /\ CellTree2d_locate_faces g' 1 t vs_ [[1; 2; 3; -999]]%Z = Err EIndex.
Proof.
  exists fill_query.
  assert (A : match CellTree2d_init g grid grid_faces (-1) 4 2 with
    | Ok t => match CellTree2d_intersect_faces g' 1 t fill_query [[1; 2; 3; -4]]%Z (-4),
                    CellTree2d_intersect_faces g' 1 t fill_query [[1; 2; 3; -999]]%Z (-999),
                    CellTree2d_locate_faces g' 1 t fill_query [[1; 2; 3; -4]]%Z,
                    CellTree2d_locate_faces g' 1 t fill_query [[1; 2; 3; -999]]%Z with
              | Ok [((0, 0)%Z, _)], Ok [((0, 0)%Z, _)], Ok (pairs, _), Err EIndex => existsb (fun ij => (fst ij =? 0) && (snd ij =? 6))%Z pairs
              | _, _, _, _ => false
              end
    | Err _ => false end = true) by (vm_compute; reflexivity).
  destruct (CellTree2d_init g grid grid_faces (-1) 4 2) as [t|]; [|discriminate]. exists t. split; [reflexivity|]. split.
  { constructor; [repeat constructor|]. repeat constructor; cbn; lia. }
  destruct (CellTree2d_intersect_faces g' 1 t fill_query [[1; 2; 3; -4]]%Z (-4)) as [[|(([| |], [| |]), x) [|]]|]; try discriminate.
  destruct (CellTree2d_intersect_faces g' 1 t fill_query [[1; 2; 3; -999]]%Z (-999)) as [[|(([| |], [| |]), y) [|]]|]; try discriminate.
  destruct (CellTree2d_locate_faces g' 1 t fill_query [[1; 2; 3; -4]]%Z) as [(pairs, h)|]; try discriminate.
  destruct (CellTree2d_locate_faces g' 1 t fill_query [[1; 2; 3; -999]]%Z) as [(pairs', h')|[]]; try discriminate.
  apply existsb_exists in A as ((i, j) & HI & Hij). apply andb_prop in Hij as (H1 & H2). apply Z.eqb_eq in H1, H2. cbn in H1, H2. subst i j.
  split; [eauto|]. split; [eauto|]. split; [eauto|]. reflexivity.
Qed.

(** ** Examples *)

(** the grid with another fill value and another column; Examples.grid *)
Example C58_padding_example : exists t t', CellTree2d_init (T:=b64) g0 grid grid_faces (-1) 4 2 = Ok t
  /\ CellTree2d_init (T:=b64) g0 grid padded_faces 100 4 2 = Ok t'
  /\ elements (celltree_data t) <> elements (celltree_data t')
  /\ CellTree2d_locate_points g0 t [Pt (Zb 1) (Zb 1)] None = CellTree2d_locate_points g0 t' [Pt (Zb 1) (Zb 1)] None
  /\ forall g n boxes, CellTree2d_intersect_boxes g n t boxes = CellTree2d_intersect_boxes g n t' boxes.
Proof.
  destruct C34_example as (Hm & HS).
  assert (A : match CellTree2d_init (T:=b64) g0 grid grid_faces (-1) 4 2, CellTree2d_init (T:=b64) g0 grid padded_faces 100 4 2 with
    | Ok t, Ok t' => negb (length (hd [] (elements (celltree_data t))) =? length (hd [] (elements (celltree_data t'))))%nat | _, _ => false end = true) by (vm_compute; reflexivity).
  destruct (CellTree2d_init (T:=b64) g0 grid grid_faces (-1) 4 2) as [t|] eqn:E; [|discriminate].
  destruct (CellTree2d_init (T:=b64) g0 grid padded_faces 100 4 2) as [t'|] eqn:E'; [|discriminate].
  destruct (C58_padding_answers _ _ _ _ _ _ _ _ _ _ grid_mesh_B64 Hm HS E E') as (H1 & _ & H2 & _).
  exists t, t'. split; auto. split; auto. split; [|split; auto].
  intros X. rewrite X, Nat.eqb_refl in A. discriminate.
Qed.

Example C58_triangle_example : exists u v w,
  triangle_weights (Pt 0 0) (Pt 4 0) (Pt 0 4) (Pt 1 1) = Ok (u, v, w)
  /\ wachspress_weights [Pt 0 0; Pt 4 0; Pt 0 4] (Pt 1 1) (repeat 0 5) (/ 10) = Ok ([u; v; w] ++ repeat 0 2).
Proof.
  apply (C58_triangle_wachspress _ _ _ _ (/ 10) 5); try lra; try lia.
  - unfold orient. cbn. lra.
  - exists (/ 2), (/ 4), (/ 4). cbn. repeat split; lra.
  - intros u v He Hn. exfalso. unfold line_near, orient, dist2 in Hn. cbn in He.
    destruct He as [E|[E|[E|[]]]]; inversion E; subst; cbn in Hn; lra.
Qed.

Print Assumptions C58_padding_answers.
Print Assumptions C58_triangle_wachspress.
Print Assumptions C58_locate_faces_fill_refuted.
Print Assumptions C58_padding_example.
