(** C71: how the vertices are numbered, and which vertices no element uses. *)
From Coq Require Import Reals Lra.
From Flocq Require Import Core BinarySingleNaN.
From Verif Require Import RBase NumB64 NumRoom MUtils MGeometry MCreation MAlgorithms MQuery MCelltree SpecTree SpecQuery SpecApi PMesh PApi
  SpecNumber PNumber Examples.

Section Any.
  Context {T : Type} {NT : Num T} {NO : NumOrd T}.
  Open Scope Z_scope.

  (** the same tree but for the vertices and the elements *)
  Definition same_search (t t' : tree2d (T:=T)) : Prop :=
    nodes (celltree_data t) = nodes (celltree_data t') /\ bb_indices (celltree_data t) = bb_indices (celltree_data t')
    /\ bb_coords (celltree_data t) = bb_coords (celltree_data t') /\ bbox (celltree_data t) = bbox (celltree_data t')
    /\ bb_dist t = bb_dist t'.

  Lemma no_fill (l : list (list Z)) : map (with_fill (-1)) l = l.
  Proof.
    rewrite <- (map_id l) at 2. apply map_ext. intros f. unfold with_fill. rewrite <- (map_id f) at 2. apply map_ext.
    intros i. destruct (Z.eqb_spec i (-1)); auto.
  Qed.

  (** ** C71: meshes that list the same corners *)
  Theorem C71_numbering_faces g (vs : list (point T)) faces fill vs' faces' fill' nb cpl :
    mesh_ok vs faces fill -> mesh_ok vs' faces' fill' -> same_corners vs faces fill vs' faces' fill' ->
    match CellTree2d_init g vs faces fill nb cpl, CellTree2d_init g vs' faces' fill' nb cpl with
    | Err e, Err e' => e = e'
    | Ok t, Ok t' => same_search t t'
        (* the faces turned to run counter-clockwise have the same corners again *)
        /\ same_corners vs (elements (celltree_data t)) (-1) vs' (elements (celltree_data t')) (-1)
        /\ (forall g points tol, CellTree2d_locate_points g t points tol = CellTree2d_locate_points g t' points tol)
        /\ (forall g n boxes, CellTree2d_locate_boxes g n t boxes = CellTree2d_locate_boxes g n t' boxes)
        /\ (forall g n boxes, CellTree2d_intersect_boxes g n t boxes = CellTree2d_intersect_boxes g n t' boxes)
        /\ (forall g csfuel n queries, CellTree2d_intersect_edges g csfuel n t queries = CellTree2d_intersect_edges g csfuel n t' queries)
        (* the faces of a query may be numbered differently too *)
        /\ (forall g n ws q ws' q', Forall (wf_face (length ws)) q -> Forall (wf_face (length ws')) q' -> same_corners ws q (-1) ws' q' (-1) ->
              match CellTree2d_locate_faces g n t ws q, CellTree2d_locate_faces g n t' ws' q' with
              | Ok (pairs, _), Ok (pairs', _) => pairs = pairs'
              | Err e, Err e' => e = e'
              | _, _ => False
              end)
        /\ (forall g n ws q fl ws' q' fl', Forall (wf_face (length ws)) (map (with_fill fl) q) ->
              Forall (wf_face (length ws')) (map (with_fill fl') q') -> same_corners ws q fl ws' q' fl' ->
              CellTree2d_intersect_faces g n t ws q fl = CellTree2d_intersect_faces g n t' ws' q' fl')
        (* triangles and other faces; [m] is the number of columns, see C58 for other numbers of columns *)
        /\ (forall g m points tol, CellTree2d_compute_barycentric_weights g t m points tol = CellTree2d_compute_barycentric_weights g t' m points tol)
    | _, _ => False
    end.
  Proof.
    intros M M' HS. pose proof (init_like g vs faces fill vs' faces' fill' nb cpl (mo_faces _ _ _ M) (mo_faces _ _ _ M') HS) as B.
    destruct (CellTree2d_init g vs faces fill nb cpl) as [t|] eqn:E, (CellTree2d_init g vs' faces' fill' nb cpl) as [t'|] eqn:E'; try exact B.
    pose proof (bt_vertices _ _ _ _ _ (init_built _ _ _ _ _ _ _ M E)) as V. pose proof (bt_vertices _ _ _ _ _ (init_built _ _ _ _ _ _ _ M' E')) as V'. clear E E'.
    cbn [both] in B.
    split; [destruct B as (? & ? & ? & ? & ? & ? & ? & ? & ? & ? & ? & -> & -> & _); repeat split|].
    split.
    { destruct B as (es & es' & us & us' & nd & bi & bc & bb & c & bd & n & -> & -> & F). cbn [celltree_data vertices elements] in *. subst us us'.
      unfold same_corners. eapply F2_weaken; [|exact F]. intros f f' (_ & _ & poly & P & P').
      pose proof (no_fill [f]) as E. pose proof (no_fill [f']) as E'. cbn in E, E'. injection E as E. injection E' as E'. exists poly.
      now rewrite E, E'. }
    split; [intros; now apply locate_points_like|]. split; [intros; eapply locate_boxes_like; eauto|].
    split; [intros; now apply intersect_boxes_like|]. split; [intros; now apply intersect_edges_like|]. split; [|split].
    - intros g1 n ws q ws' q' W W' S. rewrite <- (no_fill q) in W. rewrite <- (no_fill q') in W'.
      pose proof (corners_twins ws q (-1) ws' q' (-1) W W' S) as P. rewrite !no_fill in P.
      pose proof (locate_faces_like g1 n t t' ws ws' q q' B P) as L. unfold both in L.
      destruct (CellTree2d_locate_faces g1 n t ws q) as [(x, y)|], (CellTree2d_locate_faces g1 n t' ws' q') as [(x', y')|]; tauto.
    - intros. now apply intersect_faces_like.
    - intros. now apply weights_like.
  Qed.

  (** new numbers for the vertices *)
  Lemma until_renumber (r : Z -> Z) n fill f : fill < 0 -> (forall i, 0 <= i < Z.of_nat n -> 0 <= r i) ->
    Forall (fun i => 0 <= i < Z.of_nat n) (until_fill (with_fill fill f)) ->
    until_fill (with_fill fill (renumber r f)) = map r (until_fill (with_fill fill f)).
  Proof.
    intros HF HR. induction f as [|i f IH]; auto. cbn. intros HU. destruct (Z.eqb_spec i fill) as [->|N].
    - destruct (Z.ltb_spec fill 0); [|lia]. now rewrite Z.eqb_refl.
    - destruct (Z.eqb_spec i (-1)) as [->|N1].
      + change (-1 <? 0) with true. cbv iota. destruct (-1 =? fill); reflexivity.
      + inversion HU; subst. destruct (Z.ltb_spec i 0); [lia|]. specialize (HR i ltac:(lia)).
        destruct (Z.eqb_spec (r i) fill); [lia|]. destruct (Z.eqb_spec (r i) (-1)); [lia|]. cbn. f_equal. apply IH; auto.
  Qed.

  Lemma skip_renumber (r : Z -> Z) fill f : fill < 0 -> forall k, Forall (fun i => i = -1) (skipn k (with_fill fill f)) ->
    Forall (fun i => i = -1) (skipn k (with_fill fill (renumber r f))).
  Proof.
    intros HF. induction f as [|i f IH]; intros [|k] H; cbn in *; auto.
    inversion H as [|? ? E HT]; subst. constructor.
    - destruct (Z.eqb_spec i fill) as [->|N]; [|subst].
      + destruct (Z.ltb_spec fill 0); [|lia]. now rewrite Z.eqb_refl.
      + change (-1 <? 0) with true. cbv iota. destruct (-1 =? fill); reflexivity.
    - apply (IH 0%nat). exact HT.
  Qed.

  Theorem C71_renumber (r : Z -> Z) (vs vs' : list (point T)) faces fill : mesh_ok vs faces fill -> renumbers r vs vs' ->
    Forall finite_point vs' -> fill < 0 ->
    mesh_ok vs' (map (renumber r) faces) fill /\ same_corners vs faces fill vs' (map (renumber r) faces) fill.
  Proof.
    intros M HR HV HF. pose proof (mo_faces _ _ _ M) as W.
    assert (HN : forall i, 0 <= i < Z.of_nat (length vs) -> 0 <= r i < Z.of_nat (length vs')).
    { intros i Hi. destruct (nth_error vs (Z.to_nat i)) as [p|] eqn:E; [|apply nth_error_None in E; lia].
      destruct (HR i p ltac:(lia) E) as (H0 & E'). split; auto. assert (Z.to_nat (r i) < length vs')%nat by (apply nth_error_Some; congruence). lia. }
    assert (HF1 : forall f, wf_face (length vs) (with_fill fill f) -> wf_face (length vs') (with_fill fill (renumber r f))
      /\ exists poly, poly_of vs (with_fill fill f) poly /\ poly_of vs' (with_fill fill (renumber r f)) poly).
    { intros f Wf. pose proof (until_renumber r (length vs) fill f HF ltac:(intros; now apply HN) (proj1 (proj2 (proj2 Wf)))) as EU. split.
      - destruct Wf as (W3 & WL & WR & WS). repeat split.
        + now rewrite EU, map_length.
        + unfold with_fill, renumber in *. now rewrite !map_length in *.
        + rewrite EU. apply Forall_map. eapply Forall_impl; [|exact WR]. auto.
        + rewrite EU, map_length. now apply skip_renumber.
      - destruct (poly_exists vs (with_fill fill f) (proj1 (proj2 (proj2 Wf)))) as (poly & P). exists poly. split; auto. unfold poly_of in *. rewrite EU.
        clear - P HR. induction P as [|i p l l' (H0 & E) _ IH]; cbn; constructor; auto. }
    split.
    - constructor; auto; [destruct faces; [now destruct (mo_nonempty _ _ _ M)|discriminate]|].
      rewrite map_map. apply Forall_map. rewrite Forall_map in W. eapply Forall_impl; [|exact W]. intros f Wf. now apply HF1.
    - unfold same_corners. rewrite Forall_map in W. clear - W HF1. induction W; cbn; constructor; auto. now apply HF1.
  Qed.

  (** vertices that no face uses, here after the others *)
  Theorem C71_unused_vertices (vs extra : list (point T)) faces fill : mesh_ok vs faces fill -> Forall finite_point extra ->
    mesh_ok (vs ++ extra) faces fill /\ same_corners vs faces fill (vs ++ extra) faces fill.
  Proof.
    intros M HE. pose proof (mo_faces _ _ _ M) as W. split.
    - constructor; [apply Forall_app; split; [exact (mo_vertices _ _ _ M)|exact HE]|exact (mo_nonempty _ _ _ M)|]. eapply Forall_impl; [|exact W].
      intros f (W3 & WL & WR & WS). split; [exact W3|]. split; [exact WL|]. split; [|exact WS].
      eapply Forall_impl; [|exact WR]. intros i. rewrite app_length. lia.
    - unfold same_corners. rewrite Forall_map in W. clear M. induction W as [|f l Wf _ IH]; constructor; auto.
      destruct (poly_exists vs (with_fill fill f) (proj1 (proj2 (proj2 Wf)))) as (poly & P). exists poly. split; auto. unfold poly_of in *.
      eapply F2_weaken; [|exact P]. cbn beta. intros i p (H0 & E). split; auto. rewrite nth_error_app1; auto. apply nth_error_Some. congruence.
  Qed.

  (** ** C71: networks that list the same end points

      The boxes of the edges are widened by the largest extent of all vertices times
      1e-12: here the vertices that no edge uses matter. *)
  Theorem C71_numbering_edges g (vs vs' : list (point T)) edges edges' nb cpl :
    network_ok vs edges -> network_ok vs' edges' -> same_ends vs edges vs' edges' ->
    (forall tol tol', extent_tol vs tol -> extent_tol vs' tol' -> tol = tol') ->
    match EdgeCellTree2d_init g vs edges nb cpl, EdgeCellTree2d_init g vs' edges' nb cpl with
    | Err e, Err e' => e = e'
    | Ok t, Ok t' => same_search t t'
        /\ (forall g points tol, EdgeCellTree2d_locate_points g t points tol = EdgeCellTree2d_locate_points g t' points tol)
        /\ (forall g n boxes, CellTree2d_locate_boxes g n t boxes = CellTree2d_locate_boxes g n t' boxes)
        /\ (forall g csfuel n queries, EdgeCellTree2d_intersect_edges g csfuel n t queries = EdgeCellTree2d_intersect_edges g csfuel n t' queries)
    | _, _ => False
    end.
  Proof.
    intros N N' HS HX. pose proof (init_edges_like g vs vs' edges edges' nb cpl N N' HS HX) as B.
    destruct (EdgeCellTree2d_init g vs edges nb cpl) as [t|], (EdgeCellTree2d_init g vs' edges' nb cpl) as [t'|]; try exact B.
    cbn [both] in B. split; [destruct B as (? & ? & ? & ? & ? & ? & ? & ? & ? & ? & ? & -> & -> & _); repeat split|].
    split; [intros; now apply edge_points_like|]. split; [intros; eapply locate_boxes_like; eauto|]. intros; now apply edge_edges_like.
  Qed.
End Any.

Open Scope R_scope.

(** ** C71: the same vertices in any order, repeated or not, have the same extent *)
Theorem C71_extent_R (vs vs' : list pt) tol tol' : incl vs vs' -> incl vs' vs -> extent_tol vs tol -> extent_tol vs' tol' -> tol = tol'.
Proof.
  intros I I' (x0 & x1 & y0 & y1 & A1 & A2 & A3 & A4 & F & ->) (x0' & x1' & y0' & y1' & B1 & B2 & B3 & B4 & F' & ->).
  rewrite Forall_forall in F, F'.
  assert (K : forall (f : pt -> R) u u', In u (map f vs) -> In u' (map f vs') ->
    exists p p', In p vs /\ In p vs' /\ In p' vs /\ In p' vs' /\ u = f p /\ u' = f p').
  { intros f u u' H H'. apply in_map_iff in H as (p & <- & H). apply in_map_iff in H' as (p' & <- & H'). exists p, p'. auto 10. }
  assert (E1 : x0 = x0').
  { destruct (K px x0 x0' A1 B1) as (p & p' & P1 & P2 & P3 & P4 & -> & ->). specialize (F p' P3). specialize (F' p P2). cbn in F, F'. rewrite ?Rleb_iff in F, F'. lra. }
  assert (E2 : x1 = x1').
  { destruct (K px x1 x1' A2 B2) as (p & p' & P1 & P2 & P3 & P4 & -> & ->). specialize (F p' P3). specialize (F' p P2). cbn in F, F'. rewrite ?Rleb_iff in F, F'. lra. }
  assert (E3 : y0 = y0').
  { destruct (K py y0 y0' A3 B3) as (p & p' & P1 & P2 & P3 & P4 & -> & ->). specialize (F p' P3). specialize (F' p P2). cbn in F, F'. rewrite ?Rleb_iff in F, F'. lra. }
  assert (E4 : y1 = y1').
  { destruct (K py y1 y1' A4 B4) as (p & p' & P1 & P2 & P3 & P4 & -> & ->). specialize (F p' P3). specialize (F' p P2). cbn in F, F'. rewrite ?Rleb_iff in F, F'. lra. }
  now subst.
Qed.

(** in binary64 the extents found first may be zeros of either sign: the tolerance is the same *)
Definition close0 (a b : b64) : Prop := a = b \/ exists s s', a = B754_zero s /\ b = B754_zero s'.

Lemma close0_le (a b : b64) : is_finite a = true -> is_finite b = true -> Bleb a b = true -> Bleb b a = true -> close0 a b.
Proof.
  intros Fa Fb H1 H2. rewrite Bleb_correct in H1, H2 by auto. apply Rleb_iff in H1, H2.
  assert (E : B2R a = B2R b) by lra. clear H1 H2.
  destruct a as [s| | |s m e h], b as [s'| | |s' m' e' h']; try discriminate.
  - right. eauto.
  - exfalso. cbn in E. symmetry in E. apply eq_0_F2R in E. destruct s'; discriminate.
  - exfalso. cbn in E. apply eq_0_F2R in E. destruct s; discriminate.
  - left. now apply B2R_inj.
Qed.
Lemma close0_sub (a a' b b' : b64) : close0 a a' -> close0 b b' -> close0 (nsub a b) (nsub a' b').
Proof.
  intros [->|(s & s' & -> & ->)] [->|(u & u' & -> & ->)]; [now left| | |].
  - destruct a' as [[]|[]| |]; try (now left); destruct u, u'; (now left) || (right; cbn; eauto).
  - destruct b' as [[]|[]| |[]]; try (now left); destruct s, s'; (now left) || (right; cbn; eauto).
  - right. destruct s, s', u, u'; cbn; eauto.
Qed.
Lemma close0_max (a a' b b' : b64) : close0 a a' -> close0 b b' -> close0 (nmax a b) (nmax a' b').
Proof.
  intros Ha Hb. unfold nmax. assert (E : nltb a b = nltb a' b'); [|rewrite E; now destruct (nltb a' b')].
  destruct Ha as [->|(s & s' & -> & ->)], Hb as [->|(u & u' & -> & ->)]; reflexivity.
Qed.
Lemma close0_mul (a b b' : b64) : is_finite a = true -> close0 b b' -> close0 (nmul a b) (nmul a b').
Proof. intros Fa [->|(u & u' & -> & ->)]; [now left|]. right. destruct a; try discriminate; cbn; eauto. Qed.

Theorem C71_extent_B64 (vs vs' : list (point b64)) tol tol' : Forall finite_point vs -> incl vs vs' -> incl vs' vs ->
  extent_tol vs tol -> extent_tol vs' tol' -> tol = tol'.
Proof.
  intros HV I I' (x0 & x1 & y0 & y1 & A1 & A2 & A3 & A4 & F & ->) (x0' & x1' & y0' & y1' & B1 & B2 & B3 & B4 & F' & ->).
  rewrite Forall_forall in F, F', HV.
  assert (K : forall (f : point b64 -> b64) u u', In u (map f vs) -> In u' (map f vs') ->
    exists p p', In p vs /\ In p vs' /\ In p' vs /\ In p' vs' /\ u = f p /\ u' = f p').
  { intros f u u' H H'. apply in_map_iff in H as (p & <- & H). apply in_map_iff in H' as (p' & <- & H'). exists p, p'. auto 10. }
  assert (E1 : close0 x0 x0').
  { destruct (K px x0 x0' A1 B1) as (p & p' & P1 & P2 & P3 & P4 & -> & ->). destruct (HV p P1), (HV p' P3). apply close0_le; auto; [apply (F p' P3)|apply (F' p P2)]. }
  assert (E2 : close0 x1 x1').
  { destruct (K px x1 x1' A2 B2) as (p & p' & P1 & P2 & P3 & P4 & -> & ->). destruct (HV p P1), (HV p' P3). apply close0_le; auto; [apply (F' p P2)|apply (F p' P3)]. }
  assert (E3 : close0 y0 y0').
  { destruct (K py y0 y0' A3 B3) as (p & p' & P1 & P2 & P3 & P4 & -> & ->). destruct (HV p P1), (HV p' P3). apply close0_le; auto; [apply (F p' P3)|apply (F' p P2)]. }
  assert (E4 : close0 y1 y1').
  { destruct (K py y1 y1' A4 B4) as (p & p' & P1 & P2 & P3 & P4 & -> & ->). destruct (HV p P1), (HV p' P3). apply close0_le; auto; [apply (F' p P2)|apply (F p' P3)]. }
  assert (FT : is_finite (@ntolfac b64 _) = true) by (vm_compute; reflexivity).
  pose proof (close0_mul ntolfac _ _ FT (close0_max _ _ _ _ (close0_sub _ _ _ _ E2 E1) (close0_sub _ _ _ _ E4 E3))) as C.
  destruct C as [->|(s & s' & -> & ->)]; reflexivity.
Qed.

(** ** C71: an unused vertex changes answers of a network

    Four upright edges. With a vertex far away, that no edge uses, a point at distance
    1/2 from the second edge is found for the tolerance 1, else it is not. *)
Lemma moderate_check (vs : list (point b64)) : forallb (fun p => smallb (px p) && smallb (py p)) vs = true -> moderate vs.
Proof.
  intros H. unfold moderate. rewrite forallb_forall in H. rewrite Forall_forall. intros p Hp.
  apply H in Hp. apply andb_prop in Hp as (X & Y). split; now apply smallb_bounded.
Qed.
Definition near_edge : list (point b64) := map ptZ [(0, 0); (0, 4); (10, 0); (10, 4); (20, 0); (20, 4); (30, 0); (30, 4)]%Z.
Definition far_away : point b64 := ptZ (1000000000000, 0)%Z.

Theorem C71_unused_vertex_network_refuted g : exists vs extra t t' p tol,
  network_ok (T:=b64) vs [[0; 1]; [2; 3]; [4; 5]; [6; 7]]%Z /\ network_ok (T:=b64) (vs ++ [extra]) [[0; 1]; [2; 3]; [4; 5]; [6; 7]]%Z
  /\ EdgeCellTree2d_init g vs [[0; 1]; [2; 3]; [4; 5]; [6; 7]]%Z 4 2 = Ok t /\ EdgeCellTree2d_init g (vs ++ [extra]) [[0; 1]; [2; 3]; [4; 5]; [6; 7]]%Z 4 2 = Ok t'
  /\ (forall g', EdgeCellTree2d_locate_points g' t [p] (Some tol) = Ok [-1]%Z)
  /\ (forall g', EdgeCellTree2d_locate_points g' t' [p] (Some tol) = Ok [1]%Z).
Proof.
  exists near_edge, far_away.
  assert (A : match EdgeCellTree2d_init g near_edge [[0; 1]; [2; 3]; [4; 5]; [6; 7]]%Z 4 2, EdgeCellTree2d_init g (near_edge ++ [far_away]) [[0; 1]; [2; 3]; [4; 5]; [6; 7]]%Z 4 2 with
    | Ok t, Ok t' => (forall g', EdgeCellTree2d_locate_points g' t [Pt (bf 21 (-1)) (Zb 1)] (Some (Zb 1)) = Ok [-1]%Z)
        /\ (forall g', EdgeCellTree2d_locate_points g' t' [Pt (bf 21 (-1)) (Zb 1)] (Some (Zb 1)) = Ok [1]%Z)
    | _, _ => False end) by (vm_compute; split; intros; reflexivity).
  assert (W : forall n, (8 <= n)%nat -> Forall (wf_edge n) [[0; 1]; [2; 3]; [4; 5]; [6; 7]]%Z).
  { intros n Hn. repeat constructor; eexists; eexists; (split; [reflexivity|lia]). }
  assert (M : moderate (near_edge ++ [far_away])).
  { apply moderate_check. vm_compute. reflexivity. }
  destruct (EdgeCellTree2d_init g near_edge [[0; 1]; [2; 3]; [4; 5]; [6; 7]]%Z 4 2) as [t|]; [|contradiction].
  destruct (EdgeCellTree2d_init g (near_edge ++ [far_away]) [[0; 1]; [2; 3]; [4; 5]; [6; 7]]%Z 4 2) as [t'|]; [|contradiction]. destruct A as (A & A').
  exists t, t', (Pt (bf 21 (-1)) (Zb 1)), (Zb 1). split; [|split; [|auto]].
  - constructor; [repeat constructor|discriminate|apply W; cbn; lia|]. intros tol. apply moderate_room.
    unfold moderate in *. now apply Forall_app in M.
  - constructor; [repeat constructor|discriminate|apply W; cbn; lia|]. intros tol. now apply moderate_room.
Qed.

(** ** C71: the hypotheses can be met *)
(* the vertices of the grid from last to first, the first one a second time, and an unused one *)
Definition grid_back {T} {NT : Num T} : list (point T) := rev grid ++ [ptZ (0, 0)%Z; ptZ (50, -3)%Z].
Definition back (i : Z) : Z := (11 - i)%Z.

Lemma grid_back_renumbers {T} {NT : Num T} : renumbers back (grid (T:=T)) grid_back.
Proof.
  intros i p H0 E. assert (Hi : (Z.to_nat i < 12)%nat) by (change 12%nat with (length (grid (T:=T))); apply nth_error_Some; congruence).
  unfold back. split; [lia|]. replace (Z.to_nat (11 - i)) with (11 - Z.to_nat i)%nat by lia.
  revert Hi E. generalize (Z.to_nat i). clear. intros n Hi E. do 12 (destruct n as [|n]; [exact E|]). lia.
Qed.

Theorem C71_example g : let faces' := map (renumber back) grid_faces in
  mesh_ok (T:=b64) grid grid_faces (-1) /\ mesh_ok (T:=b64) grid_back faces' (-1) /\ same_corners (T:=b64) grid grid_faces (-1) grid_back faces' (-1)
  (* the same grid with the first face listed with the repeated vertex *)
  /\ same_corners (T:=b64) grid [[0; 1; 5; 4]]%Z (-1) grid_back [[12; 10; 6; 7; -1]]%Z (-1)
  /\ match CellTree2d_init (T:=b64) g grid_back faces' (-1) 4 2 with Ok _ => true | Err _ => false end = true
  (* networks *)
  /\ network_ok (T:=b64) grid pipes /\ network_ok (T:=b64) (rev grid) (map (renumber back) pipes)
  /\ same_ends (T:=b64) grid pipes (rev grid) (map (renumber back) pipes)
  /\ (forall tol tol', extent_tol (T:=b64) grid tol -> extent_tol (T:=b64) (rev grid) tol' -> tol = tol').
Proof.
  intros faces'. pose proof grid_mesh_B64 as M.
  destruct (C71_renumber back grid grid_back grid_faces (-1) M grid_back_renumbers) as (M' & S); [repeat constructor|lia|].
  split; auto. split; auto. split; auto. split.
  { constructor; [|constructor]. exists (map ptZ [(0, 0); (1, 0); (1, 1); (0, 1)]%Z).
    split; repeat constructor; cbn; lia || reflexivity. }
  split; [vm_compute; reflexivity|]. split; [exact pipes_network_B64|].
  assert (W : Forall (wf_edge 12) (map (renumber back) pipes)).
  { repeat constructor; eexists; eexists; (split; [reflexivity|cbn; lia]). }
  split; [|split].
  - constructor; [repeat constructor|discriminate|exact W|]. intros tol. apply moderate_room.
    unfold moderate. apply Forall_rev. exact grid_moderate.
  - repeat constructor; eexists; eexists; (split; eexists; eexists; (split; [reflexivity|repeat split; cbn; lia || reflexivity])).
  - intros tol tol'. apply C71_extent_B64; [repeat constructor| |]; intros p Hp; [now apply in_rev in Hp|now apply in_rev].
Qed.

Print Assumptions C71_numbering_faces.
Print Assumptions C71_renumber.
Print Assumptions C71_unused_vertices.
Print Assumptions C71_numbering_edges.
Print Assumptions C71_extent_R.
Print Assumptions C71_extent_B64.
Print Assumptions C71_unused_vertex_network_refuted.
Print Assumptions C71_example.
