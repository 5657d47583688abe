(** C74: a mesh or network made of some of the faces or edges of another, in any
    order and possibly repeated (numpy's [faces[sel]]), answers every query as the
    whole does, restricted to the selected elements. *)
From Verif Require Import Base Num MUtils MGeometry MCreation MAlgorithms MQuery MCelltree
  PStack PPartition SpecTree PBuild PBuild2 PWalk PCollect SpecQuery PQuery PMesh PInit SpecApi
  PPoints PTreeFacts PApi PFaces PGarbage PSmall PEdges PEdgesAny NumR NumB64 NumSub Examples RBase GTreeEdges
  PParLoops PropEdges PropTree PropQueries.
From Coq Require Import Sorted Permutation.
Open Scope Z_scope.

(** [l' = l[sel]] *)
Definition picks {A} (l : list A) (sel : list Z) (l' : list A) : Prop :=
  Forall2 (fun j x => 0 <= j /\ nth_error l (Z.to_nat j) = Some x) sel l'.
(** [sel[j'] = j] *)
Definition sel_at (sel : list Z) (j' j : Z) : Prop := 0 <= j' /\ nth_error sel (Z.to_nat j') = Some j.

Lemma F2_nth_r {A B} (P : A -> B -> Prop) l l' k b : Forall2 P l l' -> nth_error l' k = Some b -> exists a, nth_error l k = Some a /\ P a b.
Proof. intros H. revert k. induction H; intros [|k] E; try discriminate; cbn in *; eauto. injection E as <-. eauto. Qed.

Section Picks.
  Context {A B : Type}.

  Lemma picks_nth (l : list A) sel l' j' x : picks l sel l' -> 0 <= j' ->
    nth_error l' (Z.to_nat j') = Some x <-> exists j, sel_at sel j' j /\ 0 <= j /\ nth_error l (Z.to_nat j) = Some x.
  Proof.
    intros H Hj. unfold sel_at. set (k := Z.to_nat j'). split.
    - intros E. destruct (F2_nth_r _ _ _ _ _ H E) as (j & Ej & H0 & En). exists j. auto.
    - intros (j & (_ & Ej) & H0 & En). destruct (Forall2_nth_l _ _ _ _ _ H Ej) as (y & Ey & _ & En'). congruence.
  Qed.
  Lemma sel_fun sel j' j1 j2 : sel_at sel j' j1 -> sel_at sel j' j2 -> j1 = j2.
  Proof. intros (_ & E1) (_ & E2). congruence. Qed.
  Lemma picks_in (l : list A) sel l' x : picks l sel l' -> In x l' -> In x l.
  Proof.
    intros H Hx. apply In_nth_error in Hx as (k & Ek). destruct (F2_nth_r _ _ _ _ _ H Ek) as (j & _ & _ & En). eapply nth_error_In; eauto.
  Qed.
  Lemma picks_map (f : A -> B) l sel l' : picks l sel l' -> picks (map f l) sel (map f l').
  Proof. unfold picks. induction 1 as [|j x sel l' (H0 & E) _ IH]; cbn; constructor; auto. split; auto. now apply map_nth_error. Qed.
  Lemma picks_mapres (f : A -> res B) l sel l' r r' : picks l sel l' -> mapres f l = Ok r -> mapres f l' = Ok r' -> picks r sel r'.
  Proof.
    intros H E E'. apply PCollect.mapres_inv in E, E'. revert r' E'. induction H as [|j x sel l' (H0 & En) _ IH]; intros r' E'; inversion E' as [|? y ? r2 Ey E2]; subst; constructor.
    - split; auto. destruct (Forall2_nth_l _ _ _ _ _ E En) as (y' & Ey' & F). rewrite Ey in F. now injection F as <-.
    - now apply IH.
  Qed.
  Lemma picks_nonneg (l : list A) sel l' j' j : picks l sel l' -> sel_at sel j' j -> 0 <= j.
  Proof. intros H (_ & E). destruct (Forall2_nth_l _ _ _ _ _ H E) as (y & _ & H0 & _). auto. Qed.
End Picks.

Section Any.
  Context {T : Type} {NT : Num T} {NO : NumOrd T} {NS : NumSub T}.
  Notation point := (point T).
  Notation tree2d := (tree2d (T:=T)).

  (** a selection of the faces of a mesh is a mesh *)
  Theorem C74_selection_ok (vs : list point) faces fill sel faces' : mesh_ok vs faces fill -> picks faces sel faces' -> sel <> [] -> mesh_ok vs faces' fill.
  Proof.
    intros M H Hne. constructor.
    - exact (mo_vertices _ _ _ M).
    - intros ->. inversion H. congruence.
    - pose proof (mo_faces _ _ _ M) as W. rewrite Forall_forall in W. apply Forall_forall. intros f Hf. apply W. eapply picks_in; [apply picks_map; exact H|exact Hf].
  Qed.

  Section Two.
    Variables (g g' : garbage T) (vs : list point) (faces faces' : list (list Z)) (sel : list Z) (fill nb cpl nb' cpl' : Z) (t t' : tree2d).
    Hypothesis Hm : mesh_ok vs faces fill.
    Hypothesis Hs : picks faces sel faces'.
    Hypothesis Hne : sel <> [].
    Hypothesis E : CellTree2d_init g vs faces fill nb cpl = Ok t.
    Hypothesis E' : CellTree2d_init g' vs faces' fill nb' cpl' = Ok t'.

    Lemma Hm' : mesh_ok vs faces' fill.
    Proof. eapply C74_selection_ok; eauto. Qed.

    Lemma sel_tree : vertices (celltree_data t') = vertices (celltree_data t) /\ picks (elements (celltree_data t)) sel (elements (celltree_data t'))
      /\ picks (bb_coords (celltree_data t)) sel (bb_coords (celltree_data t')).
    Proof.
      pose proof E as H. pose proof E' as H'. unfold CellTree2d_init in H, H'.
      apply bind_ok in H as (u & _ & H). apply bind_ok in H' as (u' & _ & H').
      assert (C : forall fs, mesh_ok vs fs fill -> cast_faces fs fill = Ok (map (with_fill fill) fs)).
      { intros fs M. apply cast_faces_ok. pose proof (mo_faces _ _ _ M) as W. rewrite Forall_map in W. eapply Forall_impl; [|exact W].
        intros f (_ & H32 & _). now rewrite with_fill_length in H32. }
      rewrite (C _ Hm) in H. rewrite (C _ Hm') in H'. cbn [bind] in H, H'. clear C.
      pose proof (picks_map (with_fill fill) _ _ _ Hs) as P0.
      apply bind_ok in H as (f2 & E2 & H). apply bind_ok in H' as (f2' & E2' & H').
      pose proof (picks_mapres _ _ _ _ _ _ P0 E2 E2') as P1.
      apply bind_ok in H as (f3 & E3 & H). apply bind_ok in H' as (f3' & E3' & H').
      pose proof (picks_mapres _ _ _ _ _ _ P1 E3 E3') as P2.
      apply bind_ok in H as ((n & i) & E4 & H). apply bind_ok in H' as ((n' & i') & E4' & H').
      apply bind_ok in H as (b & E5 & H). apply bind_ok in H' as (b' & E5' & H').
      injection H as <-. injection H' as <-. cbn. auto.
    Qed.

    Lemma sel_poly j' b : tree_poly t' j' b <-> exists j, sel_at sel j' j /\ tree_poly t j b.
    Proof.
      destruct sel_tree as (Ev & Pe & _). unfold tree_poly. rewrite Ev. split.
      - intros (f & H0 & En & Hp). apply (picks_nth _ _ _ _ _ Pe H0) in En as (j & Hj & Hj0 & En). eauto 8.
      - intros (j & Hj & f & H0 & En & Hp). exists f. split; [apply Hj|]. split; auto. apply (picks_nth _ _ _ _ _ Pe (proj1 Hj)). eauto.
    Qed.
    Lemma sel_box j' b : 0 <= j' -> nth_error (bb_coords (celltree_data t')) (Z.to_nat j') = Some b
      <-> exists j, sel_at sel j' j /\ 0 <= j /\ nth_error (bb_coords (celltree_data t)) (Z.to_nat j) = Some b.
    Proof. intros H. apply picks_nth; auto. apply sel_tree. Qed.

    Lemma sel_passes p tol j' : face_passes (celltree_data t') p tol j' <-> exists j, sel_at sel j' j /\ face_passes (celltree_data t) p tol j.
    Proof.
      destruct sel_tree as (Ev & Pe & _). unfold face_passes. rewrite Ev. split.
      - intros (f & poly & H0 & En & Hp). apply (picks_nth _ _ _ _ _ Pe H0) in En as (j & Hj & Hj0 & En). eauto 8.
      - intros (j & Hj & f & poly & H0 & En & Hp). exists f, poly. split; [apply Hj|]. split; auto. apply (picks_nth _ _ _ _ _ Pe (proj1 Hj)). eauto.
    Qed.
    Lemma sel_in_box p j' : in_box_of t' p j' <-> exists j, sel_at sel j' j /\ in_box_of t p j.
    Proof.
      unfold in_box_of. split.
      - intros (b & H0 & En & Hp). apply (sel_box _ _ H0) in En as (j & Hj & Hj0 & En). eauto 8.
      - intros (j & Hj & b & H0 & En & Hp). exists b. split; [apply Hj|]. split; auto. apply (sel_box _ _ (proj1 Hj)). eauto.
    Qed.

    (** a point that at most one face of the whole claims is found in a copy of that face,
        if one is selected, and nowhere if not *)
    Theorem C74_points h points tol : exists js js',
      CellTree2d_locate_points h t points (Some tol) = Ok js
      /\ CellTree2d_locate_points h t' points (Some tol) = Ok js'
      /\ forall k p j j', nth_error points k = Some p -> nth_error js k = Some j -> nth_error js' k = Some j' -> unambiguous t p tol ->
           (In j sel -> sel_at sel j' j) /\ (~ In j sel -> j' = -1).
    Proof.
      pose proof (init_built _ _ _ _ _ _ _ Hm E) as Hb. pose proof (init_built _ _ _ _ _ _ _ Hm' E') as Hb'.
      destruct (points_result _ _ _ _ t (Some tol) Hb) as (tol1 & Et & H). cbn in Et. injection Et as <-. destruct (H points) as (js & Hj & HF).
      destruct (points_result _ _ _ _ t' (Some tol) Hb') as (tol2 & Et' & H'). cbn in Et'. injection Et' as <-. destruct (H' points) as (js' & Hj' & HF').
      exists js, js'. split; auto. split; auto. intros k p j j' Ep Ej Ej' Hu.
      pose proof (Forall2_nth _ _ _ _ _ _ HF Ep Ej) as A. pose proof (Forall2_nth _ _ _ _ _ _ HF' Ep Ej') as A'. cbv beta in A, A'.
      assert (Hsel : forall i, In i sel -> exists i', sel_at sel i' i).
      { intros i Hi. apply In_nth_error in Hi as (n & En). exists (Z.of_nat n). split; [lia|]. now rewrite Nat2Z.id. }
      assert (Hm1 : forall i, In i sel -> i <> -1).
      { intros i Hi. destruct (Hsel i Hi) as (i' & Hi'). pose proof (picks_nonneg _ _ _ _ _ Hs Hi'). lia. }
      destruct Hu as [Hno|(i & Hib & Hip & Hiu)].
      - destruct A as [A|(-> & _)]; [destruct (Hno _ A)|]. destruct A' as [A'|(-> & _)].
        + apply sel_passes in A' as (i & _ & A'). destruct (Hno _ A').
        + split; auto. intros Hi. destruct (Hm1 _ Hi eq_refl).
      - destruct A as [A|(-> & An)]; [|destruct (An _ Hip Hib)]. apply Hiu in A. subst j. split.
        + intros Hi. destruct A' as [A'|(-> & An)].
          * apply sel_passes in A' as (j & Hj1 & A'). apply Hiu in A'. now subst j.
          * destruct (Hsel i Hi) as (i' & Hi'). exfalso. apply (An i'); [apply sel_passes; eauto|apply sel_in_box; eauto].
        + intros Hi. destruct A' as [A'|(-> & An)]; auto. apply sel_passes in A' as (j & (Hj0 & Hj1) & A'). apply Hiu in A'. subst j.
          destruct Hi. eapply nth_error_In; eauto.
    Qed.

    Lemma sel_boxes_pair boxes selq boxes' i' j' : picks boxes selq boxes' ->
      boxes_pair boxes' t' i' j' <-> exists i j, sel_at selq i' i /\ sel_at sel j' j /\ boxes_pair boxes t i j.
    Proof.
      intros P. unfold boxes_pair. split.
      - intros (a & b & H0 & H1 & Ea & Eb & Ho). apply (picks_nth _ _ _ _ _ P H0) in Ea as (i & Hi & Hi0 & Ea). apply (sel_box _ _ H1) in Eb as (j & Hj & Hj0 & Eb).
        exists i, j. eauto 12.
      - intros (i & j & Hi & Hj & a & b & H0 & H1 & Ea & Eb & Ho). exists a, b. split; [apply Hi|]. split; [apply Hj|].
        split; [apply (picks_nth _ _ _ _ _ P (proj1 Hi)); eauto|]. split; auto. apply (sel_box _ _ (proj1 Hj)); eauto.
    Qed.
    Lemma sel_box_area boxes selq boxes' i' j' r : picks boxes selq boxes' ->
      box_pair_area boxes' t' i' j' r <-> exists i j, sel_at selq i' i /\ sel_at sel j' j /\ box_pair_area boxes t i j r.
    Proof.
      intros P. unfold box_pair_area. split.
      - intros (bx & b & H0 & Ea & Hp & Hr). apply (picks_nth _ _ _ _ _ P H0) in Ea as (i & Hi & Hi0 & Ea). apply sel_poly in Hp as (j & Hj & Hp).
        exists i, j. split; auto. split; auto. exists bx, b. auto.
      - intros (i & j & Hi & Hj & bx & b & H0 & Ea & Hp & Hr). exists bx, b. split; [apply Hi|].
        split; [apply (picks_nth _ _ _ _ _ P (proj1 Hi)); eauto|]. split; auto. apply sel_poly. eauto.
    Qed.

    (** the boxes of the query may be a selection too *)
    Theorem C74_locate_boxes h n n' boxes selq boxes' : (1 <= n)%nat -> (1 <= n')%nat -> picks boxes selq boxes' ->
      exists pairs pairs', CellTree2d_locate_boxes h n t boxes = Ok pairs /\ CellTree2d_locate_boxes h n' t' boxes' = Ok pairs'
      /\ NoDup pairs' /\ forall i' j', In (i', j') pairs' <-> exists i j, sel_at selq i' i /\ sel_at sel j' j /\ In (i, j) pairs.
    Proof.
      intros Hn Hn' P.
      destruct (boxes_result t boxes (built_valid _ _ _ _ _ (init_built _ _ _ _ _ _ _ Hm E))) as (rows & H1 & H2 & H3 & _).
      destruct (boxes_result t' boxes' (built_valid _ _ _ _ _ (init_built _ _ _ _ _ _ _ Hm' E'))) as (rows' & H1' & H2' & H3' & _).
      exists rows, rows'. split; auto. split; auto. split; auto. intros i' j'. rewrite H3', (sel_boxes_pair _ _ _ _ _ P).
      split; intros (i & j & Hi & Hj & H); exists i, j; (split; [auto|split; [auto|]]); now apply H3.
    Qed.

    Theorem C74_intersect_boxes h n n' boxes selq boxes' rows : (1 <= n)%nat -> (1 <= n')%nat -> picks boxes selq boxes' ->
      CellTree2d_intersect_boxes h n t boxes = Ok rows ->
      exists rows', CellTree2d_intersect_boxes h n' t' boxes' = Ok rows' /\ NoDup (map fst rows')
      /\ forall i' j' a, In ((i', j'), a) rows' <-> exists i j, sel_at selq i' i /\ sel_at sel j' j /\ In ((i, j), a) rows.
    Proof.
      intros Hn Hn' P ER.
      destruct (C61_intersect_boxes_brute_force _ _ _ _ _ _ _ Hm E boxes) as [(rows0 & H1 & H2 & _ & H3 & H4)|(e & H1 & _)]; rewrite (H1 h n Hn) in ER; [|discriminate].
      injection ER as ->.
      destruct (C61_intersect_boxes_brute_force _ _ _ _ _ _ _ Hm' E' boxes') as [(rows' & H1' & H2' & _ & H3' & H4')|(e' & H1' & i' & j' & H2' & H3')].
      - exists rows'. split; auto. split; auto. intros i' j' a. rewrite H4', (sel_boxes_pair _ _ _ _ _ P), (sel_box_area _ _ _ _ _ _ P). split.
        + intros ((i & j & Hi & Hj & A) & (i2 & j2 & Hi2 & Hj2 & B) & C). rewrite (sel_fun _ _ _ _ Hi2 Hi), (sel_fun _ _ _ _ Hj2 Hj) in B.
          exists i, j. split; auto. split; auto. apply H4. auto.
        + intros (i & j & Hi & Hj & A). apply H4 in A as (A & B & C). eauto 12.
      - exfalso. apply (sel_boxes_pair _ _ _ _ _ P) in H2' as (i & j & Hi & Hj & A). apply (sel_box_area _ _ _ _ _ _ P) in H3' as (i2 & j2 & Hi2 & Hj2 & B).
        rewrite (sel_fun _ _ _ _ Hi2 Hi), (sel_fun _ _ _ _ Hj2 Hj) in B. destruct (H3 _ _ A) as (a & Ha). discriminate (box_pair_area_fun _ _ _ _ _ _ Ha B).
    Qed.

    Lemma sel_query vs_ qf selq qf' i' a : picks qf selq qf' -> query_poly vs_ qf' i' a <-> exists i, sel_at selq i' i /\ query_poly vs_ qf i a.
    Proof.
      intros P. unfold query_poly. split.
      - intros (f & f' & H0 & En & Hc & Hp). apply (picks_nth _ _ _ _ _ P H0) in En as (j & Hj & Hj0 & En). eauto 10.
      - intros (j & Hj & f & f' & H0 & En & Hp). exists f, f'. split; [apply Hj|]. split; auto. apply (picks_nth _ _ _ _ _ P (proj1 Hj)). eauto.
    Qed.
    Lemma sel_face_pair vs_ qf selq qf' i' j' : picks qf selq qf' ->
      face_pair vs_ qf' t' i' j' <-> exists i j, sel_at selq i' i /\ sel_at sel j' j /\ face_pair vs_ qf t i j.
    Proof.
      intros P. unfold face_pair. split.
      - intros (a & b & ba & bb & Ha & Hb & Ta & Tb & Eb & Ho). apply (sel_query _ _ _ _ _ _ P) in Ha as (i & Hi & Ha). apply sel_poly in Hb as (j & Hj & Hb).
        apply (sel_box _ _ (proj1 Hj)) in Eb as (j2 & Hj2 & _ & Eb). rewrite (sel_fun _ _ _ _ Hj2 Hj) in Eb. exists i, j. split; auto. split; auto. exists a, b, ba, bb. auto 8.
      - intros (i & j & Hi & Hj & a & b & ba & bb & Ha & Hb & Ta & Tb & Eb & Ho). exists a, b, ba, bb.
        split; [apply (sel_query _ _ _ _ _ _ P); eauto|]. split; [apply sel_poly; eauto|]. split; auto. split; auto. split; auto.
        apply (sel_box _ _ (proj1 Hj)). exists j. split; auto. split; auto. destruct Hb as (? & ? & _). auto.
    Qed.
    Lemma sel_face_area vs_ qf selq qf' i' j' r : picks qf selq qf' ->
      face_pair_area vs_ qf' t' i' j' r <-> exists i j, sel_at selq i' i /\ sel_at sel j' j /\ face_pair_area vs_ qf t i j r.
    Proof.
      intros P. unfold face_pair_area. split.
      - intros (a & b & Ha & Hb & Hr). apply (sel_query _ _ _ _ _ _ P) in Ha as (i & Hi & Ha). apply sel_poly in Hb as (j & Hj & Hb). exists i, j. eauto 8.
      - intros (i & j & Hi & Hj & a & b & Ha & Hb & Hr). exists a, b. split; [apply (sel_query _ _ _ _ _ _ P); eauto|]. split; auto. apply sel_poly; eauto.
    Qed.

    Lemma picks_faces_ok (vs_ : list point) qf selq qf' : picks qf selq qf' -> faces_ok vs_ qf -> faces_ok vs_ qf'.
    Proof.
      intros P (HV & HQ). constructor; auto. rewrite Forall_forall in *. intros f Hf. apply HQ. eapply picks_in; eauto.
    Qed.

    Theorem C74_locate_faces h n n' vs_ qfaces selq qfaces' : (1 <= n)%nat -> (1 <= n')%nat -> faces_ok vs_ qfaces -> picks qfaces selq qfaces' ->
      exists pairs q pairs' q', CellTree2d_locate_faces h n t vs_ qfaces = Ok (pairs, q) /\ CellTree2d_locate_faces h n' t' vs_ qfaces' = Ok (pairs', q')
      /\ NoDup pairs' /\ forall i' j', In (i', j') pairs' <-> exists i j, sel_at selq i' i /\ sel_at sel j' j /\ In (i, j) pairs.
    Proof.
      intros Hn Hn' Hq P. pose proof (picks_faces_ok _ _ _ _ P Hq) as Hq'.
      destruct (faces_pairs _ _ _ _ _ _ _ Hm E vs_ qfaces Hq) as (pairs & q & C & H1 & H2 & _ & H3).
      destruct (faces_pairs _ _ _ _ _ _ _ Hm' E' vs_ qfaces' Hq') as (pairs' & q' & C' & H1' & H2' & _ & H3').
      exists pairs, q, pairs', q'. split; auto. split; auto. split; auto. intros i' j'. rewrite H3', (sel_face_pair _ _ _ _ _ _ P).
      split; intros (i & j & Hi & Hj & H); exists i, j; (split; [auto|split; [auto|]]); now apply H3.
    Qed.

    Theorem C74_intersect_faces h n n' vs_ qfaces selq qfaces' qfill rows : (1 <= n)%nat -> (1 <= n')%nat ->
      faces_ok vs_ (map (with_fill qfill) qfaces) -> picks qfaces selq qfaces' ->
      CellTree2d_intersect_faces h n t vs_ qfaces qfill = Ok rows ->
      exists rows', CellTree2d_intersect_faces h n' t' vs_ qfaces' qfill = Ok rows' /\ NoDup (map fst rows')
      /\ forall i' j' a, In ((i', j'), a) rows' <-> exists i j, sel_at selq i' i /\ sel_at sel j' j /\ In ((i, j), a) rows.
    Proof.
      intros Hn Hn' Hq P0 ER. pose proof (picks_map (with_fill qfill) _ _ _ P0) as P. pose proof (picks_faces_ok _ _ _ _ P Hq) as Hq'.
      destruct (C61_intersect_faces_brute_force _ _ _ _ _ _ _ Hm E vs_ qfaces qfill Hq) as [(rows0 & H1 & H2 & _ & H3 & H4)|(e & H1 & _)]; rewrite (H1 h n Hn) in ER; [|discriminate].
      injection ER as ->.
      destruct (C61_intersect_faces_brute_force _ _ _ _ _ _ _ Hm' E' vs_ qfaces' qfill Hq') as [(rows' & H1' & H2' & _ & H3' & H4')|(e' & H1' & i' & j' & H2' & H3')].
      - exists rows'. split; auto. split; auto. intros i' j' a. rewrite H4', (sel_face_pair _ _ _ _ _ _ P), (sel_face_area _ _ _ _ _ _ _ P). split.
        + intros ((i & j & Hi & Hj & A) & (i2 & j2 & Hi2 & Hj2 & B) & C). rewrite (sel_fun _ _ _ _ Hi2 Hi), (sel_fun _ _ _ _ Hj2 Hj) in B.
          exists i, j. split; auto. split; auto. apply H4. auto.
        + intros (i & j & Hi & Hj & A). apply H4 in A as (A & B & C). eauto 12.
      - exfalso. apply (sel_face_pair _ _ _ _ _ _ P) in H2' as (i & j & Hi & Hj & A). apply (sel_face_area _ _ _ _ _ _ _ P) in H3' as (i2 & j2 & Hi2 & Hj2 & B).
        rewrite (sel_fun _ _ _ _ Hi2 Hi), (sel_fun _ _ _ _ Hj2 Hj) in B. destruct (H3 _ _ A) as (a & Ha). discriminate (face_pair_area_fun _ _ _ _ _ _ _ Ha B).
    Qed.

    (** the weights in the face found are the same *)
    Theorem C74_weights h n_max_vert points tol js ws js' ws' :
      CellTree2d_compute_barycentric_weights h t n_max_vert points (Some tol) = Ok (js, ws) ->
      CellTree2d_compute_barycentric_weights h t' n_max_vert points (Some tol) = Ok (js', ws') ->
      forall k p j, nth_error points k = Some p -> nth_error js k = Some j -> unambiguous t p tol -> In j sel ->
      nth_error ws' k = nth_error ws k.
    Proof.
      intros H H' k p j Ep Ej Hu Hin. destruct (C74_points h points tol) as (js2 & js2' & J & J' & Hk).
      unfold CellTree2d_compute_barycentric_weights in H, H'. cbn [get_tolerance bind] in H, H'. rewrite J in H. rewrite J' in H'. cbn [bind] in H, H'.
      apply bind_ok in H as (w & Ew & H). apply bind_ok in H' as (w' & Ew' & H').
      injection H as -> ->. injection H' as -> ->. destruct sel_tree as (Ev & Pe & _). rewrite Ev in Ew'.
      assert (Hl : (k < length points)%nat) by (apply nth_error_Some; congruence).
      assert (L' : length js' = length points).
      { unfold CellTree2d_locate_points in J'. cbn [get_tolerance bind] in J'. now apply mapres_length in J'. }
      destruct (nth_error js' k) as [j'|] eqn:Ej'; [|apply nth_error_None in Ej'; lia].
      destruct (Hk _ _ _ _ Ep Ej Ej' Hu) as (Hsa & _). specialize (Hsa Hin).
      assert (EA : aget (elements (celltree_data t')) j' = aget (elements (celltree_data t)) j).
      { destruct Hsa as (H0 & En). destruct (Forall2_nth_l _ _ _ _ _ Pe En) as (f & Ef & Hj0 & Ef'). rewrite (aget_pos _ _ _ H0 Ef), (aget_pos _ _ _ Hj0 Ef'). reflexivity. }
      assert (N1 : j <> -1) by (pose proof (picks_nonneg _ _ _ _ _ Hs Hsa); lia). assert (N2 : j' <> -1) by (destruct Hsa; lia).
      destruct (3 <? n_max_vert)%nat.
      - unfold barycentric_wachspress_weights in Ew, Ew'.
        apply PCollect.mapres_inv in Ew, Ew'.
        destruct (Forall2_nth_l _ _ _ _ _ Ew (iota_nth _ _ Hl)) as (r & Er & F).
        destruct (Forall2_nth_l _ _ _ _ _ Ew' (iota_nth _ _ Hl)) as (r' & Er' & F').
        rewrite (aget_nat _ _ _ Ej), (aget_nat _ _ _ Ep) in F. rewrite (aget_nat _ _ _ Ej'), (aget_nat _ _ _ Ep) in F'. cbn [bind] in F, F'.
        unfold barycentric_wachspress_one in F, F'. cbn [fst snd] in F, F'. rewrite EA in F'.
        rewrite (proj2 (Z.eqb_neq _ _) N1) in F. rewrite (proj2 (Z.eqb_neq _ _) N2) in F'. rewrite Er, Er'. congruence.
      - unfold barycentric_triangle_weights in Ew, Ew'.
        apply PCollect.mapres_inv in Ew, Ew'.
        destruct (Forall2_nth_l _ _ _ _ _ Ew (iota_nth _ _ Hl)) as (r & Er & F).
        destruct (Forall2_nth_l _ _ _ _ _ Ew' (iota_nth _ _ Hl)) as (r' & Er' & F').
        rewrite (aget_nat _ _ _ Ej), (aget_nat _ _ _ Ep) in F. rewrite (aget_nat _ _ _ Ej'), (aget_nat _ _ _ Ep) in F'. cbn [bind] in F, F'.
        unfold barycentric_triangle_one in F, F'. cbn [fst snd] in F, F'. rewrite EA in F'.
        rewrite (proj2 (Z.eqb_neq _ _) N1) in F. rewrite (proj2 (Z.eqb_neq _ _) N2) in F'. rewrite Er, Er'. congruence.
    Qed.
  End Two.

  (** ** Networks *)
  Theorem C74_edge_selection_ok (vs : list point) edges sel edges' : network_ok vs edges -> picks edges sel edges' -> sel <> [] -> network_ok vs edges'.
  Proof.
    intros M H Hne. constructor.
    - exact (no_vertices _ _ M).
    - intros ->. inversion H. congruence.
    - pose proof (no_edges _ _ M) as W. rewrite Forall_forall in W. apply Forall_forall. intros f Hf. apply W. eapply picks_in; eauto.
    - exact (no_room _ _ M).
  Qed.

  Section TwoEdges.
    Variables (g g' : garbage T) (vs : list point) (edges edges' : list (list Z)) (sel : list Z) (nb cpl nb' cpl' : Z) (t t' : tree2d).
    Hypothesis Hm : network_ok vs edges.
    Hypothesis Hs : picks edges sel edges'.
    Hypothesis Hne : sel <> [].
    Hypothesis E : EdgeCellTree2d_init g vs edges nb cpl = Ok t.
    Hypothesis E' : EdgeCellTree2d_init g' vs edges' nb' cpl' = Ok t'.

    Lemma sel_network : vertices (celltree_data t') = vertices (celltree_data t) /\ picks (elements (celltree_data t)) sel (elements (celltree_data t'))
      /\ picks (bb_coords (celltree_data t)) sel (bb_coords (celltree_data t')).
    Proof.
      pose proof E as H. pose proof E' as H'. unfold EdgeCellTree2d_init in H, H'.
      apply bind_ok in H as (u & _ & H). apply bind_ok in H' as (u' & _ & H').
      apply bind_ok in H as (x1 & E1 & H). apply bind_ok in H' as (x1' & E1' & H'). rewrite E1 in E1'. injection E1' as <-.
      apply bind_ok in H as (x0 & E2 & H). apply bind_ok in H' as (x0' & E2' & H'). rewrite E2 in E2'. injection E2' as <-.
      apply bind_ok in H as (y1 & E3 & H). apply bind_ok in H' as (y1' & E3' & H'). rewrite E3 in E3'. injection E3' as <-.
      apply bind_ok in H as (y0 & E4 & H). apply bind_ok in H' as (y0' & E4' & H'). rewrite E4 in E4'. injection E4' as <-.
      apply bind_ok in H as (bbs & E5 & H). apply bind_ok in H' as (bbs' & E5' & H').
      pose proof (picks_mapres _ _ _ _ _ _ Hs E5 E5') as P2.
      apply bind_ok in H as ((n & i) & E6 & H). apply bind_ok in H' as ((n' & i') & E6' & H').
      apply bind_ok in H as (b & E7 & H). apply bind_ok in H' as (b' & E7' & H').
      injection H as <-. injection H' as <-. cbn. auto.
    Qed.

    Definition edge_unambiguous (t : tree2d) (p : point) (tol : T) : Prop :=
      (forall j, ~ edge_passes (celltree_data t) p tol j)
      \/ exists j, in_box_of t p j /\ edge_passes (celltree_data t) p tol j /\ forall j', edge_passes (celltree_data t) p tol j' -> j' = j.

    Lemma sel_edge_passes p tol j' : edge_passes (celltree_data t') p tol j' <-> exists j, sel_at sel j' j /\ edge_passes (celltree_data t) p tol j.
    Proof.
      destruct sel_network as (Ev & Pe & _). unfold edge_passes. rewrite Ev. split.
      - intros (f & v0 & v1 & H0 & En & Hp). apply (picks_nth _ _ _ _ _ Pe H0) in En as (j & Hj & Hj0 & En). eauto 10.
      - intros (j & Hj & f & v0 & v1 & H0 & En & Hp). exists f, v0, v1. split; [apply Hj|]. split; auto. apply (picks_nth _ _ _ _ _ Pe (proj1 Hj)). eauto.
    Qed.
    Lemma sel_edge_in_box p j' : in_box_of t' p j' <-> exists j, sel_at sel j' j /\ in_box_of t p j.
    Proof.
      destruct sel_network as (_ & _ & Pb). unfold in_box_of. split.
      - intros (b & H0 & En & Hp). apply (picks_nth _ _ _ _ _ Pb H0) in En as (j & Hj & Hj0 & En). eauto 8.
      - intros (j & Hj & b & H0 & En & Hp). exists b. split; [apply Hj|]. split; auto. apply (picks_nth _ _ _ _ _ Pb (proj1 Hj)). eauto.
    Qed.

    Theorem C74_edge_points h points tol : exists js js',
      EdgeCellTree2d_locate_points h t points (Some tol) = Ok js
      /\ EdgeCellTree2d_locate_points h t' points (Some tol) = Ok js'
      /\ forall k p j j', nth_error points k = Some p -> nth_error js k = Some j -> nth_error js' k = Some j' -> edge_unambiguous t p tol ->
           (In j sel -> sel_at sel j' j) /\ (~ In j sel -> j' = -1).
    Proof.
      pose proof (init_built_edges _ _ _ _ _ _ Hm E) as Hb. pose proof (init_built_edges _ _ _ _ _ _ (C74_edge_selection_ok _ _ _ _ Hm Hs Hne) E') as Hb'.
      destruct (edge_points_result _ _ _ t (Some tol) Hb) as (tol1 & Et & H). cbn in Et. injection Et as <-. destruct (H points) as (js & Hj & HF).
      destruct (edge_points_result _ _ _ t' (Some tol) Hb') as (tol2 & Et' & H'). cbn in Et'. injection Et' as <-. destruct (H' points) as (js' & Hj' & HF').
      exists js, js'. split; auto. split; auto. intros k p j j' Ep Ej Ej' Hu.
      pose proof (Forall2_nth _ _ _ _ _ _ HF Ep Ej) as A. pose proof (Forall2_nth _ _ _ _ _ _ HF' Ep Ej') as A'. cbv beta in A, A'.
      assert (Hsel : forall i, In i sel -> exists i', sel_at sel i' i).
      { intros i Hi. apply In_nth_error in Hi as (n & En). exists (Z.of_nat n). split; [lia|]. now rewrite Nat2Z.id. }
      assert (Hm1 : forall i, In i sel -> i <> -1).
      { intros i Hi. destruct (Hsel i Hi) as (i' & Hi'). pose proof (picks_nonneg _ _ _ _ _ Hs Hi'). lia. }
      destruct Hu as [Hno|(i & Hib & Hip & Hiu)].
      - destruct A as [A|(-> & _)]; [destruct (Hno _ A)|]. destruct A' as [A'|(-> & _)].
        + apply sel_edge_passes in A' as (i & _ & A'). destruct (Hno _ A').
        + split; auto. intros Hi. destruct (Hm1 _ Hi eq_refl).
      - destruct A as [A|(-> & An)]; [|destruct (An _ Hip Hib)]. apply Hiu in A. subst j. split.
        + intros Hi. destruct A' as [A'|(-> & An)].
          * apply sel_edge_passes in A' as (j & Hj1 & A'). apply Hiu in A'. now subst j.
          * destruct (Hsel i Hi) as (i' & Hi'). exfalso. apply (An i'); [apply sel_edge_passes; eauto|apply sel_edge_in_box; eauto].
        + intros Hi. destruct A' as [A'|(-> & An)]; auto. apply sel_edge_passes in A' as (j & (Hj0 & Hj1) & A'). apply Hiu in A'. subst j.
          destruct Hi. eapply nth_error_In; eauto.
    Qed.
  End TwoEdges.
End Any.

(** ** Edge queries: exact reals *)
Theorem C74_intersect_edges g g' vs faces faces' sel fill nb cpl nb' cpl' (t t' : tree2d (T:=R)) :
  mesh_ok vs faces fill -> picks faces sel faces' -> sel <> [] ->
  CellTree2d_init g vs faces fill nb cpl = Ok t ->
  CellTree2d_init g' vs faces' fill nb' cpl' = Ok t' ->
  forall h csfuel n n' edges selq edges', (4 <= csfuel)%nat -> (1 <= n)%nat -> (1 <= n')%nat -> picks edges selq edges' ->
  exists rows rows', CellTree2d_intersect_edges h csfuel n t edges = Ok rows
    /\ CellTree2d_intersect_edges h csfuel n' t' edges' = Ok rows' /\ NoDup (map fst rows')
    /\ forall i' j' c, In ((i', j'), c) rows' <-> exists i j, sel_at selq i' i /\ sel_at sel j' j /\ In ((i, j), c) rows.
Proof.
  intros Hm Hs Hne E E' h cs n n' edges selq edges' Hcs Hn Hn' P.
  destruct (C15_intersect_edges_brute_force _ _ _ _ _ _ _ Hm E edges) as (rows & H1 & H2 & H3).
  destruct (C15_intersect_edges_brute_force _ _ _ _ _ _ _ (C74_selection_ok _ _ _ _ _ Hm Hs Hne) E' edges') as (rows' & H1' & H2' & H3').
  exists rows, rows'. split; auto. split; auto. split; auto.
  destruct (sel_tree _ _ _ _ _ _ _ _ _ _ _ _ _ Hm Hs Hne E E') as (Ev & Pe & Pb).
  intros i' j' c. rewrite H3'. split.
  - intros (a & b & c1 & c2 & Hi & Ei & (poly & K & (Hj & f & Ef & Hp & EK) & Hsh) & ->).
    apply (picks_nth _ _ _ _ _ P Hi) in Ei as (i & Hi1 & Hi0 & Ei). apply (picks_nth _ _ _ _ _ Pe Hj) in Ef as (j & Hj1 & Hj0 & Ef).
    apply (picks_nth _ _ _ _ _ Pb Hj) in EK as (j2 & Hj2 & _ & EK). rewrite (sel_fun _ _ _ _ Hj2 Hj1) in EK. rewrite Ev in Hp.
    exists i, j. split; auto. split; auto. apply H3. exists a, b, c1, c2. split; auto. split; auto. split; auto. exists poly, K. split; auto. split; auto. exists f. auto.
  - intros (i & j & Hi & Hj & H). apply H3 in H as (a & b & c1 & c2 & Hi0 & Ei & (poly & K & (Hj0 & f & Ef & Hp & EK) & Hsh) & ->).
    exists a, b, c1, c2. split; [apply Hi|]. split; [apply (picks_nth _ _ _ _ _ P (proj1 Hi)); eauto|]. split; auto.
    exists poly, K. split; auto. split; [apply Hj|]. exists f. split; [apply (picks_nth _ _ _ _ _ Pe (proj1 Hj)); eauto|]. rewrite Ev. split; auto.
    apply (picks_nth _ _ _ _ _ Pb (proj1 Hj)); eauto.
Qed.

Theorem C74_edge_edges g g' vs edges edges' sel nb cpl nb' cpl' (t t' : tree2d (T:=R)) :
  network_ok vs edges -> picks edges sel edges' -> sel <> [] ->
  EdgeCellTree2d_init g vs edges nb cpl = Ok t ->
  EdgeCellTree2d_init g' vs edges' nb' cpl' = Ok t' ->
  forall h csfuel n n' queries selq queries', (4 <= csfuel)%nat -> (1 <= n)%nat -> (1 <= n')%nat -> picks queries selq queries' ->
  exists rows rows', EdgeCellTree2d_intersect_edges h csfuel n t queries = Ok rows
    /\ EdgeCellTree2d_intersect_edges h csfuel n' t' queries' = Ok rows' /\ NoDup (map fst rows')
    /\ forall i' j' c, In ((i', j'), c) rows' <-> exists i j, sel_at selq i' i /\ sel_at sel j' j /\ In ((i, j), c) rows.
Proof.
  intros Hm Hs Hne E E' h cs n n' queries selq queries' Hcs Hn Hn' P.
  destruct (C16_edge_intersect_edges_brute_force _ _ _ _ _ _ Hm E queries) as (rows & H1 & H2 & H3).
  destruct (C16_edge_intersect_edges_brute_force _ _ _ _ _ _ (C74_edge_selection_ok _ _ _ _ Hm Hs Hne) E' queries') as (rows' & H1' & H2' & H3').
  exists rows, rows'. split; auto. split; auto. split; auto.
  destruct (sel_network _ _ _ _ _ _ _ _ _ _ _ _ Hs E E') as (Ev & Pe & _).
  intros i' j' c. rewrite H3'. split.
  - intros (a & b & Hi & Ei & (p & q & (Hj & f & Ef & Hp) & Hl)).
    apply (picks_nth _ _ _ _ _ P Hi) in Ei as (i & Hi1 & Hi0 & Ei). apply (picks_nth _ _ _ _ _ Pe Hj) in Ef as (j & Hj1 & Hj0 & Ef). rewrite Ev in Hp.
    exists i, j. split; auto. split; auto. apply H3. exists a, b. split; auto. split; auto. exists p, q. split; auto. split; auto. exists f. auto.
  - intros (i & j & Hi & Hj & H). apply H3 in H as (a & b & Hi0 & Ei & (p & q & (Hj0 & f & Ef & Hp) & Hl)).
    exists a, b. split; [apply Hi|]. split; [apply (picks_nth _ _ _ _ _ P (proj1 Hi)); eauto|].
    exists p, q. split; auto. split; [apply Hj|]. exists f. split; [apply (picks_nth _ _ _ _ _ Pe (proj1 Hj)); eauto|]. rewrite Ev. auto.
Qed.

(** ** On a side that two faces share the order of the faces decides which is found *)
Definition two_squares : list (list Z) := [[0; 1; 5; 4]; [1; 2; 6; 5]].
Definition squares_two : list (list Z) := [[1; 2; 6; 5]; [0; 1; 5; 4]].
Definition on_shared : point b64 := Pt (nofZ 1) nhalf.

Lemma two_squares_ok fs : fs = two_squares \/ fs = squares_two -> mesh_ok (T:=b64) grid fs (-1).
Proof. intros [-> | ->]; (constructor; [repeat constructor|discriminate|repeat constructor; simpl; try lia]). Qed.

Theorem C74_shared_side_refuted : exists (vs : list (point b64)) faces faces' sel p tol t t' j j',
  mesh_ok vs faces (-1) /\ picks faces sel faces' /\ Permutation sel [0; 1]
  /\ CellTree2d_init g0 vs faces (-1) 4 2 = Ok t /\ CellTree2d_init g0 vs faces' (-1) 4 2 = Ok t'
  /\ CellTree2d_locate_points g0 t [p] (Some tol) = Ok [j] /\ CellTree2d_locate_points g0 t' [p] (Some tol) = Ok [j']
  /\ ~ sel_at sel j' j.
Proof.
  set (f := fun fs => match CellTree2d_init (T:=b64) g0 grid fs (-1) 4 2 with Ok t => CellTree2d_locate_points g0 t [on_shared] (Some ntolfac) | Err e => Err e end).
  assert (A : f two_squares = Ok [0]) by (vm_compute; reflexivity). assert (B : f squares_two = Ok [0]) by (vm_compute; reflexivity).
  unfold f in A, B.
  destruct (CellTree2d_init (T:=b64) g0 grid two_squares (-1) 4 2) as [t|] eqn:E; [|discriminate].
  destruct (CellTree2d_init (T:=b64) g0 grid squares_two (-1) 4 2) as [t'|] eqn:E'; [|discriminate].
  exists grid, two_squares, squares_two, [1; 0], on_shared, ntolfac, t, t', 0, 0. split; [apply two_squares_ok; auto|].
  split; [repeat constructor; lia|]. split; [constructor|]. repeat (split; [assumption|]). intros (_ & H). discriminate.
Qed.

(** ** A case of the hypotheses: three faces of seven, one of them twice *)
Definition three_of_seven : list (list Z) := [[5; 6; 10; 9]; [1; 2; 6; 5]; [5; 6; 10; 9]].

Lemma three_picked : picks grid_faces [4; 1; 4] three_of_seven.
Proof. repeat constructor; lia. Qed.

Theorem C74_example : exists t t' rows rows',
  CellTree2d_init (T:=b64) g0 grid grid_faces (-1) 4 2 = Ok t /\ CellTree2d_init (T:=b64) g0 grid three_of_seven (-1) 4 2 = Ok t'
  /\ CellTree2d_intersect_boxes g0 2 t [two_by_three; two_by_three] = Ok rows
  /\ CellTree2d_intersect_boxes g0 3 t' [two_by_three] = Ok rows'
  /\ map fst rows' = [(0, 0); (0, 2); (0, 1)]
  /\ forall j' a, In ((0, j'), a) rows' <-> exists j, sel_at [4; 1; 4] j' j /\ In ((1, j), a) rows.
Proof.
  destruct (CellTree2d_init (T:=b64) g0 grid grid_faces (-1) 4 2) as [t|] eqn:E.
  2: { exfalso. destruct grid_built_B64 as (t & H & _). congruence. }
  assert (HT : match CellTree2d_init (T:=b64) g0 grid three_of_seven (-1) 4 2 with
    | Ok t' => match CellTree2d_intersect_boxes g0 3 t' [two_by_three] with Ok rows => map fst rows | Err _ => [] end | Err _ => [] end
    = [(0, 0); (0, 2); (0, 1)]) by (vm_compute; reflexivity).
  destruct (CellTree2d_init (T:=b64) g0 grid three_of_seven (-1) 4 2) as [t'|] eqn:E'; [|discriminate].
  assert (HR : match CellTree2d_init (T:=b64) g0 grid grid_faces (-1) 4 2 with
    | Ok t => match CellTree2d_intersect_boxes g0 2 t [two_by_three; two_by_three] with Ok rows => true | Err _ => false end | Err _ => false end
    = true) by (vm_compute; reflexivity).
  rewrite E in HR. destruct (CellTree2d_intersect_boxes g0 2 t [two_by_three; two_by_three]) as [rows|] eqn:ER; [|discriminate].
  assert (Hq : picks [two_by_three; two_by_three] [1] [two_by_three]) by (repeat constructor; lia).
  destruct (C74_intersect_boxes g0 g0 grid grid_faces three_of_seven [4; 1; 4] (-1) 4 2 4 2 t t' grid_mesh_B64 three_picked ltac:(discriminate) E E'
    g0 2 3 [two_by_three; two_by_three] [1] [two_by_three] rows ltac:(lia) ltac:(lia) Hq ER) as (rows' & ER' & _ & H).
  rewrite ER' in HT. exists t, t', rows, rows'. repeat (split; [assumption||reflexivity|]). intros j' a. rewrite (H 0 j' a). split.
  - intros (i & j & (_ & Hi) & Hj & Hin). cbn in Hi. injection Hi as <-. eauto.
  - intros (j & Hj & Hin). exists 1, j. split; [split; [lia|reflexivity]|]. auto.
Qed.

Print Assumptions C74_points.
Print Assumptions C74_weights.
Print Assumptions C74_locate_boxes.
Print Assumptions C74_intersect_boxes.
Print Assumptions C74_locate_faces.
Print Assumptions C74_intersect_faces.
Print Assumptions C74_edge_points.
Print Assumptions C74_intersect_edges.
Print Assumptions C74_edge_edges.
Print Assumptions C74_shared_side_refuted.
Print Assumptions C74_example.
