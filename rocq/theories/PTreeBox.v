(** The bounding box of a tree is tight around the boxes of its elements. *)
From Verif Require Import Base Num MUtils MGeometry MCreation MQuery MCelltree
  PStack PPartition SpecTree PBuild PWalk PCollect SpecQuery SpecApi PQuery PMesh PInit PPoints PApi.
Open Scope Z_scope.

Section TreeBox.
  Context {T : Type} {NT : Num T} {NO : NumOrd T}.

  (** [b] contains every box, and every side of it is a side of one *)
  Definition tight_over (bbs : list (box T)) (b : box T) : Prop :=
    Forall (fun c => box_within c b) bbs
    /\ Exists (fun c => xmin c = xmin b) bbs /\ Exists (fun c => xmax c = xmax b) bbs
    /\ Exists (fun c => ymin c = ymin b) bbs /\ Exists (fun c => ymax c = ymax b) bbs.

  Lemma valid_tight (t : celltree T) : valid_tree t -> bbox_tree (bb_coords t) = Ok (bbox t) ->
    tight_over (bb_coords t) (bbox t).
  Proof.
    intros Hv E. destruct (bbox_tree_ok (bb_coords t)) as (b & Eb & H).
    - apply (vt_finite _ Hv).
    - pose proof (vt_nonempty _ Hv) as H. intros E0. rewrite E0 in H. cbn in H. lia.
    - rewrite E in Eb. injection Eb as <-. exact H.
  Qed.

  Lemma mesh_tight g vs faces fill nb cpl (t : tree2d (T:=T)) :
    mesh_ok vs faces fill -> CellTree2d_init g vs faces fill nb cpl = Ok t ->
    tight_over (bb_coords (celltree_data t)) (bbox (celltree_data t)).
  Proof.
    intros Hm E. apply valid_tight; [exact (built_valid _ _ _ _ _ (init_built _ _ _ _ _ _ _ Hm E))|].
    unfold CellTree2d_init in E. repeat (apply bind_ok in E as (? & ? & E)).
    repeat match type of E with context [let '(_, _) := ?x in _] => destruct x end.
    repeat (apply bind_ok in E as (? & ? & E)). injection E as <-. cbn. assumption.
  Qed.

  Lemma network_tight g vs edges nb cpl (t : tree2d (T:=T)) :
    network_ok vs edges -> EdgeCellTree2d_init g vs edges nb cpl = Ok t ->
    tight_over (bb_coords (celltree_data t)) (bbox (celltree_data t)).
  Proof.
    intros Hm E. destruct (be_net _ _ _ _ (init_built_edges _ _ _ _ _ _ Hm E)) as (tol & _ & Hn).
    apply valid_tight; [exact (nt_valid _ _ Hn)|].
    unfold EdgeCellTree2d_init in E. repeat (apply bind_ok in E as (? & ? & E)).
    repeat match type of E with context [let '(_, _) := ?x in _] => destruct x end.
    repeat (apply bind_ok in E as (? & ? & E)). injection E as <-. cbn. assumption.
  Qed.
End TreeBox.
