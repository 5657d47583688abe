(** NaN queries (binary64). *)
From Coq Require Import Reals.
From Flocq Require Import Core BinarySingleNaN.
From Verif Require Import Base Num MUtils MGeometry MCreation MAlgorithms MQuery MCelltree
  SpecTree SpecQuery SpecApi PPoints NumR NumB64 NumSub.
Open Scope Z_scope.

Notation nanb := (@B754_nan prec emax).

Lemma minus_nan_r (x : b64) : Bminus mode_NE x nanb = nanb. Proof. destruct x; reflexivity. Qed.
Lemma minus_nan_l (x : b64) : Bminus mode_NE nanb x = nanb. Proof. destruct x; reflexivity. Qed.
Lemma mult_nan_r (x : b64) : Bmult mode_NE x nanb = nanb. Proof. destruct x; reflexivity. Qed.
Lemma mult_nan_l (x : b64) : Bmult mode_NE nanb x = nanb. Proof. destruct x; reflexivity. Qed.
Lemma ltb_nan_r (x : b64) : Bltb x nanb = false. Proof. destruct x; reflexivity. Qed.
Lemma ltb_nan_l (x : b64) : Bltb nanb x = false. Proof. destruct x; reflexivity. Qed.
Lemma leb_nan_r (x : b64) : Bleb x nanb = false. Proof. destruct x; reflexivity. Qed.
Lemma leb_nan_l (x : b64) : Bleb nanb x = false. Proof. destruct x; reflexivity. Qed.

(** a coordinate is NaN *)
Definition nan_point (p : point b64) : Prop := px p = nanb \/ py p = nanb.
Definition nan_box (b : box b64) : Prop :=
  xmin b = nanb \/ xmax b = nanb \/ ymin b = nanb \/ ymax b = nanb.

(** the cross product with a vector to or from a NaN point is NaN *)
Lemma cross_nan (p v0 v1 : point b64) : nan_point p ->
  cross_product (to_vector p v0) (to_vector p v1) = nanb.
Proof.
  unfold cross_product, to_vector. cbn [px py nsub nmul NumB64].
  intros [E|E]; rewrite E, !minus_nan_r.
  - rewrite mult_nan_l. apply minus_nan_l.
  - reflexivity.
Qed.

Lemma within_nan (W : point b64) tol : within_perpendicular_distance nanb W tol = false.
Proof. unfold within_perpendicular_distance. cbn [nmul nltb NumB64]. now rewrite mult_nan_l, ltb_nan_l. Qed.

Lemma crosses_nan (p v0 v1 : point b64) : nan_point p -> finite_point v0 -> finite_point v1 ->
  crosses p v0 v1 = Ok false.
Proof.
  intros [E|E] H0 H1.
  - destruct (crosses_total p v0 v1 H0 H1) as (b & Eb). rewrite Eb. unfold crosses in Eb.
    destruct (negb _); [|congruence]. apply bind_ok in Eb as (q & _ & Eb).
    rewrite E in Eb. cbn [nltb NumB64] in Eb. rewrite ltb_nan_l in Eb. congruence.
  - unfold crosses. rewrite E. cbn [nltb NumB64]. now rewrite !ltb_nan_l.
Qed.

Lemma pip_loop_nan (p : point b64) tol : nan_point p -> forall l v0 c,
  finite_point v0 -> Forall finite_point l -> pip_or_edge_loop p tol v0 (to_vector p v0) l c = Ok c.
Proof.
  intros Hp. induction l as [|v1 t IH]; intros v0 c H0 Hl; cbn [pip_or_edge_loop]; auto.
  inversion Hl; subst. destruct (point_eqb v1 v0); auto.
  cbv zeta. rewrite cross_nan, within_nan by auto. cbn [andb].
  rewrite crosses_nan by auto. cbn [bind]. auto.
Qed.

Lemma pip_nan (p : point b64) poly tol b : nan_point p -> Forall finite_point poly ->
  point_in_polygon_or_on_edge p poly tol = Ok b -> b = false.
Proof.
  intros Hp Hf. unfold point_in_polygon_or_on_edge. intros H. apply bind_ok in H as (v0 & E & H).
  rewrite pip_loop_nan in H; auto; try congruence.
  apply aget_in in E. rewrite Forall_forall in Hf. auto.
Qed.

Lemma face_passes_nan (t : celltree b64) p tol j : nan_point p -> Forall finite_point (vertices t) ->
  ~ face_passes t p tol j.
Proof.
  intros Hp Hv (f & poly & _ & _ & Hpoly & E). apply pip_nan in E; auto; [discriminate|].
  eapply poly_fin; eauto.
Qed.

Lemma edge_passes_nan (t : celltree b64) p tol j : nan_point p -> ~ edge_passes t p tol j.
Proof.
  intros Hp (e & v0 & v1 & _ & _ & _ & E). unfold point_on_edge in E.
  change (aget [v0; v1] 0) with (Ok v0) in E. change (aget [v0; v1] 1) with (Ok v1) in E. cbn [bind] in E.
  destruct (point_eqb v1 v0); [discriminate|]. cbv zeta in E. rewrite cross_nan, within_nan in E by auto.
  discriminate.
Qed.

Lemma overlap_nan (a b : box b64) : nan_box a -> ~ strict_overlap a b.
Proof.
  unfold strict_overlap. cbn [nltb NumB64].
  intros [E|[E|[E|E]]] (H1 & H2 & H3 & H4); rewrite E in *;
    rewrite ?ltb_nan_l, ?ltb_nan_r in *; discriminate.
Qed.
