(** Property theorems: what locate_boxes answers depends only on the order of the
    coordinates (C80). *)
From Verif Require Import RBase NumB64 MGeometry MCreation MAlgorithms MQuery MCelltree SpecTree SpecQuery SpecApi
  PBuild PMesh PInit PPoints PFaces PApi PNumber Examples PropTree PropEdges PropPoints PropSplit FBase.
From Flocq Require Import Core BinarySingleNaN.
Open Scope Z_scope.

(** [p] is a corner of the face *)
Definition corner_of {T} (vs : list (point T)) (f : list Z) (p : point T) : Prop :=
  exists i, In i (until_fill f) /\ 0 <= i /\ nth_error vs (Z.to_nat i) = Some p.

Section One.
  Context {T : Type} {NT : Num T} {NO : NumOrd T}.

  (** the box spans the corners of the face *)
  Definition spans (vs : list (point T)) (f : list Z) (b : box T) : Prop :=
    (forall p, corner_of vs f p -> in_closed_box p b)
    /\ (exists p, corner_of vs f p /\ px p = xmin b) /\ (exists p, corner_of vs f p /\ px p = xmax b)
    /\ (exists p, corner_of vs f p /\ py p = ymin b) /\ (exists p, corner_of vs f p /\ py p = ymax b).

  Lemma poly_corner vs f poly (p : point T) : poly_of vs f poly -> In p poly <-> corner_of vs f p.
  Proof.
    unfold poly_of, corner_of. induction 1 as [|i q l l' (H0 & E) _ IH].
    - split; [intros []|intros (i & [] & _)].
    - split.
      + intros [<-|H]; [exists i; cbn; auto|]. apply IH in H as (k & A & B). exists k. cbn. auto.
      + intros (k & [<-|A] & B & C); [left; congruence|right; apply IH; eauto].
  Qed.
  Lemma tight_spans vs f poly (b : box T) : poly_of vs f poly -> tight_box poly b -> spans vs f b.
  Proof.
    intros P (F & X0 & X1 & Y0 & Y1). rewrite Forall_forall in F.
    apply Exists_exists in X0 as (p0 & I0 & E0), X1 as (p1 & I1 & E1), Y0 as (p2 & I2 & E2), Y1 as (p3 & I3 & E3).
    split; [intros p Hp; apply F; now apply (poly_corner _ _ _ p P)|].
    split; [exists p0|split; [exists p1|split; [exists p2|exists p3]]]; (split; [now apply (poly_corner _ _ _ _ P)|assumption]).
  Qed.
End One.

(** ** One coordinate *)
(** [lo] and [hi] are the least and the greatest of the numbers *)
Definition span1 {T} {NT : Num T} (C : T -> Prop) (lo hi : T) : Prop :=
  C lo /\ C hi /\ forall c, C c -> nleb lo c = true /\ nleb c hi = true.
Definition image {A B} (f : A -> B) (C : A -> Prop) (y : B) : Prop := exists x, C x /\ y = f x.

(** [f] keeps the order of the listed numbers, or reverses it *)
Definition monotone {T T'} {NT : Num T} {NT' : Num T'} (reversed : bool) (f : T -> T') (l : list T) : Prop :=
  forall x y, In x l -> In y l -> nltb (f x) (f y) = if reversed then nltb y x else nltb x y.
(** [f] may make different numbers equal, but never reverses them *)
Definition coarsens {T T'} {NT : Num T} {NT' : Num T'} (f : T -> T') (l : list T) : Prop :=
  forall x y, In x l -> In y l -> nltb (f x) (f y) = true -> nltb x y = true.

Section Two.
  Context {T : Type} {NT : Num T} {NO : NumOrd T} {T' : Type} {NT' : Num T'} {NO' : NumOrd T'}.

  Lemma span_keep (f : T -> T') C a lo hi lo' hi' : span1 C lo hi -> span1 (image f C) lo' hi' ->
    (forall c, C c -> nltb (f a) (f c) = nltb a c /\ nltb (f c) (f a) = nltb c a) ->
    nltb (f a) hi' = nltb a hi /\ nltb lo' (f a) = nltb lo a.
  Proof.
    intros (L & H & B) ((l & Cl & ->) & (h & Ch & ->) & B') M. split; apply Bool.eq_iff_eq_true; split; intros X.
    - rewrite (proj1 (M _ Ch)) in X. eapply nlt_le_trans; [exact X|]. now apply B.
    - rewrite <- (proj1 (M _ H)) in X. eapply nlt_le_trans; [exact X|]. apply B'. now exists hi.
    - rewrite (proj2 (M _ Cl)) in X. eapply nle_lt_trans; [|exact X]. now apply B.
    - rewrite <- (proj2 (M _ L)) in X. eapply nle_lt_trans; [|exact X]. apply B'. now exists lo.
  Qed.
  Lemma span_reverse (f : T -> T') C a lo hi lo' hi' : span1 C lo hi -> span1 (image f C) lo' hi' ->
    (forall c, C c -> nltb (f a) (f c) = nltb c a /\ nltb (f c) (f a) = nltb a c) ->
    nltb (f a) hi' = nltb lo a /\ nltb lo' (f a) = nltb a hi.
  Proof.
    intros (L & H & B) ((l & Cl & ->) & (h & Ch & ->) & B') M. split; apply Bool.eq_iff_eq_true; split; intros X.
    - rewrite (proj1 (M _ Ch)) in X. eapply nle_lt_trans; [|exact X]. now apply B.
    - rewrite <- (proj1 (M _ L)) in X. eapply nlt_le_trans; [exact X|]. apply B'. now exists lo.
    - rewrite (proj2 (M _ Cl)) in X. eapply nlt_le_trans; [exact X|]. now apply B.
    - rewrite <- (proj2 (M _ H)) in X. eapply nle_lt_trans; [|exact X]. apply B'. now exists hi.
  Qed.
  Lemma span_coarse (f : T -> T') C a lo hi lo' hi' : span1 C lo hi -> span1 (image f C) lo' hi' ->
    (forall c, C c -> (nltb (f a) (f c) = true -> nltb a c = true) /\ (nltb (f c) (f a) = true -> nltb c a = true)) ->
    (nltb (f a) hi' = true -> nltb a hi = true) /\ (nltb lo' (f a) = true -> nltb lo a = true).
  Proof.
    intros (L & H & B) ((l & Cl & ->) & (h & Ch & ->) & B') M. split; intros X.
    - apply (proj1 (M _ Ch)) in X. eapply nlt_le_trans; [exact X|]. now apply B.
    - apply (proj2 (M _ Cl)) in X. eapply nle_lt_trans; [|exact X]. now apply B.
  Qed.

  (** ** Meshes *)
  Definition map_point (fx fy : T -> T') (p : point T) : point T' := Pt (fx (px p)) (fy (py p)).
  (** a reversed coordinate exchanges the minimum and the maximum of a box *)
  Definition map_box (rx : bool) (fx : T -> T') (ry : bool) (fy : T -> T') (b : box T) : box T' :=
    Box (fx (if rx then xmax b else xmin b)) (fx (if rx then xmin b else xmax b))
        (fy (if ry then ymax b else ymin b)) (fy (if ry then ymin b else ymax b)).
  Definition all_x (vs : list (point T)) (boxes : list (box T)) : list T := map px vs ++ map xmin boxes ++ map xmax boxes.
  Definition all_y (vs : list (point T)) (boxes : list (box T)) : list T := map py vs ++ map ymin boxes ++ map ymax boxes.

  Lemma corner_map fx fy vs f p' : corner_of (map (map_point fx fy) vs) f p' <-> exists p, corner_of vs f p /\ p' = map_point fx fy p.
  Proof.
    unfold corner_of. split.
    - intros (i & A & B & C). rewrite nth_error_map in C. destruct (nth_error vs (Z.to_nat i)) as [p|] eqn:E; [|discriminate]. cbn in C.
      exists p. split; [eauto|congruence].
    - intros (p & (i & A & B & C) & ->). exists i. split; auto. split; auto. now apply map_nth_error.
  Qed.
  Lemma spans_x fx fy vs f b b' : spans vs f b -> spans (map (map_point fx fy) vs) f b' ->
    exists C, span1 C (xmin b) (xmax b) /\ span1 (image fx C) (xmin b') (xmax b') /\ forall c, C c -> In c (map px vs).
  Proof.
    intros (H & (p0 & C0 & E0) & (p1 & C1 & E1) & _) (H' & (p0' & C0' & E0') & (p1' & C1' & E1') & _).
    exists (fun x => exists p, corner_of vs f p /\ x = px p). split; [|split].
    - split; [eauto|]. split; [eauto|]. intros c (p & Cp & ->). destruct (H p Cp) as (A & B & _). auto.
    - split; [|split].
      + apply corner_map in C0' as (q & Cq & ->). cbn in E0'. exists (px q). split; eauto.
      + apply corner_map in C1' as (q & Cq & ->). cbn in E1'. exists (px q). split; eauto.
      + intros c (x & (p & Cp & ->) & ->). destruct (H' (map_point fx fy p)) as (A & B & _); [apply corner_map; eauto|]. cbn in A, B. auto.
    - intros c (p & (i & _ & _ & E) & ->). apply in_map. eapply nth_error_In; eauto.
  Qed.
  Lemma spans_y fx fy vs f b b' : spans vs f b -> spans (map (map_point fx fy) vs) f b' ->
    exists C, span1 C (ymin b) (ymax b) /\ span1 (image fy C) (ymin b') (ymax b') /\ forall c, C c -> In c (map py vs).
  Proof.
    intros (H & _ & _ & (p0 & C0 & E0) & (p1 & C1 & E1)) (H' & _ & _ & (p0' & C0' & E0') & (p1' & C1' & E1')).
    exists (fun x => exists p, corner_of vs f p /\ x = py p). split; [|split].
    - split; [eauto|]. split; [eauto|]. intros c (p & Cp & ->). destruct (H p Cp) as (_ & _ & A & B). auto.
    - split; [|split].
      + apply corner_map in C0' as (q & Cq & ->). cbn in E0'. exists (py q). split; eauto.
      + apply corner_map in C1' as (q & Cq & ->). cbn in E1'. exists (py q). split; eauto.
      + intros c (x & (p & Cp & ->) & ->). destruct (H' (map_point fx fy p)) as (_ & _ & A & B); [apply corner_map; eauto|]. cbn in A, B. auto.
    - intros c (p & (i & _ & _ & E) & ->). apply in_map. eapply nth_error_In; eauto.
  Qed.

  Lemma overlap_map rx fx ry fy vs boxes f b b' a :
    monotone rx fx (all_x vs boxes) -> monotone ry fy (all_y vs boxes) -> In a boxes ->
    spans vs f b -> spans (map (map_point fx fy) vs) f b' ->
    strict_overlap (map_box rx fx ry fy a) b' <-> strict_overlap a b.
  Proof.
    intros Mx My Ia S S'. destruct (spans_x _ _ _ _ _ _ S S') as (C & A & A' & I). destruct (spans_y _ _ _ _ _ _ S S') as (D & B & B' & J).
    assert (Lx : forall a c, In a boxes -> C c -> In c (all_x vs boxes) /\ In (xmin a) (all_x vs boxes) /\ In (xmax a) (all_x vs boxes)).
    { intros a0 c Ha Hc. unfold all_x. rewrite !in_app_iff. split; [left; auto|]. split; right; [left|right]; now apply in_map. }
    assert (Ly : forall a c, In a boxes -> D c -> In c (all_y vs boxes) /\ In (ymin a) (all_y vs boxes) /\ In (ymax a) (all_y vs boxes)).
    { intros a0 c Ha Hc. unfold all_y. rewrite !in_app_iff. split; [left; auto|]. split; right; [left|right]; now apply in_map. }
    assert (X : (nltb (xmin (map_box rx fx ry fy a)) (xmax b') = true /\ nltb (xmin b') (xmax (map_box rx fx ry fy a)) = true)
             <-> (nltb (xmin a) (xmax b) = true /\ nltb (xmin b) (xmax a) = true)).
    { cbn [map_box xmin xmax]. destruct rx.
      - destruct (span_reverse fx C (xmax a) _ _ _ _ A A') as (-> & _); [intros c Hc; destruct (Lx a c Ia Hc) as (? & ? & ?); split; now apply Mx|].
        destruct (span_reverse fx C (xmin a) _ _ _ _ A A') as (_ & ->); [intros c Hc; destruct (Lx a c Ia Hc) as (? & ? & ?); split; now apply Mx|]. tauto.
      - destruct (span_keep fx C (xmin a) _ _ _ _ A A') as (-> & _); [intros c Hc; destruct (Lx a c Ia Hc) as (? & ? & ?); split; now apply Mx|].
        destruct (span_keep fx C (xmax a) _ _ _ _ A A') as (_ & ->); [intros c Hc; destruct (Lx a c Ia Hc) as (? & ? & ?); split; now apply Mx|]. tauto. }
    assert (Y : (nltb (ymin (map_box rx fx ry fy a)) (ymax b') = true /\ nltb (ymin b') (ymax (map_box rx fx ry fy a)) = true)
             <-> (nltb (ymin a) (ymax b) = true /\ nltb (ymin b) (ymax a) = true)).
    { cbn [map_box ymin ymax]. destruct ry.
      - destruct (span_reverse fy D (ymax a) _ _ _ _ B B') as (-> & _); [intros c Hc; destruct (Ly a c Ia Hc) as (? & ? & ?); split; now apply My|].
        destruct (span_reverse fy D (ymin a) _ _ _ _ B B') as (_ & ->); [intros c Hc; destruct (Ly a c Ia Hc) as (? & ? & ?); split; now apply My|]. tauto.
      - destruct (span_keep fy D (ymin a) _ _ _ _ B B') as (-> & _); [intros c Hc; destruct (Ly a c Ia Hc) as (? & ? & ?); split; now apply My|].
        destruct (span_keep fy D (ymax a) _ _ _ _ B B') as (_ & ->); [intros c Hc; destruct (Ly a c Ia Hc) as (? & ? & ?); split; now apply My|]. tauto. }
    unfold strict_overlap. tauto.
  Qed.
  Lemma overlap_coarse fx fy vs boxes f b b' a :
    coarsens fx (all_x vs boxes) -> coarsens fy (all_y vs boxes) -> In a boxes ->
    spans vs f b -> spans (map (map_point fx fy) vs) f b' ->
    strict_overlap (map_box false fx false fy a) b' -> strict_overlap a b.
  Proof.
    intros Mx My Ia S S'. destruct (spans_x _ _ _ _ _ _ S S') as (C & A & A' & I). destruct (spans_y _ _ _ _ _ _ S S') as (D & B & B' & J).
    assert (Lx : forall a c, In a boxes -> C c -> In c (all_x vs boxes) /\ In (xmin a) (all_x vs boxes) /\ In (xmax a) (all_x vs boxes)).
    { intros a0 c Ha Hc. unfold all_x. rewrite !in_app_iff. split; [left; auto|]. split; right; [left|right]; now apply in_map. }
    assert (Ly : forall a c, In a boxes -> D c -> In c (all_y vs boxes) /\ In (ymin a) (all_y vs boxes) /\ In (ymax a) (all_y vs boxes)).
    { intros a0 c Ha Hc. unfold all_y. rewrite !in_app_iff. split; [left; auto|]. split; right; [left|right]; now apply in_map. }
    intros (X1 & X2 & Y1 & Y2). cbn [map_box xmin xmax ymin ymax] in X1, X2, Y1, Y2.
    split; [|split; [|split]].
    - revert X1. apply (span_coarse fx C (xmin a) _ _ _ _ A A'). intros c Hc. destruct (Lx a c Ia Hc) as (? & ? & ?); split; now apply Mx.
    - revert X2. apply (span_coarse fx C (xmax a) _ _ _ _ A A'). intros c Hc. destruct (Lx a c Ia Hc) as (? & ? & ?); split; now apply Mx.
    - revert Y1. apply (span_coarse fy D (ymin a) _ _ _ _ B B'). intros c Hc. destruct (Ly a c Ia Hc) as (? & ? & ?); split; now apply My.
    - revert Y2. apply (span_coarse fy D (ymax a) _ _ _ _ B B'). intros c Hc. destruct (Ly a c Ia Hc) as (? & ? & ?); split; now apply My.
  Qed.
End Two.

Section Meshes.
  Context {T : Type} {NT : Num T} {NO : NumOrd T}.

  Lemma face_spans g vs faces fill nb cpl (t : tree2d (T:=T)) : mesh_ok vs faces fill -> CellTree2d_init g vs faces fill nb cpl = Ok t ->
    Forall2 (spans vs) (map (with_fill fill) faces) (bb_coords (celltree_data t)).
  Proof.
    intros M E. destruct (C39_bounding_boxes _ _ _ _ _ _ _ M E) as (B & S & _). revert B. generalize (bb_coords (celltree_data t)). induction S as [|f f' l l' Hf _ IH]; intros bbs B; [inversion B; constructor|]. inversion B as [|? b ? bs Hb HB]; subst. constructor; [|now apply IH].
    destruct Hb as (poly & P & Tb). apply (tight_spans _ _ _ _ P) in Tb.
    assert (W : forall p, corner_of vs f' p <-> corner_of vs f p).
    { intros p. unfold corner_of. destruct Hf as (_ & [->| ->]); [tauto|]. split; intros (i & I & X); exists i; (split; [|exact X]); now apply in_rev in I || now rewrite <- in_rev. }
    destruct Tb as (A & (p0 & C0 & E0) & (p1 & C1 & E1) & (p2 & C2 & E2) & (p3 & C3 & E3)). apply W in C0, C1, C2, C3.
    split; [intros p Hp; apply A; now apply W|].
    split; [exists p0; auto|]. split; [exists p1; auto|]. split; [exists p2; auto|exists p3; auto].
  Qed.
End Meshes.

Section Main.
  Context {T : Type} {NT : Num T} {NO : NumOrd T} {T' : Type} {NT' : Num T'} {NO' : NumOrd T'}.
  Variables (g : garbage T) (g' : garbage T') (vs : list (point T)) (faces : list (list Z)) (fill nb cpl nb' cpl' : Z).
  Variables (fx fy : T -> T') (t : tree2d (T:=T)) (t' : tree2d (T:=T')).
  Let vs' := map (map_point fx fy) vs.
  Hypothesis M : mesh_ok vs faces fill.
  Hypothesis E : CellTree2d_init g vs faces fill nb cpl = Ok t.
  Hypothesis M' : mesh_ok vs' faces fill.
  Hypothesis E' : CellTree2d_init g' vs' faces fill nb' cpl' = Ok t'.

  Theorem C80_locate_boxes rx ry boxes : monotone rx fx (all_x vs boxes) -> monotone ry fy (all_y vs boxes) ->
    exists pairs pairs', (forall h n, (1 <= n)%nat -> CellTree2d_locate_boxes h n t boxes = Ok pairs)
      /\ (forall h n, (1 <= n)%nat -> CellTree2d_locate_boxes h n t' (map (map_box rx fx ry fy) boxes) = Ok pairs')
      /\ Permutation pairs pairs'.
  Proof.
    intros Mx My.
    destruct (boxes_result t boxes (built_valid _ _ _ _ _ (init_built _ _ _ _ _ _ _ M E))) as (r & H1 & H2 & H3 & _).
    destruct (boxes_result t' (map (map_box rx fx ry fy) boxes) (built_valid _ _ _ _ _ (init_built _ _ _ _ _ _ _ M' E'))) as (r' & H1' & H2' & H3' & _).
    exists r, r'. split; auto. split; auto. apply NoDup_Permutation; auto. intros (i, j). rewrite H3, H3'. unfold boxes_pair.
    pose proof (face_spans _ _ _ _ _ _ _ M E) as S. pose proof (face_spans _ _ _ _ _ _ _ M' E') as S'. split.
    - intros (a & b & I & J & Ea & Eb & O). destruct (F2_nth_r _ _ _ _ _ S Eb) as (f & Ef & Sb). destruct (Forall2_nth_l _ _ _ _ _ S' Ef) as (b' & Eb' & Sb').
      exists (map_box rx fx ry fy a), b'. split; auto. split; auto. split; [now apply map_nth_error|]. split; auto.
      apply (overlap_map rx fx ry fy vs boxes f b b' a); auto. eapply nth_error_In; eauto.
    - intros (a' & b' & I & J & Ea & Eb & O). rewrite nth_error_map in Ea. destruct (nth_error boxes (Z.to_nat i)) as [a|] eqn:Ea'; [|discriminate]. injection Ea as <-.
      destruct (F2_nth_r _ _ _ _ _ S' Eb) as (f & Ef & Sb'). destruct (Forall2_nth_l _ _ _ _ _ S Ef) as (b & Eb' & Sb).
      exists a, b. split; auto. split; auto. split; auto. split; auto.
      apply (overlap_map rx fx ry fy vs boxes f b b' a); auto. eapply nth_error_In; eauto.
  Qed.

  Theorem C80_coarser boxes : coarsens fx (all_x vs boxes) -> coarsens fy (all_y vs boxes) ->
    exists pairs pairs', (forall h n, (1 <= n)%nat -> CellTree2d_locate_boxes h n t boxes = Ok pairs)
      /\ (forall h n, (1 <= n)%nat -> CellTree2d_locate_boxes h n t' (map (map_box false fx false fy) boxes) = Ok pairs')
      /\ incl pairs' pairs.
  Proof.
    intros Mx My.
    destruct (boxes_result t boxes (built_valid _ _ _ _ _ (init_built _ _ _ _ _ _ _ M E))) as (r & H1 & H2 & H3 & _).
    destruct (boxes_result t' (map (map_box false fx false fy) boxes) (built_valid _ _ _ _ _ (init_built _ _ _ _ _ _ _ M' E'))) as (r' & H1' & H2' & H3' & _).
    exists r, r'. split; auto. split; auto. intros (i, j). rewrite H3, H3'. unfold boxes_pair.
    pose proof (face_spans _ _ _ _ _ _ _ M E) as S. pose proof (face_spans _ _ _ _ _ _ _ M' E') as S'.
    intros (a' & b' & I & J & Ea & Eb & O). rewrite nth_error_map in Ea. destruct (nth_error boxes (Z.to_nat i)) as [a|] eqn:Ea'; [|discriminate]. injection Ea as <-.
    destruct (F2_nth_r _ _ _ _ _ S' Eb) as (f & Ef & Sb'). destruct (Forall2_nth_l _ _ _ _ _ S Ef) as (b & Eb' & Sb).
    exists a, b. split; auto. split; auto. split; auto. split; auto.
    apply (overlap_coarse fx fy vs boxes f b b' a); auto. eapply nth_error_In; eauto.
  Qed.
End Main.

(** ** binary64 and exact reals give the same pairs *)
Open Scope R_scope.
Definition finite_box (b : box b64) : Prop := fin (xmin b) /\ fin (xmax b) /\ fin (ymin b) /\ fin (ymax b).
Lemma fmax_bpow : bpow radix2 emax - bpow radix2 (emax - prec) = FMAX.
Proof.
  unfold FMAX. rewrite minus_IZR. change (2 ^ 1024)%Z with (radix2 ^ 1024)%Z. change (2 ^ 971)%Z with (radix2 ^ 971)%Z.
  rewrite !IZR_Zpower by (vm_compute; discriminate). reflexivity.
Qed.
Lemma fin_R (x : b64) : fin x -> fin (B2R x).
Proof. intros H. pose proof (fin_bound x H) as B. rewrite fmax_bpow in B. cbn. lra. Qed.
Lemma exact_order (x y : b64) : fin x -> fin y -> nltb (B2R x) (B2R y) = nltb x y.
Proof. intros Hx Hy. cbn. symmetry. now apply Bltb_correct. Qed.
Lemma exact_mesh (vs : list (point b64)) faces fill : mesh_ok vs faces fill -> mesh_ok (map (map_point B2R B2R) vs) faces fill.
Proof.
  intros [A B C]. constructor; [|exact B|now rewrite map_length]. apply Forall_map. eapply Forall_impl; [|exact A].
  intros p (X & Y). split; cbn [map_point px py]; now apply fin_R.
Qed.

Theorem C80_exact g g' (vs : list (point b64)) faces fill nb cpl nb' cpl' t t' boxes :
  mesh_ok vs faces fill -> CellTree2d_init g vs faces fill nb cpl = Ok t ->
  CellTree2d_init (T:=R) g' (map (map_point B2R B2R) vs) faces fill nb' cpl' = Ok t' ->
  Forall finite_box boxes ->
  exists pairs pairs', (forall h n, (1 <= n)%nat -> CellTree2d_locate_boxes h n t boxes = Ok pairs)
    /\ (forall h n, (1 <= n)%nat -> CellTree2d_locate_boxes (T:=R) h n t' (map (map_box false B2R false B2R) boxes) = Ok pairs')
    /\ Permutation pairs pairs'.
Proof.
  intros M E E' F. apply (C80_locate_boxes g g' vs faces fill nb cpl nb' cpl' B2R B2R t t' M E (exact_mesh _ _ _ M) E' false false boxes).
  - assert (A : forall x, In x (all_x vs boxes) -> fin x).
    { intros x H. unfold all_x in H. rewrite !in_app_iff, !in_map_iff in H. destruct M as [V _ _]. rewrite Forall_forall in V, F.
      destruct H as [(p & <- & H)|[(b & <- & H)|(b & <- & H)]]; [apply (V _ H)|apply (F _ H)|apply (F _ H)]. }
    intros x y Hx Hy. apply exact_order; auto.
  - assert (A : forall x, In x (all_y vs boxes) -> fin x).
    { intros x H. unfold all_y in H. rewrite !in_app_iff, !in_map_iff in H. destruct M as [V _ _]. rewrite Forall_forall in V, F.
      destruct H as [(p & <- & H)|[(b & <- & H)|(b & <- & H)]]; [apply (V _ H)|apply (F _ H)|apply (F _ H)]. }
    intros x y Hx Hy. apply exact_order; auto.
Qed.

(** ** Examples *)
Open Scope Z_scope.
Definition monotoneb {T T'} {NT : Num T} {NT' : Num T'} (r : bool) (f : T -> T') (l : list T) : bool :=
  forallb (fun x => forallb (fun y => Bool.eqb (nltb (f x) (f y)) (if r then nltb y x else nltb x y)) l) l.
Lemma monotoneb_ok {T T'} {NT : Num T} {NT' : Num T'} r (f : T -> T') l : monotoneb r f l = true -> monotone r f l.
Proof.
  intros H x y Hx Hy. unfold monotoneb in H. rewrite forallb_forall in H. specialize (H x Hx). rewrite forallb_forall in H.
  specialize (H y Hy). now apply Bool.eqb_prop.
Qed.
Lemma ok_exists {A} (m : res A) : isOk m = true -> exists t, m = Ok t.
Proof. destruct m as [t|e]; [|discriminate]. eauto. Qed.

Definition cube (x : b64) : b64 := nmul x (nmul x x).
Definition down (y : b64) : b64 := nsub (Zb 5) y.
Definition qboxes : list (box b64) := [Box (Zb 1) (Zb 2) (Zb 0) (Zb 2); Box nhalf (Zb 1) (Zb 1) (Zb 2)].
Definition warped : list (point b64) := map (map_point cube down) grid.
Definition wboxes : list (box b64) := map (map_box false cube true down) qboxes.

(** binary64: x is cubed, the y axis points down *)
Example C80_example : exists t t',
  mesh_ok (T:=b64) grid grid_faces (-1) /\ CellTree2d_init g0 grid grid_faces (-1) 4 2 = Ok t
  /\ mesh_ok warped grid_faces (-1) /\ CellTree2d_init g0 warped grid_faces (-1) 4 1 = Ok t'
  /\ monotone false cube (all_x grid qboxes) /\ monotone true down (all_y grid qboxes)
  /\ CellTree2d_locate_boxes g0 1 t qboxes = Ok [(0, 4); (0, 1); (1, 3)]
  /\ CellTree2d_locate_boxes g0 1 t' wboxes = Ok [(0, 1); (0, 4); (1, 3)].
Proof.
  assert (H : exists t, CellTree2d_init (T:=b64) g0 grid grid_faces (-1) 4 2 = Ok t) by (apply ok_exists; vm_compute; reflexivity).
  assert (H' : exists t, CellTree2d_init (T:=b64) g0 warped grid_faces (-1) 4 1 = Ok t) by (apply ok_exists; vm_compute; reflexivity).
  destruct H as (t & E). destruct H' as (t' & E'). exists t, t'.
  split; [exact grid_mesh_B64|]. split; [exact E|]. split; [constructor; [repeat constructor|discriminate|exact grid_faces_wf]|]. split; [exact E'|].
  split; [apply monotoneb_ok; vm_compute; reflexivity|]. split; [apply monotoneb_ok; vm_compute; reflexivity|]. split.
  - apply (of_ok_some _ (fun t => CellTree2d_locate_boxes g0 1 t qboxes) _ _ E). vm_compute. reflexivity.
  - apply (of_ok_some _ (fun t => CellTree2d_locate_boxes g0 1 t wboxes) _ _ E'). vm_compute. reflexivity.
Qed.

(** coordinates rounded to tens: of the pairs of the first box one is left, the second box finds nothing *)
Definition tens (x : b64) : b64 :=
  if nltb x (Zb 5) then Zb 0 else if nltb x (Zb 15) then Zb 10 else if nltb x (Zb 25) then Zb 20 else Zb 30.
Definition fine : list (point b64) := map (fun p => ptZ (10 * fst p, 10 * snd p)) grid_pts.
Definition fboxes : list (box b64) := [Box (Zb 9) (Zb 21) (Zb 1) (Zb 9); Box (Zb 19) (Zb 21) (Zb 1) (Zb 9)].
Definition coarsensb (f : b64 -> b64) (l : list b64) : bool :=
  forallb (fun x => forallb (fun y => implb (nltb (f x) (f y)) (nltb x y)) l) l.
Lemma coarsensb_ok f l : coarsensb f l = true -> coarsens f l.
Proof.
  intros H x y Hx Hy L. unfold coarsensb in H. rewrite forallb_forall in H. specialize (H x Hx). rewrite forallb_forall in H.
  specialize (H y Hy). cbv beta in H. rewrite L in H. exact H.
Qed.
Example C80_coarser_example : exists t t',
  mesh_ok fine grid_faces (-1) /\ CellTree2d_init g0 fine grid_faces (-1) 4 2 = Ok t
  /\ mesh_ok (map (map_point tens tens) fine) grid_faces (-1) /\ CellTree2d_init g0 (map (map_point tens tens) fine) grid_faces (-1) 4 2 = Ok t'
  /\ coarsens tens (all_x fine fboxes) /\ coarsens tens (all_y fine fboxes)
  /\ CellTree2d_locate_boxes g0 1 t fboxes = Ok [(0, 2); (0, 0); (0, 1); (1, 2); (1, 1)]
  /\ CellTree2d_locate_boxes g0 1 t' (map (map_box false tens false tens) fboxes) = Ok [(0, 1)].
Proof.
  assert (H : exists t, CellTree2d_init (T:=b64) g0 fine grid_faces (-1) 4 2 = Ok t) by (apply ok_exists; vm_compute; reflexivity).
  assert (H' : exists t, CellTree2d_init (T:=b64) g0 (map (map_point tens tens) fine) grid_faces (-1) 4 2 = Ok t) by (apply ok_exists; vm_compute; reflexivity).
  destruct H as (t & E). destruct H' as (t' & E'). exists t, t'.
  split; [constructor; [repeat constructor|discriminate|exact grid_faces_wf]|]. split; [exact E|].
  split; [constructor; [repeat constructor|discriminate|exact grid_faces_wf]|]. split; [exact E'|].
  split; [apply coarsensb_ok; vm_compute; reflexivity|]. split; [apply coarsensb_ok; vm_compute; reflexivity|]. split.
  - apply (of_ok_some _ (fun t => CellTree2d_locate_boxes g0 1 t fboxes) _ _ E). vm_compute. reflexivity.
  - apply (of_ok_some _ (fun t => CellTree2d_locate_boxes g0 1 t (map (map_box false tens false tens) fboxes)) _ _ E'). vm_compute. reflexivity.
Qed.

(** the grid over both kinds of numbers *)
Example C80_exact_example : exists t t', mesh_ok (T:=b64) grid grid_faces (-1) /\ CellTree2d_init (T:=b64) g0 grid grid_faces (-1) 4 2 = Ok t
  /\ CellTree2d_init (T:=R) g0 (map (map_point B2R B2R) (grid (T:=b64))) grid_faces (-1) 4 2 = Ok t' /\ Forall finite_box qboxes.
Proof.
  assert (H : exists t, CellTree2d_init (T:=b64) g0 grid grid_faces (-1) 4 2 = Ok t) by (apply ok_exists; vm_compute; reflexivity).
  destruct H as (t & E). destruct C04_example as (t' & E').
  exists t, t'. split; [exact grid_mesh_B64|]. split; [exact E|].
  split; [|repeat constructor].
  assert (G : map (map_point B2R B2R) (grid (T:=b64)) = grid (T:=R)); [|now rewrite G].
  unfold grid, grid_pts. cbn [map]. unfold map_point, ptZ. cbn [px py fst snd nofZ NumB64 NumR].
  repeat match goal with |- context [B2R (Zb ?n)] => rewrite (proj2 (Zb_exact n ltac:(lia))) end. reflexivity.
Qed.

Print Assumptions C80_locate_boxes.
Print Assumptions C80_coarser.
Print Assumptions C80_exact.
Print Assumptions C80_example.
Print Assumptions C80_coarser_example.
Print Assumptions C80_exact_example.
