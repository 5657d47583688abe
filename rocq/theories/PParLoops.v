(** The parallel loops of MPar.v compute what the sequential loops compute,
    under every schedule. *)
From Verif Require Import Base Num MUtils MGeometry MCreation MAlgorithms MQuery MPar SpecPar PPar PGarbage.

Lemma mapres_ext_in {A B} (f h : A -> res B) l : (forall x, In x l -> f x = h x) -> mapres f l = mapres h l.
Proof.
  induction l as [|x l IH]; simpl; intros H; auto. rewrite H, IH by auto. auto.
Qed.

Lemma mapres_map {A B D} (h : A -> res B) (k : B -> D) l :
  mapres (fun x => let* y := h x in Ok (k y)) l = let* ys := mapres h l in Ok (map k ys).
Proof.
  induction l as [|x l IH]; simpl; auto. destruct (h x); simpl; auto. rewrite IH.
  destruct (mapres h l); simpl; auto.
Qed.

Lemma nth_error_mid {A} (pre : list A) x l : nth_error (pre ++ x :: l) (length pre) = Some x.
Proof. rewrite nth_error_app2, Nat.sub_diag by lia. auto. Qed.

Lemma mapres_items {A B R} (items : list A) (rows : list R) (h : A -> res B) :
  length items = length rows ->
  mapres (fun ir : nat * R => match nth_error items (fst ir) with Some x => h x | None => Err EIndex end)
         (combine (seq 0 (length rows)) rows) = mapres h items.
Proof.
  intros Hl.
  assert (G : forall its (rs : list R) pre, length its = length rs -> items = pre ++ its ->
    mapres (fun ir : nat * R => match nth_error items (fst ir) with Some x => h x | None => Err EIndex end)
           (combine (seq (length pre) (length rs)) rs) = mapres h its).
  { induction its as [|x its IH]; intros [|r rs] pre H E; try discriminate; auto.
    cbn [length seq combine mapres fst]. rewrite E at 1. rewrite nth_error_mid.
    specialize (IH rs (pre ++ [x])). rewrite app_length in IH. cbn [length] in IH.
    rewrite Nat.add_1_r in IH. rewrite IH; auto. now rewrite <- app_assoc. }
  apply (G items rows []); auto.
Qed.

Lemma aget_iota_seq (n : nat) i x : nth_error (iota n) i = Some x -> x = Z.of_nat i.
Proof.
  unfold iota. rewrite nth_error_map. destruct (nth_error (seq 0 n) i) eqn:E; [|discriminate].
  simpl. intros H. inversion H. f_equal.
  assert (Hi : (i < length (seq 0 n))%nat) by (apply nth_error_Some; congruence).
  rewrite seq_length in Hi. rewrite (nth_error_nth' _ O) in E by now rewrite seq_length.
  rewrite seq_nth in E by auto. inversion E. auto.
Qed.

(** The loop over [items]: row [i] of the result is [k (h items[i])] *)
Theorem loop_schedules {C A D} (body : nat -> prog C unit) rows0 (items : list A) (h : A -> res D) (k : D -> list C) :
  length items = length rows0 ->
  (forall i, within (in_row i) (body i)) ->
  (forall i row x, nth_error rows0 i = Some row -> nth_error items i = Some x ->
     computes (body i) i row (let* d := h x in Ok (tt, k d))) ->
  every_schedule body rows0 (let* ds := mapres h items in Ok (map k ds)).
Proof.
  intros Hl Hw Hc. rewrite <- mapres_map, <- (mapres_items items rows0) by auto.
  apply (rows_schedules body rows0 (fun i row => match nth_error items i with
      | Some x => let* y := h x in Ok (k y) | None => Err EIndex end)); auto.
  intros i row E. assert (Hi : (i < length rows0)%nat) by (apply nth_error_Some; congruence).
  destruct (nth_error items i) as [x|] eqn:Ex; [|apply nth_error_None in Ex; lia].
  specialize (Hc i row x E Ex). destruct (h x); simpl in *; auto.
Qed.

Lemma aget_item {A} (l : list A) i x : nth_error l i = Some x -> aget l (Z.of_nat i) = Ok x.
Proof. apply aget_nat. Qed.

Ltac wloc := repeat first
  [ apply within_local | apply within_vget | apply within_vset | apply WRet | apply WCrash
  | (apply within_bindp; [|intro]) | (apply within_for_p; intros ? ?)
  | match goal with |- within _ (if ?b then _ else _) => destruct b end
  | match goal with |- within _ (let '(_, _) := ?b in _) => destruct b end ].

Section Loops.
  Context {T : Type} {NT : Num T}.
  Local Open Scope num_scope.
  Notation point := (point T).
  Notation celltree := (celltree T).
  Variable G : nat -> garbage T.
  Variable g : garbage T.

  Lemma fill_one_within {C} (f : nat -> res C) i : within (in_row i) (fill_one f i).
  Proof. unfold fill_one. wloc. Qed.

  Lemma fill_one_computes {C} (f : nat -> res C) i row (r : res C) : length row = 1%nat -> f i = r ->
    computes (fill_one f i) i row (let* d := r in Ok (tt, single d)).
  Proof.
    intros Hl <-. unfold fill_one. apply computes_local. intros x _.
    destruct row as [|c [|]]; try discriminate.
    exact (computes_vset_last i [c] 0 x).
  Qed.

  (** Loops that fill a one-dimensional array *)
  Theorem fill_one_schedules {C A} (f : nat -> res C) rows0 (items : list A) h :
    length items = length rows0 -> Forall (fun row => length row = 1%nat) rows0 ->
    (forall i x, nth_error items i = Some x -> f i = h x) ->
    every_schedule (fill_one f) rows0 (let* ds := mapres h items in Ok (map single ds)).
  Proof.
    intros Hl H1 Hf. apply loop_schedules; auto.
    - intros i. apply fill_one_within.
    - intros i row x E Ex. apply fill_one_computes; auto.
      rewrite Forall_forall in H1. apply H1. eapply nth_error_In; eauto.
  Qed.

  Theorem locate_points_schedules points (tree : celltree) tolerance rows0 :
    length rows0 = length points -> Forall (fun row => length row = 1%nat) rows0 ->
    every_schedule (locate_points_body G points tree tolerance) rows0
      (let* ds := locate_points g points tree tolerance in Ok (map single ds)).
  Proof.
    intros Hl H1. apply fill_one_schedules; auto. intros i p Ep. rewrite (aget_item _ _ _ Ep). cbn [bind].
    apply locate_point_any.
  Qed.

  Theorem locate_points_on_edge_schedules points (tree : celltree) tolerance rows0 :
    length rows0 = length points -> Forall (fun row => length row = 1%nat) rows0 ->
    every_schedule (locate_points_on_edge_body G points tree tolerance) rows0
      (let* ds := locate_points_on_edge g points tree tolerance in Ok (map single ds)).
  Proof.
    intros Hl H1. apply fill_one_schedules; auto. intros i p Ep. rewrite (aget_item _ _ _ Ep). cbn [bind].
    apply locate_point_on_edge_any.
  Qed.

  Theorem points_in_triangles_schedules points face_indices faces vertices (tolerance : T) rows0 :
    length rows0 = length points -> Forall (fun row => length row = 1%nat) rows0 ->
    every_schedule (points_in_triangles_body points face_indices faces vertices tolerance) rows0
      (let* ds := points_in_triangles points face_indices faces vertices tolerance in Ok (map single ds)).
  Proof.
    intros Hl H1. apply fill_one_schedules; auto; [now rewrite iota_length|].
    intros i x Ex. apply aget_iota_seq in Ex. subst x.
    destruct (aget face_indices (Z.of_nat i)); simpl; auto. destruct (aget faces a); simpl; auto.
    destruct (as_triangle vertices a0) as [[[u v] w]|]; simpl; auto.
  Qed.

  Theorem polygons_intersect_schedules va vb fa fb ij rows0 :
    length rows0 = length ij -> Forall (fun row => length row = 1%nat) rows0 ->
    every_schedule (polygons_intersect_body G va vb fa fb ij) rows0
      (let* ds := polygons_intersect g va vb fa fb ij in Ok (map single ds)).
  Proof.
    intros Hl H1. apply fill_one_schedules; auto. intros i p Ep. rewrite (aget_item _ _ _ Ep). cbn [bind].
    apply polygons_intersect_one_any.
  Qed.

  Theorem area_of_intersection_schedules va vb fa fb ij rows0 :
    length rows0 = length ij -> Forall (fun row => length row = 1%nat) rows0 ->
    every_schedule (area_of_intersection_body G va vb fa fb ij) rows0
      (let* ds := area_of_intersection g va vb fa fb ij in Ok (map single ds)).
  Proof.
    intros Hl H1. apply fill_one_schedules; auto. intros i p Ep. rewrite (aget_item _ _ _ Ep). cbn [bind].
    apply area_of_intersection_one_any.
  Qed.

  Theorem box_area_of_intersection_schedules boxes vs faces ij rows0 :
    length rows0 = length ij -> Forall (fun row => length row = 1%nat) rows0 ->
    every_schedule (box_area_of_intersection_body G boxes vs faces ij) rows0
      (let* ds := box_area_of_intersection g boxes vs faces ij in Ok (map single ds)).
  Proof.
    intros Hl H1. apply fill_one_schedules; auto. intros i p Ep. rewrite (aget_item _ _ _ Ep). cbn [bind].
    apply box_area_one_any.
  Qed.

  (** Bounding boxes *)
  Definition box_row (b : box T) : list T := [xmin b; xmax b; ymin b; ymax b].

  Lemma write_box_computes i row (b : box T) : length row = 4%nat -> computes (write_box i b) i row (Ok (tt, box_row b)).
  Proof.
    intros Hl. destruct row as [|c0 [|c1 [|c2 [|c3 [|]]]]]; try discriminate.
    unfold write_box.
    change (Ok (tt, box_row b)) with
      (let* r := aset [c0; c1; c2; c3] 0 (xmin b) in let* r := aset r 1 (xmax b) in
       let* r := aset r 2 (ymin b) in let* r := aset r 3 (ymax b) in Ok (tt, r)).
    apply (computes_vset i [c0; c1; c2; c3]). intros r1 E1 _. inversion E1; subst.
    apply (computes_vset i [xmin b; c1; c2; c3]). intros r2 E2 _. inversion E2; subst.
    apply (computes_vset i [xmin b; xmax b; c2; c3]). intros r3 E3 _. inversion E3; subst.
    apply (computes_vset_last i [xmin b; xmax b; ymin b; c3]).
  Qed.
  Lemma write_box_within i (b : box T) : within (in_row i) (write_box i b).
  Proof. unfold write_box. wloc. Qed.

  Theorem build_face_bboxes_schedules faces vertices rows0 :
    length rows0 = length faces -> Forall (fun row => length row = 4%nat) rows0 ->
    every_schedule (build_face_bboxes_body faces vertices) rows0
      (let* ds := build_face_bboxes faces vertices in Ok (map box_row ds)).
  Proof.
    intros Hl H1. apply loop_schedules; auto.
    - intros i. unfold build_face_bboxes_body. apply within_bindp; [wloc|]. intros b. apply write_box_within.
    - intros i row x E Ex. unfold build_face_bboxes_body. rewrite (aget_item _ _ _ Ex). cbn [bind].
      apply computes_local. intros b _. apply write_box_computes.
      rewrite Forall_forall in H1. apply H1. eapply nth_error_In; eauto.
  Qed.
  Theorem build_edge_bboxes_schedules edges vertices tolerance rows0 :
    length rows0 = length edges -> Forall (fun row => length row = 4%nat) rows0 ->
    every_schedule (build_edge_bboxes_body edges vertices tolerance) rows0
      (let* ds := build_edge_bboxes edges vertices tolerance in Ok (map box_row ds)).
  Proof.
    intros Hl H1. apply loop_schedules; auto.
    - intros i. unfold build_edge_bboxes_body. apply within_bindp; [wloc|]. intros b. apply write_box_within.
    - intros i row x E Ex. unfold build_edge_bboxes_body. rewrite (aget_item _ _ _ Ex). cbn [bind].
      apply computes_local. intros b _. apply write_box_computes.
      rewrite Forall_forall in H1. apply H1. eapply nth_error_In; eauto.
  Qed.

  (** Triangle weights *)
  Theorem triangle_weights_schedules points face_indices faces vertices :
    every_schedule (triangle_weights_body points face_indices faces vertices) (repeat [0; 0; 0] (length points))
      (barycentric_triangle_weights points face_indices faces vertices).
  Proof.
    assert (E : forall r : res (list (list T)), r = let* ds := r in Ok (map (fun x => x) ds)).
    { intros [l|]; simpl; auto. now rewrite map_id. }
    rewrite (E (barycentric_triangle_weights points face_indices faces vertices)).
    apply loop_schedules.
    - now rewrite iota_length, repeat_length.
    - intros i. unfold triangle_weights_body. wloc.
    - intros i row x Er Ex.
      assert (Hi : (i < length points)%nat).
      { rewrite <- (repeat_length [0; 0; 0] (length points)). apply nth_error_Some. congruence. }
      apply nth_error_In, repeat_spec in Er. subst row.
      apply aget_iota_seq in Ex. subst x. unfold triangle_weights_body.
      destruct (nth_error points i) as [p|] eqn:Ep; [|apply nth_error_None in Ep; lia].
      rewrite (aget_item _ _ _ Ep). cbn [bind local bindp].
      destruct (aget face_indices (Z.of_nat i)) as [f|e]; cbn [bind local bindp]; [|apply computes_err].
      unfold barycentric_triangle_one. destruct (f =? -1)%Z; [apply computes_ret|].
      destruct (aget faces f) as [face|e]; cbn [bind local bindp]; [|apply computes_err].
      destruct (as_triangle vertices face) as [[[a b] c]|e]; cbn [bind local bindp]; [|apply computes_err].
      destruct (triangle_weights a b c p) as [[[u v] w]|e]; cbn [bind local bindp]; [|apply computes_err].
      change (Ok (tt, [u; v; w])) with
        (let* r := aset [nofZ (T:=T) 0; 0; 0] 0 u in let* r := aset r 1 v in
         let* r := aset r 2 w in Ok (tt, r)).
      apply (computes_vset i [0; 0; 0]). intros r1 E1 _. inversion E1; subst.
      apply (computes_vset i [u; 0; 0]). intros r2 E2 _. inversion E2; subst.
      apply (computes_vset_last i [u; v; 0]).
  Qed.

  (** Wachspress weights *)
  Lemma zero_fill_computes i row : computes (for_p (length row) 0 (fun k _ => vset (View i (length row)) k 0) tt) i row
    (Ok (tt, map (fun _ => nofZ (T:=T) 0) row)).
  Proof.
    assert (H : forall m lo (r : list T), length r = length row -> Z.of_nat (length r) = (lo + Z.of_nat m)%Z -> (0 <= lo)%Z ->
      computes (for_p m lo (fun k _ => vset (View i (length row)) k 0) tt) i r
        (Ok (tt, firstn (Z.to_nat lo) r ++ map (fun _ => nofZ (T:=T) 0) (skipn (Z.to_nat lo) r)))).
    { induction m as [|m IH]; intros lo r Hr Hlo H0.
      - cbn [for_p]. rewrite skipn_all2, firstn_all2 by lia. simpl. rewrite app_nil_r. apply computes_ret.
      - cbn [for_p]. assert (Hlt : (Z.to_nat lo < length r)%nat) by lia.
        eapply computes_bind; [rewrite <- Hr; apply computes_vset_last|].
        rewrite aset_pos by (unfold zlen; lia). cbn [bind].
        replace (firstn (Z.to_nat lo) r ++ map (fun _ => nofZ (T:=T) 0) (skipn (Z.to_nat lo) r))
          with (firstn (Z.to_nat (lo + 1)) (list_set r (Z.to_nat lo) 0)
                ++ map (fun _ => nofZ (T:=T) 0) (skipn (Z.to_nat (lo + 1)) (list_set r (Z.to_nat lo) (nofZ 0)))).
        { apply IH; rewrite ?list_set_length; auto; lia. }
        replace (Z.to_nat (lo + 1)) with (S (Z.to_nat lo)) by lia.
        clear - Hlt. revert Hlt. generalize (Z.to_nat lo). clear. revert r.
        induction r as [|x r IH]; intros [|n] H; simpl in *; try lia; auto.
        f_equal. apply IH. lia. }
    pose proof (H (length row) 0%Z row eq_refl ltac:(lia) ltac:(lia)) as HH. simpl in HH. exact HH.
  Qed.

  Definition row_of {X Y} (r : res X) (f : X -> Y * list T) : res (Y * list T) := let* x := r in Ok (f x).

  Lemma interp_computes a U p i row j1 j2 :
    computes (interp_edge_case_p a U p (View i (length row)) j1 j2) i row
      (let* r := interp_edge_case a U p row j1 j2 in Ok (tt, r)).
  Proof.
    unfold interp_edge_case_p, interp_edge_case.
    eapply computes_bind; [apply zero_fill_computes|]. cbv beta iota.
    set (row0 := map (fun _ => nofZ (T:=T) 0) row).
    assert (El : length row = length row0) by (unfold row0; now rewrite map_length).
    destruct (ndiv _ _) as [w|e]; cbn [local bindp bind]; [|apply computes_err].
    rewrite El. destruct (aset row0 j1 (1 - w)) as [r1|e] eqn:E1.
    - eapply computes_bind; [apply computes_vset_last|]. rewrite E1. cbn [bind].
      rewrite <- (aset_length _ _ _ _ E1). apply computes_vset_last.
    - eapply computes_bind; [apply computes_vset_last|]. rewrite E1. cbn [bind]. eauto.
  Qed.

  Lemma interp_length a U p (row r : list T) j1 j2 : interp_edge_case a U p row j1 j2 = Ok r -> length r = length row.
  Proof.
    unfold interp_edge_case. destruct (ndiv _ _); simpl; [|discriminate].
    destruct (aset _ j1 _) as [r1|] eqn:E1; simpl; [|discriminate]. intros E2.
    rewrite (aset_length _ _ _ _ E2), (aset_length _ _ _ _ E1). apply map_length.
  Qed.

  Definition wloop_res (r : res (list T + list T * T)) : res (option T * list T) :=
    let* x := r in Ok (match x with inl ws => (None, ws) | inr (ws, s) => (Some s, ws) end).

  Lemma wloop_computes polygon p tolerance n i : forall m j row w_sum a b U Ai,
    computes (wachspress_loop_p polygon p tolerance n m j (View i (length row)) w_sum a b U Ai) i row
      (wloop_res (wachspress_loop polygon p tolerance n m j row w_sum a b U Ai))
    /\ forall x, wachspress_loop polygon p tolerance n m j row w_sum a b U Ai = Ok x ->
         length (match x with inl ws => ws | inr (ws, _) => ws end) = length row.
  Proof.
    induction m as [|m IH]; intros j row w_sum a b U Ai; cbn [wachspress_loop_p wachspress_loop].
    - split; [apply computes_ret|]. intros x E. inversion E; auto.
    - destruct (aget polygon _) as [c|e]; cbn [local bindp bind]; [|split; [apply computes_err|discriminate]].
      destruct (within_perpendicular_distance _ _ _).
      + split.
        * eapply computes_bind; [apply interp_computes|].
          destruct (interp_edge_case _ _ _ _ _ _); cbn [bind]; unfold wloop_res; cbn [bind]; [apply computes_ret|eauto].
        * intros x. destruct (interp_edge_case _ _ _ _ _ _) eqn:E; cbn [bind]; [|discriminate].
          intros H. inversion H; subst. eapply interp_length; eauto.
      + destruct (ndiv _ _) as [w|e]; cbn [local bindp bind]; [|split; [apply computes_err|discriminate]].
        destruct (aset row j w) as [r|e] eqn:E; cbn [bind].
        * pose proof (aset_length _ _ _ _ E) as Hl. split.
          -- eapply computes_bind; [apply computes_vset_last|]. rewrite E. cbn [bind]. rewrite <- Hl. apply IH.
          -- intros x Hx. rewrite <- Hl. eapply IH; eauto.
        * split; [|discriminate]. eapply computes_bind; [apply computes_vset_last|]. rewrite E. cbn [bind].
          unfold wloop_res. cbn [bind]. eauto.
  Qed.

  Lemma wachspress_computes polygon p tolerance i row :
    computes (wachspress_weights_p polygon p (View i (length row)) tolerance) i row
      (let* r := wachspress_weights polygon p row tolerance in Ok (tt, r)).
  Proof.
    unfold wachspress_weights_p, wachspress_weights.
    destruct (aget polygon (-1)%Z) as [a|e]; cbn [local bindp bind]; [|apply computes_err].
    destruct (aget polygon 0%Z) as [b|e]; cbn [local bindp bind]; [|apply computes_err].
    destruct (within_perpendicular_distance _ _ _); [apply interp_computes|].
    destruct (wloop_computes polygon p tolerance (zlen polygon) i (length polygon) 0%Z row 0 a b (to_vector a b)
                (nabs (cross_product (to_vector a b) (to_vector a p)))) as (Hc & Hl).
    eapply computes_bind; [exact Hc|]. unfold wloop_res.
    destruct (wachspress_loop _ _ _ _ _ _ _ _ _ _ _ _) as [[ws|[ws s]]|e] eqn:E; cbn [bind].
    - apply computes_ret.
    - specialize (Hl _ eq_refl). cbn beta iota in Hl. rewrite <- Hl. unfold for_range.
      apply (computes_for i (Z.to_nat (zlen polygon - 0)) 0%Z
               (fun (i0 : Z) (_ : unit) => bindp (vget (View i (length ws)) i0) (fun w => bindp (local (ndiv w s)) (fun w => vset (View i (length ws)) i0 w)))
               (fun i0 weights => let* w := aget weights i0 in let* w := ndiv w s in aset weights i0 w) ws).
      intros j row' Hr. split.
      + rewrite <- Hr.
        replace (let* r := (let* w := aget row' j in let* w0 := ndiv w s in aset row' j w0) in Ok (tt, r))
          with (let* w := aget row' j in (let* w0 := ndiv w s in let* r := aset row' j w0 in Ok (tt, r))).
        * apply computes_vget. intros w _. apply computes_local. intros w' _. apply computes_vset_last.
        * destruct (aget row' j); simpl; auto. destruct (ndiv a0 s); simpl; auto.
      + intros r. destruct (aget row' j); simpl; [|discriminate]. destruct (ndiv a0 s); simpl; [|discriminate].
        intros Er. rewrite (aset_length _ _ _ _ Er). auto.
    - eauto.
  Qed.

  Lemma interp_within a U p i n j1 j2 : within (in_row i) (interp_edge_case_p a U p (View i n) j1 j2).
  Proof. unfold interp_edge_case_p. wloc. Qed.
  Lemma wloop_within polygon p tolerance n i nn : forall m j w_sum a b U Ai,
    within (in_row i) (wachspress_loop_p polygon p tolerance n m j (View i nn) w_sum a b U Ai).
  Proof.
    induction m as [|m IH]; intros; cbn [wachspress_loop_p]; [constructor|].
    apply within_bindp; [wloc|]. intros c. destruct (within_perpendicular_distance _ _ _).
    - apply within_bindp; [apply interp_within|]. intros; constructor.
    - apply within_bindp; [wloc|]. intros w. apply within_bindp; [wloc|]. intros _. apply IH.
  Qed.
  Lemma wachspress_within polygon p tolerance i n : within (in_row i) (wachspress_weights_p polygon p (View i n) tolerance).
  Proof.
    unfold wachspress_weights_p. apply within_bindp; [wloc|]. intros a. apply within_bindp; [wloc|]. intros b.
    destruct (within_perpendicular_distance _ _ _); [apply interp_within|].
    apply within_bindp; [apply wloop_within|]. intros [s|]; wloc.
  Qed.

  Theorem wachspress_schedules n_max_vert points face_indices faces vertices tolerance :
    every_schedule (wachspress_body G n_max_vert points face_indices faces vertices tolerance)
      (repeat (repeat (nofZ 0) n_max_vert) (length points))
      (barycentric_wachspress_weights g n_max_vert points face_indices faces vertices tolerance).
  Proof.
    assert (E : forall r : res (list (list T)), r = let* ds := r in Ok (map (fun x => x) ds)).
    { intros [l|]; simpl; auto. now rewrite map_id. }
    rewrite (E (barycentric_wachspress_weights _ _ _ _ _ _ _)).
    apply loop_schedules.
    - now rewrite iota_length, repeat_length.
    - intros i. unfold wachspress_body. apply within_bindp; [wloc|]. intros f. destruct (f =? -1)%Z; [constructor|].
      apply within_bindp; [wloc|]. intros polygon. apply within_bindp; [wloc|]. intros p. apply wachspress_within.
    - intros i row x Er Ex.
      assert (Hi : (i < length points)%nat).
      { rewrite <- (repeat_length (repeat (nofZ (T:=T) 0) n_max_vert) (length points)). apply nth_error_Some. congruence. }
      apply nth_error_In, repeat_spec in Er. subst row.
      apply aget_iota_seq in Ex. subst x. unfold wachspress_body.
      destruct (nth_error points i) as [p|] eqn:Ep; [|apply nth_error_None in Ep; lia].
      rewrite (aget_item _ _ _ Ep). cbn [bind local bindp].
      destruct (aget face_indices (Z.of_nat i)) as [f|e]; cbn [bind local bindp]; [|apply computes_err].
      unfold barycentric_wachspress_one. destruct (f =? -1)%Z; [apply computes_ret|].
      destruct (aget faces f) as [face|e]; cbn [bind local bindp]; [|apply computes_err].
      rewrite (copy_vertices_any (G i) g). destruct (copy_vertices g vertices face) as [polygon|e]; cbn [bind local bindp]; [|apply computes_err].
      pose proof (wachspress_computes polygon p tolerance i (repeat (nofZ 0) n_max_vert)) as Hc.
      rewrite repeat_length in Hc. exact Hc.
  Qed.

  (** Counter-clockwise order, in place *)
  Lemma polygon_length_aux_computes i (row : list Z) : forall fuel k, (k + fuel = length row)%nat ->
    computes (polygon_length_aux_p (View i (length row)) k fuel) i row (Ok (polygon_length_aux k (skipn k row), row)).
  Proof.
    induction fuel as [|fuel IH]; intros k Hk; cbn [polygon_length_aux_p].
    - rewrite skipn_all2 by lia. apply computes_ret.
    - destruct (nth_error row k) as [x|] eqn:E; [|apply nth_error_None in E; lia].
      assert (Es : skipn k row = x :: skipn (S k) row).
      { clear - E. revert k E. induction row as [|y row IHr]; intros [|k] E; simpl in *; try discriminate; [congruence|].
        apply IHr; auto. }
      rewrite Es. cbn [polygon_length_aux].
      intros m Hm.
      pose proof (computes_vget i row (Z.of_nat k) (fun x => if (x =? FILL_VALUE)%Z then Ret k else polygon_length_aux_p (View i (length row)) (S k) fuel)
         (fun x => Ok ((if (x =? FILL_VALUE)%Z then k else polygon_length_aux (S k) (skipn (S k) row)), row))) as H.
      rewrite (aget_nat row k x E) in H. cbn [bind] in H. apply H; auto.
      intros c _. destruct (c =? FILL_VALUE)%Z; [apply computes_ret|]. apply IH. lia.
  Qed.
  Lemma polygon_length_computes i (row : list Z) :
    computes (polygon_length_p (View i (length row))) i row (Ok (polygon_length row, row)).
  Proof.
    unfold polygon_length_p, polygon_length. cbn [v_len]. destruct (length row <=? 3)%nat eqn:E; [apply computes_ret|].
    apply Nat.leb_gt in E. apply polygon_length_aux_computes. lia.
  Qed.

  Lemma flip_computes i (row : list Z) len :
    computes (flip_p (View i (length row)) len) i row (let* r := flip row len in Ok (tt, r))
    /\ forall r, flip row len = Ok r -> length r = length row.
  Proof.
    unfold flip_p, flip, for_range.
    apply (computes_for i (Z.to_nat (len / 2 - 0)) 0%Z
      (fun (k : Z) (_ : unit) => bindp (vget (View i (length row)) (len - 1 - k)) (fun fj =>
          bindp (vget (View i (length row)) k) (fun fi =>
          bindp (vset (View i (length row)) k fj) (fun _ => vset (View i (length row)) (len - 1 - k) fi))))
      (fun k face => let* fj := aget face (len - 1 - k) in let* fi := aget face k in
         let* face := aset face k fj in aset face (len - 1 - k) fi) row).
    intros j row' Hr. split.
    - rewrite <- Hr.
      replace (let* r := (let* fj := aget row' (len - 1 - j) in let* fi := aget row' j in let* face := aset row' j fj in aset face (len - 1 - j) fi) in Ok (tt, r))
        with (let* fj := aget row' (len - 1 - j) in (let* fi := aget row' j in (let* face := aset row' j fj in (let* r := aset face (len - 1 - j) fi in Ok (tt, r))))).
      + apply computes_vget. intros fj _. apply computes_vget. intros fi _.
        apply computes_vset. intros r2 E2 Hl. rewrite <- Hl. apply computes_vset_last.
      + destruct (aget row' (len - 1 - j)); simpl; auto. destruct (aget row' j); simpl; auto. destruct (aset row' j a); simpl; auto.
    - intros r. destruct (aget row' (len - 1 - j)); simpl; [|discriminate]. destruct (aget row' j); simpl; [|discriminate].
      destruct (aset row' j a) eqn:E1; simpl; [|discriminate]. intros E2.
      rewrite (aset_length _ _ _ _ E2), (aset_length _ _ _ _ E1). auto.
  Qed.

  Lemma ccw_loop_computes (vertices : list point) len i : forall fuel j row a b,
    computes (ccw_loop_p vertices len fuel j (View i (length row)) a b) i row
      (let* r := ccw_loop vertices len fuel j row a b in Ok (tt, r)).
  Proof.
    induction fuel as [|fuel IH]; intros j row a b; cbn [ccw_loop_p ccw_loop]; [apply computes_ret|].
    assert (Eb : forall {A B D} (m : res A) (k1 : A -> res B) (k2 : B -> res D), bind (bind m k1) k2 = bind m (fun x => bind (k1 x) k2)).
    { intros A B D m k1 k2. destruct m; auto. }
    rewrite Eb. apply computes_vget. intros fi _. rewrite Eb. apply computes_local. intros c _.
    destruct (_ =? _)%num; [apply IH|]. destruct (_ <? _)%num; [|apply computes_ret].
    destruct (flip_computes i row (Z.of_nat len)) as (Hf & Hl).
    eapply computes_bind; [exact Hf|]. rewrite Eb. destruct (flip row (Z.of_nat len)) as [r|e]; cbn [bind]; [|eauto].
    rewrite <- (Hl r eq_refl). apply IH.
  Qed.

  Lemma ccw_body_computes (vertices : list point) i row :
    computes (counter_clockwise_body vertices (length row) i) i row (let* r := ccw_face vertices row in Ok (tt, r)).
  Proof.
    unfold counter_clockwise_body, ccw_face.
    eapply computes_bind; [apply polygon_length_computes|]. cbv beta iota.
    assert (Eb : forall {A B D} (m : res A) (k1 : A -> res B) (k2 : B -> res D), bind (bind m k1) k2 = bind m (fun x => bind (k1 x) k2)).
    { intros A B D m k1 k2. destruct m; auto. }
    rewrite Eb.
    apply computes_vget. intros fa _.
    assert (Hc : computes (bindp (local (aget vertices fa)) (fun a =>
        bindp (vget (View i (length row)) (Z.of_nat (polygon_length row) - 1)%Z) (fun fb =>
        bindp (local (aget vertices fb)) (fun b => ccw_loop_p vertices (polygon_length row) (polygon_length row) 0%Z (View i (length row)) a b))))
        i row (let* a := aget vertices fa in (let* fb := aget row (Z.of_nat (polygon_length row) - 1)%Z in
             (let* b := aget vertices fb in (let* r := ccw_loop vertices (polygon_length row) (polygon_length row) 0%Z row a b in Ok (tt, r)))))).
    { apply computes_local. intros a _. apply computes_vget. intros fb _. apply computes_local. intros b _. apply ccw_loop_computes. }
    intros m Hm. specialize (Hc m Hm).
    destruct (aget row (Z.of_nat (polygon_length row) - 1)%Z) as [fb|]; simpl in *;
      destruct (aget vertices fa) as [a|]; simpl in *; eauto.
    destruct (aget vertices fb) as [b|]; simpl in *; eauto.
  Qed.

  Lemma ccw_loop_within (vertices : list point) len i n : forall fuel j a b,
    within (in_row i) (ccw_loop_p vertices len fuel j (View i n) a b).
  Proof.
    induction fuel as [|fuel IH]; intros; cbn [ccw_loop_p]; [constructor|].
    apply within_bindp; [wloc|]. intros fi. apply within_bindp; [wloc|]. intros c.
    destruct (_ =? _)%num; [apply IH|]. destruct (_ <? _)%num; [|constructor].
    apply within_bindp; [unfold flip_p; wloc|]. intros _. apply IH.
  Qed.
  Lemma plen_within i n : within (in_row i) (polygon_length_p (View i n)).
  Proof.
    unfold polygon_length_p. destruct (_ <=? _)%nat; [constructor|]. generalize 3%nat at 1. generalize (v_len (View i n) - 3)%nat.
    intros fuel. induction fuel as [|fuel IH]; intros k; cbn [polygon_length_aux_p]; [constructor|].
    apply within_bindp; [wloc|]. intros x. destruct (x =? FILL_VALUE)%Z; [constructor|apply IH].
  Qed.

  Theorem counter_clockwise_schedules (vertices : list point) n_max_vert faces :
    Forall (fun face => length face = n_max_vert) faces ->
    every_schedule (counter_clockwise_body vertices n_max_vert) faces (counter_clockwise vertices faces).
  Proof.
    intros H1. assert (E : forall r : res (list (list Z)), r = let* ds := r in Ok (map (fun x => x) ds)).
    { intros [l|]; simpl; auto. now rewrite map_id. }
    rewrite (E (counter_clockwise vertices faces)). apply loop_schedules; auto.
    - intros i. unfold counter_clockwise_body. apply within_bindp; [apply plen_within|]. intros len.
      apply within_bindp; [wloc|]. intros fa. apply within_bindp; [wloc|]. intros a.
      apply within_bindp; [wloc|]. intros fb. apply within_bindp; [wloc|]. intros b. apply ccw_loop_within.
    - intros i row x Er Ex. rewrite Er in Ex. inversion Ex; subst x.
      rewrite Forall_forall in H1. rewrite <- (H1 row (nth_error_In _ _ Er)). apply ccw_body_computes.
  Qed.

  (** Chunks of query boxes and edges *)
  Definition part_row {R} (r : list R * Z) : list (list R + Z) := [inl (fst r); inr (snd r)].

  Lemma part_row_computes {R} i (row : list (list R + Z)) (r : list R * Z) : length row = 2%nat ->
    computes (bindp (vset (View i 2) 0 (inl (fst r))) (fun _ => vset (View i 2) 1 (inr (snd r)))) i row (Ok (tt, part_row r)).
  Proof.
    intros Hl. destruct row as [|c0 [|c1 [|]]]; try discriminate.
    change (Ok (tt, part_row r)) with
      (let* x := aset [c0; c1] 0 (inl (fst r)) in let* x := aset x 1 (inr (snd r)) in Ok (tt, x)).
    apply (computes_vset i [c0; c1]). intros r1 E1 _. inversion E1; subst.
    apply (computes_vset_last i [inl (fst r); c1]).
  Qed.

  Lemma chunk_schedules {Q R} (helper : garbage T -> list Q -> Z -> res (list R * Z)) chunks offsets rows0 :
    length chunks = length rows0 -> length offsets = length rows0 -> Forall (fun row => length row = 2%nat) rows0 ->
    every_schedule (fun i => bindp (local (let* c := aget chunks (Z.of_nat i) in let* o := aget offsets (Z.of_nat i) in helper (G i) c o))
                             (fun r => bindp (vset (View i 2) 0 (inl (fst r))) (fun _ => vset (View i 2) 1 (inr (snd r))))) rows0
      (let* parts := mapres (fun ico => helper (G (fst ico)) (fst (snd ico)) (snd (snd ico)))
                            (combine (seq 0 (length chunks)) (combine chunks offsets)) in Ok (map part_row parts)).
  Proof.
    intros Hc Ho H1. apply loop_schedules.
    - rewrite !combine_length, seq_length. lia.
    - intros i. wloc.
    - intros i row [k [c o]] Er Ex.
      assert (Hx : k = i /\ nth_error chunks i = Some c /\ nth_error offsets i = Some o).
      { assert (Hi : (i < length rows0)%nat) by (apply nth_error_Some; congruence).
        rewrite (nth_error_nth' _ (O, (c, o))) in Ex by (rewrite !combine_length, seq_length; lia).
        rewrite combine_nth in Ex by (rewrite combine_length, seq_length; lia).
        rewrite combine_nth in Ex by lia. rewrite seq_nth in Ex by lia. inversion Ex.
        split; auto. split; apply nth_error_nth'; lia. }
      destruct Hx as (-> & E1 & E2). rewrite (aget_item _ _ _ E1), (aget_item _ _ _ E2). cbn [bind fst snd].
      apply computes_local. intros r _. apply part_row_computes.
      rewrite Forall_forall in H1. apply H1. eapply nth_error_In; eauto.
  Qed.

  Lemma chunk_same {Q R} (mem mem' : nat -> nat -> R) (helper helper' : garbage T -> list Q -> Z -> res (list R * Z)) :
    (forall h c o, rel part_same (helper h c o) (helper' g c o)) ->
    forall cos,
    (let* parts := mapres (fun ico => helper (G (fst ico)) (fst (snd ico)) (snd (snd ico))) (combine (seq 0 (length cos)) cos) in concatenate mem parts)
    = (let* parts := mapres (fun co => helper' g (fst co) (snd co)) cos in concatenate mem' parts).
  Proof.
    intros H cos. apply rel_eq. eapply rel_bind.
    - instantiate (1 := Forall2 part_same). generalize O. induction cos as [|[c o] cos IH]; intros k; cbn [length seq combine mapres fst snd].
      + simpl. constructor.
      + eapply rel_bind; [apply H|]. intros a b Hab. eapply rel_bind; [apply IH|]. intros l l' Hl. simpl. constructor; auto.
    - intros a b Hab. apply rel_of_eq. now apply concatenate_same.
  Qed.

  Lemma offsets_length {A} (chunks : list (list A)) : forall s, length (chunk_offsets s chunks) = length chunks.
  Proof. induction chunks; intros; simpl; auto. Qed.
  Lemma array_split_length {A} (l : list A) k : (1 <= k)%nat -> length (array_split l k) = k.
  Proof.
    intros Hk.
    unfold array_split. assert (G0 : forall sizes (l : list A), length (split_sizes sizes l) = length sizes).
    { induction sizes; intros; simpl; auto. }
    rewrite G0, app_length, !repeat_length. pose proof (Nat.mod_upper_bound (length l) k). lia.
  Qed.

  (** [parts] are the results of the iterations, each with its own
      uninitialised memory; whatever that memory holds, the concatenation is
      that of the sequential run. *)
  Theorem locate_boxes_schedules boxes (tree : celltree) n_chunks rows0 mem :
    (1 <= n_chunks)%nat -> length rows0 = n_chunks -> Forall (fun row => length row = 2%nat) rows0 ->
    let chunks := array_split boxes n_chunks in
    let offsets := chunk_offsets 0%Z chunks in
    exists parts : res (list (list (Z * Z) * Z)),
      every_schedule (locate_boxes_body G chunks offsets tree) rows0 (let* ps := parts in Ok (map part_row ps))
      /\ (let* ps := parts in concatenate mem ps) = locate_boxes g boxes tree n_chunks.
  Proof.
    intros Hn Hl H1 chunks offsets.
    exists (mapres (fun ico => locate_boxes_helper (G (fst ico)) (fst (snd ico)) tree (snd (snd ico)))
                   (combine (seq 0 (length (combine chunks offsets))) (combine chunks offsets))).
    assert (Lc : length chunks = length rows0) by (unfold chunks; rewrite array_split_length; auto).
    assert (Lo : length offsets = length rows0) by (unfold offsets; now rewrite offsets_length).
    split.
    - replace (length (combine chunks offsets)) with (length chunks) by (rewrite combine_length; lia).
      apply (chunk_schedules (fun h c o => locate_boxes_helper h c tree o)); auto.
    - apply (chunk_same mem (gZZ g) (fun h c o => locate_boxes_helper h c tree o) (fun h c o => locate_boxes_helper h c tree o)).
      intros h c o. apply locate_boxes_helper_same.
  Qed.

  Theorem locate_edges_schedules csfuel f edges (tree : celltree) n_chunks rows0 mem :
    (forall h i a b, f h i a b = f g i a b) ->
    (1 <= n_chunks)%nat -> length rows0 = n_chunks -> Forall (fun row => length row = 2%nat) rows0 ->
    let chunks := array_split edges n_chunks in
    let offsets := chunk_offsets 0%Z chunks in
    exists parts : res (list (list erow * Z)),
      every_schedule (locate_edges_body G csfuel f chunks offsets tree) rows0 (let* ps := parts in Ok (map part_row ps))
      /\ (let* ps := parts in concatenate mem ps) = locate_edges g csfuel (f g) edges tree n_chunks.
  Proof.
    intros Hf Hn Hl H1 chunks offsets.
    exists (mapres (fun ico => locate_edges_helper (G (fst ico)) csfuel (f (G (fst ico))) (fst (snd ico)) tree (snd (snd ico)))
                   (combine (seq 0 (length (combine chunks offsets))) (combine chunks offsets))).
    assert (Lc : length chunks = length rows0) by (unfold chunks; rewrite array_split_length; auto).
    assert (Lo : length offsets = length rows0) by (unfold offsets; now rewrite offsets_length).
    split.
    - replace (length (combine chunks offsets)) with (length chunks) by (rewrite combine_length; lia).
      apply (chunk_schedules (fun h c o => locate_edges_helper h csfuel (f h) c tree o)); auto.
    - apply (chunk_same mem (grow_ g) (fun h c o => locate_edges_helper h csfuel (f h) c tree o) (fun h c o => locate_edges_helper h csfuel (f h) c tree o)).
      intros h c o. apply locate_edges_helper_same. intros. apply Hf.
  Qed.
End Loops.
