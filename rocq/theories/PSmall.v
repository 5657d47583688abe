(** Facts about the public methods that hold for any number type: padding of
    faces, rows of barycentric weights, filtering of positive areas. *)
From Verif Require Import Base Num MUtils MGeometry MCreation MAlgorithms MQuery MCelltree
  PStack PPartition SpecTree PBuild PBuild2 PWalk PCollect SpecQuery PQuery PMesh PInit SpecApi PApi.

Section Small.
  Context {T : Type} {NT : Num T}.
  Notation point := (point T).

  (** ** cast_faces *)
  Lemma cast_faces_spec (faces : list (list Z)) fill :
    cast_faces faces fill =
    if existsb (fun f => 32 <? zlen f) faces then Err EValue
    else Ok (map (with_fill fill) faces).
  Proof.
    unfold cast_faces.
    replace (existsb (fun f => (MAX_N_VERTEX <? length f)%nat) faces)
      with (existsb (fun f : list Z => 32 <? zlen f) faces).
    2:{ induction faces as [|f t IH]; simpl; auto. rewrite IH. f_equal. unfold zlen, MAX_N_VERTEX.
        destruct (Z.ltb_spec 32 (Z.of_nat (length f))), (Nat.ltb_spec 32 (length f)); auto; lia. }
    destruct (existsb _ _); auto. unfold FILL_VALUE.
    destruct (Z.eqb_spec fill (-1)) as [->|Hn]; simpl; auto.
    f_equal. symmetry. induction faces as [|f t IH]; simpl; auto. rewrite IH. f_equal.
    clear. induction f as [|i f IH]; simpl; auto. rewrite IH. f_equal.
    destruct (Z.eqb_spec i (-1)); congruence.
  Qed.

  (** ** Padding *)
  Lemma polygon_length_pad u t : (3 <= length u)%nat -> Forall (fun i => 0 <= i) u ->
    Forall (fun i => i = -1) t -> polygon_length (u ++ t) = length u.
  Proof.
    intros H3 Hu Ht.
    assert (E : until_fill (u ++ t) = u).
    { rewrite until_fill_app, until_fill_fills by auto. apply app_nil_r. }
    rewrite polygon_length_ok; rewrite E; auto.
  Qed.

  Lemma bounding_box_loop_until (vs : list point) : forall l bb,
    bounding_box_loop vs l bb = bounding_box_loop vs (until_fill l) bb.
  Proof.
    induction l as [|x l IH]; intros bb; auto. cbn [until_fill bounding_box_loop].
    unfold FILL_VALUE. destruct (x =? -1) eqn:E; auto. cbn [bounding_box_loop]. unfold FILL_VALUE.
    rewrite E. destruct (aget vs x); auto. cbn [bind]. apply IH.
  Qed.

  Lemma bounding_box_until (vs : list point) f : (1 <= length (until_fill f))%nat ->
    bounding_box f vs = bounding_box (until_fill f) vs.
  Proof.
    intros H. destruct f as [|x f]; auto. cbn [until_fill] in *.
    destruct (x =? -1) eqn:E; [simpl in H; lia|]. unfold bounding_box. cbn [skipn].
    change (aget (x :: f) 0) with (@Ok Z x).
    change (aget (x :: until_fill f) 0) with (@Ok Z x). cbn [bind].
    destruct (aget vs x); auto. cbn [bind]. apply bounding_box_loop_until.
  Qed.

  Lemma ccw_loop_pad (vs : list point) : forall fuel i (u : list Z) a b,
    Forall (fun i => 0 <= i < Z.of_nat (length vs)) u ->
    0 <= i -> i + Z.of_nat fuel <= zlen u ->
    exists r, (r = u \/ r = rev u)
      /\ forall t, ccw_loop vs (length u) fuel i (u ++ t) a b = Ok (r ++ t).
  Proof.
    induction fuel as [|fuel IH]; intros i u a b Hu H0 Hi; [exists u; auto|].
    assert (Eg : exists x c, (forall t, aget (u ++ t) i = Ok x) /\ aget vs x = Ok c).
    { destruct (aget_ok_pos u i) as (x & E & En); [lia|].
      exists x.
      assert (Hx : 0 <= x < Z.of_nat (length vs)).
      { rewrite Forall_forall in Hu. apply Hu. eapply nth_error_In; eauto. }
      destruct (aget_ok_pos vs x) as (c & Ec & _); [exact Hx|].
      exists c. split; auto. intros t. apply aget_pos; auto.
      rewrite nth_error_app1; auto. apply nth_error_Some. congruence. }
    destruct Eg as (x & c & Ex & Ec).
    destruct (neqb (cross_product (to_vector a b) (to_vector a c)) (nofZ 0)) eqn:E1.
    { destruct (IH (i + 1) u b c Hu) as (r & Hr & H); [lia|lia|].
      exists r. split; auto. intros t. cbn [ccw_loop]. rewrite Ex. cbn [bind]. rewrite Ec. cbn [bind].
      rewrite E1. apply H. }
    destruct (nltb (cross_product (to_vector a b) (to_vector a c)) (nofZ 0)) eqn:E2.
    - destruct (IH (i + 1) (rev u) a b) as (r & Hr & H).
      + now apply Forall_rev.
      + lia.
      + unfold zlen in *. rewrite rev_length. lia.
      + rewrite rev_length in H. rewrite rev_involutive in Hr.
        exists r. split; [tauto|]. intros t.
        cbn [ccw_loop]. rewrite Ex. cbn [bind]. rewrite Ec. cbn [bind].
        rewrite E1, E2. fold (zlen u). rewrite flip_ok. cbn [bind]. apply H.
    - exists u. split; auto. intros t. cbn [ccw_loop]. rewrite Ex. cbn [bind]. rewrite Ec. cbn [bind].
      now rewrite E1, E2.
  Qed.

  Lemma ccw_face_pad (vs : list point) u :
    (3 <= length u)%nat -> Forall (fun i => 0 <= i < Z.of_nat (length vs)) u ->
    exists r, (r = u \/ r = rev u)
      /\ forall t, Forall (fun i => i = -1) t -> ccw_face vs (u ++ t) = Ok (r ++ t).
  Proof.
    intros H3 Hr.
    assert (Eg : forall i, 0 <= i < zlen u ->
      exists x c, (forall t, aget (u ++ t) i = Ok x) /\ aget vs x = Ok c).
    { intros i Hi. destruct (aget_ok_pos u i) as (x & E & En); [lia|].
      exists x.
      assert (Hx : 0 <= x < Z.of_nat (length vs)).
      { rewrite Forall_forall in Hr. apply Hr. eapply nth_error_In; eauto. }
      destruct (aget_ok_pos vs x) as (c & Ec & _); [exact Hx|].
      exists c. split; auto. intros t. apply aget_pos; [lia|].
      rewrite nth_error_app1; auto. apply nth_error_Some. congruence. }
    destruct (Eg (Z.of_nat (length u) - 2)) as (xa & a & Exa & Ea); [unfold zlen; lia|].
    destruct (Eg (Z.of_nat (length u) - 1)) as (xb & b & Exb & Eb); [unfold zlen; lia|].
    destruct (ccw_loop_pad vs (length u) 0 u a b) as (r & Hrr & H); auto; [lia|unfold zlen; lia|].
    exists r. split; auto. intros t Ht. unfold ccw_face.
    rewrite polygon_length_pad; auto.
    2:{ eapply Forall_impl; [|exact Hr]. simpl; intros; lia. }
    rewrite Exa. cbn [bind]. rewrite Exb. cbn [bind]. rewrite Ea. cbn [bind]. rewrite Eb. cbn [bind].
    apply H.
  Qed.

  (** two faces with the same vertices *)
  Definition same_poly (f f' : list Z) : Prop := until_fill f = until_fill f'.

  Lemma wf_split nv f : wf_face nv f -> exists t, f = until_fill f ++ t /\ Forall (fun i => i = -1) t.
  Proof. intros (_ & _ & _ & H). exists (skipn (length (until_fill f)) f). split; auto. apply until_fill_prefix. Qed.

  Lemma ccw_face_same (vs : list point) f f' :
    wf_face (length vs) f -> wf_face (length vs) f' -> same_poly f f' ->
    exists h h', ccw_face vs f = Ok h /\ ccw_face vs f' = Ok h' /\ same_poly h h'
      /\ (3 <= length (until_fill h))%nat.
  Proof.
    intros Hw Hw' Hs. pose proof Hw as (H3 & _ & Hr & _).
    destruct (wf_split _ _ Hw) as (t & E & Ht). destruct (wf_split _ _ Hw') as (t' & E' & Ht').
    destruct (ccw_face_pad vs (until_fill f) H3 Hr) as (r & Hrr & H).
    assert (Hp : Forall (fun i => 0 <= i) r).
    { destruct Hrr as [->| ->]; [|apply Forall_rev]; eapply until_fill_pos; eauto. }
    assert (Hl : (3 <= length r)%nat) by (destruct Hrr as [->| ->]; rewrite ?rev_length; auto).
    exists (r ++ t), (r ++ t'). rewrite E at 1. rewrite E', <- Hs.
    split; [now apply H|]. split; [now apply H|]. unfold same_poly.
    rewrite !until_fill_app, !until_fill_fills by auto. rewrite app_nil_r. auto.
  Qed.

  Lemma counter_clockwise_same (vs : list point) faces faces' :
    Forall (wf_face (length vs)) faces -> Forall (wf_face (length vs)) faces' ->
    Forall2 same_poly faces faces' ->
    exists hs hs', counter_clockwise vs faces = Ok hs /\ counter_clockwise vs faces' = Ok hs'
      /\ Forall2 same_poly hs hs' /\ Forall (fun h => 3 <= length (until_fill h))%nat hs.
  Proof.
    unfold counter_clockwise. intros H1 H2 HF. induction HF as [|f f' l l' Hf _ IH].
    - exists [], []. auto.
    - inversion H1; inversion H2; subst. destruct IH as (hs & hs' & E & E' & HS & HL); auto.
      destruct (ccw_face_same vs f f') as (h & h' & Eh & Eh' & Hh & Hh3); auto.
      exists (h :: hs), (h' :: hs'). cbn [mapres]. rewrite Eh, Eh'. cbn [bind]. rewrite E, E'. cbn [bind].
      auto 6.
  Qed.

  Lemma build_face_bboxes_same (vs : list point) faces faces' :
    Forall2 same_poly faces faces' -> Forall (fun h => 3 <= length (until_fill h))%nat faces ->
    build_face_bboxes faces vs = build_face_bboxes faces' vs.
  Proof.
    unfold build_face_bboxes. intros HF HL. induction HF as [|f f' l l' Hf _ IH]; auto.
    inversion HL; subst. cbn [mapres].
    rewrite (bounding_box_until vs f), (bounding_box_until vs f'), Hf, IH by (try rewrite <- Hf; auto; lia).
    reflexivity.
  Qed.

  Theorem padding_irrelevant g (vs : list point) faces fill faces' fill' nb cpl :
    Forall (wf_face (length vs)) (map (with_fill fill) faces) ->
    Forall (wf_face (length vs)) (map (with_fill fill') faces') ->
    Forall2 (fun f f' => until_fill (with_fill fill f) = until_fill (with_fill fill' f')) faces faces' ->
    match CellTree2d_init g vs faces fill nb cpl, CellTree2d_init g vs faces' fill' nb cpl with
    | Ok t, Ok t' =>
        nodes (celltree_data t) = nodes (celltree_data t')
        /\ bb_indices (celltree_data t) = bb_indices (celltree_data t')
        /\ bb_coords (celltree_data t) = bb_coords (celltree_data t')
        /\ bbox (celltree_data t) = bbox (celltree_data t')
        /\ bb_dist t = bb_dist t'
        /\ Forall2 same_poly (elements (celltree_data t)) (elements (celltree_data t'))
    | Err e, Err e' => e = e'
    | _, _ => False
    end.
  Proof.
    intros H1 H2 HF. unfold CellTree2d_init.
    destruct (check_params nb cpl); [|reflexivity]. cbn [bind].
    assert (Hc : forall fs fl, Forall (wf_face (length vs)) (map (with_fill fl) fs) ->
              cast_faces fs fl = Ok (map (with_fill fl) fs)).
    { intros fs fl H. rewrite cast_faces_spec.
      replace (existsb _ fs) with false; auto. symmetry. apply not_true_iff_false. intros E.
      apply existsb_exists in E as (f & Hi & E). apply Z.ltb_lt in E.
      rewrite Forall_forall in H. specialize (H (with_fill fl f)).
      destruct H as (_ & H32 & _); [now apply in_map|].
      unfold with_fill in H32. rewrite map_length in H32. unfold zlen in E. lia. }
    rewrite !Hc by auto. cbn [bind].
    destruct (counter_clockwise_same vs (map (with_fill fill) faces) (map (with_fill fill') faces'))
      as (hs & hs' & E & E' & HS & HL); auto.
    { clear - HF. induction HF; simpl; constructor; auto. }
    rewrite E, E'. cbn [bind]. rewrite (build_face_bboxes_same vs hs hs') by auto.
    assert (El : length hs' = length hs) by (symmetry; clear - HS; induction HS; simpl; auto).
    rewrite El. destruct (build_face_bboxes hs' vs) as [bbs|e]; [|reflexivity]. cbn [bind].
    destruct (initialize _ _ _ _ _ _) as [(nds, bbi)|e]; [|reflexivity]. cbn [bind].
    destruct (bbox_tree bbs) as [bb|e]; [|reflexivity]. cbn. auto 10.
  Qed.

  (** ** Rows of weights *)
  Definition zero_beyond (n : nat) (ws : list T) : Prop :=
    forall i x, (n <= i)%nat -> nth_error ws i = Some x -> x = nofZ 0.

  Lemma zero_beyond_set n ws ws' i v : 0 <= i < Z.of_nat n ->
    zero_beyond n ws -> aset ws i v = Ok ws' -> length ws' = length ws /\ zero_beyond n ws'.
  Proof.
    intros Hi Hz E. apply aset_ok_inv in E as (Hl & ->); [|lia].
    split; [apply list_set_length|]. intros k x Hk. rewrite nth_error_list_set_neq by lia. now apply Hz.
  Qed.

  Lemma zero_beyond_zeros n (ws : list T) : zero_beyond n (map (fun _ => nofZ 0) ws).
  Proof.
    intros i x _ E. apply nth_error_In in E. apply in_map_iff in E as (y & <- & _). reflexivity.
  Qed.

  Lemma interp_edge_case_row (a U p : point) ws i j ws' n :
    0 <= i < Z.of_nat n -> 0 <= j < Z.of_nat n ->
    interp_edge_case a U p ws i j = Ok ws' -> length ws' = length ws /\ zero_beyond n ws'.
  Proof.
    intros Hi Hj E. unfold interp_edge_case in E. inv_bind E. inv_bind Hk.
    destruct (zero_beyond_set n _ _ _ _ Hi (zero_beyond_zeros n ws) Hb0) as (El & Hz).
    destruct (zero_beyond_set n _ _ _ _ Hj Hz Hk0) as (El' & Hz').
    split; auto. rewrite El', El, map_length. reflexivity.
  Qed.

  Lemma wachspress_loop_row (poly : list point) p tol n : forall m i ws w_sum a b U Ai r,
    zlen poly = n -> 0 < n -> 0 <= i -> i + Z.of_nat m <= n -> zero_beyond (length poly) ws ->
    wachspress_loop poly p tol n m i ws w_sum a b U Ai = Ok r ->
    match r with
    | inl ws' => length ws' = length ws /\ zero_beyond (length poly) ws'
    | inr (ws', _) => length ws' = length ws /\ zero_beyond (length poly) ws'
    end.
  Proof.
    induction m as [|m IH]; intros i ws w_sum a b U Ai r Hn Hn0 Hi Him Hz E.
    - cbn [wachspress_loop] in E. inversion E; subst. auto.
    - cbn [wachspress_loop] in E. inv_bind E. rename v into c.
      assert (Hr : forall x, 0 <= x < n -> 0 <= x < Z.of_nat (length poly)) by (unfold zlen in Hn; lia).
      destruct (within_perpendicular_distance _ _ _).
      + inv_bind Hk. inversion Hk0; subst. eapply interp_edge_case_row; [| |exact Hb0]; apply Hr; [lia|].
        apply Z.mod_pos_bound. lia.
      + inv_bind Hk. inv_bind Hk0.
        destruct (zero_beyond_set (length poly) _ _ _ _ (Hr i ltac:(lia)) Hz Hb1) as (El & Hz').
        apply IH in Hk; auto; try lia. rewrite El in Hk. exact Hk.
  Qed.

  Lemma normalise_row n ws w_sum : forall m i ws',
    (0 <= i) -> i + Z.of_nat m <= Z.of_nat n -> zero_beyond n ws ->
    for_loop m i (fun i weights =>
       let* w := aget weights i in let* w := ndiv w w_sum in aset weights i w) ws = Ok ws' ->
    length ws' = length ws /\ zero_beyond n ws'.
  Proof.
    intros m. revert ws. induction m as [|m IH]; intros ws i ws' Hi Him Hz E.
    - simpl in E. inversion E; subst. auto.
    - cbn [for_loop] in E. inv_bind E. inv_bind Hb. inv_bind Hk0.
      destruct (zero_beyond_set n _ _ i _ ltac:(lia) Hz Hk1) as (El & Hz').
      destruct (IH _ (i + 1) _ ltac:(lia) ltac:(lia) Hz' Hk) as (El' & Hz''). split; auto. congruence.
  Qed.

  Lemma wachspress_row (poly : list point) p ws tol ws' :
    poly <> [] -> zero_beyond (length poly) ws ->
    wachspress_weights poly p ws tol = Ok ws' ->
    length ws' = length ws /\ zero_beyond (length poly) ws'.
  Proof.
    intros Hne Hz E. unfold wachspress_weights in E. inv_bind E. inv_bind Hk.
    assert (Hn : 0 < zlen poly) by (unfold zlen; destruct poly; [congruence|simpl; lia]).
    destruct (within_perpendicular_distance _ _ _).
    - eapply interp_edge_case_row; [| |exact Hk0]; unfold zlen in *; lia.
    - inv_bind Hk0. destruct v1 as [ws1|(ws1, ws2)].
      + inversion Hk; subst. apply wachspress_loop_row in Hb1; auto; unfold zlen in *; lia.
      + apply wachspress_loop_row in Hb1; auto; try (unfold zlen in *; lia). destruct Hb1 as (El & Hz1).
        unfold for_range in Hk. apply (normalise_row (length poly)) in Hk; auto; try (unfold zlen in *; lia).
        destruct Hk as (El' & H). split; auto. congruence.
  Qed.
End Small.

Section Small2.
  Context {T : Type} {NT : Num T}.
  Notation point := (point T).

  Lemma mask_filter {A} (l : list A) (area : list T) : length l = length area ->
    combine (mask l (map (fun x => nltb (nofZ 0) x) area)) (mask area (map (fun x => nltb (nofZ 0) x) area))
    = filter (fun r => nltb (nofZ 0) (snd r)) (combine l area).
  Proof.
    unfold mask. revert area. induction l as [|x l IH]; intros [|a area] E; try discriminate; auto.
    cbn [map combine filter snd fst]. injection E as E. specialize (IH _ E).
    destruct (nltb (nofZ 0) a); cbn [map combine fst]; auto. now rewrite IH.
  Qed.

  Lemma intersect_boxes_spec g n (t : tree2d (T:=T)) boxes rows :
    CellTree2d_intersect_boxes g n t boxes = Ok rows ->
    exists pairs areas, CellTree2d_locate_boxes g n t boxes = Ok pairs
      /\ Forall2 (fun ij a => box_area_one g boxes (vertices (celltree_data t))
                                (elements (celltree_data t)) ij = Ok a) pairs areas
      /\ rows = filter (fun r => nltb (nofZ 0) (snd r)) (combine pairs areas).
  Proof.
    intros E. unfold CellTree2d_intersect_boxes in E. inv_bind E. inv_bind Hk. inversion Hk0; subst.
    exists v, v0. split; auto.
    unfold box_area_of_intersection in Hb0. pose proof (mapres_length _ _ _ Hb0) as Hl.
    apply mapres_ok_inv in Hb0. split; auto. now apply mask_filter.
  Qed.

  Lemma intersect_faces_spec g n (t : tree2d (T:=T)) vs_ faces fill rows :
    CellTree2d_intersect_faces g n t vs_ faces fill = Ok rows ->
    exists faces' pairs areas,
      CellTree2d_locate_faces g n t vs_ (map (with_fill fill) faces) = Ok (pairs, faces')
      /\ Forall2 (fun ij a => area_of_intersection_one g vs_ (vertices (celltree_data t)) faces'
                                (elements (celltree_data t)) ij = Ok a) pairs areas
      /\ rows = filter (fun r => nltb (nofZ 0) (snd r)) (combine pairs areas).
  Proof.
    intros E. unfold CellTree2d_intersect_faces in E. inv_bind E.
    rewrite cast_faces_spec in Hb. destruct (existsb _ _); inversion Hb; subst; clear Hb.
    inv_bind Hk. destruct v as (pairs, faces'). inv_bind Hk0. inversion Hk; subst.
    exists faces', pairs, v. split; auto.
    unfold area_of_intersection in Hb0. pose proof (mapres_length _ _ _ Hb0) as Hl.
    apply mapres_ok_inv in Hb0. split; auto. now apply mask_filter.
  Qed.

  Lemma filter_rows {A} (pairs : list A) (areas : list T) (area : A -> res T) :
    Forall2 (fun ij a => area ij = Ok a) pairs areas ->
    forall ij a, In (ij, a) (filter (fun r => nltb (nofZ 0) (snd r)) (combine pairs areas))
      <-> In ij pairs /\ area ij = Ok a /\ nltb (nofZ 0) a = true.
  Proof.
    intros HF ij a. rewrite filter_In. cbn [snd]. split.
    - intros (Hi & Hp). split; [eapply in_combine_l; eauto|]. split; auto. clear Hp.
      induction HF as [|x y l l' Hxy _ IH]; simpl in Hi; [contradiction|].
      destruct Hi as [E|Hi]; auto. inversion E; subst. auto.
    - intros (Hi & Ha & Hp). split; auto. clear Hp.
      induction HF as [|x y l l' Hxy _ IH]; simpl in Hi; [contradiction|].
      destruct Hi as [->|Hi]; [left|right; auto]. congruence.
  Qed.

  (** the kept rows are in the located order *)
  Lemma filter_rows_order {A} (pairs : list A) (areas : list T) :
    length pairs = length areas ->
    exists keep, map fst (filter (fun r => nltb (nofZ 0) (snd r)) (combine pairs areas))
                 = map fst (filter snd (combine pairs keep)) /\ length keep = length pairs.
  Proof.
    intros E. exists (map (fun x => nltb (nofZ 0) x) areas). rewrite map_length. split; [|auto].
    revert areas E. induction pairs as [|x l IH]; intros [|a areas] E; try discriminate; auto.
    cbn [map combine filter snd fst]. injection E as E. specialize (IH _ E).
    destruct (nltb (nofZ 0) a); cbn [map fst]; auto. now rewrite IH.
  Qed.

  Lemma weight_rows g (t : tree2d (T:=T)) n pts tolerance js ws :
    Forall (wf_face (length (vertices (celltree_data t)))) (elements (celltree_data t)) ->
    (3 <= n)%nat -> (forall j, In j js -> j <> -1 -> 0 <= j) ->
    CellTree2d_compute_barycentric_weights g t n pts tolerance = Ok (js, ws) ->
    CellTree2d_locate_points g t pts tolerance = Ok js
    /\ length ws = length pts
    /\ forall k j row, nth_error js k = Some j -> nth_error ws k = Some row ->
         length row = n
         /\ (j = -1 -> row = repeat (nofZ 0) n)
         /\ (j <> -1 -> exists f, nth_error (elements (celltree_data t)) (Z.to_nat j) = Some f
               /\ zero_beyond (length (until_fill f)) row).
  Proof.
    intros Hwf Hn Hj E. unfold CellTree2d_compute_barycentric_weights in E.
    inv_bind E. inv_bind Hk. inv_bind Hk0. inversion Hk; subst; clear Hk.
    split.
    { unfold CellTree2d_locate_points in *. rewrite Hb. cbn [bind]. exact Hb0. }
    destruct (3 <? n)%nat eqn:E3.
    - unfold barycentric_wachspress_weights in Hb1.
      split; [rewrite (mapres_length _ _ _ Hb1); apply iota_length|].
      intros k j row Ej Er.
      pose proof (mapres_ok_inv _ _ _ Hb1) as HF.
      assert (Hk : (k < length pts)%nat).
      { rewrite <- (iota_length (length pts)), <- (mapres_length _ _ _ Hb1). apply nth_error_Some. congruence. }
      pose proof (Forall2_nth _ _ _ _ _ _ HF (iota_nth _ _ Hk) Er) as H. cbv beta in H.
      rewrite (aget_nat _ _ _ Ej) in H. cbn [bind] in H. inv_bind H. rename v0 into p.
      unfold barycentric_wachspress_one in Hk0.
      destruct (Z.eqb_spec j (-1)) as [->|Hne].
      + inversion Hk0; subst. split; [apply repeat_length|]. split; auto. congruence.
      + inv_bind Hk0. inv_bind Hk1. rename v0 into f, v1 into poly.
        assert (H0 : 0 <= j) by (apply Hj; auto; eapply nth_error_In; eauto).
        apply aget_pos_inv in Hb3; auto.
        assert (Hf : wf_face (length (vertices (celltree_data t))) f).
        { rewrite Forall_forall in Hwf. apply Hwf. eapply nth_error_In; eauto. }
        destruct (wf_poly _ _ Hf) as (poly' & Hp).
        rewrite (copy_vertices_ok _ _ _ _ Hf Hp) in Hb4. inversion Hb4; subst.
        pose proof (poly_of_length _ _ _ Hp) as Hlen. destruct Hf as (Hf3 & _).
        apply wachspress_row in Hk0.
        * destruct Hk0 as (El & Hz). rewrite repeat_length in El. rewrite Hlen in Hz.
          split; auto. split; [congruence|]. intros _. eauto.
        * intros ->. simpl in Hlen. lia.
        * intros i x _ Ex. apply nth_error_In, repeat_spec in Ex. exact Ex.
    - apply Nat.ltb_ge in E3. assert (n = 3)%nat by lia. subst n.
      unfold barycentric_triangle_weights in Hb1.
      split; [rewrite (mapres_length _ _ _ Hb1); apply iota_length|].
      intros k j row Ej Er.
      pose proof (mapres_ok_inv _ _ _ Hb1) as HF.
      assert (Hk : (k < length pts)%nat).
      { rewrite <- (iota_length (length pts)), <- (mapres_length _ _ _ Hb1). apply nth_error_Some. congruence. }
      pose proof (Forall2_nth _ _ _ _ _ _ HF (iota_nth _ _ Hk) Er) as H. cbv beta in H.
      rewrite (aget_nat _ _ _ Ej) in H. cbn [bind] in H. inv_bind H. rename v0 into p.
      unfold barycentric_triangle_one in Hk0.
      destruct (Z.eqb_spec j (-1)) as [->|Hne].
      + inversion Hk0; subst. split; auto. split; auto. congruence.
      + inv_bind Hk0. inv_bind Hk1. rename v0 into f. destruct v1 as ((a, b), c).
        inv_bind Hk0. destruct v0 as ((u, v0), w). inversion Hk1; subst.
        assert (H0 : 0 <= j) by (apply Hj; auto; eapply nth_error_In; eauto).
        apply aget_pos_inv in Hb3; auto. split; auto. split; [congruence|]. intros _.
        exists f. split; auto. intros i x Hi Ex.
        rewrite Forall_forall in Hwf. destruct (Hwf f) as (H3 & _); [eapply nth_error_In; eauto|].
        assert (i < 3)%nat by (apply (proj1 (nth_error_Some [u; v0; w] i)); congruence). lia.
  Qed.
End Small2.
