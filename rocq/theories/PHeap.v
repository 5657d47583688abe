(** Proofs about the heap model. *)
From Verif Require Import Base Num MUtils MGeometry MCreation MAlgorithms MQuery MCelltree MHeap SpecHeap.

Section PHeap.
  Context {T : Type} {NT : Num T}.
  Notation heap := (heap (T:=T)).
  Context (wreck : list (list Z) -> list (list Z)).

  Lemma hbind_ok {X Y} (m : hm (T:=T) X) (f : X -> hm (T:=T) Y) h x h' :
    m h = (Ok x, h') -> hbind m f h = f x h'.
  Proof. unfold hbind. intros ->. reflexivity. Qed.
  Lemma hbind_err {X Y} (m : hm (T:=T) X) (f : X -> hm (T:=T) Y) h e h' :
    m h = (Err e, h') -> hbind m f h = (Err e, h').
  Proof. unfold hbind. intros ->. reflexivity. Qed.
  Lemma read_int_ok l (h : heap) v : nth_error (h_int h) l = Some v -> read_int l h = (Ok v, h).
  Proof. unfold read_int. intros ->. reflexivity. Qed.
  Lemma read_float_ok l (h : heap) v : nth_error (h_float h) l = Some v -> read_float l h = (Ok v, h).
  Proof. unfold read_float. intros ->. reflexivity. Qed.
  Lemma pure_ok {X} (r : res X) (h : heap) x : r = Ok x -> pure r h = (Ok x, h).
  Proof. intros ->. reflexivity. Qed.
  Lemma pure_err {X} (r : res X) (h : heap) e : r = Err e -> pure r h = (Err e, h).
  Proof. intros ->. reflexivity. Qed.

  Lemma keeps_refl (h : heap) : keeps h h.
  Proof. constructor; auto. Qed.
  Lemma keeps_trans (h1 h2 h3 : heap) : keeps h1 h2 -> keeps h2 h3 -> keeps h1 h3.
  Proof. intros [A B] [C D]. constructor; auto. Qed.

  Lemma new_int_keeps v (h : heap) : keeps h (snd (new_int v h)).
  Proof.
    constructor; cbn; intros l w H; auto. rewrite nth_error_app1; auto.
    apply nth_error_Some. congruence.
  Qed.
  Lemma new_float_keeps v (h : heap) : keeps h (snd (new_float v h)).
  Proof.
    constructor; cbn; intros l w H; auto. rewrite nth_error_app1; auto.
    apply nth_error_Some. congruence.
  Qed.
  Lemma nth_error_new {A} (l : list A) v : nth_error (l ++ [v]) (length l) = Some v.
  Proof. rewrite nth_error_app2, Nat.sub_diag by lia. reflexivity. Qed.

  (** ** cast *)
  Lemma cast_vertices_spec (a : float_arg (T:=T)) copy (h : heap) vs : float_value h a = Some vs ->
    exists vl h', cast_vertices_h a copy h = (Ok vl, h')
      /\ keeps h h' /\ h_int h' = h_int h
      /\ nth_error (h_float h') vl = Some vs
      /\ (copy = true -> float_plain a -> (length (h_float h) <= vl)%nat).
  Proof.
    intros H. destruct a as [l s|l|v]; cbn [float_value] in H; unfold cast_vertices_h.
    - destruct (copy || negb s) eqn:E.
      + unfold hbind, read_float. rewrite H. cbn [new_float].
        eexists _, _. split; [reflexivity|]. split; [apply (new_float_keeps vs)|].
        split; [reflexivity|]. split; [apply nth_error_new|]. auto.
      + eexists _, _. split; [reflexivity|]. split; [apply keeps_refl|].
        split; [reflexivity|]. split; auto. intros ->. discriminate.
    - eexists _, _. split; [reflexivity|]. split; [apply keeps_refl|].
      split; [reflexivity|]. split; auto. intros _ [].
    - injection H as ->. eexists _, _. split; [reflexivity|]. split; [apply (new_float_keeps vs)|].
      split; [reflexivity|]. split; [apply nth_error_new|]. auto.
  Qed.

  Lemma write_keeps_but l v (h : heap) : keeps_but l h (snd (write_int l v h)).
  Proof.
    constructor; cbn; auto. intros k w N H. rewrite nth_error_list_set_neq; auto.
  Qed.
  Lemma keeps_but_refl l (h : heap) : keeps_but l h h.
  Proof. constructor; auto. Qed.
  Lemma keeps_but_trans l (h1 h2 h3 : heap) : keeps_but l h1 h2 -> keeps_but l h2 h3 -> keeps_but l h1 h3.
  Proof. intros [A B] [C D]. constructor; auto. Qed.
  Lemma keeps_keeps_but l (h1 h2 : heap) : keeps h1 h2 -> keeps_but l h1 h2.
  Proof. intros [A B]. constructor; auto. Qed.
  Lemma fresh_keeps l (h1 h2 h3 : heap) : (length (h_int h1) <= l)%nat ->
    keeps h1 h2 -> keeps_but l h2 h3 -> keeps h1 h3.
  Proof.
    intros L [A B] [C D]. constructor; auto. intros k v H. apply C; auto.
    assert (k < length (h_int h1))%nat by (apply nth_error_Some; congruence). lia.
  Qed.

  (** The location of an argument, if it is used as it is *)
  Definition shares (h : heap) (a : int_arg) (l : nat) : Prop :=
    match a with ILike k => l = k | _ => l = length (h_int h) end.

  Lemma cast_faces_spec (a : int_arg) fill (h : heap) fs : int_value h a = Some fs ->
    exists l, shares h a l /\
    match cast_faces fs fill with
    | Ok fs' => exists h', cast_faces_h a fill h = (Ok l, h')
        /\ keeps_but l h h' /\ h_float h' = h_float h
        /\ nth_error (h_int h') l = Some fs'
    | Err e => exists h', cast_faces_h a fill h = (Err e, h') /\ keeps h h'
    end.
  Proof.
    intros H.
    assert (Hx : exists l h1, shares h a l /\
      (match a with INd l => hbind (read_int l) new_int | ILike l => hret l | IList v => new_int v end) h
        = (Ok l, h1) /\ keeps h h1 /\ h_float h1 = h_float h /\ nth_error (h_int h1) l = Some fs).
    { destruct a as [l|l|v]; cbn [int_value] in H.
      - unfold hbind, read_int. rewrite H. eexists _, _. split; [reflexivity|]. split; [reflexivity|].
        split; [apply (new_int_keeps fs)|]. split; [reflexivity|]. apply nth_error_new.
      - eexists _, _. split; [reflexivity|]. split; [reflexivity|].
        split; [apply keeps_refl|]. split; auto.
      - injection H as ->. eexists _, _. split; [reflexivity|]. split; [reflexivity|].
        split; [apply (new_int_keeps fs)|]. split; [reflexivity|]. apply nth_error_new. }
    destruct Hx as (l & h1 & Hs & E & K & F & N). exists l. split; [exact Hs|].
    unfold cast_faces_h, cast_faces. rewrite (hbind_ok _ _ _ _ _ E).
    rewrite (hbind_ok _ _ _ _ _ (read_int_ok _ _ _ N)).
    destruct (existsb _ fs).
    { exists h1. split; auto. }
    destruct (negb _).
    - unfold hbind, hret. eexists. split; [reflexivity|].
      split; [eapply keeps_but_trans; [apply keeps_keeps_but, K|apply write_keeps_but]|].
      split; [exact F|]. cbn. apply nth_error_list_set_eq. apply nth_error_Some. congruence.
    - eexists. split; [reflexivity|]. split; [apply keeps_keeps_but, K|]. auto.
  Qed.

  (** ** counter_clockwise in place *)
  Lemma ccw_spec vl l (h : heap) vs fs :
    nth_error (h_float h) vl = Some vs -> nth_error (h_int h) l = Some fs ->
    exists h', keeps_but l h h' /\ h_float h' = h_float h /\
    match counter_clockwise vs fs with
    | Ok fs' => counter_clockwise_h wreck vl l h = (Ok tt, h') /\ nth_error (h_int h') l = Some fs'
    | Err e => counter_clockwise_h wreck vl l h = (Err e, h')
    end.
  Proof.
    intros V F. unfold counter_clockwise_h, hbind, read_float, read_int. rewrite V, F.
    destruct (counter_clockwise vs fs) as [fs'|e].
    - eexists. split; [apply (write_keeps_but l fs')|]. split; [reflexivity|]. split; [reflexivity|].
      cbn. apply nth_error_list_set_eq. apply nth_error_Some. congruence.
    - eexists. split; [apply (write_keeps_but l (wreck fs))|]. split; [reflexivity|]. reflexivity.
  Qed.

  (** ** Construction *)
  Lemma init_split g (vs : list (point T)) fs fill nb cpl :
    CellTree2d_init g vs fs fill nb cpl
    = let* _ := check_params nb cpl in
      let* fs := cast_faces fs fill in
      let* fs := counter_clockwise vs fs in
      init_tail g fs vs nb cpl.
  Proof. reflexivity. Qed.

  Lemma init_tail_arrays g fs (vs : list (point T)) nb cpl t : init_tail g fs vs nb cpl = Ok t ->
    with_arrays t fs vs = t.
  Proof.
    unfold init_tail. intros H.
    apply bind_ok in H as (bb & _ & H). apply bind_ok in H as ([nodes bi] & _ & H).
    apply bind_ok in H as (b & _ & H). injection H as <-. reflexivity.
  Qed.

  (** [fl] is where the faces end up: the caller's array for an array-like *)
  Lemma init_spec g va fa fill nb cpl (h : heap) vs fs :
    float_value h va = Some vs -> int_value h fa = Some fs ->
    exists fl, shares h fa fl
    /\ keeps_but fl h (after (CellTree2d_init_h wreck g va fa fill nb cpl) h)
    /\ match CellTree2d_init g vs fs fill nb cpl with
       | Ok t => exists ht, value_of (CellTree2d_init_h wreck g va fa fill nb cpl) h = Ok ht
           /\ ht_elements ht = fl
           /\ (float_plain va -> length (h_float h) <= ht_vertices ht)%nat
           /\ value_of (deref ht) (after (CellTree2d_init_h wreck g va fa fill nb cpl) h) = Ok t
       | Err e => value_of (CellTree2d_init_h wreck g va fa fill nb cpl) h = Err e
       end.
  Proof.
    intros V F. rewrite init_split. unfold value_of, after, CellTree2d_init_h.
    destruct (check_params nb cpl) as [[]|e] eqn:Ec; cbn [bind].
    2:{ destruct (cast_faces_spec fa fill h fs F) as (fl & Hs & _).
        exists fl. split; auto. split; auto. apply keeps_but_refl. }
    rewrite (hbind_ok _ _ _ _ _ (pure_ok _ h tt eq_refl)).
    destruct (cast_vertices_spec va true h vs V) as (vl & h1 & E1 & K1 & I1 & V1 & Fr).
    rewrite (hbind_ok _ _ _ _ _ E1).
    assert (F1 : int_value h1 fa = Some fs) by (destruct fa; cbn in *; rewrite ?I1; auto).
    destruct (cast_faces_spec fa fill h1 fs F1) as (fl & Hs & Hc).
    assert (Hs' : shares h fa fl) by (destruct fa; cbn in *; rewrite <- ?I1; auto).
    exists fl. split; auto.
    destruct (cast_faces fs fill) as [fs1|e]; cbn [bind].
    2:{ destruct Hc as (h2 & E2 & K2). rewrite (hbind_err _ _ _ _ _ E2). cbn [fst snd]. split; auto.
        apply keeps_keeps_but. eapply keeps_trans; eauto. }
    destruct Hc as (h2 & E2 & K2 & FF & N2). rewrite (hbind_ok _ _ _ _ _ E2).
    rewrite <- FF in V1.
    destruct (ccw_spec vl fl h2 vs fs1 V1 N2) as (h3 & K3 & FF3 & Hc).
    assert (KK : keeps_but fl h h3).
    { eapply keeps_but_trans; [apply keeps_keeps_but, K1|]. eapply keeps_but_trans; eauto. }
    destruct (counter_clockwise vs fs1) as [fs2|e]; cbn [bind].
    2:{ rewrite (hbind_err _ _ _ _ _ Hc). cbn [fst snd]. auto. }
    destruct Hc as (E3 & N3). rewrite (hbind_ok _ _ _ _ _ E3).
    rewrite (hbind_ok _ _ _ _ _ (read_int_ok _ _ _ N3)).
    rewrite <- FF3 in V1.
    rewrite (hbind_ok _ _ _ _ _ (read_float_ok _ _ _ V1)).
    unfold hbind, pure, hret.
    destruct (init_tail g fs2 vs nb cpl) as [t|e] eqn:Et; cbn [fst snd]; split; auto.
    eexists. split; [reflexivity|]. split; [reflexivity|].
    split; [cbn; intros P; auto|].
    unfold deref, hbind, read_int, read_float, hret. cbn [ht_elements ht_vertices ht_own].
    rewrite N3, V1. cbn. f_equal. eapply init_tail_arrays; eauto.
  Qed.

  (** ** locate_faces *)
  Lemma deref_inv ht (h : heap) t : value_of (deref ht) h = Ok t ->
    exists es vs, nth_error (h_int h) (ht_elements ht) = Some es
      /\ nth_error (h_float h) (ht_vertices ht) = Some vs
      /\ t = with_arrays (ht_own ht) es vs /\ deref ht h = (Ok t, h).
  Proof.
    unfold value_of, deref, hbind, read_int, read_float, hret.
    destruct (nth_error (h_int h) (ht_elements ht)) as [es|]; [|discriminate].
    destruct (nth_error (h_float h) (ht_vertices ht)) as [vs|]; [|discriminate].
    cbn [fst]. intros E. injection E as <-. eauto 7.
  Qed.
  Lemma deref_same ht (h h' : heap) t : value_of (deref ht) h = Ok t ->
    nth_error (h_int h') (ht_elements ht) = nth_error (h_int h) (ht_elements ht) ->
    nth_error (h_float h') (ht_vertices ht) = nth_error (h_float h) (ht_vertices ht) ->
    deref ht h' = (Ok t, h').
  Proof.
    intros H A B. apply deref_inv in H as (es & vs & I & F & -> & _).
    unfold deref. rewrite (hbind_ok _ _ _ _ _ (read_int_ok _ h' _ (eq_trans A I))).
    rewrite (hbind_ok _ _ _ _ _ (read_float_ok _ h' _ (eq_trans B F))). reflexivity.
  Qed.

  Lemma locate_faces_split g n t (vs : list (point T)) fs :
    CellTree2d_locate_faces g n t vs fs
    = let* fs := counter_clockwise vs fs in
      let* ij := locate_faces_tail g n t vs fs in Ok (ij, fs).
  Proof.
    unfold CellTree2d_locate_faces, locate_faces_tail.
    destruct (counter_clockwise vs fs); cbn [bind]; auto.
    destruct (build_face_bboxes _ vs); cbn [bind]; auto.
    destruct (locate_boxes _ _ _ _); cbn [bind]; auto.
    destruct (polygons_intersect _ _ _ _ _ _); cbn [bind]; auto.
  Qed.

  Lemma locate_faces_h_spec g n ht vl fl (h : heap) t vs fs :
    value_of (deref ht) h = Ok t -> fl <> ht_elements ht ->
    nth_error (h_float h) vl = Some vs -> nth_error (h_int h) fl = Some fs ->
    exists h', after (locate_faces_h wreck g n ht vl fl) h = h'
    /\ keeps_but fl h h' /\ h_float h' = h_float h
    /\ (forall fs', counter_clockwise vs fs = Ok fs' -> nth_error (h_int h') fl = Some fs')
    /\ value_of (locate_faces_h wreck g n ht vl fl) h
       = let* r := CellTree2d_locate_faces g n t vs fs in Ok (fst r).
  Proof.
    intros D N V F. rewrite locate_faces_split. unfold value_of, after, locate_faces_h.
    destruct (ccw_spec vl fl h vs fs V F) as (h3 & K3 & FF3 & Hc). exists h3.
    destruct (counter_clockwise vs fs) as [fs'|e]; cbn [bind].
    2:{ rewrite (hbind_err _ _ _ _ _ Hc). cbn [fst snd]. repeat split; auto; try apply K3. discriminate. }
    destruct Hc as (E3 & N3). rewrite (hbind_ok _ _ _ _ _ E3).
    rewrite (hbind_ok _ _ _ _ _ (read_int_ok _ _ _ N3)).
    rewrite <- FF3 in V. rewrite (hbind_ok _ _ _ _ _ (read_float_ok _ _ _ V)).
    assert (D3 : deref ht h3 = (Ok t, h3)).
    { destruct (deref_inv _ _ _ D) as (es & ws & I & W & _ & _).
      apply (deref_same ht h h3 t D).
      - rewrite I. apply K3; auto.
      - rewrite FF3. reflexivity. }
    rewrite (hbind_ok _ _ _ _ _ D3). unfold pure. cbn [fst snd].
    split; [reflexivity|]. split; [exact K3|]. split; [exact FF3|].
    split; [intros ? E; injection E as <-; exact N3|].
    destruct (locate_faces_tail g n t vs fs'); reflexivity.
  Qed.

  (** ** intersect_faces *)
  Lemma intersect_faces_split g n t (vs : list (point T)) fs fill :
    CellTree2d_intersect_faces g n t vs fs fill
    = let* fs := cast_faces fs fill in
      let* r := CellTree2d_locate_faces g n t vs fs in
      intersect_faces_tail g t vs (snd r) (fst r).
  Proof.
    unfold CellTree2d_intersect_faces. destruct (cast_faces fs fill); cbn [bind]; auto.
    destruct (CellTree2d_locate_faces g n t vs _) as [[ij fs']|]; cbn [bind]; auto.
  Qed.

  Lemma locate_faces_left g n t (vs : list (point T)) fs ij fs' :
    CellTree2d_locate_faces g n t vs fs = Ok (ij, fs') -> counter_clockwise vs fs = Ok fs'.
  Proof.
    rewrite locate_faces_split. intros H. apply bind_ok in H as (x & -> & H).
    apply bind_ok in H as (y & _ & H). injection H as _ <-. reflexivity.
  Qed.

  (** where cast_faces put the array is not where the tree keeps its own *)
  Lemma intersect_faces_h_spec g n ht va fa fill (h : heap) t vs fs :
    value_of (deref ht) h = Ok t ->
    (match fa with ILike l => l <> ht_elements ht | _ => True end) ->
    float_value h va = Some vs -> int_value h fa = Some fs ->
    exists fl, shares h fa fl
    /\ keeps_but fl h (after (intersect_faces_h wreck g n ht va fa fill) h)
    /\ value_of (intersect_faces_h wreck g n ht va fa fill) h
       = CellTree2d_intersect_faces g n t vs fs fill.
  Proof.
    intros D Hn V F. rewrite intersect_faces_split. unfold value_of, after, intersect_faces_h.
    destruct (cast_vertices_spec va false h vs V) as (vl & h1 & E1 & K1 & I1 & V1 & _).
    rewrite (hbind_ok _ _ _ _ _ E1).
    assert (F1 : int_value h1 fa = Some fs) by (destruct fa; cbn in *; rewrite ?I1; auto).
    destruct (cast_faces_spec fa fill h1 fs F1) as (fl & Hs & Hc).
    assert (Hs' : shares h fa fl) by (destruct fa; cbn in *; rewrite <- ?I1; auto).
    exists fl. split; auto.
    destruct (cast_faces fs fill) as [fs1|e]; cbn [bind].
    2:{ destruct Hc as (h2 & E2 & K2). rewrite (hbind_err _ _ _ _ _ E2). cbn [fst snd]. split; auto.
        apply keeps_keeps_but. eapply keeps_trans; eauto. }
    destruct Hc as (h2 & E2 & K2 & FF & N2). rewrite (hbind_ok _ _ _ _ _ E2).
    rewrite <- FF in V1.
    destruct (deref_inv _ _ _ D) as (es & ws & I & W & _ & _).
    assert (Hfl : fl <> ht_elements ht).
    { assert (ht_elements ht < length (h_int h))%nat by (apply nth_error_Some; congruence).
      destruct fa; cbn in Hs', Hn; subst; auto; lia. }
    assert (K12 : keeps_but fl h h2)
      by (eapply keeps_but_trans; [apply keeps_keeps_but, K1|exact K2]).
    assert (D2 : value_of (deref ht) h2 = Ok t).
    { unfold value_of. rewrite (deref_same ht h h2 t D); auto.
      - rewrite I. apply K12; auto.
      - rewrite W. apply K12; auto. }
    destruct (locate_faces_h_spec g n ht vl fl h2 t vs fs1 D2 Hfl V1 N2)
      as (h3 & A3 & K3 & FF3 & N3 & R3).
    unfold after, value_of in A3, R3.
    destruct (locate_faces_h wreck g n ht vl fl h2) as [r h3'] eqn:E3. cbn [fst snd] in A3, R3. subst h3' r.
    assert (KK : keeps_but fl h h3) by (eapply keeps_but_trans; eauto).
    destruct (CellTree2d_locate_faces g n t vs fs1) as [[ij fs2]|e] eqn:EL; cbn [bind fst snd] in *.
    2:{ rewrite (hbind_err _ _ _ _ _ E3). cbn [fst snd]. auto. }
    rewrite (hbind_ok _ _ _ _ _ E3).
    apply locate_faces_left in EL. specialize (N3 _ EL).
    rewrite (hbind_ok _ _ _ _ _ (read_int_ok _ _ _ N3)).
    rewrite <- FF3 in V1. rewrite (hbind_ok _ _ _ _ _ (read_float_ok _ _ _ V1)).
    assert (D3 : deref ht h3 = (Ok t, h3)).
    { apply (deref_same ht h h3 t D).
      - rewrite I. apply KK; auto.
      - rewrite W. apply KK; auto. }
    rewrite (hbind_ok _ _ _ _ _ D3). auto.
  Qed.

  (** ** Plain arguments are not shared *)
  Lemma plain_fresh (h : heap) a fl h' : int_plain a -> shares h a fl -> keeps_but fl h h' -> keeps h h'.
  Proof.
    intros P S K. eapply fresh_keeps; [|apply keeps_refl|exact K].
    destruct a; cbn in *; try tauto; lia.
  Qed.

  (** ** EdgeCellTree2d *)
  Lemma edge_init_arrays g es (vs : list (point T)) nb cpl t : EdgeCellTree2d_init g vs es nb cpl = Ok t ->
    with_arrays t es vs = t.
  Proof.
    unfold EdgeCellTree2d_init. intros H.
    do 6 (apply bind_ok in H as (? & _ & H)).
    apply bind_ok in H as ([nodes bi] & _ & H).
    apply bind_ok in H as (b & _ & H). injection H as <-. reflexivity.
  Qed.

  Lemma check_params_edge g es (vs : list (point T)) nb cpl e : check_params nb cpl = Err e ->
    EdgeCellTree2d_init g vs es nb cpl = Err e.
  Proof. unfold EdgeCellTree2d_init. intros ->. reflexivity. Qed.

  Lemma edge_init_spec g va el nb cpl (h : heap) vs es :
    float_value h va = Some vs -> nth_error (h_int h) el = Some es ->
    keeps h (after (EdgeCellTree2d_init_h g va el nb cpl) h)
    /\ match EdgeCellTree2d_init g vs es nb cpl with
       | Ok t => exists ht, value_of (EdgeCellTree2d_init_h g va el nb cpl) h = Ok ht
           /\ ht_elements ht = el
           /\ value_of (deref ht) (after (EdgeCellTree2d_init_h g va el nb cpl) h) = Ok t
       | Err e => value_of (EdgeCellTree2d_init_h g va el nb cpl) h = Err e
       end.
  Proof.
    intros V F. unfold value_of, after, EdgeCellTree2d_init_h.
    destruct (check_params nb cpl) as [[]|e] eqn:Ec.
    2:{ rewrite (check_params_edge g es vs nb cpl e Ec). split; auto. apply keeps_refl. }
    rewrite (hbind_ok _ _ _ _ _ (pure_ok _ h tt eq_refl)).
    destruct (cast_vertices_spec va true h vs V) as (vl & h1 & E1 & K1 & I1 & V1 & Fr).
    rewrite (hbind_ok _ _ _ _ _ E1). rewrite <- I1 in F.
    rewrite (hbind_ok _ _ _ _ _ (read_int_ok _ _ _ F)).
    rewrite (hbind_ok _ _ _ _ _ (read_float_ok _ _ _ V1)).
    unfold hbind, pure, hret.
    destruct (EdgeCellTree2d_init g vs es nb cpl) as [t|e] eqn:Et; cbn [fst snd]; split; auto.
    eexists. split; [reflexivity|]. split; [reflexivity|].
    unfold deref, hbind, read_int, read_float, hret. cbn [ht_elements ht_vertices ht_own].
    rewrite F, V1. cbn. f_equal. eapply edge_init_arrays; eauto.
  Qed.
End PHeap.
