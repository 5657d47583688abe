(** Normalisation and storage of faces with hanging nodes, exact reals. *)
From Verif Require Import RBase MGeometry MAlgorithms MCelltree SpecTree SpecQuery SpecApi PMesh PInit PBuild PPoints PApi
  SpecPoly SpecMesh SpecHang GTriangle GConvex GHull GRay GCcw GBuild GFaces GHang PropPoints PropFaces.
Open Scope R_scope.

Lemma first_edge (R : list pt) b c : nth_error R (length R - 1) = Some b -> nth_error R 0 = Some c ->
  In (b, c) (poly_edges R).
Proof.
  intros Hb Hc. destruct R as [|x l]; [discriminate|]. cbn in Hc. inversion Hc; subst x. rewrite edges_cons. left. f_equal.
  destruct l as [|y l] using rev_ind; [cbn in *; congruence|]. clear IHl. rewrite last_last.
  replace (length (c :: l ++ [y]) - 1)%nat with (S (length l)) in Hb by (cbn; rewrite app_length; cbn; lia).
  cbn in Hb. rewrite nth_error_app2, Nat.sub_diag in Hb by lia. cbn in Hb. congruence.
Qed.

(** at a corner of the outline the polygon turns strictly left *)
Lemma corner_turn P R a b c : convex_ccw P -> hanging P R -> In (a, b) (poly_edges R) -> In (b, c) (poly_edges R) ->
  In b P -> 0 < orient a b c.
Proof.
  intros HC HR H1 H2 Hb. pose proof HC as (HL & HN & HO).
  assert (NE : forall u v, In (u, v) (poly_edges P) -> u <> v) by (intros u v He; apply (edges_neq P u v HN); [lia|auto]).
  assert (AT : forall u v k, u <> v -> at_ u v k = u -> k = 0).
  { intros u v k Hn Ek. destruct (Req_dec k 0); auto. exfalso. apply Hn.
    pose proof (f_equal px Ek) as Kx. pose proof (f_equal py Ek) as Ky. unfold at_ in Kx, Ky. cbn in Kx, Ky. apply pt_eq.
    - assert (Z : k * (px v - px u) = 0) by lra. apply Rmult_integral in Z as [Z|Z]; lra.
    - assert (Z : k * (py v - py u) = 0) by lra. apply Rmult_integral in Z as [Z|Z]; lra. }
  assert (AT1 : forall u v k, u <> v -> at_ u v k = v -> k = 1).
  { intros u v k Hn Ek. assert (E : at_ v u (1 - k) = v).
    { transitivity (at_ u v k); [|exact Ek]. apply pt_eq; unfold at_; cbn; ring. }
    apply AT in E; [lra|auto]. }
  destruct (hanging_piece P R HR a b H1) as (u & v & He1 & s1 & t1 & Hs1 & Ht1 & Ea & Eb).
  destruct (hanging_piece P R HR b c H2) as (u' & v' & He2 & s2 & t2 & Hs2 & Ht2 & Eb' & Ec).
  assert (Bv : b = v).
  { destruct (pt_dec b v) as [|N]; auto. destruct (pt_dec b u) as [E|N2].
    - exfalso. rewrite Eb in E. apply AT in E; [lra|now apply NE].
    - exfalso. pose proof (HO u v b He1 Hb N2 N) as K. rewrite Eb, orient_at, orient_12, orient_22 in K. lra. }
  assert (Bu : b = u').
  { destruct (pt_dec b u') as [|N]; auto. destruct (pt_dec b v') as [E|N2].
    - exfalso. rewrite Eb' in E. apply AT1 in E; [lra|now apply NE].
    - exfalso. pose proof (HO u' v' b He2 Hb N N2) as K. rewrite Eb', orient_at, orient_12, orient_22 in K. lra. }
  subst v u'.
  assert (T1 : t1 = 1) by (apply (AT1 u b); [now apply NE|auto]).
  assert (S2 : s2 = 0) by (apply (AT b v'); [now apply NE|auto]).
  assert (Nv : v' <> b) by (intros E; now apply (NE b v' He2)).
  assert (Nu : v' <> u).
  { intros E. subst v'. destruct (third_vertex P u b HC) as (w & Hw & W1 & W2).
    pose proof (HO u b w He1 Hw W1 W2) as K1. pose proof (HO b u w He2 Hw W2 W1) as K2. rewrite orient_swap in K2. lra. }
  pose proof (edges_in _ _ _ He2) as (_ & Hv').
  pose proof (HO u b v' He1 Hv' Nu Nv) as K.
  assert (E : orient a b c = (1 - s1) * t2 * orient u b v').
  { rewrite Ea, Ec. unfold orient, at_. cbn. ring. }
  rewrite E. apply Rmult_lt_0_compat; auto. apply Rmult_lt_0_compat; lra.
Qed.

Section Face.
  Variable vs : list pt.

  Lemma ccw_loop_left u t (R : list pt) n :
    Forall2 (fun i p => (0 <= i)%Z /\ nth_error vs (Z.to_nat i) = Some p) u R ->
    (forall x y w, In (x, y) (poly_edges R) -> In w R -> 0 <= orient x y w) ->
    forall fuel i a b, (i + fuel <= length R)%nat -> In (a, b) (poly_edges R) ->
    (forall c, nth_error R i = Some c -> In (b, c) (poly_edges R)) ->
    ccw_loop vs n fuel (Z.of_nat i) (u ++ t) a b = Ok (u ++ t).
  Proof.
    intros HF HL. induction fuel as [|fuel IH]; intros i a b Hi Hab Hn; [reflexivity|].
    destruct (nth_error R i) as [c|] eqn:Ec; [|apply nth_error_None in Ec; lia].
    destruct (read_vertex vs u t R i c HF Ec) as (k & R1 & R2).
    cbn [ccw_loop]. rewrite R1. cbn [bind]. rewrite R2. cbn [bind]. cbv zeta. rewrite product_orient. rsimp.
    pose proof (HL a b c Hab (nth_error_In _ _ Ec)) as H0.
    destruct (Req_bool_spec (orient a b c) 0) as [E|E].
    - replace (Z.of_nat i + 1)%Z with (Z.of_nat (S i)) by lia. apply IH; auto; [lia|].
      intros c' Ec'. apply (edge_nth R i); auto.
    - rewrite Rlt_bool_false by lra. reflexivity.
  Qed.

  Lemma ccw_face_hang_keep f poly : wf_face (length vs) f -> poly_of vs f poly -> hanging_ccw poly ->
    ccw_face vs f = Ok f.
  Proof.
    intros Hw Hp (P & HC & HR). pose proof Hw as (H3 & H32 & Hr & Hf).
    pose proof (poly_of_length _ _ _ Hp) as El.
    pose proof (until_fill_prefix f) as Ef. set (u := until_fill f) in *. set (t := skipn (length u) f) in *.
    unfold ccw_face. rewrite polygon_length_ok by auto. fold u. unfold poly_of in Hp. fold u in Hp.
    set (n := length u) in *.
    assert (Hl : (3 <= length poly)%nat) by (apply hanging_length in HR; destruct HC; lia).
    destruct (nth_error poly (n - 2)) as [a|] eqn:Ea; [|apply nth_error_None in Ea; lia].
    destruct (nth_error poly (n - 1)) as [b|] eqn:Eb; [|apply nth_error_None in Eb; lia].
    destruct (read_vertex vs u t poly _ _ Hp Ea) as (ia & Ra & Va).
    destruct (read_vertex vs u t poly _ _ Hp Eb) as (ib & Rb & Vb).
    rewrite <- Ef in Ra, Rb.
    replace (Z.of_nat n - 2)%Z with (Z.of_nat (n - 2)) by lia.
    replace (Z.of_nat n - 1)%Z with (Z.of_nat (n - 1)) by lia.
    rewrite Ra. cbn [bind]. rewrite Rb. cbn [bind]. rewrite Va. cbn [bind]. rewrite Vb. cbn [bind].
    rewrite Ef. change 0%Z with (Z.of_nat 0). apply (ccw_loop_left u t poly n Hp); try lia.
    - destruct (hanging_sub _ _ HR) as (m & Hm). intros x y w He Hin. exact (sub_left P m poly x y w HC Hm He Hin).
    - apply (edge_nth poly (n - 2)); auto. replace (S (n - 2)) with (n - 1)%nat by lia. auto.
    - intros c Ec. apply (first_edge poly); auto. now replace (length poly - 1)%nat with (n - 1)%nat by lia.
  Qed.

  Lemma ccw_face_hang_flip f poly P : wf_face (length vs) f -> poly_of vs f poly ->
    convex_ccw P -> hanging P (rev poly) -> In (last poly (Pt 0 0)) P ->
    ccw_face vs f = Ok (rev (until_fill f) ++ skipn (length (until_fill f)) f).
  Proof.
    intros Hw Hp HC HR Hlast. pose proof Hw as (H3 & H32 & Hr & Hf).
    pose proof (poly_of_length _ _ _ Hp) as El.
    pose proof (until_fill_prefix f) as Ef. set (u := until_fill f) in *. set (t := skipn (length u) f) in *.
    unfold ccw_face. rewrite polygon_length_ok by auto. fold u. unfold poly_of in Hp. fold u in Hp.
    set (n := length u) in *. pose proof (Forall2_rev _ _ _ Hp) as Hp'.
    assert (Hl : (3 <= length poly)%nat) by (apply hanging_length in HR; rewrite rev_length in HR; destruct HC; lia).
    destruct (nth_error (rev poly) 1) as [a|] eqn:Ea; [|apply nth_error_None in Ea; rewrite rev_length in Ea; lia].
    destruct (nth_error (rev poly) 0) as [b|] eqn:Eb; [|apply nth_error_None in Eb; rewrite rev_length in Eb; lia].
    destruct (nth_error (rev poly) (n - 1)) as [c|] eqn:Ec; [|apply nth_error_None in Ec; rewrite rev_length in Ec; lia].
    destruct (read_vertex vs (rev u) t (rev poly) _ _ Hp' Ea) as (ja & Ra' & Va').
    pose proof Ea as Ea'. pose proof Eb as Eb'. pose proof Ec as Ec'.
    rewrite nth_error_rev in Ea', Eb', Ec' by lia.
    destruct (read_vertex vs u t poly _ _ Hp Ea') as (ia & Ra & Va).
    destruct (read_vertex vs u t poly _ _ Hp Eb') as (ib & Rb & Vb).
    destruct (read_vertex vs u t poly _ _ Hp Ec') as (ic & Rc & Vc).
    rewrite <- Ef in Ra, Rb, Rc.
    replace (Z.of_nat n - 2)%Z with (Z.of_nat (length poly - 2)) by lia.
    replace (Z.of_nat n - 1)%Z with (Z.of_nat (length poly - 1)) by lia.
    rewrite Ra. cbn [bind]. rewrite Rb. cbn [bind]. rewrite Va. cbn [bind]. rewrite Vb. cbn [bind].
    replace (length poly - S (n - 1))%nat with 0%nat in Rc by lia.
    assert (Eba : In (b, a) (poly_edges (rev poly))) by (apply (edge_nth (rev poly) 0); auto).
    assert (Ecb : In (c, b) (poly_edges (rev poly))).
    { apply (first_edge (rev poly)); auto. rewrite rev_length. now replace (length poly - 1)%nat with (n - 1)%nat by lia. }
    assert (Hb : In b P).
    { replace b with (last poly (Pt 0 0)); auto.
      assert (Hpn : poly <> []) by (intros ->; cbn in Hl; lia).
      destruct (exists_last Hpn) as (l & x & E). rewrite E in *. rewrite last_last. rewrite rev_app_distr in Eb. cbn in Eb. congruence. }
    assert (HO : orient a b c < 0).
    { pose proof (corner_turn P (rev poly) c b a HC HR Ecb Eba Hb) as K.
      replace (orient a b c) with (- orient c b a) by (unfold orient; ring). lra. }
    assert (En : exists m, n = S (S m)) by (exists (n - 2)%nat; lia). destruct En as (m & En).
    replace (ccw_loop vs n n 0%Z f a b) with (ccw_loop vs n (S (S m)) 0%Z f a b) by now rewrite <- En.
    cbn [ccw_loop]. change (aget f 0%Z) with (aget f (Z.of_nat 0)).
    rewrite Rc. cbn [bind]. rewrite Vc. cbn [bind]. cbv zeta. rewrite product_orient.
    rsimp. rewrite Req_bool_false by lra. rewrite Rlt_bool_true by lra.
    replace (Z.of_nat n) with (zlen u) by reflexivity. rewrite Ef at 1. rewrite flip_ok. cbn [bind].
    change (0 + 1)%Z with (Z.of_nat 1). change (Z.of_nat 1 + 1)%Z with (Z.of_nat 2).
    rewrite Ra'. cbn [bind]. rewrite Va'. cbn [bind]. rewrite !product_orient.
    rewrite (orient_12 a b). rewrite Req_bool_true by reflexivity.
    apply (ccw_loop_left (rev u) t (rev poly) n Hp').
    - destruct (hanging_sub _ _ HR) as (q & Hq). intros x y w He Hin. exact (sub_left P q (rev poly) x y w HC Hq He Hin).
    - rewrite rev_length. lia.
    - exact Eba.
    - intros d Ed. apply (edge_nth (rev poly) 1); auto.
  Qed.
End Face.

(** one face: the stored polygon *)
Lemma ccw_face_hang vs f poly : wf_face (length vs) f -> poly_of vs f poly ->
  exists f' poly', ccw_face vs f = Ok f' /\ wf_face (length vs) f' /\ same_face f f'
    /\ poly_of vs f' poly' /\ poly_same poly poly'
    /\ (orientable poly -> hanging_ccw poly').
Proof.
  intros Hw Hp. destruct (ccw_face_ok vs f Hw) as (f' & E & Hw' & Hs).
  destruct (same_face_poly vs f f' poly Hw Hs Hp) as (poly' & Hp' & Hs').
  exists f', poly'. repeat (split; [assumption|]). intros [H|(P & HC & HR & Hl)].
  - rewrite (ccw_face_hang_keep vs f poly Hw Hp H) in E. apply Ok_inj in E. subst f'.
    now rewrite (poly_of_unique _ _ _ _ Hp' Hp).
  - rewrite (ccw_face_hang_flip vs f poly P Hw Hp HC HR Hl) in E. apply Ok_inj in E. subst f'.
    rewrite (poly_of_unique _ _ _ _ Hp' (poly_of_rev vs f poly Hw Hp)). exists P. auto.
Qed.

Lemma counter_clockwise_hang vs faces faces' :
  Forall (wf_face (length vs)) faces -> counter_clockwise vs faces = Ok faces' ->
  Forall2 (fun f f' => same_face f f' /\ wf_face (length vs) f' /\ forall poly, poly_of vs f poly ->
     exists poly', poly_of vs f' poly' /\ poly_same poly poly' /\ (orientable poly -> hanging_ccw poly')) faces faces'.
Proof.
  intros Hw H. apply mapres_ok_inv in H. revert Hw. induction H as [|f f' l l' E _ IH]; intros Hw; constructor.
  - inversion Hw as [|? ? Hf Hl]; subst.
    destruct (ccw_face_ok vs f Hf) as (f1 & E1 & Hw1 & Hs1). rewrite E in E1. apply Ok_inj in E1. subst f1.
    split; auto. split; auto. intros poly Hp.
    destruct (ccw_face_hang vs f poly Hf Hp) as (f1 & poly' & E1 & _ & _ & Hp' & Hs' & Ho).
    rewrite E in E1. apply Ok_inj in E1. subst f1. eauto.
  - apply IH. now inversion Hw.
Qed.

(** the stored form of a face *)
Lemma hang_stored g vs faces fill nb cpl (t : tree2d (T:=R)) j poly :
  mesh_ok vs faces fill -> CellTree2d_init g vs faces fill nb cpl = Ok t ->
  face_poly vs faces fill j poly ->
  exists f' poly' b, (0 <= j)%Z /\ nth_error (elements (celltree_data t)) (Z.to_nat j) = Some f'
    /\ nth_error (bb_coords (celltree_data t)) (Z.to_nat j) = Some b
    /\ wf_face (length vs) f' /\ poly_of vs f' poly' /\ poly_same poly poly' /\ (orientable poly -> hanging_ccw poly')
    /\ tight_box poly' b.
Proof.
  intros Hm E Hj. destruct Hj as (f & H0 & En & Hp).
  pose proof (init_ccw _ _ _ _ _ _ _ Hm E) as Hcc.
  pose proof (counter_clockwise_hang vs _ _ (mo_faces _ _ _ Hm) Hcc) as HF.
  destruct (Forall2_nth_l _ _ _ _ _ HF En) as (f' & En' & _ & Hwf & H).
  destruct (H poly Hp) as (poly' & Hp' & Hs & Ho).
  pose proof (init_built _ _ _ _ _ _ _ Hm E) as Hb.
  destruct (Forall2_nth_l _ _ _ _ _ (mt_boxes _ (bt_mesh _ _ _ _ _ Hb)) En') as (b & Eb & poly2 & Hp2 & Ht).
  rewrite (bt_vertices _ _ _ _ _ Hb) in Hp2. assert (poly2 = poly') by (eapply poly_of_unique; eauto). subst poly2.
  exists f', poly', b. repeat (split; [assumption|]). exact Ht.
Qed.

Lemma outline_same P Q Q' : outline P Q -> poly_same Q Q' -> outline P Q'.
Proof. intros H [->| ->]; auto. now apply outline_rev. Qed.
Lemma same_either Q Q' : poly_same Q Q' -> Q' = Q \/ Q' = rev Q.
Proof. auto. Qed.
