(** Construction from vertices and faces (edges) yields a valid tree. *)
From Verif Require Import Base Num MUtils MGeometry MCreation MAlgorithms MQuery MCelltree
  PStack PPartition SpecTree PBuild PBuild2 PWalk PCollect SpecQuery PQuery PMesh.

Section Init.
  Context {T : Type} {NT : Num T} {NO : NumOrd T}.
  Notation box := (box T).
  Notation point := (point T).

  Lemma nmin_cases a b : nmin a b = a \/ nmin a b = b.
  Proof. unfold nmin. destruct (nltb b a); auto. Qed.
  Lemma nmax_cases a b : nmax a b = a \/ nmax a b = b.
  Proof. unfold nmax. destruct (nltb a b); auto. Qed.
  Lemma nmin_fin a b : fin a -> fin b -> fin (nmin a b).
  Proof. intros. destruct (nmin_cases a b) as [-> | ->]; auto. Qed.
  Lemma nmax_fin a b : fin a -> fin b -> fin (nmax a b).
  Proof. intros. destruct (nmax_cases a b) as [-> | ->]; auto. Qed.
  Lemma nmin_l a b : fin a -> fin b -> nleb (nmin a b) a = true.
  Proof.
    intros Ha Hb. unfold nmin. destruct (nltb b a) eqn:E; [now apply nlt_le|now apply fin_le_refl].
  Qed.
  Lemma nmin_r a b : fin a -> fin b -> nleb (nmin a b) b = true.
  Proof.
    intros Ha Hb. unfold nmin. destruct (nltb b a) eqn:E; [now apply fin_le_refl|].
    rewrite fin_lt_le in E by auto. destruct (nleb a b); auto; discriminate.
  Qed.
  Lemma nmax_l a b : fin a -> fin b -> nleb a (nmax a b) = true.
  Proof.
    intros Ha Hb. unfold nmax. destruct (nltb a b) eqn:E; [now apply nlt_le|now apply fin_le_refl].
  Qed.
  Lemma nmax_r a b : fin a -> fin b -> nleb b (nmax a b) = true.
  Proof.
    intros Ha Hb. unfold nmax. destruct (nltb a b) eqn:E; [now apply fin_le_refl|].
    rewrite fin_lt_le in E by auto. destruct (nleb b a); auto; discriminate.
  Qed.

  Lemma tight_fin poly b : Forall finite_point poly -> tight_box poly b -> finite_box b.
  Proof.
    intros Hf (_ & H1 & H2 & H3 & H4). rewrite Forall_forall in Hf.
    apply Exists_exists in H1 as (p1 & I1 & E1). apply Exists_exists in H2 as (p2 & I2 & E2).
    apply Exists_exists in H3 as (p3 & I3 & E3). apply Exists_exists in H4 as (p4 & I4 & E4).
    apply Hf in I1, I2, I3, I4. unfold finite_point in *. unfold finite_box.
    rewrite <- E1, <- E2, <- E3, <- E4. tauto.
  Qed.

  Lemma tight_step poly b v :
    Forall finite_point poly -> finite_point v -> tight_box poly b ->
    tight_box (poly ++ [v]) (Box (nmin (xmin b) (px v)) (nmax (xmax b) (px v))
                                 (nmin (ymin b) (py v)) (nmax (ymax b) (py v))).
  Proof.
    intros Hf (Hx & Hy) Ht. pose proof (tight_fin _ _ Hf Ht) as (F1 & F2 & F3 & F4).
    destruct Ht as (Hin & H1 & H2 & H3 & H4).
    assert (Hex : forall (f : point -> T) (m o : T), (m = o \/ m = f v) ->
      Exists (fun p => f p = o) poly -> Exists (fun p => f p = m) (poly ++ [v])).
    { intros f m o [-> | ->] H; apply Exists_app; [now left|]. right. now constructor. }
    split.
    - apply Forall_app. split.
      + eapply Forall_impl; [|exact Hin]. intros p (A & B & C & D).
        split; [|split; [|split]]; cbn [xmin xmax ymin ymax].
        * eapply nle_trans; [apply nmin_l; auto|exact A].
        * eapply nle_trans; [exact B|apply nmax_l; auto].
        * eapply nle_trans; [apply nmin_l; auto|exact C].
        * eapply nle_trans; [exact D|apply nmax_l; auto].
      + constructor; [|constructor]. repeat split; cbn [xmin xmax ymin ymax];
          auto using nmin_r, nmax_r.
    - cbn [xmin xmax ymin ymax].
      split; [|split; [|split]].
      + apply (Hex px _ _ (nmin_cases _ _) H1).
      + apply (Hex px _ _ (nmax_cases _ _) H2).
      + apply (Hex py _ _ (nmin_cases _ _) H3).
      + apply (Hex py _ _ (nmax_cases _ _) H4).
  Qed.

  Lemma bounding_box_loop_ok (vs : list point) : Forall finite_point vs ->
    forall l poly seen bb,
    Forall2 (fun i p => 0 <= i /\ nth_error vs (Z.to_nat i) = Some p) (until_fill l) poly ->
    Forall finite_point seen -> tight_box seen bb ->
    exists b, bounding_box_loop vs l bb = Ok b /\ tight_box (seen ++ poly) b.
  Proof.
    intros Hvs. induction l as [|x t IH]; intros poly seen bb HF Hs Ht.
    - simpl in HF. inversion HF; subst. exists bb. rewrite app_nil_r. auto.
    - cbn [bounding_box_loop]. cbn [until_fill] in HF. unfold FILL_VALUE.
      destruct (x =? -1).
      + inversion HF; subst. exists bb. rewrite app_nil_r. auto.
      + inversion HF as [|? v ? poly' (H0 & Ev) HF']; subst.
        rewrite (aget_pos _ _ _ H0 Ev). cbn [bind].
        assert (Hv : finite_point v).
        { rewrite Forall_forall in Hvs. apply Hvs. eapply nth_error_In; eauto. }
        replace (seen ++ v :: poly') with ((seen ++ [v]) ++ poly') by now rewrite <- app_assoc.
        apply IH; auto.
        * apply Forall_app. auto.
        * now apply tight_step.
  Qed.

  Lemma bounding_box_ok (vs : list point) f :
    Forall finite_point vs -> wf_face (length vs) f ->
    exists poly b, poly_of vs f poly /\ bounding_box f vs = Ok b /\ tight_box poly b
      /\ finite_box b.
  Proof.
    intros Hvs Hw. destruct (wf_poly vs f Hw) as (poly & Hp).
    destruct Hw as (H3 & _ & _ & _). pose proof Hp as Hp0.
    unfold poly_of in Hp. destruct f as [|i0 f]; [simpl in H3; lia|].
    cbn [until_fill] in Hp, H3. destruct (i0 =? -1) eqn:E0; [simpl in H3; lia|].
    inversion Hp as [|? v ? poly' (Hi & Ev) HF]; subst.
    assert (Hv : finite_point v).
    { rewrite Forall_forall in Hvs. apply Hvs. eapply nth_error_In; eauto. }
    assert (Ht : tight_box [v] (Box (px v) (px v) (py v) (py v))).
    { destruct Hv. split.
      - constructor; [|constructor]. repeat split; cbn; now apply fin_le_refl.
      - repeat split; constructor; reflexivity. }
    destruct (bounding_box_loop_ok vs Hvs f poly' [v] (Box (px v) (px v) (py v) (py v)) HF)
      as (b & E & Htb); auto.
    exists (v :: poly'), b. split; auto. split.
    - unfold bounding_box. change (aget (i0 :: f) 0) with (Ok i0). cbn [bind].
      rewrite (aget_pos _ _ _ Hi Ev). cbn [bind]. exact E.
    - split; auto. eapply tight_fin; [|exact Htb].
      clear - Hp0 Hvs. unfold poly_of in Hp0. change ([v] ++ poly') with (v :: poly').
      apply Forall_forall. intros p Hin. rewrite Forall_forall in Hvs. apply Hvs.
      induction Hp0 as [|? ? ? ? (_ & E) _ IH]; [contradiction|].
      destruct Hin as [<-|Hin]; auto. eapply nth_error_In; eauto.
  Qed.

  Lemma build_face_bboxes_ok (vs : list point) faces :
    Forall finite_point vs -> Forall (wf_face (length vs)) faces ->
    exists bbs, build_face_bboxes faces vs = Ok bbs /\ Forall finite_box bbs
      /\ Forall2 (fun f b => exists poly, poly_of vs f poly /\ tight_box poly b) faces bbs.
  Proof.
    intros Hvs. induction 1 as [|f t Hf _ (bbs & E & HF & H2)].
    - exists []. repeat split; constructor.
    - destruct (bounding_box_ok vs f Hvs Hf) as (poly & b & Hp & Eb & Ht & Hfin).
      exists (b :: bbs). unfold build_face_bboxes in *. cbn [mapres]. rewrite Eb. cbn [bind].
      rewrite E. cbn [bind]. split; auto. split; constructor; eauto.
  Qed.

  (** ** numpy reductions *)
  Lemma npmin2_fin a b : fin a -> fin b -> npmin2 a b = nmin a b.
  Proof. intros Ha Hb. unfold npmin2, is_nan. now rewrite !fin_eq_refl. Qed.
  Lemma npmax2_fin a b : fin a -> fin b -> npmax2 a b = nmax a b.
  Proof. intros Ha Hb. unfold npmax2, is_nan. now rewrite !fin_eq_refl. Qed.

  Lemma np_min_ok l : Forall fin l -> l <> [] ->
    exists m, np_min l = Ok m /\ In m l /\ Forall (fun x => nleb m x = true) l.
  Proof.
    destruct l as [|x t]; intros Hf Hn; [congruence|]. cbn [np_min].
    inversion Hf as [|? ? Hx Ht]; subst. eexists; split; [reflexivity|].
    assert (G : forall t x, Forall fin t -> fin x ->
      let m := fold_left npmin2 t x in
      fin m /\ In m (x :: t) /\ Forall (fun y => nleb m y = true) (x :: t)).
    { clear. induction t as [|y t IH]; intros x Ht Hx; cbn zeta; cbn [fold_left].
      - split; auto. split; [now left|]. constructor; auto. now apply fin_le_refl.
      - inversion Ht; subst. rewrite npmin2_fin by auto.
        destruct (IH (nmin x y)) as (A & B & C); auto using nmin_fin.
        split; auto. inversion C as [|? ? C1 C2]; subst. split.
        + destruct B as [B|B]; [|right; now right]. rewrite <- B.
          destruct (nmin_cases x y) as [-> | ->]; [now left|right; now left].
        + constructor; [|constructor]; eauto using nle_trans, nmin_l, nmin_r. }
    apply G; auto.
  Qed.
  Lemma np_max_ok l : Forall fin l -> l <> [] ->
    exists m, np_max l = Ok m /\ In m l /\ Forall (fun x => nleb x m = true) l.
  Proof.
    destruct l as [|x t]; intros Hf Hn; [congruence|]. cbn [np_max].
    inversion Hf as [|? ? Hx Ht]; subst. eexists; split; [reflexivity|].
    assert (G : forall t x, Forall fin t -> fin x ->
      let m := fold_left npmax2 t x in
      fin m /\ In m (x :: t) /\ Forall (fun y => nleb y m = true) (x :: t)).
    { clear. induction t as [|y t IH]; intros x Ht Hx; cbn zeta; cbn [fold_left].
      - split; auto. split; [now left|]. constructor; auto. now apply fin_le_refl.
      - inversion Ht; subst. rewrite npmax2_fin by auto.
        destruct (IH (nmax x y)) as (A & B & C); auto using nmax_fin.
        split; auto. inversion C as [|? ? C1 C2]; subst. split.
        + destruct B as [B|B]; [|right; now right]. rewrite <- B.
          destruct (nmax_cases x y) as [-> | ->]; [now left|right; now left].
        + constructor; [|constructor]; eauto using nle_trans, nmax_l, nmax_r. }
    apply G; auto.
  Qed.

  (** the bounding box of the tree: tight around the boxes *)
  Lemma bbox_tree_ok (bbs : list box) : Forall finite_box bbs -> bbs <> [] ->
    exists b, bbox_tree bbs = Ok b /\ Forall (fun c => box_within c b) bbs
      /\ Exists (fun c => xmin c = xmin b) bbs /\ Exists (fun c => xmax c = xmax b) bbs
      /\ Exists (fun c => ymin c = ymin b) bbs /\ Exists (fun c => ymax c = ymax b) bbs.
  Proof.
    intros Hf Hn.
    assert (Hm : forall f : box -> T, (forall c, finite_box c -> fin (f c)) ->
       Forall fin (map f bbs) /\ map f bbs <> []).
    { intros f Hc. split; [|destruct bbs; simpl; congruence].
      apply Forall_map. eapply Forall_impl; [|exact Hf]. auto. }
    assert (Hex : forall (f : box -> T) m, In m (map f bbs) -> Exists (fun c => f c = m) bbs).
    { intros f m H. apply in_map_iff in H as (c & E & Hc). apply Exists_exists. eauto. }
    unfold finite_box in Hm.
    destruct (Hm xmin) as (A1 & B1); [tauto|]. destruct (Hm xmax) as (A2 & B2); [tauto|].
    destruct (Hm ymin) as (A3 & B3); [tauto|]. destruct (Hm ymax) as (A4 & B4); [tauto|].
    destruct (np_min_ok _ A1 B1) as (m1 & E1 & I1 & L1).
    destruct (np_max_ok _ A2 B2) as (m2 & E2 & I2 & L2).
    destruct (np_min_ok _ A3 B3) as (m3 & E3 & I3 & L3).
    destruct (np_max_ok _ A4 B4) as (m4 & E4 & I4 & L4).
    exists (Box m1 m2 m3 m4). unfold bbox_tree. rewrite E1. cbn [bind]. rewrite E2. cbn [bind].
    rewrite E3. cbn [bind]. rewrite E4. cbn [bind]. split; auto. split.
    - rewrite Forall_map in L1, L2, L3, L4. rewrite Forall_forall in *.
      intros c Hc. repeat split; cbn; auto.
    - cbn [xmin xmax ymin ymax]. auto.
  Qed.

  (** ** valid tree from the result of [initialize] *)
  Lemma initialize_valid g (bbs : list box) elems vs nb cpl :
    Forall finite_box bbs -> bbs <> [] -> length elems = length bbs -> 1 <= nb -> 1 <= cpl ->
    (exists er, initialize g (build_fuel (length elems)) (length elems) bbs nb cpl = Err er
                /\ Fails bbs nb er)
    \/ exists nds bbi bb,
        initialize g (build_fuel (length elems)) (length elems) bbs nb cpl = Ok (nds, bbi)
        /\ bbox_tree bbs = Ok bb
        /\ zlen nds <= pessimistic_n_nodes (zlen elems)
        /\ valid_tree (CellTree elems vs nds bbi bbs bb cpl).
  Proof.
    intros Hf Hn Hl Hnb Hcpl. rewrite Hl.
    assert (H1 : (1 <= length bbs)%nat) by (destruct bbs; simpl; [congruence|lia]).
    destruct (initialize_ok bbs Hf g nb cpl Hnb Hcpl (length bbs) (build_fuel (length bbs)))
      as [H|(nds & bbi & S & E & Hp & HT & HS & H2 & H3)]; auto.
    - unfold zlen. lia.
    - unfold build_fuel. lia.
    - right. destruct (bbox_tree_ok bbs Hf Hn) as (bb & Eb & Hw & _).
      exists nds, bbi, bb. split; auto. split; auto. split; [unfold zlen at 2; now rewrite Hl|].
      constructor; cbn [bb_coords bb_indices nodes elements bbox]; auto.
      exists S. auto.
  Qed.

  Lemma cast_faces_ok faces fill :
    Forall (fun f => length f <= 32)%nat faces ->
    cast_faces faces fill = Ok (map (with_fill fill) faces).
  Proof.
    intros H. unfold cast_faces.
    assert (E : existsb (fun f : list Z => (MAX_N_VERTEX <? length f)%nat) faces = false).
    { destruct (existsb _ faces) eqn:E; auto. apply existsb_exists in E as (f & Hf & E).
      rewrite Forall_forall in H. apply H in Hf. apply Nat.ltb_lt in E. unfold MAX_N_VERTEX in E. lia. }
    rewrite E. destruct (fill =? FILL_VALUE) eqn:E2; cbn [negb]; auto.
    apply Z.eqb_eq in E2. subst fill. f_equal. unfold FILL_VALUE.
    rewrite <- (map_id faces) at 1. apply map_ext. intros f. unfold with_fill.
    rewrite <- (map_id f) at 1. apply map_ext. intros i.
    destruct (i =? -1) eqn:E3; auto. now apply Z.eqb_eq in E3.
  Qed.

  Lemma with_fill_length fill f : length (with_fill fill f) = length f.
  Proof. apply map_length. Qed.

  Lemma cast_faces_wf (vs : list point) faces fill :
    Forall (wf_face (length vs)) (map (with_fill fill) faces) ->
    cast_faces faces fill = Ok (map (with_fill fill) faces).
  Proof.
    intros H. apply cast_faces_ok. rewrite Forall_map in H.
    eapply Forall_impl; [|exact H]. intros f (_ & H32 & _).
    now rewrite with_fill_length in H32.
  Qed.
End Init.
