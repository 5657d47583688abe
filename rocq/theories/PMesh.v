(** Faces, their vertices and bounding boxes; construction yields a valid tree. *)
From Verif Require Import Base Num MUtils MGeometry MCreation MAlgorithms MQuery MCelltree
  PStack PPartition SpecTree PBuild PBuild2 PWalk PCollect SpecQuery PQuery.

Lemma until_fill_prefix f : f = until_fill f ++ skipn (length (until_fill f)) f.
Proof.
  induction f as [|x t IH]; auto. cbn [until_fill]. destruct (x =? -1); auto.
  simpl. f_equal. exact IH.
Qed.

Lemma until_fill_length f : (length (until_fill f) <= length f)%nat.
Proof.
  induction f as [|x t IH]; auto. cbn [until_fill]. destruct (x =? -1); simpl; lia.
Qed.

Lemma until_fill_app a b : Forall (fun i => 0 <= i) a -> until_fill (a ++ b) = a ++ until_fill b.
Proof.
  induction 1 as [|x t Hx _ IH]; auto. cbn [app until_fill].
  destruct (x =? -1) eqn:E; [lia|]. now rewrite IH.
Qed.

Lemma until_fill_fills b : Forall (fun i => i = -1) b -> until_fill b = [].
Proof. destruct 1; subst; reflexivity. Qed.

Lemma until_fill_pos f nv :
  Forall (fun i => 0 <= i < Z.of_nat nv) (until_fill f) -> Forall (fun i => 0 <= i) (until_fill f).
Proof. intros H. eapply Forall_impl; [|exact H]. simpl; intros; lia. Qed.

Lemma polygon_length_aux_ok : forall l k,
  polygon_length_aux k l = (k + length (until_fill l))%nat.
Proof.
  induction l as [|x t IH]; intros k; cbn [polygon_length_aux until_fill]; [simpl; lia|].
  unfold FILL_VALUE. destruct (x =? -1); [simpl; lia|]. rewrite IH. simpl; lia.
Qed.

Lemma polygon_length_ok f : (3 <= length (until_fill f))%nat ->
  polygon_length f = length (until_fill f).
Proof.
  intros H. unfold polygon_length. pose proof (until_fill_length f) as HL.
  destruct (length f <=? 3)%nat eqn:E; [apply Nat.leb_le in E; lia|].
  rewrite polygon_length_aux_ok.
  destruct f as [|x [|y [|z t]]]; cbn [length] in E; try discriminate.
  cbn [until_fill] in *.
  destruct (x =? -1); [simpl in H; lia|]. destruct (y =? -1); [simpl in H; lia|].
  destruct (z =? -1); [simpl in H; lia|]. reflexivity.
Qed.

(** the loop that copies vertices *)
Lemma copy_loop_ok {A} (f : Z -> res A) : forall m i pre rest vals,
  Forall2 (fun k v => f k = Ok v) (map (fun k => i + k) (iota m)) vals ->
  i = zlen pre -> (m <= length rest)%nat ->
  for_loop m i (fun i out => let* v := f i in aset out i v) (pre ++ rest)
  = Ok (pre ++ vals ++ skipn m rest).
Proof.
  induction m as [|m IH]; intros i pre rest vals HF Hi Hr.
  - simpl in HF. inversion HF; subst. reflexivity.
  - assert (Ei : iota (S m) = 0 :: map (fun k => 1 + k) (iota m)).
    { unfold iota. cbn [seq map]. f_equal. rewrite <- seq_shift, map_map, map_map.
      apply map_ext. intros k. lia. }
    rewrite Ei in HF. cbn [map] in HF. rewrite map_map in HF.
    inversion HF as [|? v ? vals' Ev HF']; subst. rewrite Z.add_0_r in Ev.
    destruct rest as [|x rest]; [simpl in Hr; lia|].
    cbn [for_loop]. rewrite Ev. cbn [bind]. rewrite aset_mid by reflexivity. cbn [bind].
    replace (pre ++ v :: rest) with ((pre ++ [v]) ++ rest) by now rewrite <- app_assoc.
    rewrite (IH _ _ _ vals').
    + rewrite <- !app_assoc. reflexivity.
    + replace (map (fun k => zlen pre + 1 + k) (iota m))
        with (map (fun x : Z => zlen pre + (1 + x)) (iota m))
        by (apply map_ext; intros; lia). exact HF'.
    + rewrite zlen_app. reflexivity.
    + simpl in Hr. lia.
Qed.

Lemma aget_prefix {A} (l : list A) (k : nat) a : nth_error l k = Some a -> aget l (Z.of_nat k) = Ok a.
Proof. apply aget_nat. Qed.

Section Mesh.
  Context {T : Type} {NT : Num T}.
  Notation box := (box T).
  Notation point := (point T).

  Lemma poly_exists (vs : list point) f :
    Forall (fun i => 0 <= i < Z.of_nat (length vs)) (until_fill f) ->
    exists poly, poly_of vs f poly.
  Proof.
    intros H. unfold poly_of. apply Forall2_choose. intros i Hi.
    rewrite Forall_forall in H. specialize (H i Hi).
    destruct (nth_error vs (Z.to_nat i)) as [p|] eqn:E; [eauto with zarith|].
    apply nth_error_None in E. lia.
  Qed.

  Lemma poly_of_length (vs : list point) f poly : poly_of vs f poly -> length poly = length (until_fill f).
  Proof. induction 1; simpl; auto. Qed.

  Lemma copy_vertices_into_gen (vs : list point) f poly out :
    poly_of vs f poly -> polygon_length f = length (until_fill f) ->
    (length (until_fill f) <= length out)%nat ->
    copy_vertices_into vs f out = Ok poly.
  Proof.
    intros Hp H3 Hout. unfold copy_vertices_into. rewrite H3.
    unfold for_range. rewrite Z.sub_0_r, Nat2Z.id.
    assert (Hloop : for_loop (length (until_fill f)) 0
       (fun i out => let* f0 := aget f i in let* v := aget vs f0 in aset out i v) out
       = Ok ([] ++ poly ++ skipn (length (until_fill f)) out)).
    { transitivity (for_loop (length (until_fill f)) 0
        (fun i out => let* v := (let* f0 := aget f i in aget vs f0) in aset out i v) ([] ++ out)).
      - clear. cbn [app]. generalize 0 out. induction (length (until_fill f)) as [|m IH]; intros i o; auto.
        cbn [for_loop]. destruct (aget f i); cbn [bind]; auto.
        destruct (aget vs a); cbn [bind]; auto. destruct (aset o i a0); cbn [bind]; auto.
      - apply copy_loop_ok; auto.
        assert (G : forall u p, Forall2 (fun i p => 0 <= i /\ nth_error vs (Z.to_nat i) = Some p) u p ->
          forall pre t, f = pre ++ u ++ t ->
          Forall2 (fun (k : Z) (v : point) => (let* f0 := aget f k in aget vs f0) = Ok v)
            (map (fun k : Z => zlen pre + k) (iota (length u))) p).
        { induction 1 as [|i v u p (H0 & Ev) _ IH]; intros pre t Ef; [constructor|].
          assert (Ei : iota (length (i :: u)) = 0 :: map (fun k => 1 + k) (iota (length u))).
          { unfold iota. cbn [length seq map]. f_equal. rewrite <- seq_shift, map_map, map_map.
            apply map_ext. intros k. lia. }
          rewrite Ei. cbn [map]. constructor.
          - rewrite Z.add_0_r. subst f. cbn [app]. rewrite aget_mid by reflexivity. cbn [bind].
            now apply aget_pos.
          - rewrite map_map.
            replace (map (fun x => zlen pre + (1 + x)) (iota (length u)))
              with (map (fun k => zlen (pre ++ [i]) + k) (iota (length u)))
              by (apply map_ext; intros k; rewrite zlen_app; change (zlen [i]) with 1; lia).
            apply (IH _ t). rewrite <- app_assoc. exact Ef. }
        apply (G _ _ Hp [] (skipn (length (until_fill f)) f)). simpl. apply until_fill_prefix. }
    rewrite Hloop. cbn [bind app].
    rewrite <- (poly_of_length vs f poly Hp).
    rewrite firstn_app, firstn_all, Nat.sub_diag. simpl. now rewrite app_nil_r.
  Qed.

  Lemma copy_vertices_into_ok (vs : list point) f poly out :
    poly_of vs f poly -> (3 <= length (until_fill f))%nat ->
    (length (until_fill f) <= length out)%nat ->
    copy_vertices_into vs f out = Ok poly.
  Proof.
    intros Hp H3 Hout. apply copy_vertices_into_gen; auto. now apply polygon_length_ok.
  Qed.

  Lemma wf_poly (vs : list point) f : wf_face (length vs) f -> exists poly, poly_of vs f poly.
  Proof. intros (_ & _ & H & _). now apply poly_exists. Qed.

  Lemma copy_vertices_ok g (vs : list point) f poly :
    wf_face (length vs) f -> poly_of vs f poly -> copy_vertices g vs f = Ok poly.
  Proof.
    intros (H3 & H32 & _ & _) Hp. apply copy_vertices_into_ok; auto.
    unfold allocate_polygon. rewrite np_empty_length. pose proof (until_fill_length f).
    unfold MAX_N_VERTEX. lia.
  Qed.

  (** ** flip *)
  Lemma flip_loop : forall n (a m b t : list Z) i e,
    length a = length b -> i = zlen a -> e = zlen a + zlen m + zlen b - 1 ->
    n = (length m / 2)%nat ->
    for_loop n i (fun i face =>
         let j := e - i in
         let* fj := aget face j in
         let* fi := aget face i in
         let* face := aset face i fj in
         aset face j fi) (a ++ m ++ b ++ t)
    = Ok (a ++ rev m ++ b ++ t).
  Proof.
    induction n as [|n IH]; intros a m b t i e Hab Hi He Hn.
    - destruct m as [|x [|y m]]; auto.
      exfalso. cbn [length] in Hn.
      assert (1 <= S (S (length m)) / 2)%nat by (apply Nat.div_le_lower_bound; lia). lia.
    - destruct m as [|x m]; [simpl in Hn; discriminate|].
      destruct (exists_last (l := m)) as (m' & y & Em).
      { intros ->. cbn in Hn. discriminate. }
      subst m. cbn [for_loop]. cbv zeta.
      replace (e - i) with (zlen (a ++ x :: m')).
      2:{ subst e i. rewrite !zlen_app. unfold zlen. cbn [length]. rewrite app_length. cbn [length]. lia. }
      replace (a ++ (x :: m' ++ [y]) ++ b ++ t) with ((a ++ x :: m') ++ y :: b ++ t)
        by (rewrite <- !app_assoc; cbn [app]; now rewrite <- app_assoc).
      rewrite aget_mid by reflexivity. cbn [bind].
      replace ((a ++ x :: m') ++ y :: b ++ t) with (a ++ x :: (m' ++ y :: b ++ t))
        by now rewrite <- app_assoc.
      rewrite aget_mid by auto. cbn [bind]. rewrite aset_mid by auto. cbn [bind].
      replace (a ++ y :: m' ++ y :: b ++ t) with ((a ++ y :: m') ++ y :: b ++ t)
        by now rewrite <- app_assoc.
      rewrite aset_mid by (rewrite !zlen_app; unfold zlen; reflexivity). cbn [bind].
      replace ((a ++ y :: m') ++ x :: b ++ t) with ((a ++ [y]) ++ m' ++ (x :: b) ++ t)
        by (rewrite <- !app_assoc; reflexivity).
      rewrite (IH (a ++ [y]) m' (x :: b) t).
      + rewrite <- !app_assoc. cbn [app rev]. rewrite rev_app_distr. cbn [rev app].
        rewrite <- !app_assoc. reflexivity.
      + rewrite app_length. cbn [length]. lia.
      + subst i. rewrite zlen_app. reflexivity.
      + subst e. rewrite !zlen_app. unfold zlen. cbn [length]. rewrite app_length. cbn [length]. lia.
      + cbn [length] in Hn. rewrite app_length in Hn. cbn [length] in Hn.
        replace (S (length m' + 1))%nat with (length m' + 1 * 2)%nat in Hn by lia.
        rewrite Nat.div_add in Hn by lia. lia.
  Qed.

  Lemma flip_ok u t : flip (u ++ t) (zlen u) = Ok (rev u ++ t).
  Proof.
    unfold flip. unfold for_range.
    replace (Z.to_nat (zlen u / 2 - 0)) with (length u / 2)%nat.
    - pose proof (flip_loop (length u / 2) [] u [] t 0 (zlen u - 1)) as H.
      cbn [app] in H. apply H; auto. unfold zlen. simpl. lia.
    - unfold zlen. rewrite Z.sub_0_r. rewrite <- Nat2Z.inj_div with (m := 2%nat).
      now rewrite Nat2Z.id.
  Qed.

  (** ccw_face returns the face or its reversal *)
  Lemma ccw_loop_cases (vs : list point) : forall fuel i (u t : list Z) a b,
    Forall (fun i => 0 <= i < Z.of_nat (length vs)) u ->
    0 <= i -> i + Z.of_nat fuel <= zlen u ->
    ccw_loop vs (length u) fuel i (u ++ t) a b = Ok (u ++ t)
    \/ ccw_loop vs (length u) fuel i (u ++ t) a b = Ok (rev u ++ t).
  Proof.
    induction fuel as [|fuel IH]; intros i u t a b Hu H0 Hi; [now left|].
    cbn [ccw_loop].
    assert (Eg : exists x c, aget (u ++ t) i = Ok x /\ aget vs x = Ok c).
    { destruct (aget_ok_pos u i) as (x & E & En); [lia|].
      exists x.
      assert (Hx : 0 <= x < Z.of_nat (length vs)).
      { rewrite Forall_forall in Hu. apply Hu. eapply nth_error_In; eauto. }
      destruct (aget_ok_pos vs x) as (c & Ec & _); [exact Hx|].
      exists c. split; auto. apply aget_pos; auto.
      rewrite nth_error_app1; auto. apply nth_error_Some. congruence. }
    destruct Eg as (x & c & Ex & Ec). rewrite Ex. cbn [bind]. rewrite Ec. cbn [bind]. cbv zeta.
    destruct (neqb _ _); [apply IH; auto; lia|].
    destruct (nltb _ _); [|now left].
    fold (zlen u). rewrite flip_ok. cbn [bind].
    replace (length u) with (length (rev u)) by apply rev_length.
    destruct (IH (i + 1) (rev u) t a b) as [E|E].
    - now apply Forall_rev.
    - lia.
    - unfold zlen in *. rewrite rev_length. lia.
    - right. exact E.
    - left. rewrite E. now rewrite rev_involutive.
  Qed.

  Lemma ccw_face_cases (vs : list point) f :
    wf_face (length vs) f ->
    exists f', ccw_face vs f = Ok f' /\
      (f' = f \/ f' = rev (until_fill f) ++ skipn (length (until_fill f)) f).
  Proof.
    intros (H3 & H32 & Hr & Hfill). unfold ccw_face. rewrite polygon_length_ok by auto.
    assert (Eg : forall i, 0 <= i < zlen (until_fill f) ->
      exists x c, aget f i = Ok x /\ aget vs x = Ok c).
    { intros i Hi. destruct (aget_ok_pos (until_fill f) i) as (x & E & En); [lia|].
      exists x.
      assert (Hx : 0 <= x < Z.of_nat (length vs)).
      { rewrite Forall_forall in Hr. apply Hr. eapply nth_error_In; eauto. }
      destruct (aget_ok_pos vs x) as (c & Ec & _); [exact Hx|].
      exists c. split; auto. apply aget_pos; [lia|].
      rewrite (until_fill_prefix f), nth_error_app1; auto. apply nth_error_Some. congruence. }
    destruct (Eg (Z.of_nat (length (until_fill f)) - 2)) as (xa & a & Exa & Ea); [unfold zlen; lia|].
    destruct (Eg (Z.of_nat (length (until_fill f)) - 1)) as (xb & b & Exb & Eb); [unfold zlen; lia|].
    rewrite Exa. cbn [bind]. rewrite Exb. cbn [bind]. rewrite Ea. cbn [bind]. rewrite Eb. cbn [bind].
    destruct (ccw_loop_cases vs (length (until_fill f)) 0 (until_fill f)
                (skipn (length (until_fill f)) f) a b) as [E|E]; auto; try (unfold zlen; lia);
      rewrite <- until_fill_prefix in E; rewrite E; eauto.
  Qed.

  Lemma wf_face_rev nv f : wf_face nv f ->
    wf_face nv (rev (until_fill f) ++ skipn (length (until_fill f)) f)
    /\ until_fill (rev (until_fill f) ++ skipn (length (until_fill f)) f) = rev (until_fill f).
  Proof.
    intros (H3 & H32 & Hr & Hfill).
    assert (E : until_fill (rev (until_fill f) ++ skipn (length (until_fill f)) f) = rev (until_fill f)).
    { rewrite until_fill_app by (apply Forall_rev; eapply until_fill_pos; eauto).
      rewrite (until_fill_fills (skipn _ _)) by auto. apply app_nil_r. }
    split; auto. unfold wf_face. rewrite E, rev_length. split; auto. split; [|split].
    - rewrite app_length, rev_length, <- app_length, <- until_fill_prefix. auto.
    - now apply Forall_rev.
    - rewrite skipn_app, rev_length, Nat.sub_diag. simpl.
      rewrite skipn_all2 by (rewrite rev_length; lia). exact Hfill.
  Qed.

  Lemma ccw_face_ok (vs : list point) f :
    wf_face (length vs) f ->
    exists f', ccw_face vs f = Ok f' /\ wf_face (length vs) f' /\ same_face f f'.
  Proof.
    intros Hw. destruct (ccw_face_cases vs f Hw) as (f' & E & [->| ->]).
    - exists f. split; auto. split; auto. split; auto.
    - exists (rev (until_fill f) ++ skipn (length (until_fill f)) f).
      destruct (wf_face_rev _ f Hw) as (Hw' & Eu). split; auto. split; auto.
      split; auto. rewrite skipn_app, rev_length, Nat.sub_diag. simpl.
      rewrite skipn_all2 by (rewrite rev_length; lia). reflexivity.
  Qed.

  Lemma counter_clockwise_ok (vs : list point) faces :
    Forall (wf_face (length vs)) faces ->
    exists faces', counter_clockwise vs faces = Ok faces'
      /\ Forall (wf_face (length vs)) faces' /\ Forall2 same_face faces faces'.
  Proof.
    induction 1 as [|f t Hf _ (t' & E & Hw & HS)].
    - exists []. unfold counter_clockwise. simpl. auto.
    - destruct (ccw_face_ok vs f Hf) as (f' & Ef & Hf' & Hs).
      exists (f' :: t'). unfold counter_clockwise in *. cbn [mapres]. rewrite Ef. cbn [bind].
      rewrite E. cbn [bind]. auto.
  Qed.
End Mesh.
