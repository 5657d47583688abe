(** Over exact reals construction succeeds whenever every box has positive
    width and height. *)
From Verif Require Import RBase MGeometry MCreation PStack PPartition SpecTree PBuild PBuild2 SpecQuery.
Open Scope R_scope.

Section Build.
  Variable bbc : list bx.
  Hypothesis Hfin : Forall finite_box bbc.
  Hypothesis Hpos : Forall (fun b => xmin b < xmax b /\ ymin b < ymax b) bbc.
  Variable nb : Z.
  Hypothesis Hnb : (1 <= nb)%Z.
  Hypothesis Hroom : IZR (nb * zlen bbc) < FMAX.

  Notation elo := (elo bbc).
  Notation ehi := (ehi bbc).
  Notation GMin := (GMin bbc).
  Notation GMax := (GMax bbc).

  Lemma box_pos dim e : in_range bbc e -> elo dim e < ehi dim e.
  Proof.
    intros He. unfold PBuild.elo, PBuild.ehi. destruct (aget_ok_pos bbc e He) as (b & E & En). rewrite E.
    rewrite Forall_forall in Hpos. destruct (Hpos b (nth_error_In _ _ En)).
    unfold blo, bhi. destruct (dim =? 0)%Z; auto.
  Qed.

  Lemma gmax_ge dim s e : In e s -> ehi dim e <= GMax dim s.
  Proof.
    intros He. destruct (gmax_spec bbc Hfin dim s nfmin fin_fmin) as (_ & _ & H).
    rewrite Forall_forall in H. specialize (H e He). cbn in H. now apply Rleb_iff in H.
  Qed.
  Lemma gmin_le dim s e : In e s -> GMin dim s <= elo dim e.
  Proof.
    intros He. destruct (gmin_spec bbc Hfin dim s nfmax fin_fmax) as (_ & _ & H).
    rewrite Forall_forall in H. specialize (H e He). cbn in H. now apply Rleb_iff in H.
  Qed.
  Lemma gmax_mono dim s s' : s <> [] -> incl s s' -> GMax dim s <= GMax dim s'.
  Proof.
    intros Hne Hi. destruct (GMax_att bbc Hfin dim s Hne) as (e & He & H). cbn in H. apply Rleb_iff in H.
    pose proof (gmax_ge dim s' e (Hi e He)). lra.
  Qed.
  Lemma gmin_mono dim s s' : s <> [] -> incl s s' -> GMin dim s' <= GMin dim s.
  Proof.
    intros Hne Hi. destruct (GMin_att bbc Hfin dim s Hne) as (e & He & H). cbn in H. apply Rleb_iff in H.
    pose proof (gmin_le dim s' e (Hi e He)). lra.
  Qed.
  Lemma extent_pos dim s : s <> [] -> Forall (in_range bbc) s -> GMin dim s < GMax dim s.
  Proof.
    destruct s as [|e s]; [congruence|]. intros _ H. inversion H; subst.
    pose proof (box_pos dim e H2). pose proof (gmax_ge dim (e :: s) e (or_introl eq_refl)).
    pose proof (gmin_le dim (e :: s) e (or_introl eq_refl)). lra.
  Qed.

  Lemma bl_pos dim s bl : s <> [] -> Forall (in_range bbc) s ->
    ndiv (nsub (GMax dim s) (GMin dim s)) (nofZ nb) = Ok bl ->
    0 < bl /\ bl * IZR nb = GMax dim s - GMin dim s.
  Proof.
    intros Hne Hr. assert (Hn : 0 < IZR nb) by (apply IZR_lt; lia).
    rewrite ndiv_R by (cbn; lra). cbn. intros E. inversion E; subst.
    pose proof (extent_pos dim s Hne Hr). split.
    - apply Rdiv_lt_0_compat; lra.
    - field. lra.
  Qed.

  (** every centroid falls into a bucket *)
  Lemma has_bucket dim s e : (dim = 0 \/ dim = 1)%Z -> Forall (in_range bbc) s -> In e s -> ~ no_bucket bbc nb dim s e.
  Proof.
    intros Hdim Hr He (bl & Ebl & HF).
    assert (Hne : s <> []) by (intros ->; destruct He).
    destruct (bl_pos dim s bl Hne Hr Ebl) as (Hbl & Hlen).
    rewrite Forall_forall in Hr. pose proof (Hr e He) as Hre.
    pose proof (box_pos dim e Hre) as Hw. pose proof (gmax_ge dim s e He). pose proof (gmin_le dim s e He).
    set (c := elo dim e + / 2 * (ehi dim e - elo dim e)).
    set (m := Int_part ((c - GMin dim s) / bl)).
    assert (Hm : IZR m <= (c - GMin dim s) / bl < IZR m + 1).
    { destruct (base_Int_part ((c - GMin dim s) / bl)). fold m in H1, H2. lra. }
    assert (Hq : (c - GMin dim s) / bl * bl = c - GMin dim s) by (field; lra).
    assert (Hm1 : IZR m * bl <= c - GMin dim s < (IZR m + 1) * bl).
    { rewrite <- Hq. split; [apply Rmult_le_compat_r; lra|apply Rmult_lt_compat_r; lra]. }
    assert (Hm2 : (0 <= m < nb)%Z).
    { assert (H1 : IZR m < IZR nb).
      { apply Rmult_lt_reg_r with bl; auto. unfold c in *. lra. }
      assert (H2 : -1 < IZR m).
      { apply Rmult_lt_reg_r with bl; auto. unfold c in *. lra. }
      apply lt_IZR in H1. apply (lt_IZR (-1)) in H2. lia. }
    rewrite Forall_forall in HF.
    assert (Hin : In (Bucket (IZR (m + 1) * bl + GMin dim s) (IZR m * bl + GMin dim s) (IZR (-1)) (IZR (-1)) (-1)%Z 0%Z)
                     (make_buckets nb bl (GMin dim s))).
    { unfold make_buckets. apply in_map_iff. exists m. split; [reflexivity|].
      apply iota_in. lia. }
    apply HF in Hin. unfold ptest in Hin. destruct (aget_ok_pos bbc e Hre) as (b & E & _).
    rewrite E in Hin.
    assert (Ec : centroid (blo b dim) (bhi b dim) = c).
    { unfold c, PBuild.elo, PBuild.ehi. rewrite E. unfold centroid. cbn. reflexivity. }
    unfold in_bucket in Hin. rewrite Ec in Hin. cbn [bMin bMax] in Hin. cbn in Hin.
    revert Hin. rewrite plus_IZR. repeat rcase; cbn; try discriminate; intros _; unfold c in *; lra.
  Qed.

  Lemma plane_kept bs root_size L R bl : 0 < bl -> forall m i c p nl,
    (1 <= i)%Z -> (i + Z.of_nat m = zlen bs)%Z -> (1 <= p < zlen bs)%Z ->
    exists c' p' nl', for_loop m i (plane_step bs root_size L R bl) (c, Some p, nl) = Ok (c', Some p', nl')
        /\ (1 <= p' < zlen bs)%Z.
  Proof.
    intros Hbl. induction m as [|m IH]; intros i c p nl Hi Hm Hp.
    - exists c, p, nl. auto.
    - cbn [for_loop]. unfold plane_step at 1.
      destruct (lget_in_range bs (i - 1)) as (b1 & E1); [lia|].
      destruct (lget_in_range bs i) as (b2 & E2); [lia|].
      rewrite E1, E2. cbn [bind]. rewrite !ndiv_R by lra. cbn [bind].
      destruct (nltb _ c); cbn [bind]; apply IH; lia.
  Qed.

  Lemma split_total dim off bs s root bl : s <> [] -> Forall (in_range bbc) s -> NoDup s ->
    ndiv (nsub (GMax dim s) (GMin dim s)) (nofZ nb) = Ok bl ->
    forall s', Permutation s s' -> Segs bbc dim off bs s' -> Forall (fun b => (0 < bsize b)%Z) bs ->
    (2 <= zlen bs)%Z -> nsize root = zlen s ->
    exists r, split_plane bs root (GMax dim s) (GMin dim s) bl = Ok r.
  Proof.
    intros Hne Hr Hnd Ebl s' HP HS HF Hl Hroot.
    destruct (bl_pos dim s bl Hne Hr Ebl) as (Hbl & Hlen). unfold split_plane.
    (* the first candidate is cheaper than FLOAT_MAX *)
    assert (HX : exists c' p' nl', for_range 1 (zlen bs)
       (plane_step bs (nsize root) (GMax dim s) (GMin dim s) bl) (nfmax, None, 0%Z) = Ok (c', Some p', nl')
        /\ (1 <= p' < zlen bs)%Z).
    { unfold for_range. replace (Z.to_nat (zlen bs - 1)) with (S (Z.to_nat (zlen bs - 2))) by lia.
      cbn [for_loop]. unfold plane_step at 1.
      destruct (lget_in_range bs 0) as (b1 & E1); [lia|].
      destruct (lget_in_range bs 1) as (b2 & E2); [lia|].
      change (1 - 1)%Z with 0%Z. rewrite E1, E2. cbn [bind]. rewrite !ndiv_R by lra. cbn [bind].
      assert (Hin : In b1 bs /\ In b2 bs).
      { destruct (aget_ok_pos bs 0 ltac:(lia)) as (x & Ex & Exn). destruct (aget_ok_pos bs 1 ltac:(lia)) as (y & Ey & Eyn).
        apply lget_ok in Ex; try lia. apply lget_ok in Ey; try lia.
        rewrite E1 in Ex. rewrite E2 in Ey. inversion Ex; inversion Ey; subst.
        split; eapply nth_error_In; eauto. }
      destruct Hin as (I1 & I2).
      destruct (Segs_in _ _ _ _ _ _ HS I1) as (g1 & S1 & M1 & N1 & C1).
      destruct (Segs_in _ _ _ _ _ _ HS I2) as (g2 & S2 & M2 & N2 & C2).
      rewrite Forall_forall in HF. pose proof (HF _ I1) as P1. pose proof (HF _ I2) as P2.
      assert (Hg1 : g1 <> []) by (intros ->; rewrite zlen_nil in S1; lia).
      assert (Hg2 : g2 <> []) by (intros ->; rewrite zlen_nil in S2; lia).
      assert (C1' : incl g1 s) by (intros x Hx; eapply Permutation_in; [apply Permutation_sym; eauto|auto]).
      assert (C2' : incl g2 s) by (intros x Hx; eapply Permutation_in; [apply Permutation_sym; eauto|auto]).
      pose proof (gmax_mono dim g1 s Hg1 C1') as B1. pose proof (gmin_mono dim g2 s Hg2 C2') as B2.
      assert (B1' : GMin dim s <= GMax dim g1).
      { pose proof (gmin_mono dim g1 s Hg1 C1').
        assert (Forall (in_range bbc) g1) by (rewrite Forall_forall in *; intros; apply Hr; auto).
        pose proof (extent_pos dim g1 Hg1 H0). lra. }
      assert (Hsz : (0 <= bsize b1 <= zlen s)%Z).
      { split; [lia|]. unfold zlen in *. rewrite (Permutation_length HP).
        clear - HS I1 S1 M1. revert I1. induction HS as [|off b bs seg s Hs Hi HR HL Hr IH]; intros Hin; [destruct Hin|].
        rewrite app_length. destruct Hin as [->|Hin]; [unfold zlen in Hs; lia|]. specialize (IH Hin). lia. }
      assert (Hzn : (zlen s <= zlen bbc)%Z).
      { unfold zlen. apply inj_le. rewrite <- (iota_length (length bbc)). apply NoDup_incl_length; auto.
        intros x Hx. rewrite Forall_forall in Hr. apply iota_in. apply Hr in Hx. exact Hx. }
      set (lv := (bLmax b1 - GMin dim s) / bl). set (rv := (GMax dim s - bRmin b2) / bl).
      assert (Hlv : lv * bl = bLmax b1 - GMin dim s) by (unfold lv; field; lra).
      assert (Hrv : rv * bl = GMax dim s - bRmin b2) by (unfold rv; field; lra).
      assert (L1 : lv <= IZR nb) by (apply Rmult_le_reg_r with bl; lra).
      assert (L2 : rv <= IZR nb) by (apply Rmult_le_reg_r with bl; lra).
      set (n1 := IZR (0 + bsize b1)). set (n2 := IZR (nsize root - (0 + bsize b1))).
      assert (N1' : 0 <= n1) by (apply IZR_le; lia).
      assert (N2' : 0 <= n2) by (apply IZR_le; lia).
      assert (N12 : n1 + n2 = IZR (zlen s)) by (unfold n1, n2; rewrite <- plus_IZR; f_equal; lia).
      assert (Hc : lv * n1 + rv * n2 < FMAX).
      { apply Rle_lt_trans with (IZR nb * n1 + IZR nb * n2).
        - apply Rplus_le_compat; apply Rmult_le_compat_r; auto.
        - rewrite <- Rmult_plus_distr_l, N12. apply Rle_lt_trans with (IZR (nb * zlen bbc)); auto.
          rewrite <- mult_IZR. apply IZR_le. apply Z.mul_le_mono_nonneg_l; lia. }
      change (nltb _ nfmax) with (Rlt_bool (lv * n1 + rv * n2) FMAX).
      rewrite Rlt_bool_true by auto.
      apply plane_kept; auto; lia. }
    destruct HX as (c & p & nl & -> & Hp). cbn [bind].
    destruct (Segs_fin bbc Hfin dim off bs s' HS) as (Hf1 & Hf2).
    unfold for_range.
    destruct (max_loop_ok bs Hf1 (Z.to_nat (p - 0)) 0 nfmin [] bs) as (v & E & _); auto.
    { unfold zlen in *. lia. } { apply fin_fmin. }
    rewrite E. cbn [bind].
    destruct (min_loop_ok bs Hf2 (Z.to_nat (zlen bs - p)) p nfmax (firstn (Z.to_nat p) bs) (skipn (Z.to_nat p) bs))
      as (w & E' & _); auto.
    { symmetry. apply firstn_skipn. } { unfold zlen in *. rewrite firstn_length. lia. }
    { unfold zlen in *. rewrite skipn_length. lia. } { apply fin_fmax. }
    rewrite E'. cbn [bind]. eauto.
  Qed.

  Theorem never_fails er : ~ Fails bbc nb er.
  Proof.
    intros (dim & s & Hdim & Hs & Hnd & Hr & H).
    assert (Hne : s <> []) by (intros ->; rewrite zlen_nil in Hs; lia).
    destruct H as [(_ & E)|[(_ & e & He & Hno)|(bl & off & bs & s' & root & Ebl & HP & HS & HF & Hl & Hroot & E & _)]].
    - cbn in E. apply Reqb_iff in E. apply eq_IZR in E. lia.
    - eapply has_bucket; eauto.
    - destruct (split_total dim off bs s root bl Hne Hr Hnd Ebl s' HP HS HF Hl Hroot) as (r & E'). congruence.
  Qed.
End Build.

(* ------------------------------------------------------------------ *)
From Verif Require Import MCelltree SpecApi PMesh PInit PPoints PFail PApi GTreeEdges GLines.

(** the polygon is not contained in a vertical or horizontal line *)
Definition has_extent (poly : list pt) : Prop :=
  (exists p q, In p poly /\ In q poly /\ px p < px q)
  /\ (exists p q, In p poly /\ In q poly /\ py p < py q).

Lemma poly_of_same vs f f' (poly' : list pt) : same_face f f' -> poly_of vs f' poly' ->
  exists poly, poly_of vs f poly /\ (poly' = poly \/ poly' = rev poly).
Proof.
  intros (_ & [E|E]) H; unfold poly_of in *; rewrite E in H.
  - exists poly'. auto.
  - exists (rev poly'). rewrite rev_involutive. split; auto.
    assert (HR : forall (l : list Z) (l' : list pt), Forall2 (fun i p => (0 <= i)%Z /\ nth_error vs (Z.to_nat i) = Some p) l l' ->
       Forall2 (fun i p => (0 <= i)%Z /\ nth_error vs (Z.to_nat i) = Some p) (rev l) (rev l')).
    { clear. induction 1; simpl; auto. apply Forall2_app; auto. }
    apply HR in H. now rewrite rev_involutive in H.
Qed.

Lemma tight_extent (poly : list pt) K : tight_box poly K -> has_extent poly -> xmin K < xmax K /\ ymin K < ymax K.
Proof.
  intros (HF & _) ((p & q & Hp & Hq & Hx) & (p' & q' & Hp' & Hq' & Hy)).
  rewrite Forall_forall in HF. destruct (HF p Hp) as (A1 & A2 & A3 & A4), (HF q Hq) as (B1 & B2 & B3 & B4),
    (HF p' Hp') as (C1 & C2 & C3 & C4), (HF q' Hq') as (D1 & D2 & D3 & D4).
  rsimp. rb. lra.
Qed.

Theorem mesh_succeeds g vs faces fill nb cpl :
  mesh_ok (T:=R) vs faces fill -> (2 <= nb)%Z -> (1 <= cpl)%Z -> IZR (nb * zlen faces) < FMAX ->
  Forall (fun f => forall poly, poly_of vs f poly -> has_extent poly) (map (with_fill fill) faces) ->
  exists t, CellTree2d_init g vs faces fill nb cpl = Ok t.
Proof.
  intros Hm Hnb Hcpl Hroom He.
  destruct (CellTree2d_init_ok g vs faces fill nb cpl Hnb Hcpl (mo_nonempty _ _ _ Hm)
              (mo_vertices _ _ _ Hm) (mo_faces _ _ _ Hm))
    as (bbs & fs & Hl & Hfin & Hsame & Hbox & [(er & E & HF)|(t & E & _)]); eauto.
  exfalso. revert HF. apply never_fails; auto; try lia.
  - assert (Hfs : Forall (fun f => forall poly, poly_of vs f poly -> has_extent poly) fs).
    { clear - He Hsame. induction Hsame as [|f f' l l' H _ IH]; constructor; inversion He; subst; auto.
      intros poly' Hp. destruct (poly_of_same _ _ _ _ H Hp) as (poly & Hp2 & Hor).
      specialize (H2 poly Hp2). destruct Hor as [->| ->]; auto.
      destruct H2 as ((p & q & A & B & C) & (p' & q' & A' & B' & C')).
      split; [exists p, q|exists p', q']; rewrite <- !in_rev; auto. }
    clear - Hfs Hbox. induction Hbox as [|f K l l' (poly & Hp & HT) _ IH]; constructor; inversion Hfs; subst; auto.
    eapply tight_extent; eauto.
  - unfold zlen in *. now rewrite Hl.
Qed.

Theorem network_succeeds g vs edges nb cpl :
  network_ok (T:=R) vs edges -> (2 <= nb)%Z -> (1 <= cpl)%Z -> IZR (nb * zlen edges) < FMAX ->
  exists t, EdgeCellTree2d_init g vs edges nb cpl = Ok t.
Proof.
  intros Hm Hnb Hcpl Hroom.
  destruct (EdgeCellTree2d_init_ok g vs edges nb cpl Hnb Hcpl (no_nonempty _ _ Hm)
              (no_vertices _ _ Hm) (no_edges _ _ Hm)) as (tol & Ht & H).
  destruct (H (no_room _ _ Hm _ Ht)) as (bbs & Hl & Hfin & Hbox & [(er & E & HF)|(t & E & _)]); eauto.
  exfalso. revert HF. apply never_fails; auto; try lia.
  - assert (Htol : 0 < tol).
    { destruct Ht as (x0 & x1 & y0 & y1 & _ & _ & _ & _ & _ & ->). rewrite nmax_R. rsimp.
      eapply Rlt_le_trans; [|apply Rmax_l]. lra. }
    clear - Hbox Htol. induction Hbox as [|e K l l' (p & q & _ & HW) _ IH]; constructor; auto.
    destruct HW as ((_ & A1 & A2) & (_ & B1 & B2) & (_ & C1 & C2) & (_ & D1 & D2)). rsimp. rb. lra.
  - unfold zlen in *. now rewrite Hl.
Qed.

(** a face that is a vertical line segment at the right end of the mesh makes
    construction raise IndexError *)
Theorem degenerate_fails g vs faces fill nb cpl X :
  mesh_ok (T:=R) vs faces fill -> (2 <= nb)%Z -> (1 <= cpl < zlen faces)%Z ->
  Forall (fun f => forall poly, poly_of vs f poly -> Forall (fun p => px p <= X) poly) (map (with_fill fill) faces) ->
  Exists (fun f => exists poly, poly_of vs f poly /\ Forall (fun p => px p = X) poly) (map (with_fill fill) faces) ->
  CellTree2d_init g vs faces fill nb cpl = Err EList.
Proof.
  intros Hm Hnb Hcpl Hle Hex.
  unfold CellTree2d_init, check_params.
  destruct (nb <? 2)%Z eqn:E1; [lia|]. destruct (cpl <? 1)%Z eqn:E2; [lia|]. cbn [bind].
  rewrite (cast_faces_wf vs) by apply (mo_faces _ _ _ Hm). cbn [bind].
  destruct (counter_clockwise_ok vs _ (mo_faces _ _ _ Hm)) as (fs & Ecc & Hwfs & Hsame).
  rewrite Ecc. cbn [bind].
  destruct (build_face_bboxes_ok vs fs (mo_vertices _ _ _ Hm) Hwfs) as (bbs & Ebb & Hfin & Hboxes).
  rewrite Ebb. cbn [bind].
  assert (Hlen : length fs = length bbs) by (eapply F2_length; eauto).
  assert (Hlen2 : length fs = length faces).
  { apply F2_length in Hsame. rewrite map_length in Hsame. auto. }
  (* the boxes *)
  assert (Hall : forall K, In K bbs -> xmax K <= X).
  { intros K HK. apply In_nth_error in HK as (k & Ek).
    assert (Hk : (k < length fs)%nat) by (rewrite Hlen; apply nth_error_Some; congruence).
    destruct (nth_error fs k) as [f'|] eqn:Ef'; [|apply nth_error_None in Ef'; lia].
    pose proof (Forall2_nth _ _ _ _ _ _ Hboxes Ef' Ek) as (poly' & Hp' & (_ & _ & Hx & _)).
    destruct (nth_error (map (with_fill fill) faces) k) as [f|] eqn:Ef;
      [|apply nth_error_None in Ef; rewrite map_length in Ef; lia].
    pose proof (Forall2_nth _ _ _ _ _ _ Hsame Ef Ef') as Hs.
    destruct (poly_of_same _ _ _ _ Hs Hp') as (poly & Hp & Hor).
    rewrite Forall_forall in Hle. specialize (Hle f (nth_error_In _ _ Ef) poly Hp).
    rewrite Forall_forall in Hle. rewrite Exists_exists in Hx. destruct Hx as (p & Hin & <-).
    apply Hle. destruct Hor as [->| ->]; auto. now apply in_rev. }
  assert (Hone : exists e K, (0 <= e < zlen bbs)%Z /\ aget bbs e = Ok K /\ xmin K = X /\ xmax K = X).
  { rewrite Exists_exists in Hex. destruct Hex as (f & Hf & poly & Hp & HX).
    apply In_nth_error in Hf as (k & Ef).
    destruct (Forall2_nth_l _ _ _ _ _ Hsame Ef) as (f' & Ef' & Hs).
    destruct (Forall2_nth_l _ _ _ _ _ Hboxes Ef') as (K & EK & poly' & Hp' & (_ & H1 & H2 & _)).
    destruct (poly_of_same _ _ _ _ Hs Hp') as (poly2 & Hp2 & Hor).
    assert (poly2 = poly) by (eapply poly_of_fun; eauto). subst poly2.
    assert (HX' : Forall (fun p => px p = X) poly').
    { destruct Hor as [->| ->]; auto. now apply Forall_rev. }
    rewrite Forall_forall in HX'. rewrite Exists_exists in H1, H2.
    destruct H1 as (p1 & I1 & Q1), H2 as (p2 & I2 & Q2).
    exists (Z.of_nat k), K. split; [|split; [|split]].
    - assert (k < length bbs)%nat by (apply nth_error_Some; congruence). unfold zlen. lia.
    - apply aget_pos; [lia|]. now rewrite Nat2Z.id.
    - rewrite <- Q1. auto.
    - rewrite <- Q2. auto. }
  destruct Hone as (e & K & He & EK & K1 & K2).
  assert (HI : initialize g (build_fuel (length fs)) (length fs) bbs nb cpl = Err EList).
  { apply (initialize_misses bbs) with e; auto; try lia.
    - unfold zlen in Hcpl. lia.
    - unfold build_fuel. lia.
    - apply iota_in. unfold zlen in He. lia.
    - assert (Hin : In e (iota (length fs))) by (apply iota_in; unfold zlen in He; lia).
      pose proof (gmax_ge bbs Hfin 0 (iota (length fs)) e Hin) as G1.
      pose proof (gmin_le bbs Hfin 0 (iota (length fs)) e Hin) as G2.
      assert (Ee : PBuild.elo bbs 0 e = X /\ PBuild.ehi bbs 0 e = X).
      { unfold PBuild.elo, PBuild.ehi. rewrite EK. auto. }
      destruct Ee as (Ee1 & Ee2). rewrite Ee1 in G2. rewrite Ee2 in G1.
      assert (G3 : GMax bbs 0 (iota (length fs)) <= X).
      { destruct (GMax_att bbs Hfin 0 (iota (length fs))) as (e' & He' & Hge).
        - intros H0. rewrite H0 in Hin. destruct Hin.
        - cbn in Hge. apply Rleb_iff in Hge. apply iota_in in He'.
          destruct (aget_ok_pos bbs e') as (K' & EK' & En'); [unfold zlen; lia|].
          unfold PBuild.ehi in Hge. rewrite EK' in Hge. cbn [bhi Z.eqb] in Hge.
          specialize (Hall K' (nth_error_In _ _ En')). unfold bhi in Hge. cbn in Hge. lra. }
      set (lo := GMin bbs 0 (iota (length fs))) in *. set (hi := GMax bbs 0 (iota (length fs))) in *.
      assert (Hn : 0 < IZR nb) by (apply IZR_lt; lia).
      exists ((hi - lo) / IZR nb). split; [rewrite ndiv_R by (cbn; lra); reflexivity|].
      assert (Hbl : 0 <= (hi - lo) / IZR nb) by (unfold Rdiv; apply Rmult_le_pos; [lra|left; now apply Rinv_0_lt_compat]).
      assert (Hbl2 : (hi - lo) / IZR nb * IZR nb = hi - lo) by (field; lra).
      set (bl := (hi - lo) / IZR nb) in *.
      apply Forall_forall. intros b Hb. unfold make_buckets in Hb. apply in_map_iff in Hb as (i & <- & Hi).
      apply iota_in in Hi. unfold ptest. rewrite EK. unfold in_bucket. cbn [bMin bMax].
      apply andb_false_iff. right. unfold centroid, blo, bhi. cbn [Z.eqb]. rewrite K1, K2. cbn.
      apply Rltb_false.
      assert (IZR (i + 1) * bl <= IZR nb * bl) by (apply Rmult_le_compat_r; auto; apply IZR_le; lia).
      fold lo; rewrite (Rmult_comm (IZR nb)) in H; lra. }
  rewrite HI. reflexivity.
Qed.
