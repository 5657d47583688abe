(** Construction of meshes and networks in binary64 *)
From Coq Require Import Reals Lra Psatz Permutation.
From Flocq Require Import IEEE754.BinarySingleNaN Core.
From Verif Require Import Base Num NumR NumB64 NumRoom FBase MUtils MGeometry MCreation PStack PPartition SpecTree PBuild PBuild2 SpecQuery FBuild
  MCelltree SpecApi PMesh PInit PPoints PFail PApi.
Open Scope R_scope.

Section Mesh.
  Local Notation bounded := NumRoom.bounded.
  Notation pt := (point b64).

  (** at least [d] wide and high *)
  Definition sized (d : R) (poly : list pt) : Prop :=
    (exists p q, In p poly /\ In q poly /\ B2R (px p) + d <= B2R (px q))
    /\ (exists p q, In p poly /\ In q poly /\ B2R (py p) + d <= B2R (py q)).

  (** coordinates of magnitude at most 2^k *)
  Definition bounded_vertices (k : Z) (vs : list pt) : Prop :=
    Forall (fun p => bounded k (px p) /\ bounded k (py p)) vs.

  Lemma poly_of_sized d vs f f' (poly' : list pt) : same_face f f' -> poly_of vs f' poly' ->
    (forall poly, poly_of vs f poly -> sized d poly) -> sized d poly'.
  Proof.
    intros (_ & [E|E]) H HS; unfold poly_of in *; rewrite E in H; [now apply HS|].
    assert (HR : forall (l : list Z) (l' : list pt), Forall2 (fun i p => (0 <= i)%Z /\ nth_error vs (Z.to_nat i) = Some p) l l' ->
       Forall2 (fun i p => (0 <= i)%Z /\ nth_error vs (Z.to_nat i) = Some p) (rev l) (rev l')).
    { clear. induction 1; simpl; auto. apply Forall2_app; auto. }
    apply HR in H. rewrite rev_involutive in H. apply HS in H.
    destruct H as ((p & q & A & B & C) & (p' & q' & A' & B' & C')).
    rewrite <- in_rev in A, B, A', B'. split; [exists p, q|exists p', q']; auto.
  Qed.

  Lemma poly_of_bounded k vs f (poly : list pt) : bounded_vertices k vs -> poly_of vs f poly -> bounded_vertices k poly.
  Proof.
    unfold bounded_vertices. intros Hb H. unfold poly_of in H. induction H as [|i p l l' (_ & E) _ IH]; constructor; auto.
    rewrite Forall_forall in Hb. apply Hb. eapply nth_error_In; eauto.
  Qed.

  Lemma le_B (x y : b64) : is_finite x = true -> is_finite y = true -> nleb x y = true -> B2R x <= B2R y.
  Proof. intros Fx Fy H. rewrite nleb_B in H by auto. now apply Rleb_iff in H. Qed.

  Lemma tight_bounded k (poly : list pt) K : bounded_vertices k poly -> tight_box poly K ->
    bounded k (xmin K) /\ bounded k (xmax K) /\ bounded k (ymin K) /\ bounded k (ymax K).
  Proof.
    unfold bounded_vertices. rewrite Forall_forall. intros Hb (_ & H1 & H2 & H3 & H4). rewrite Exists_exists in *.
    destruct H1 as (p1 & I1 & <-), H2 as (p2 & I2 & <-), H3 as (p3 & I3 & <-), H4 as (p4 & I4 & <-).
    repeat split; try apply Hb; auto.
  Qed.

  Lemma tight_sized d k (poly : list pt) K : bounded_vertices k poly -> tight_box poly K -> sized d poly ->
    B2R (xmin K) + d <= B2R (xmax K) /\ B2R (ymin K) + d <= B2R (ymax K).
  Proof.
    intros Hb HT ((p & q & Hp & Hq & Hx) & (p' & q' & Hp' & Hq' & Hy)).
    destruct (tight_bounded k poly K Hb HT) as ((F1 & _) & (F2 & _) & (F3 & _) & (F4 & _)).
    unfold bounded_vertices in Hb. rewrite Forall_forall in Hb.
    destruct HT as (HF & _).
    rewrite Forall_forall in HF. destruct (HF p Hp) as (A1 & A2 & A3 & A4), (HF q Hq) as (B1 & B2 & B3 & B4),
      (HF p' Hp') as (C1 & C2 & C3 & C4), (HF q' Hq') as (D1 & D2 & D3 & D4).
    destruct (Hb p Hp) as ((Fp & _) & _), (Hb q Hq) as ((Fq & _) & _), (Hb p' Hp') as (_ & (Fp' & _)), (Hb q' Hq') as (_ & (Fq' & _)).
    apply le_B in A1, B2, C3, D4; auto. lra.
  Qed.

  Theorem float_mesh_succeeds k g (vs : list pt) faces fill nb cpl :
    mesh_ok vs faces fill -> (-900 <= k <= 1000)%Z -> bounded_vertices k vs ->
    (2 <= nb <= 2 ^ 52)%Z -> (1 <= cpl)%Z -> (zlen faces <= 2 ^ 53)%Z ->
    Forall (fun f => forall poly, poly_of vs f poly -> sized (bpow radix2 (k - 48)) poly) (map (with_fill fill) faces) ->
    exists t, CellTree2d_init g vs faces fill nb cpl = Ok t.
  Proof.
    intros Hm Hk Hb Hnb Hcpl Hroom He.
    destruct (CellTree2d_init_ok g vs faces fill nb cpl ltac:(lia) Hcpl (mo_nonempty _ _ _ Hm)
                (mo_vertices _ _ _ Hm) (mo_faces _ _ _ Hm))
      as (bbs & fs & Hl & Hfin & Hsame & Hbox & [(er & E & HF)|(t & E & _)]); eauto.
    exfalso. revert HF.
    assert (Hfs : Forall (fun f => forall poly, poly_of vs f poly -> sized (bpow radix2 (k - 48)) poly) fs).
    { clear - He Hsame. induction Hsame as [|f f' l l' H _ IH]; constructor; inversion He; subst; auto.
      intros poly' Hp. eapply poly_of_sized; eauto. }
    apply (never_fails bbs k Hk).
    - clear - Hfs Hbox Hb. induction Hbox as [|f K l l' (poly & Hp & HT) _ IH]; constructor; inversion Hfs; subst; auto.
      eapply tight_bounded; [|exact HT]. eapply poly_of_bounded; eauto.
    - clear - Hfs Hbox Hb. induction Hbox as [|f K l l' (poly & Hp & HT) _ IH]; constructor; inversion Hfs; subst; auto.
      eapply tight_sized; [eapply poly_of_bounded; eauto|exact HT|auto].
    - lia.
    - unfold zlen in *. now rewrite Hl.
  Qed.

  (* ---------------------------------------------------------------- *)
  Lemma tolfac_ge : is_finite (ntolfac : b64) = true /\ bpow radix2 (-40) <= B2R (ntolfac : b64).
  Proof.
    split; [vm_compute; reflexivity|].
    replace (@ntolfac _ NumB64) with (B754_finite (prec:=prec) (emax:=emax) false 4951760157141521 (-92) eq_refl).
    - cbn [B2R cond_Zopp]. unfold F2R. cbn [Fnum Fexp].
      replace (-40)%Z with (52 + -92)%Z by lia. rewrite bpow_plus. apply Rmult_le_compat_r; [apply bpow_ge_0|].
      change (bpow radix2 52) with (IZR (2 ^ 52)). apply IZR_le. lia.
    - apply B2SF_inj. vm_compute. reflexivity.
  Qed.
  Lemma mintol_ge : bpow radix2 (-50) <= B2R (nmintol : b64).
  Proof.
    replace (@nmintol _ NumB64) with (B754_finite (prec:=prec) (emax:=emax) false 5070602400912918 (-102) eq_refl).
    - cbn [B2R cond_Zopp]. unfold F2R. cbn [Fnum Fexp].
      replace (-50)%Z with (52 + -102)%Z by lia. rewrite bpow_plus. apply Rmult_le_compat_r; [apply bpow_ge_0|].
      change (bpow radix2 52) with (IZR (2 ^ 52)). apply IZR_le. lia.
    - apply B2SF_inj. vm_compute. reflexivity.
  Qed.
  Lemma mintol_small : bounded (-49) (nmintol : b64).
  Proof.
    split; [vm_compute; reflexivity|].
    replace (@nmintol _ NumB64) with (B754_finite (prec:=prec) (emax:=emax) false 5070602400912918 (-102) eq_refl).
    - cbn [B2R cond_Zopp]. apply Rlt_le. apply (F2R_lt_bpow radix2 (Float radix2 5070602400912918 (-102)) (-49)). vm_compute. reflexivity.
    - apply B2SF_inj. vm_compute. reflexivity.
  Qed.
  Lemma tolfac_small : bounded (-39) (ntolfac : b64).
  Proof.
    split; [vm_compute; reflexivity|].
    replace (@ntolfac _ NumB64) with (B754_finite (prec:=prec) (emax:=emax) false 4951760157141521 (-92) eq_refl).
    - cbn [B2R cond_Zopp]. apply Rlt_le. apply (F2R_lt_bpow radix2 (Float radix2 4951760157141521 (-92)) (-39)). vm_compute. reflexivity.
    - apply B2SF_inj. vm_compute. reflexivity.
  Qed.
  Lemma mintol_pos : is_finite (nmintol : b64) = true /\ 0 <= B2R (nmintol : b64).
  Proof.
    split; [vm_compute; reflexivity|].
    replace (@nmintol _ NumB64) with (B754_finite (prec:=prec) (emax:=emax) false 5070602400912918 (-102) eq_refl).
    - cbn [B2R cond_Zopp]. unfold F2R. cbn [Fnum Fexp]. apply Rmult_le_pos; [apply IZR_le; lia|apply bpow_ge_0].
    - apply B2SF_inj. vm_compute. reflexivity.
  Qed.
  Lemma nmax_ge_l (x y : b64) : is_finite x = true -> is_finite y = true -> B2R x <= B2R (nmax x y).
  Proof. intros. unfold nmax. rewrite nltb_B by auto. case Rlt_bool_spec; lra. Qed.
  Lemma nmax_ge_r (x y : b64) : is_finite x = true -> is_finite y = true -> B2R y <= B2R (nmax x y).
  Proof. intros. unfold nmax. rewrite nltb_B by auto. case Rlt_bool_spec; lra. Qed.

  Lemma rnd_bpow z j : (-1074 <= j < 1024)%Z -> bpow radix2 j <= z -> bpow radix2 j <= rnd z.
  Proof.
    intros Hj Hz. apply round_ge_generic; auto.
    - apply fexp_correct. exact prec_gt.
    - exact _.
    - apply generic_format_bpow. unfold SpecFloat.fexp, SpecFloat.emin, prec, emax. lia.
  Qed.

  (** two vertices lie at least [d] apart in one direction *)
  Definition spread (d : R) (vs : list pt) : Prop :=
    exists p q, In p vs /\ In q vs /\ (B2R (px p) + d <= B2R (px q) \/ B2R (py p) + d <= B2R (py q)).

  Lemma tol_facts k vs tol : (-40 <= k <= 990)%Z -> bounded_vertices k vs -> extent_tol vs tol ->
    bounded k tol /\ 0 <= B2R tol /\ ((k <= -3)%Z \/ spread (bpow radix2 (k - 7)) vs -> bpow radix2 (k - 47) <= B2R tol).
  Proof.
    intros Hk Hb (x0 & x1 & y0 & y1 & I1 & I2 & I3 & I4 & HF & ->).
    unfold bounded_vertices in Hb. rewrite Forall_forall in Hb, HF.
    assert (Hx : forall x, In x (map px vs) -> bounded k x).
    { intros x H. apply in_map_iff in H as (p & <- & Hp). now apply Hb. }
    assert (Hy : forall y, In y (map py vs) -> bounded k y).
    { intros x H. apply in_map_iff in H as (p & <- & Hp). now apply Hb. }
    apply Hx in I1, I2. apply Hy in I3, I4.
    assert (Bx : bounded (k + 1) (nsub x1 x0)) by (apply (bounded_minus k); auto; lia).
    assert (By : bounded (k + 1) (nsub y1 y0)) by (apply (bounded_minus k); auto; lia).
    assert (Bm : bounded (k + 1) (nmax (nsub x1 x0) (nsub y1 y0))) by (apply bounded_nmax; auto).
    assert (Bt : bounded (k - 38) (nmul ntolfac (nmax (nsub x1 x0) (nsub y1 y0)))).
    { replace (k - 38)%Z with (-39 + (k + 1))%Z by lia. apply bounded_prod; auto using tolfac_small. lia. }
    destruct mintol_pos as (F0 & P0).
    split; [apply bounded_nmax; [apply (bounded_mono (-49)); [lia|apply mintol_small]|apply (bounded_mono (k - 38)); auto; lia]|].
    split; [eapply Rle_trans; [exact P0|apply nmax_ge_l; auto; apply Bt]|].
    intros [Hk3|(p & q & Hp & Hq & Hs)].
    { eapply Rle_trans; [|apply nmax_ge_l; auto; apply Bt]. eapply Rle_trans; [|apply mintol_ge]. apply bpow_le. lia. }
    eapply Rle_trans; [|apply nmax_ge_r; auto; apply Bt].
    assert (HE : bpow radix2 (k - 7) <= B2R (nmax (nsub x1 x0) (nsub y1 y0))).
    { assert (V : forall (u v u' v' : b64), bounded k u -> bounded k v -> bounded k u' -> bounded k v' ->
        nleb u u' = true -> nleb v' v = true -> B2R u' + bpow radix2 (k - 7) <= B2R v' -> bpow radix2 (k - 7) <= B2R (nsub v u)).
      { intros u v u' v' (Fu & Bu) (Fv & Bv) (Fu' & _) (Fv' & _) H1 H2 H3. apply le_B in H1, H2; auto.
        assert (Hz : Rabs (B2R v - B2R u) <= bpow radix2 (k + 1)).
        { rewrite bpow_shift. change (bpow radix2 1) with 2. apply Rabs_le_iff in Bu, Bv. apply Rabs_le_iff. lra. }
        destruct (minus_val (k + 1) v u) as (E & _); auto; try lia. rewrite E. apply rnd_bpow; [lia|lra]. }
      destruct (Hb p Hp) as (P1 & P2), (Hb q Hq) as (Q1 & Q2), (HF p Hp) as (A1 & A2 & A3 & A4), (HF q Hq) as (C1 & C2 & C3 & C4).
      destruct Hs as [Hs|Hs].
      - eapply Rle_trans; [|apply nmax_ge_l; [apply Bx|apply By]]. apply (V x0 x1 (px p) (px q)); auto.
      - eapply Rle_trans; [|apply nmax_ge_r; [apply Bx|apply By]]. apply (V y0 y1 (py p) (py q)); auto. }
    destruct tolfac_ge as (Ft & Gt). destruct Bm as (Fm & Bm).
    set (mx := nmax (nsub x1 x0) (nsub y1 y0)) in *.
    assert (Hz : Rabs (B2R (ntolfac : b64) * B2R mx) <= bpow radix2 (k + 1)).
    { rewrite Rabs_mult. rewrite <- (Rmult_1_l (bpow radix2 (k + 1))). apply Rmult_le_compat; auto using Rabs_pos.
      apply tolfac_bounded. }
    destruct (mult_val (k + 1) ntolfac mx) as (E & _); auto; try lia. rewrite E. apply rnd_bpow; [lia|].
    replace (k - 47)%Z with (-40 + (k - 7))%Z by lia. rewrite bpow_plus.
    apply Rmult_le_compat; auto using bpow_ge_0.
  Qed.

  (** one side of a widened box *)
  Lemma widened_side k (tol a b lo hi : b64) : (-40 <= k <= 990)%Z -> bounded k a -> bounded k b ->
    bounded k tol ->
    smallest lo (nsub a tol) (nsub b tol) -> largest hi (nadd a tol) (nadd b tol) ->
    bounded (k + 1) lo /\ bounded (k + 1) hi /\
    B2R lo <= rnd (B2R a - B2R tol) /\ B2R lo <= rnd (B2R b - B2R tol)
    /\ rnd (B2R a + B2R tol) <= B2R hi /\ rnd (B2R b + B2R tol) <= B2R hi.
  Proof.
    intros Hk (Fa & Ba) (Fb & Bb) (Ft & Bt) (L1 & L2 & L3) (H1 & H2 & H3).
    assert (Hj : forall x y, Rabs x <= bpow radix2 k -> Rabs y <= bpow radix2 k ->
        Rabs (x + y) <= bpow radix2 (k + 1) /\ Rabs (x - y) <= bpow radix2 (k + 1)).
    { intros x y Hx Hy. rewrite bpow_shift. change (bpow radix2 1) with 2. apply Rabs_le_iff in Hx, Hy.
      split; apply Rabs_le_iff; lra. }
    destruct (Hj _ _ Ba Bt) as (A1 & A2). destruct (Hj _ _ Bb Bt) as (B1 & B2).
    destruct (plus_val (k + 1) a tol) as (E1 & G1); auto; try lia.
    destruct (minus_val (k + 1) a tol) as (E2 & G2); auto; try lia.
    destruct (plus_val (k + 1) b tol) as (E3 & G3); auto; try lia.
    destruct (minus_val (k + 1) b tol) as (E4 & G4); auto; try lia.
    rewrite <- E1, <- E2, <- E3, <- E4.
    assert (Glo : bounded (k + 1) lo) by (destruct L1 as [->| ->]; auto).
    assert (Ghi : bounded (k + 1) hi) by (destruct H1 as [->| ->]; auto).
    apply le_B in L2, L3, H2, H3; try apply Glo; try apply Ghi; try apply G1; try apply G2; try apply G3; try apply G4.
    auto 10.
  Qed.

  (** the two ends of a side are apart *)
  Lemma widened_apart k (tol a b lo hi : b64) : (-40 <= k <= 990)%Z -> bounded k a -> bounded k b ->
    bounded k tol -> 0 <= B2R tol ->
    smallest lo (nsub a tol) (nsub b tol) -> largest hi (nadd a tol) (nadd b tol) ->
    bpow radix2 (k - 47) <= B2R tol \/ bpow radix2 (k - 47) <= Rabs (B2R b - B2R a) ->
    bounded (k + 1) lo /\ bounded (k + 1) hi /\ B2R lo + bpow radix2 (k + 1 - 48) <= B2R hi.
  Proof.
    intros Hk Ba Bb Bt Pt HL HH Hd.
    destruct (widened_side k tol a b lo hi Hk Ba Bb Bt HL HH) as (G1 & G2 & L1 & L2 & H1 & H2).
    split; [exact G1|]. split; [exact G2|]. replace (k + 1 - 48)%Z with (k - 47)%Z by lia.
    destruct Ba as (Fa & Ba), Bb as (Fb & Bb), Bt as (Ft & Bt). apply Rabs_le_iff in Ba, Bb, Bt.
    destruct Hd as [Hd|Hd].
    - set (M := bpow radix2 k) in *.
      assert (Hm : Rabs (rnd (B2R a - B2R tol) - (B2R a - B2R tol)) <= uro * (2 * M) + eta)
        by (apply rnd_abs; apply Rabs_le_iff; lra).
      assert (Hp : Rabs (rnd (B2R a + B2R tol) - (B2R a + B2R tol)) <= uro * (2 * M) + eta)
        by (apply rnd_abs; apply Rabs_le_iff; lra).
      apply Rabs_le_iff in Hm, Hp.
      assert (E : bpow radix2 (k - 47) = 64 * (uro * M)).
      { unfold uro, M. rewrite <- bpow_plus. replace (k - 47)%Z with (6 + (-53 + k))%Z by lia. rewrite bpow_plus. reflexivity. }
      assert (He : eta <= uro * M).
      { unfold eta, uro, M. rewrite <- bpow_plus. apply bpow_le. lia. }
      pose proof uro_pos. pose proof (bpow_gt_0 radix2 k). fold M in H0. lra.
    - assert (A1 : rnd (B2R a - B2R tol) <= B2R a) by (apply rnd_le; lra).
      assert (A2 : rnd (B2R b - B2R tol) <= B2R b) by (apply rnd_le; lra).
      assert (A3 : B2R a <= rnd (B2R a + B2R tol)) by (apply rnd_ge; lra).
      assert (A4 : B2R b <= rnd (B2R b + B2R tol)) by (apply rnd_ge; lra).
      unfold Rabs in Hd. destruct (Rcase_abs (B2R b - B2R a)); lra.
  Qed.

  (** the two ends of the edge differ by at least [d] in both coordinates *)
  Definition sized_edge (d : R) (vs : list pt) (e : list Z) : Prop :=
    forall p q, edge_of vs e p q -> d <= Rabs (B2R (px q) - B2R (px p)) /\ d <= Rabs (B2R (py q) - B2R (py p)).

  Theorem float_network_succeeds k g (vs : list pt) edges nb cpl :
    network_ok vs edges -> (-40 <= k <= 990)%Z -> bounded_vertices k vs ->
    (2 <= nb <= 2 ^ 52)%Z -> (1 <= cpl)%Z -> (zlen edges <= 2 ^ 53)%Z ->
    (k <= -3)%Z \/ spread (bpow radix2 (k - 7)) vs \/ Forall (sized_edge (bpow radix2 (k - 47)) vs) edges ->
    exists t, EdgeCellTree2d_init g vs edges nb cpl = Ok t.
  Proof.
    intros Hm Hk Hb Hnb Hcpl Hroom Hd.
    destruct (EdgeCellTree2d_init_ok g vs edges nb cpl ltac:(lia) Hcpl (no_nonempty _ _ Hm)
                (no_vertices _ _ Hm) (no_edges _ _ Hm)) as (tol & Ht & H).
    destruct (H (no_room _ _ Hm _ Ht)) as (bbs & Hl & Hfin & Hbox & [(er & E & HF)|(t & E & _)]); eauto.
    exfalso. revert HF.
    destruct (tol_facts k vs tol Hk Hb Ht) as (Bt & Pt & Gt).
    assert (HX : Forall (fun K => bounded (k + 1) (xmin K) /\ bounded (k + 1) (xmax K) /\ bounded (k + 1) (ymin K) /\ bounded (k + 1) (ymax K)
        /\ B2R (xmin K) + bpow radix2 (k + 1 - 48) <= B2R (xmax K) /\ B2R (ymin K) + bpow radix2 (k + 1 - 48) <= B2R (ymax K)) bbs).
    { assert (Hd' : bpow radix2 (k - 47) <= B2R tol \/ Forall (sized_edge (bpow radix2 (k - 47)) vs) edges) by tauto.
      clear - Hbox Hd' Bt Pt Hk Hb. induction Hbox as [|e K l l' (p & q & He & HW) _ IH]; constructor.
      - destruct HW as (W1 & W2 & W3 & W4).
        assert (Hpq : (bounded k (px p) /\ bounded k (py p)) /\ (bounded k (px q) /\ bounded k (py q))).
        { unfold bounded_vertices in Hb. rewrite Forall_forall in Hb.
          destruct He as (i & j & _ & _ & _ & E1 & E2); split; apply Hb; eapply nth_error_In; eauto. }
        destruct Hpq as ((P1 & P2) & (Q1 & Q2)).
        assert (Hs : bpow radix2 (k - 47) <= B2R tol \/
           (bpow radix2 (k - 47) <= Rabs (B2R (px q) - B2R (px p)) /\ bpow radix2 (k - 47) <= Rabs (B2R (py q) - B2R (py p)))).
        { destruct Hd' as [Hd'|Hd']; [now left|right]. inversion Hd'; subst. now apply H1. }
        destruct (widened_apart k tol (px p) (px q) (xmin K) (xmax K)) as (A1 & A2 & A3); auto; try tauto.
        destruct (widened_apart k tol (py p) (py q) (ymin K) (ymax K)) as (C1 & C2 & C3); auto; try tauto.
      - apply IH. destruct Hd' as [Hd'|Hd']; [now left|right]. now inversion Hd'. }
    apply (never_fails bbs (k + 1)); try lia.
    - eapply Forall_impl; [|exact HX]. simpl. tauto.
    - eapply Forall_impl; [|exact HX]. simpl. tauto.
    - unfold zlen in *. now rewrite Hl.
  Qed.
End Mesh.
