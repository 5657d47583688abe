(** EdgeCellTree2d.intersect_edges in binary64. *)
From Coq Require Import Reals Lra Psatz Sorted.
From Flocq Require Import IEEE754.BinarySingleNaN Core.
From Verif Require Import RBase NumB64 NumRoom FBase FBuild GLines MGeometry MCreation MAlgorithms MQuery MCelltree
  PStack PPartition SpecTree PBuild PWalk PCollect SpecQuery SpecApi PQuery PMesh PInit NumSub PPoints PApi PEdges PEdgesAny PTreeBox
  SpecMesh GEdges FPoint FLocate FCut FArea FMesh FBoxClip FLines FEdgeTree SpecGeom.
Open Scope R_scope.
Local Notation bounded := NumRoom.bounded.

Lemma between1 (a b s : R) : 0 <= s <= 1 -> Rmin a b <= a + s * (b - a) <= Rmax a b.
Proof.
  intros Hs. unfold Rmin, Rmax. destruct (Rle_dec a b).
  - assert (0 <= s * (b - a)) by (apply Rmult_le_pos; lra). assert (0 <= (1 - s) * (b - a)) by (apply Rmult_le_pos; lra). lra.
  - assert (0 <= s * (a - b)) by (apply Rmult_le_pos; lra). assert (0 <= (1 - s) * (a - b)) by (apply Rmult_le_pos; lra). lra.
Qed.

Lemma eps8 k : 8 * eps_of (k + 1) = bpow radix2 (k - 44).
Proof.
  unfold eps_of, uro. replace (k - 44)%Z with (7 + (-53 + (k + 1 + 1)))%Z by lia.
  rewrite !(bpow_plus _ _ (-53 + _)), (bpow_plus _ (-53)). change (bpow radix2 7) with 128. ring.
Qed.
Lemma eps4 k : 4 * eps_of (k + 1) = bpow radix2 (k - 45).
Proof.
  unfold eps_of, uro. replace (k - 45)%Z with (6 + (-53 + (k + 1 + 1)))%Z by lia.
  rewrite !(bpow_plus _ _ (-53 + _)), (bpow_plus _ (-53)). change (bpow radix2 6) with 64. ring.
Qed.

Section Net64.
  Variable k : Z.
  Hypothesis Hk : (-40 <= k <= 240)%Z.
  Variables (vs : list (point b64)) (edges : list (list Z)) (t : celltree b64) (gt : b64).
  Hypothesis Hbd : bounded_vertices k vs.
  Hypothesis Hsp : spread (bpow radix2 (k - 4)) vs.
  Hypothesis Hgt : extent_tol vs gt.
  Hypothesis Hn : network_tree gt t.
  Hypothesis Hvs : vertices t = vs.
  Hypothesis Hes : elements t = edges.
  Hypothesis Htb : tight_over (bb_coords t) (bbox t).

  Lemma gt_facts : bounded k gt /\ bpow radix2 (k - 44) <= B2R gt.
  Proof.
    destruct (tol_facts k vs gt ltac:(lia) Hbd Hgt) as (H1 & _).
    assert (HB : bounded_vertices (k + 3) vs).
    { unfold bounded_vertices in *. eapply Forall_impl; [|exact Hbd]. intros p (A & B).
      split; apply (bounded_mono k); auto; lia. }
    destruct (tol_facts (k + 3) vs gt ltac:(lia) HB Hgt) as (_ & _ & H3).
    split; auto. replace (k - 44)%Z with (k + 3 - 47)%Z by lia. apply H3. right.
    replace (k + 3 - 7)%Z with (k - 4)%Z by lia. exact Hsp.
  Qed.

  (** a point of the edge lies well inside the box *)
  Lemma inside1 (a b lo hi : b64) s : bounded k a -> bounded k b -> 0 <= s <= 1 ->
    smallest lo (nsub a gt) (nsub b gt) -> largest hi (nadd a gt) (nadd b gt) ->
    let x := B2R a + s * (B2R b - B2R a) in
    B2R lo + bpow radix2 (k - 45) < x < B2R hi - bpow radix2 (k - 45).
  Proof.
    intros Ba Bb Hs HL HH x. destruct gt_facts as (Bg & Lg).
    destruct (widened_side k gt a b lo hi ltac:(lia) Ba Bb Bg HL HH) as (_ & _ & L1 & L2 & H1 & H2).
    pose proof (between1 (B2R a) (B2R b) s Hs) as Hx. fold x in Hx.
    destruct Ba as (_ & Ba), Bb as (_ & Bb), Bg as (_ & Bg). apply Rabs_le_iff in Ba, Bb, Bg.
    set (M := bpow radix2 k) in *.
    assert (E : forall z, Rabs z <= 2 * M -> z - (uro * (2 * M) + eta) <= rnd z <= z + (uro * (2 * M) + eta)).
    { intros z Hz. pose proof (rnd_abs z (2 * M) Hz) as H. apply Rabs_le_iff in H. lra. }
    pose proof (E (B2R a - B2R gt) ltac:(apply Rabs_le_iff; lra)). pose proof (E (B2R b - B2R gt) ltac:(apply Rabs_le_iff; lra)).
    pose proof (E (B2R a + B2R gt) ltac:(apply Rabs_le_iff; lra)). pose proof (E (B2R b + B2R gt) ltac:(apply Rabs_le_iff; lra)).
    assert (E1 : bpow radix2 (k - 45) = 256 * (uro * M)).
    { unfold uro, M. rewrite <- bpow_plus. replace (k - 45)%Z with (8 + (-53 + k))%Z by lia. rewrite bpow_plus. reflexivity. }
    assert (E2 : bpow radix2 (k - 44) = 512 * (uro * M)).
    { unfold uro, M. rewrite <- bpow_plus. replace (k - 44)%Z with (9 + (-53 + k))%Z by lia. rewrite bpow_plus. reflexivity. }
    assert (He : eta <= uro * M).
    { unfold eta, uro, M. rewrite <- bpow_plus. apply bpow_le. lia. }
    assert (0 < uro * M) by (apply Rmult_lt_0_compat; [apply uro_pos|apply bpow_gt_0]).
    rewrite E1. rewrite E2 in Lg. unfold Rmin, Rmax in Hx. destruct (Rle_dec (B2R a) (B2R b)); lra.
  Qed.

  Definition box_of (p q : point b64) (K : box b64) : Prop :=
    bounded_box (k + 1) K
    /\ forall x, on_segment (rp p) (rp q) x -> deep (bpow radix2 (k - 45)) (rbox K) x.

  Lemma widened_in p q K : bpt k p -> bpt k q -> widened_box gt p q K -> box_of p q K.
  Proof.
    intros (Px & Py) (Qx & Qy) (X0 & X1 & Y0 & Y1). destruct gt_facts as (Bg & _). split.
    - destruct (widened_side k gt _ _ _ _ ltac:(lia) Px Qx Bg X0 X1) as (A & B & _).
      destruct (widened_side k gt _ _ _ _ ltac:(lia) Py Qy Bg Y0 Y1) as (C & D & _). repeat split; try apply A; try apply B; try apply C; try apply D.
    - intros x (s & Hs & ->). unfold deep, at_, rbox, rp. cbn [px py xmin xmax ymin ymax].
      split; [apply (inside1 _ _ _ _ s Px Qx Hs X0 X1)|apply (inside1 _ _ _ _ s Py Qy Hs Y0 Y1)].
  Qed.

  Lemma boxes_are : Forall2 (fun e K => exists p q, edge_of vs e p q /\ bpt k p /\ bpt k q /\ box_of p q K) edges (bb_coords t).
  Proof.
    pose proof (nt_boxes _ _ Hn) as H. rewrite Hvs, Hes in H. clear - H Hbd Hk Hsp Hgt. 
    induction H as [|e K l l' (p & q & He & HW) _ IH]; constructor; auto.
    destruct (edge_of_bpt k _ _ _ _ Hbd He) as (Bp & Bq). exists p, q. split; auto. split; auto. split; auto.
    now apply widened_in.
  Qed.

  Lemma boxes_bounded : Forall (bounded_box (k + 1)) (bb_coords t).
  Proof. pose proof boxes_are as H. clear - H. induction H as [|e K l l' (p & q & _ & _ & _ & H & _) _ IH]; constructor; auto. Qed.

  Lemma bbox_bounded : bounded_box (k + 1) (bbox t).
  Proof.
    destruct Htb as (_ & E1 & E2 & E3 & E4). pose proof boxes_bounded as HB. rewrite Forall_forall in HB. unfold bounded_box.
    apply Exists_exists in E1 as (c1 & I1 & <-), E2 as (c2 & I2 & <-), E3 as (c3 & I3 & <-), E4 as (c4 & I4 & <-).
    apply HB in I1, I2, I3, I4. split; [apply I1|]. split; [apply I2|]. split; [apply I3|apply I4].
  Qed.

  Lemma within_R K : In K (bb_coords t) -> B2R (xmin (bbox t)) <= B2R (xmin K) /\ B2R (xmax K) <= B2R (xmax (bbox t))
    /\ B2R (ymin (bbox t)) <= B2R (ymin K) /\ B2R (ymax K) <= B2R (ymax (bbox t)).
  Proof.
    intros I. destruct Htb as (HW & _). rewrite Forall_forall in HW. destruct (HW K I) as (W1 & W2 & W3 & W4).
    pose proof boxes_bounded as HB. rewrite Forall_forall in HB. destruct (HB K I) as (B1 & B2 & B3 & B4).
    destruct bbox_bounded as (T1 & T2 & T3 & T4).
    repeat split; apply le_B; auto; first [apply B1|apply B2|apply B3|apply B4|apply T1|apply T2|apply T3|apply T4].
  Qed.

  Lemma deep_up d K x : In K (bb_coords t) -> deep d (rbox K) x -> deep d (rbox (bbox t)) x.
  Proof. intros I. pose proof (within_R K I). unfold deep, rbox. cbn [xmin xmax ymin ymax]. lra. Qed.

  Lemma bbox_plain : plain_box (rbox (bbox t)).
  Proof.
    pose proof (vt_nonempty _ (nt_valid _ _ Hn)) as H1. pose proof boxes_are as HA.
    assert (HX : exists K p q, In K (bb_coords t) /\ box_of p q K).
    { clear - H1 HA. destruct HA as [|e K l l' (p & q & _ & _ & _ & H)]; [cbn in H1; lia|].
      exists K, p, q. split; [now left|exact H]. }
    destruct HX as (K & p & q & IK & HK & HD).
    assert (Hx : on_segment (rp p) (rp q) (rp p)).
    { exists 0. split; [lra|]. unfold at_. destruct (rp p) as [u v]. cbn [px py]. f_equal; ring. }
    pose proof (deep_up _ K _ IK (HD _ Hx)) as (D1 & D2).
    assert (bpow radix2 (-250) <= bpow radix2 (k - 45)) by (apply bpow_le; lia).
    pose proof (bpow_gt_0 radix2 (-250)). split; lra.
  Qed.

  Definition query_ok (ab : point b64 * point b64) : Prop :=
    bpt k (fst ab) /\ bpt k (snd ab) /\ plain_segment (rp (fst ab)) (rp (snd ab))
    /\ corners_clear (bpow radix2 (k - 44)) (rp (fst ab)) (rp (snd ab)) (rbox (bbox t)).

  Lemma near_all a b p q : bpt k a -> bpt k b -> bpt k p -> bpt k q -> all_near (bpow radix2 (k + 1)) [rp a; rp b; rp p; rp q].
  Proof.
    intros Ba Bb Bp Bq x y Hx Hy.
    assert (H : forall z, In z [rp a; rp b; rp p; rp q] -> Rabs (px z) <= bpow radix2 k /\ Rabs (py z) <= bpow radix2 k).
    { intros z [<-|[<-|[<-|[<-|[]]]]].
      - split; apply Ba.
      - split; apply Bb.
      - split; apply Bp.
      - split; apply Bq. }
    destruct (H _ Hx) as (A & B), (H _ Hy) as (C & D). apply Rabs_le_iff in A, B, C, D.
    replace (k + 1)%Z with (1 + k)%Z by lia. rewrite bpow_plus. change (bpow radix2 1) with 2.
    split; apply Rabs_le_iff; lra.
  Qed.

  Theorem net_edges queries : Forall query_ok queries ->
    exists rows, (forall g csfuel n_chunks, (4 <= csfuel)%nat -> (1 <= n_chunks)%nat ->
         locate_edge_edges g csfuel queries t n_chunks = Ok rows)
      /\ NoDup (map fst rows) /\ StronglySorted Z.le (map (fun r => fst (fst r)) rows)
      /\ (forall i j c, In ((i, j), c) rows -> exists a b p q x,
             (0 <= i)%Z /\ nth_error queries (Z.to_nat i) = Some (a, b) /\ edge_ends (map rp vs) edges j (rp p) (rp q)
             /\ bpt k p /\ bpt k q /\ lines_intersect a b p q = Ok (true, x) /\ c = (x, x))
      /\ (forall i j a b p q r x, (0 <= i)%Z -> nth_error queries (Z.to_nat i) = Some (a, b) ->
             (0 <= j)%Z -> (exists e, nth_error edges (Z.to_nat j) = Some e /\ edge_of vs e p q) ->
             lines_intersect a b p q = Ok (true, r) -> rp a <> rp b ->
             on_segment (rp a) (rp b) x -> on_segment (rp p) (rp q) x -> In ((i, j), (r, r)) rows).
  Proof.
    intros HQ. pose proof (nt_valid _ _ Hn) as Hv. pose proof boxes_are as HA.
    assert (HF : forall j e, (0 <= j)%Z -> nth_error edges (Z.to_nat j) = Some e -> forall p q, edge_of vs e p q ->
        forall a b, compute_edge_edge_intersect t j a b =
         (let* r := lines_intersect a b p q in
          let '(x, c) := r in Ok (if x : bool then Some (c, c) else None))).
    { intros j e Hj En p q He a b. destruct He as (i & i' & -> & Hi & Hi' & Ei & Ei'). unfold compute_edge_edge_intersect.
      rewrite Hes, Hvs, (aget_pos _ _ _ Hj En). cbn [bind].
      change (aget [i; i'] 0) with (Ok i). change (aget [i; i'] 1) with (Ok i'). cbn [bind].
      rewrite (aget_pos _ _ _ Hi Ei), (aget_pos _ _ _ Hi' Ei'). reflexivity. }
    assert (HE : forall j, (0 <= j < zlen (bb_coords t))%Z -> exists e p q, nth_error edges (Z.to_nat j) = Some e /\ edge_of vs e p q
        /\ bpt k p /\ bpt k q).
    { intros j Hj. destruct (nth_error (bb_coords t) (Z.to_nat j)) as [K|] eqn:EK.
      - destruct (Forall2_nth_r _ _ _ _ _ HA EK) as (e & Ee & p & q & He & Bp & Bq & _). eauto 8.
      - exfalso. apply nth_error_None in EK. unfold zlen in Hj. lia. }
    set (hh := fun (ab : point b64 * point b64) e =>
      match compute_edge_edge_intersect t e (fst ab) (snd ab) with Ok r => r | Err _ => None end).
    rewrite Forall_forall in HQ.
    destruct (fedges (k + 1) ltac:(lia) t Hv boxes_bounded bbox_bounded bbox_plain
      (fun _ _ => compute_edge_edge_intersect t) hh queries) as (rows & H1 & H2 & H3 & H4 & H5 & _).
    - rewrite Forall_forall. intros ab Hab. destruct (HQ _ Hab) as (B1 & B2 & PS & CL). 
      split; [apply (bpt_up k); auto|]. split; [apply (bpt_up k); auto|]. split; auto. now rewrite eps8.
    - intros (a, b) Hab g cs j _ Hj. cbn [fst snd]. destruct (HE j Hj) as (e & p & q & Ee & He & Bp & Bq).
      destruct (HQ _ Hab) as (B1 & B2 & PS & _). cbn [fst snd] in B1, B2, PS.
      assert (HW : bpow radix2 (-250) <= bpow radix2 (k + 1) <= bpow radix2 (k + 1)) by (split; [apply bpow_le; lia|lra]).
      destruct (lines_return k (bpow radix2 (k + 1)) ltac:(lia) HW a b p q B1 B2 Bp Bq (near_all _ _ _ _ B1 B2 Bp Bq) PS) as ((x, c) & Er).
      unfold hh. cbn [fst snd]. rewrite !(HF j e (proj1 Hj) Ee p q He), Er. reflexivity.
    - exists rows. split; [intros g cs nc; apply (H1 g cs nc)|]. split; auto. split; auto. split.
      + intros i j c Hin. destruct (H4 i j c Hin) as ((a, b) & Hi & Ei & Hj & Eh).
        destruct (HE j Hj) as (e & p & q & Ee & He & Bp & Bq).
        unfold hh in Eh. cbn [fst snd] in Eh. rewrite (HF j e (proj1 Hj) Ee p q He) in Eh.
        destruct (lines_intersect a b p q) as [([|], x)|] eqn:El; cbn [bind] in Eh; try discriminate.
        injection Eh as <-. exists a, b, p, q, x. split; auto. split; auto. split; [|auto].
        exists e. split; [lia|]. split; auto. now apply edge_of_map.
      + intros i j a b p q r x Hi Ei Hj (e & Ee & He) El Hne Hx1 Hx2.
        destruct (Forall2_nth_l _ _ _ _ _ HA Ee) as (K & EK & p' & q' & He' & _ & _ & _ & HD).
        destruct (edge_of_unique _ _ _ _ _ _ He He') as (-> & ->).
        specialize (HD x Hx2).
        apply (H5 i j (a, b) K (r, r) x); auto.
        * unfold hh. cbn [fst snd]. rewrite (HF j e Hj Ee p q He), El. reflexivity.
        * pose proof (bpow_gt_0 radix2 (k - 45)). destruct HD as (D1 & D2). split; lra.
        * rewrite eps4. apply (deep_up _ K); auto. eapply nth_error_In; eauto.
  Qed.
End Net64.
