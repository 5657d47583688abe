(** CellTree2d.intersect_edges in binary64. *)
From Coq Require Import Reals Lra Psatz Sorted.
From Flocq Require Import IEEE754.BinarySingleNaN Core.
From Verif Require Import RBase NumB64 NumRoom FBase FBuild GLines MGeometry MCreation MAlgorithms MQuery MCelltree
  PStack PPartition SpecTree PBuild PWalk PCollect SpecQuery SpecApi PQuery PMesh PInit NumSub PPoints PApi PEdges PEdgesAny PTreeBox
  SpecMesh GEdges FPoint FLocate FCut FArea FMesh FBoxClip FLines FEdgeTree FNetEdges FCyrus SpecGeom SpecPoly GTriangle GConvex GHull GFaces
  GTreeEdges PropClipLine.
Open Scope R_scope.
Local Notation bounded := NumRoom.bounded.

(** no point of the segment is near the box *)
Definition away (e : R) (a b : pt) (K : bx) : Prop :=
  forall x y, on_segment a b x -> in_box K y -> ~ close e x y.

(** The query segment and a face: either the segment is away from the box of the
    face, or it is in general position. *)
Definition clear_face (k : Z) (a b : pt) (poly : list pt) : Prop :=
  exists K, tight_box poly K
    /\ (away (bpow radix2 (k - 45)) a b K
        \/ corners_clear (bpow radix2 (k - 45)) a b K
           /\ placed k (1.001 * face_tol K) poly a /\ placed k (1.001 * face_tol K) poly b
           /\ exists W, bpow radix2 (-250) <= W <= bpow radix2 (k + 1) /\ all_near W (a :: b :: poly) /\ clear_line W a b poly).

(** ** All of this does not depend on the direction in which the face is traversed *)
Lemma clear_line_either W a b P P' : P' = P \/ P' = rev P -> clear_line W a b P -> clear_line W a b P'.
Proof.
  intros [->| ->] H; auto. destruct H as (H1 & H2). split.
  - intros v Hv. apply H1. now apply in_rev.
  - intros u v He C. apply edges_rev_in in He. destruct (H2 v u He) as (X & Y); [unfold crossed in *; tauto|].
    replace (orient u v a) with (- orient v u a) by (unfold orient; ring).
    replace (orient u v b) with (- orient v u b) by (unfold orient; ring). rewrite !Rabs_Ropp. auto.
Qed.
Lemma steep_either dl a b P P' : P' = P \/ P' = rev P -> steep dl a b P -> steep dl a b P'.
Proof.
  intros [->| ->] H; auto. intros u v He C. apply edges_rev_in in He.
  replace (cross_uv a b u v) with (- cross_uv a b v u) by (unfold cross_uv; ring). rewrite Rabs_Ropp.
  apply H; auto. unfold crossed in *. tauto.
Qed.
Lemma placed_either k tol P P' x : P' = P \/ P' = rev P -> placed k tol P x -> placed k tol P' x.
Proof.
  intros E [(H1 & H2)|(H1 & H2)]; [left|right]; split.
  - now apply (open_hull_either P P').
  - intros H. apply H2. now apply (near_either _ P P').
  - intros H. apply H1. now apply (hull_either P P').
  - intros H. apply H2. now apply (near_either _ P P').
Qed.
Lemma all_near_either W a b P P' : P' = P \/ P' = rev P -> all_near W (a :: b :: P) -> all_near W (a :: b :: P').
Proof.
  intros E H x y Hx Hy.
  assert (G : forall z, In z (a :: b :: P') -> In z (a :: b :: P)).
  { intros z [<-|[<-|Hz]]; [now left|right; now left|]. right. right. destruct E as [->| ->]; auto. now apply in_rev. }
  apply H; auto.
Qed.
Lemma clip_close_ext e (S S' : pt -> Prop) a b r : (forall x, S x <-> S' x) -> clip_close e S a b r -> clip_close e S' a b r.
Proof.
  intros HS. destruct r as [(c, d)|]; cbn [clip_close].
  - intros (c' & d' & (Hab & s & u & A1 & A2 & A3 & A4 & A5) & C1 & C2). exists c', d'. split; auto. split; auto.
    exists s, u. split; auto. split; auto. split; auto. split; auto. intros w Hw. rewrite <- (A5 w Hw). symmetry. apply HS.
  - intros H x y Hx Hy Sx Sy. apply H; auto; now apply HS.
Qed.
Lemma tight_either (P P' : list pt) K : P' = P \/ P' = rev P -> tight_box P' K -> tight_box P K.
Proof. intros [->| ->]; auto. apply tight_box_rev. Qed.

Lemma tight_fun (P : list pt) K K' : tight_box P K -> tight_box P K' -> K = K'.
Proof.
  intros (A0 & A1 & A2 & A3 & A4) (B0 & B1 & B2 & B3 & B4). rewrite Forall_forall in A0, B0.
  apply Exists_exists in A1 as (p1 & I1 & E1), A2 as (p2 & I2 & E2), A3 as (p3 & I3 & E3), A4 as (p4 & I4 & E4).
  apply Exists_exists in B1 as (q1 & J1 & F1), B2 as (q2 & J2 & F2), B3 as (q3 & J3 & F3), B4 as (q4 & J4 & F4).
  pose proof (B0 _ I1) as X1. pose proof (B0 _ I2) as X2. pose proof (B0 _ I3) as X3. pose proof (B0 _ I4) as X4.
  pose proof (A0 _ J1) as Y1. pose proof (A0 _ J2) as Y2. pose proof (A0 _ J3) as Y3. pose proof (A0 _ J4) as Y4.
  assert (C : forall (p : pt) (B : bx), in_closed_box p B -> xmin B <= px p <= xmax B /\ ymin B <= py p <= ymax B).
  { intros p B (G1 & G2 & G3 & G4). rsimp. rb. lra. }
  apply C in X1, X2, X3, X4, Y1, Y2, Y3, Y4.
  destruct K as [a b c d], K' as [a' b' c' d']. cbn [xmin xmax ymin ymax] in *. f_equal; lra.
Qed.

(** ** The tolerance of the clip *)
Lemma pos_abs (x : b64) : 0 < B2R x -> nabs x = x.
Proof.
  intros H. destruct x as [s|s| |[|] m e Hb]; cbn in *; try lra; auto.
  exfalso. assert (F2R (Float radix2 (Z.neg m) e) < 0) by (apply F2R_lt_0; cbn; lia). lra.
Qed.

Lemma sub_pos k (x y : b64) : (-150 <= k <= 250)%Z -> bounded k x -> bounded k y -> B2R y < B2R x -> 0 < B2R (nsub x y).
Proof.
  intros Hk Bx By H. destruct (diff_err k Hk x y Bx By) as (_ & e & He & ->). pose proof uro_small. apply Rabs_le_iff in He.
  apply Rmult_lt_0_compat; lra.
Qed.

Lemma clip_tol_64 k (K : box b64) : (-40 <= k <= 240)%Z -> bounded_box k K -> plain_box (rbox K) ->
  bounded k (clip_tol K) /\ 0.999 * face_tol (rbox K) <= B2R (clip_tol K) <= 1.001 * face_tol (rbox K).
Proof.
  intros Hk (B1 & B2 & B3 & B4) (P1 & P2). unfold rbox in P1, P2. cbn [xmin xmax ymin ymax] in P1, P2.
  pose proof (bpow_gt_0 radix2 (-250)) as P0.
  pose proof (tol_val k Hk (Pt (xmin K) (ymin K)) (Pt (xmax K) (ymax K)) (conj B1 B3) (conj B2 B4)) as H.
  change (px (to_vector (Pt (xmin K) (ymin K)) (Pt (xmax K) (ymax K)))) with (nsub (xmax K) (xmin K)) in H.
  change (py (to_vector (Pt (xmin K) (ymin K)) (Pt (xmax K) (ymax K)))) with (nsub (ymax K) (ymin K)) in H.
  rewrite (pos_abs (nsub (xmax K) (xmin K))), (pos_abs (nsub (ymax K) (ymin K))) in H
    by (apply (sub_pos k); auto; [lia|lra]).
  unfold seg_tol, rp in H. cbn [px py] in H.
  rewrite (Rabs_pos_eq (B2R (xmax K) - _)), (Rabs_pos_eq (B2R (ymax K) - _)) in H by lra. exact H.
Qed.

Lemma placed_less k tol tol' P x : tol <= tol' -> placed k tol' P x -> 0 <= tol -> placed k tol P x.
Proof.
  intros Ht [H|(H1 & H2)] H0; [left; auto|right]. split; auto. intros (u & v & He & H). apply H2. exists u, v. split; auto.
  pose proof (bpow_ge_0 radix2 (k - 48)). revert H. apply near_larger. lra.
Qed.

Lemma eps8' k : 8 * eps_of k = bpow radix2 (k - 45).
Proof. replace k with (k - 1 + 1)%Z at 1 by lia. rewrite eps8. f_equal. lia. Qed.
Lemma eps4' k : 4 * eps_of k = bpow radix2 (k - 46).
Proof. replace k with (k - 1 + 1)%Z at 1 by lia. rewrite eps4. f_equal. lia. Qed.

(** every face has some extent in both directions *)
Definition faces_plain (vs : list pt) (faces : list (list Z)) (fill : Z) : Prop :=
  forall j poly K, face_poly vs faces fill j poly -> tight_box poly K -> plain_box K.

(** a query edge *)
Definition mesh_query (k : Z) (t : celltree b64) (vs : list pt) (faces : list (list Z)) (fill : Z) (ab : point b64 * point b64) : Prop :=
  bpt k (fst ab) /\ bpt k (snd ab) /\ plain_segment (rp (fst ab)) (rp (snd ab))
  /\ corners_clear (bpow radix2 (k - 45)) (rp (fst ab)) (rp (snd ab)) (rbox (bbox t))
  /\ forall j poly, face_poly vs faces fill j poly -> clear_face k (rp (fst ab)) (rp (snd ab)) poly.

Section Mesh64.
  Variable k : Z.
  Hypothesis Hk : (-40 <= k <= 240)%Z.
  Variables (vs : list (point b64)) (faces : list (list Z)) (fill cpl : Z) (t : tree2d (T:=b64)).
  Hypothesis Hm : mesh_ok vs faces fill.
  Hypothesis Hb : built vs faces fill cpl t.
  Hypothesis Hbd : bounded_vertices k vs.
  Hypothesis Hc : convex_mesh (map rp vs) faces fill.
  Hypothesis Hs : sides_ok (map rp vs) faces fill.
  Hypothesis Hp : faces_plain (map rp vs) faces fill.
  Notation tree := (celltree_data t).
  Hypothesis Htb : tight_over (bb_coords tree) (bbox tree).
  Notation R_ := (map rp vs).

  Lemma stored_face j : (0 <= j < zlen (bb_coords tree))%Z -> exists poly K polyR,
    face_is tree j poly K /\ face_poly R_ faces fill j polyR /\ (map rp poly = polyR \/ map rp poly = rev polyR)
    /\ Forall (bpt k) poly /\ tight_box polyR (rbox K) /\ bounded_box k K.
  Proof.
    intros Hj. pose proof (built_valid _ _ _ _ _ Hb) as Hv.
    assert (Hj' : (0 <= j < zlen (elements tree))%Z) by (unfold zlen in *; rewrite (vt_elements _ Hv); exact Hj).
    destruct (aget_ok_pos (elements tree) j Hj') as (f & _ & En).
    destruct (stored_back_float _ _ _ _ _ _ _ Hm Hb (proj1 Hj) En) as (polyR & HR).
    destruct (stored_float k _ _ _ _ _ _ _ Hb Hbd HR) as (f' & poly & K & H0 & En' & EK & Hpoly & Hpb & Ho & HT).
    exists poly, K, polyR. split.
    { split; auto. exists f'. split; auto. split; auto. now rewrite (bt_vertices _ _ _ _ _ Hb). }
    split; auto. split; auto. split; auto. split.
    - apply (tight_either polyR (map rp poly)); auto. eapply tight_box_B; eauto.
    - destruct (tight_bounded k poly K Hpb HT) as (A & B & C & D). repeat split; try apply A; try apply B; try apply C; try apply D.
  Qed.

  Lemma face_back j polyR : face_poly R_ faces fill j polyR -> (0 <= j < zlen (bb_coords tree))%Z.
  Proof.
    intros HR. destruct (stored_float k _ _ _ _ _ _ _ Hb Hbd HR) as (f' & poly & K & H0 & _ & EK & _).
    eapply nth_error_range; eauto.
  Qed.

  Lemma face_poly_fun j p q : face_poly R_ faces fill j p -> face_poly R_ faces fill j q -> p = q.
  Proof.
    intros (f & _ & E & P) (f' & _ & E' & P'). rewrite E in E'. injection E' as <-. eapply poly_of_fun; eauto.
  Qed.

  Lemma mboxes_bounded : Forall (bounded_box k) (bb_coords tree).
  Proof.
    apply Forall_forall. intros K HK. apply In_nth_error in HK as (n & En).
    destruct (stored_face (Z.of_nat n)) as (poly & K' & polyR & (_ & f & _ & _ & EK) & _ & _ & _ & _ & B).
    { split; [lia|]. unfold zlen. assert (n < length (bb_coords tree))%nat by (apply nth_error_Some; congruence). lia. }
    rewrite Nat2Z.id in EK. congruence.
  Qed.

  Lemma mbbox_bounded : bounded_box k (bbox tree).
  Proof.
    destruct Htb as (_ & E1 & E2 & E3 & E4). pose proof mboxes_bounded as HB. rewrite Forall_forall in HB. unfold bounded_box.
    apply Exists_exists in E1 as (c1 & I1 & <-), E2 as (c2 & I2 & <-), E3 as (c3 & I3 & <-), E4 as (c4 & I4 & <-).
    apply HB in I1, I2, I3, I4. split; [apply I1|]. split; [apply I2|]. split; [apply I3|apply I4].
  Qed.

  Lemma mwithin K : In K (bb_coords tree) -> B2R (xmin (bbox tree)) <= B2R (xmin K) /\ B2R (xmax K) <= B2R (xmax (bbox tree))
    /\ B2R (ymin (bbox tree)) <= B2R (ymin K) /\ B2R (ymax K) <= B2R (ymax (bbox tree)).
  Proof.
    intros I. destruct Htb as (HW & _). rewrite Forall_forall in HW. destruct (HW K I) as (W1 & W2 & W3 & W4).
    pose proof mboxes_bounded as HB. rewrite Forall_forall in HB. destruct (HB K I) as (B1 & B2 & B3 & B4).
    destruct mbbox_bounded as (T1 & T2 & T3 & T4).
    repeat split; apply le_B; auto; first [apply B1|apply B2|apply B3|apply B4|apply T1|apply T2|apply T3|apply T4].
  Qed.

  Lemma mbbox_plain : plain_box (rbox (bbox tree)).
  Proof.
    pose proof (vt_nonempty _ (built_valid _ _ _ _ _ Hb)) as H1.
    destruct (stored_face 0) as (poly & K & polyR & (_ & f & _ & _ & EK) & HR & _ & _ & HT & _); [unfold zlen; lia|].
    destruct (mwithin K (nth_error_In _ _ EK)) as (W1 & W2 & W3 & W4).
    destruct (Hp 0%Z polyR (rbox K) HR HT) as (P1 & P2). unfold plain_box, rbox in *. cbn [xmin xmax ymin ymax] in *. lra.
  Qed.

  (** the test of one face *)
  Definition face_result (a b : pt) (polyR : list pt) (K : bx) (r : option (option (point b64) * option (point b64))) : Prop :=
    (away (bpow radix2 (k - 45)) a b K -> r = None)
    /\ (forall c, r = Some c -> exists c1 c2, c = (Some c1, Some c2))
    /\ forall W dl, bpow radix2 (-250) <= W <= bpow radix2 (k + 1) -> 0 < dl -> all_near W (a :: b :: polyR) ->
         clear_line W a b polyR -> steep dl a b polyR ->
         match r with
         | Some (Some c1, Some c2) => clip_close (cyrus_err k W dl a b) (hull polyR) a b (Some (rp c1, rp c2))
         | _ => (exists x, on_segment a b x /\ deep (bpow radix2 (k - 46)) K x) -> clip_close (cyrus_err k W dl a b) (hull polyR) a b None
         end.

  Lemma face_test_64 j a b polyR K : bpt k a -> bpt k b -> plain_segment (rp a) (rp b) -> 
    face_poly R_ faces fill j polyR -> tight_box polyR K -> clear_face k (rp a) (rp b) polyR ->
    exists r, (forall g cs, (4 <= cs)%nat -> compute_edge_face_intersect g cs tree j a b = Ok r) /\ face_result (rp a) (rp b) polyR K r.
  Proof.
    intros Ba Bb PS HR HT (K0 & HT0 & HF). rewrite (tight_fun _ _ _ HT0 HT) in *. clear K0 HT0.
    pose proof (face_back _ _ HR) as Hj.
    destruct (face_clip_eq tree (bt_mesh _ _ _ _ _ Hb) j Hj) as (poly & KB & HI & EC).
    destruct (stored_face j Hj) as (poly' & KB' & polyR' & HI' & HR' & Ho & Bp & HT' & BK).
    destruct (face_is_fun _ _ _ _ _ _ HI HI'); subst poly' KB'. rewrite (face_poly_fun _ _ _ HR' HR) in *. clear HR' polyR' HI'.
    pose proof (tight_fun _ _ _ HT HT') as EK. subst K. clear HT'. rename BK into BKB.
    assert (PB : plain_box (rbox KB)) by (exact (Hp j polyR _ HR HT)).
    pose proof (bpow_gt_0 radix2 (-250)) as P250. pose proof (bpow_gt_0 radix2 (k - 45)) as P45.
    assert (CL : corners_clear (bpow radix2 (k - 45)) (rp a) (rp b) (rbox KB)).
    { destruct HF as [HA|(HA & _)]; auto. intros x v Hx (C1 & C2). apply (HA x v Hx). destruct PB as (P1 & P2). split; lra. }
    assert (Dec : rp a = rp b \/ rp a <> rp b).
    { destruct (Req_dec (px (rp a)) (px (rp b))) as [E1|E1]; [|right; congruence].
      destruct (Req_dec (py (rp a)) (py (rp b))) as [E2|E2]; [|right; congruence].
      left. destruct (rp a) as [u v], (rp b) as [u2 v2]. cbn [px py] in E1, E2. congruence. }
    (* no row *)
    assert (NONE : (forall cs, (4 <= cs)%nat -> cohen_sutherland_line_box_clip cs a b KB = Ok None) ->
      (rp a = rp b \/ forall x, on_segment (rp a) (rp b) x -> ~ deep (bpow radix2 (k - 46)) (rbox KB) x) ->
      exists r, (forall g cs, (4 <= cs)%nat -> compute_edge_face_intersect g cs tree j a b = Ok r) /\ face_result (rp a) (rp b) polyR (rbox KB) r).
    { intros E HD. exists None. split.
      - intros g cs Hcs. rewrite EC. unfold face_clip. rewrite (E cs Hcs). reflexivity.
      - split; auto. split; [discriminate|]. intros W dl HW Hdl HS HC HSt (x & Hx & Dx). destruct HD as [HD|HD].
        + assert (0 <= uro * (W * W)) by (apply Rmult_le_pos; [apply Rlt_le, uro_pos|apply Rle_0_sqr]).
          assert (0 <= cyrus_err k W dl (rp a) (rp b)).
          { unfold cyrus_err. pose proof (reach_pos (rp a) (rp b)). pose proof uro_pos. pose proof (bpow_gt_0 radix2 k).
            assert (0 <= 22 * (uro * (W * W)) / dl * reach (rp a) (rp b)).
            { apply Rmult_le_pos; auto. unfold Rdiv. apply Rmult_le_pos; [lra|]. left. now apply Rinv_0_lt_compat. }
            assert (0 <= uro * bpow radix2 k) by (apply Rmult_le_pos; lra). lra. }
          intros y z (s & _ & ->) (u & _ & ->) _ _. rewrite HD. unfold close, at_. cbn [px py].
          replace (px (rp b) + s * (px (rp b) - px (rp b)) - (px (rp b) + u * (px (rp b) - px (rp b)))) with 0 by ring.
          replace (py (rp b) + s * (py (rp b) - py (rp b)) - (py (rp b) + u * (py (rp b) - py (rp b)))) with 0 by ring.
          rewrite HD in *. rewrite Rabs_R0. lra.
        + destruct (HD x Hx Dx). }
    destruct Dec as [EQ|NE].
    { apply NONE; [|auto]. intros cs _. unfold cohen_sutherland_line_box_clip.
      rewrite (proj2 (diff_eqb k ltac:(lia) a b Ba Bb) EQ). reflexivity. }
    pose proof CL as CL'. rewrite <- eps8' in CL'.
    destruct (cohen_sutherland_64 k ltac:(lia) KB BKB PB a b Ba Bb PS CL' 4 (le_n 4) NE) as (c & Ec & Hcs).
    assert (Ec' : forall cs, (4 <= cs)%nat -> cohen_sutherland_line_box_clip cs a b KB = Ok c) by (intros cs H; apply (cs_more _ _ _ _ 4); auto).
    destruct c as [(c, d)|].
    2: { apply NONE; auto. right. cbn [rclip clips_near] in Hcs. now rewrite eps4' in Hcs. }
    cbn [rclip clips_near] in Hcs. destruct Hcs as (I1 & _ & (c' & Sc & Cc) & _).
    assert (NA : ~ away (bpow radix2 (k - 45)) (rp a) (rp b) (rbox KB)).
    { intros HA. apply (HA c' (rp c) Sc I1). apply close_sym. revert Cc. apply close_le. rewrite eps4'. apply bpow_le. lia. }
    destruct HF as [HA|(_ & Pa & Pb & W0 & HW0 & HS0 & HC0)]; [contradiction|].
    destruct (clip_tol_64 k KB Hk BKB PB) as (BT & T1 & T2). pose proof (face_tol_pos (rbox KB)) as FT.
    assert (GO : forall W dl, bpow radix2 (-250) <= W <= bpow radix2 (k + 1) -> 0 < dl -> all_near W (rp a :: rp b :: polyR) ->
         clear_line W (rp a) (rp b) polyR -> steep dl (rp a) (rp b) polyR ->
         exists r, cyrus_beck_line_polygon_clip a b poly (clip_tol KB) = Ok r
           /\ clip_close (cyrus_err k W dl (rp a) (rp b)) (hull polyR) (rp a) (rp b) (rclip r)).
    { intros W dl HW Hdl HS HC HSt.
      assert (PP : forall x, placed k (1.001 * face_tol (rbox KB)) polyR x -> placed k (B2R (clip_tol KB)) (map rp poly) x).
      { intros x Px. apply (placed_either _ _ polyR); auto. revert Px. intros Px. eapply placed_less; [apply T2|exact Px|lra]. }
      destruct (cyrus_64 k W dl Hk HW Hdl a b poly (Forall_cons _ Ba (Forall_cons _ Bb Bp))
        (all_near_either _ _ _ polyR _ Ho HS) (clip_tol KB) BT ltac:(lra)) as (r & Er & Hr).
      - apply (convex_either polyR); auto. eapply Hc; eauto.
      - apply (sides_either polyR); auto. intros u v. eapply Hs; eauto.
      - now apply (clear_line_either _ _ _ polyR).
      - now apply (steep_either _ _ _ polyR).
      - now apply PP.
      - now apply PP.
      - exists r. split; auto. revert Hr. apply clip_close_ext. intros x. now apply hull_either. }
    destruct (GO W0 (64 * (uro * (W0 * W0))) HW0) as (r & Er & _); auto.
    { pose proof uro_pos. assert (0 < W0 * W0) by (apply Rmult_lt_0_compat; lra).
      assert (0 < uro * (W0 * W0)) by (apply Rmult_lt_0_compat; lra). lra. }
    { now apply clear_steep. }
    exists (match r with Some (c1, c2) => Some (Some c1, Some c2) | None => None end). split.
    - intros g cs Hcs. rewrite EC. unfold face_clip. rewrite (Ec' cs Hcs). cbn [bind]. rewrite Er. reflexivity.
    - split; [contradiction|]. split.
      + intros q. destruct r as [(c1, c2)|]; [|discriminate]. intros E. injection E as <-. eauto.
      + intros W dl HW Hdl HS HC HSt. destruct (GO W dl HW Hdl HS HC HSt) as (r' & Er' & Hr'). rewrite Er in Er'. injection Er' as <-.
        destruct r as [(c1, c2)|]; auto.
  Qed.

  Theorem mesh_edges queries : Forall (mesh_query k tree R_ faces fill) queries ->
    exists rows, (forall g csfuel n_chunks, (4 <= csfuel)%nat -> (1 <= n_chunks)%nat ->
         locate_edge_faces g csfuel queries tree n_chunks = Ok rows)
      /\ NoDup (map fst rows) /\ StronglySorted Z.le (map (fun r => fst (fst r)) rows)
      /\ (forall i j c, In ((i, j), c) rows -> (0 <= i < zlen queries)%Z /\ exists poly, face_poly R_ faces fill j poly)
      /\ (forall i j a b poly K, (0 <= i)%Z -> nth_error queries (Z.to_nat i) = Some (a, b) ->
            face_poly R_ faces fill j poly -> tight_box poly K ->
            exists r, face_result (rp a) (rp b) poly K r
              /\ (forall c, In ((i, j), c) rows -> r = Some c)
              /\ (forall x c, r = Some c -> rp a <> rp b -> on_segment (rp a) (rp b) x -> in_box K x ->
                     deep (bpow radix2 (k - 46)) (rbox (bbox tree)) x -> In ((i, j), c) rows)).
  Proof.
    intros HQ. pose proof (built_valid _ _ _ _ _ Hb) as Hv. rewrite Forall_forall in HQ.
    set (g0 := Garbage b64 (fun _ _ => 0%Z) (fun _ _ => (0, 0)%Z) (fun _ _ => (0, 0, 0)%Z) (fun _ _ => Pt nfmax nfmax)
                 (fun _ _ => Node 0 nfmax nfmax 0 0 true) (fun _ _ => Box nfmax nfmax nfmax nfmax)
                 (fun _ _ => (None, None))).
    set (hh := fun (ab : point b64 * point b64) e =>
      match compute_edge_face_intersect g0 4 tree e (fst ab) (snd ab) with Ok r => r | Err _ => None end).
    destruct (fedges k ltac:(lia) tree Hv mboxes_bounded mbbox_bounded mbbox_plain
      (fun g cs => compute_edge_face_intersect g cs tree) hh queries) as (rows & H1 & H2 & H3 & H4 & H5 & _).
    - rewrite Forall_forall. intros ab Hab. destruct (HQ _ Hab) as (B1 & B2 & PS & CL & _).
      split; auto. split; auto. split; auto. now rewrite eps8'.
    - intros (a, b) Hab g cs j Hcs Hj. cbn [fst snd]. destruct (HQ _ Hab) as (B1 & B2 & PS & _ & HF). cbn [fst snd] in *.
      destruct (stored_face j Hj) as (poly & K & polyR & _ & HR & _ & _ & HT & _).
      destruct (face_test_64 j a b polyR (rbox K) B1 B2 PS HR HT (HF _ _ HR)) as (r & Er & _).
      unfold hh. cbn [fst snd]. rewrite (Er g cs Hcs), (Er g0 4%nat (le_n 4)). reflexivity.
    - exists rows. split; [exact H1|]. split; auto. split; auto. split.
      + intros i j c Hin. destruct (H4 i j c Hin) as (ab & Hi & Ei & Hj & _). split.
        * eapply nth_error_range; eauto.
        * destruct (stored_face j Hj) as (poly & K & polyR & _ & HR & _). eauto.
      + intros i j a b polyR K Hi Ei HR HT. pose proof (HQ _ (nth_error_In _ _ Ei)) as (B1 & B2 & PS & _ & HF). cbn [fst snd] in *.
        destruct (face_test_64 j a b polyR K B1 B2 PS HR HT (HF _ _ HR)) as (r & Er & Hr).
        assert (EH : hh (a, b) j = r) by (unfold hh; cbn [fst snd]; now rewrite (Er g0 4%nat (le_n 4))).
        exists r. split; auto. split.
        * intros c Hin. destruct (H4 i j c Hin) as (ab & _ & Ei' & _ & Eh). rewrite Ei in Ei'. injection Ei' as <-. congruence.
        * intros x c Ec NE Hx Kx Dx. pose proof (face_back _ _ HR) as Hj.
          destruct (stored_face j Hj) as (poly & KB & polyR' & (_ & f & _ & _ & EK) & HR' & _ & _ & HT' & _).
          rewrite (face_poly_fun _ _ _ HR' HR) in HT'. rewrite (tight_fun _ _ _ HT HT') in Kx.
          apply (H5 i j (a, b) KB c x); auto; [lia|congruence|]. now rewrite eps4'.
  Qed.

  Lemma deep_face j poly K x d : face_poly R_ faces fill j poly -> tight_box poly K -> deep d K x -> deep d (rbox (bbox tree)) x.
  Proof.
    intros HR HT. destruct (stored_face j (face_back _ _ HR)) as (poly' & KB & polyR' & (_ & f & _ & _ & EK) & HR' & _ & _ & HT' & _).
    rewrite (face_poly_fun _ _ _ HR' HR) in HT'. rewrite (tight_fun _ _ _ HT HT').
    pose proof (mwithin KB (nth_error_In _ _ EK)). unfold deep, rbox. cbn [xmin xmax ymin ymax]. lra.
  Qed.
End Mesh64.
