(** C62: clipping a segment by a box (Liang-Barsky) in binary64. *)
From Coq Require Import Reals Lra Psatz.
From Flocq Require Import IEEE754.BinarySingleNaN Core.
From Verif Require Import RBase NumB64 NumRoom FBase MGeometry MAlgorithms FPoint FLocate FBuild FCut FBoxClip FEdgeTree
  SpecGeom FLiang CsHang.
Open Scope R_scope.
Local Notation bounded := NumRoom.bounded.

(** numba_celltree/algorithms/liang_barsky.py, every segment and every box: it
    always returns, nothing for a segment of length zero, and otherwise the clip
    up to 2^(k-49). *)
Theorem C62_float_liang_barsky k (A B : point b64) (K : box b64) : (-251 <= k <= 400)%Z ->
  bounded k (xmin K) -> bounded k (xmax K) -> bounded k (ymin K) -> bounded k (ymax K) ->
  bpt k A -> bpt k B ->
  (rp A = rp B -> liang_barsky_line_box_clip A B K = Ok None)
  /\ (rp A <> rp B -> exists r, liang_barsky_line_box_clip A B K = Ok r
      /\ clips_close (bpow radix2 (k - 49)) (rp A) (rp B) (rbox K) (rclip r)).
Proof.
  intros Hk K1 K2 K3 K4 HA HB. split.
  - intros E. destruct HA as (A1 & A2), HB as (B1 & B2). unfold liang_barsky_line_box_clip. cbv zeta.
    change (@nofZ b64 _) with Zb. destruct zb0 as (FZ & EZ).
    destruct (stands_sub k Hk _ _ B1 A1) as (F1 & _ & e1 & _ & E1).
    destruct (stands_sub k Hk _ _ B2 A2) as (F2 & _ & e2 & _ & E2).
    pose proof (f_equal (@px R) E) as Ex. pose proof (f_equal (@py R) E) as Ey. cbn [rp px py] in Ex, Ey.
    rewrite !neqb_B by auto. rewrite E1, E2, EZ, Ex, Ey.
    rewrite !Req_bool_true by ring. reflexivity.
  - intros Hne. destruct (liang_barsky_64 k Hk A B K K1 K2 K3 K4 HA HB Hne) as (r & Er & Hr).
    exists r. split; auto. replace (bpow radix2 (k - 49)) with (16 * (uro * bpow radix2 k)); auto.
    unfold uro. replace (k - 49)%Z with (4 + (-53 + k))%Z by lia. rewrite !bpow_plus. change (bpow radix2 4) with 16. ring.
Qed.

(** The ends of the clip need not lie in the box: for the segment from (-12, 2) to
    (35, -2) and the box [0, 4] x [0, 1] the first end has a negative x. *)
Theorem C62_ends_inside_refuted :
  exists (K : box b64) (A B c d : point b64), wf_box (rbox K) /\ liang_barsky_line_box_clip A B K = Ok (Some (c, d))
    /\ ~ in_box (rbox K) (rp c).
Proof.
  set (K := Box (Zb 0) (Zb 4) (Zb 0) (Zb 1)). set (A := Pt (Zb (-12)) (Zb 2)). set (B := Pt (Zb 35) (Zb (-2))).
  assert (H : match liang_barsky_line_box_clip A B K with
    Ok (Some (c, d)) => (is_finite (px c) && nltb (px c) (Zb 0))%bool | _ => false end = true) by (vm_compute; reflexivity).
  destruct (liang_barsky_line_box_clip A B K) as [[(c, d)|]|] eqn:E; try discriminate H.
  exists K, A, B, c, d. split; [|split; [auto|]].
  - split; cbn [rbox K xmin xmax ymin ymax]; rewrite !(fun n H => proj2 (Zb_exact n H)) by lia; lra.
  - apply andb_prop in H. destruct H as (F & L). rewrite nltb_B in L by (auto; apply zb0). rewrite (proj2 zb0) in L.
    intros (X & _). cbn [rbox rp K xmin xmax px] in X. rewrite (proj2 zb0) in X.
    revert L. case Rlt_bool_spec; [lra|discriminate].
Qed.

Lemma below_one (x : b64) : (is_finite x && nleb (nabs x) (Zb 1))%bool = true -> bounded 0 x.
Proof.
  intros H. apply andb_prop in H. destruct H as (F & L). split; auto.
  assert (F' : is_finite (nabs x) = true) by (cbn [nabs NumB64]; now rewrite is_finite_Babs).
  rewrite nleb_B in L by (auto; apply zb1). rewrite (proj2 zb1) in L.
  revert L. case Rle_bool_spec; [intros L _|discriminate]. cbn [nabs NumB64] in L. rewrite B2R_Babs in L. exact L.
Qed.

(** The segment on which Cohen-Sutherland runs forever (C45). *)
Theorem C62_example : exists c d,
  (forall fuel, cohen_sutherland_line_box_clip fuel hang_a hang_b hang_box = Err EFuel)
  /\ liang_barsky_line_box_clip hang_a hang_b hang_box = Ok (Some (c, d))
  /\ clips_close (bpow radix2 (-49)) (rp hang_a) (rp hang_b) (rbox hang_box) (Some (rp c, rp d)).
Proof.
  assert (BK : bounded 0 (xmin hang_box) /\ bounded 0 (xmax hang_box) /\ bounded 0 (ymin hang_box) /\ bounded 0 (ymax hang_box)
    /\ bpt 0 hang_a /\ bpt 0 hang_b).
  { repeat split; try (apply below_one; vm_compute; reflexivity); apply below_one; vm_compute; reflexivity. }
  destruct BK as (K1 & K2 & K3 & K4 & HA & HB).
  assert (Hne : rp hang_a <> rp hang_b).
  { intros E. assert (L : nltb (px hang_a) (px hang_b) = true) by (vm_compute; reflexivity).
    destruct HA as ((F1 & _) & _), HB as ((F2 & _) & _). rewrite nltb_B in L by auto.
    pose proof (f_equal (@px R) E) as Ex. cbn [rp px] in Ex. rewrite Ex in L. revert L. case Rlt_bool_spec; [lra|discriminate]. }
  destruct (proj2 (C62_float_liang_barsky 0 hang_a hang_b hang_box ltac:(lia) K1 K2 K3 K4 HA HB) Hne) as (r & Er & Hr).
  assert (HN : match liang_barsky_line_box_clip hang_a hang_b hang_box with Ok (Some _) => true | _ => false end = true)
    by (vm_compute; reflexivity).
  rewrite Er in HN. destruct r as [(c, d)|]; [|discriminate HN]. exists c, d. split; [exact clip_hangs|]. split; auto.
Qed.

Print Assumptions C62_float_liang_barsky.
Print Assumptions C62_ends_inside_refuted.
Print Assumptions C62_example.
