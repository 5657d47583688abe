(** C55: clipping a segment by a box (Cohen-Sutherland) in binary64. *)
From Coq Require Import Reals Lra Psatz.
From Flocq Require Import IEEE754.BinarySingleNaN Core.
From Verif Require Import RBase NumB64 NumRoom FBase MGeometry MAlgorithms FPoint FLocate FBuild FCut FBoxClip SpecGeom PropFloat.
Open Scope R_scope.
Local Notation bounded := NumRoom.bounded.

(** numba_celltree/algorithms/cohen_sutherland.py.  When the segment stays
    2^(k-45) away from the corners of the box, four rounds suffice, and the result
    is right up to 2^(k-46). *)
Theorem C55_float_box_clip k (A B : point b64) (K : box b64) fuel : (-150 <= k <= 249)%Z ->
  bounded k (xmin K) -> bounded k (xmax K) -> bounded k (ymin K) -> bounded k (ymax K) ->
  bpt k A -> bpt k B -> plain_box (rbox K) -> plain_segment (rp A) (rp B) ->
  corners_clear (bpow radix2 (k - 45)) (rp A) (rp B) (rbox K) ->
  rp A <> rp B -> (4 <= fuel)%nat ->
  exists r, cohen_sutherland_line_box_clip fuel A B K = Ok r
    /\ clips_near (bpow radix2 (k - 46)) (rp A) (rp B) (rbox K) (rclip r).
Proof.
  intros Hk K1 K2 K3 K4 HA HB PB PS CL Hne Hf.
  assert (E8 : 8 * eps_of k = bpow radix2 (k - 45)).
  { unfold eps_of, uro. replace (k - 45)%Z with (7 + (-53 + (k + 1)))%Z by lia. rewrite !(bpow_plus _ _ (-53 + _)), (bpow_plus _ (-53)).
    change (bpow radix2 7) with 128. ring. }
  assert (E4 : 4 * eps_of k = bpow radix2 (k - 46)).
  { unfold eps_of, uro. replace (k - 46)%Z with (6 + (-53 + (k + 1)))%Z by lia. rewrite !(bpow_plus _ _ (-53 + _)), (bpow_plus _ (-53)).
    change (bpow radix2 6) with 64. ring. }
  rewrite <- E8 in CL. rewrite <- E4.
  apply (cohen_sutherland_64 k); auto.
Qed.

(** The segment from (-1, 1) to (6, 4) leaves the box [0, 4] x [0, 3] at (0, 10/7)
    and at (11/3, 3), which are not floats. *)
Example C55_float_box_clip_example :
  let A := Pt (Zb (-1)) (Zb 1) in let B := Pt (Zb 6) (Zb 4) in let K := Box (Zb 0) (Zb 4) (Zb 0) (Zb 3) in
  exists c d, cohen_sutherland_line_box_clip 4 A B K = Ok (Some (c, d))
    /\ clips_near (bpow radix2 (-43)) (rp A) (rp B) (rbox K) (Some (rp c, rp d)).
Proof.
  intros A B K.
  assert (BZ : forall n, (Z.abs n <= 8)%Z -> bounded 3 (Zb n)) by (intros; apply bounded_Zb; lia).
  assert (VZ : forall n, (Z.abs n <= 8)%Z -> B2R (Zb n) = IZR n) by (intros; apply Zb_exact; lia).
  assert (EA : rp A = Pt (-1) 1) by (unfold rp, A; cbn [px py]; rewrite !VZ by lia; reflexivity).
  assert (EB : rp B = Pt 6 4) by (unfold rp, B; cbn [px py]; rewrite !VZ by lia; reflexivity).
  assert (EK : rbox K = Box 0 4 0 3) by (unfold rbox, K; cbn [xmin xmax ymin ymax]; rewrite !VZ by lia; reflexivity).
  assert (HS : bpow radix2 (-250) <= 1) by (change 1 with (bpow radix2 0); apply bpow_le; lia).
  destruct (C55_float_box_clip 3 A B K 4) as (r & Er & Hr).
  - lia.
  - apply BZ; lia.
  - apply BZ; lia.
  - apply BZ; lia.
  - apply BZ; lia.
  - split; apply BZ; lia.
  - split; apply BZ; lia.
  - rewrite EK. split; cbn [xmin xmax ymin ymax]; lra.
  - rewrite EA, EB. split; right; cbn [px py]; rewrite Rabs_pos_eq; lra.
  - rewrite EA, EB, EK. change (bpow radix2 (3 - 45)) with (/ IZR (2 ^ 42)). change (2 ^ 42)%Z with 4398046511104%Z.
    intros x v (t & Ht & ->) (Hx & Hy) (C1 & C2). apply Rabs_le_iff in C1, C2.
    cbn [px py at_ xmin xmax ymin ymax] in *. destruct Hx as [Hx|Hx], Hy as [Hy|Hy]; rewrite Hx in C1; rewrite Hy in C2; lra.
  - rewrite EA, EB. intros H. injection H. lra.
  - lia.
  - change (3 - 46)%Z with (-43)%Z in Hr.
    assert (HN : match cohen_sutherland_line_box_clip 4 A B K with Ok (Some _) => true | _ => false end = true)
      by (vm_compute; reflexivity).
    rewrite Er in HN. destruct r as [(c, d)|]; [|discriminate HN]. exists c, d. split; auto.
Qed.

Print Assumptions C55_float_box_clip.
