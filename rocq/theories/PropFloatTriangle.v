(** C73: points in triangles in binary64. *)
From Coq Require Import Reals Lra Psatz.
From Flocq Require Import IEEE754.BinarySingleNaN Core.
From Verif Require Import RBase NumB64 NumRoom FBase MUtils MGeometry FPoint FLines FMesh SpecGeom SpecPoly PApi PropTriangle FTriIn.
Open Scope R_scope.
Local Notation bounded := NumRoom.bounded.

(** the first three corners of face j *)
Definition corners_of {A} (vs : list A) (faces : list (list Z)) (j : Z) (a b c : A) : Prop :=
  exists i1 i2 i3 rest, (0 <= j)%Z /\ nth_error faces (Z.to_nat j) = Some (i1 :: i2 :: i3 :: rest)
    /\ (0 <= i1)%Z /\ nth_error vs (Z.to_nat i1) = Some a /\ (0 <= i2)%Z /\ nth_error vs (Z.to_nat i2) = Some b
    /\ (0 <= i3)%Z /\ nth_error vs (Z.to_nat i3) = Some c.

(** the array function tests each point with the triangle of its index *)
Lemma in_triangles_each {T} {N : Num T} (points : list (point T)) face_indices faces vs tol : length face_indices = length points ->
  (forall j, In j face_indices -> exists a b c, corners_of vs faces j a b c) ->
  exists ds, points_in_triangles points face_indices faces vs tol = Ok ds /\ length ds = length points
    /\ forall i p j a b c d, nth_error points i = Some p -> nth_error face_indices i = Some j -> corners_of vs faces j a b c ->
         nth_error ds i = Some d -> d = point_in_triangle p a b c tol.
Proof.
  intros HL HT.
  assert (Hat : forall k p j a b c, nth_error points k = Some p -> nth_error face_indices k = Some j -> corners_of vs faces j a b c ->
    (let* face_index := aget face_indices (Z.of_nat k) in
      let* face := aget faces face_index in
      let* t := as_triangle vs face in
      let '(a, b, c) := t in
      let* p := aget points (Z.of_nat k) in
      Ok (point_in_triangle p a b c tol)) = Ok (point_in_triangle p a b c tol)).
  { intros k p j a b c Ep Ej (i1 & i2 & i3 & rest & H0 & Ef & H1 & Ea & H2 & Eb & H3 & Ec).
    rewrite (aget_pos face_indices (Z.of_nat k) j) by (try lia; now rewrite Nat2Z.id). cbn [bind].
    rewrite (aget_pos _ _ _ H0 Ef). cbn [bind]. unfold as_triangle.
    rewrite (aget_pos (i1 :: i2 :: i3 :: rest) 0 i1), (aget_pos (i1 :: i2 :: i3 :: rest) 1 i2), (aget_pos (i1 :: i2 :: i3 :: rest) 2 i3) by (reflexivity || lia).
    cbn [bind]. rewrite (aget_pos _ _ _ H1 Ea), (aget_pos _ _ _ H2 Eb), (aget_pos _ _ _ H3 Ec). cbn [bind].
    rewrite (aget_pos points (Z.of_nat k) p) by (try lia; now rewrite Nat2Z.id). reflexivity. }
  assert (HE : exists ds, points_in_triangles points face_indices faces vs tol = Ok ds).
  { apply mapres_total. intros i Hi. apply iota_in in Hi.
    destruct (nth_error points (Z.to_nat i)) as [p|] eqn:Ep; [|apply nth_error_None in Ep; lia].
    destruct (nth_error face_indices (Z.to_nat i)) as [j|] eqn:Ej; [|apply nth_error_None in Ej; lia].
    destruct (HT j (nth_error_In _ _ Ej)) as (a & b & c & Hj).
    specialize (Hat _ _ _ _ _ _ Ep Ej Hj). rewrite Z2Nat.id in Hat by lia. eauto. }
  destruct HE as (ds & E). exists ds. split; auto. pose proof E as E'. unfold points_in_triangles in E'.
  split; [rewrite (mapres_length _ _ _ E'); apply iota_length|].
  intros i p j a b c d Ep Ej Hj Ed. apply mapres_ok_inv in E'.
  assert (Hi : (i < length points)%nat) by (apply nth_error_Some; congruence).
  pose proof (Forall2_nth _ _ _ _ _ _ E' (iota_nth _ _ Hi) Ed) as H. cbv beta in H.
  rewrite (Hat _ _ _ _ _ _ Ep Ej Hj) in H. now injection H.
Qed.

(** geometry_utils.py points_in_triangles in binary64, coordinates up to 2^k, either
    direction of the corners: a point of the triangle passes if it is not within
    2^(k-49) of a side; with a tolerance of at least 2^(k-47) it passes everywhere but
    within 2^(k-47) of the corners; a point that passes is, up to 2^(k-49), on the inner
    side of all three lines, or within twice the tolerance plus 2^(k-48) of a side. *)
Theorem C73_points_in_triangles k points face_indices faces (vs : list (point b64)) tol : (-150 <= k <= 250)%Z ->
  bounded_vertices k vs -> Forall (bpt k) points -> bounded k tol -> 0 <= B2R tol -> length face_indices = length points ->
  (forall j, In j face_indices -> exists a b c, corners_of vs faces j a b c) ->
  exists ds, points_in_triangles points face_indices faces vs tol = Ok ds /\ length ds = length points
    /\ forall i p j a b c d, nth_error points i = Some p -> nth_error face_indices i = Some j -> corners_of vs faces j a b c ->
         nth_error ds i = Some d ->
         side_ok (rp a) (rp b) -> side_ok (rp b) (rp c) -> side_ok (rp c) (rp a) -> orient (rp a) (rp b) (rp c) <> 0 ->
         (in_triangle (rp a) (rp b) (rp c) (rp p) -> ~ near_sides (bpow radix2 (k - 49)) (rp a) (rp b) (rp c) (rp p) -> d = true)
         /\ (in_triangle (rp a) (rp b) (rp c) (rp p) -> bpow radix2 (k - 47) <= B2R tol ->
             (forall q, In q [a; b; c] -> bpow radix2 (k - 47) * bpow radix2 (k - 47) < dist2 (rp p) (rp q)) -> d = true)
         /\ (bpow radix2 (k - 49) * (len1 (rp a) (rp b) + len1 (rp b) (rp c) + len1 (rp c) (rp a)) < Rabs (orient (rp a) (rp b) (rp c)) ->
             d = true ->
             (exists s, (s = 1 \/ s = -1) /\ 0 < s * orient (rp a) (rp b) (rp c)
                /\ near_half (bpow radix2 (k - 49)) s (rp a) (rp b) (rp p) /\ near_half (bpow radix2 (k - 49)) s (rp b) (rp c) (rp p)
                /\ near_half (bpow radix2 (k - 49)) s (rp c) (rp a) (rp p))
             \/ near_sides (2 * B2R tol + bpow radix2 (k - 48)) (rp a) (rp b) (rp c) (rp p)).
Proof.
  intros Hk Hv Hp Bt Ht HL HT. destruct (in_triangles_each points face_indices faces vs tol HL HT) as (ds & E & L & H).
  exists ds. split; auto. split; auto. intros i p j a b c d Ep Ej Hj Ed S1 S2 S3 Hn.
  rewrite (H _ _ _ _ _ _ _ Ep Ej Hj Ed). clear H E.
  assert (Bp : bpt k p) by (rewrite Forall_forall in Hp; apply Hp, (nth_error_In _ _ Ep)).
  destruct Hj as (i1 & i2 & i3 & rest & _ & _ & _ & Ea & _ & Eb & _ & Ec).
  unfold bounded_vertices in Hv. rewrite Forall_forall in Hv.
  assert (Ba : bpt k a) by (apply Hv, (nth_error_In _ _ Ea)). assert (Bb : bpt k b) by (apply Hv, (nth_error_In _ _ Eb)).
  assert (Bc : bpt k c) by (apply Hv, (nth_error_In _ _ Ec)).
  split; [|split].
  - intros Hi Hf. now apply (tri_inside k Hk).
  - intros Hi Hb Hd. now apply (tri_closed k Hk).
  - intros HD Hd. now apply (tri_sound k Hk).
Qed.

(** ** Without a margin the answers are wrong on both sides of a shared side: the point
    (2^30 + 1, 2^30) is strictly inside the first triangle and outside the second; the
    test with tolerance 0 finds it in the second and not in the first *)
Definition split_vs : list (point b64) :=
  map (fun q => Pt (Zb (fst q)) (Zb (snd q))) [(0, 0); (2 ^ 31, 2 ^ 31 - 2); (0, 2 ^ 31); (2 ^ 31, 0)]%Z.
Definition split_faces : list (list Z) := [[0; 1; 2]; [0; 1; 3]]%Z.
Definition split_p : point b64 := Pt (Zb (2 ^ 30 + 1)) (Zb (2 ^ 30)).

Theorem C73_no_margin_refuted :
  exists (vs : list (point b64)) faces p a b c d, corners_of vs faces 0 a b c /\ corners_of vs faces 1 a b d
    /\ bounded_vertices 31 vs /\ bpt 31 p
    /\ inside_triangle (rp a) (rp b) (rp c) (rp p) /\ ~ in_triangle (rp a) (rp b) (rp d) (rp p)
    /\ points_in_triangles [p; p] [0; 1]%Z faces vs (Zb 0) = Ok [false; true].
Proof.
  assert (Z : forall n, (Z.abs n <= 2 ^ 31)%Z -> is_finite (Zb n) = true /\ B2R (Zb n) = IZR n) by (intros; apply Zb_exact; lia).
  assert (ZB : forall n, (Z.abs n <= 2 ^ 31)%Z -> bounded 31 (Zb n)).
  { intros n Hn. destruct (Z n Hn) as (F & E). split; auto. rewrite E, <- abs_IZR. change (bpow radix2 31) with (IZR (2 ^ 31)). now apply IZR_le. }
  assert (RP : forall x y, (Z.abs x <= 2 ^ 31)%Z -> (Z.abs y <= 2 ^ 31)%Z -> rp (Pt (Zb x) (Zb y)) = Pt (IZR x) (IZR y)).
  { intros x y Hx Hy. unfold rp. cbn [px py]. now rewrite (proj2 (Z x Hx)), (proj2 (Z y Hy)). }
  exists split_vs, split_faces, split_p. unfold split_p.
  exists (Pt (Zb 0) (Zb 0)), (Pt (Zb (2 ^ 31)) (Zb (2 ^ 31 - 2))), (Pt (Zb 0) (Zb (2 ^ 31))), (Pt (Zb (2 ^ 31)) (Zb 0)).
  split; [exists 0%Z, 1%Z, 2%Z, []; repeat split; auto; lia|]. split; [exists 0%Z, 1%Z, 3%Z, []; repeat split; auto; lia|].
  split; [unfold split_vs; cbn [map fst snd]; repeat (apply Forall_cons; [split; apply ZB; cbn; lia|]); apply Forall_nil|]. split; [split; apply ZB; cbn; lia|].
  rewrite !RP by (cbn; lia).
  change (IZR (2 ^ 31 - 2)) with 2147483646. change (IZR (2 ^ 31)) with 2147483648. change (IZR (2 ^ 30 + 1)) with 1073741825. change (IZR (2 ^ 30)) with 1073741824.
  split; [|split].
  - exists (1 - 1073741825 / 2147483648 - 1 / 2305843009213693952), (1073741825 / 2147483648), (1 / 2305843009213693952). cbn [px py]. repeat split; lra.
  - intros (u & v & w & Hu & Hv & Hw & E & Ex & Ey). cbn [px py] in *. lra.
  - vm_compute. reflexivity.
Qed.

(** ** A case of the hypotheses: the triangle (0,0) (4,0) (0,4), both ways round, with a
    point inside, one on the long side and one outside *)
Definition ex_vs : list (point b64) := map (fun q => Pt (Zb (fst q)) (Zb (snd q))) [(0, 0); (4, 0); (0, 4)]%Z.
Definition ex_ps : list (point b64) := map (fun q => Pt (Zb (fst q)) (Zb (snd q))) [(1, 1); (2, 2); (3, 3); (1, 1)]%Z.
Definition ex_tol : b64 := B754_finite (prec:=53) (emax:=1024) false 4503599627370496 (-72) eq_refl.

Lemma C73_example : exists ds, points_in_triangles ex_ps [0; 0; 0; 1]%Z [[0; 1; 2]; [0; 2; 1]]%Z ex_vs ex_tol = Ok ds /\ ds = [true; true; false; true].
Proof.
  assert (Z : forall n, (Z.abs n <= 4)%Z -> is_finite (Zb n) = true /\ B2R (Zb n) = IZR n) by (intros; apply Zb_exact; lia).
  assert (ZB : forall n, (Z.abs n <= 4)%Z -> bounded 2 (Zb n)).
  { intros n Hn. destruct (Z n Hn) as (F & E). split; auto. rewrite E, <- abs_IZR. change (bpow radix2 2) with (IZR 4). now apply IZR_le. }
  assert (RP : forall x y, (Z.abs x <= 4)%Z -> (Z.abs y <= 4)%Z -> rp (Pt (Zb x) (Zb y)) = Pt (IZR x) (IZR y)).
  { intros x y Hx Hy. unfold rp. cbn [px py]. now rewrite (proj2 (Z x Hx)), (proj2 (Z y Hy)). }
  assert (ET : is_finite ex_tol = true /\ B2R ex_tol = bpow radix2 (-20)).
  { split; [reflexivity|]. unfold ex_tol, B2R, F2R. cbn -[IZR]. lra. }
  destruct ET as (FT & ET).
  set (fs := [[0; 1; 2]; [0; 2; 1]]%Z).
  set (a := Pt (Zb 0) (Zb 0) : point b64). set (b := Pt (Zb 4) (Zb 0) : point b64). set (c := Pt (Zb 0) (Zb 4) : point b64).
  assert (C0 : corners_of ex_vs fs 0 a b c) by (exists 0%Z, 1%Z, 2%Z, []; repeat split; auto; lia).
  assert (C1 : corners_of ex_vs fs 1 a c b) by (exists 0%Z, 2%Z, 1%Z, []; repeat split; auto; lia).
  assert (P250 : bpow radix2 (-250) <= 1) by (change 1 with (bpow radix2 0); apply bpow_le; lia).
  assert (P47 : bpow radix2 (2 - 47) <= bpow radix2 (-20)) by (apply bpow_le; lia).
  assert (P49 : bpow radix2 (2 - 49) <= bpow radix2 (-20)) by (apply bpow_le; lia).
  assert (P48 : bpow radix2 (2 - 48) <= bpow radix2 (-20)) by (apply bpow_le; lia).
  assert (P20 : bpow radix2 (-20) <= 1 / 1000000) by (cbn; lra).
  pose proof (bpow_gt_0 radix2 (2 - 47)) as Q47. pose proof (bpow_gt_0 radix2 (2 - 49)) as Q49. pose proof (bpow_gt_0 radix2 (2 - 48)) as Q48.
  pose proof (bpow_gt_0 radix2 (-20)) as Q20.
  destruct (C73_points_in_triangles 2 ex_ps [0; 0; 0; 1]%Z fs ex_vs ex_tol) as (ds & E & L & H).
  { lia. } { unfold ex_vs; cbn [map fst snd]; repeat (apply Forall_cons; [split; apply ZB; cbn; lia|]); apply Forall_nil. }
  { unfold ex_ps; cbn [map fst snd]; repeat (apply Forall_cons; [split; apply ZB; cbn; lia|]); apply Forall_nil. }
  { split; auto. rewrite ET, Rabs_pos_eq by lra. apply bpow_le. lia. } { rewrite ET. lra. } { reflexivity. }
  { intros j [<-|[<-|[<-|[<-|[]]]]]; eauto. }
  exists ds. split; auto. destruct ds as [|d0 [|d1 [|d2 [|d3 [|]]]]]; try discriminate L.
  assert (H0 := H 0%nat _ _ _ _ _ _ eq_refl eq_refl C0 eq_refl). assert (H1 := H 1%nat _ _ _ _ _ _ eq_refl eq_refl C0 eq_refl).
  assert (H2 := H 2%nat _ _ _ _ _ _ eq_refl eq_refl C0 eq_refl). assert (H3 := H 3%nat _ _ _ _ _ _ eq_refl eq_refl C1 eq_refl). clear H E L.
  unfold a, b, c in H0, H1, H2, H3. cbn [fst snd] in *. rewrite !RP in H0, H1, H2, H3 by lia. rewrite ET in H0, H1, H2, H3.
  assert (S : forall x y x' y', x <> x' -> bpow radix2 (-250) <= Rabs (x' - x) -> y = y' \/ bpow radix2 (-250) <= Rabs (y' - y) -> side_ok (Pt x y) (Pt x' y')).
  { intros x y x' y' _ Hx Hy. unfold side_ok. cbn [px py]. destruct Hy as [-> |Hy]; auto. }
  assert (S1 : side_ok (Pt 0 0) (Pt 4 0)) by (right; cbn [px py]; split; auto; rewrite Rabs_pos_eq; lra).
  assert (S2 : side_ok (Pt 4 0) (Pt 0 4)) by (left; cbn [px py]; rewrite Rabs_pos_eq; lra).
  assert (S3 : side_ok (Pt 0 4) (Pt 0 0)) by (left; cbn [px py]; rewrite Rabs_left; lra).
  assert (S1' : side_ok (Pt 4 0) (Pt 0 0)) by (right; cbn [px py]; split; auto; rewrite Rabs_left; lra).
  assert (S2' : side_ok (Pt 0 4) (Pt 4 0)) by (left; cbn [px py]; rewrite Rabs_left; lra).
  assert (S3' : side_ok (Pt 0 0) (Pt 0 4)) by (left; cbn [px py]; rewrite Rabs_pos_eq; lra).
  destruct (H0 S1 S2 S3) as (G0 & _); [unfold orient; cbn [px py]; lra|]. destruct (H1 S1 S2 S3) as (_ & G1 & _); [unfold orient; cbn [px py]; lra|].
  destruct (H2 S1 S2 S3) as (_ & _ & G2); [unfold orient; cbn [px py]; lra|]. destruct (H3 S3' S2' S1') as (G3 & _); [unfold orient; cbn [px py]; lra|].
  clear H0 H1 H2 H3.
  (* no side is near *)
  assert (far : forall r u v p x y e, 0 <= r <= 1 / 100 -> 1 / 10 <= x * px u + y * py u - e -> 1 / 10 <= x * px v + y * py v - e ->
    x * px p + y * py p - e = 0 -> x * x + y * y <= 2 -> ~ near_segment r u v p).
  { intros r u v p x y e Hr Hu Hv Hp Hxy (q & (t & Ht & ->) & Hd). unfold dist2, at_ in Hd. cbn [px py] in Hd.
    set (qx := px u + t * (px v - px u)) in *. set (qy := py u + t * (py v - py u)) in *.
    assert (Hq : 1 / 10 <= x * qx + y * qy - e).
    { replace (x * qx + y * qy - e) with ((1 - t) * (x * px u + y * py u - e) + t * (x * px v + y * py v - e)) by (unfold qx, qy; ring).
      assert ((1 - t) * (1 / 10) <= (1 - t) * (x * px u + y * py u - e)) by (apply Rmult_le_compat_l; lra).
      assert (t * (1 / 10) <= t * (x * px v + y * py v - e)) by (apply Rmult_le_compat_l; lra). lra. }
    set (ex := px p - qx) in *. set (ey := py p - qy) in *.
    assert (Z1 : 1 / 10 <= - (x * ex + y * ey)) by (unfold ex, ey; lra).
    assert (Z2 : (x * ex + y * ey) * (x * ex + y * ey) <= (x * x + y * y) * (ex * ex + ey * ey)) by (pose proof (Rle_0_sqr (x * ey - y * ex)) as W; unfold Rsqr in W; lra).
    assert (Z3 : 1 / 10 * (1 / 10) <= (x * ex + y * ey) * (x * ex + y * ey)) by (rewrite <- (Rmult_opp_opp (x * ex + y * ey)); apply Rmult_le_compat; lra).
    assert (Z4 : r * r <= 1 / 100 * (1 / 100)) by (apply Rmult_le_compat; lra).
    assert (Z5 : 0 <= ex * ex + ey * ey) by (pose proof (Rle_0_sqr ex); pose proof (Rle_0_sqr ey); unfold Rsqr in *; lra).
    assert (Z6 : (x * x + y * y) * (ex * ex + ey * ey) <= 2 * (ex * ex + ey * ey)) by (apply Rmult_le_compat_r; lra). lra. }
  assert (D0 : d0 = true).
  { apply G0; [exists (1/2), (1/4), (1/4); cbn [px py]; repeat split; lra|]. intros [N|[N|N]]; revert N.
    - apply (far _ _ _ _ 0 (-1) (-1)); cbn [px py]; lra. - apply (far _ _ _ _ 1 1 2); cbn [px py]; lra. - apply (far _ _ _ _ (-1) 0 (-1)); cbn [px py]; lra. }
  assert (D3 : d3 = true).
  { apply G3; [exists (1/2), (1/4), (1/4); cbn [px py]; repeat split; lra|]. intros [N|[N|N]]; revert N.
    - apply (far _ _ _ _ (-1) 0 (-1)); cbn [px py]; lra. - apply (far _ _ _ _ 1 1 2); cbn [px py]; lra. - apply (far _ _ _ _ 0 (-1) (-1)); cbn [px py]; lra. }
  assert (D1 : d1 = true).
  { apply G1; [exists 0, (1/2), (1/2); cbn [px py]; repeat split; lra|auto|]. 
    assert (bpow radix2 (2 - 47) * bpow radix2 (2 - 47) <= 1 * 1) by (apply Rmult_le_compat; lra).
    intros q [<-|[<-|[<-|[]]]]; rewrite RP by lia; unfold dist2; cbn [px py]; lra. }
  assert (D2 : d2 = false).
  { destruct d2; auto. exfalso. destruct G2 as [(s & Hs & Ps & _ & (q & Hq & Hd) & _)|N]; auto.
    - unfold orient, len1. cbn [px py]. rewrite !(Rabs_pos_eq (_ - _)) by lra. rewrite (Rabs_left (0 - 4)) by lra. rewrite Rabs_pos_eq by lra. lra.
    - unfold orient in Ps, Hq. cbn [px py] in Ps, Hq. assert (s = 1) as -> by lra. unfold dist2 in Hd. cbn [px py] in Hd.
      assert (bpow radix2 (2 - 49) * bpow radix2 (2 - 49) <= 1 / 100 * (1 / 100)) by (apply Rmult_le_compat; lra).
      assert (0 <= (px q - py q) * (px q - py q)) by apply Rle_0_sqr.
      assert (2 * 2 <= (6 - (px q + py q)) * (6 - (px q + py q))) by (apply Rmult_le_compat; lra). lra.
    - destruct N as [N|[N|N]]; revert N; [apply (far _ _ _ _ 0 (-1) (-3))|apply (far _ _ _ _ (-1) (-1) (-6))|apply (far _ _ _ _ (-1) 0 (-3))]; cbn [px py]; lra. }
  now rewrite D0, D1, D2, D3.
Qed.

Print Assumptions C73_points_in_triangles.
Print Assumptions C73_no_margin_refuted.
Print Assumptions C73_example.
