(** C42: points_in_triangles, the array function. *)
From Coq Require Import Reals Lra Psatz.
From Verif Require Import Base Num NumR MUtils MGeometry SpecGeom SpecPoly RBase PApi PropSmall.
Open Scope R_scope.

Lemma mapres_total {A B} (f : A -> res B) l : (forall x, In x l -> exists y, f x = Ok y) -> exists ys, mapres f l = Ok ys.
Proof.
  induction l as [|x l IH]; intros H; [now exists []|]. destruct (H x (or_introl eq_refl)) as (y & Ey).
  destruct (IH (fun x Hx => H x (or_intror Hx))) as (ys & Eys). exists (y :: ys). cbn [mapres]. rewrite Ey. cbn [bind]. now rewrite Eys.
Qed.

(** the three first corners of the face of the
    point's index *)
Definition triangle_of (vs : list pt) (faces : list (list Z)) (j : Z) (a b c : pt) : Prop :=
  exists i1 i2 i3 rest, (0 <= j)%Z /\ nth_error faces (Z.to_nat j) = Some (i1 :: i2 :: i3 :: rest)
    /\ (0 <= i1)%Z /\ nth_error vs (Z.to_nat i1) = Some a /\ (0 <= i2)%Z /\ nth_error vs (Z.to_nat i2) = Some b
    /\ (0 <= i3)%Z /\ nth_error vs (Z.to_nat i3) = Some c.

Theorem C42_points_in_triangles points face_indices faces vs tol : 0 <= tol -> length face_indices = length points ->
  (forall j, In j face_indices -> exists a b c, triangle_of vs faces j a b c) ->
  exists ds, points_in_triangles points face_indices faces vs tol = Ok ds /\ length ds = length points
    /\ forall i p j a b c d, nth_error points i = Some p -> nth_error face_indices i = Some j -> triangle_of vs faces j a b c ->
         nth_error ds i = Some d -> orient a b c <> 0 ->
         (inside_triangle a b c p -> d = true)
         /\ (d = true -> in_triangle a b c p \/ near_segment (2 * tol) a b p \/ near_segment (2 * tol) b c p \/ near_segment (2 * tol) c a p).
Proof.
  intros Ht HL HT.
  assert (Hat : forall k p j a b c, nth_error points k = Some p -> nth_error face_indices k = Some j -> triangle_of vs faces j a b c ->
    (let* face_index := aget face_indices (Z.of_nat k) in
      let* face := aget faces face_index in
      let* t := as_triangle vs face in
      let '(a, b, c) := t in
      let* p := aget points (Z.of_nat k) in
      Ok (point_in_triangle p a b c tol)) = Ok (point_in_triangle p a b c tol)).
  { intros k p j a b c Ep Ej (i1 & i2 & i3 & rest & H0 & Ef & H1 & Ea & H2 & Eb & H3 & Ec).
    rewrite (aget_pos face_indices (Z.of_nat k) j) by (try lia; now rewrite Nat2Z.id). cbn [bind].
    rewrite (aget_pos _ _ _ H0 Ef). cbn [bind]. unfold as_triangle.
    rewrite (aget_pos (i1 :: i2 :: i3 :: rest) 0 i1), (aget_pos (i1 :: i2 :: i3 :: rest) 1 i2), (aget_pos (i1 :: i2 :: i3 :: rest) 2 i3) by (reflexivity || lia).
    cbn [bind]. rewrite (aget_pos _ _ _ H1 Ea), (aget_pos _ _ _ H2 Eb), (aget_pos _ _ _ H3 Ec). cbn [bind].
    rewrite (aget_pos points (Z.of_nat k) p) by (try lia; now rewrite Nat2Z.id). reflexivity. }
  assert (HE : exists ds, points_in_triangles points face_indices faces vs tol = Ok ds).
  { apply mapres_total. intros i Hi. apply iota_in in Hi.
    destruct (nth_error points (Z.to_nat i)) as [p|] eqn:Ep; [|apply nth_error_None in Ep; lia].
    destruct (nth_error face_indices (Z.to_nat i)) as [j|] eqn:Ej; [|apply nth_error_None in Ej; lia].
    destruct (HT j (nth_error_In _ _ Ej)) as (a & b & c & Hj).
    specialize (Hat _ _ _ _ _ _ Ep Ej Hj). rewrite Z2Nat.id in Hat by lia. eauto. }
  destruct HE as (ds & E). exists ds. split; auto. pose proof E as E'. unfold points_in_triangles in E'.
  split; [rewrite (mapres_length _ _ _ E'); apply iota_length|].
  intros i p j a b c d Ep Ej Hj Ed Hne. apply mapres_ok_inv in E'.
  assert (Hi : (i < length points)%nat) by (apply nth_error_Some; congruence).
  pose proof (Forall2_nth _ _ _ _ _ _ E' (iota_nth _ _ Hi) Ed) as H. cbv beta in H.
  rewrite (Hat _ _ _ _ _ _ Ep Ej Hj) in H. injection H as <-. split.
  - now apply C42_inside_passes.
  - now apply C42_passing_is_near.
Qed.

(** two triangles, a point of each, and the first point tested against the other *)
Example C42_array_example : let vs := [Pt 0 0; Pt 4 0; Pt 0 4; Pt 4 4] : list pt in let faces := [[0; 1; 2]; [1; 3; 2]]%Z in
  exists ds, points_in_triangles [Pt 1 1; Pt 3 3; Pt 1 1] [0; 1; 1]%Z faces vs (1/100) = Ok ds /\ ds = [true; true; false].
Proof.
  intros vs faces.
  assert (T0 : triangle_of vs faces 0 (Pt 0 0) (Pt 4 0) (Pt 0 4)) by (exists 0%Z, 1%Z, 2%Z, []; cbn; repeat split; lia).
  assert (T1 : triangle_of vs faces 1 (Pt 4 0) (Pt 4 4) (Pt 0 4)) by (exists 1%Z, 3%Z, 2%Z, []; cbn; repeat split; lia).
  destruct (C42_points_in_triangles [Pt 1 1; Pt 3 3; Pt 1 1] [0; 1; 1]%Z faces vs (1/100)) as (ds & E & L & H); [lra|reflexivity| |].
  { intros j [<-|[<-|[<-|[]]]]; eauto 6. }
  exists ds. split; auto. destruct ds as [|d0 [|d1 [|d2 [|]]]]; try discriminate L.
  assert (D0 : d0 = true). { apply (H 0%nat _ _ _ _ _ _ eq_refl eq_refl T0 eq_refl); [unfold orient; cbn; lra|]. exists (1/2), (1/4), (1/4). cbn. repeat split; lra. }
  assert (D1 : d1 = true). { apply (H 1%nat _ _ _ _ _ _ eq_refl eq_refl T1 eq_refl); [unfold orient; cbn; lra|]. exists (1/4), (1/2), (1/4). cbn. repeat split; lra. }
  assert (D2 : d2 = false).
  { destruct d2; [exfalso|reflexivity]. destruct (H 2%nat _ _ _ _ _ _ eq_refl eq_refl T1 eq_refl) as (_ & G); [unfold orient; cbn; lra|].
    destruct (G eq_refl) as [G'|G'].
    - destruct G' as (u & v & w & Hu & Hv & Hw & Es & Ex & Ey). cbn in Ex, Ey. lra.
    - assert (F : forall u v, 4 <= px u + py u -> 4 <= px v + py v -> ~ near_segment (2 * (1/100)) u v (Pt 1 1)).
      { intros u v Hu Hv (q & (t & Ht & ->) & Hd). unfold dist2, at_ in Hd. cbn [px py] in Hd.
        assert (4 <= (px u + t * (px v - px u)) + (py u + t * (py v - py u))) by nra.
        set (x := px u + t * (px v - px u)) in *. set (y := py u + t * (py v - py u)) in *.
        assert (0 <= (x - y) * (x - y)) by apply Rle_0_sqr. assert (0 <= (x + y - 2) * (x + y - 2)) by apply Rle_0_sqr.
        assert (2 * 2 <= (x + y - 2) * (x + y - 2)) by (apply Rmult_le_compat; lra). lra. }
      destruct G' as [G'|[G'|G']]; revert G'; apply F; cbn; lra. }
  now rewrite D0, D1, D2.
Qed.

Print Assumptions C42_points_in_triangles.
