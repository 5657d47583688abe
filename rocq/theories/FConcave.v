(** locate_points in binary64 for faces that need not be convex. *)
From Coq Require Import Reals Lra Psatz Permutation.
From Flocq Require Import IEEE754.BinarySingleNaN Core.
From Verif Require Import RBase NumB64 NumSub NumRoom FBase FBuild MUtils MGeometry MCreation MQuery MCelltree SpecTree SpecQuery SpecApi PMesh PInit PBuild PPoints PApi
  SpecPoly SpecMesh SpecHang SpecConcave GTriangle GConvex GHull GRay GArea GFaces GHang GConcave FMesh FPoint FLocate.
Open Scope R_scope.

Section Pip.
  Variables (k : Z) (p : point b64) (tol : b64).
  Hypotheses (Hk : (-150 <= k <= 250)%Z) (Hp : bpt k p) (Bt : bounded k tol) (Htol : 0 <= B2R tol).
  Variables (poly : list (point b64)) (Ps : list (list pt)).
  Hypotheses (HP : pieces (map rp poly) Ps) (Hb : Forall (bpt k) poly)
    (Hs : forall u v, In (u, v) (poly_edges (map rp poly)) -> side_ok u v).

  Lemma pieces_poly : poly <> [].
  Proof. intros E. apply (cut_nonempty _ _ (proj1 HP)). now rewrite E. Qed.

  Lemma pieces_total : exists b, point_in_polygon_or_on_edge p poly tol = Ok b.
  Proof. apply pip_total; [exact pieces_poly|]. eapply Forall_impl; [|exact Hb]. intros q ((A & _) & (B & _)). now split. Qed.

  Lemma outline_near0 r : 0 <= r -> on_outline (map rp poly) (rp p) -> near_boundary r (map rp poly) (rp p).
  Proof.
    intros Hr (u & v & He & Ho). exists u, v. split; auto. exists (rp p). split; auto.
    unfold dist2. rewrite !Rminus_eq_0. assert (0 <= r * r) by (apply Rmult_le_pos; auto). lra.
  Qed.

  Lemma pip_float_pieces_sound : point_in_polygon_or_on_edge p poly tol = Ok true ->
    region Ps (rp p) \/ near_boundary (2 * B2R tol + bpow radix2 (k - 48)) (map rp poly) (rp p).
  Proof.
    intros E. destruct (pip_agree k Hk p tol Hp Bt Htol poly true pieces_poly Hb Hs E) as [(u & v & He & H)|[H|(_ & H)]]; auto.
    - right. exists u, v. split; auto. eapply near_larger; [|exact H].
      pose proof (bpow_ge_0 radix2 (k - 49)). assert (bpow radix2 (k - 49) <= bpow radix2 (k - 48)) by (apply bpow_le; lia). lra.
    - left. symmetry in H. now apply (pieces_sound _ _ _ HP).
  Qed.

  Lemma pip_float_pieces_complete : region Ps (rp p) -> ~ near_boundary (bpow radix2 (k - 49)) (map rp poly) (rp p) ->
    point_in_polygon_or_on_edge p poly tol = Ok true.
  Proof.
    intros Hr Hf. destruct pieces_total as (b & E). rewrite E. f_equal.
    destruct (pip_agree k Hk p tol Hp Bt Htol poly b pieces_poly Hb Hs E) as [H|[H|(H & _)]]; [contradiction| |exact H].
    rewrite H. apply (pieces_complete _ _ _ HP Hr). intros Ho. apply Hf. apply outline_near0; auto. apply bpow_ge_0.
  Qed.

  Lemma pip_float_pieces_near b : bpow radix2 (k - 47) <= B2R tol -> (forall w, In w (map rp poly) -> far k (rp p) w) ->
    near_boundary (bpow radix2 (k - 49)) (map rp poly) (rp p) -> point_in_polygon_or_on_edge p poly tol = Ok b -> b = true.
  Proof.
    intros Ht Hf HN E. unfold point_in_polygon_or_on_edge in E. destruct (exists_last pieces_poly) as (l & v & El).
    rewrite El in *. rewrite aget_last in E. cbn [bind] in E.
    assert (EL : last (map rp (l ++ [v])) (Pt 0 0) = rp v) by (rewrite map_app; apply last_last).
    unfold near_boundary, poly_edges in *. rewrite EL in *.
    assert (Iv : In v (l ++ [v])) by (apply in_or_app; right; now left).
    assert (Bv : bpt k v) by (rewrite Forall_forall in Hb; now apply Hb).
    eapply (loop_near k Hk p tol Hp Bt Ht (l ++ [v]) v false b Bv Hb Hs); auto.
    - apply Hf. now apply in_map.
    - apply Forall_forall. intros w Hw. apply Hf. now apply in_map.
  Qed.

  Lemma pip_float_pieces_region : bpow radix2 (k - 47) <= B2R tol -> region Ps (rp p) ->
    (forall w, In w (map rp poly) -> far k (rp p) w) -> point_in_polygon_or_on_edge p poly tol = Ok true.
  Proof.
    intros Ht Hr Hf. destruct pieces_total as (b & E). rewrite E. f_equal.
    destruct (pip_agree k Hk p tol Hp Bt Htol poly b pieces_poly Hb Hs E) as [H|[H|(H & _)]]; [|destruct b; auto; exfalso|exact H].
    - now apply (pip_float_pieces_near b).
    - assert (Ho : ~ on_outline (map rp poly) (rp p)).
      { intros Ho. discriminate (pip_float_pieces_near false Ht Hf (outline_near0 _ (bpow_ge_0 _ _) Ho) E). }
      rewrite (pieces_complete _ _ _ HP Hr Ho) in H. discriminate.
  Qed.
End Pip.

Lemma pieces_either (Q Q' : list pt) Ps : Q' = Q \/ Q' = rev Q -> pieces Q Ps ->
  exists Ps', pieces Q' Ps' /\ (forall p, region Ps' p <-> region Ps p).
Proof.
  intros [->| ->] H; [exists Ps; split; auto; tauto|].
  exists (map (@rev pt) Ps). split; [now apply pieces_rev|]. intros p. apply region_rev.
Qed.

(** ** locate_points *)
Theorem float_points_concave k vs faces fill cpl (t : tree2d (T:=b64)) g points tolerance tol js :
  (-150 <= k <= 250)%Z -> mesh_ok vs faces fill -> built vs faces fill cpl t ->
  bounded_vertices k vs -> simple_mesh (map rp vs) faces fill -> sides_ok (map rp vs) faces fill ->
  get_tolerance t tolerance = Ok tol -> bounded k tol -> 0 <= B2R tol ->
  CellTree2d_locate_points g t points tolerance = Ok js ->
  forall i p j, nth_error points i = Some p -> nth_error js i = Some j -> bpt k p ->
    (j <> (-1)%Z -> exists poly, face_poly (map rp vs) faces fill j poly
       /\ forall Ps, pieces poly Ps -> region Ps (rp p) \/ near_boundary (2 * B2R tol + bpow radix2 (k - 48)) poly (rp p))
    /\ (forall j' poly Ps, face_poly (map rp vs) faces fill j' poly -> pieces poly Ps -> region Ps (rp p) ->
          ~ near_boundary (bpow radix2 (k - 49)) poly (rp p) -> j <> (-1)%Z)
    /\ (bpow radix2 (k - 47) <= B2R tol ->
        forall j' poly Ps, face_poly (map rp vs) faces fill j' poly -> pieces poly Ps -> region Ps (rp p) ->
          (forall w, In w poly -> bpow radix2 (k - 47) * bpow radix2 (k - 47) < dist2 (rp p) w) -> j <> (-1)%Z).
Proof.
  intros Hk Hm Hb Hbd Hc Hs Et Bt Pt0 Ej i p j Ep Eji Bp.
  destruct (points_result _ _ _ _ t tolerance Hb) as (tol' & Et' & H). rewrite Et in Et'. apply Ok_inj in Et'. subst tol'.
  destruct (H points) as (js' & Hj & HF). specialize (Hj g). rewrite Ej in Hj. apply Ok_inj in Hj. subst js'.
  pose proof (Forall2_nth _ _ _ _ _ _ HF Ep Eji) as A. clear H HF.
  assert (C : forall j' poly Ps, face_poly (map rp vs) faces fill j' poly -> pieces poly Ps -> region Ps (rp p) ->
              (forall poly' Ps', pieces (map rp poly') Ps' -> region Ps' (rp p) -> Forall (bpt k) poly' ->
                 (map rp poly' = poly \/ map rp poly' = rev poly) ->
                 (forall u v, In (u, v) (poly_edges (map rp poly')) -> side_ok u v) ->
                 point_in_polygon_or_on_edge p poly' tol = Ok true) -> j <> (-1)%Z).
  { intros j' poly Ps Hpoly HP Hr Hpip ->. destruct A as [(f' & poly' & H0 & _)|(_ & Hn)]; [lia|].
    destruct (stored_float k _ _ _ _ _ _ _ Hb Hbd Hpoly) as (f2 & poly2 & b & H0 & En2 & Eb & Hp2 & Hb2 & Ho & HT).
    destruct (pieces_either _ _ _ Ho HP) as (Ps' & HP' & HR). pose proof (proj2 (HR _) Hr) as Hr'.
    apply (Hn j').
    - exists f2, poly2. split; auto. split; auto. rewrite (bt_vertices _ _ _ _ _ Hb). split; auto.
      apply (Hpip poly2 Ps'); auto. eapply sides_either; eauto.
    - exists b. split; auto. split; auto. destruct (tight_bounded k poly2 b Hb2 HT) as (B1 & B2 & B3 & B4).
      apply (closed_box_B k); auto. eapply tight_box_hull; [eapply tight_box_B; eauto|].
      apply (pieces_hull _ Ps'); auto. apply HP'. }
  split; [|split].
  - intros Hj1. destruct A as [(f' & poly' & H0 & En & Hp' & Hpass)|(-> & _)]; [|congruence].
    destruct (stored_back_float _ _ _ _ _ _ _ Hm Hb H0 En) as (poly & Hpoly).
    destruct (stored_float k _ _ _ _ _ _ _ Hb Hbd Hpoly) as (f2 & poly2 & b & _ & En2 & _ & Hp2 & Hb2 & Ho & _).
    rewrite En in En2. inversion En2; subst f2. rewrite (bt_vertices _ _ _ _ _ Hb) in Hp'.
    assert (poly2 = poly').
    { clear - Hp2 Hp'. unfold poly_of in *. revert poly2 Hp2. induction Hp' as [|z q l l' (_ & E) _ IH]; intros poly2 H; inversion H; subst; auto.
      destruct H2 as (_ & E2). f_equal; [congruence|auto]. }
    subst poly2. exists poly. split; auto. intros Ps HP. destruct (pieces_either _ _ _ Ho HP) as (Ps' & HP' & HR).
    destruct (pip_float_pieces_sound k p tol Hk Bp Bt Pt0 poly' Ps') as [Hi|Hn]; auto.
    + eapply sides_either; eauto.
    + left. now apply HR.
    + right. now apply (near_either _ poly (map rp poly')).
  - intros j' poly Ps Hpoly HP Hr Hf. apply (C j' poly Ps Hpoly HP Hr).
    intros poly' Ps' HP' Hr' Hb' Ho Hs'. apply (pip_float_pieces_complete k p tol Hk Bp Bt Pt0 poly' Ps'); auto.
    intros Hn. apply Hf. now apply (near_either _ poly (map rp poly')).
  - intros Ht j' poly Ps Hpoly HP Hr Hf. apply (C j' poly Ps Hpoly HP Hr).
    intros poly' Ps' HP' Hr' Hb' Ho Hs'. apply (pip_float_pieces_region k p tol Hk Bp Bt Pt0 poly' Ps'); auto.
    intros w Hw. apply Hf. destruct Ho as [Ho|Ho]; rewrite Ho in Hw; auto. now apply in_rev.
Qed.
