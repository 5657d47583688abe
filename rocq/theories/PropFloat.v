(** Property theorems about binary64: construction (C04). *)
From Coq Require Import Reals Lra Psatz.
From Flocq Require Import IEEE754.BinarySingleNaN Core.
From Verif Require Import Base Num NumR NumB64 NumRoom FBase MUtils MGeometry MCreation MCelltree
  SpecTree SpecQuery SpecApi PPoints FBuild FMesh Examples.
Open Scope R_scope.

(** ** C04: construction succeeds in binary64 with a margin *)

(** Coordinates up to 2^k in magnitude and every face at least 2^(k-48) wide
    and high, i.e. 16 to 32 units in the last place of the largest coordinate *)
Theorem C04_float_mesh_succeeds k g (vs : list (point b64)) faces fill nb cpl :
  mesh_ok vs faces fill -> (-900 <= k <= 1000)%Z -> bounded_vertices k vs ->
  (2 <= nb <= 2 ^ 52)%Z -> (1 <= cpl)%Z -> (zlen faces <= 2 ^ 53)%Z ->
  Forall (fun f => forall poly, poly_of vs f poly -> sized (bpow radix2 (k - 48)) poly) (map (with_fill fill) faces) ->
  exists t, CellTree2d_init g vs faces fill nb cpl = Ok t.
Proof. exact (float_mesh_succeeds k g vs faces fill nb cpl). Qed.

(** Networks: all coordinates below 1/8, or an extent of at least 2^(k-7), or
    no edge nearly horizontal or vertical *)
Theorem C04_float_network_succeeds k g (vs : list (point b64)) edges nb cpl :
  network_ok vs edges -> (-40 <= k <= 990)%Z -> bounded_vertices k vs ->
  (2 <= nb <= 2 ^ 52)%Z -> (1 <= cpl)%Z -> (zlen edges <= 2 ^ 53)%Z ->
  (k <= -3)%Z \/ spread (bpow radix2 (k - 7)) vs \/ Forall (sized_edge (bpow radix2 (k - 47)) vs) edges ->
  exists t, EdgeCellTree2d_init g vs edges nb cpl = Ok t.
Proof. exact (float_network_succeeds k g vs edges nb cpl). Qed.

(** Without a margin this is false for meshes too: two squares of side 1 at
    2^52 (one unit in the last place) *)
Definition ulp_pts : list (Z * Z) := map (fun p => (4503599627370496 + fst p, snd p)%Z)
  [(1, 0); (2, 0); (2, 1); (1, 1); (3, 0); (4, 0); (4, 1); (3, 1)]%Z.
Definition ulp_vertices : list (point b64) := map ptZ ulp_pts.
Definition ulp_faces : list (list Z) := [[0; 1; 2; 3]; [4; 5; 6; 7]]%Z.

Lemma bounded_Zb k n : (Z.abs n <= 2 ^ 53)%Z -> (Z.abs n <= 2 ^ k)%Z -> (0 <= k)%Z -> NumRoom.bounded k (Zb n).
Proof.
  intros H1 H2 Hk. destruct (Zb_exact n H1) as (F & E). split; auto. rewrite E, <- abs_IZR.
  rewrite <- IZR_Zpower by auto. now apply IZR_le.
Qed.

(** checking sizes of faces with integer vertices *)
Definition zsized (d : Z) (zp : list (Z * Z)) : bool :=
  forallb (fun a => (Z.abs (fst a) <=? 2 ^ 53) && (Z.abs (snd a) <=? 2 ^ 53))%Z zp
  && existsb (fun a => existsb (fun b => fst a + d <=? fst b)%Z zp) zp
  && existsb (fun a => existsb (fun b => snd a + d <=? snd b)%Z zp) zp.
Definition zlook (zs : list (Z * Z)) (f : list Z) : list (Z * Z) := map (fun i => nth (Z.to_nat i) zs (0, 0)%Z) (until_fill f).

Lemma zsized_ok d zp : zsized d zp = true -> sized (IZR d) (map ptZ zp).
Proof.
  unfold zsized. rewrite !andb_true_iff, forallb_forall. intros ((HA & HX) & HY).
  assert (V : forall a, In a zp -> B2R (Zb (fst a)) = IZR (fst a) /\ B2R (Zb (snd a)) = IZR (snd a)).
  { intros a Ha. apply HA in Ha. apply andb_prop in Ha as (A & B). split; apply Zb_exact; lia. }
  apply existsb_exists in HX as (a & Ia & HX). apply existsb_exists in HX as (b & Ib & HX).
  apply existsb_exists in HY as (c & Ic & HY). apply existsb_exists in HY as (e & Ie & HY).
  split; [exists (ptZ a), (ptZ b)|exists (ptZ c), (ptZ e)].
  all: split; [now apply in_map|split; [now apply in_map|]]; unfold ptZ; cbn [px py nofZ NumB64].
  - destruct (V a Ia) as (-> & _), (V b Ib) as (-> & _). rewrite <- plus_IZR. apply IZR_le. lia.
  - destruct (V c Ic) as (_ & ->), (V e Ie) as (_ & ->). rewrite <- plus_IZR. apply IZR_le. lia.
Qed.

Lemma zlook_poly zs f : forallb (fun i => (0 <=? i) && (i <? zlen zs))%Z (until_fill f) = true ->
  poly_of (T:=b64) (map ptZ zs) f (map ptZ (zlook zs f)).
Proof.
  unfold poly_of, zlook. rewrite forallb_forall. intros H. rewrite map_map.
  induction (until_fill f) as [|i l IH]; cbn [map]; constructor.
  - specialize (H i (or_introl eq_refl)). apply andb_prop in H as (A & B). split; [lia|].
    apply map_nth_error. apply nth_error_nth'. unfold zlen in B. lia.
  - apply IH. intros j Hj. apply H. now right.
Qed.

Definition zmesh_sized (d : Z) (zs : list (Z * Z)) (faces : list (list Z)) : bool :=
  forallb (fun f => forallb (fun i => (0 <=? i) && (i <? zlen zs))%Z (until_fill f) && zsized d (zlook zs f)) faces.
Lemma zmesh_sized_ok d zs faces : zmesh_sized d zs faces = true ->
  Forall (fun f => forall poly, poly_of (T:=b64) (map ptZ zs) f poly -> sized (IZR d) poly) faces.
Proof.
  unfold zmesh_sized. rewrite forallb_forall, Forall_forall. intros H f Hf poly Hp.
  apply H in Hf. apply andb_prop in Hf as (A & B).
  rewrite (poly_of_fun _ _ _ _ Hp (zlook_poly _ _ A)). now apply zsized_ok.
Qed.

Lemma zbounded k zs : (0 <= k)%Z -> forallb (fun a => (Z.abs (fst a) <=? 2 ^ 53) && (Z.abs (snd a) <=? 2 ^ 53)
    && (Z.abs (fst a) <=? 2 ^ k) && (Z.abs (snd a) <=? 2 ^ k))%Z zs = true -> bounded_vertices k (map ptZ zs).
Proof.
  intros Hk. unfold bounded_vertices. rewrite forallb_forall, Forall_forall. intros H p Hp.
  apply in_map_iff in Hp as (a & <- & Ha). apply H in Ha. rewrite !andb_true_iff in Ha.
  split; apply bounded_Zb; lia.
Qed.

Lemma sized_mono d d' poly : d' <= d -> sized d poly -> sized d' poly.
Proof.
  intros H ((p & q & A & B & C) & (p' & q' & A' & B' & C')). split; [exists p, q|exists p', q'];
    (split; [auto|split; [auto|lra]]).
Qed.

Lemma ulp_mesh : mesh_ok ulp_vertices ulp_faces (-1).
Proof.
  constructor.
  - rewrite Forall_forall. intros p Hp. apply in_map_iff in Hp as (a & <- & Ha).
    assert (H : forallb (fun a => Z.abs (fst a) <=? 2 ^ 53)%Z ulp_pts && forallb (fun a => Z.abs (snd a) <=? 2 ^ 53)%Z ulp_pts = true)
      by (vm_compute; reflexivity).
    apply andb_prop in H as (H1 & H2). rewrite forallb_forall in H1, H2. apply H1 in Ha as A. apply H2 in Ha as B.
    split; apply Zb_exact; lia.
  - discriminate.
  - repeat constructor; simpl; lia.
Qed.

Theorem C04_float_mesh_refuted :
  exists (vs : list (point b64)) faces, mesh_ok vs faces (-1)
    /\ Forall (fun f => forall poly, poly_of vs f poly -> sized 1 poly) (map (with_fill (-1)) faces)
    /\ forall g, CellTree2d_init g vs faces (-1) 4 1 = Err EList.
Proof.
  exists ulp_vertices, ulp_faces. split; [exact ulp_mesh|]. split.
  - apply (zmesh_sized_ok 1). vm_compute. reflexivity.
  - intros g.
    assert (H : match CellTree2d_init g ulp_vertices ulp_faces (-1) 4 1 with Ok _ => false | Err EList => true | Err _ => false end = true)
      by (vm_compute; reflexivity).
    destruct (CellTree2d_init g ulp_vertices ulp_faces (-1) 4 1) as [t|[]]; congruence.
Qed.

(** ** Examples meeting the hypotheses *)
Example C04_float_example g : exists t, CellTree2d_init (T:=b64) g grid grid_faces (-1) 4 2 = Ok t.
Proof.
  apply (C04_float_mesh_succeeds 2); try lia.
  - exact grid_mesh_B64.
  - apply zbounded; [lia|]. vm_compute. reflexivity.
  - vm_compute; discriminate.
  - assert (H : zmesh_sized 1 grid_pts (map (with_fill (-1)) grid_faces) = true) by (vm_compute; reflexivity).
    eapply Forall_impl; [|exact (zmesh_sized_ok 1 grid_pts _ H)].
    intros f Hf poly Hp. eapply sized_mono; [|exact (Hf poly Hp)].
    change 1 with (bpow radix2 0). apply bpow_le. lia.
Qed.

Example C04_float_network_example g : exists t, EdgeCellTree2d_init (T:=b64) g grid pipes 4 2 = Ok t.
Proof.
  apply (C04_float_network_succeeds 2); try lia.
  - exact pipes_network_B64.
  - apply zbounded; [lia|]. vm_compute. reflexivity.
  - vm_compute; discriminate.
  - right. left. exists (ptZ (0, 0)%Z), (ptZ (1, 0)%Z). 
    split; [apply in_map; cbn; tauto|]. split; [apply in_map; cbn; tauto|]. left.
    unfold ptZ. cbn [px fst nofZ NumB64]. destruct (Zb_exact 0 ltac:(lia)) as (_ & ->).
    destruct (Zb_exact 1 ltac:(lia)) as (_ & ->). rewrite Rplus_0_l.
    change 1 with (bpow radix2 0). apply bpow_le. lia.
Qed.

Print Assumptions C04_float_mesh_succeeds.
Print Assumptions C04_float_network_succeeds.
Print Assumptions C04_float_mesh_refuted.
