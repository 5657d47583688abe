(** C56: segment intersection and EdgeCellTree2d.intersect_edges in binary64;
    C39: the bounding box of a tree is tight. *)
From Coq Require Import Reals Lra Psatz Sorted.
From Flocq Require Import IEEE754.BinarySingleNaN Core.
From Verif Require Import RBase NumB64 NumRoom FBase FBuild GLines MGeometry MCreation MAlgorithms MQuery MCelltree
  SpecTree SpecQuery SpecApi PQuery PMesh PInit NumSub PApi PTreeBox SpecMesh FPoint FLocate FCut FMesh FBoxClip FLines FEdgeTree FNetEdges
  SpecGeom Examples PropFloat PropFloatPoints.
Open Scope R_scope.
Local Notation bounded := NumRoom.bounded.

(** ** C39 *)
Theorem C39_tree_box_tight {T} {NT : Num T} {NO : NumOrd T} g vs faces fill nb cpl (t : tree2d (T:=T)) :
  mesh_ok vs faces fill -> CellTree2d_init g vs faces fill nb cpl = Ok t ->
  tight_over (bb_coords (celltree_data t)) (bbox (celltree_data t)).
Proof. exact (mesh_tight g vs faces fill nb cpl t). Qed.

Theorem C39_edge_tree_box_tight {T} {NT : Num T} {NO : NumOrd T} g vs edges nb cpl (t : tree2d (T:=T)) :
  network_ok vs edges -> EdgeCellTree2d_init g vs edges nb cpl = Ok t ->
  tight_over (bb_coords (celltree_data t)) (bbox (celltree_data t)).
Proof. exact (network_tight g vs edges nb cpl t). Qed.

(** ** C56: lines_intersect *)

(** the reported point of a crossing at [x]: none only if the segments are nearly
    parallel, and otherwise as near as the angle allows *)
Definition crossing_value (k : Z) (W : R) (a b p q : pt) (r : option pt) (x : pt) : Prop :=
  let Q := uro * (W * W) in let D := Rabs (cross_uv a b p q) in
  match r with
  | None => D <= 2 * (seg_tol p q * len1 a b) + 9 * Q
  | Some c => close (37 * Q / D * reach a b + 27 * (uro * bpow radix2 k)) c x
  end.

Theorem C56_float_lines_cross k W (a b p q : point b64) : (-40 <= k <= 240)%Z ->
  bpow radix2 (-250) <= W <= bpow radix2 (k + 1) ->
  bpt k a -> bpt k b -> bpt k p -> bpt k q -> all_near W [rp a; rp b; rp p; rp q] ->
  clear_cross W (rp a) (rp b) (rp p) (rp q) ->
  exists r x, lines_intersect a b p q = Ok (true, r)
    /\ on_segment (rp a) (rp b) x /\ on_segment (rp p) (rp q) x
    /\ 18 * (uro * (W * W)) < Rabs (cross_uv (rp a) (rp b) (rp p) (rp q))
    /\ crossing_value k W (rp a) (rp b) (rp p) (rp q) (option_map rp r) x.
Proof.
  intros Hk HW Ba Bb Bp Bq HS HC.
  destruct (clear_cross_found k W Hk HW a b p q Ba Bb Bp Bq HS HC) as (H1 & r & x & H2 & H3 & H4 & H5).
  exists r, x. split; auto. split; auto. split; auto. split; auto. destruct r; exact H5.
Qed.

Theorem C56_float_lines_apart k W (a b p q : point b64) : (-40 <= k <= 240)%Z ->
  bpow radix2 (-250) <= W <= bpow radix2 (k + 1) ->
  bpt k a -> bpt k b -> bpt k p -> bpt k q -> all_near W [rp a; rp b; rp p; rp q] ->
  clear_apart W (rp a) (rp b) (rp p) (rp q) -> lines_intersect a b p q = Ok (false, None).
Proof.
  intros Hk HW Ba Bb Bp Bq HS HC. exact (clear_apart_not_found k W Hk HW a b p q Ba Bb Bp Bq HS HC).
Qed.

(** ** C56: EdgeCellTree2d.intersect_edges *)
Theorem C56_float_edge_edges k g (vs : list (point b64)) edges nb cpl t :
  (-40 <= k <= 240)%Z -> network_ok vs edges -> bounded_vertices k vs -> spread (bpow radix2 (k - 4)) vs ->
  EdgeCellTree2d_init g vs edges nb cpl = Ok t ->
  forall queries, Forall (query_ok k (celltree_data t)) queries ->
  exists rows,
    (forall g' csfuel n_threads, (4 <= csfuel)%nat -> (1 <= n_threads)%nat ->
       EdgeCellTree2d_intersect_edges g' csfuel n_threads t queries = Ok rows)
    /\ NoDup (map fst rows) /\ StronglySorted Z.le (map (fun r => fst (fst r)) rows)
    /\ (forall i j c, In ((i, j), c) rows -> (0 <= i < zlen queries)%Z /\ exists p q, edge_ends (map rp vs) edges j p q)
    /\ (forall i j a b p q W, (0 <= i)%Z -> nth_error queries (Z.to_nat i) = Some (a, b) ->
          edge_ends (map rp vs) edges j p q ->
          bpow radix2 (-250) <= W <= bpow radix2 (k + 1) -> all_near W [rp a; rp b; p; q] ->
          (clear_cross W (rp a) (rp b) p q -> exists r x, In ((i, j), r) rows
             /\ on_segment (rp a) (rp b) x /\ on_segment p q x
             /\ crossing_value k W (rp a) (rp b) p q (option_map rp r) x)
          /\ (clear_apart W (rp a) (rp b) p q -> forall c, ~ In ((i, j), c) rows)).
Proof.
  intros Hk Hm Hbd Hsp E queries HQ. pose proof (init_built_edges _ _ _ _ _ _ Hm E) as Hb.
  destruct (be_net _ _ _ _ Hb) as (gt & Hgt & Hn).
  destruct (net_edges k Hk vs edges (celltree_data t) gt Hbd Hsp Hgt Hn (be_vertices _ _ _ _ Hb) (be_elements _ _ _ _ Hb)
              (network_tight _ _ _ _ _ _ Hm E) queries HQ) as (rows & H1 & H2 & H3 & H4 & H5).
  rewrite Forall_forall in HQ.
  exists (map (fun r => (fst r, fst (snd r))) rows). split; [|split; [|split; [|split]]].
  - intros g' cs n Hcs Hn'. unfold EdgeCellTree2d_intersect_edges. rewrite (H1 g' cs n Hcs Hn'). reflexivity.
  - rewrite map_map. exact H2.
  - rewrite map_map. exact H3.
  - intros i j c Hin. apply in_map_iff in Hin as ((ij, c2) & Eq & Hin). cbn [fst snd] in Eq. injection Eq as -> _.
    destruct (H4 _ _ _ Hin) as (a & b & p & q & x & Hi & Ei & He & _). split; [|eauto].
    assert (Z.to_nat i < length queries)%nat by (apply nth_error_Some; congruence). unfold zlen. lia.
  - intros i j a b p q W Hi Ei He HW HS.
    pose proof (HQ _ (nth_error_In _ _ Ei)) as (Ba & Bb & PS & CL). cbn [fst snd] in *. split.
    + intros HC. destruct He as (e & Hj & Ee & He). destruct (edge_of_map_inv _ _ _ _ He) as (p' & q' & He' & -> & ->).
      destruct (edge_of_bpt k _ _ _ _ Hbd He') as (Bp & Bq).
      destruct (C56_float_lines_cross k W a b p' q' Hk HW Ba Bb Bp Bq HS HC) as (r & x & G1 & G2 & G3 & G4 & G5).
      exists r, x. split; [|auto]. apply in_map_iff. exists ((i, j), (r, r)). split; auto.
      apply (H5 i j a b p' q' r x); eauto.
      intros Hab. destruct HC as (HC & _). rewrite Hab in HC. unfold orient in HC.
      assert (0 < uro * (W * W)).
      { pose proof (bpow_gt_0 radix2 (-250)). apply Rmult_lt_0_compat; [apply uro_pos|apply Rmult_lt_0_compat; lra]. }
      lra.
    + intros HC c Hin. apply in_map_iff in Hin as ((ij, c2) & Eq & Hin). cbn [fst snd] in Eq. injection Eq as -> _.
      destruct (H4 _ _ _ Hin) as (a' & b' & p' & q' & x & _ & Ei' & He' & Bp & Bq & El & _). rewrite Ei in Ei'. injection Ei' as <- <-.
      destruct He as (e & Hj & Ee & He), He' as (e' & _ & Ee' & He'). rewrite Ee in Ee'. injection Ee' as <-.
      destruct (edge_of_unique _ _ _ _ _ _ He He') as (E1 & E2). subst p q.
      pose proof (C56_float_lines_apart k W a b p' q' Hk HW Ba Bb Bp Bq HS HC) as El'.
      rewrite El in El'. discriminate.
Qed.

(** A query edge through a network of six pipes: it crosses pipes 3 and 4 and
    none of the others. *)
Definition c56_queries : list (point b64 * point b64) := [(Pt (Zb (-3)) (Zb 1), Pt (Zb 6) (Zb 2))].

Lemma c56_box t : EdgeCellTree2d_init (T:=b64) g0 grid pipes 4 2 = Ok t ->
  let K := rbox (bbox (celltree_data t)) in
  -1 <= xmin K <= 0 /\ 3 <= xmax K <= 4 /\ -1 <= ymin K <= 0 /\ 2 <= ymax K <= 3.
Proof.
  intros E.
  assert (H : match EdgeCellTree2d_init (T:=b64) g0 grid pipes 4 2 with
     | Ok t => let K := bbox (celltree_data t) in
        is_finite (xmin K) && is_finite (xmax K) && is_finite (ymin K) && is_finite (ymax K)
        && nleb (Zb (-1)) (xmin K) && nleb (xmin K) (Zb 0) && nleb (Zb 3) (xmax K) && nleb (xmax K) (Zb 4)
        && nleb (Zb (-1)) (ymin K) && nleb (ymin K) (Zb 0) && nleb (Zb 2) (ymax K) && nleb (ymax K) (Zb 3)
     | Err _ => false end = true) by (vm_compute; reflexivity).
  rewrite E in H. cbv zeta in H. rewrite !andb_true_iff in H.
  destruct H as (((((((((((F1 & F2) & F3) & F4) & A1) & A2) & A3) & A4) & A5) & A6) & A7) & A8).
  assert (V : forall n, (Z.abs n <= 8)%Z -> is_finite (Zb n) = true /\ B2R (Zb n) = IZR n) by (intros n Hn; apply Zb_exact; lia).
  destruct (V (-1)%Z ltac:(lia)) as (G1 & V1), (V 0%Z ltac:(lia)) as (G2 & V2), (V 2%Z ltac:(lia)) as (G3 & V3),
    (V 3%Z ltac:(lia)) as (G4 & V4), (V 4%Z ltac:(lia)) as (G5 & V5).
  apply le_B in A1, A2, A3, A4, A5, A6, A7, A8; auto.
  rewrite V1 in A1, A5. rewrite V2 in A2, A6. rewrite V3 in A7. rewrite V4 in A3, A8. rewrite V5 in A4.
  intros K. unfold K, rbox. cbn [xmin xmax ymin ymax]. lra.
Qed.

(** what the margins amount to for these coordinates *)
Lemma c56_small : 256 * uro <= / 1000000000000 /\ 9688 * uro <= bpow radix2 (-39).
Proof.
  unfold uro. change (bpow radix2 (-53)) with (/ IZR (2 ^ 53)). change (2 ^ 53)%Z with 9007199254740992%Z.
  change (bpow radix2 (-39)) with (/ IZR (2 ^ 39)). change (2 ^ 39)%Z with 549755813888%Z. lra.
Qed.
Lemma c56_tol p q : Rabs (px q - px p) <= 2 -> Rabs (py q - py p) <= 2 -> 0 < seg_tol p q <= / 1000000000.
Proof.
  intros H1 H2. split; [apply seg_tol_pos|]. unfold seg_tol. apply Rmax_lub; [lra|].
  assert (Rmax (Rabs (px q - px p)) (Rabs (py q - py p)) <= 2) by (apply Rmax_lub; auto). lra.
Qed.

Example C56_float_edge_edges_example : exists t rows c d,
  EdgeCellTree2d_init (T:=b64) g0 grid pipes 4 2 = Ok t
  /\ EdgeCellTree2d_intersect_edges g0 4 2 t c56_queries = Ok rows
  /\ In ((0, 3)%Z, Some c) rows /\ close (bpow radix2 (-39)) (rp c) (Pt 2 (14 / 9))
  /\ In ((0, 4)%Z, Some d) rows /\ close (bpow radix2 (-39)) (rp d) (Pt (42 / 19) (30 / 19))
  /\ (forall i j x, In ((i, j), x) rows -> i = 0%Z /\ (j = 3 \/ j = 4)%Z).
Proof.
  destruct pipes_built_B64 as (t & E & _). pose proof (c56_box t E) as HK. cbv zeta in HK.
  set (K := rbox (bbox (celltree_data t))) in *. destruct HK as (K1 & K2 & K3 & K4).
  assert (V : forall n, (Z.abs n <= 8)%Z -> B2R (Zb n) = IZR n) by (intros n Hn; apply Zb_exact; lia).
  set (A := Pt (Zb (-3)) (Zb 1)). set (B := Pt (Zb 6) (Zb 2)).
  assert (EA : rp A = Pt (-3) 1) by (unfold rp, A; cbn [px py]; rewrite !V by lia; reflexivity).
  assert (EB : rp B = Pt 6 2) by (unfold rp, B; cbn [px py]; rewrite !V by lia; reflexivity).
  assert (BA : bpt 3 A) by (split; apply bounded_Zb; lia). assert (BB : bpt 3 B) by (split; apply bounded_Zb; lia).
  assert (S250 : bpow radix2 (-250) <= 1) by (change 1 with (bpow radix2 0); apply bpow_le; lia).
  assert (SM : bpow radix2 (3 - 44) <= / 1000) by (change (bpow radix2 (3 - 44)) with (/ IZR (2 ^ 41)); change (2 ^ 41)%Z with 2199023255552%Z; lra).
  assert (HQ : Forall (query_ok 3 (celltree_data t)) c56_queries).
  { constructor; [|constructor]. change (query_ok 3 (celltree_data t) (A, B)). unfold query_ok. cbn [fst snd].
    split; auto. split; auto. rewrite EA, EB. split.
    - split; right; cbn [px py]; rewrite Rabs_pos_eq; lra.
    - intros x v (s & Hs & ->) (Hx & Hy) (C1 & C2). fold K in Hx, Hy. apply Rabs_le_iff in C1, C2.
      cbn [px py at_] in *. destruct Hx as [Hx|Hx], Hy as [Hy|Hy]; lra. }
  assert (BG : bounded_vertices 3 (@grid b64 _)) by (apply zbounded; [lia|vm_compute; reflexivity]).
  assert (SG : spread (bpow radix2 (3 - 4)) (@grid b64 _)).
  { exists (ptZ (0, 0)%Z), (ptZ (3, 2)%Z). split; [now left|]. split; [apply (nth_error_In _ 11); reflexivity|].
    left. cbn [ptZ px py fst snd nofZ NumB64]. rewrite !V by lia. change (bpow radix2 (3 - 4)) with (/ 2). lra. }
  destruct (C56_float_edge_edges 3 g0 grid pipes 4 2 t ltac:(lia) pipes_network_B64 BG SG E c56_queries HQ)
    as (rows & HR & _ & _ & HI & HX). rewrite grid_rp in HI, HX.
  destruct c56_small as (U1 & U2). pose proof uro_pos as PU.
  assert (HW : bpow radix2 (-250) <= 16 <= bpow radix2 (3 + 1)) by (change (bpow radix2 (3 + 1)) with 16; lra).
  assert (NE : forall p q, -3 <= px p <= 6 -> -3 <= py p <= 6 -> -3 <= px q <= 6 -> -3 <= py q <= 6 -> all_near 16 [rp A; rp B; p; q]).
  { intros p q P1 P2 Q1 Q2. rewrite EA, EB.
    assert (H : forall z, In z [Pt (-3) 1; Pt 6 2; p; q] -> -3 <= px z <= 6 /\ -3 <= py z <= 6).
    { intros z [<-|[<-|[<-|[<-|[]]]]]; cbn [px py]; lra. }
    intros x y Hx Hy. apply H in Hx, Hy. split; apply Rabs_le_iff; lra. }
  assert (PE : forall j p q, edge_ends (@grid R _) pipes j p q ->
     (j = 0%Z /\ p = Pt 0 0 /\ q = Pt 1 0) \/ (j = 1%Z /\ p = Pt 1 0 /\ q = Pt 1 1) \/ (j = 2%Z /\ p = Pt 1 1 /\ q = Pt 2 1)
     \/ (j = 3)%Z \/ (j = 4)%Z \/ (j = 5%Z /\ p = Pt 0 2 /\ q = Pt 1 2)).
  { intros j p q (e & Hj & Ee & i & i' & -> & Hi & Hi' & Ei & Ei').
    assert (Hjl : (j < 6)%Z) by (assert (Z.to_nat j < length pipes)%nat by (apply nth_error_Some; congruence); cbn in H; lia).
    assert (Hc : (j = 0 \/ j = 1 \/ j = 2 \/ j = 3 \/ j = 4 \/ j = 5)%Z) by lia.
    destruct Hc as [->|[->|[->|[->|[->| ->]]]]]; auto 6;
      [left|right; left|do 2 right; left|do 5 right]; (split; [reflexivity|]); cbn in Ee; injection Ee as <- <-; cbn in Ei, Ei';
      injection Ei as <-; injection Ei' as <-; split; reflexivity. }
  assert (P3 : edge_ends (@grid R _) pipes 3 (Pt 2 1) (Pt 2 2)).
  { exists [6; 10]%Z. split; [lia|]. split; [reflexivity|]. exists 6%Z, 10%Z. repeat split; try lia. }
  assert (P4 : edge_ends (@grid R _) pipes 4 (Pt 2 2) (Pt 3 0)).
  { exists [10; 3]%Z. split; [lia|]. split; [reflexivity|]. exists 10%Z, 3%Z. repeat split; try lia. }
  assert (L1 : len1 (rp A) (rp B) = 10).
  { rewrite EA, EB. unfold len1. cbn [px py]. rewrite !Rabs_pos_eq; lra. }
  assert (R1 : reach (rp A) (rp B) = 9).
  { rewrite EA, EB. unfold reach. cbn [px py]. rewrite !Rabs_pos_eq by lra. rewrite Rmax_left; lra. }
  destruct (HX 0%Z 3%Z A B (Pt 2 1) (Pt 2 2) 16 ltac:(lia) eq_refl P3 HW) as (X3 & _); [apply NE; cbn [px py]; lra|].
  destruct X3 as (r & x & I3 & S1 & S2 & C3).
  { rewrite EA, EB. unfold clear_cross, orient. cbn [px py]. split; [right|left]; lra. }
  destruct (HX 0%Z 4%Z A B (Pt 2 2) (Pt 3 0) 16 ltac:(lia) eq_refl P4 HW) as (X4 & _); [apply NE; cbn [px py]; lra|].
  destruct X4 as (r' & x' & I4 & S1' & S2' & C4).
  { rewrite EA, EB. unfold clear_cross, orient. cbn [px py]. split; [left|right]; lra. }
  assert (D3 : Rabs (cross_uv (rp A) (rp B) (Pt 2 1) (Pt 2 2)) = 9).
  { rewrite EA, EB. unfold cross_uv. cbn [px py]. rewrite Rabs_pos_eq; lra. }
  assert (D4 : Rabs (cross_uv (rp A) (rp B) (Pt 2 2) (Pt 3 0)) = 19).
  { rewrite EA, EB. unfold cross_uv. cbn [px py]. rewrite Rabs_left; lra. }
  unfold crossing_value in C3, C4. rewrite D3, R1 in C3. rewrite D4, R1 in C4. change (bpow radix2 3) with 8 in C3, C4.
  rewrite L1 in C3, C4.
  destruct r as [c|]; cbn [option_map] in C3.
  2: { exfalso. destruct (c56_tol (Pt 2 1) (Pt 2 2)) as (_ & T); cbn [px py]; try (apply Rabs_le_iff; lra). lra. }
  destruct r' as [d|]; cbn [option_map] in C4.
  2: { exfalso. destruct (c56_tol (Pt 2 2) (Pt 3 0)) as (_ & T); cbn [px py]; try (apply Rabs_le_iff; lra). lra. }
  assert (EX : x = Pt 2 (14 / 9)).
  { rewrite EA, EB in S1. destruct S1 as (s & Hs & ->), S2 as (u & Hu & Eu). unfold at_ in *. cbn [px py] in *. injection Eu as E1 E2.
    f_equal; lra. }
  assert (EX' : x' = Pt (42 / 19) (30 / 19)).
  { rewrite EA, EB in S1'. destruct S1' as (s & Hs & ->), S2' as (u & Hu & Eu). unfold at_ in *. cbn [px py] in *. injection Eu as E1 E2.
    f_equal; lra. }
  exists t, rows, c, d. split; auto. split; [apply HR; lia|].
  assert (CM : forall e e' u v, e <= e' -> close e u v -> close e' u v) by (intros e e' u v He (G1 & G2); split; lra).
  split; [exact I3|]. split; [rewrite <- EX; revert C3; apply CM; lra|].
  split; [exact I4|]. split; [rewrite <- EX'; revert C4; apply CM; lra|].
  intros i j y Hy. destruct (HI i j y Hy) as (Hi & p & q & He). change (zlen c56_queries) with 1%Z in Hi.
  assert (i = 0%Z) by lia. subst i. split; auto.
  assert (GO : -3 <= px p <= 6 -> -3 <= py p <= 6 -> -3 <= px q <= 6 -> -3 <= py q <= 6 ->
     Rabs (px q - px p) <= 2 -> Rabs (py q - py p) <= 2 ->
     (1 <= orient (rp A) (rp B) p /\ 1 <= orient (rp A) (rp B) q \/ orient (rp A) (rp B) p <= -1 /\ orient (rp A) (rp B) q <= -1) -> False).
  { intros G1 G2 G3 G4 G5 G6 G7. destruct (HX 0%Z j A B p q 16 ltac:(lia) eq_refl He HW (NE p q G1 G2 G3 G4)) as (_ & HN).
    apply (HN) in Hy; auto. unfold clear_apart. right. right. rewrite L1. destruct (c56_tol p q G5 G6) as (T0 & T1).
    split; [left; unfold one_side; lra|]. left. unfold Rabs. destruct (Rcase_abs _); lra. }
  rewrite EA, EB in GO. unfold orient in GO.
  destruct (PE j p q He) as [(Ej & -> & ->)|[(Ej & -> & ->)|[(Ej & -> & ->)|[Ej|[Ej|(Ej & -> & ->)]]]]]; auto;
    exfalso; apply GO; cbn [px py]; try lra; apply Rabs_le_iff; lra.
Qed.

Print Assumptions C39_tree_box_tight.
Print Assumptions C39_edge_tree_box_tight.
Print Assumptions C56_float_lines_cross.
Print Assumptions C56_float_lines_apart.
Print Assumptions C56_float_edge_edges.
Print Assumptions C56_float_edge_edges_example.
