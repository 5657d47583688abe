(** intersect_edges of both trees equals brute force over exact reals. *)
From Verif Require Import RBase MGeometry MCreation MAlgorithms MQuery MCelltree
  SpecTree PBuild PCollect SpecQuery SpecApi PQuery PMesh PInit NumSub PPoints
  PApi PEdges GBox GEdges GLines GCyrus.
From Coq Require Import Sorted.
Open Scope R_scope.

(** the tolerance of the face clip, query.py:321-323 *)
Definition face_tol (K : bx) : R :=
  Rmax (/ 1000000000000000) (/ 1000000000000 * Rmax (xmax K - xmin K) (ymax K - ymin K)).

(** face [j] of the tree, its polygon and its box *)
Definition face_at (t : celltree R) (j : Z) (poly : list pt) (K : bx) : Prop :=
  (0 <= j)%Z /\ exists f, nth_error (elements t) (Z.to_nat j) = Some f
    /\ poly_of (vertices t) f poly /\ nth_error (bb_coords t) (Z.to_nat j) = Some K.

(** what intersect_edges reports for the query edge a-b and face [j]: the
    segment has more than one point in common with the bounding box, and the
    polygon clip returns c-d *)
Definition edge_face_hit (t : celltree R) (a b : pt) (j : Z) (c d : pt) : Prop :=
  exists poly K, face_at t j poly K /\ shares (in_box K) a b
    /\ cyrus_beck_line_polygon_clip a b poly (face_tol K) = Ok (Some (c, d)).

(** edge [j] of the tree and its end points *)
Definition edge_at_ (t : celltree R) (j : Z) (p q : pt) : Prop :=
  (0 <= j)%Z /\ exists e, nth_error (elements t) (Z.to_nat j) = Some e /\ edge_of (vertices t) e p q.

Definition edge_edge_hit (t : celltree R) (a b : pt) (j : Z) (c : option pt) : Prop :=
  exists p q, edge_at_ t j p q /\ lines_intersect a b p q = Ok (true, c).

Section Faces.
  Variable t : celltree R.
  Hypothesis Ht : mesh_tree t.
  Notation bbc := (bb_coords t).

  Lemma tight_wf (poly : list pt) (K : bx) : tight_box poly K -> wf_box K.
  Proof.
    intros (HF & Hx & _). rewrite Forall_forall in HF. rewrite Exists_exists in Hx.
    destruct Hx as (p & Hp & _). destruct (HF p Hp) as (A & B & C & D). rsimp. rb. split; lra.
  Qed.

  Lemma boxes_wf : Forall wf_box bbc.
  Proof.
    pose proof (mt_boxes _ Ht) as H. induction H as [|f K l l' (poly & _ & HT) _ IH]; constructor; auto.
    eapply tight_wf; eauto.
  Qed.

  Lemma face_at_range j : (0 <= j < zlen bbc)%Z -> exists poly K, face_at t j poly K
    /\ poly <> [] /\ wf_box K /\ aget bbc j = Ok K.
  Proof.
    intros Hj.
    assert (Hj' : (0 <= j < zlen (elements t))%Z).
    { unfold zlen in *. rewrite (vt_elements _ (mt_valid _ Ht)). exact Hj. }
    destruct (aget_ok_pos (elements t) j Hj') as (f & E & En).
    destruct (aget_ok_pos bbc j Hj) as (K & EK & EKn).
    pose proof (mt_faces _ Ht) as Hf. rewrite Forall_forall in Hf. specialize (Hf f (nth_error_In _ _ En)).
    destruct (wf_poly _ f Hf) as (poly & Hp). exists poly, K.
    split; [split; [lia|]; exists f; auto|].
    split.
    { pose proof (poly_of_length _ _ _ Hp). destruct Hf as (Hl & _). destruct poly; [simpl in *; lia|discriminate]. }
    split; auto. pose proof boxes_wf as W. rewrite Forall_forall in W. apply W. eapply nth_error_In; eauto.
  Qed.

  Lemma compute_face_ok g csfuel j a b poly K : face_at t j poly K ->
    compute_edge_face_intersect g csfuel t j a b =
    (let* c := cohen_sutherland_line_box_clip csfuel a b K in
     match c with
     | None => Ok None
     | Some _ => let* c := cyrus_beck_line_polygon_clip a b poly (face_tol K) in
                 Ok (match c with Some (c, d) => Some (Some c, Some d) | None => None end)
     end).
  Proof.
    intros (Hj & f & Ef & Hp & EK). unfold compute_edge_face_intersect.
    rewrite (aget_pos _ _ _ Hj EK). cbn [bind].
    destruct (cohen_sutherland_line_box_clip csfuel a b K) as [[c|]|]; cbn [bind]; auto.
    rewrite (aget_pos _ _ _ Hj Ef). cbn [bind].
    pose proof (mt_faces _ Ht) as Hf. rewrite Forall_forall in Hf. specialize (Hf f (nth_error_In _ _ Ef)).
    change (copy_vertices_into (vertices t) f (allocate_polygon g)) with (copy_vertices g (vertices t) f).
    rewrite (copy_vertices_ok g _ f poly Hf Hp). cbn [bind]. rewrite !nmax_R. reflexivity.
  Qed.

  Lemma face_at_fun j p1 K1 p2 K2 : face_at t j p1 K1 -> face_at t j p2 K2 -> p1 = p2 /\ K1 = K2.
  Proof.
    intros (_ & f1 & E1 & P1 & B1) (_ & f2 & E2 & P2 & B2). rewrite E1 in E2. inversion E2; subst f2.
    split; [eapply poly_of_fun; eauto|congruence].
  Qed.

  (** the element test as a function *)
  Definition g_any : garbage R :=
    Garbage _ (fun _ _ => 0%Z) (fun _ _ => (0, 0)%Z) (fun _ _ => (0, 0, 0)%Z) (fun _ _ => Pt 0 0)
            (fun _ _ => Node 0%Z 0 0 0%Z 0%Z true) (fun _ _ => Box 0 0 0 0) (fun _ _ => (None, None)).
  Definition face_hit_fun (ab : pt * pt) (j : Z) : option (option pt * option pt) :=
    match compute_edge_face_intersect g_any 4 t j (fst ab) (snd ab) with Ok r => r | Err _ => None end.

  Lemma face_hit_cases a b j poly K : (0 <= j < zlen bbc)%Z -> face_at t j poly K ->
    exists r, cyrus_beck_line_polygon_clip a b poly (face_tol K) = Ok r /\
    ((~ shares (in_box K) a b /\ forall g csfuel, (4 <= csfuel)%nat -> compute_edge_face_intersect g csfuel t j a b = Ok None)
     \/ (shares (in_box K) a b /\ forall g csfuel, (4 <= csfuel)%nat ->
          compute_edge_face_intersect g csfuel t j a b =
          Ok (match r with Some (c, d) => Some (Some c, Some d) | None => None end))).
  Proof.
    intros Hj Hface. destruct (face_at_range j Hj) as (poly' & K' & Hf' & Hne & HW & _).
    destruct (face_at_fun _ _ _ _ _ Hface Hf'); subst poly' K'.
    destruct (cyrus_beck_total a b poly (face_tol K) Hne) as (r & Er). exists r. split; auto.
    destruct (cohen_sutherland_exact K HW 4 a b (le_n 4)) as (c4 & E4 & C4).
    assert (HC : forall csfuel, (4 <= csfuel)%nat -> cohen_sutherland_line_box_clip csfuel a b K = Ok c4).
    { intros cs Hcs. destruct (cohen_sutherland_exact K HW cs a b Hcs) as (c & E & C). rewrite E. f_equal.
      eapply clip_result_fun; eauto. }
    destruct c4 as [c4|].
    - right. split; [apply (shares_clip _ _ _ _ C4); discriminate|]. intros g cs Hcs.
      rewrite (compute_face_ok _ _ _ _ _ _ _ Hface), (HC _ Hcs). cbn [bind]. rewrite Er. reflexivity.
    - left. split; [intros H; apply (shares_clip _ _ _ _ C4) in H; congruence|]. intros g cs Hcs.
      rewrite (compute_face_ok _ _ _ _ _ _ _ Hface), (HC _ Hcs). reflexivity.
  Qed.

  Theorem edge_faces_exact edges : exists rows,
      (forall g csfuel n_chunks, (4 <= csfuel)%nat -> (1 <= n_chunks)%nat ->
         locate_edge_faces g csfuel edges t n_chunks = Ok rows)
      /\ NoDup (map fst rows) /\ StronglySorted Z.le (map (fun r => fst (fst r)) rows)
      /\ (forall i j c, In ((i, j), c) rows <->
           exists a b c1 c2, (0 <= i)%Z /\ nth_error edges (Z.to_nat i) = Some (a, b)
             /\ edge_face_hit t a b j c1 c2 /\ c = (Some c1, Some c2))
      /\ (forall g csfuel buffer, (4 <= csfuel)%nat -> buffer <> [] -> exists unused,
         query_loop (grow_ g)
           (fun ab index rows size => locate_edge g csfuel (compute_edge_face_intersect g csfuel t) ab t rows size index)
           (retry_fuel t) edges 0 buffer 0 0
         = Ok (rows ++ unused, zlen rows)).
  Proof.
    assert (Hf : forall ab g cs j, (4 <= cs)%nat -> (0 <= j < zlen bbc)%Z ->
       compute_edge_face_intersect g cs t j (fst ab) (snd ab) = Ok (face_hit_fun ab j)).
    { intros (a, b) g cs j Hcs Hj. cbn [fst snd]. destruct (face_at_range j Hj) as (poly & K & Hface & _).
      unfold face_hit_fun. cbn [fst snd].
      destruct (face_hit_cases a b j poly K Hj Hface) as (r & _ & [(_ & H)|(_ & H)]);
        rewrite (H g cs Hcs), (H g_any 4%nat (le_n 4)); reflexivity. }
    assert (Hh : forall ab j K, aget bbc j = Ok K -> (0 <= j < zlen bbc)%Z ->
        ~ shares (in_box K) (fst ab) (snd ab) -> face_hit_fun ab j = None).
    { intros (a, b) j K EK Hj Hn. cbn [fst snd] in *. destruct (face_at_range j Hj) as (poly & K' & Hface & _ & _ & EK').
      assert (K' = K) by congruence. subst K'. unfold face_hit_fun. cbn [fst snd].
      destruct (face_hit_cases a b j poly K Hj Hface) as (r & _ & [(_ & H)|(H & _)]); [|tauto].
      rewrite (H g_any 4%nat (le_n 4)). reflexivity. }
    destruct (edges_exact t (mt_valid _ Ht) boxes_wf (fun g cs => compute_edge_face_intersect g cs t) face_hit_fun edges)
      as (rows & H1 & H2 & H3 & H4 & H5); auto.
    { intros ab _ j K. apply Hh. }
    exists rows. split; [exact H1|]. split; auto. split; auto. split; [|exact H5].
    intros i j c. rewrite H4. split.
    - intros ((a, b) & Hi & Ei & Hj & E). destruct (face_at_range j Hj) as (poly & K & Hface & _).
      unfold face_hit_fun in E. cbn [fst snd] in E.
      destruct (face_hit_cases a b j poly K Hj Hface) as (r & Er & [(_ & H)|(Hs & H)]);
        rewrite (H g_any 4%nat (le_n 4)) in E; [discriminate|].
      destruct r as [(c1, c2)|]; [|discriminate]. exists a, b, c1, c2. inversion E; subst.
      repeat (split; auto). exists poly, K. auto.
    - intros (a & b & c1 & c2 & Hi & Ei & (poly & K & Hface & Hs & Ec) & ->).
      exists (a, b). split; auto. split; auto.
      assert (Hj : (0 <= j < zlen bbc)%Z).
      { destruct Hface as (Hj & f & _ & _ & EK). eapply nth_error_range; eauto. }
      split; auto. unfold face_hit_fun. cbn [fst snd].
      destruct (face_hit_cases a b j poly K Hj Hface) as (r & Er & [(Hn & _)|(_ & H)]); [tauto|].
      rewrite (H g_any 4%nat (le_n 4)). rewrite Ec in Er. inversion Er; subst r. reflexivity.
  Qed.
End Faces.

(* ------------------------------------------------------------------ *)
Section Network.
  Variable t : celltree R.
  Variables vs_tol : R.
  Hypothesis Hext : extent_tol (vertices t) vs_tol.
  Hypothesis Ht : network_tree vs_tol t.
  Notation bbc := (bb_coords t).

  Lemma tol_pos : 0 < vs_tol.
  Proof.
    destruct Hext as (x0 & x1 & y0 & y1 & _ & _ & _ & _ & _ & ->). rewrite nmax_R. rsimp.
    eapply Rlt_le_trans; [|apply Rmax_l]. lra.
  Qed.

  (** the global tolerance is at least that of every edge *)
  Lemma tol_local p q : In p (vertices t) -> In q (vertices t) -> seg_tol p q <= vs_tol.
  Proof.
    intros Hp Hq. destruct Hext as (x0 & x1 & y0 & y1 & _ & _ & _ & _ & HF & ->). rewrite !nmax_R. rsimp.
    rewrite Forall_forall in HF. destruct (HF p Hp) as (P1 & P2 & P3 & P4), (HF q Hq) as (Q1 & Q2 & Q3 & Q4).
    rsimp. rb. unfold seg_tol.
    assert (Hm : Rmax (Rabs (px q - px p)) (Rabs (py q - py p)) <= Rmax (x1 - x0) (y1 - y0)).
    { apply Rmax_lub; [eapply Rle_trans; [|apply Rmax_l]|eapply Rle_trans; [|apply Rmax_r]];
        apply Rabs_le; lra. }
    apply Rmax_lub; [apply Rmax_l|]. eapply Rle_trans; [|apply Rmax_r]. lra.
  Qed.

  Lemma widened_eq p q K : widened_box vs_tol p q K ->
    K = Box (Rmin (px p) (px q) - vs_tol) (Rmax (px p) (px q) + vs_tol)
            (Rmin (py p) (py q) - vs_tol) (Rmax (py p) (py q) + vs_tol).
  Proof.
    intros ((A1 & A2 & A3) & (B1 & B2 & B3) & (C1 & C2 & C3) & (D1 & D2 & D3)). rsimp. rb.
    destruct K as [k1 k2 k3 k4]; cbn [xmin xmax ymin ymax] in *.
    unfold Rmin, Rmax. destruct (Rle_dec (px p) (px q)), (Rle_dec (py p) (py q)); f_equal; lra.
  Qed.

  Lemma edge_at_range j : (0 <= j < zlen bbc)%Z -> exists p q K, edge_at_ t j p q
    /\ aget bbc j = Ok K /\ nth_error bbc (Z.to_nat j) = Some K /\ widened_box vs_tol p q K
    /\ In p (vertices t) /\ In q (vertices t).
  Proof.
    intros Hj.
    assert (Hj' : (0 <= j < zlen (elements t))%Z).
    { unfold zlen in *. rewrite (vt_elements _ (nt_valid _ _ Ht)). exact Hj. }
    destruct (aget_ok_pos (elements t) j Hj') as (e & E & En).
    destruct (Forall2_nth_l _ _ _ _ _ (nt_boxes _ _ Ht) En) as (K & EK & p & q & He & Hw).
    exists p, q, K. split; [split; [lia|]; exists e; auto|].
    split; [apply aget_pos; auto; lia|]. split; auto. split; auto.
    destruct He as (i & k & _ & _ & _ & Ei & Ek). split; eapply nth_error_In; eauto.
  Qed.

  Lemma net_boxes_wf : Forall wf_box bbc.
  Proof.
    pose proof tol_pos as Hp. pose proof (nt_boxes _ _ Ht) as H.
    induction H as [|e K l l' (p & q & _ & HT) _ IH]; constructor; auto.
    rewrite (widened_eq _ _ _ HT). split; cbn [xmin xmax ymin ymax];
      [destruct (Rmin_cases (px p) (px q)), (Rmax_cases (px p) (px q))
      |destruct (Rmin_cases (py p) (py q)), (Rmax_cases (py p) (py q))]; lra.
  Qed.

  Lemma compute_edge_ok j a b p q : edge_at_ t j p q ->
    compute_edge_edge_intersect t j a b =
    (let* r := lines_intersect a b p q in
     let '(intersects, c) := r in Ok (if intersects : bool then Some (c, c) else None)).
  Proof.
    intros (Hj & e & Ee & i & k & -> & Hi & Hk & Ei & Ek). unfold compute_edge_edge_intersect.
    rewrite (aget_pos _ _ _ Hj Ee). cbn [bind].
    change (aget [i; k] 0%Z) with (Ok i). change (aget [i; k] 1%Z) with (Ok k). cbn [bind].
    rewrite (aget_pos _ _ _ Hi Ei), (aget_pos _ _ _ Hk Ek). reflexivity.
  Qed.

  Lemma edge_at_fun j p q p' q' : edge_at_ t j p q -> edge_at_ t j p' q' -> p = p' /\ q = q'.
  Proof.
    intros (_ & e & E & H) (_ & e' & E' & H'). rewrite E in E'. inversion E'; subst e'.
    eapply edge_of_fun; eauto.
  Qed.

  Definition edge_hit_fun (ab : pt * pt) (j : Z) : option (option pt * option pt) :=
    match compute_edge_edge_intersect t j (fst ab) (snd ab) with Ok r => r | Err _ => None end.

  Lemma edge_hit_total ab j : (0 <= j < zlen bbc)%Z ->
    compute_edge_edge_intersect t j (fst ab) (snd ab) = Ok (edge_hit_fun ab j).
  Proof.
    intros Hj. destruct (edge_at_range j Hj) as (p & q & K & He & _).
    unfold edge_hit_fun. rewrite (compute_edge_ok _ _ _ _ _ He).
    destruct (lines_intersect_total (fst ab) (snd ab) p q) as ((x, c) & ->). reflexivity.
  Qed.

  Lemma edge_hit_iff ab j : (0 <= j < zlen bbc)%Z -> forall c, edge_hit_fun ab j = Some c <->
    exists x, edge_edge_hit t (fst ab) (snd ab) j x /\ c = (x, x).
  Proof.
    intros Hj c. destruct (edge_at_range j Hj) as (p & q & K & He & _).
    unfold edge_hit_fun. rewrite (compute_edge_ok _ _ _ _ _ He).
    destruct (lines_intersect_total (fst ab) (snd ab) p q) as ((x, xy) & E). rewrite E. cbn [bind]. split.
    - destruct x; [|discriminate]. intros H. inversion H; subst. exists xy. split; auto. exists p, q. auto.
    - intros (y & (p' & q' & He' & E') & ->). destruct (edge_at_fun _ _ _ _ _ He He'); subst p' q'.
      rewrite E in E'. inversion E'; subst. reflexivity.
  Qed.

  Theorem edge_edges_exact edges : exists rows,
      (forall g csfuel n_chunks, (4 <= csfuel)%nat -> (1 <= n_chunks)%nat ->
         locate_edge_edges g csfuel edges t n_chunks = Ok rows)
      /\ NoDup (map fst rows) /\ StronglySorted Z.le (map (fun r => fst (fst r)) rows)
      /\ (forall i j c, In ((i, j), c) rows <->
           exists a b x, (0 <= i)%Z /\ nth_error edges (Z.to_nat i) = Some (a, b)
             /\ edge_edge_hit t a b j x /\ c = (x, x))
      /\ (forall g csfuel buffer, (4 <= csfuel)%nat -> buffer <> [] -> exists unused,
         query_loop (grow_ g)
           (fun ab index rows size => locate_edge g csfuel (compute_edge_edge_intersect t) ab t rows size index)
           (retry_fuel t) edges 0 buffer 0 0
         = Ok (rows ++ unused, zlen rows)).
  Proof.
    destruct (edges_exact t (nt_valid _ _ Ht) net_boxes_wf (fun g cs => compute_edge_edge_intersect t) edge_hit_fun edges)
      as (rows & H1 & H2 & H3 & H4 & H5).
    - intros ab _ g cs e _ He. now apply edge_hit_total.
    - intros (a, b) _ j K EK Hj Hn. cbn [fst snd] in *.
      destruct (edge_hit_fun (a, b) j) as [c|] eqn:E; auto. exfalso. apply Hn.
      apply (edge_hit_iff (a, b) j Hj) in E as (x & (p & q & He & El) & _). cbn [fst snd] in El.
      destruct (edge_at_range j Hj) as (p' & q' & K' & He' & EK' & _ & Hw & Hp & Hq).
      destruct (edge_at_fun _ _ _ _ _ He He'); subst p' q'. assert (K' = K) by congruence. subst K'.
      destruct (true_near a b p q x El) as (Hab & _ & s & u & Hs & _ & Bx & By & _).
      pose proof (tol_local p q Hp Hq) as Hl. rewrite (widened_eq _ _ _ Hw).
      apply (inside_shares _ a b s); auto; cbn [xmin xmax ymin ymax]; lra.
    - exists rows. split; [exact H1|]. split; auto. split; auto. split; [|exact H5].
      intros i j c. rewrite H4. split.
      + intros ((a, b) & Hi & Ei & Hj & E). apply (edge_hit_iff _ _ Hj) in E as (x & Hx & ->).
        exists a, b, x. auto.
      + intros (a & b & x & Hi & Ei & Hx & ->). exists (a, b). split; auto. split; auto.
        assert (Hj : (0 <= j < zlen bbc)%Z).
        { destruct Hx as (p & q & (Hj & e & Ee & _) & _). apply nth_error_range in Ee; auto.
          unfold zlen in *. now rewrite (vt_elements _ (nt_valid _ _ Ht)) in Ee. }
        split; auto. apply (edge_hit_iff (a, b) j Hj). exists x. auto.
  Qed.
End Network.
