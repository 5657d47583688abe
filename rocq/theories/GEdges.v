(** Edge queries over exact reals equal brute force. *)
From Verif Require Import RBase MGeometry MCreation MAlgorithms MQuery MCelltree
  PStack PPartition SpecTree PBuild PWalk PCollect SpecQuery SpecApi PQuery PMesh PInit NumSub PPoints
  PApi PEdges GBox.
From Coq Require Import Sorted.
Open Scope R_scope.

(** the segment and the set have more than one point in common *)
Definition shares (S : pt -> Prop) (a b : pt) : Prop :=
  exists x y, x <> y /\ on_segment a b x /\ on_segment a b y /\ S x /\ S y.

Lemma shares_clip S a b r : clip_result S a b r -> (shares S a b <-> r <> None).
Proof.
  destruct r as [(c, d)|]; simpl.
  - intros (Hne & s & t & H0 & H1 & -> & -> & H). split; [discriminate|]. intros _.
    exists (at_ a b s), (at_ a b t). split; [intros E; apply at_inj in E; auto; lra|].
    split; [exists s; split; auto; lra|]. split; [exists t; split; auto; lra|].
    split; apply H; lra.
  - intros H. split; [|congruence]. intros (x & y & Hn & Hx & Hy & Sx & Sy). exfalso. auto.
Qed.

(* ------------------------------------------------------------------ *)
(** ** The traversal test of an edge is the box test of its bounding box *)

Definition seg_box (a b : pt) : bx :=
  Box (Rmin (px a) (px b)) (Rmax (px a) (px b)) (Rmin (py a) (py b)) (Rmax (py a) (py b)).

Lemma seg_in_box a b x : on_segment a b x -> in_box (seg_box a b) x.
Proof.
  intros (t & Ht & ->). unfold in_box, seg_box, at_; cbn [px py xmin xmax ymin ymax].
  pose proof (Rmin_l (px a) (px b)). pose proof (Rmin_r (px a) (px b)).
  pose proof (Rmax_l (px a) (px b)). pose proof (Rmax_r (px a) (px b)).
  pose proof (Rmin_l (py a) (py b)). pose proof (Rmin_r (py a) (py b)).
  pose proof (Rmax_l (py a) (py b)). pose proof (Rmax_r (py a) (py b)).
  split; split; first [apply comb_ge; lra | apply comb_le; lra].
Qed.

Lemma edge_children_box a b (nd : node R) : edge_children a b nd = box_children (seg_box a b) nd.
Proof.
  assert (G : forall a_ b_ L r : R,
    (let dx := b_ - a_ in
     let dx_left := if Rlt_bool 0 dx then L - a_ else L - b_ in
     let dx_right := if Rlt_bool 0 dx then r - b_ else r - a_ in
     let left := Rle_bool 0 dx_left in
     let right := Rle_bool dx_right 0 in
     (if Rlt_bool 0 dx then
        let* left := if left then let* t_left := ndiv dx_left dx in Ok (Rle_bool 0 t_left)
                     else Ok false in
        let* right := if right then let* t_right := ndiv dx_right dx in Ok (Rle_bool t_right 1)
                      else Ok false in
        Ok (left, right)
      else if Rlt_bool dx 0 then
        let* left := if left then let* t_left := ndiv dx_left dx in Ok (Rle_bool 0 (1 - t_left))
                     else Ok false in
        let* right := if right then let* t_right := ndiv dx_right dx in Ok (Rle_bool (1 - t_right) 1)
                      else Ok false in
        Ok (left, right)
      else Ok (left, right)))
    = Ok (Rle_bool (Rmin a_ b_) L, Rle_bool r (Rmax a_ b_))).
  { intros a_ b_ L r. cbv zeta.
    destruct (Rlt_bool_spec 0 (b_ - a_)) as [Hd|Hd].
    - rewrite Rmin_left, Rmax_right by lra.
      assert (Hdiv : forall x, ndiv x (b_ - a_) = Ok (x / (b_ - a_))).
      { intros x. unfold ndiv. rsimp. rewrite Req_bool_false by lra. reflexivity. }
      assert (HL : (if Rle_bool 0 (L - a_) then let* t_left := ndiv (L - a_) (b_ - a_) in Ok (Rle_bool 0 t_left)
                    else Ok false) = Ok (Rle_bool a_ L)).
      { rcase; [|rewrite Rle_bool_false by lra; reflexivity].
        rewrite Hdiv. cbn [bind]. rewrite !Rle_bool_true; auto; try lra.
        apply Rmult_le_pos; [lra|]. left. apply Rinv_0_lt_compat. lra. }
      assert (HR : (if Rle_bool (r - b_) 0 then let* t_right := ndiv (r - b_) (b_ - a_) in Ok (Rle_bool t_right 1)
                    else Ok false) = Ok (Rle_bool r b_)).
      { rcase; [|rewrite Rle_bool_false by lra; reflexivity].
        rewrite Hdiv. cbn [bind]. rewrite !Rle_bool_true; auto; try lra.
        apply (Rmult_le_reg_r (b_ - a_)); [lra|]. unfold Rdiv. rewrite Rmult_assoc, Rinv_l; lra. }
      rewrite HL, HR. reflexivity.
    - destruct (Rlt_bool_spec (b_ - a_) 0) as [Hd'|Hd'].
      + rewrite Rmin_right, Rmax_left by lra.
        assert (Hdiv : forall x, ndiv x (b_ - a_) = Ok (x / (b_ - a_))).
        { intros x. unfold ndiv. rsimp. rewrite Req_bool_false by lra. reflexivity. }
        assert (Hi : / (b_ - a_) < 0) by (apply Rinv_lt_0_compat; lra).
        assert (HL : (if Rle_bool 0 (L - b_) then let* t_left := ndiv (L - b_) (b_ - a_) in Ok (Rle_bool 0 (1 - t_left))
                    else Ok false) = Ok (Rle_bool b_ L)).
        { rcase; [|rewrite Rle_bool_false by lra; reflexivity].
          rewrite Hdiv. cbn [bind]. rewrite !Rle_bool_true; auto; try lra.
          unfold Rdiv. assert (0 <= (L - b_) * - / (b_ - a_)) by (apply Rmult_le_pos; lra). lra. }
        assert (HR : (if Rle_bool (r - a_) 0 then let* t_right := ndiv (r - a_) (b_ - a_) in Ok (Rle_bool (1 - t_right) 1)
                    else Ok false) = Ok (Rle_bool r a_)).
        { rcase; [|rewrite Rle_bool_false by lra; reflexivity].
          rewrite Hdiv. cbn [bind]. rewrite !Rle_bool_true; auto; try lra.
          unfold Rdiv. assert (0 <= (- (r - a_)) * - / (b_ - a_)) by (apply Rmult_le_pos; lra). lra. }
        rewrite HL, HR. reflexivity.
      + replace b_ with a_ by lra. rewrite Rmin_left, Rmax_left by lra.
        do 2 f_equal; repeat rcase; auto; lra. }
  unfold edge_children, box_children, seg_box, to_vector, pcoord, bmin, bmax.
  destruct (ndim nd); rsimp; rewrite G; reflexivity.
Qed.

(** the box of the segment and the box are apart in some direction *)
Definition boxes_apart (a b : pt) (K : bx) : Prop :=
  exists d, side_hi d K < side_lo d (seg_box a b) \/ side_hi d (seg_box a b) < side_lo d K.

Lemma apart_no_share a b K : boxes_apart a b K -> ~ shares (in_box K) a b.
Proof.
  intros (d & H) (x & _ & _ & Hx & _ & Kx & _). apply seg_in_box in Hx.
  destruct Hx as ((H1 & H2) & (H3 & H4)), Kx as ((K1 & K2) & (K3 & K4)).
  destruct d; simpl in H, H1, H2, H3, H4; unfold seg_box in *; simpl in *; lra.
Qed.

Section EdgeTree.
  Variable tree : celltree R.
  Hypothesis Hv : valid_tree tree.
  Notation bbc := (bb_coords tree).

  Lemma wf_of_finite_within : Forall wf_box bbc -> wf_box (bbox tree).
  Proof.
    intros H. pose proof (vt_bbox _ Hv) as Hb. pose proof (vt_nonempty _ Hv) as Hn.
    destruct bbc as [|K l]; [simpl in Hn; lia|]. inversion H as [|? ? (W1 & W2) ?]; subst.
    inversion Hb as [|? ? (B1 & B2 & B3 & B4) ?]; subst. rsimp. rb. split; lra.
  Qed.

  Hypothesis Hwf : Forall wf_box bbc.

  (** one query edge, for an element test that needs the segment to enter the
      element's box *)
  Lemma edge_exact (f : garbage R -> nat -> Z -> pt -> pt -> res (option (option pt * option pt)))
        (h : Z -> option (option pt * option pt)) (a b : pt) :
    (forall g cs e, (4 <= cs)%nat -> (0 <= e < zlen bbc)%Z -> f g cs e a b = Ok (h e)) ->
    (forall e K, aget bbc e = Ok K -> (0 <= e < zlen bbc)%Z -> ~ shares (in_box K) a b -> h e = None) ->
    exists js, NoDup js /\ (length js <= length bbc)%nat
      /\ (forall j, In j js <-> (0 <= j < zlen bbc)%Z /\ h j <> None)
      /\ forall g csfuel index, (4 <= csfuel)%nat ->
         runs (fun rows size => locate_edge g csfuel (f g csfuel) (a, b) tree rows size index)
              (rows_at h index js).
  Proof.
    intros Hf Hh.
    destruct (cohen_sutherland_exact (bbox tree) (wf_of_finite_within Hwf) 4 a b (le_n 4)) as (c & Ec4 & Hc).
    assert (Ec : forall cs, (4 <= cs)%nat -> cohen_sutherland_line_box_clip cs a b (bbox tree) = Ok c).
    { intros cs Hcs. destruct (cohen_sutherland_exact (bbox tree) (wf_of_finite_within Hwf) cs a b Hcs) as (c' & E' & Hc').
      rewrite E'. f_equal. eapply clip_result_fun; eauto. }
    destruct (locate_edge_runs tree Hv (fun cs => (4 <= cs)%nat) f h a b
                (fun e => forall K, aget bbc e = Ok K -> boxes_apart a b K) c Hf Ec)
      as (vis & prn & Hp & HP & Hvis & Hr).
    - intros nd l e K Hch Hin Ek Hle K' Ek'. rewrite Ek in Ek'. inversion Ek'; subst K'.
      rewrite edge_children_box in Hch. apply (box_children_left _ _ _ Hch) in Hin.
      exists (ndim nd). left. rsimp. rb. unfold bmin, side_lo in *. destruct (ndim nd); lra.
    - intros nd l e K Hch Hin Ek Hle K' Ek'. rewrite Ek in Ek'. inversion Ek'; subst K'.
      rewrite edge_children_box in Hch. apply (box_children_right _ _ _ Hch) in Hin.
      exists (ndim nd). right. rsimp. rb. unfold bmax, side_hi in *. destruct (ndim nd); lra.
    - intros nd. rewrite edge_children_box. apply box_children_good.
    - assert (Hpin : forall e, In e prn -> (0 <= e < zlen bbc)%Z).
      { intros e He. assert (In e (iota (length bbc))) by
          (apply (Permutation_in _ (Permutation_sym Hp)); apply in_or_app; auto).
        apply iota_in in H. exact H. }
      assert (Hprn : forall e, In e prn -> h e = None).
      { intros e He. specialize (Hpin e He). destruct (aget_ok_pos bbc e Hpin) as (K & EK & EKn).
        apply (Hh e K EK Hpin). destruct HP as [-> | HP].
        - intros Hs. assert (shares (in_box (bbox tree)) a b).
          { destruct Hs as (x & y & Hn & Hx & Hy & Kx & Ky). exists x, y.
            pose proof (vt_bbox _ Hv) as Hb. rewrite Forall_forall in Hb.
            destruct (Hb K (nth_error_In _ _ EKn)) as (B1 & B2 & B3 & B4). rsimp. rb.
            destruct Kx as ((X1 & X2) & X3 & X4), Ky as ((Y1 & Y2) & Y3 & Y4).
            split; auto. split; auto. split; auto. unfold in_box. repeat split; lra. }
          apply (shares_clip _ _ _ _ Hc) in H. congruence.
        - apply apart_no_share. rewrite Forall_forall in HP. exact (HP e He K EK). }
      exists (filter (is_hit h) vis). split.
      { apply NoDup_filter. assert (NoDup (vis ++ prn)) by (eapply Permutation_NoDup; [exact Hp|apply iota_nodup]).
        clear - H. induction vis as [|x t IH]; [constructor|]. inversion H; subst. constructor; auto.
        intros Hx. apply H2. apply in_or_app; auto. }
      split.
      { pose proof (filter_length_le (is_hit h) vis). apply Permutation_length in Hp.
        rewrite app_length, iota_length in Hp. lia. }
      split.
      { intros j. rewrite filter_In. split.
        - intros (Hj & Hit). split.
          + assert (In j (iota (length bbc))) by
              (apply (Permutation_in _ (Permutation_sym Hp)); apply in_or_app; auto).
            apply iota_in in H. exact H.
          + unfold is_hit in Hit. destruct (h j); discriminate.
        - intros (Hj & Hn). split; [|unfold is_hit; destruct (h j); congruence].
          assert (In j (vis ++ prn)) by (apply (Permutation_in _ Hp); apply iota_in; exact Hj).
          apply in_app_or in H as [H|H]; auto. apply Hprn in H. congruence. }
      intros g csfuel index Hcs. rewrite rows_at_filter. now apply Hr.
  Qed.

  (** all query edges *)
  Theorem edges_exact (f : garbage R -> nat -> Z -> pt -> pt -> res (option (option pt * option pt)))
        (hh : pt * pt -> Z -> option (option pt * option pt)) edges :
    (forall ab, In ab edges -> forall g cs e, (4 <= cs)%nat -> (0 <= e < zlen bbc)%Z -> f g cs e (fst ab) (snd ab) = Ok (hh ab e)) ->
    (forall ab, In ab edges -> forall e K, aget bbc e = Ok K -> (0 <= e < zlen bbc)%Z ->
        ~ shares (in_box K) (fst ab) (snd ab) -> hh ab e = None) ->
    exists rows, (forall g csfuel n_chunks, (4 <= csfuel)%nat -> (1 <= n_chunks)%nat ->
         locate_edges g csfuel (f g csfuel) edges tree n_chunks = Ok rows)
      /\ NoDup (map fst rows) /\ StronglySorted Z.le (map (fun r => fst (fst r)) rows)
      /\ (forall i j c, In ((i, j), c) rows <->
           exists ab, (0 <= i)%Z /\ nth_error edges (Z.to_nat i) = Some ab /\ (0 <= j < zlen bbc)%Z
             /\ hh ab j = Some c)
      /\ (forall g csfuel buffer, (4 <= csfuel)%nat -> buffer <> [] -> exists unused,
         query_loop (grow_ g)
           (fun ab index rows size => locate_edge g csfuel (f g csfuel) ab tree rows size index)
           (retry_fuel tree) edges 0 buffer 0 0
         = Ok (rows ++ unused, zlen rows)).
  Proof.
    intros Hf Hh.
    destruct (edges_chunks tree (fun cs => (4 <= cs)%nat) f hh
       (fun ab js => NoDup js /\ forall j, In j js <-> (0 <= j < zlen bbc)%Z /\ hh ab j <> None) edges)
      as (jss & HF & Hrun & Hbuf).
    { intros (a, b) Hab. destruct (edge_exact f (hh (a, b)) a b) as (js & H1 & H2 & H3 & H4).
      - intros g cs e Hcs He. exact (Hf (a, b) Hab g cs e Hcs He).
      - exact (Hh (a, b) Hab).
      - exists js. auto. }
    eexists. split; [exact Hrun|].
    assert (HN : Forall (@NoDup Z) jss).
    { clear - HF. induction HF as [|? ? ? ? (H & _)]; constructor; auto. }
    destruct (qrows_nodup hh edges jss HN) as (H1 & H2). split; [exact H1|]. split; [exact H2|].
    split.
    - intros i j c. rewrite qrows_in by (symmetry; eapply F2_length; exact HF). split.
      + intros (ab & js & Hi & E1 & E2 & Hj & Ec). exists ab. split; auto. split; auto.
        destruct (Forall2_nth _ _ _ _ _ _ HF E1 E2) as (_ & Hs). apply Hs in Hj. tauto.
      + intros (ab & Hi & E1 & Hj & Ec). destruct (Forall2_nth_l _ _ _ _ _ HF E1) as (js & E2 & _ & Hs).
        exists ab, js. do 3 (split; auto). split; auto. apply Hs. split; auto. congruence.
    - intros g csfuel buffer Hcs Hb. destruct (Hbuf g csfuel buffer 0%Z Hcs Hb) as (unused & E). exists unused.
      replace (map (Z.add 0) (iota (length edges))) with (iota (length edges)) in E
        by (rewrite <- (map_id (iota (length edges))) at 1; apply map_ext; intros; lia).
      exact E.
  Qed.
End EdgeTree.
