(** locate_points in binary64, compared with exact geometry. *)
From Coq Require Import Reals Lra Psatz Permutation.
From Flocq Require Import IEEE754.BinarySingleNaN Core.
From Verif Require Import RBase NumB64 NumSub NumRoom FBase FBuild MUtils MGeometry MCreation MQuery MCelltree SpecTree SpecQuery SpecApi PMesh PInit PBuild PPoints PApi
  SpecPoly SpecMesh GTriangle GConvex GHull GRay GArea GFaces FMesh FPoint.
Open Scope R_scope.

(** ** Ray casting does not depend on the orientation *)
Lemma upx_swap p u v : upx p (v, u) = downx p (u, v).
Proof. unfold upx, downx, up, down. cbn [fst snd]. unfold orient. repeat rcase; cbn; try reflexivity; exfalso; lra. Qed.
Lemma downx_swap p u v : downx p (v, u) = upx p (u, v).
Proof. symmetry. apply upx_swap. Qed.

Lemma par_perm {A} (f : A -> bool) l l' : Permutation l l' -> par f l = par f l'.
Proof.
  unfold par. induction 1; cbn in *; auto; try congruence.
  destruct (f x), (f y), (fold_right (fun z b => xorb (f z) b) false l); reflexivity.
Qed.

Lemma inside_swap p E : inside p (map (fun e => (snd e, fst e)) E) = inside p E.
Proof.
  induction E as [|(u, v) E IH]; auto. cbn [map fst snd]. rewrite !inside_cons, IH. rewrite (upx_swap p u v), (downx_swap p u v).
  destruct (upx p (u, v)), (downx p (u, v)); reflexivity.
Qed.

Lemma inside_rev p poly : inside p (poly_edges (rev poly)) = inside p (poly_edges poly).
Proof.
  rewrite <- (inside_swap p (poly_edges poly)). unfold inside.
  rewrite <- !(par_perm _ _ _ (edges_rev_perm poly)). reflexivity.
Qed.

Lemma inside_hull p poly : convex poly -> inside p (poly_edges poly) = true -> hull poly p.
Proof.
  intros [H|H] Hi.
  - apply in_poly_hull; auto. now apply inside_in_poly.
  - apply hull_rev. apply in_poly_hull; auto. apply inside_in_poly; auto. now rewrite inside_rev.
Qed.
Lemma inside_open_hull p poly : convex poly -> open_hull poly p -> inside p (poly_edges poly) = true.
Proof.
  intros [H|H] Hi.
  - apply inside_interior; auto. now apply interior_open_hull.
  - rewrite <- inside_rev. apply inside_interior; auto. apply interior_open_hull; auto. now apply open_hull_rev.
Qed.

Lemma side_ok_sym u v : side_ok u v -> side_ok v u.
Proof.
  unfold side_ok. rewrite (Rabs_minus_sym (py v)), (Rabs_minus_sym (px v)). intros [H|(H & H')]; [now left|right; now split].
Qed.
Lemma side_ok_neq u v : side_ok u v -> u <> v.
Proof.
  pose proof (bpow_gt_0 radix2 (-250)). unfold side_ok. intros Hs ->.
  rewrite !Rminus_eq_0, Rabs_R0 in Hs. lra.
Qed.

Lemma map_last {A B} (f : A -> B) : forall l d d', l <> [] -> last (map f l) d' = f (last l d).
Proof.
  induction l as [|x l IH]; intros d d' H; [congruence|]. destruct l as [|y l]; [reflexivity|].
  change (last (map f (y :: l)) d' = f (last (y :: l) d)). now apply IH.
Qed.

Section Locate.
  Variable k : Z.
  Hypothesis Hk : (-150 <= k <= 250)%Z.
  Notation bpt := (bpt k).

  Definition near_chain (r : R) (E : list (pt * pt)) (p : pt) : Prop :=
    exists u v, In (u, v) E /\ near_segment r u v p.
  Lemma near_chain_cons r e E p : near_chain r E p -> near_chain r (e :: E) p.
  Proof. intros (u & v & H & Hn). exists u, v. split; [now right|auto]. Qed.

  Section Loop.
    Variables (p : point b64) (tol : b64).
    Hypotheses (Hp : bpt p) (Bt : bounded k tol) (Htol : 0 <= B2R tol).

    Lemma loop_agree : forall l v0 c b, bpt v0 -> Forall bpt l ->
      (forall u v, In (u, v) (chain (rp v0) (map rp l)) -> side_ok u v) ->
      pip_or_edge_loop p tol v0 (to_vector p v0) l c = Ok b ->
      near_chain (bpow radix2 (k - 49)) (chain (rp v0) (map rp l)) (rp p)
      \/ b = xorb c (inside (rp p) (chain (rp v0) (map rp l)))
      \/ b = true /\ near_chain (2 * B2R tol + bpow radix2 (k - 48)) (chain (rp v0) (map rp l)) (rp p).
    Proof.
      induction l as [|v1 l IH]; intros v0 c b H0 Hl Hs E.
      - right. left. cbn in E. apply Ok_inj in E. cbn. now rewrite xorb_false_r.
      - cbn [pip_or_edge_loop] in E. cbv zeta in E. inversion Hl as [|? ? H1 Hl']; subst.
        cbn [map chain] in *. assert (Hs1 : side_ok (rp v0) (rp v1)) by (apply Hs; now left).
        assert (En : point_eqb v1 v0 = false).
        { destruct (point_eqb v1 v0) eqn:En; auto. unfold point_eqb in En. destruct H0 as (A0 & B0), H1 as (A1 & B1).
          rewrite !neqb_B in En by (apply A0 || apply B0 || apply A1 || apply B1). rb.
          destruct (side_ok_neq _ _ Hs1). unfold rp. f_equal; congruence. }
        rewrite En in E.
        destruct (within_perpendicular_distance _ _ _ && in_bounds p v0 v1) eqn:Ew.
        + apply Ok_inj in E. subst b. right. right. split; auto. apply andb_prop in Ew as (E1 & E2).
          exists (rp v0), (rp v1). split; [now left|]. now apply near_sound.
        + destruct (crosses_agree k Hk p v0 v1 Hp H0 H1 Hs1) as [Hc|Hc].
          * rewrite Hc, crosses_eq in E. cbn [bind] in E.
            destruct (IH v1 _ b H1 Hl' (fun u v H => Hs u v (or_intror H)) E) as [H|[H|(Hb & H)]].
            -- left. now apply near_chain_cons.
            -- right. left. rewrite inside_cons, H.
               destruct (xorb (upx (rp p) (rp v0, rp v1)) (downx (rp p) (rp v0, rp v1))), c, (inside (rp p) (chain (rp v1) (map rp l))); reflexivity.
            -- right. right. split; auto. now apply near_chain_cons.
          * left. exists (rp v0), (rp v1). split; [now left|auto].
    Qed.

    Lemma pip_agree poly b : poly <> [] -> Forall bpt poly ->
      (forall u v, In (u, v) (poly_edges (map rp poly)) -> side_ok u v) ->
      point_in_polygon_or_on_edge p poly tol = Ok b ->
      near_boundary (bpow radix2 (k - 49)) (map rp poly) (rp p)
      \/ b = inside (rp p) (poly_edges (map rp poly))
      \/ b = true /\ near_boundary (2 * B2R tol + bpow radix2 (k - 48)) (map rp poly) (rp p).
    Proof.
      intros Hn Hb Hs E. unfold point_in_polygon_or_on_edge in E. destruct (exists_last Hn) as (l & v & ->).
      rewrite aget_last in E. cbn [bind] in E.
      assert (El : last (map rp (l ++ [v])) (Pt 0 0) = rp v) by (rewrite map_app; apply last_last).
      unfold near_boundary, poly_edges in *. rewrite El in *.
      assert (Bv : bpt v) by (rewrite Forall_forall in Hb; apply Hb; apply in_or_app; right; now left).
      destruct (loop_agree _ v false b Bv Hb Hs E) as [H|[H|H]]; [left; exact H|right; left|right; right; exact H].
      now rewrite xorb_false_l in H.
    Qed.

    Lemma near_larger r r' u v q : 0 <= r <= r' -> near_segment r u v q -> near_segment r' u v q.
    Proof.
      intros Hr (z & Hz & Hd). exists z. split; auto. eapply Rle_trans; [exact Hd|]. apply Rmult_le_compat; lra.
    Qed.

    Lemma pip_float_sound poly : convex (map rp poly) -> Forall bpt poly ->
      (forall u v, In (u, v) (poly_edges (map rp poly)) -> side_ok u v) ->
      point_in_polygon_or_on_edge p poly tol = Ok true ->
      hull (map rp poly) (rp p) \/ near_boundary (2 * B2R tol + bpow radix2 (k - 48)) (map rp poly) (rp p).
    Proof.
      intros Hc Hb Hs E. assert (Hn : poly <> []).
      { intros ->. destruct Hc as [(H & _)|(H & _)]; cbn in H; lia. }
      destruct (pip_agree poly true Hn Hb Hs E) as [(u & v & He & H)|[H|(_ & H)]]; auto.
      - right. exists u, v. split; auto. eapply near_larger; [|exact H].
        pose proof (bpow_ge_0 radix2 (k - 49)). assert (bpow radix2 (k - 49) <= bpow radix2 (k - 48)) by (apply bpow_le; lia). lra.
      - left. apply inside_hull; auto.
    Qed.

    Lemma pip_float_complete poly : convex (map rp poly) -> Forall bpt poly ->
      (forall u v, In (u, v) (poly_edges (map rp poly)) -> side_ok u v) ->
      open_hull (map rp poly) (rp p) -> ~ near_boundary (bpow radix2 (k - 49)) (map rp poly) (rp p) ->
      point_in_polygon_or_on_edge p poly tol = Ok true.
    Proof.
      intros Hc Hb Hs Ho Hf. assert (Hn : poly <> []).
      { intros ->. destruct Hc as [(H & _)|(H & _)]; cbn in H; lia. }
      destruct (pip_total p poly tol Hn) as (b & E).
      { eapply Forall_impl; [|exact Hb]. intros q ((A & _) & (B & _)). now split. }
      rewrite E. f_equal. destruct (pip_agree poly b Hn Hb Hs E) as [H|[H|(H & _)]]; [contradiction| |exact H].
      rewrite H. now apply inside_open_hull.
    Qed.

    (** ** A point of a face away from its corners is found *)
    Lemma m16 : bpow radix2 (k - 49) = 16 * (uro * bpow radix2 k).
    Proof. replace (k - 49)%Z with (4 + -53 + k)%Z by lia. rewrite !bpow_plus. unfold uro. change (bpow radix2 4) with 16. ring. Qed.
    Lemma m64 : bpow radix2 (k - 47) = 64 * (uro * bpow radix2 k).
    Proof. replace (k - 47)%Z with (6 + -53 + k)%Z by lia. rewrite !bpow_plus. unfold uro. change (bpow radix2 6) with 64. ring. Qed.

    Definition far (q w : pt) : Prop := bpow radix2 (k - 47) * bpow radix2 (k - 47) < dist2 q w.

    Lemma loop_near (Ht : bpow radix2 (k - 47) <= B2R tol) : forall l v0 c b, bpt v0 -> Forall bpt l ->
      (forall u v, In (u, v) (chain (rp v0) (map rp l)) -> side_ok u v) ->
      far (rp p) (rp v0) -> Forall (fun w => far (rp p) (rp w)) l ->
      near_chain (bpow radix2 (k - 49)) (chain (rp v0) (map rp l)) (rp p) ->
      pip_or_edge_loop p tol v0 (to_vector p v0) l c = Ok b -> b = true.
    Proof.
      induction l as [|v1 l IH]; intros v0 c b H0 Hl Hs F0 Fl Hn E; [destruct Hn as (? & ? & [] & _)|].
      cbn [pip_or_edge_loop] in E. cbv zeta in E. inversion Hl as [|? ? H1 Hl']; subst. inversion Fl as [|? ? F1 Fl']; subst.
      cbn [map chain] in *. assert (Hs1 : side_ok (rp v0) (rp v1)) by (apply Hs; now left).
      assert (En : point_eqb v1 v0 = false).
      { destruct (point_eqb v1 v0) eqn:En; auto. unfold point_eqb in En. destruct H0 as (A0 & B0), H1 as (A1 & B1).
        rewrite !neqb_B in En by (apply A0 || apply B0 || apply A1 || apply B1). rb.
        destruct (side_ok_neq _ _ Hs1). unfold rp. f_equal; congruence. }
      rewrite En in E.
      destruct (within_perpendicular_distance _ _ _ && in_bounds p v0 v1) eqn:Ew; [now apply Ok_inj in E|].
      apply bind_ok in E as (x & _ & E). destruct Hn as (u & v & [He|He] & Hn).
      - exfalso. injection He as <- <-. rewrite m16 in Hn. unfold far in F0, F1. rewrite m64 in F0, F1, Ht.
        destruct (near_complete k Hk p v0 v1 tol Hp H0 H1 Bt Ht Hn F0 F1) as (A & B). rewrite A, B in Ew. discriminate.
      - apply (IH v1 _ b H1 Hl' (fun u v H => Hs u v (or_intror H)) F1 Fl') in E; auto. exists u, v. auto.
    Qed.

    Lemma hull_near poly q : convex poly -> hull poly q -> open_hull poly q \/ near_boundary 0 poly q.
    Proof.
      assert (G : forall poly, convex_ccw poly -> hull poly q -> open_hull poly q \/ near_boundary 0 poly q).
      { intros l Hc Hh. apply in_poly_hull in Hh; auto. destruct (in_poly_cases _ _ Hh) as [Hi|(u & v & He & Ho)].
        - left. now apply interior_open_hull.
        - right. exists u, v. split; auto. exists q. split; [eapply on_side; eauto|]. unfold dist2. rewrite !Rminus_eq_0. lra. }
      intros [Hc|Hc] Hh; [now apply G|]. destruct (G (rev poly) Hc) as [H|H].
      - now apply hull_rev.
      - left. now apply open_hull_rev.
      - right. now apply near_boundary_rev.
    Qed.

    Lemma pip_float_hull poly : convex (map rp poly) -> Forall bpt poly ->
      (forall u v, In (u, v) (poly_edges (map rp poly)) -> side_ok u v) ->
      bpow radix2 (k - 47) <= B2R tol ->
      hull (map rp poly) (rp p) -> (forall w, In w (map rp poly) -> far (rp p) w) ->
      point_in_polygon_or_on_edge p poly tol = Ok true.
    Proof.
      intros Hc Hb Hs Ht Ho Hf. assert (Hn : poly <> []).
      { intros ->. destruct Hc as [(H & _)|(H & _)]; cbn in H; lia. }
      destruct (pip_total p poly tol Hn) as (b & E).
      { eapply Forall_impl; [|exact Hb]. intros q ((A & _) & (B & _)). now split. }
      rewrite E. f_equal. pose proof (bpow_ge_0 radix2 (k - 49)) as P49.
      assert (N : near_boundary (bpow radix2 (k - 49)) (map rp poly) (rp p) -> b = true).
      { intros HN. unfold point_in_polygon_or_on_edge in E. destruct (exists_last Hn) as (l & v & ->).
        rewrite aget_last in E. cbn [bind] in E.
        assert (El : last (map rp (l ++ [v])) (Pt 0 0) = rp v) by (rewrite map_app; apply last_last).
        unfold near_boundary, poly_edges in *. rewrite El in *.
        assert (Iv : In v (l ++ [v])) by (apply in_or_app; right; now left).
        assert (Bv : bpt v) by (rewrite Forall_forall in Hb; now apply Hb).
        eapply (loop_near Ht (l ++ [v]) v false b Bv Hb Hs); auto.
        - apply Hf. now apply in_map.
        - apply Forall_forall. intros w Hw. apply Hf. now apply in_map. }
      destruct (pip_agree poly b Hn Hb Hs E) as [H|[H|(H & _)]]; auto.
      destruct (hull_near _ _ Hc Ho) as [Hi|(u & v & He & Hi)].
      - rewrite H. now apply inside_open_hull.
      - apply N. exists u, v. split; auto. eapply near_larger; [|exact Hi]. lra.
    Qed.
  End Loop.

  (* ---------------------------------------------------------------- *)
  (** ** The stored mesh *)
  Lemma poly_of_map vs f (poly : list (point b64)) : poly_of vs f poly -> poly_of (map rp vs) f (map rp poly).
  Proof.
    unfold poly_of. induction 1 as [|i q l l' (H0 & E) _ IH]; constructor; auto.
    split; auto. now apply map_nth_error.
  Qed.

  Lemma poly_of_same vs f f' (poly poly' : list pt) : same_face f f' -> poly_of vs f poly -> poly_of vs f' poly' ->
    poly' = poly \/ poly' = rev poly.
  Proof.
    intros (_ & [E|E]) H H'; unfold poly_of in H'; rewrite E in H'.
    - left. eapply poly_of_unique; eauto.
    - right. assert (HR : forall (l : list Z) (l' : list pt), Forall2 (fun i p => (0 <= i)%Z /\ nth_error vs (Z.to_nat i) = Some p) l l' ->
       Forall2 (fun i p => (0 <= i)%Z /\ nth_error vs (Z.to_nat i) = Some p) (rev l) (rev l')).
      { clear. induction 1; simpl; auto. apply Forall2_app; auto. }
      apply HR in H'. rewrite rev_involutive in H'.
      assert (X : rev poly' = poly) by (eapply (poly_of_unique vs f); eauto). rewrite <- X. now rewrite rev_involutive.
  Qed.

  Definition rbox (b : box b64) : box R := Box (B2R (xmin b)) (B2R (xmax b)) (B2R (ymin b)) (B2R (ymax b)).

  Lemma closed_box_B p b : bpt p -> bounded k (xmin b) -> bounded k (xmax b) -> bounded k (ymin b) -> bounded k (ymax b) ->
    (in_closed_box p b <-> in_closed_box (rp p) (rbox b)).
  Proof.
    intros (A & B) (F1 & _) (F2 & _) (F3 & _) (F4 & _). unfold in_closed_box.
    rewrite !nleb_B by (auto; apply A || apply B). reflexivity.
  Qed.

  Lemma tight_box_B poly b : Forall bpt poly -> tight_box poly b -> tight_box (map rp poly) (rbox b).
  Proof.
    intros Hb HT. destruct (tight_bounded k poly b Hb HT) as (B1 & B2 & B3 & B4).
    destruct HT as (HF & H1 & H2 & H3 & H4). rewrite Forall_forall in *. rewrite Exists_exists in *. split; [|split; [|split; [|split]]].
    - apply Forall_forall. intros q Hq. apply in_map_iff in Hq as (q' & <- & Hq). apply closed_box_B; auto.
    - destruct H1 as (q & Hq & Eq). apply Exists_exists. exists (rp q). split; [now apply in_map|]. cbn. now rewrite Eq.
    - destruct H2 as (q & Hq & Eq). apply Exists_exists. exists (rp q). split; [now apply in_map|]. cbn. now rewrite Eq.
    - destruct H3 as (q & Hq & Eq). apply Exists_exists. exists (rp q). split; [now apply in_map|]. cbn. now rewrite Eq.
    - destruct H4 as (q & Hq & Eq). apply Exists_exists. exists (rp q). split; [now apply in_map|]. cbn. now rewrite Eq.
  Qed.

  Lemma stored_float vs faces fill cpl (t : tree2d (T:=b64)) j polyR :
    built vs faces fill cpl t -> bounded_vertices k vs -> face_poly (map rp vs) faces fill j polyR ->
    exists f' poly' b, (0 <= j)%Z /\ nth_error (elements (celltree_data t)) (Z.to_nat j) = Some f'
      /\ nth_error (bb_coords (celltree_data t)) (Z.to_nat j) = Some b
      /\ poly_of vs f' poly' /\ Forall bpt poly' /\ (map rp poly' = polyR \/ map rp poly' = rev polyR) /\ tight_box poly' b.
  Proof.
    intros Hb Hbd (f & H0 & En & Hp).
    destruct (Forall2_nth_l _ _ _ _ _ (bt_elements _ _ _ _ _ Hb) En) as (f' & En' & Hsame).
    destruct (Forall2_nth_l _ _ _ _ _ (mt_boxes _ (bt_mesh _ _ _ _ _ Hb)) En') as (b & Eb & poly' & Hp' & HT).
    rewrite (bt_vertices _ _ _ _ _ Hb) in Hp'. exists f', poly', b.
    split; auto. split; auto. split; auto. split; auto. split; [eapply poly_of_bounded; eauto|]. split; auto.
    eapply poly_of_same; eauto. now apply poly_of_map.
  Qed.

  Lemma stored_back_float vs faces fill cpl (t : tree2d (T:=b64)) j f' :
    mesh_ok vs faces fill -> built vs faces fill cpl t -> (0 <= j)%Z -> nth_error (elements (celltree_data t)) (Z.to_nat j) = Some f' ->
    exists poly, face_poly (map rp vs) faces fill j poly.
  Proof.
    intros Hm Hb H0 En. pose proof (F2_length _ _ _ (bt_elements _ _ _ _ _ Hb)) as Hl.
    assert (Hlt : (Z.to_nat j < length (elements (celltree_data t)))%nat) by (apply nth_error_Some; congruence).
    destruct (nth_error (map (with_fill fill) faces) (Z.to_nat j)) as [f|] eqn:Ef;
      [|apply nth_error_None in Ef; lia].
    pose proof (mo_faces _ _ _ Hm) as Hw. rewrite Forall_forall in Hw.
    destruct (wf_poly vs f (Hw f (nth_error_In _ _ Ef))) as (poly & Hp).
    exists (map rp poly), f. split; auto. split; auto. now apply poly_of_map.
  Qed.
End Locate.

(** every side of every face is horizontal or climbs by 2^-250 *)
Definition sides_ok (vs : list pt) (faces : list (list Z)) (fill : Z) : Prop :=
  forall j poly u v, face_poly vs faces fill j poly -> In (u, v) (poly_edges poly) -> side_ok u v.

Lemma sides_either poly poly' : poly' = poly \/ poly' = rev poly ->
  (forall u v, In (u, v) (poly_edges poly) -> side_ok u v) -> forall u v, In (u, v) (poly_edges poly') -> side_ok u v.
Proof.
  intros [->| ->] H u v He; [auto|]. apply edges_rev_in in He. apply side_ok_sym. now apply H.
Qed.
Lemma convex_either poly poly' : poly' = poly \/ poly' = rev poly -> convex poly -> convex poly'.
Proof. intros [->| ->] H; auto. destruct H as [H|H]; [right; now rewrite rev_involutive|now left]. Qed.

(** ** locate_points *)
Theorem float_points k vs faces fill cpl (t : tree2d (T:=b64)) g points tolerance tol js :
  (-150 <= k <= 250)%Z -> mesh_ok vs faces fill -> built vs faces fill cpl t ->
  bounded_vertices k vs -> convex_mesh (map rp vs) faces fill -> sides_ok (map rp vs) faces fill ->
  get_tolerance t tolerance = Ok tol -> bounded k tol -> 0 <= B2R tol ->
  CellTree2d_locate_points g t points tolerance = Ok js ->
  forall i p j, nth_error points i = Some p -> nth_error js i = Some j -> bpt k p ->
    (* the assigned face contains the point or nearly touches it *)
    (j <> (-1)%Z -> exists poly, face_poly (map rp vs) faces fill j poly
       /\ (hull poly (rp p) \/ near_boundary (2 * B2R tol + bpow radix2 (k - 48)) poly (rp p)))
    (* a point in the interior of a face, away from the boundary, is assigned *)
    /\ (forall j' poly, face_poly (map rp vs) faces fill j' poly -> open_hull poly (rp p) ->
          ~ near_boundary (bpow radix2 (k - 49)) poly (rp p) -> j <> (-1)%Z)
    (* with a tolerance that covers the rounding, so is every point of a face that is away from the corners *)
    /\ (bpow radix2 (k - 47) <= B2R tol ->
        forall j' poly, face_poly (map rp vs) faces fill j' poly -> hull poly (rp p) ->
          (forall w, In w poly -> bpow radix2 (k - 47) * bpow radix2 (k - 47) < dist2 (rp p) w) -> j <> (-1)%Z).
Proof.
  intros Hk Hm Hb Hbd Hc Hs Et Bt Pt0 Ej i p j Ep Eji Bp.
  destruct (points_result _ _ _ _ t tolerance Hb) as (tol' & Et' & H). rewrite Et in Et'. apply Ok_inj in Et'. subst tol'.
  destruct (H points) as (js' & Hj & HF). specialize (Hj g). rewrite Ej in Hj. apply Ok_inj in Hj. subst js'.
  pose proof (Forall2_nth _ _ _ _ _ _ HF Ep Eji) as A. clear H HF.
  assert (C : forall j' poly, face_poly (map rp vs) faces fill j' poly -> hull poly (rp p) ->
              (forall poly', convex (map rp poly') -> Forall (bpt k) poly' -> (map rp poly' = poly \/ map rp poly' = rev poly) ->
                 (forall u v, In (u, v) (poly_edges (map rp poly')) -> side_ok u v) ->
                 point_in_polygon_or_on_edge p poly' tol = Ok true) -> j <> (-1)%Z).
  { intros j' poly Hpoly Hh Hpip ->. destruct A as [(f' & poly' & H0 & _)|(_ & Hn)]; [lia|].
    destruct (stored_float k _ _ _ _ _ _ _ Hb Hbd Hpoly) as (f2 & poly2 & b & H0 & En2 & Eb & Hp2 & Hb2 & Ho & HT).
    apply (Hn j').
    - exists f2, poly2. split; auto. split; auto. rewrite (bt_vertices _ _ _ _ _ Hb). split; auto.
      apply Hpip; auto; [eapply convex_either; eauto|]. eapply sides_either; eauto.
    - exists b. split; auto. split; auto. destruct (tight_bounded k poly2 b Hb2 HT) as (B1 & B2 & B3 & B4).
      apply (closed_box_B k); auto. eapply tight_box_hull; [eapply tight_box_B; eauto|].
      now apply (hull_either poly (map rp poly2)). }
  split; [|split].
  - intros Hj1. destruct A as [(f' & poly' & H0 & En & Hp' & Hpass)|(-> & _)]; [|congruence].
    destruct (stored_back_float _ _ _ _ _ _ _ Hm Hb H0 En) as (poly & Hpoly).
    destruct (stored_float k _ _ _ _ _ _ _ Hb Hbd Hpoly) as (f2 & poly2 & b & _ & En2 & _ & Hp2 & Hb2 & Ho & _).
    rewrite En in En2. inversion En2; subst f2. rewrite (bt_vertices _ _ _ _ _ Hb) in Hp'.
    assert (poly2 = poly').
    { clear - Hp2 Hp'. unfold poly_of in *. revert poly2 Hp2. induction Hp' as [|z q l l' (_ & E) _ IH]; intros poly2 H; inversion H; subst; auto.
      destruct H2 as (_ & E2). f_equal; [congruence|auto]. }
    subst poly2. exists poly. split; auto.
    destruct (pip_float_sound k Hk p tol Bp Bt Pt0 poly') as [Hi|Hn]; auto.
    + eapply convex_either; eauto.
    + eapply sides_either; eauto.
    + left. now apply (hull_either poly (map rp poly')).
    + right. now apply (near_either _ poly (map rp poly')).
  - intros j' poly Hpoly Hh Hf. apply (C j' poly Hpoly); [now apply open_hull_hull|].
    intros poly' Hc' Hb' Ho Hs'. apply (pip_float_complete k Hk p tol Bp Bt Pt0); auto.
    + now apply (open_hull_either poly (map rp poly')).
    + intros Hn. apply Hf. now apply (near_either _ poly (map rp poly')).
  - intros Ht j' poly Hpoly Hh Hf. apply (C j' poly Hpoly Hh).
    intros poly' Hc' Hb' Ho Hs'. apply (pip_float_hull k Hk p tol Bp Bt Pt0); auto.
    + now apply (hull_either poly (map rp poly')).
    + intros w Hw. apply Hf. destruct Ho as [Ho|Ho]; rewrite Ho in Hw; auto. now apply in_rev.
Qed.

(** ** The default tolerance *)
Lemma sqrt_bounded k (x : b64) : (-1074 <= k < 1024)%Z -> bounded (2 * k) x -> 0 <= B2R x -> bounded k (nsqrt x).
Proof.
  intros Hk (F & B) P0.
  destruct (Bsqrt_correct prec emax prec_gt prec_lt mode_NE x) as (E & Fs & _).
  assert (HR : Rabs (sqrt (B2R x)) <= bpow radix2 k).
  { rewrite Rabs_pos_eq by apply sqrt_pos. rewrite <- (sqrt_square (bpow radix2 k)) by apply bpow_ge_0.
    apply sqrt_le_1_alt. rewrite <- bpow_plus. replace (k + k)%Z with (2 * k)%Z by lia. rewrite Rabs_pos_eq in B by auto. exact B. }
  split.
  - change (is_finite (Bsqrt mode_NE x) = true). rewrite Fs. destruct x as [s|s| |s m e H]; try discriminate; auto.
    destruct s; auto. exfalso. assert (B2R (B754_finite true m e H) < 0); [|unfold b64 in *; lra].
    apply F2R_lt_0. reflexivity.
  - change (Rabs (B2R (Bsqrt mode_NE x)) <= bpow radix2 k). rewrite E. apply abs_round_le_generic; auto.
    + apply fexp_correct. exact prec_gt.
    + exact _.
    + apply generic_format_bpow. unfold SpecFloat.fexp, SpecFloat.emin, prec, emax. lia.
Qed.

Lemma sqrt_ge j k (x : b64) : (-500 <= j <= 500)%Z -> bounded k x -> bpow radix2 (2 * j) <= B2R x -> bpow radix2 j <= B2R (nsqrt x).
Proof.
  intros Hj (F & B) H.
  destruct (Bsqrt_correct prec emax prec_gt prec_lt mode_NE x) as (E & _).
  change (bpow radix2 j <= B2R (Bsqrt mode_NE x)). rewrite E. apply rnd_bpow; [lia|].
  rewrite <- (sqrt_square (bpow radix2 j)) by apply bpow_ge_0. apply sqrt_le_1_alt.
  rewrite <- bpow_plus. replace (j + j)%Z with (2 * j)%Z by lia. exact H.
Qed.

(** the diagonal of a box *)
Lemma diagonal_bounds k (b : box b64) : (-150 <= k <= 250)%Z ->
  bounded k (xmin b) -> bounded k (xmax b) -> bounded k (ymin b) -> bounded k (ymax b) ->
  bounded (k + 2) (snd (bbox_distance b))
  /\ (B2R (xmin b) + bpow radix2 (k - 7) <= B2R (xmax b) \/ B2R (ymin b) + bpow radix2 (k - 7) <= B2R (ymax b) ->
      bpow radix2 (k - 7) <= B2R (snd (bbox_distance b))).
Proof.
  intros Hk B1 B2 B3 B4. unfold bbox_distance. cbn [snd].
  assert (Bx : bounded (k + 1) (nsub (xmax b) (xmin b))) by (apply (bounded_minus k); auto; lia).
  assert (By : bounded (k + 1) (nsub (ymax b) (ymin b))) by (apply (bounded_minus k); auto; lia).
  assert (V : forall x y : b64, bounded k x -> bounded k y -> B2R x + bpow radix2 (k - 7) <= B2R y -> bpow radix2 (k - 7) <= B2R (nsub y x)).
  { intros x y (Fx & Gx) (Fy & Gy) Hxy.
    assert (Hz : Rabs (B2R y - B2R x) <= bpow radix2 (k + 1)).
    { rewrite bpow_shift. change (bpow radix2 1) with 2. apply Rabs_le_iff in Gx, Gy. apply Rabs_le_iff. lra. }
    destruct (minus_val (k + 1) y x) as (E & _); auto; try lia. rewrite E. apply rnd_bpow; [lia|lra]. }
  assert (S : forall x : b64, bounded (k + 1) x -> bounded (2 * k + 2) (nmul x x) /\ 0 <= B2R (nmul x x)
                /\ (bpow radix2 (k - 7) <= B2R x -> bpow radix2 (2 * (k - 7)) <= B2R (nmul x x))).
  { intros x (Fx & Gx). assert (Hz : Rabs (B2R x * B2R x) <= bpow radix2 (2 * k + 2)).
    { replace (2 * k + 2)%Z with ((k + 1) + (k + 1))%Z by lia. rewrite bpow_plus, Rabs_mult. apply Rmult_le_compat; auto using Rabs_pos. }
    destruct (mult_val (2 * k + 2) x x) as (E & Hb); auto; try lia. split; auto. rewrite E. split.
    - rewrite <- rnd_0. apply rnd_mono. apply Rle_0_sqr.
    - intros H. apply rnd_bpow; [lia|]. replace (2 * (k - 7))%Z with ((k - 7) + (k - 7))%Z by lia. rewrite bpow_plus.
      apply Rmult_le_compat; auto; apply bpow_ge_0. }
  destruct (S _ Bx) as ((F5 & B5) & P5 & L5). destruct (S _ By) as ((F6 & B6) & P6 & L6).
  set (P := nmul (nsub (xmax b) (xmin b)) _) in *. set (Q := nmul (nsub (ymax b) (ymin b)) _) in *.
  assert (Hz : Rabs (B2R P + B2R Q) <= bpow radix2 (2 * k + 3)).
  { replace (2 * k + 3)%Z with (2 * k + 2 + 1)%Z by lia. rewrite bpow_shift. change (bpow radix2 1) with 2.
    apply Rabs_le_iff in B5, B6. apply Rabs_le_iff. lra. }
  destruct (plus_val (2 * k + 3) P Q) as (E & Hb); auto; try lia.
  assert (P7 : 0 <= B2R (nadd P Q)) by (rewrite E, <- rnd_0; apply rnd_mono; lra).
  split.
  - apply sqrt_bounded; auto; [lia|]. apply (bounded_mono (2 * k + 3)); auto. lia.
  - intros H. apply (sqrt_ge _ (2 * k + 3)); auto; [lia|]. rewrite E. apply rnd_bpow; [lia|].
    destruct H as [H|H]; apply V in H; auto; [apply L5 in H|apply L6 in H]; lra.
Qed.

Lemma py_max_bounds k (l : list b64) mx : Forall (bounded k) l -> py_max l = Ok mx ->
  bounded k mx /\ forall x, In x l -> B2R x <= B2R mx.
Proof.
  intros Hl E. destruct l as [|x t]; [discriminate|]. cbn [py_max] in E. apply Ok_inj in E. subst mx.
  inversion Hl as [|? ? Hx Ht]; subst. clear Hl. revert x Hx. induction Ht as [|y t Hy _ IH]; intros x Hx; cbn [fold_left].
  - split; auto. intros z [->|[]]. lra.
  - destruct (IH (nmax x y)) as (A & B); [now apply bounded_nmax|]. split; auto.
    intros z [->|[->|Hz]].
    + eapply Rle_trans; [apply (nmax_ge_l _ y); [apply Hx|apply Hy]|]. apply B. now left.
    + eapply Rle_trans; [apply (nmax_ge_r x); [apply Hx|apply Hy]|]. apply B. now left.
    + apply B. now right.
Qed.

Lemma Forall2_nth_r {A B} (P : A -> B -> Prop) l l' n b : Forall2 P l l' -> nth_error l' n = Some b ->
  exists a, nth_error l n = Some a /\ P a b.
Proof.
  intros H. revert n. induction H as [|x y l l' Hxy _ IH]; intros [|n] E; try discriminate.
  - injection E as <-. exists x. auto.
  - apply IH in E as (a & E & Ha). exists a. auto.
Qed.

(** the default tolerance of a tree whose boxes have bounded coordinates *)
Lemma default_tolerance_float k vs faces fill cpl (t : tree2d (T:=b64)) : (-49 <= k <= 250)%Z ->
  built vs faces fill cpl t -> bounded_vertices k vs ->
  exists tol, get_tolerance t None = Ok tol /\ bounded k tol /\ 0 <= B2R tol
    /\ ((exists j poly p q, face_poly (map rp vs) faces fill j poly /\ In p poly /\ In q poly
           /\ (px p + bpow radix2 (k - 7) <= px q \/ py p + bpow radix2 (k - 7) <= py q)) -> bpow radix2 (k - 47) <= B2R tol).
Proof.
  intros Hk Hb Hbd.
  assert (HB : forall b, In b (bb_coords (celltree_data t)) -> bounded k (xmin b) /\ bounded k (xmax b) /\ bounded k (ymin b) /\ bounded k (ymax b)).
  { intros b Hin. apply In_nth_error in Hin as (n & En).
    destruct (Forall2_nth_r _ _ _ _ _ (mt_boxes _ (bt_mesh _ _ _ _ _ Hb)) En) as (f & _ & poly & Hp & HT).
    rewrite (bt_vertices _ _ _ _ _ Hb) in Hp. eapply tight_bounded; [|exact HT]. eapply poly_of_bounded; eauto. }
  pose proof (built_valid _ _ _ _ _ Hb) as Hv.
  destruct (get_tolerance_ok t None (bt_dist _ _ _ _ _ Hb) Hv) as (tol & Et).
  exists tol. split; auto. cbn [get_tolerance] in Et. unfold default_tolerance in Et. rewrite (bt_dist _ _ _ _ _ Hb) in Et.
  apply bind_ok in Et as (mx & Em & Et). apply Ok_inj in Et.
  assert (HD : Forall (bounded (k + 2)) (map snd (bbox_distances (bb_coords (celltree_data t))))).
  { apply Forall_forall. intros x Hx. apply in_map_iff in Hx as (y & <- & Hy). unfold bbox_distances in Hy.
    apply in_map_iff in Hy as (b & <- & Hin). destruct (HB b Hin) as (B1 & B2 & B3 & B4). apply diagonal_bounds; auto. lia. }
  destruct (py_max_bounds _ _ _ HD Em) as (Bm & Hle).
  assert (Bp : bounded (k - 37) (nmul ntolfac mx)).
  { replace (k - 37)%Z with (-39 + (k + 2))%Z by lia. apply bounded_prod; auto using tolfac_small. lia. }
  destruct mintol_pos as (F0 & P0). subst tol. split; [|split].
  - apply bounded_nmax; [apply (bounded_mono (-49)); [lia|apply mintol_small]|apply (bounded_mono (k - 37)); auto; lia].
  - eapply Rle_trans; [exact P0|apply nmax_ge_l; auto; apply Bp].
  - intros (j & poly & p & q & Hpoly & Ip & Iq & Hpq). eapply Rle_trans; [|apply nmax_ge_r; auto; apply Bp].
    destruct (stored_float k _ _ _ _ _ _ _ Hb Hbd Hpoly) as (f' & poly' & b & _ & _ & Eb & _ & Hb' & Ho & HT).
    pose proof (nth_error_In _ _ Eb) as Hin. destruct (HB b Hin) as (B1 & B2 & B3 & B4).
    destruct (diagonal_bounds k b ltac:(lia) B1 B2 B3 B4) as (_ & HL).
    pose proof (tight_box_B k poly' b Hb' HT) as (HF & _). rewrite Forall_forall in HF.
    assert (Ip' : In p (map rp poly')) by (destruct Ho as [Ho|Ho]; rewrite Ho; auto; now apply in_rev in Ip).
    assert (Iq' : In q (map rp poly')) by (destruct Ho as [Ho|Ho]; rewrite Ho; auto; now apply in_rev in Iq).
    destruct (HF p Ip') as (C1 & C2 & C3 & C4), (HF q Iq') as (D1 & D2 & D3 & D4). unfold rbox in *. cbn [xmin xmax ymin ymax] in *.
    rsimp. rb.
    assert (HM : bpow radix2 (k - 7) <= B2R mx).
    { eapply Rle_trans; [apply HL; destruct Hpq; [left|right]; lra|]. apply Hle.
      apply in_map_iff. exists (bbox_distance b). split; auto. apply in_map. exact Hin. }
    destruct tolfac_ge as (Ft & Gt). destruct Bm as (Fm & Bm). destruct tolfac_small as (_ & Gt').
    assert (Hz : Rabs (B2R (ntolfac : b64) * B2R mx) <= bpow radix2 (k - 37)).
    { replace (k - 37)%Z with (-39 + (k + 2))%Z by lia. rewrite bpow_plus, Rabs_mult. apply Rmult_le_compat; auto using Rabs_pos. }
    destruct (mult_val (k - 37) ntolfac mx) as (E & _); auto; try lia. rewrite E. apply rnd_bpow; [lia|].
    replace (k - 47)%Z with (-40 + (k - 7))%Z by lia. rewrite bpow_plus. apply Rmult_le_compat; auto; apply bpow_ge_0.
Qed.

(* ------------------------------------------------------------------ *)
(** ** locate_points of a network *)
Lemma edge_of_map vs e (v0 v1 : point b64) : edge_of vs e v0 v1 -> edge_of (map rp vs) e (rp v0) (rp v1).
Proof.
  intros (i & i' & -> & H0 & H1 & A1 & A2). exists i, i'. split; auto. split; auto. split; auto.
  split; now apply map_nth_error.
Qed.
Lemma edge_of_map_inv vs e v0 v1 : edge_of (map rp vs) e v0 v1 -> exists w0 w1 : point b64, edge_of vs e w0 w1 /\ v0 = rp w0 /\ v1 = rp w1.
Proof.
  intros (i & i' & -> & H0 & H1 & A1 & A2). rewrite nth_error_map in A1, A2.
  destruct (nth_error vs (Z.to_nat i)) as [w0|] eqn:E0; [|discriminate]. destruct (nth_error vs (Z.to_nat i')) as [w1|] eqn:E1; [|discriminate].
  exists w0, w1. cbn in A1, A2. split; [exists i, i'; auto|]. split; congruence.
Qed.
Lemma edge_of_unique {T} (vs : list (point T)) e v0 v1 w0 w1 : edge_of vs e v0 v1 -> edge_of vs e w0 w1 -> w0 = v0 /\ w1 = v1.
Proof.
  intros (i & i' & -> & _ & _ & A1 & A2) (k1 & k2 & Ek & _ & _ & B1 & B2). inversion Ek; subst. split; congruence.
Qed.
Lemma edge_of_bpt k vs e (v0 v1 : point b64) : bounded_vertices k vs -> edge_of vs e v0 v1 -> bpt k v0 /\ bpt k v1.
Proof.
  unfold bounded_vertices. rewrite Forall_forall. intros H (i & i' & _ & _ & _ & A1 & A2).
  split; apply H; eapply nth_error_In; eauto.
Qed.

Lemma point_on_edge_B k p v0 v1 (tol : b64) : bpt k v0 -> bpt k v1 ->
  point_on_edge p [v0; v1] tol = Ok (negb (point_eqb v1 v0)
    && (within_perpendicular_distance (cross_product (to_vector p v0) (to_vector p v1)) (to_vector v0 v1) tol && in_bounds p v0 v1)).
Proof. intros _ _. unfold point_on_edge. cbn [aget bind]. change (aget [v0; v1] 0%Z) with (Ok v0). change (aget [v0; v1] 1%Z) with (Ok v1). cbn [bind]. destruct (point_eqb v1 v0); reflexivity. Qed.

Definition edges_ok (vs : list pt) (edges : list (list Z)) : Prop :=
  forall j u v, edge_ends vs edges j u v -> u = v \/ side_ok u v.

Theorem float_edge_points k vs edges cpl (t : tree2d (T:=b64)) g points tolerance tol js :
  (-40 <= k <= 250)%Z -> built_edges vs edges cpl t ->
  bounded_vertices k vs -> edges_ok (map rp vs) edges ->
  get_tolerance t tolerance = Ok tol -> bounded k tol -> 0 <= B2R tol ->
  EdgeCellTree2d_locate_points g t points tolerance = Ok js ->
  forall i p j, nth_error points i = Some p -> nth_error js i = Some j -> bpt k p ->
    (* the assigned edge passes near the point *)
    (j <> (-1)%Z -> exists v0 v1, edge_ends (map rp vs) edges j v0 v1
       /\ near_segment (2 * B2R tol + bpow radix2 (k - 48)) v0 v1 (rp p))
    (* a point next to an edge, away from its ends, is assigned *)
    /\ (bpow radix2 (k - 47) <= B2R tol -> (k <= -3)%Z \/ spread (bpow radix2 (k - 7)) vs ->
        forall j' v0 v1, edge_ends (map rp vs) edges j' v0 v1 -> near_segment (bpow radix2 (k - 49)) v0 v1 (rp p) ->
          bpow radix2 (k - 47) * bpow radix2 (k - 47) < dist2 (rp p) v0 ->
          bpow radix2 (k - 47) * bpow radix2 (k - 47) < dist2 (rp p) v1 -> j <> (-1)%Z).
Proof.
  intros Hk Hb Hbd Hs Et Bt Pt0 Ej i p j Ep Eji Bp. assert (Hk' : (-150 <= k <= 250)%Z) by lia.
  destruct (edge_points_result _ _ _ t tolerance Hb) as (tol' & Et' & H). rewrite Et in Et'. apply Ok_inj in Et'. subst tol'.
  destruct (H points) as (js' & Hj & HF). specialize (Hj g). rewrite Ej in Hj. apply Ok_inj in Hj. subst js'.
  pose proof (Forall2_nth _ _ _ _ _ _ HF Ep Eji) as A. clear H HF.
  assert (Hne : forall u v : point b64, bpt k u -> bpt k v -> point_eqb v u = true -> rp u = rp v).
  { intros u v (A0 & B0) (A1 & B1) En. unfold point_eqb in En.
    rewrite !neqb_B in En by (apply A0 || apply B0 || apply A1 || apply B1). rb. unfold rp. f_equal; congruence. }
  split.
  - intros Hj1. destruct A as [(e & w0 & w1 & H0 & En & He & Hpass)|(-> & _)]; [|congruence].
    rewrite (be_elements _ _ _ _ Hb) in En. rewrite (be_vertices _ _ _ _ Hb) in He.
    destruct (edge_of_bpt k _ _ _ _ Hbd He) as (B0 & B1).
    assert (HE : edge_ends (map rp vs) edges j (rp w0) (rp w1)) by (exists e; split; auto; split; auto; now apply edge_of_map).
    exists (rp w0), (rp w1). split; auto.
    rewrite (point_on_edge_B k) in Hpass by auto. apply Ok_inj in Hpass. apply andb_prop in Hpass as (Hn & Hpass).
    apply andb_prop in Hpass as (H1 & H2). apply near_sound; auto.
    destruct (Hs _ _ _ HE) as [Heq|Hso]; auto. exfalso.
    unfold rp in Heq. injection Heq as Hx Hy. unfold point_eqb in Hn.
    destruct B0 as ((F0 & _) & (G0 & _)), B1 as ((F1 & _) & (G1 & _)). rewrite !neqb_B in Hn by auto.
    rewrite !Req_bool_true in Hn by auto. discriminate.
  - intros Ht Htree j' v0 v1 HE Hnear D0 D1 ->. destruct A as [(e' & x0 & x1 & H1 & _)|(_ & Hn)]; [lia|].
    destruct HE as (e & H0 & En & He). destruct (edge_of_map_inv _ _ _ _ He) as (w0 & w1 & He' & -> & ->).
    destruct (edge_of_bpt k _ _ _ _ Hbd He') as (B0 & B1).
    pose proof Hnear as Hnear'. rewrite (m16 k) in Hnear'. pose proof Ht as Ht'. rewrite (m64 k) in Ht'.
    pose proof D0 as D0'. pose proof D1 as D1'. rewrite (m64 k) in D0', D1'.
    destruct (near_complete k Hk' p w0 w1 tol Bp B0 B1 Bt Ht' Hnear' D0' D1') as (T1 & T2).
    apply (Hn j').
    + exists e, w0, w1. split; auto. rewrite (be_elements _ _ _ _ Hb), (be_vertices _ _ _ _ Hb).
      split; auto. split; auto. rewrite (point_on_edge_B k), T1, T2 by auto. rewrite andb_true_r. f_equal.
      destruct (point_eqb w1 w0) eqn:Eq; auto. exfalso. apply Hne in Eq; auto.
      destruct Hnear as (q & (s & Hs1 & ->) & Hd). rewrite Eq in Hd.
      replace (at_ (rp w1) (rp w1) s) with (rp w1) in Hd by (unfold at_, rp; cbn [px py]; f_equal; ring).
      assert (bpow radix2 (k - 49) <= bpow radix2 (k - 47)) by (apply bpow_le; lia).
      pose proof (bpow_ge_0 radix2 (k - 49)).
      assert (bpow radix2 (k - 49) * bpow radix2 (k - 49) <= bpow radix2 (k - 47) * bpow radix2 (k - 47)) by (apply Rmult_le_compat; auto). lra.
    + destruct (be_net _ _ _ _ Hb) as (gt & Hgt & Hnet).
      rewrite <- (be_elements _ _ _ _ Hb) in En.
      destruct (Forall2_nth_l _ _ _ _ _ (nt_boxes _ _ Hnet) En) as (b & Eb & x0 & x1 & He2 & Hwb).
      rewrite (be_vertices _ _ _ _ Hb) in He2. destruct (edge_of_unique _ _ _ _ _ _ He' He2) as (-> & ->).
      exists b. split; auto. split; auto.
      destruct (tol_facts k vs gt ltac:(lia) Hbd Hgt) as (Bg & Pg & Hg). specialize (Hg Htree). rewrite (m64 k) in Hg.
      set (m := uro * bpow radix2 k) in *. assert (Pm : 0 < m) by (apply Rmult_lt_0_compat; [apply uro_pos|apply bpow_gt_0]).
      destruct Hnear' as (q & (s & Hs1 & ->) & Hd). unfold dist2, at_, rp in Hd. cbn [px py] in Hd.
      set (ex := B2R (px p) - _) in Hd. set (ey := B2R (py p) - _) in Hd.
      assert (Hex : - (16 * m) <= ex <= 16 * m) by (split; apply Rnot_lt_le; intros Hc; nra).
      assert (Hey : - (16 * m) <= ey <= 16 * m) by (split; apply Rnot_lt_le; intros Hc; nra).
      assert (Cv : forall a c e0 : R, - (16 * m) <= e0 <= 16 * m ->
         (a - B2R gt <= a + s * (c - a) + e0 \/ c - B2R gt <= a + s * (c - a) + e0)
         /\ (a + s * (c - a) + e0 <= a + B2R gt \/ a + s * (c - a) + e0 <= c + B2R gt)).
      { intros a c e0 He0. destruct (Rle_dec a c).
        - assert (0 <= s * (c - a)) by (apply Rmult_le_pos; lra). assert (0 <= (1 - s) * (c - a)) by (apply Rmult_le_pos; lra).
          split; [left|right]; lra.
        - assert (0 <= s * (a - c)) by (apply Rmult_le_pos; lra). assert (0 <= (1 - s) * (a - c)) by (apply Rmult_le_pos; lra).
          split; [right|left]; lra. }
      pose proof (Cv (B2R (px w0)) (B2R (px w1)) ex Hex) as Cx. pose proof (Cv (B2R (py w0)) (B2R (py w1)) ey Hey) as Cy.
      replace (B2R (px w0) + s * (B2R (px w1) - B2R (px w0)) + ex) with (B2R (px p)) in Cx by (unfold ex; ring).
      replace (B2R (py w0) + s * (B2R (py w1) - B2R (py w0)) + ey) with (B2R (py p)) in Cy by (unfold ey; ring).
      destruct Hwb as (X0 & X1 & Y0 & Y1). destruct B0 as (B0x & B0y), B1 as (B1x & B1y).
      destruct (widened_side k gt (px w0) (px w1) (xmin b) (xmax b) ltac:(lia) B0x B1x Bg X0 X1) as (Lx & Hx & G1 & G2 & G3 & G4).
      destruct (widened_side k gt (py w0) (py w1) (ymin b) (ymax b) ltac:(lia) B0y B1y Bg Y0 Y1) as (Ly & Hy & G5 & G6 & G7 & G8).
      destruct Bp as ((Fx & _) & (Fy & _)).
      split; [|split; [|split]]; (rewrite nleb_B; [|first [assumption|apply Lx|apply Hx|apply Ly|apply Hy]|first [assumption|apply Lx|apply Hx|apply Ly|apply Hy]]); apply Rle_bool_true.
      * destruct Cx as ([C|C] & _); apply rnd_le in C; lra.
      * destruct Cx as (_ & [C|C]); apply rnd_ge in C; lra.
      * destruct Cy as ([C|C] & _); apply rnd_le in C; lra.
      * destruct Cy as (_ & [C|C]); apply rnd_ge in C; lra.
Qed.
