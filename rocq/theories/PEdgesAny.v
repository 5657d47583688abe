(** Edge queries for every number type: if every clip and every element test
    returns, the result does not depend on the number of threads or on the
    contents of uninitialised memory, and reports nothing that the element
    test does not. *)
From Verif Require Import Base Num MUtils MGeometry MCreation MAlgorithms MQuery MCelltree
  PStack PPartition SpecTree PBuild PWalk PCollect SpecQuery SpecApi PQuery PMesh PInit PPoints PApi PEdges
  NumR NumB64 NumSub.
From Coq Require Import Sorted Reals.
From Flocq Require Import Core BinarySingleNaN.
Open Scope Z_scope.

(** positive and negative numbers are not zero *)
Class NumZero (T : Type) {NT : Num T} := {
  pos_nonzero : forall x : T, nltb (nofZ 0) x = true -> neqb x (nofZ 0) = false;
  neg_nonzero : forall x : T, nltb x (nofZ 0) = true -> neqb x (nofZ 0) = false
}.
#[export] Instance NumZeroR : NumZero R.
Proof.
  constructor; intros x; simpl; intros H; apply Req_bool_false; intros ->;
    rewrite Rlt_bool_false in H by apply Rle_refl; discriminate.
Qed.
#[export] Instance NumZeroB64 : NumZero b64.
Proof.
  constructor; intros x; simpl; destruct x as [[|]|[|]| |[|] m e Hb]; vm_compute; auto; discriminate.
Qed.

Definition isok {A} (r : res A) : bool := match r with Ok _ => true | Err _ => false end.

Section Any.
  Context {T : Type} {NT : Num T} {NO : NumOrd T} {NZ : NumZero T}.
  Notation point := (point T).
  Notation cd := (option point * option point)%type.

  Lemma edge_children_good (a b : point) (nd : node T) :
    exists l, edge_children a b nd = Ok l /\ good_children l (nchild nd).
  Proof.
    unfold edge_children. cbv zeta.
    set (dx := pcoord (to_vector a b) (ndim nd)).
    destruct (nltb (nofZ 0) dx) eqn:E1.
    - assert (D : forall x, ndiv x dx = Ok (ndivraw x dx)) by (intros; unfold ndiv; now rewrite pos_nonzero).
      rewrite !D. destruct (nleb (nofZ 0) _), (nleb _ (nofZ 0)); cbn [bind]; eexists; (split; [reflexivity|]);
        unfold good_children; repeat match goal with |- context [if ?c then _ else _] => destruct c end; auto 8.
    - destruct (nltb dx (nofZ 0)) eqn:E2.
      + assert (D : forall x, ndiv x dx = Ok (ndivraw x dx)) by (intros; unfold ndiv; now rewrite neg_nonzero).
        rewrite !D. destruct (nleb (nofZ 0) _), (nleb _ (nofZ 0)); cbn [bind]; eexists; (split; [reflexivity|]);
        unfold good_children; repeat match goal with |- context [if ?c then _ else _] => destruct c end; auto 8.
      + cbn [bind]. eexists; (split; [reflexivity|]);
        unfold good_children; repeat match goal with |- context [if ?c then _ else _] => destruct c end; auto 8.
  Qed.

  Variable tree : celltree T.
  Hypothesis Hv : valid_tree tree.
  Notation bbc := (bb_coords tree).

  Theorem edges_any (csfuel : nat) (f : garbage T -> Z -> point -> point -> res (option cd))
          (hh : point * point -> Z -> option cd) edges :
    (forall ab, In ab edges -> forall g e, 0 <= e < zlen bbc -> f g e (fst ab) (snd ab) = Ok (hh ab e)) ->
    (forall ab, In ab edges -> exists c, cohen_sutherland_line_box_clip csfuel (fst ab) (snd ab) (bbox tree) = Ok c) ->
    exists rows, (forall g n_chunks, (1 <= n_chunks)%nat ->
         locate_edges g csfuel (f g) edges tree n_chunks = Ok rows)
      /\ NoDup (map fst rows) /\ StronglySorted Z.le (map (fun r => fst (fst r)) rows)
      /\ (forall i j c, In ((i, j), c) rows ->
           exists ab, 0 <= i /\ nth_error edges (Z.to_nat i) = Some ab /\ 0 <= j < zlen bbc
             /\ hh ab j = Some c)
      /\ (forall g buffer, buffer <> [] -> exists unused,
         query_loop (grow_ g)
           (fun ab index rows size => locate_edge g csfuel (f g) ab tree rows size index)
           (retry_fuel tree) edges 0 buffer 0 0
         = Ok (rows ++ unused, zlen rows)).
  Proof.
    intros Hf Hc.
    destruct (edges_chunks tree (eq csfuel) (fun g _ => f g) hh
      (fun ab js => NoDup js /\ forall j, In j js -> 0 <= j < zlen bbc) edges) as (jss & HF & H1 & H2).
    { intros (a, b) Hab. destruct (Hc _ Hab) as (c & Ec). cbn [fst snd] in Ec.
      destruct (locate_edge_runs tree Hv (eq csfuel) (fun g _ => f g) (hh (a, b)) a b (fun _ => True) c)
        as (vis & prn & Hp & _ & _ & Hr); auto.
      - intros g cs e _ He. exact (Hf _ Hab g e He).
      - intros cs <-. exact Ec.
      - intros nd. apply edge_children_good.
      - exists vis. split.
        { split.
          - assert (NoDup (vis ++ prn)) by (eapply Permutation_NoDup; [exact Hp|apply iota_nodup]).
            clear - H. induction vis as [|x t IH]; [constructor|]. inversion H; subst. constructor; auto.
            intros Hx. apply H2. apply in_or_app; auto.
          - intros j Hj. assert (In j (iota (length bbc)))
              by (apply (Permutation_in _ (Permutation_sym Hp)); apply in_or_app; auto).
            apply iota_in in H. exact H. }
        split; [|exact Hr]. apply Permutation_length in Hp. rewrite app_length, iota_length in Hp. lia. }
    eexists. split; [intros g nc Hn; apply (H1 g csfuel nc eq_refl Hn)|].
    assert (HN : Forall (@NoDup Z) jss).
    { clear - HF. induction HF as [|x y l l' (H & _) _ IH]; constructor; auto. }
    destruct (qrows_nodup hh edges jss HN) as (N1 & N2). split; [exact N1|]. split; [exact N2|]. split.
    - intros i j c Hin. apply qrows_in in Hin; [|symmetry; eapply F2_length; eauto].
      destruct Hin as (ab & js & Hi & Ei & Ejs & Hj & Eh). exists ab. repeat split; auto;
        apply (Forall2_nth _ _ _ _ _ _ HF Ei Ejs); auto.
    - intros g buffer Hb. destruct (H2 g csfuel buffer 0 eq_refl Hb) as (unused & E). exists unused.
      replace (map (Z.add 0) (iota (length edges))) with (iota (length edges)) in E
        by (rewrite <- (map_id (iota (length edges))) at 1; apply map_ext; intros; lia).
      exact E.
  Qed.
End Any.

Section AnyFaces.
  Context {T : Type} {NT : Num T} {NO : NumOrd T} {NZ : NumZero T}.
  Notation point := (point T).
  Variable t : celltree T.

  (** query.py:321-323 *)
  Definition clip_tol (K : box T) : T :=
    nmax nmintol (nmul ntolfac (nmax (nsub (xmax K) (xmin K)) (nsub (ymax K) (ymin K)))).

  (** face [j], its polygon and its box *)
  Definition face_is (j : Z) (poly : list point) (K : box T) : Prop :=
    0 <= j /\ exists f, nth_error (elements t) (Z.to_nat j) = Some f
      /\ poly_of (vertices t) f poly /\ nth_error (bb_coords t) (Z.to_nat j) = Some K.

  (** the two clips of a query edge and face [j] *)
  Definition face_clip (csfuel : nat) (a b : point) (poly : list point) (K : box T)
    : res (option (option point * option point)) :=
    let* c := cohen_sutherland_line_box_clip csfuel a b K in
    match c with
    | None => Ok None
    | Some _ => let* c := cyrus_beck_line_polygon_clip a b poly (clip_tol K) in
                Ok (match c with Some (c, d) => Some (Some c, Some d) | None => None end)
    end.

  (** every clip of the query returns *)
  Definition clips_return (csfuel : nat) (edges : list (point * point)) : Prop :=
    forall a b, In (a, b) edges ->
      (exists c, cohen_sutherland_line_box_clip csfuel a b (bbox t) = Ok c)
      /\ forall j poly K, face_is j poly K -> exists r, face_clip csfuel a b poly K = Ok r.

  Hypothesis Ht : mesh_tree t.

  Lemma face_clip_eq j : 0 <= j < zlen (bb_coords t) -> exists poly K, face_is j poly K
      /\ forall g csfuel a b, compute_edge_face_intersect g csfuel t j a b = face_clip csfuel a b poly K.
  Proof.
    intros Hj. pose proof (mt_valid _ Ht) as Hv.
    assert (Hj' : 0 <= j < zlen (elements t)).
    { unfold zlen in *. rewrite (vt_elements _ Hv). exact Hj. }
    destruct (aget_ok_pos (elements t) j Hj') as (f & E & En).
    destruct (aget_ok_pos (bb_coords t) j Hj) as (K & EK & EKn).
    pose proof (mt_faces _ Ht) as Hf. rewrite Forall_forall in Hf. specialize (Hf f (nth_error_In _ _ En)).
    destruct (wf_poly _ f Hf) as (poly & Hp). exists poly, K.
    split; [split; [lia|]; exists f; auto|].
    intros g csfuel a b. unfold compute_edge_face_intersect, face_clip. rewrite EK. cbn [bind].
    destruct (cohen_sutherland_line_box_clip csfuel a b K) as [[c|]|]; cbn [bind]; auto.
    rewrite E. cbn [bind].
    change (copy_vertices_into (vertices t) f (allocate_polygon g)) with (copy_vertices g (vertices t) f).
    rewrite (copy_vertices_ok g _ f poly Hf Hp). reflexivity.
  Qed.

  Lemma face_is_fun j p1 K1 p2 K2 : face_is j p1 K1 -> face_is j p2 K2 -> p1 = p2 /\ K1 = K2.
  Proof.
    intros (_ & f1 & E1 & P1 & B1) (_ & f2 & E2 & P2 & B2). rewrite E1 in E2. inversion E2; subst f2.
    split; [eapply poly_of_fun; eauto|congruence].
  Qed.

  (** running the clips decides whether they return *)
  Lemma clips_return_check g csfuel edges :
    forallb (fun ab => isok (cohen_sutherland_line_box_clip csfuel (fst ab) (snd ab) (bbox t))
       && forallb (fun j => isok (compute_edge_face_intersect g csfuel t j (fst ab) (snd ab)))
                  (iota (length (bb_coords t)))) edges = true ->
    clips_return csfuel edges.
  Proof.
    intros H a b Hab. rewrite forallb_forall in H. specialize (H _ Hab). cbn [fst snd] in H.
    apply andb_prop in H as (H1 & H2). split.
    - destruct (cohen_sutherland_line_box_clip _ _ _ _); [eauto|discriminate].
    - intros j poly K Hface. pose proof Hface as (Hj & f & _ & _ & EK).
      apply nth_error_range in EK; auto. rewrite forallb_forall in H2.
      specialize (H2 j (proj2 (iota_in _ _) EK)).
      destruct (face_clip_eq j EK) as (poly' & K' & Hf' & E).
      destruct (face_is_fun _ _ _ _ _ Hface Hf'); subst poly' K'. rewrite E in H2.
      destruct (face_clip _ _ _ _ _); [eauto|discriminate].
  Qed.

  Theorem edge_faces_any csfuel edges : clips_return csfuel edges ->
    exists rows, (forall g n_chunks, (1 <= n_chunks)%nat ->
         locate_edge_faces g csfuel edges t n_chunks = Ok rows)
      /\ NoDup (map fst rows) /\ StronglySorted Z.le (map (fun r => fst (fst r)) rows)
      /\ (forall i j c, In ((i, j), c) rows ->
           exists a b poly K, 0 <= i /\ nth_error edges (Z.to_nat i) = Some (a, b) /\ face_is j poly K
             /\ face_clip csfuel a b poly K = Ok (Some c))
      /\ (forall g buffer, buffer <> [] -> exists unused,
         query_loop (grow_ g)
           (fun ab index rows size => locate_edge g csfuel (compute_edge_face_intersect g csfuel t) ab t rows size index)
           (retry_fuel t) edges 0 buffer 0 0
         = Ok (rows ++ unused, zlen rows)).
  Proof.
    intros Hr. pose proof (mt_valid _ Ht) as Hv.
    assert (HF : forall j, 0 <= j < zlen (bb_coords t) -> exists poly K, face_is j poly K
      /\ forall g a b, compute_edge_face_intersect g csfuel t j a b = face_clip csfuel a b poly K).
    { intros j Hj. destruct (face_clip_eq j Hj) as (poly & K & H & E). exists poly, K. auto. }
    set (g0 := Garbage T (fun _ _ => 0) (fun _ _ => (0, 0)) (fun _ _ => (0, 0, 0)) (fun _ _ => Pt nfmax nfmax)
                 (fun _ _ => Node 0 nfmax nfmax 0 0 true) (fun _ _ => Box nfmax nfmax nfmax nfmax)
                 (fun _ _ => (None, None))).
    set (hh := fun (ab : point * point) e =>
      match compute_edge_face_intersect g0 csfuel t e (fst ab) (snd ab) with Ok r => r | Err _ => None end).
    destruct (edges_any t Hv csfuel (fun g => compute_edge_face_intersect g csfuel t) hh edges)
      as (rows & H1 & H2 & H3 & H4 & H5).
    - intros (a, b) Hab g e He. cbn [fst snd]. destruct (HF e He) as (poly & K & Hface & Hc).
      destruct (proj2 (Hr a b Hab) e poly K Hface) as (r & Er).
      unfold hh. cbn [fst snd]. now rewrite !Hc, Er.
    - intros (a, b) Hab. apply (Hr a b Hab).
    - exists rows. split; [exact H1|]. do 2 (split; auto). split; [|exact H5].
      intros i j c Hin. destruct (H4 i j c Hin) as ((a, b) & Hi & Ei & Hj & Eh).
      destruct (HF j Hj) as (poly & K & Hface & Hc). exists a, b, poly, K. do 3 (split; auto).
      unfold hh in Eh. cbn [fst snd] in Eh. rewrite Hc in Eh.
      destruct (face_clip csfuel a b poly K); congruence.
  Qed.

End AnyFaces.

Section AnyEdges.
  Context {T : Type} {NT : Num T} {NO : NumOrd T} {NZ : NumZero T}.
  Notation point := (point T).
  Variable t : celltree T.

  Definition edge_is (j : Z) (p q : point) : Prop :=
    0 <= j /\ exists e, nth_error (elements t) (Z.to_nat j) = Some e /\ edge_of (vertices t) e p q.

  Definition tests_return (csfuel : nat) (edges : list (point * point)) : Prop :=
    forall a b, In (a, b) edges ->
      (exists c, cohen_sutherland_line_box_clip csfuel a b (bbox t) = Ok c)
      /\ forall j p q, edge_is j p q -> exists r, lines_intersect a b p q = Ok r.

  Variable tol : T.
  Hypothesis Ht : network_tree tol t.

  Theorem edge_edges_any csfuel edges : tests_return csfuel edges ->
    exists rows, (forall g n_chunks, (1 <= n_chunks)%nat ->
         locate_edge_edges g csfuel edges t n_chunks = Ok rows)
      /\ NoDup (map fst rows) /\ StronglySorted Z.le (map (fun r => fst (fst r)) rows)
      /\ (forall i j c, In ((i, j), c) rows ->
           exists a b p q x, 0 <= i /\ nth_error edges (Z.to_nat i) = Some (a, b) /\ edge_is j p q
             /\ lines_intersect a b p q = Ok (true, x) /\ c = (x, x))
      /\ (forall g buffer, buffer <> [] -> exists unused,
         query_loop (grow_ g)
           (fun ab index rows size => locate_edge g csfuel (compute_edge_edge_intersect t) ab t rows size index)
           (retry_fuel t) edges 0 buffer 0 0
         = Ok (rows ++ unused, zlen rows)).
  Proof.
    intros Hr. pose proof (nt_valid _ _ Ht) as Hv.
    assert (HF : forall j, 0 <= j < zlen (bb_coords t) -> exists p q, edge_is j p q
      /\ forall a b, compute_edge_edge_intersect t j a b =
         (let* r := lines_intersect a b p q in
          let '(x, c) := r in Ok (if x : bool then Some (c, c) else None))).
    { intros j Hj.
      assert (Hj' : 0 <= j < zlen (elements t)).
      { unfold zlen in *. rewrite (vt_elements _ Hv). exact Hj. }
      destruct (aget_ok_pos (elements t) j Hj') as (e & E & En).
      destruct (Forall2_nth_l _ _ _ _ _ (nt_boxes _ _ Ht) En) as (K & EK & p & q & He & Hw).
      exists p, q. split; [split; [lia|]; exists e; auto|]. intros a b.
      destruct He as (i & k & -> & Hi & Hk & Ei & Ek). unfold compute_edge_edge_intersect.
      rewrite E. cbn [bind].
      change (aget [i; k] 0) with (Ok i). change (aget [i; k] 1) with (Ok k). cbn [bind].
      rewrite (aget_pos _ _ _ Hi Ei), (aget_pos _ _ _ Hk Ek). reflexivity. }
    set (hh := fun (ab : point * point) e =>
      match compute_edge_edge_intersect t e (fst ab) (snd ab) with Ok r => r | Err _ => None end).
    destruct (edges_any t Hv csfuel (fun g => compute_edge_edge_intersect t) hh edges)
      as (rows & H1 & H2 & H3 & H4 & H5).
    - intros (a, b) Hab g e He. cbn [fst snd]. destruct (HF e He) as (p & q & Hface & Hc).
      destruct (proj2 (Hr a b Hab) e p q Hface) as ((x, c) & Er).
      unfold hh. cbn [fst snd]. now rewrite !Hc, Er.
    - intros (a, b) Hab. apply (Hr a b Hab).
    - exists rows. split; [exact H1|]. do 2 (split; auto). split; [|exact H5].
      intros i j c Hin. destruct (H4 i j c Hin) as ((a, b) & Hi & Ei & Hj & Eh).
      destruct (HF j Hj) as (p & q & Hface & Hc).
      unfold hh in Eh. cbn [fst snd] in Eh. rewrite Hc in Eh.
      destruct (lines_intersect a b p q) as [([|], x)|] eqn:El; cbn [bind] in Eh; try discriminate.
      exists a, b, p, q, x. do 4 (split; auto). congruence.
  Qed.
End AnyEdges.
