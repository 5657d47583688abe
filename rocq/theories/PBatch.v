(** Queries one at a time or together: collecting traversals that may fail, and
    the loops over points. *)
From Verif Require Import Base Num MUtils MGeometry MCreation MAlgorithms MQuery MCelltree PStack PPartition
  SpecTree PBuild PWalk PCollect SpecQuery PQuery PMesh PInit SpecApi PPoints PApi PEdges PEdgesAny PFaces.
Local Open Scope Z_scope.

(** rows found before the first error, and the error *)
Notation outcome A := (list A * option err)%type.

Fixpoint hits_e {A} (hit : Z -> res (option A)) (l : list Z) : outcome A :=
  match l with
  | [] => ([], None)
  | i :: t => match hit i with
              | Err e => ([], Some e)
              | Ok None => hits_e hit t
              | Ok (Some r) => (r :: fst (hits_e hit t), snd (hits_e hit t))
              end
  end.
Lemma hits_e_length {A} (hit : Z -> res (option A)) l : (length (fst (hits_e hit l)) <= length l)%nat.
Proof. induction l as [|i t IH]; cbn; auto. destruct (hit i) as [[r|]|]; cbn; lia. Qed.

(** all rows, or the first error *)
Fixpoint outs {A} (os : list (outcome A)) : res (list A) :=
  match os with
  | [] => Ok []
  | (hs, Some e) :: _ => Err e
  | (hs, None) :: t => let* r := outs t in Ok (hs ++ r)
  end.
Lemma outs_app {A} (a b : list (outcome A)) : outs (a ++ b) = let* x := outs a in let* y := outs b in Ok (x ++ y).
Proof.
  induction a as [|(hs, [e|]) a IH]; cbn [outs app bind]; auto.
  - destruct (outs b); reflexivity.
  - rewrite IH. destruct (outs a) as [x|]; [|reflexivity]. cbn [bind]. destruct (outs b) as [y|]; [|reflexivity]. cbn [bind].
    now rewrite app_assoc.
Qed.
Lemma outs_map {A B} (f : A -> B) (os : list (outcome A)) :
  outs (map (fun o => (map f (fst o), snd o)) os) = let* x := outs os in Ok (map f x).
Proof.
  induction os as [|(hs, [e|]) os IH]; cbn [outs map fst snd bind]; auto.
  rewrite IH. destruct (outs os); cbn [bind]; auto. now rewrite map_app.
Qed.

Section Collect.
  Context {A : Type}.
  Notation collect := (collect A).

  Definition finish {X Y} (k : X -> Y) (k' : X -> Y) (s : X + X) (e : option err) : res Y :=
    match s, e with
    | inl st, _ => Ok (k st)
    | inr st, None => Ok (k' st)
    | inr _, Some e => Err e
    end.

  Lemma emit_hits_e (hit : Z -> res (option A)) l : forall pre free size count, size = zlen pre ->
    emit_hits hit l (Collect (pre ++ free) size count)
    = finish inl inr (emitted pre free size count (fst (hits_e hit l))) (snd (hits_e hit l)).
  Proof.
    induction l as [|i t IH]; intros pre free size count Hs.
    - unfold emitted. cbn. unfold zlen. cbn. now rewrite !Z.add_0_r.
    - cbn [emit_hits hits_e]. destruct (hit i) as [[row|]|e]; cbn [bind]; [| |].
      + unfold emit. cbn [c_rows c_size c_count].
        destruct free as [|x free].
        * rewrite app_nil_r. destruct (zlen pre <=? size) eqn:E1; [|lia]. cbn [bind].
          unfold emitted. cbn. rewrite app_nil_r. do 3 f_equal. unfold zlen. cbn. lia.
        * destruct (zlen (pre ++ x :: free) <=? size) eqn:E1.
          { apply Z.leb_le in E1. subst size. rewrite zlen_app in E1. unfold zlen in E1. simpl in E1. lia. }
          subst size. rewrite aset_mid by reflexivity. cbn [bind].
          replace (pre ++ row :: free) with ((pre ++ [row]) ++ free) by now rewrite <- app_assoc.
          rewrite IH by (rewrite zlen_app; reflexivity). cbn [fst snd].
          unfold emitted. cbn [length]. cbn [Nat.leb].
          destruct (length (fst (hits_e hit t)) <=? length free)%nat eqn:E2; cbn [finish];
            [destruct (snd (hits_e hit t)); auto|]; f_equal; f_equal;
            rewrite <- !app_assoc; cbn [app]; cbn [firstn skipn]; f_equal; unfold zlen; simpl length; lia.
      + now apply IH.
      + unfold emitted. cbn. reflexivity.
  Qed.

  (** a query whose traversal emits rows and may then fail *)
  Definition runs_e (run : list A -> Z -> res collect) (o : outcome A) : Prop :=
    forall pre free, run (pre ++ free) (zlen pre) = finish (fun x => x) (fun x => x) (emitted pre free (zlen pre) 0 (fst o)) (snd o).

  Lemma runs_e_fail run e : (forall rows size, run rows size = Err e) -> runs_e run ([], Some e).
  Proof. intros H pre free. rewrite H. reflexivity. Qed.
  Lemma runs_e_nil run : (forall rows size, run rows size = Ok (Collect rows size 0)) -> runs_e run ([], None).
  Proof. intros H pre free. rewrite H. unfold emitted. cbn. now rewrite Z.add_0_r. Qed.

  Lemma retry_e mem run o (Hrun : runs_e run o) : forall fuel pre free,
    (1 <= length pre + length free)%nat -> (length (fst o) < length free + fuel)%nat -> (1 <= fuel)%nat ->
    match snd o with
    | Some e => retry mem run fuel (pre ++ free) (zlen pre) (zlen pre) = Err e
    | None => exists free', retry mem run fuel (pre ++ free) (zlen pre) (zlen pre)
        = Ok (pre ++ fst o ++ free', zlen (pre ++ fst o), zlen (fst o))
        /\ (1 <= length pre + length (fst o) + length free')%nat
    end.
  Proof.
    destruct o as (hs, oe). cbn [fst snd] in *.
    induction fuel as [|fuel IH]; intros pre free Hcap Hf H1; [lia|].
    cbn [retry]. rewrite Hrun. cbn [fst snd]. unfold emitted.
    destruct (length hs <=? length free)%nat eqn:E.
    - apply Nat.leb_le in E. destruct oe as [e|]; [reflexivity|]. cbn [finish bind c_rows c_size c_count].
      destruct (0 + zlen hs =? -1) eqn:E2; [unfold zlen in E2; lia|].
      cbn [negb]. exists (skipn (length hs) free). split.
      + rewrite zlen_app. reflexivity.
      + rewrite skipn_length. lia.
    - apply Nat.leb_gt in E. cbn [finish bind c_rows c_size c_count negb Z.eqb Pos.eqb].
      destruct (grow_app mem (pre ++ firstn (length free) hs)) as (ex & Eg & Hex).
      rewrite Eg, <- app_assoc. rewrite app_length, firstn_length in Hex.
      apply IH; try rewrite app_length; try rewrite firstn_length; lia.
  Qed.

  (** the queries [l], numbered from [index], with their outcomes *)
  Definition numbered (index : Z) (fs : list (Z -> outcome A)) : list (outcome A) :=
    map (fun x => snd x (index + fst x)) (combine (iota (length fs)) fs).

  Lemma iota_S n : iota (S n) = 0 :: map (fun k => 1 + k) (iota n).
  Proof. unfold iota. cbn [seq map]. f_equal. rewrite <- seq_shift, !map_map. apply map_ext. intros k. lia. Qed.
  Lemma numbered_cons index f fs : numbered index (f :: fs) = f index :: numbered (index + 1) fs.
  Proof.
    unfold numbered. cbn [length]. rewrite iota_S. cbn [combine map fst snd]. rewrite Z.add_0_r. f_equal.
    generalize (iota (length fs)). induction fs as [|f' fs IH]; intros [|k l]; cbn [map combine fst snd]; auto.
    rewrite IH. do 2 f_equal. lia.
  Qed.
  Lemma numbered_app index fs fs' : numbered index (fs ++ fs') = numbered index fs ++ numbered (index + zlen fs) fs'.
  Proof.
    revert index. induction fs as [|f fs IH]; intros index; cbn [app].
    - unfold zlen. cbn. now rewrite Z.add_0_r.
    - rewrite !numbered_cons. cbn [app]. rewrite IH. do 3 f_equal. unfold zlen. cbn. lia.
  Qed.

  Definition answers {Q} (run : Q -> Z -> list A -> Z -> res collect) (fuel : nat) (q : Q) (f : Z -> outcome A) : Prop :=
    forall index, runs_e (run q index) (f index) /\ (length (fst (f index)) < fuel)%nat.

  Lemma query_loop_e {Q} mem (run : Q -> Z -> list A -> Z -> res collect) fuel l fs :
    Forall2 (answers run fuel) l fs -> forall index pre free, (1 <= length pre + length free)%nat ->
    match outs (numbered index fs) with
    | Err e => query_loop mem run fuel l index (pre ++ free) (zlen pre) (zlen pre) = Err e
    | Ok rows => exists free', query_loop mem run fuel l index (pre ++ free) (zlen pre) (zlen pre)
        = Ok (pre ++ rows ++ free', zlen (pre ++ rows))
    end.
  Proof.
    induction 1 as [|q f l fs Hq _ IH]; intros index pre free Hcap.
    - cbn. exists free. cbn. now rewrite app_nil_r.
    - rewrite numbered_cons. cbn [query_loop]. destruct (Hq index) as (Hr & Hl).
      pose proof (retry_e mem _ _ Hr fuel pre free Hcap ltac:(lia) ltac:(lia)) as R.
      cbn [outs]. destruct (f index) as (hs, [e|]) eqn:Ef; cbn [fst snd] in *; [now rewrite R|].
      destruct R as (free' & R & Hc'). rewrite R. cbn [bind].
      specialize (IH (index + 1) (pre ++ hs) free' ltac:(rewrite app_length; lia)).
      rewrite <- app_assoc in IH. replace (zlen pre + zlen hs) with (zlen (pre ++ hs)) by now rewrite zlen_app.
      destruct (outs (numbered (index + 1) fs)) as [rows|e]; cbn [bind]; [|exact IH].
      destruct IH as (free'' & ->). exists free''. now rewrite <- !app_assoc.
  Qed.

  (** the chunks of the threads *)
  Lemma chunks_e {Q} mem (run : Q -> Z -> list A -> Z -> res collect) fuel (room : list Q -> nat) : (forall c, 1 <= room c)%nat ->
    forall chunks off fs, Forall2 (answers run fuel) (concat chunks) fs ->
    match outs (numbered off fs) with
    | Err e => mapres (fun co => query_loop mem run fuel (fst co) (snd co) (np_empty mem (room (fst co))) 0 0)
                 (combine chunks (chunk_offsets off chunks)) = Err e
    | Ok rows => exists parts used, mapres (fun co => query_loop mem run fuel (fst co) (snd co) (np_empty mem (room (fst co))) 0 0)
                 (combine chunks (chunk_offsets off chunks)) = Ok parts
        /\ Forall2 (fun p u => exists free, p = (u ++ free, zlen u)) parts used /\ concat used = rows
    end.
  Proof.
    intros Hroom. induction chunks as [|c t IH]; intros off fs H.
    - cbn in H. inversion H; subst. cbn. exists [], []. auto.
    - cbn [concat] in H. apply Forall2_app_inv_l in H as (f1 & f2 & H1 & H2 & ->).
      rewrite numbered_app, outs_app. cbn [chunk_offsets combine mapres fst snd].
      pose proof (query_loop_e mem run fuel c f1 H1 off [] (np_empty mem (room c))
        ltac:(rewrite np_empty_length; specialize (Hroom c); cbn; lia)) as L. cbn [app] in L. change (zlen []) with 0 in L.
      destruct (outs (numbered off f1)) as [r1|e]; cbn [bind]; [|rewrite L; reflexivity]. destruct L as (free & ->). cbn [bind].
      specialize (IH (off + zlen c) f2 H2). replace (zlen f1) with (zlen c) by (unfold zlen; now rewrite (F2_length _ _ _ H1)).
      destruct (outs (numbered (off + zlen c) f2)) as [r2|e]; cbn [bind]; [|now rewrite IH].
      destruct IH as (parts & used & -> & HF & Ec). cbn [bind].
      exists ((r1 ++ free, zlen r1) :: parts), (r1 :: used). split; auto. split; [constructor; eauto|]. cbn. now rewrite Ec.
  Qed.

  Lemma chunked_e {Q} mem (run : Q -> Z -> list A -> Z -> res collect) fuel (room : list Q -> nat) l fs n : (forall c, 1 <= room c)%nat ->
    (1 <= n)%nat -> Forall2 (answers run fuel) l fs ->
    (let* parts := mapres (fun co => query_loop mem run fuel (fst co) (snd co) (np_empty mem (room (fst co))) 0 0)
         (combine (array_split l n) (chunk_offsets 0 (array_split l n))) in concatenate mem parts)
    = outs (numbered 0 fs).
  Proof.
    intros Hroom Hn H. rewrite <- (array_split_concat l n Hn) in H. pose proof (chunks_e mem run fuel room Hroom _ 0 fs H) as C.
    destruct (outs (numbered 0 fs)) as [rows|e]; [|rewrite C; reflexivity]. destruct C as (parts & used & -> & HF & <-). cbn [bind].
    now rewrite (concatenate_ok _ _ _ HF).
  Qed.
End Collect.

Section Batch.
  Context {T : Type} {NT : Num T} {NO : NumOrd T}.
  Notation point := (point T).
  Variable tree : celltree T.
  Hypothesis Hv : valid_tree tree.
  Notation bbc := (bb_coords tree).
  Notation n := (length (bb_coords tree)).

  Lemma runs_out {A} (run : list A -> Z -> res (collect A)) hs : runs run hs -> runs_e run (hs, None).
  Proof. intros H pre free. rewrite H. cbn [fst snd]. destruct (emitted _ _ _ _ _); reflexivity. Qed.

  (** ** boxes *)
  Definition box_runs (bx : box T) (js : list Z) : Prop :=
    forall g, answers (fun bx index rows size => locate_box g bx tree rows size index) (retry_fuel tree) bx (fun index => (map (pair index) js, None)).

  Lemma box_runs_ex bx : exists js, box_runs bx js.
  Proof.
    destruct (boxes_intersect bx (bbox tree)) eqn:Ebb.
    - destruct (traverse_valid tree Hv (box_children bx) (fun _ => True)) as (vis & prn & Hp & _ & Ht); auto.
      { intros i nd _ _. apply box_children_good. }
      assert (Hin : forall e, In e vis -> in_range bbc e).
      { intros e He. unfold in_range. assert (In e (iota n)) by (apply (Permutation_in _ (Permutation_sym Hp)); apply in_or_app; now left).
        now apply iota_in in H. }
      exists (filter (fun e => match aget bbc e with Ok b => boxes_intersect bx b | Err _ => false end) vis).
      intros g index. split.
      + intros pre free. unfold locate_box. rewrite Ebb. cbn [negb].
        change (collect_visit tree (box_hit tree bx index) (box_children bx))
          with (visitW tree (box_children bx) (emit_hits (box_hit tree bx index))).
        rewrite Ht by (split; [reflexivity|apply emit_hits_app]).
        rewrite (emit_hits_ok (box_hit tree bx index) (box_row tree bx index) vis); auto.
        * replace (hits (box_row tree bx index) vis) with
            (map (pair index) (filter (fun e => match aget bbc e with Ok b => boxes_intersect bx b | Err _ => false end) vis)).
          { cbn [fst snd]. destruct (emitted _ _ _ _ _); reflexivity. }
          clear. induction vis as [|e t IH]; auto. cbn [hits filter]. unfold box_row at 1.
          destruct (aget bbc e) as [b|]; auto. destruct (boxes_intersect bx b); auto. cbn [map]. now rewrite IH.
        * apply Forall_forall. intros e He. apply box_hit_row; auto.
      + cbn [fst]. rewrite map_length. apply Permutation_length in Hp. rewrite app_length, iota_length in Hp.
        pose proof (filter_length_le (fun e => match aget bbc e with Ok b => boxes_intersect bx b | Err _ => false end) vis). unfold retry_fuel. lia.
    - exists []. intros g index. split; [|unfold retry_fuel; cbn; lia]. cbn [map]. apply runs_e_nil. intros rows size. unfold locate_box. now rewrite Ebb.
  Qed.

  Definition box_rows (jss : list (list Z)) : list (Z -> outcome (Z * Z)) := map (fun js index => (map (pair index) js, None)) jss.

  Lemma locate_boxes_out boxes jss : Forall2 box_runs boxes jss -> forall g nc, (1 <= nc)%nat ->
    locate_boxes g boxes tree nc = outs (numbered 0 (box_rows jss)).
  Proof.
    intros H g nc Hn. unfold locate_boxes, locate_boxes_helper.
    apply (chunked_e (gZZ g) (fun bx index rows size => locate_box g bx tree rows size index) (retry_fuel tree) (fun c => Nat.max (length c) 256)); auto; [lia|].
    clear - H. induction H; cbn; constructor; auto.
  Qed.

  (** ** edges; [f] may fail *)
  Section Edges.
    Context {NZ : NumZero T}.
    Notation cd := (option point * option point)%type.
    Variable csfuel : nat.
    Variable f : garbage T -> Z -> point -> point -> res (option cd).
    Hypothesis Hf : forall g g' e a b, 0 <= e < zlen bbc -> f g e a b = f g' e a b.

    Definition edge_runs (ab : point * point) (o : Z -> outcome (erow (T:=T))) : Prop :=
      (forall k index, o (k + index) = (map (fun r => ((k + fst (fst r), snd (fst r)), snd r)) (fst (o index)), snd (o index)))
      /\ forall g, answers (fun ab index rows size => locate_edge g csfuel (f g) ab tree rows size index) (retry_fuel tree) ab o.

    Lemma edge_runs_ex ab : exists o, edge_runs ab o.
    Proof.
      destruct ab as (a, b). destruct (cohen_sutherland_line_box_clip csfuel a b (bbox tree)) as [[c|]|e] eqn:Ec.
      - destruct (traverse_valid tree Hv (edge_children a b) (fun _ => True)) as (vis & prn & Hp & _ & Ht); auto.
        { intros i nd _ _. apply edge_children_good. }
        assert (Hin : forall e, In e vis -> 0 <= e < zlen bbc).
        { intros e He. assert (In e (iota n)) by (apply (Permutation_in _ (Permutation_sym Hp)); apply in_or_app; now left).
          apply iota_in in H. exact H. }
        set (g0 := Garbage T (fun _ _ => 0) (fun _ _ => (0, 0)) (fun _ _ => (0, 0, 0)) (fun _ _ => Pt nfmax nfmax)
                 (fun _ _ => Node 0 nfmax nfmax 0 0 true) (fun _ _ => Box nfmax nfmax nfmax nfmax) (fun _ _ => (None, None))).
        exists (fun index => hits_e (edge_hit (f g0) a b index) vis). split.
        + intros k index. clear. induction vis as [|e l IH]; cbn [hits_e]; auto.
          assert (U : forall i, edge_hit (f g0) a b i e = let* r := f g0 e a b in Ok (match r with Some c => Some ((i, e), c) | None => None end)) by reflexivity.
          rewrite !U. destruct (f g0 e a b) as [[x|]|]; cbn [bind]; auto. rewrite IH. reflexivity.
        + intros g index. split.
          * intros pre free. unfold locate_edge. rewrite Ec. cbn [bind].
            change (collect_visit tree (edge_hit (f g) a b index) (edge_children a b))
              with (visitW tree (edge_children a b) (emit_hits (edge_hit (f g) a b index))).
            rewrite Ht by (split; [reflexivity|apply emit_hits_app]).
            rewrite (emit_hits_e (edge_hit (f g) a b index) vis) by reflexivity.
            assert (E : hits_e (edge_hit (f g) a b index) vis = hits_e (edge_hit (f g0) a b index) vis).
            { clear - Hin Hf. induction vis as [|e l IH]; cbn [hits_e]; auto. 
              assert (U : edge_hit (f g) a b index e = edge_hit (f g0) a b index e) by (unfold edge_hit; rewrite (Hf g g0 e a b); auto; apply Hin; now left).
              rewrite U, IH by (intros; apply Hin; now right). reflexivity. }
            rewrite E. destruct (emitted _ _ _ _ _), (snd (hits_e (edge_hit (f g0) a b index) vis)); reflexivity.
          * pose proof (hits_e_length (edge_hit (f g0) a b index) vis). apply Permutation_length in Hp. rewrite app_length, iota_length in Hp.
            unfold retry_fuel. lia.
      - exists (fun _ => ([], None)). split; [reflexivity|]. intros g index. split; [|unfold retry_fuel; cbn; lia].
        apply runs_e_nil. intros rows size. unfold locate_edge. now rewrite Ec.
      - exists (fun _ => ([], Some e)). split; [reflexivity|]. intros g index. split; [|unfold retry_fuel; cbn; lia].
        apply runs_e_fail. intros rows size. unfold locate_edge. now rewrite Ec.
    Qed.

    Lemma locate_edges_out edges os : Forall2 edge_runs edges os -> forall g nc, (1 <= nc)%nat ->
      locate_edges g csfuel (f g) edges tree nc = outs (numbered 0 os).
    Proof.
      intros H g nc Hn. unfold locate_edges, locate_edges_helper.
      apply (chunked_e (grow_ g) (fun ab index rows size => locate_edge g csfuel (f g) ab tree rows size index) (retry_fuel tree) (fun c => Nat.max (length c) 256)); auto; [lia|].
      eapply Forall2_impl'; [|exact H]. intros ab o (_ & Ho). apply Ho.
    Qed.

    Definition shift_row (k : Z) (r : erow (T:=T)) : erow (T:=T) := ((k + fst (fst r), snd (fst r)), snd r).
    Lemma shift_out k os :
      Forall (fun o => forall k index, o (k + index) = (map (shift_row k) (fst (o index)), snd (o index))) os ->
      numbered k os = map (fun o => (map (shift_row k) (fst o), snd o)) (numbered 0 os).
    Proof.
      intros H. unfold numbered. rewrite map_map. generalize (iota (length os)). induction H as [|o os Ho _ IH]; intros [|i l]; cbn; auto.
      rewrite IH. f_equal. apply Ho.
    Qed.

    Lemma edges_batch g1 g2 g3 n1 n2 n3 l1 l2 : (1 <= n1)%nat -> (1 <= n2)%nat -> (1 <= n3)%nat ->
      locate_edges g1 csfuel (f g1) (l1 ++ l2) tree n1 =
      (let* r1 := locate_edges g2 csfuel (f g2) l1 tree n2 in
       let* r2 := locate_edges g3 csfuel (f g3) l2 tree n3 in
       Ok (r1 ++ map (fun r => ((zlen l1 + fst (fst r), snd (fst r)), snd r)) r2)).
    Proof.
      intros H1 H2 H3.
      destruct (Forall2_choose edge_runs l1) as (o1 & F1); [intros; apply edge_runs_ex|].
      destruct (Forall2_choose edge_runs l2) as (o2 & F2); [intros; apply edge_runs_ex|].
      rewrite (locate_edges_out (l1 ++ l2) (o1 ++ o2) (Forall2_app F1 F2)), (locate_edges_out l1 o1 F1), (locate_edges_out l2 o2 F2) by auto.
      rewrite numbered_app, outs_app. destruct (outs (numbered 0 o1)) as [x|]; [|reflexivity]. cbn [bind].
      replace (zlen o1) with (zlen l1) by (unfold zlen; now rewrite (F2_length _ _ _ F1)). cbn [Z.add].
      rewrite (shift_out (zlen l1) o2), outs_map.
      - destruct (outs (numbered 0 o2)); reflexivity.
      - clear - F2. induction F2 as [|ab o l os (Ho & _) _ IH]; constructor; auto.
    Qed.

    Lemma edges_threads g1 g2 n1 n2 l : (1 <= n1)%nat -> (1 <= n2)%nat ->
      locate_edges g1 csfuel (f g1) l tree n1 = locate_edges g2 csfuel (f g2) l tree n2.
    Proof.
      intros H1 H2. destruct (Forall2_choose edge_runs l) as (o1 & F1); [intros; apply edge_runs_ex|].
      now rewrite (locate_edges_out l o1 F1), (locate_edges_out l o1 F1).
    Qed.
  End Edges.

  Lemma boxes_batch g1 g2 g3 n1 n2 n3 l1 l2 : (1 <= n1)%nat -> (1 <= n2)%nat -> (1 <= n3)%nat ->
    exists r1 r2, locate_boxes g2 l1 tree n2 = Ok r1 /\ locate_boxes g3 l2 tree n3 = Ok r2
      /\ locate_boxes g1 (l1 ++ l2) tree n1 = Ok (r1 ++ map (fun r => (zlen l1 + fst r, snd r)) r2).
  Proof.
    intros H1 H2 H3.
    destruct (Forall2_choose box_runs l1) as (o1 & F1); [intros; apply box_runs_ex|].
    destruct (Forall2_choose box_runs l2) as (o2 & F2); [intros; apply box_runs_ex|].
    rewrite (locate_boxes_out (l1 ++ l2) (o1 ++ o2) (Forall2_app F1 F2)), (locate_boxes_out l1 o1 F1), (locate_boxes_out l2 o2 F2) by auto.
    assert (O : forall k o, exists r, outs (numbered k (box_rows o)) = Ok r).
    { intros k o. revert k. induction o as [|js o IH]; intros k; [exists []; reflexivity|].
      unfold box_rows in *. cbn [map]. rewrite numbered_cons. cbn [outs]. destruct (IH (k + 1)) as (r & ->). cbn. eauto. }
    destruct (O 0 o1) as (r1 & E1). destruct (O 0 o2) as (r2 & E2). exists r1, r2. split; auto. split; auto.
    unfold box_rows at 1. rewrite map_app, numbered_app, outs_app. fold (box_rows o1) (box_rows o2). rewrite E1. cbn [bind].
    replace (zlen (box_rows o1)) with (zlen l1) by (unfold zlen, box_rows; now rewrite map_length, (F2_length _ _ _ F1)). cbn [Z.add].
    assert (S : numbered (zlen l1) (box_rows o2) = map (fun o => (map (fun r => (zlen l1 + fst r, snd r)) (fst o), snd o)) (numbered 0 (box_rows o2))).
    { unfold numbered, box_rows. rewrite map_map, map_length. generalize (iota (length o2)). clear. induction o2 as [|js o IH]; intros [|i l]; cbn; auto.
      rewrite IH. f_equal. f_equal. rewrite map_map. cbn. reflexivity. }
    rewrite S, outs_map, E2. reflexivity.
  Qed.
End Batch.
