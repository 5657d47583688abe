(** IEEE binary64 instance of the number class (numpy.float64): Flocq's
    single-NaN binary floats, rounding to nearest, ties to even. *)
From Coq Require Import Reals Lra.
From Flocq Require Import IEEE754.BinarySingleNaN Core.
From Verif Require Import Base Num.
Open Scope Z_scope.

Definition prec := 53.
Definition emax := 1024.
Lemma prec_gt : Prec_gt_0 prec. Proof. reflexivity. Qed.
Lemma prec_lt : Prec_lt_emax prec emax. Proof. reflexivity. Qed.
#[export] Existing Instance prec_gt.
#[export] Existing Instance prec_lt.

Definition b64 := binary_float prec emax.

Definition Zb (n : Z) : b64 := binary_normalize prec emax prec_gt prec_lt mode_NE n 0 false.
(** m * 2^e rounded to nearest *)
Definition bf (m e : Z) : b64 := binary_normalize prec emax prec_gt prec_lt mode_NE m e false.

#[export] Instance NumB64 : Num b64 := {
  nadd := Bplus mode_NE;
  nsub := Bminus mode_NE;
  nmul := Bmult mode_NE;
  ndivraw := Bdiv mode_NE;
  nopp := Bopp;
  nabs := Babs;
  nsqrt := Bsqrt mode_NE;
  nltb := Bltb;
  nleb := Bleb;
  neqb := Beqb;
  nofZ := Zb;
  nhalf := bf 1 (-1);
  nfmax := bf (2 ^ 53 - 1) 971;
  nfmin := bf (- (2 ^ 53 - 1)) 971;
  (* the literals 1e-15 and 1e-12: the nearest doubles, i.e. the correctly
     rounded quotients (10^15 and 10^12 are exact) *)
  nmintol := Bdiv mode_NE (Zb 1) (Zb 1000000000000000);
  ntolfac := Bdiv mode_NE (Zb 1) (Zb 1000000000000)
}.

Lemma Bltb_false_leb (x y : b64) :
  is_finite x = true -> is_finite y = true -> Bltb x y = negb (Bleb y x).
Proof.
  intros Hx Hy. rewrite Bltb_correct, Bleb_correct; auto.
  case Rlt_bool_spec; case Rle_bool_spec; simpl; intros; auto; lra.
Qed.

Lemma fmax_fin : is_finite (@nfmax _ NumB64) = true.
Proof. vm_compute. reflexivity. Qed.
Lemma fmin_fin : is_finite (@nfmin _ NumB64) = true.
Proof. vm_compute. reflexivity. Qed.

Lemma B2R_fmax : B2R (@nfmax _ NumB64) = (bpow radix2 emax - bpow radix2 (emax - prec))%R.
Proof.
  replace (@nfmax _ NumB64) with (B754_finite (prec:=prec) (emax:=emax) false 9007199254740991 971 eq_refl).
  - simpl B2R. unfold F2R. simpl Fnum; simpl Fexp.
    replace (bpow radix2 emax) with (IZR (2 ^ 1024)) by (simpl; reflexivity).
    replace (bpow radix2 (emax - prec)) with (IZR (2 ^ 971)) by (simpl; reflexivity).
    replace (bpow radix2 971) with (IZR (2 ^ 971)) by (simpl; reflexivity).
    rewrite <- mult_IZR, <- minus_IZR. f_equal.
  - apply B2SF_inj. vm_compute. reflexivity.
Qed.

Lemma B2R_fmin : B2R (@nfmin _ NumB64) = (- (bpow radix2 emax - bpow radix2 (emax - prec)))%R.
Proof.
  rewrite <- B2R_fmax.
  replace (@nfmin _ NumB64) with (Bopp (@nfmax _ NumB64)).
  - apply B2R_Bopp.
  - apply B2SF_inj. vm_compute. reflexivity.
Qed.

Lemma fin_bound (x : b64) : is_finite x = true ->
  (- (bpow radix2 emax - bpow radix2 (emax - prec)) <= B2R x
   <= bpow radix2 emax - bpow radix2 (emax - prec))%R.
Proof.
  intros _. pose proof (abs_B2R_le_emax_minus_prec prec emax prec_gt x) as H.
  apply Rabs_le_inv in H. exact H.
Qed.

(** Comparisons of arbitrary values: a real key for everything but NaN *)
Definition bkey (x : b64) : R :=
  match x with
  | B754_infinity s => if s then (- bpow radix2 emax)%R else bpow radix2 emax
  | _ => B2R x
  end.
Definition bnum (x : b64) : bool := negb (is_nan x).

Lemma bkey_lt (x : b64) : is_finite x = true -> (- bpow radix2 emax < bkey x < bpow radix2 emax)%R.
Proof.
  intros H. assert (E : bkey x = B2R x) by (destruct x; try discriminate; reflexivity).
  rewrite E. apply and_comm. apply Rabs_def2. apply abs_B2R_lt_emax.
Qed.

Lemma bpow_pos_emax : (0 < bpow radix2 emax)%R.
Proof. apply bpow_gt_0. Qed.

Lemma Bleb_key (x y : b64) : Bleb x y = bnum x && bnum y && Rle_bool (bkey x) (bkey y).
Proof.
  pose proof bpow_pos_emax as P.
  destruct (is_finite x) eqn:Fx, (is_finite y) eqn:Fy.
  - rewrite Bleb_correct by auto. destruct x; try discriminate; destruct y; try discriminate; reflexivity.
  - pose proof (bkey_lt x Fx) as K. 
    destruct y as [|[|]| |]; try discriminate.
    + replace (Rle_bool (bkey x) _) with false by (symmetry; apply Rle_bool_false; simpl in *; lra).
      rewrite andb_false_r. destruct x as [|[|]| |[|]]; try discriminate; reflexivity.
    + replace (Rle_bool (bkey x) _) with true by (symmetry; apply Rle_bool_true; simpl in *; lra).
      destruct x as [|[|]| |[|]]; try discriminate; reflexivity.
    + destruct x as [|[|]| |[|]]; try discriminate; reflexivity.
  - pose proof (bkey_lt y Fy) as K. 
    destruct x as [|[|]| |]; try discriminate.
    + replace (Rle_bool _ (bkey y)) with true by (symmetry; apply Rle_bool_true; simpl in *; lra).
      destruct y as [|[|]| |[|]]; try discriminate; reflexivity.
    + replace (Rle_bool _ (bkey y)) with false by (symmetry; apply Rle_bool_false; simpl in *; lra).
      rewrite andb_false_r. destruct y as [|[|]| |[|]]; try discriminate; reflexivity.
    + destruct y as [|[|]| |[|]]; try discriminate; reflexivity.
  - destruct x as [|[|]| |]; try discriminate; destruct y as [|[|]| |]; try discriminate;
      try reflexivity; unfold bkey; symmetry; simpl andb.
    + apply Rle_bool_true; lra.
    + apply Rle_bool_true; lra.
    + apply Rle_bool_false; lra.
    + apply Rle_bool_true; lra.
Qed.

Lemma Bltb_key (x y : b64) : Bltb x y = bnum x && bnum y && Rlt_bool (bkey x) (bkey y).
Proof.
  pose proof bpow_pos_emax as P.
  destruct (is_finite x) eqn:Fx, (is_finite y) eqn:Fy.
  - rewrite Bltb_correct by auto. destruct x; try discriminate; destruct y; try discriminate; reflexivity.
  - pose proof (bkey_lt x Fx) as K. 
    destruct y as [|[|]| |]; try discriminate.
    + replace (Rlt_bool (bkey x) _) with false by (symmetry; apply Rlt_bool_false; simpl in *; lra).
      rewrite andb_false_r. destruct x as [|[|]| |[|]]; try discriminate; reflexivity.
    + replace (Rlt_bool (bkey x) _) with true by (symmetry; apply Rlt_bool_true; simpl in *; lra).
      destruct x as [|[|]| |[|]]; try discriminate; reflexivity.
    + destruct x as [|[|]| |[|]]; try discriminate; reflexivity.
  - pose proof (bkey_lt y Fy) as K. 
    destruct x as [|[|]| |]; try discriminate.
    + replace (Rlt_bool _ (bkey y)) with true by (symmetry; apply Rlt_bool_true; simpl in *; lra).
      destruct y as [|[|]| |[|]]; try discriminate; reflexivity.
    + replace (Rlt_bool _ (bkey y)) with false by (symmetry; apply Rlt_bool_false; simpl in *; lra).
      rewrite andb_false_r. destruct y as [|[|]| |[|]]; try discriminate; reflexivity.
    + destruct y as [|[|]| |[|]]; try discriminate; reflexivity.
  - destruct x as [|[|]| |]; try discriminate; destruct y as [|[|]| |]; try discriminate;
      try reflexivity; unfold bkey; symmetry; simpl andb.
    + apply Rlt_bool_false; lra.
    + apply Rlt_bool_true; lra.
    + apply Rlt_bool_false; lra.
    + apply Rlt_bool_false; lra.
Qed.

#[export] Instance NumOrdB64 : NumOrd b64.
Proof.
  refine (Build_NumOrd b64 NumB64 (fun x => is_finite x = true) _ _ _ _ _ _ _ _ _ _ _ _).
  - intros x y z. simpl. rewrite !Bleb_key.
    destruct (bnum x), (bnum y), (bnum z); simpl; try discriminate.
    do 3 case Rle_bool_spec; intros; auto; try discriminate. lra.
  - intros x y. simpl. rewrite Bleb_key, Bltb_key.
    destruct (bnum x), (bnum y); simpl; try discriminate.
    case Rle_bool_spec; case Rlt_bool_spec; intros; auto; try discriminate. lra.
  - intros x y z. simpl. rewrite Bleb_key, !Bltb_key.
    destruct (bnum x), (bnum y), (bnum z); simpl; try discriminate.
    case Rle_bool_spec; do 2 case Rlt_bool_spec; intros; auto; try discriminate. lra.
  - intros x y z. simpl. rewrite Bleb_key, !Bltb_key.
    destruct (bnum x), (bnum y), (bnum z); simpl; try discriminate.
    case Rle_bool_spec; do 2 case Rlt_bool_spec; intros; auto; try discriminate. lra.
  - intros x H. simpl. rewrite Bleb_correct; auto. apply Rle_bool_true, Rle_refl.
  - intros x H. simpl. rewrite Beqb_correct; auto. now apply Req_bool_true.
  - intros x y Hx Hy. simpl. apply Bltb_false_leb; auto.
  - intros x y Hx Hy. simpl. rewrite !Bleb_correct; auto.
    do 2 case Rle_bool_spec; intros; auto; lra.
  - apply fmax_fin.
  - apply fmin_fin.
  - intros x H. simpl. rewrite Bleb_correct; auto using fmax_fin.
    apply Rle_bool_true. 
    exact (Rle_trans _ _ _ (proj2 (fin_bound x H)) (Req_le _ _ (eq_sym B2R_fmax))).
  - intros x H. simpl. rewrite Bleb_correct; auto using fmin_fin.
    apply Rle_bool_true. 
    exact (Rle_trans _ _ _ (Req_le _ _ B2R_fmin) (proj1 (fin_bound x H))).
Defined.
