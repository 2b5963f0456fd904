(** IEEE 754 binary64 with rounding to nearest, ties to even, satisfies the
    contract [rounds] of FltSpec.v, with unit roundoff 2^-53.  The formats and
    the rounding function are Flocq's (no axiom beyond the standard library's
    real numbers). *)
From Coq Require Import Reals ZArith Lra Lia.
From Flocq Require Import Core Plus_error Relative.
From Verif Require Import RBase FltModel FltSpec.
Local Open Scope R_scope.

(** Precision 53, least exponent -1074: what numpy's float64 is. *)
Definition fexp64 : Z -> Z := FLT_exp (-1074) 53.
(** Rounding to nearest even, without overflow. *)
Definition rnd64 (x : R) : R := round radix2 fexp64 ZnearestE x.
(** 2^-53. *)
Definition u64 : R := bpow radix2 (-53).
(** The largest finite float (2^53 - 1) * 2^971. *)
Definition fmax64 : R := F2R (Float radix2 (2 ^ 53 - 1) 971).
(** [x] is a finite binary64 number. *)
Definition rep64 (x : R) : Prop := generic_format radix2 fexp64 x /\ Rabs x <= fmax64.
(** The operations: round the exact result. *)
Definition ieee64 : farith :=
  {| fadd := fun x y => rnd64 (x + y); fsub := fun x y => rnd64 (x - y);
     fmul := fun x y => rnd64 (x * y) |}.

Local Instance prec53 : Prec_gt_0 53. Proof. reflexivity. Qed.
Local Instance valid64 : Valid_exp fexp64. Proof. unfold fexp64. apply FLT_exp_valid. exact prec53. Qed.

Lemma u64_nonneg : 0 <= u64. Proof. apply bpow_ge_0. Qed.

Lemma fmax64_format : generic_format radix2 fexp64 fmax64.
Proof.
  apply generic_format_FLT. exists (Float radix2 (2 ^ 53 - 1) 971); [reflexivity | |]; cbn; lia.
Qed.
Lemma fmax64_pos : 0 <= fmax64.
Proof. unfold fmax64. apply F2R_ge_0. cbn. lia. Qed.

Lemma rep_int x : rep64 x -> exists k : Z, x = IZR k * bpow radix2 (-1074).
Proof.
  intros [Hg _]. assert (Hf : generic_format radix2 (FIX_exp (-1074)) x).
  { eapply generic_format_FIX_FLT. exact Hg. }
  apply FIX_format_generic in Hf. destruct Hf as [[m e] -> He]. cbn in He. subst e.
  exists m. reflexivity.
Qed.

(** Any multiple of 2^-1074 is rounded with relative error 2^-53. *)
Lemma rnd_int (k : Z) : let x := IZR k * bpow radix2 (-1074) in
  Rabs (rnd64 x - x) <= u64 * Rabs x.
Proof.
  intros x. pose proof (relative_error_N_FLT_F2R_emin radix2 (-1074) 53 (eq_refl _) (fun z => negb (Z.even z)) k) as H.
  cbn zeta in H. change (F2R {| Fnum := k; Fexp := -1074 |}) with x in H.
  replace (/ 2 * bpow radix2 (- (53) + 1)) with u64 in H; [exact H |].
  unfold u64. replace (-53)%Z with (-1 + (-(53) + 1))%Z by lia. rewrite bpow_plus.
  change (bpow radix2 (-1)) with (/ 2). reflexivity.
Qed.

Lemma rnd_rep x : 0 <= x -> x <= fmax64 -> rep64 (rnd64 x).
Proof.
  intros H0 H1. split.
  - apply generic_format_round; [exact valid64 | apply valid_rnd_N].
  - assert (0 <= rnd64 x).
    { apply round_ge_generic; [exact valid64 | apply valid_rnd_N | apply generic_format_0 | exact H0]. }
    rewrite Rabs_pos_eq by assumption.
    apply round_le_generic; [exact valid64 | apply valid_rnd_N | exact fmax64_format | exact H1].
Qed.

Lemma rnd_exact x : rep64 x -> rnd64 x = x.
Proof. intros [H _]. apply round_generic; [apply valid_rnd_N | exact H]. Qed.

Lemma rep64_le x : rep64 x -> x <= fmax64.
Proof. intros [_ H]. apply Rle_trans with (Rabs x); [apply Rle_abs | exact H]. Qed.

Lemma two53_le_fmax : bpow radix2 53 <= fmax64.
Proof.
  unfold fmax64, F2R. cbn [Fnum Fexp].
  apply Rle_trans with (bpow radix2 971); [apply bpow_le; lia |].
  rewrite <- (Rmult_1_l (bpow radix2 971)) at 1.
  apply Rmult_le_compat_r; [apply bpow_ge_0 |]. apply (IZR_le 1). cbn. lia.
Qed.

Lemma rep64_INR n : INR n * u64 <= 1 -> rep64 (INR n).
Proof.
  intros H.
  assert (Hn : INR n <= bpow radix2 53).
  { apply Rmult_le_reg_r with (bpow radix2 (-53)); [apply bpow_gt_0 |].
    rewrite <- bpow_plus. exact H. }
  assert (Hz : (Z.of_nat n <= 2 ^ 53)%Z).
  { apply le_IZR. rewrite <- INR_IZR_INZ. change (IZR (2 ^ 53)) with (bpow radix2 53). exact Hn. }
  split.
  - apply generic_format_FLT. destruct (Z.eq_dec (Z.of_nat n) (2 ^ 53)) as [He | He].
    + exists (Float radix2 1 53); [| cbn; lia | cbn; lia].
      rewrite INR_IZR_INZ, He. unfold F2R. cbn [Fnum Fexp]. rewrite Rmult_1_l. reflexivity.
    + exists (Float radix2 (Z.of_nat n) 0); [| | cbn; lia].
      * rewrite INR_IZR_INZ. unfold F2R. cbn [Fnum Fexp]. cbn [bpow]. ring.
      * cbn [Fnum]. change (radix2 ^ 53)%Z with (2 ^ 53)%Z. lia.
  - rewrite Rabs_pos_eq by apply pos_INR. apply Rle_trans with (bpow radix2 53); [exact Hn | exact two53_le_fmax].
Qed.

(** binary64 meets the contract. *)
Theorem ieee64_rounds : rounds u64 fmax64 rep64 ieee64.
Proof.
  split; [exact u64_nonneg |]. split.
  { split; [apply generic_format_0 | rewrite Rabs_R0; exact fmax64_pos]. }
  split; [exact rep64_INR |]. split; [| split].
  - intros x y Rx Ry Hx Hy Hs. cbn [fadd ieee64].
    destruct (rep_int x Rx) as [a Ea]. destruct (rep_int y Ry) as [b Eb].
    split; [apply rnd_rep; lra |]. split; [| split].
    + replace (x + y) with (IZR (a + b) * bpow radix2 (-1074)) by (rewrite plus_IZR, Ea, Eb; ring).
      eapply Rle_trans; [apply rnd_int |]. apply Rmult_le_compat_l; [exact u64_nonneg |].
      rewrite Rabs_pos_eq; [lra |]. rewrite plus_IZR, Rmult_plus_distr_r, <- Ea, <- Eb. lra.
    + intros ->. rewrite Rplus_0_l. apply rnd_exact, Ry.
    + apply round_ge_generic; [exact valid64 | apply valid_rnd_N | apply Ry | lra].
  - intros x y Rx Ry Hy Hxy. cbn [fsub ieee64].
    destruct (rep_int x Rx) as [a Ea]. destruct (rep_int y Ry) as [b Eb].
    pose proof (rep64_le x Rx).
    split; [apply rnd_rep; lra |].
    replace (x - y) with (IZR (a - b) * bpow radix2 (-1074)) by (rewrite minus_IZR, Ea, Eb; ring).
    eapply Rle_trans; [apply rnd_int |]. apply Rmult_le_compat_l; [exact u64_nonneg |].
    rewrite Rabs_pos_eq; [lra |]. rewrite minus_IZR, Rmult_minus_distr_r, <- Ea, <- Eb. lra.
  - intros x n Rx Rn Hx Hm. cbn [fmul ieee64].
    rewrite (Rmult_comm (INR n) x).
    destruct (rep_int x Rx) as [a Ea]. pose proof (pos_INR n) as Hn.
    assert (0 <= x * INR n) by (apply Rmult_le_pos; assumption).
    assert (HH : rep64 (rnd64 (x * INR n)) /\ Rabs (rnd64 (x * INR n) - x * INR n) <= u64 * (x * INR n)).
    { split; [apply rnd_rep; lra |].
      assert (E : x * INR n = IZR (a * Z.of_nat n) * bpow radix2 (-1074)).
      { rewrite mult_IZR, <- INR_IZR_INZ, Ea. ring. }
      rewrite <- (Rabs_pos_eq (x * INR n)) at 3 by assumption. rewrite E. apply rnd_int. }
    split; exact HH.
Qed.

(** Sums of integers up to 2^53 are exact. *)
Lemma ieee64_add_INR a b : INR (a + b) * u64 <= 1 -> fadd ieee64 (INR a) (INR b) = INR (a + b).
Proof. intros H. cbn [fadd ieee64]. rewrite <- plus_INR. apply rnd_exact, rep64_INR, H. Qed.

(** The operations of [ieee64] are those of Flocq's bit-level binary64, as long
    as nothing overflows, and every finite binary64 is a [rep64]. *)
From Flocq Require Import Binary Bits.
Lemma binary64_rep (x : binary64) : rep64 (B2R 53 1024 x).
Proof.
  split.
  - exact (generic_format_B2R 53 1024 x).
  - eapply Rle_trans; [apply (abs_B2R_le_emax_minus_prec 53 1024 prec53) |].
    unfold fmax64, F2R. cbn [Fnum Fexp]. change (1024 - 53)%Z with 971%Z.
    replace 1024%Z with (53 + 971)%Z by lia. rewrite bpow_plus.
    rewrite minus_IZR. change (IZR (2 ^ 53)) with (bpow radix2 53). change (IZR 1) with 1.
    apply Req_le. ring.
Qed.
Lemma rnd64_lt x : 0 <= x -> x <= fmax64 -> Rlt_bool (Rabs (rnd64 x)) (bpow radix2 1024) = true.
Proof.
  intros H0 H1. apply Rlt_bool_true. destruct (rnd_rep x H0 H1) as [_ H].
  eapply Rle_lt_trans; [exact H |].
  unfold fmax64, F2R. cbn [Fnum Fexp]. replace 1024%Z with (53 + 971)%Z by lia. rewrite bpow_plus.
  apply Rmult_lt_compat_r; [apply bpow_gt_0 |].
  change (bpow radix2 53) with (IZR (2 ^ 53)). apply IZR_lt. lia.
Qed.
Theorem ieee64_is_binary64 (x y : binary64) :
  is_finite 53 1024 x = true -> is_finite 53 1024 y = true ->
  let vx := B2R 53 1024 x in let vy := B2R 53 1024 y in
  (0 <= vx + vy <= fmax64 -> B2R 53 1024 (b64_plus BinarySingleNaN.mode_NE x y) = fadd ieee64 vx vy) /\
  (0 <= vx - vy <= fmax64 -> B2R 53 1024 (b64_minus BinarySingleNaN.mode_NE x y) = fsub ieee64 vx vy) /\
  (0 <= vx * vy <= fmax64 -> B2R 53 1024 (b64_mult BinarySingleNaN.mode_NE x y) = fmul ieee64 vx vy).
Proof.
  intros Fx Fy vx vy. split; [| split]; intros [H0 H1].
  - pose proof (Bplus_correct 53 1024 eq_refl eq_refl binop_nan_pl64 BinarySingleNaN.mode_NE x y Fx Fy) as H.
    change (round radix2 (SpecFloat.fexp 53 1024) (BinarySingleNaN.round_mode BinarySingleNaN.mode_NE) (B2R 53 1024 x + B2R 53 1024 y))
      with (rnd64 (vx + vy)) in H.
    rewrite (rnd64_lt _ H0 H1) in H. apply H.
  - pose proof (Bminus_correct 53 1024 eq_refl eq_refl binop_nan_pl64 BinarySingleNaN.mode_NE x y Fx Fy) as H.
    change (round radix2 (SpecFloat.fexp 53 1024) (BinarySingleNaN.round_mode BinarySingleNaN.mode_NE) (B2R 53 1024 x - B2R 53 1024 y))
      with (rnd64 (vx - vy)) in H.
    rewrite (rnd64_lt _ H0 H1) in H. apply H.
  - pose proof (Bmult_correct 53 1024 eq_refl eq_refl binop_nan_pl64 BinarySingleNaN.mode_NE x y) as H.
    change (round radix2 (SpecFloat.fexp 53 1024) (BinarySingleNaN.round_mode BinarySingleNaN.mode_NE) (B2R 53 1024 x * B2R 53 1024 y))
      with (rnd64 (vx * vy)) in H.
    rewrite (rnd64_lt _ H0 H1) in H. apply H.
Qed.
Print Assumptions ieee64_is_binary64.
Print Assumptions ieee64_rounds.
