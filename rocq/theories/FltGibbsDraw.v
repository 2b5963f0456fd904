(** Proofs about one draw of [gibbs], and the whole of it, in double precision. *)
From Coq Require Import Reals ZArith Lra Lia Psatz.
From Flocq Require Import Core.
From Verif Require Import RBase GibbsModel GibbsProofs GibbsSpec FltModel FltSpec FltIeee FltGibbsModel FltGibbs.
Local Open Scope R_scope.

(** np.digitize on non-decreasing bins. *)
Lemma nondecreasing_nth l : nondecreasing Rleb l = true <->
  forall i, (S i < length l)%nat -> nth i l 0 <= nth (S i) l 0.
Proof.
  induction l as [|x [|y l] IH].
  - split; [intros _ i H; cbn in H; lia|reflexivity].
  - split; [intros _ i H; cbn in H; lia|reflexivity].
  - cbn [nondecreasing]. rewrite Bool.andb_true_iff, Rleb_le. split.
    + intros [H1 H2] [|i] Hi; [exact H1|]. apply (proj1 IH H2 i). cbn [length] in *. lia.
    + intros H. split; [apply (H 0%nat); cbn [length]; lia|]. apply IH. intros i Hi. apply (H (S i)). cbn [length] in *. lia.
Qed.
Lemma count_spec u l : (forall i, (S i < length l)%nat -> nth i l 0 <= nth (S i) l 0) ->
  let c := length (filter (fun b => Rleb b u) l) in
  (c <= length l)%nat /\ (forall i, (i < c)%nat -> nth i l 0 <= u) /\
  (forall i, (c <= i < length l)%nat -> u < nth i l 0).
Proof.
  induction l as [|x l IH]; intros H; cbn zeta.
  { cbn. split; [lia|]. split; intros i Hi; lia. }
  assert (H' : forall i, (S i < length l)%nat -> nth i l 0 <= nth (S i) l 0).
  { intros i Hi. apply (H (S i)). cbn [length]. lia. }
  destruct (IH H') as [A [B C]]. cbn [filter]. destruct (Rleb x u) eqn:E.
  - apply Rleb_le in E. cbn [length]. split; [lia|]. split.
    + intros [|i] Hi; [exact E|]. apply B. lia.
    + intros [|i] Hi; [lia|]. cbn [nth]. apply C. lia.
  - apply Rleb_gt in E.
    assert (All : forall i, (i < length (x :: l))%nat -> u < nth i (x :: l) 0).
    { induction i as [|i IHi]; intros Hi; [exact E|]. eapply Rlt_le_trans; [apply IHi; lia|]. apply H. exact Hi. }
    assert (Z : filter (fun b => Rleb b u) l = []).
    { destruct (filter (fun b => Rleb b u) l) as [|b t] eqn:Ef; [reflexivity|]. exfalso.
      assert (Hb : In b (filter (fun b => Rleb b u) l)) by (rewrite Ef; left; reflexivity).
      apply filter_In in Hb as [Hb1 Hb2]. apply Rleb_le in Hb2.
      apply In_nth with (d := 0) in Hb1 as [k [Hk <-]]. specialize (All (S k)). cbn [nth length] in All.
      assert (u < nth k l 0) by (apply All; lia). lra. }
    rewrite Z. cbn [length]. split; [lia|]. split; [intros i Hi; lia|]. intros i Hi. apply All. cbn [length]. lia.
Qed.

(** 1 - n 2^-52 is a float. *)
Lemma rep_below_one n : 2 * INR n * u64 <= 1 -> generic_format radix2 fexp64 (1 - 2 * INR n * u64).
Proof.
  intros H. pose proof (pos_INR n) as Pn.
  assert (E52 : bpow radix2 52 * (2 * u64) = 1).
  { unfold u64. change 2 with (bpow radix2 1). rewrite <- !bpow_plus. reflexivity. }
  assert (Hn : INR n <= bpow radix2 52).
  { apply Rmult_le_reg_r with (2 * u64); [pose proof u64_pos; lra|]. rewrite E52. lra. }
  assert (Hz : (Z.of_nat n <= 2 ^ 52)%Z).
  { apply le_IZR. rewrite <- INR_IZR_INZ. change (IZR (2 ^ 52)) with (bpow radix2 52). exact Hn. }
  apply generic_format_FLT. exists (Float radix2 (2 ^ 52 - Z.of_nat n) (-52)).
  - unfold F2R. cbn [Fnum Fexp]. rewrite minus_IZR, <- INR_IZR_INZ.
    change (IZR (2 ^ 52)) with (bpow radix2 52).
    assert (E : bpow radix2 (-52) = 2 * u64).
    { unfold u64. change 2 with (bpow radix2 1). rewrite <- bpow_plus. reflexivity. }
    rewrite E. lra.
  - cbn [Fnum]. change (radix2 ^ 53)%Z with (2 ^ 53)%Z. lia.
  - cbn. lia.
Qed.

(** Rounding a number below 2 changes it by at most 2^-53. *)
Lemma rnd_small x : 0 <= x -> x <= 2 -> Rabs (rnd64 x - x) <= u64.
Proof.
  intros H0 H2'. destruct (Req_dec x 2) as [->|Hx2].
  { assert (E : rnd64 2 = 2).
    { apply rnd_exact. replace 2 with (INR 2) by (cbn; ring). apply rep64_INR. cbn [INR].
      replace ((1 + 1) * u64) with (bpow radix2 (-52)).
      - change 1 with (bpow radix2 0). apply bpow_le. lia.
      - unfold u64. change (1 + 1) with (bpow radix2 1). rewrite <- bpow_plus. reflexivity. }
    rewrite E. replace (2 - 2) with 0 by ring. rewrite Rabs_R0. apply u64_nonneg. }
  assert (H2 : x < 2) by lra. destruct (Req_dec x 0) as [->|Hx].
  { assert (E : rnd64 0 = 0) by (apply rnd_exact; exact rep64_0). rewrite E.
    replace (0 - 0) with 0 by ring. rewrite Rabs_R0. apply u64_nonneg. }
  eapply Rle_trans; [apply error_le_half_ulp; exact valid64|].
  assert (Hu : ulp radix2 fexp64 x <= bpow radix2 (-52)).
  { rewrite ulp_neq_0 by exact Hx. apply bpow_le. unfold cexp, fexp64, FLT_exp.
    assert (mag radix2 x <= 1)%Z.
    { apply mag_le_bpow; [exact Hx|]. change (bpow radix2 1) with 2. rewrite Rabs_pos_eq; lra. }
    lia. }
  unfold u64. replace (bpow radix2 (-53)) with (/ 2 * bpow radix2 (-52)); [lra|].
  change (/ 2) with (bpow radix2 (-1)). rewrite <- bpow_plus. reflexivity.
Qed.

(** The bins. *)
Section Bins.
Context (K : nat) (HK : 4 * INR K * u64 <= 1).
Context (ws : list R) (Hne : ws <> []) (HL : (length ws <= K)%nat)
  (Hw : forall x, In x ws -> rep64 x /\ 0 < x) (HS : 2 * rsum ws <= fmax64).
Let n := length ws.
Let S := rsum ws.
Let s := np_sum 0 add64 ws.
Let c i := nth i (fcumsum add64 ws) 0.
Let p i := rsum (firstn (Datatypes.S i) ws).

Lemma Hnn : nn ws. Proof. intros x Hx. destruct (Hw x Hx). split; [assumption|lra]. Qed.
Lemma gK : g K * (3 / 4) <= 1.
Proof.
  pose proof (g_bound K) as G. pose proof (g_pos K).
  eapply Rle_trans; [|exact G]. apply Rmult_le_compat_l; lra.
Qed.
Lemma gn : g n * (3 / 4) <= 1.
Proof. pose proof gK. pose proof (g_mono n K HL). lra. Qed.
Lemma HBound : g K * rsum ws <= fmax64.
Proof.
  pose proof gK. pose proof (nn_sum ws Hnn). eapply Rle_trans; [|exact HS].
  apply Rmult_le_compat_r; lra.
Qed.
Lemma S_pos : 0 < S.
Proof.
  unfold S. destruct ws as [|x l] eqn:E; [congruence|]. change (rsum (x :: l)) with (x + rsum l).
  assert (0 < x) by (apply Hw; left; reflexivity).
  assert (0 <= rsum l); [|lra]. apply nn_sum. intros y Hy. destruct (Hw y); [right; exact Hy|]. split; [assumption|lra].
Qed.
Lemma s_approx : approx n S s.
Proof.
  apply (pairwise_approx K S); [exact HBound|exact Hnn|exact HL|apply Rle_refl].
Qed.
Lemma s_pos : 0 < s.
Proof.
  pose proof (approx_ge _ _ _ s_approx) as H. pose proof S_pos. pose proof gn.
  assert (0 < (2 - g n) * S) by (apply Rmult_lt_0_compat; lra). lra.
Qed.
Lemma c_approx i : (i < n)%nat -> approx n (p i) (c i).
Proof.
  intros Hi. apply (cumsum_approx K S); [exact HBound|exact Hnn|exact HL|apply Rle_refl|exact Hi].
Qed.
Lemma c_mono i : (Datatypes.S i < n)%nat -> c i <= c (Datatypes.S i).
Proof.
  intros Hi. apply (cumsum_mono K S); [exact HBound|exact Hnn|exact HL|apply Rle_refl|exact Hi].
Qed.
Lemma p_nonneg i : 0 <= p i.
Proof.
  apply nn_sum. intros y Hy. apply Hnn. rewrite <- (firstn_skipn (Datatypes.S i) ws). apply in_or_app. left. exact Hy.
Qed.
Lemma p_le i : p i <= S.
Proof.
  unfold S. rewrite <- (firstn_skipn (Datatypes.S i) ws) at 1. rewrite rsum_app.
  assert (0 <= rsum (skipn (Datatypes.S i) ws)); [|unfold p; lra].
  apply nn_sum. intros y Hy. apply Hnn. rewrite <- (firstn_skipn (Datatypes.S i) ws). apply in_or_app. right. exact Hy.
Qed.
Lemma n_pos : (1 <= n)%nat. Proof. unfold n. destruct ws; [congruence|cbn; lia]. Qed.
Lemma p_last : p (n - 1) = S.
Proof. unfold p, S. f_equal. pose proof n_pos. apply firstn_all2. fold n. lia. Qed.
Lemma nu : 4 * INR n * u64 <= 1.
Proof.
  pose proof (le_INR _ _ HL) as H. fold n in H. pose proof u64_pos.
  assert (INR n * u64 <= INR K * u64) by (apply Rmult_le_compat_r; lra). lra.
Qed.

(** The quotient before rounding. *)
Lemma quot_lo i : (i < n)%nat -> (1 - 2 * INR n * u64) * (p i / S) <= c i / s.
Proof.
  intros Hi. pose proof S_pos as PS. pose proof s_pos as Ps. pose proof (p_nonneg i) as Pp.
  pose proof (approx_le _ _ _ s_approx) as A. pose proof (approx_ge _ _ _ (c_approx i Hi)) as B.
  pose proof (g_bound n) as G. pose proof (g_pos n) as G1. pose proof gn as G2. pose proof nu as NU.
  apply Rmult_le_reg_r with s; [exact Ps|]. replace (c i / s * s) with (c i) by (field; lra).
  eapply Rle_trans; [|exact B].
  set (t := 1 - 2 * INR n * u64) in *.
  assert (Ht : 0 <= t) by (unfold t; lra).
  assert (0 <= p i / S) by (apply Rmult_le_pos; [exact Pp|left; apply Rinv_0_lt_compat; exact PS]).
  eapply Rle_trans.
  { apply Rmult_le_compat_l; [apply Rmult_le_pos; [exact Ht|assumption]|exact A]. }
  replace (t * (p i / S) * (g n * S)) with (t * g n * p i) by (field; lra).
  apply Rmult_le_compat_r; [exact Pp|]. unfold t. lra.
Qed.
Lemma quot_hi i : (i < n)%nat -> c i / s <= (1 + 4 * INR n * u64) * (p i / S).
Proof.
  intros Hi. pose proof S_pos as PS. pose proof s_pos as Ps. pose proof (p_nonneg i) as Pp.
  pose proof (approx_ge _ _ _ s_approx) as A. pose proof (approx_le _ _ _ (c_approx i Hi)) as B.
  pose proof (g_bound n) as G. pose proof (g_pos n) as G1. pose proof gn as G2. pose proof nu as NU.
  pose proof (pos_INR n) as PN. pose proof u64_pos as U.
  apply Rmult_le_reg_r with s; [exact Ps|]. replace (c i / s * s) with (c i) by (field; lra).
  eapply Rle_trans; [exact B|].
  set (x := INR n * u64) in *.
  assert (Hx : 0 <= x) by (unfold x; apply Rmult_le_pos; lra).
  replace (4 * INR n * u64) with (4 * x) in * by (unfold x; ring).
  assert (0 <= p i / S) by (apply Rmult_le_pos; [exact Pp|left; apply Rinv_0_lt_compat; exact PS]).
  apply Rle_trans with ((1 + 4 * x) * (p i / S) * ((2 - g n) * S)).
  - replace ((1 + 4 * x) * (p i / S) * ((2 - g n) * S)) with ((1 + 4 * x) * (2 - g n) * p i) by (field; lra).
    apply Rmult_le_compat_r; [exact Pp|].
    assert (E4 : x * x <= x * (1 / 4)) by (apply Rmult_le_compat_l; lra).
    assert (E1 : (1 + 4 * x) * (g n * (1 - x)) <= (1 + 4 * x) * 1) by (apply Rmult_le_compat_l; lra).
    assert (E2 : g n * (1 + 2 * x) <= g n * ((1 + 4 * x) * (1 - x))) by (apply Rmult_le_compat_l; lra).
    lra.
  - apply Rmult_le_compat_l; [apply Rmult_le_pos; lra|exact A].
Qed.
Let b i := div64 (c i) s.
Lemma quot_nonneg i : (i < n)%nat -> 0 <= c i / s.
Proof.
  intros Hi. apply Rmult_le_pos; [apply (c_approx i Hi)|left; apply Rinv_0_lt_compat, s_pos].
Qed.
Lemma bin_error i : (i < n)%nat -> Rabs (b i - p i / S) <= 5 * INR n * u64.
Proof.
  intros Hi. pose proof (quot_lo i Hi) as A. pose proof (quot_hi i Hi) as B. pose proof nu as NU.
  pose proof S_pos as PS. pose proof (p_nonneg i) as Pp. pose proof (p_le i) as Pl.
  pose proof (pos_INR n) as PN. pose proof u64_pos as U.
  set (q := p i / S) in *.
  assert (Q0 : 0 <= q) by (apply Rmult_le_pos; [exact Pp|left; apply Rinv_0_lt_compat; exact PS]).
  assert (Q1 : q <= 1).
  { apply Rmult_le_reg_r with S; [exact PS|]. unfold q. replace (p i / S * S) with (p i) by (field; lra). lra. }
  set (x := INR n * u64) in *.
  assert (Hx : 0 <= x) by (unfold x; apply Rmult_le_pos; lra).
  replace (4 * INR n * u64) with (4 * x) in * by (unfold x; ring).
  replace (2 * INR n * u64) with (2 * x) in * by (unfold x; ring).
  replace (5 * INR n * u64) with (5 * x) by (unfold x; ring).
  assert (Hxq : x * q <= x * 1) by (apply Rmult_le_compat_l; lra).
  assert (Hux : u64 <= x).
  { unfold x. rewrite <- (Rmult_1_l u64) at 1. apply Rmult_le_compat_r; [lra|]. apply (le_INR 1). exact n_pos. }
  assert (L2 : c i / s <= 2) by lra.
  pose proof (rnd_small (c i / s) (quot_nonneg i Hi) L2) as R.
  unfold b, div64. apply Rabs_le. apply Rabs_le_inv in R. split; lra.
Qed.
Lemma bin_mono i : (Datatypes.S i < n)%nat -> b i <= b (Datatypes.S i).
Proof.
  intros Hi. apply rnd64_mono. apply Rmult_le_compat_r; [left; apply Rinv_0_lt_compat, s_pos|].
  apply c_mono. exact Hi.
Qed.
Lemma bin_nonneg i : (i < n)%nat -> 0 <= b i.
Proof.
  intros Hi. assert (E : rnd64 0 = 0) by (apply rnd_exact; exact rep64_0). unfold b, div64. rewrite <- E at 1.
  apply rnd64_mono, quot_nonneg, Hi.
Qed.
(** The last bin is 1 up to the rounding of the two sums, and exactly 1 for up to
    seven weights. *)
Lemma bin_last : 1 - 2 * INR n * u64 <= b (n - 1).
Proof.
  pose proof n_pos. pose proof nu. assert (E : rnd64 (1 - 2 * INR n * u64) = 1 - 2 * INR n * u64).
  { apply round_generic; [apply valid_rnd_N|]. apply rep_below_one. pose proof (pos_INR n). pose proof u64_pos.
    assert (0 <= INR n * u64) by (apply Rmult_le_pos; lra). lra. }
  unfold b, div64. rewrite <- E. apply rnd64_mono.
  eapply Rle_trans; [|apply (quot_lo (n - 1)); lia]. rewrite p_last. unfold Rdiv.
  rewrite Rinv_r by (pose proof S_pos; lra). lra.
Qed.
Lemma bin_last_short : (n < 8)%nat -> b (n - 1) = 1.
Proof.
  intros H. unfold b, div64, c. fold n. unfold s. rewrite (short_sum ws Hne H Hnn). fold n.
  assert (E : nth (n - 1) (fcumsum add64 ws) 0 = s) by (unfold s; rewrite (short_sum ws Hne H Hnn); reflexivity).
  rewrite E. unfold Rdiv. rewrite Rinv_r by (pose proof s_pos; lra).
  apply rnd_exact. change 1 with (INR 1). apply rep64_INR. cbn [INR].
  pose proof nu. pose proof (le_INR _ _ n_pos) as HI. cbn [INR] in HI. pose proof u64_pos.
  assert (1 * u64 <= INR n * u64) by (apply Rmult_le_compat_r; lra). lra.
Qed.

(** The position found by np.digitize. *)
Lemma digitize_float u : 0 <= u -> u < b (n - 1) ->
  exists d, gdigitize Rleb u (ghist 0 add64 div64 ws) = Ok d /\ (1 <= d <= n)%nat /\
    rsum (firstn (d - 1) ws) / S - 5 * INR n * u64 <= u /\
    u < rsum (firstn d ws) / S + 5 * INR n * u64.
Proof.
  intros U0 U1. unfold gdigitize, ghist. fold s.
  set (bins := 0 :: map (fun x => div64 x s) (fcumsum add64 ws)).
  assert (LB : length bins = Datatypes.S n) by (unfold bins; cbn [length]; rewrite map_length, cumsum_length; reflexivity).
  assert (NB : forall i, (i < n)%nat -> nth (Datatypes.S i) bins 0 = b i).
  { intros i Hi. unfold bins. cbn [nth]. rewrite nth_indep with (d' := div64 0 s) by (rewrite map_length, cumsum_length; exact Hi).
    rewrite (map_nth (fun x => div64 x s)). reflexivity. }
  assert (N0 : nth 0 bins 0 = 0) by reflexivity.
  clearbody bins.
  assert (Mono : forall i, (Datatypes.S i < length bins)%nat -> nth i bins 0 <= nth (Datatypes.S i) bins 0).
  { intros [|i] Hi; rewrite LB in Hi.
    - rewrite N0, NB by lia. apply bin_nonneg. lia.
    - rewrite !NB by lia. apply bin_mono. lia. }
  rewrite (proj2 (nondecreasing_nth bins) Mono).
  destruct (count_spec u bins Mono) as [A [B C]].
  set (d := length (filter (fun x => Rleb x u) bins)) in *. clearbody d. rewrite LB in A, C.
  assert (D1 : (1 <= d)%nat).
  { destruct d as [|d]; [|lia]. specialize (C 0%nat ltac:(lia)). rewrite N0 in C. lra. }
  assert (D2 : (d <= n)%nat).
  { destruct (Nat.le_gt_cases d n) as [H|H]; [exact H|]. exfalso. pose proof n_pos.
    specialize (B n ltac:(lia)). replace n with (Datatypes.S (n - 1)) in B at 1 by lia. rewrite NB in B by lia. lra. }
  exists d. split; [reflexivity|]. split; [lia|]. split.
  - destruct (Nat.eq_dec d 1) as [->|Hd].
    + cbn [Nat.sub firstn]. change (rsum []) with 0. unfold Rdiv. rewrite Rmult_0_l.
      pose proof (pos_INR n). pose proof u64_pos. assert (0 <= INR n * u64) by (apply Rmult_le_pos; lra). lra.
    + specialize (B (d - 1)%nat ltac:(lia)). replace (d - 1)%nat with (Datatypes.S (d - 2)) in B by lia.
      rewrite NB in B by lia. pose proof (bin_error (d - 2) ltac:(lia)) as E. apply Rabs_le_inv in E.
      unfold p in E. replace (Datatypes.S (d - 2)) with (d - 1)%nat in E by lia. lra.
  - specialize (C d ltac:(lia)). replace d with (Datatypes.S (d - 1)) in C by lia. rewrite NB in C by lia.
    pose proof (bin_error (d - 1) ltac:(lia)) as E. apply Rabs_le_inv in E.
    unfold p in E. replace (Datatypes.S (d - 1)) with d in E by lia. lra.
Qed.
End Bins.
