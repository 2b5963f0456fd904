(** [gibbs] in IEEE double precision: C159-C161. *)
From Coq Require Import Reals ZArith Lra Lia.
From Flocq Require Import Core.
From Verif Require Import RBase GibbsModel GibbsProofs GibbsSpec FltModel FltSpec FltIeee FltGibbsModel FltGibbs FltGibbsDraw FltGibbsTop.
Local Open Scope R_scope.

(** [gibbs] on doubles: + and / rounded to nearest even, < and <= exact. *)
Definition gibbs64 {C} (cd : C) csum costs M expw rnd num_iters : result (list (list nat) * list C) :=
  ggibbs 0 add64 div64 Rltb Rleb cd csum costs M expw rnd num_iters.
Definition draw64 {C} (cd : C) costs M expw cur v u : result nat :=
  gdraw 0 add64 div64 Rltb Rleb cd costs M expw cur v u.

Lemma u64_eq : u64 = / 2 ^ 53.
Proof.
  unfold u64. change (bpow radix2 (-53)) with (/ IZR (2 ^ 53)). f_equal.
  rewrite (pow_IZR 2 53). reflexivity.
Qed.
Lemma two_u64 : 2 * u64 = / 2 ^ 52.
Proof. rewrite u64_eq. cbn [pow]. field. Qed.

(** C159: with positive finite weights (exp of minus the cost) that do not
    overflow when added, and at least twice as many columns as rows, gibbs
    returns, and every row is one-to-one - provided at most seven columns are
    free for a variable, or no random number is within M 2^-52 of 1. *)
Theorem C159_gibbs_double_one_to_one : forall (C : Type) (cd : C) csum costs M expw rnd num_iters,
  let N := length costs in
  let W i j := expw (nth j (nth i costs []) cd) in
  (forall i j, (i < N)%nat -> (j < M)%nat -> rep64 (W i j) /\ 0 < W i j /\ 2 * INR M * W i j <= fmax64) ->
  (forall sol v, 0 <= rnd sol v < 1 /\ ((M < N + 7)%nat \/ rnd sol v < 1 - INR M / 2 ^ 52)) ->
  (2 * N <= M)%nat -> INR M <= 2 ^ 51 -> (1 <= num_iters)%nat ->
  exists rows cs, gibbs64 cd csum costs M expw rnd num_iters = Ok (rows, cs) /\
    forall a, In a rows -> one_to_one N M a.
Proof.
  intros C cd csum costs M expw rnd [|k] N W HW Hr H2 HM Hn; [lia|].
  assert (HM' : 4 * INR M * u64 <= 1).
  { replace 1 with (4 * 2 ^ 51 * u64) by (rewrite u64_eq; cbn [pow]; field).
    apply Rmult_le_compat_r; [apply u64_nonneg|]. lra. }
  destruct (ggibbs_ok cd csum costs M expw HM') with (rnd := rnd) (Inv := fun _ : list nat => True) (k := k) as [rows [cs [E H]]].
  - intros i j Hi Hj. destruct (HW i j Hi Hj) as [A [B D]]. split; [exact A|]. split; [left; exact B|exact D].
  - intros sol v. destruct (Hr sol v) as [A B]. split; [exact A|]. destruct B as [B|B]; [left; exact B|right].
    replace (2 * INR M * u64) with (INR M * (2 * u64)) by ring. rewrite two_u64. exact B.
  - intros cur v L B ND _ Hv. destruct (pigeon M (others cur v)) as [j [Hj1 Hj2]].
    { rewrite others_length; fold N in Hv, L; lia. }
    exists j. split; [exact Hj1|]. split; [exact Hj2|]. apply (HW v j Hv Hj1).
  - auto.
  - exact H2.
  - exact I.
  - exists rows, cs. split; [exact E|]. intros a Ha. apply H. exact Ha.
Qed.

(** C159, for the matrices the JGLMB filter passes: weights may be 0, but
    variable i has a private column N + i that nobody else can take. *)
Theorem C159_gibbs_double_private_columns : forall (C : Type) (cd : C) csum costs M expw rnd num_iters,
  let N := length costs in
  let W i j := expw (nth j (nth i costs []) cd) in
  (forall i j, (i < N)%nat -> (j < M)%nat -> rep64 (W i j) /\ 0 <= W i j /\ 2 * INR M * W i j <= fmax64) ->
  (forall i, (i < N)%nat -> 0 < W i (N + i)%nat) ->
  (forall i k, (i < N)%nat -> (k < N)%nat -> k <> i -> W k (N + i)%nat = 0) ->
  (forall sol v, 0 <= rnd sol v < 1 /\ ((M < N + 7)%nat \/ rnd sol v < 1 - INR M / 2 ^ 52)) ->
  (2 * N <= M)%nat -> INR M <= 2 ^ 51 -> (1 <= num_iters)%nat ->
  exists rows cs, gibbs64 cd csum costs M expw rnd num_iters = Ok (rows, cs) /\
    forall a, In a rows -> one_to_one N M a /\
      forall i k, (i < N)%nat -> (k < N)%nat -> k <> i -> nth k a 0%nat <> (N + i)%nat.
Proof.
  intros C cd csum costs M expw rnd [|k] N W HW H1 H2' Hr H2 HM Hn; [lia|].
  assert (HM' : 4 * INR M * u64 <= 1).
  { replace 1 with (4 * 2 ^ 51 * u64) by (rewrite u64_eq; cbn [pow]; field).
    apply Rmult_le_compat_r; [apply u64_nonneg|]. lra. }
  apply (ggibbs_ok cd csum costs M expw HM') with
    (rnd := rnd) (Inv := fun cur : list nat => forall i k, (i < N)%nat -> (k < N)%nat -> k <> i -> nth k cur 0%nat <> (N + i)%nat).
  - exact HW.
  - intros sol v. destruct (Hr sol v) as [A B]. split; [exact A|]. destruct B as [B|B]; [left; exact B|right].
    replace (2 * INR M * u64) with (INR M * (2 * u64)) by ring. rewrite two_u64. exact B.
  - intros cur v L B ND HI Hv. exists (N + v)%nat. split; [unfold N in *; lia|]. split; [|apply H1; exact Hv].
    intros Hin. apply others_nth in Hin as [k' [A [B' D]]]; [|lia].
    apply (HI v k'); unfold N in *; auto. lia.
  - intros cur v j L HI Hv [J1 [J2 J3]] i k' Hi Hk Hki. rewrite nth_set_nth by lia.
    destruct (Nat.eqb_spec k' v) as [->|Hne]; [|apply HI; assumption].
    intros ->. pose proof (H2' i v Hi Hk Hki) as Hz. unfold W in Hz. lra.
  - exact H2.
  - intros i k' Hi Hk Hki. rewrite seq_nth by exact Hk. fold N. lia.
Qed.

(** Correctly rounded exp: cost c has weight exp(-c), +inf has weight 0. *)
Definition exp64 (c : ext) : R := match c with Fin q => rnd64 (exp (- q)) | Inf => 0 end.

Lemma dyad_format m e : (Z.abs m < 2 ^ 53)%Z -> (-1074 <= e)%Z -> generic_format radix2 fexp64 (IZR m * bpow radix2 e).
Proof.
  intros Hm He. apply generic_format_FLT. exists (Float radix2 m e); [reflexivity|exact Hm|exact He].
Qed.
Lemma bpow_format e : (-1074 <= e)%Z -> generic_format radix2 fexp64 (bpow radix2 e).
Proof. intros H. rewrite <- (Rmult_1_l (bpow radix2 e)). apply (dyad_format 1); [reflexivity|exact H]. Qed.
Lemma rnd_ge f x : generic_format radix2 fexp64 f -> f <= x -> f <= rnd64 x.
Proof. intros H H1. apply round_ge_generic; [exact valid64|apply valid_rnd_N|exact H|exact H1]. Qed.
Lemma rnd_le f x : generic_format radix2 fexp64 f -> x <= f -> rnd64 x <= f.
Proof. intros H H1. apply round_le_generic; [exact valid64|apply valid_rnd_N|exact H|exact H1]. Qed.

Lemma exp_pow x n : exp (INR n * x) = exp x ^ n.
Proof.
  induction n as [|n IH]; [cbn [INR pow]; rewrite Rmult_0_l; apply exp_0|].
  rewrite S_INR, Rmult_plus_distr_r, Rmult_1_l, exp_plus, IH. cbn [pow]. ring.
Qed.
Lemma exp_600 : exp 600 <= bpow radix2 951.
Proof.
  replace 600 with (INR 600 * 1) by (rewrite INR_IZR_INZ; cbn; ring). rewrite exp_pow.
  apply Rle_trans with (3 ^ 600).
  - apply pow_incr. split; [left; apply exp_pos|apply exp_le_3].
  - rewrite (pow_IZR 3 600). change (bpow radix2 951) with (IZR (2 ^ 951)). apply IZR_le.
    apply Z.leb_le. vm_compute. reflexivity.
Qed.
Lemma fmax64_big : bpow radix2 1003 <= fmax64.
Proof.
  apply Rle_trans with (bpow radix2 52 * bpow radix2 971).
  - rewrite <- bpow_plus. apply bpow_le. lia.
  - unfold fmax64, F2R. cbn [Fnum Fexp]. apply Rmult_le_compat_r; [apply bpow_ge_0|].
    change (bpow radix2 52) with (IZR (2 ^ 52)). apply IZR_le. lia.
Qed.
Lemma exp64_bounds q : -600 <= q <= 600 ->
  rep64 (exp64 (Fin q)) /\ 0 < exp64 (Fin q) /\ exp64 (Fin q) <= bpow radix2 951.
Proof.
  intros [H1 H2]. cbn [exp64].
  assert (U : exp (- q) <= bpow radix2 951).
  { eapply Rle_trans; [|exact exp_600]. destruct (Req_dec (- q) 600) as [->|Hn]; [apply Rle_refl|].
    left. apply exp_increasing. lra. }
  assert (L : bpow radix2 (-951) <= exp (- q)).
  { rewrite exp_Ropp. change (-951)%Z with (- (951))%Z. rewrite bpow_opp. apply Rinv_le; [apply exp_pos|].
    eapply Rle_trans; [|exact exp_600]. destruct (Req_dec q 600) as [->|Hn]; [apply Rle_refl|].
    left. apply exp_increasing. lra. }
  split; [|split].
  - apply rnd_rep; [left; apply exp_pos|]. eapply Rle_trans; [exact U|]. eapply Rle_trans; [|exact fmax64_big]. apply bpow_le. lia.
  - eapply Rlt_le_trans; [apply (bpow_gt_0 radix2 (-951))|]. apply rnd_ge; [apply bpow_format; lia|exact L].
  - apply rnd_le; [apply bpow_format; lia|exact U].
Qed.

(** C159 for finite costs between -600 and 600 and correctly rounded exp. *)
Theorem C159_gibbs_double_bounded_costs : forall csum costs M rnd num_iters,
  let N := length costs in
  (forall r, In r costs -> length r = M /\ forall e, In e r -> exists q, e = Fin q /\ -600 <= q <= 600) ->
  (forall sol v, 0 <= rnd sol v < 1 /\ ((M < N + 7)%nat \/ rnd sol v < 1 - INR M / 2 ^ 52)) ->
  (2 * N <= M)%nat -> INR M <= 2 ^ 51 -> (1 <= num_iters)%nat ->
  exists rows cs, gibbs64 Inf csum costs M exp64 rnd num_iters = Ok (rows, cs) /\
    forall a, In a rows -> one_to_one N M a.
Proof.
  intros csum costs M rnd n N Hc Hr H2 HM Hn.
  apply C159_gibbs_double_one_to_one; try assumption.
  intros i j Hi Hj. destruct (Hc (nth i costs [])) as [L He]; [apply nth_In; exact Hi|].
  destruct (He (nth j (nth i costs []) Inf)) as [q [E Hq]]; [apply nth_In; lia|].
  destruct (exp64_bounds q Hq) as [A [B D]]. rewrite E. split; [exact A|]. split; [exact B|].
  eapply Rle_trans; [|exact fmax64_big].
  replace (bpow radix2 1003) with (2 * 2 ^ 51 * bpow radix2 951).
  - apply Rmult_le_compat; [pose proof (pos_INR M); lra|left; exact B|lra|exact D].
  - replace (2 * 2 ^ 51) with (bpow radix2 52).
    + rewrite <- bpow_plus. reflexivity.
    + change (bpow radix2 52) with (IZR (2 ^ 52)). change (2 ^ 52)%Z with (2 ^ Z.of_nat 52)%Z. rewrite <- (pow_IZR 2 52). cbn [pow]. ring.
Qed.

(** ** C160: which column a draw picks *)
Lemma prefix_sum (f : nat -> bool) (w : nat -> R) n : forall s,
  (forall x, (s <= x < s + n)%nat -> f x = false -> w x = 0) ->
  forall k j, nth_error (filter f (seq s n)) k = Some j ->
  (s <= j < s + n)%nat /\
  rsum (map w (firstn k (filter f (seq s n)))) = rsum (map w (seq s (j - s))) /\
  rsum (map w (firstn (S k) (filter f (seq s n)))) = rsum (map w (seq s (S j - s))).
Proof.
  induction n as [|n IH]; intros s Hz k j E; cbn [seq filter] in E.
  { destruct k; discriminate. }
  assert (Hz' : forall x, (S s <= x < S s + n)%nat -> f x = false -> w x = 0) by (intros x Hx; apply Hz; lia).
  cbn [seq filter]. destruct (f s) eqn:F.
  - destruct k as [|k].
    + cbn in E. inversion E; subst j. split; [lia|]. rewrite Nat.sub_diag.
      replace (S s - s)%nat with 1%nat by lia. split; reflexivity.
    + cbn [nth_error] in E. destruct (IH _ Hz' _ _ E) as [A [B C]]. split; [lia|].
      rewrite !firstn_cons. cbn [map]. replace (j - s)%nat with (S (j - S s)) by lia.
      replace (S j - s)%nat with (S (S j - S s)) by lia. cbn [seq map].
      cbn [Nat.sub] in *.
      split.
      * match goal with |- rsum (w s :: ?r) = rsum (w s :: ?t) => change (w s + rsum r = w s + rsum t) end. rewrite B. reflexivity.
      * match goal with |- rsum (w s :: ?r) = rsum (w s :: ?t) => change (w s + rsum r = w s + rsum t) end. rewrite C. reflexivity.
  - destruct (IH _ Hz' _ _ E) as [A [B C]]. split; [lia|].
    replace (j - s)%nat with (S (j - S s)) by lia. replace (S j - s)%nat with (S (S j - S s)) by lia.
    cbn [seq map]. rewrite B, C. pose proof (Hz s ltac:(lia) F) as Z. split.
    + match goal with |- _ = rsum (w s :: ?t) => change (rsum t = w s + rsum t) end. lra.
    + match goal with |- _ = rsum (w s :: ?t) => change (rsum t = w s + rsum t) end. lra.
Qed.
Lemma full_sum (f : nat -> bool) (w : nat -> R) l : (forall x, In x l -> f x = false -> w x = 0) ->
  rsum (map w (filter f l)) = rsum (map w l).
Proof.
  intros Hz. induction l as [|x l IH]; [reflexivity|].
  assert (IH' : rsum (map w (filter f l)) = rsum (map w l)) by (apply IH; intros y Hy; apply Hz; right; exact Hy).
  cbn [filter map]. change (rsum (w x :: map w l)) with (w x + rsum (map w l)). destruct (f x) eqn:F.
  - cbn [map]. change (rsum (w x :: map w (filter f l))) with (w x + rsum (map w (filter f l))). lra.
  - rewrite (Hz x (or_introl eq_refl) F). lra.
Qed.

(** C160: given the other variables' columns, column j is drawn only for u
    between the normalised sums of the weights before j and up to j, up to
    5 M 2^-53; a column held by another variable weighs 0 and is not drawn. *)
Theorem C160_gibbs_double_inverse_transform : forall (C : Type) (cd : C) costs M expw cur v u,
  let N := length costs in
  let W j := if in_dec Nat.eq_dec j (firstn v cur ++ skipn (S v) cur) then 0
             else expw (nth j (nth v costs []) cd) in
  let tol := 5 * INR M / 2 ^ 53 in
  (forall i j, (i < N)%nat -> (j < M)%nat ->
     let w := expw (nth j (nth i costs []) cd) in rep64 w /\ 0 <= w /\ 2 * INR M * w <= fmax64) ->
  INR M <= 2 ^ 51 -> one_to_one N M cur -> (v < N)%nat ->
  0 <= u < 1 -> (M < N + 7)%nat \/ u < 1 - INR M / 2 ^ 52 ->
  (exists j, (j < M)%nat /\ 0 < W j) ->
  exists j, draw64 cd costs M expw cur v u = Ok j /\ (j < M)%nat /\ 0 < W j /\
    rsum (map W (seq 0 j)) / rsum (map W (seq 0 M)) - tol <= u /\
    u < rsum (map W (seq 0 (S j))) / rsum (map W (seq 0 M)) + tol.
Proof.
  intros C cd costs M expw cur v u N W tol HW HM [L [B ND]] Hv Hu Hu2 [j0 [Hj0 Wj0]].
  assert (HM' : 4 * INR M * u64 <= 1).
  { replace 1 with (4 * 2 ^ 51 * u64) by (rewrite u64_eq; cbn [pow]; field).
    apply Rmult_le_compat_r; [apply u64_nonneg|]. lra. }
  assert (EW : forall j, gweight 0 cd costs expw cur v j = W j).
  { intros j. unfold gweight, W, others. destruct (in_dec Nat.eq_dec j (firstn v cur ++ skipn (S v) cur)) as [H|H].
    - rewrite (proj2 (existsb_in j _) H). reflexivity.
    - destruct (existsb (Nat.eqb j) (firstn v cur ++ skipn (S v) cur)) eqn:E; [|reflexivity].
      apply existsb_in in E. contradiction. }
  assert (EU : forall j, gusable cd costs M expw cur v j <-> (j < M)%nat /\ 0 < W j).
  { intros j. rewrite <- gold_ind_in. unfold gold_ind. rewrite filter_In, in_seq, Rltb_lt, EW. split; intros [K1 K2]; (split; [lia|exact K2]). }
  destruct (gdraw_spec cd costs M expw HM' HW cur v u L Hv B ND) as [j [k [E [Ek [Hj [A1 A2]]]]]].
  - split; [exact Hu|]. destruct Hu2 as [H|H]; [left; exact H|right].
    replace (2 * INR M * u64) with (INR M * (2 * u64)) by ring. rewrite two_u64. exact H.
  - exists j0. apply EU. split; assumption.
  - apply EU in Hj as [Hj1 Hj2]. exists j. split; [exact E|]. split; [exact Hj1|]. split; [exact Hj2|].
    assert (EM : forall l, map (gweight 0 cd costs expw cur v) l = map W l) by (intros l; apply map_ext; exact EW).
    rewrite !EM in A1, A2. unfold gold_ind in *.
    assert (HW0 : forall x, (0 <= x < 0 + M)%nat -> Rltb 0 (gweight 0 cd costs expw cur v x) = false -> W x = 0).
    { intros x Hx Hf. apply Rltb_ge in Hf. rewrite EW in Hf. assert (0 <= W x); [|lra].
      unfold W. destruct (in_dec Nat.eq_dec x _); [lra|]. apply (HW v x); [exact Hv|lia]. }
    destruct (prefix_sum _ W M 0 HW0 k j Ek) as [_ [P1 P2]]. rewrite !Nat.sub_0_r in *.
    rewrite P1 in A1. rewrite P2 in A2. rewrite (full_sum _ W) in A1, A2.
    2, 3: intros x Hx; apply in_seq in Hx; apply HW0; exact Hx.
    unfold tol. replace (5 * INR M / 2 ^ 53) with (5 * INR M * u64) by (rewrite u64_eq; reflexivity).
    split; assumption.
Qed.

(** ** C161: the bound on the random numbers is needed *)
Lemma ratio_le (a b c d : Z) : (0 < b)%Z -> (0 < d)%Z -> (a * d <= c * b)%Z -> IZR a * / IZR b <= IZR c * / IZR d.
Proof.
  intros Hb Hd H. apply IZR_lt in Hb, Hd. apply IZR_le in H. rewrite !mult_IZR in H.
  apply Rmult_le_reg_r with (IZR b * IZR d); [apply Rmult_lt_0_compat; assumption|].
  replace (IZR a * / IZR b * (IZR b * IZR d)) with (IZR a * IZR d) by (field; lra).
  replace (IZR c * / IZR d * (IZR b * IZR d)) with (IZR c * IZR b) by (field; lra). exact H.
Qed.
Lemma ratio_pow (a b c d : Z) n : (0 < b)%Z -> (0 < d)%Z -> (a * d ^ Z.of_nat n <= c ^ Z.of_nat n * b)%Z ->
  IZR a / IZR b <= (IZR c / IZR d) ^ n.
Proof.
  intros Hb Hd H. unfold Rdiv. rewrite Rpow_mult_distr, pow_inv, !pow_IZR.
  apply ratio_le; [exact Hb|apply Z.pow_pos_nonneg; lia|exact H].
Qed.
Lemma exp_m1 : 3664 / 10000 <= exp (-1).
Proof.
  assert (E : INR 128 = 128) by (rewrite INR_IZR_INZ; reflexivity).
  replace (-1) with (INR 128 * (- / 128)) by (rewrite E; field). rewrite exp_pow.
  apply Rle_trans with ((127 / 128) ^ 128).
  - apply ratio_pow; [reflexivity|reflexivity|]. apply Z.leb_le. vm_compute. reflexivity.
  - apply pow_incr. pose proof (exp_ineq1_le (- / 128)). lra.
Qed.
Lemma exp_p1 : 2707 / 1000 <= exp 1.
Proof.
  assert (E : INR 128 = 128) by (rewrite INR_IZR_INZ; reflexivity).
  replace 1 with (INR 128 * (/ 128)) by (rewrite E; field). rewrite exp_pow.
  apply Rle_trans with ((129 / 128) ^ 128).
  - apply ratio_pow; [reflexivity|reflexivity|]. apply Z.leb_le. vm_compute. reflexivity.
  - apply pow_incr. pose proof (exp_ineq1_le (/ 128)). lra.
Qed.
Lemma exp_37 : 5 * bpow radix2 (-56) <= exp (-37) /\ exp (-37) <= 15 * bpow radix2 (-57).
Proof.
  assert (E : INR 37 = 37) by (rewrite INR_IZR_INZ; reflexivity).
  split.
  - replace (-37) with (INR 37 * (- 1)) by (rewrite E; ring). rewrite exp_pow.
    apply Rle_trans with ((3664 / 10000) ^ 37).
    + change (bpow radix2 (-56)) with (/ IZR (2 ^ 56)). apply (ratio_pow 5 (2 ^ 56)); [reflexivity|reflexivity|].
      apply Z.leb_le. vm_compute. reflexivity.
    + apply pow_incr. pose proof exp_m1. lra.
  - replace (-37) with (- (INR 37 * 1)) by (rewrite E; ring). rewrite exp_Ropp, exp_pow.
    change (bpow radix2 (-57)) with (/ IZR (2 ^ 57)).
    replace (15 * / IZR (2 ^ 57)) with (/ (IZR (2 ^ 57) / 15)) by (field; apply not_0_IZR; discriminate).
    apply Rinv_le; [apply Rmult_lt_0_compat; [apply IZR_lt; reflexivity|lra]|].
    apply Rle_trans with ((2707 / 1000) ^ 37).
    + apply ratio_pow; [reflexivity|reflexivity|]. apply Z.leb_le. vm_compute. reflexivity.
    + apply pow_incr. pose proof exp_p1. lra.
Qed.

(** Sixteen columns, one free of cost and fifteen of cost 37; the random number
    is the largest that rng.uniform returns, 1 - 2^-53.  np.cumsum stays at 1,
    np.sum gives more than 1, the last bin is below the random number. *)
Definition bad_costs : list (list ext) := [Fin 0 :: repeat (Fin 37) 15].
Definition bad_random : nat -> nat -> R := fun _ _ => 1 - / 2 ^ 53.

Lemma w37 : 5 * bpow radix2 (-56) <= exp64 (Fin 37) /\ exp64 (Fin 37) <= 15 * bpow radix2 (-57).
Proof.
  destruct exp_37 as [A B]. cbn [exp64].
  split; [apply rnd_ge; [apply dyad_format; [reflexivity|lia]|exact A]|apply rnd_le; [apply dyad_format; [reflexivity|lia]|exact B]].
Qed.
Lemma w0 : exp64 (Fin 0) = 1.
Proof.
  cbn [exp64]. rewrite Ropp_0, exp_0. apply round_generic; [apply valid_rnd_N|]. apply (bpow_format 0). lia.
Qed.
Lemma succ_1 : succ radix2 fexp64 1 = 1 + bpow radix2 (-52).
Proof.
  rewrite succ_eq_pos by lra. f_equal. change 1 with (bpow radix2 0). rewrite ulp_bpow. reflexivity.
Qed.
Lemma format_1 : generic_format radix2 fexp64 1. Proof. apply (bpow_format 0). lia. Qed.
Lemma pred_s1 : pred radix2 fexp64 (1 + bpow radix2 (-52)) = 1.
Proof. rewrite <- succ_1. apply pred_succ; [exact valid64|exact format_1]. Qed.
Lemma format_near1 k : (0 <= k < 2 ^ 52)%Z -> generic_format radix2 fexp64 (1 + IZR k * bpow radix2 (-52)).
Proof.
  intros H. replace (1 + IZR k * bpow radix2 (-52)) with (IZR (2 ^ 52 + k) * bpow radix2 (-52)).
  - apply dyad_format; lia.
  - rewrite plus_IZR, Rmult_plus_distr_r. f_equal. change (IZR (2 ^ 52)) with (bpow radix2 52). rewrite <- bpow_plus. reflexivity.
Qed.

Section Witness.
Let a := bpow radix2 (-57).
Context (w : R) (Hlo : 10 * a <= w) (Hhi : w <= 15 * a).
Lemma a_pos : 0 < a. Proof. apply bpow_gt_0. Qed.
Lemma ulp_a : bpow radix2 (-52) = 32 * a.
Proof. unfold a. change 32 with (bpow radix2 5). rewrite <- bpow_plus. reflexivity. Qed.
Lemma one_plus_w : add64 1 w = 1.
Proof.
  pose proof a_pos. pose proof ulp_a. unfold add64. apply Rle_antisym.
  - unfold rnd64. apply round_N_le_midp; [exact valid64|exact format_1|]. rewrite succ_1. lra.
  - apply rnd_ge; [exact format_1|lra].
Qed.
Lemma fmt_k k : (0 <= k < 2 ^ 53)%Z -> generic_format radix2 fexp64 (IZR k * a).
Proof. intros H. apply dyad_format; lia. Qed.
Lemma cum_ones n : fcum_from add64 1 (repeat w n) = repeat 1 n.
Proof. induction n as [|n IH]; cbn [repeat fcum_from]; [reflexivity|]. cbn zeta. rewrite one_plus_w, IH. reflexivity. Qed.
Lemma sum_above_1 : 1 + 2 * bpow radix2 (-52) <= np_sum 0 add64 (1 :: repeat w 15).
Proof.
  pose proof a_pos as Pa. pose proof ulp_a as U.
  change (np_sum 0 add64 (1 :: repeat w 15)) with
    (add64 (add64 (add64 (add64 1 w) (add64 w w)) (add64 (add64 w w) (add64 w w)))
           (add64 (add64 (add64 w w) (add64 w w)) (add64 (add64 w w) (add64 w w)))).
  rewrite one_plus_w.
  assert (D : 20 * a <= add64 w w) by (apply rnd_ge; [apply (fmt_k 20); lia|lra]).
  set (d := add64 w w) in *. clearbody d.
  assert (Q : 40 * a <= add64 d d) by (apply rnd_ge; [apply (fmt_k 40); lia|lra]).
  set (q := add64 d d) in *. clearbody q.
  assert (E : 80 * a <= add64 q q) by (apply rnd_ge; [apply (fmt_k 80); lia|lra]).
  set (e := add64 q q) in *. clearbody e.
  assert (F1 : 1 + bpow radix2 (-52) <= add64 1 d).
  { unfold add64, rnd64. apply round_N_ge_midp; [exact valid64| |].
    - replace (bpow radix2 (-52)) with (IZR 1 * bpow radix2 (-52)) by ring. apply format_near1. lia.
    - rewrite pred_s1. lra. }
  assert (F2 : 1 + 2 * bpow radix2 (-52) <= add64 (add64 1 d) q).
  { apply rnd_ge; [apply (format_near1 2); lia|lra]. }
  apply rnd_ge; [apply (format_near1 2); lia|lra].
Qed.
Lemma last_bin_low s : 1 + 2 * bpow radix2 (-52) <= s -> 0 <= div64 1 s <= 1 - / 2 ^ 53.
Proof.
  intros Hs. pose proof a_pos as Pa. pose proof ulp_a as U.
  assert (E53 : / 2 ^ 53 = 16 * a).
  { rewrite <- u64_eq. unfold u64, a. change 16 with (bpow radix2 4). rewrite <- bpow_plus. reflexivity. }
  assert (Ps : 0 < s) by lra.
  assert (I : 0 < / s) by (apply Rinv_0_lt_compat; exact Ps).
  split.
  - apply rnd_ge; [apply generic_format_0|]. unfold Rdiv. lra.
  - assert (Fm : generic_format radix2 fexp64 (1 - bpow radix2 (-52))).
    { replace (1 - bpow radix2 (-52)) with (IZR (2 ^ 52 - 1) * bpow radix2 (-52)); [apply dyad_format; lia|].
      rewrite minus_IZR, Rmult_minus_distr_r. change (IZR (2 ^ 52)) with (bpow radix2 52). rewrite <- bpow_plus.
      change (bpow radix2 (52 + -52)) with 1. ring. }
    apply Rle_trans with (1 - bpow radix2 (-52)); [|lra].
    apply rnd_le; [exact Fm|]. unfold Rdiv. rewrite Rmult_1_l.
    apply Rmult_le_reg_r with s; [exact Ps|]. rewrite Rinv_l by lra.
    assert (A1 : a <= 1 / 1000).
    { unfold a. apply Rle_trans with (bpow radix2 (-10)); [apply bpow_le; lia|]. change (bpow radix2 (-10)) with (/ 1024). lra. }
    rewrite U in Hs |- *.
    assert ((1 - 32 * a) * (1 + 2 * (32 * a)) <= (1 - 32 * a) * s) by (apply Rmult_le_compat_l; lra).
    assert (a * a <= a * (1 / 1000)) by (apply Rmult_le_compat_l; lra). lra.
Qed.
End Witness.

Theorem C161_gibbs_double_raises : forall csum,
  gibbs64 Inf csum bad_costs 16 exp64 bad_random 2 = Err IndexErr.
Proof.
  intros csum. unfold gibbs64, ggibbs, bad_costs. cbn [length].
  change (seq 1 1) with [1%nat]. unfold grow_cost at 1. cbn [forallb Nat.ltb Nat.leb andb bind].
  cbn [giterate length seq gsweep]. unfold gdraw.
  assert (EW : map (gweight 0 Inf [Fin 0 :: repeat (Fin 37) 15] exp64 [1%nat] 0) (seq 0 16)
     = 1 :: repeat (exp64 (Fin 37)) 15).
  { rewrite <- w0. reflexivity. }
  destruct w37 as [Lo Hi].
  assert (E57 : bpow radix2 (-56) = 2 * bpow radix2 (-57)).
  { change 2 with (bpow radix2 1). rewrite <- bpow_plus. reflexivity. }
  rewrite E57 in Lo. set (w := exp64 (Fin 37)) in *.
  assert (Lo' : 10 * bpow radix2 (-57) <= w) by lra.
  assert (Pw : 0 < w) by (pose proof (bpow_gt_0 radix2 (-57)); lra).
  assert (EO : gold_ind 0%R Rltb Inf [Fin 0 :: repeat (Fin 37) 15] 16 exp64 [1%nat] 0 = seq 0 16).
  { unfold gold_ind. 
    assert (HA : forall l, (forall j, In j l -> In j (seq 0 16)) ->
      filter (fun j => Rltb 0 (gweight 0 Inf [Fin 0 :: repeat (Fin 37) 15] exp64 [1%nat] 0 j)) l = l).
    { induction l as [|j l IH]; intros Hl; [reflexivity|]. cbn [filter].
      assert (Hj : 0 < gweight 0 Inf [Fin 0 :: repeat (Fin 37) 15] exp64 [1%nat] 0 j).
      { assert (Hin : In (gweight 0 Inf [Fin 0 :: repeat (Fin 37) 15] exp64 [1%nat] 0 j) (1 :: repeat w 15)).
        { rewrite <- EW. apply in_map. apply Hl. left. reflexivity. }
        destruct Hin as [<-|Hin]; [lra|]. apply repeat_spec in Hin. rewrite Hin. exact Pw. }
      apply Rltb_lt in Hj. rewrite Hj. f_equal. apply IH. intros x Hx. apply Hl. right. exact Hx. }
    apply HA. intros j Hj. exact Hj. }
  rewrite EO, EW. clearbody w. clear EO EW.
  unfold gdigitize, ghist. cbn [fcumsum]. rewrite (cum_ones w Lo' Hi).
  pose proof (sum_above_1 w Lo' Hi) as HS. set (s := np_sum 0 add64 (1 :: repeat w 15)) in *. clearbody s.
  destruct (last_bin_low s HS) as [B0 B1].
  change (map (fun x => div64 x s) (1 :: repeat 1 15)) with (repeat (div64 1 s) 16).
  set (b := div64 1 s) in *. clearbody b. unfold bad_random.
  assert (R1 : Rleb 0 b = true) by (apply Rleb_le; exact B0).
  assert (R2 : Rleb b b = true) by (apply Rleb_le; lra).
  assert (R3 : Rleb b (1 - / 2 ^ 53) = true) by (apply Rleb_le; exact B1).
  assert (R4 : Rleb 0 (1 - / 2 ^ 53) = true) by (apply Rleb_le; lra).
  assert (FR : forall n, filter (fun x => Rleb x (1 - / 2 ^ 53)) (repeat b n) = repeat b n).
  { induction n as [|n IH]; [reflexivity|]. cbn [repeat filter]. rewrite R3, IH. reflexivity. }
  assert (ND : forall n, nondecreasing Rleb (repeat b n) = true).
  { induction n as [|[|n] IH]; [reflexivity|reflexivity|]. cbn [repeat nondecreasing]. rewrite R2. exact IH. }
  replace (nondecreasing Rleb (0 :: repeat b 16)) with true.
  - cbn [filter]. rewrite R4, FR. reflexivity.
  - symmetry. change (Rleb 0 b && nondecreasing Rleb (repeat b 16) = true). rewrite R1. apply ND.
Qed.

(** C161: "gibbs never raises in double precision", refuted. *)
Theorem C161_gibbs_double_total_refuted :
  ~ (forall csum costs M rnd num_iters,
      (forall r, In r costs -> length r = M /\ forall e, In e r -> exists q, e = Fin q /\ -600 <= q <= 600) ->
      (forall sol v, 0 <= rnd sol v < 1 /\ exists k, rnd sol v = INR k / 2 ^ 53) ->
      (2 * length costs <= M)%nat -> INR M <= 2 ^ 51 -> (1 <= num_iters)%nat ->
      exists res, gibbs64 Inf csum costs M exp64 rnd num_iters = Ok res).
Proof.
  intros H. destruct (H (fun _ => Inf) bad_costs 16%nat bad_random 2%nat) as [res E].
  - intros r [<-|[]]. split; [reflexivity|]. intros e [<-|He]; [exists 0; split; [reflexivity|lra]|].
    apply repeat_spec in He. subst e. exists 37. split; [reflexivity|lra].
  - intros sol v. unfold bad_random.
    assert (P : 1 < 2 ^ 53) by (apply Rlt_pow_R1; [lra|lia]).
    assert (I : 0 < / 2 ^ 53 < 1).
    { split; [apply Rinv_0_lt_compat; lra|]. rewrite <- Rinv_1. apply Rinv_lt_contravar; lra. }
    split; [lra|]. exists (Z.to_nat (2 ^ 53 - 1)). rewrite INR_IZR_INZ, Z2Nat.id by lia.
    rewrite minus_IZR. change (2 ^ 53)%Z with (2 ^ Z.of_nat 53)%Z. rewrite <- (pow_IZR 2 53).
    field.
  - unfold bad_costs; cbn [length]; lia.
  - rewrite INR_IZR_INZ. apply Rle_trans with (2 ^ 5); [cbn [Z.of_nat Pos.of_succ_nat Pos.succ pow]; lra|]. apply Rle_pow; [lra|lia].
  - lia.
  - rewrite C161_gibbs_double_raises in E. discriminate.
Qed.

(** [add64] and [div64] are binary64 addition and division, as long as nothing
    overflows. *)
From Flocq Require Import Binary Bits.
Theorem gibbs_arith_is_binary64 (x y : binary64) :
  is_finite 53 1024 x = true -> is_finite 53 1024 y = true ->
  let vx := B2R 53 1024 x in let vy := B2R 53 1024 y in
  (0 <= vx + vy <= fmax64 -> B2R 53 1024 (b64_plus BinarySingleNaN.mode_NE x y) = add64 vx vy) /\
  (vy <> 0 -> 0 <= vx / vy <= fmax64 -> B2R 53 1024 (b64_div BinarySingleNaN.mode_NE x y) = div64 vx vy).
Proof.
  intros Fx Fy vx vy. split; [apply (ieee64_is_binary64 x y Fx Fy)|]. intros Hy [H0 H1].
  pose proof (Bdiv_correct 53 1024 eq_refl eq_refl binop_nan_pl64 BinarySingleNaN.mode_NE x y Hy) as H.
  change (round radix2 (SpecFloat.fexp 53 1024) (BinarySingleNaN.round_mode BinarySingleNaN.mode_NE) (B2R 53 1024 x / B2R 53 1024 y))
    with (rnd64 (vx / vy)) in H.
  rewrite (rnd64_lt _ H0 H1) in H. apply H.
Qed.

(** Instances of the hypotheses: the matrix of C161 with random numbers 1/2,
    and a 2 x 4 matrix with the largest random number. *)
Lemma half_ok M : (M <= 16)%nat -> 1 / 2 < 1 - INR M / 2 ^ 52.
Proof.
  intros H. apply le_INR in H. replace (INR 16) with 16 in H by (cbn; ring).
  assert (P : 64 <= 2 ^ 52) by (replace 64 with (2 ^ 6) by ring; apply Rle_pow; [lra|lia]).
  assert (I : / 2 ^ 52 <= / 64) by (apply Rinv_le; lra).
  assert (0 < / 2 ^ 52) by (apply Rinv_0_lt_compat; lra).
  assert (INR M * / 2 ^ 52 <= 16 * / 64); [|unfold Rdiv; lra].
  apply Rmult_le_compat; [apply pos_INR|lra|lra|lra].
Qed.
Example C159_bad_costs_half : forall csum, exists rows cs,
  gibbs64 Inf csum bad_costs 16 exp64 (fun _ _ => 1 / 2) 100 = Ok (rows, cs) /\
  forall a, In a rows -> one_to_one 1 16 a.
Proof.
  intros csum. apply (C159_gibbs_double_bounded_costs csum bad_costs 16 (fun _ _ => 1 / 2) 100).
  - intros r [<-|[]]. split; [reflexivity|]. intros e [<-|He]; [exists 0; split; [reflexivity|lra]|].
    apply repeat_spec in He. subst e. exists 37. split; [reflexivity|lra].
  - intros sol v. split; [lra|]. right. apply half_ok. lia.
  - cbn [bad_costs length]. lia.
  - rewrite INR_IZR_INZ. apply Rle_trans with (2 ^ 5); [cbn [Z.of_nat Pos.of_succ_nat Pos.succ pow]; lra|]. apply Rle_pow; [lra|lia].
  - lia.
Qed.
Definition small_costs : list (list ext) := [[Fin 1; Fin (-2); Fin 0; Fin 5]; [Fin 3; Fin 0; Fin 1; Fin 2]].
Example C159_small_largest_random : forall csum, exists rows cs,
  gibbs64 Inf csum small_costs 4 exp64 bad_random 100 = Ok (rows, cs) /\
  forall a, In a rows -> one_to_one 2 4 a.
Proof.
  intros csum. apply (C159_gibbs_double_bounded_costs csum small_costs 4 bad_random 100).
  - intros r [<-|[<-|[]]]; (split; [reflexivity|]); intros e He; cbn [In] in He;
      destruct He as [<-|[<-|[<-|[<-|[]]]]]; eexists; (split; [reflexivity|lra]).
  - intros sol v. unfold bad_random.
    assert (P : 1 < 2 ^ 53) by (apply Rlt_pow_R1; [lra|lia]).
    assert (I : 0 < / 2 ^ 53 < 1).
    { split; [apply Rinv_0_lt_compat; lra|]. rewrite <- Rinv_1. apply Rinv_lt_contravar; lra. }
    split; [lra|]. left. cbn [small_costs length]. lia.
  - cbn [small_costs length]. lia.
  - rewrite INR_IZR_INZ. apply Rle_trans with (2 ^ 5); [cbn [Z.of_nat Pos.of_succ_nat Pos.succ pow]; lra|]. apply Rle_pow; [lra|lia].
  - lia.
Qed.

Print Assumptions gibbs_arith_is_binary64.
Print Assumptions C159_gibbs_double_one_to_one.
Print Assumptions C159_gibbs_double_private_columns.
Print Assumptions C159_gibbs_double_bounded_costs.
Print Assumptions C160_gibbs_double_inverse_transform.
Print Assumptions C161_gibbs_double_raises.
Print Assumptions C161_gibbs_double_total_refuted.
