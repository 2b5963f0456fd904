(** Multiplicative error bookkeeping for binary64: [near k x y] says that x and
    y agree up to the factor (1 + 2^-53)^k, in either direction. *)
From Coq Require Import Reals ZArith Lra Lia Psatz List.
From Flocq Require Import Core Relative.
From Verif Require Import RBase FltModel FltSpec FltIeee FltGibbsModel FltGibbs.
Local Open Scope R_scope.

Definition near (k : nat) (x y : R) : Prop := x <= y * g k /\ y <= x * g k.

Lemma u64_small : u64 <= / 8.
Proof. unfold u64. apply Rle_trans with (bpow radix2 (-3)); [apply bpow_le; lia|]. cbn. lra. Qed.
Lemma g_plus a b : g (a + b) = g a * g b.
Proof. unfold g. apply pow_add. Qed.
Lemma g_ge k : 1 + INR k * u64 <= g k.
Proof.
  induction k as [|k IH]; [unfold g; cbn [pow INR]; lra|]. rewrite g_S, S_INR. pose proof u64_pos as U. pose proof (pos_INR k) as P.
  assert (0 <= INR k * u64) by (apply Rmult_le_pos; lra).
  assert ((1 + INR k * u64) * (1 + u64) <= g k * (1 + u64)) by (apply Rmult_le_compat_r; lra).
  assert (0 <= INR k * u64 * u64) by (apply Rmult_le_pos; lra). lra.
Qed.
Lemma near_refl x : 0 <= x -> near 0 x x.
Proof. intros H. unfold near, g. cbn [pow]. lra. Qed.
Lemma near_sym k x y : near k x y -> near k y x.
Proof. unfold near. tauto. Qed.
Lemma near_nonneg_l k x y : 0 <= y -> near k x y -> 0 <= x.
Proof.
  intros Hy [_ H]. pose proof (g_pos k) as G. destruct (Rle_dec 0 x) as [|N]; [assumption|]. exfalso.
  assert (0 < - x * g k) by (apply Rmult_lt_0_compat; lra). lra.
Qed.
Lemma near_trans a b x y z : near a x y -> near b y z -> near (a + b) x z.
Proof.
  intros [A1 A2] [B1 B2]. split.
  - rewrite g_plus. apply Rle_trans with (y * g a); [exact A1|].
    replace (z * (g a * g b)) with (z * g b * g a) by ring. apply Rmult_le_compat_r; [pose proof (g_pos a); lra|exact B1].
  - rewrite g_plus. apply Rle_trans with (y * g b); [exact B2|].
    replace (x * (g a * g b)) with (x * g a * g b) by ring. apply Rmult_le_compat_r; [pose proof (g_pos b); lra|exact A2].
Qed.
Lemma near_weaken a b x y : (a <= b)%nat -> 0 <= x -> 0 <= y -> near a x y -> near b x y.
Proof.
  intros H Hx Hy [A B]. pose proof (g_mono a b H). split.
  - apply Rle_trans with (y * g a); [exact A|]. apply Rmult_le_compat_l; assumption.
  - apply Rle_trans with (x * g a); [exact B|]. apply Rmult_le_compat_l; assumption.
Qed.
Lemma near_0 k y : near k 0 y -> 0 <= y -> y = 0.
Proof. intros [_ H] Hy. rewrite Rmult_0_l in H. lra. Qed.
Lemma near_00 k : near k 0 0.
Proof. unfold near. rewrite Rmult_0_l. lra. Qed.
Lemma near_mult a b x y x' y' : 0 <= x -> 0 <= y -> 0 <= x' -> 0 <= y' -> near a x x' -> near b y y' -> near (a + b) (x * y) (x' * y').
Proof.
  intros Hx Hy Hx' Hy' [A1 A2] [B1 B2]. split; rewrite g_plus.
  - replace (x' * y' * (g a * g b)) with ((x' * g a) * (y' * g b)) by ring. apply Rmult_le_compat; assumption.
  - replace (x * y * (g a * g b)) with ((x * g a) * (y * g b)) by ring. apply Rmult_le_compat; assumption.
Qed.
Lemma near_pow k p x y : 0 <= x -> 0 <= y -> near k x y -> near (p * k) (x ^ p) (y ^ p).
Proof.
  intros Hx Hy H. induction p as [|p IH]; cbn [pow Nat.mul]; [apply near_refl; lra|].
  apply near_mult; try assumption; apply pow_le; assumption.
Qed.
Lemma near_min k x y c : near k x y -> 0 <= x -> 0 <= y -> 0 <= c -> near k (Rmin x c) (Rmin y c).
Proof.
  intros [A B] Hx Hy Hc. pose proof (g_pos k) as G.
  assert (C : c <= c * g k) by (rewrite <- (Rmult_1_r c) at 1; apply Rmult_le_compat_l; assumption).
  assert (X : x <= x * g k) by (rewrite <- (Rmult_1_r x) at 1; apply Rmult_le_compat_l; assumption).
  assert (Y : y <= y * g k) by (rewrite <- (Rmult_1_r y) at 1; apply Rmult_le_compat_l; assumption).
  split; unfold Rmin; destruct (Rle_dec x c), (Rle_dec y c); lra.
Qed.
Lemma near_rsum {A} k (f h : A -> R) l : (forall x, In x l -> near k (f x) (h x)) -> near k (rsum (map f l)) (rsum (map h l)).
Proof.
  induction l as [|a l IH]; intros H; [cbn [map]; change (rsum []) with 0; apply near_00|]. cbn [map].
  change (rsum (f a :: map f l)) with (f a + rsum (map f l)). change (rsum (h a :: map h l)) with (h a + rsum (map h l)).
  destruct (H a (or_introl eq_refl)) as [A1 A2]. destruct IH as [B1 B2]; [intros x Hx; apply H; right; exact Hx|].
  split; lra.
Qed.
(** From relative errors. *)
Lemma near_rel m x v : 0 <= x -> INR m * u64 <= / 2 -> Rabs (v - x) <= INR m * u64 * x -> near (2 * m) v x.
Proof.
  intros Hx Hm H. pose proof (g_ge (2 * m)) as G. rewrite mult_INR in G. change (INR 2) with 2 in G.
  set (e := INR m * u64) in *. assert (E : 0 <= e) by (apply Rmult_le_pos; [apply pos_INR|pose proof u64_pos; lra]).
  replace (2 * INR m * u64) with (2 * e) in G by (unfold e; ring). clearbody e.
  pose proof (Rle_abs (v - x)). pose proof (Rle_abs (- (v - x))) as L. rewrite Rabs_Ropp in L.
  assert (Hv : (1 - e) * x <= v) by lra.
  split.
  - apply Rle_trans with (x * (1 + 2 * e)); [|apply Rmult_le_compat_l; lra]. assert (0 <= e * x) by (apply Rmult_le_pos; lra). lra.
  - apply Rle_trans with ((1 - e) * x * (1 + 2 * e)).
    + replace ((1 - e) * x * (1 + 2 * e)) with (x + x * e * (1 - 2 * e)) by ring.
      assert (0 <= x * e * (1 - 2 * e)) by (apply Rmult_le_pos; [apply Rmult_le_pos; lra|lra]). lra.
    + apply Rmult_le_compat; try lra. apply Rmult_le_pos; lra.
Qed.
Lemma near_err k x v : 0 <= x -> INR k * u64 <= / 2 -> near k v x -> Rabs (v - x) <= 2 * INR k * u64 * x.
Proof.
  intros Hx Hk [A B]. pose proof (g_bound k) as G. pose proof (g_pos k) as G1.
  set (e := INR k * u64) in *. assert (E : 0 <= e) by (apply Rmult_le_pos; [apply pos_INR|pose proof u64_pos; lra]).
  replace (2 * INR k * u64) with (2 * e) by (unfold e; ring). clearbody e.
  assert (G2 : g k <= 1 + 2 * e).
  { apply Rmult_le_reg_r with (1 - e); [lra|]. apply Rle_trans with 1; [exact G|].
    replace ((1 + 2 * e) * (1 - e)) with (1 + e * (1 - 2 * e)) by ring. assert (0 <= e * (1 - 2 * e)) by (apply Rmult_le_pos; lra). lra. }
  apply Rabs_le. split.
  - assert (v * g k * (1 - e) <= v * 1).
    { rewrite Rmult_assoc. apply Rmult_le_compat_l; [|exact G]. apply near_nonneg_l with k x; [exact Hx|split; assumption]. }
    assert (x * (1 - e) <= v * g k * (1 - e)) by (apply Rmult_le_compat_r; lra).
    assert (0 <= e * x) by (apply Rmult_le_pos; assumption). lra.
  - apply Rle_trans with (x * (1 + 2 * e) - x); [|lra]. assert (x * g k <= x * (1 + 2 * e)) by (apply Rmult_le_compat_l; assumption). lra.
Qed.
Lemma near_approx n S v : 0 <= S -> INR n * u64 <= / 4 -> approx n S v -> near (2 * n) v S.
Proof.
  intros HS Hn H. pose proof (approx_le _ _ _ H) as A. pose proof (approx_ge _ _ _ H) as B. pose proof (g_pos n) as G.
  pose proof (g_bound n) as G2. set (e := INR n * u64) in *.
  assert (E : 0 <= e) by (apply Rmult_le_pos; [apply pos_INR|pose proof u64_pos; lra]). clearbody e.
  assert (L : g n <= 3 / 2) by (destruct (Rle_dec (g n) (3 / 2)); [assumption|]; exfalso; assert (3 / 2 * (3 / 4) <= g n * (1 - e)) by (apply Rmult_le_compat; lra); lra).
  replace (2 * n)%nat with (n + n)%nat by lia. split; rewrite g_plus.
  - apply Rle_trans with (g n * S); [exact A|]. rewrite Rmult_comm. apply Rmult_le_compat_l; [exact HS|].
    rewrite <- (Rmult_1_r (g n)) at 1. apply Rmult_le_compat_l; lra.
  - apply Rle_trans with ((2 - g n) * S * (g n * g n)).
    + replace ((2 - g n) * S * (g n * g n)) with (S + S * ((g n - 1) * (1 + g n - g n * g n))) by ring.
      assert (0 <= S * ((g n - 1) * (1 + g n - g n * g n))); [|lra].
      apply Rmult_le_pos; [exact HS|]. apply Rmult_le_pos; [lra|].
      assert (g n * g n <= 3 / 2 * g n) by (apply Rmult_le_compat_r; lra). lra.
    + apply Rmult_le_compat_r; [apply Rmult_le_pos; lra|exact B].
Qed.

(** * Rounding *)
Lemma rnd_normal x : bpow radix2 (-1022) <= x -> near 2 (rnd64 x) x.
Proof.
  intros H. assert (Hx : 0 <= x) by (pose proof (bpow_ge_0 radix2 (-1022)); lra).
  apply (near_rel 1); [exact Hx|pose proof u64_small; cbn [INR]; lra|].
  pose proof (relative_error_N_FLT radix2 (-1074) 53 (eq_refl _) (fun z => negb (Z.even z)) x) as E.
  rewrite Rabs_pos_eq in E by exact Hx. specialize (E H). fold fexp64 in E. fold (rnd64 x) in E.
  replace (/ 2 * bpow radix2 (- (53) + 1)) with u64 in E; [cbn [INR]; rewrite Rmult_1_l; exact E|].
  unfold u64. replace (-53)%Z with (-1 + (- (53) + 1))%Z by lia. rewrite bpow_plus. reflexivity.
Qed.
Lemma rnd_normal_rep x : bpow radix2 (-1022) <= x -> x <= fmax64 -> rep64 (rnd64 x).
Proof. intros H H1. apply rnd_rep; [|exact H1]. pose proof (bpow_ge_0 radix2 (-1022)). lra. Qed.
Lemma rnd_0 : rnd64 0 = 0.
Proof. apply rnd_exact, rep64_0. Qed.

(** Differences of floats round with relative error u, whatever their size. *)
Lemma rnd_diff x y : rep64 x -> rep64 y -> near 2 (Rabs (rnd64 (x - y))) (Rabs (x - y)).
Proof.
  intros Rx Ry. destruct (rep_int x Rx) as [a Ea]. destruct (rep_int y Ry) as [b Eb].
  apply (near_rel 1); [apply Rabs_pos|pose proof u64_small; cbn [INR]; lra|]. cbn [INR]. rewrite Rmult_1_l.
  replace (x - y) with (IZR (a - b) * bpow radix2 (-1074)) by (rewrite minus_IZR, Ea, Eb; ring).
  eapply Rle_trans; [apply Rabs_triang_inv2|]. apply rnd_int.
Qed.

(** * Summation in any order numpy uses *)
Definition good_sum (s : list R -> R) : Prop := forall l, nn l -> INR (length l) * u64 <= / 4 -> 2 * rsum l <= fmax64 ->
  approx (length l) (rsum l) (s l).
Lemma g_le_2 n : INR n * u64 <= / 4 -> g n <= 2.
Proof.
  intros H. pose proof (g_bound n). pose proof (g_pos n). destruct (Rle_dec (g n) 2) as [|N]; [assumption|]. exfalso.
  set (e := INR n * u64) in *. assert (2 * (3 / 4) <= g n * (1 - e)) by (apply Rmult_le_compat; lra). lra.
Qed.
Lemma np_sum_good : good_sum (np_sum 0 add64).
Proof.
  intros l Hl Hn Hs. pose proof (nn_sum l Hl) as P. pose proof (g_le_2 _ Hn) as G. unfold np_sum.
  apply (pairwise_approx (length l) (rsum l)); [|exact Hl|lia|lra].
  apply Rle_trans with (2 * rsum l); [apply Rmult_le_compat_r; lra|exact Hs].
Qed.
Lemma seq_sum_good : good_sum (fun l => fold_left add64 l 0).
Proof.
  intros l Hl Hn Hs. pose proof (nn_sum l Hl) as P. pose proof (g_le_2 _ Hn) as G.
  pose proof (fold_approx (length l) (rsum l)) as F. specialize (F ltac:(apply Rle_trans with (2 * rsum l); [apply Rmult_le_compat_r; lra|exact Hs])).
  specialize (F l 0%nat 0 0 Hl (Rle_refl 0) (approx_self 0 rep64_0 (Rle_refl 0)) ltac:(lia)).
  rewrite Nat.add_0_l, Rplus_0_l in F. apply F. lra.
Qed.

(** * Powers with real exponents *)
Lemma near_rpower k q x y : 0 < x -> 0 < y -> 0 < q <= 1 -> near k x y -> near k (Rpower x q) (Rpower y q).
Proof.
  assert (A : forall x y, 0 < x -> 0 < y -> 0 < q <= 1 -> x <= y * g k -> Rpower x q <= Rpower y q * g k).
  { clear x y. intros x y Hx Hy Hq H. pose proof (g_pos k) as G.
    apply Rle_trans with (Rpower (y * g k) q).
    - unfold Rpower. destruct (Req_dec (q * ln x) (q * ln (y * g k))) as [->|N]; [lra|].
      left. apply exp_increasing. assert (ln x <= ln (y * g k)).
      { destruct (Rle_lt_or_eq_dec _ _ H) as [L|E]; [left; apply ln_increasing; assumption|rewrite E; lra]. }
      assert (q * ln x <= q * ln (y * g k)) by (apply Rmult_le_compat_l; lra). lra.
    - rewrite <- Rpower_mult_distr by lra. apply Rmult_le_compat_l; [left; apply exp_pos|].
      rewrite <- (Rpower_1 (g k)) at 2 by lra. apply Rle_Rpower; [exact G|lra]. }
  intros Hx Hy Hq [H1 H2]. split; apply A; assumption.
Qed.
Lemma exp_le_2t t : 0 <= t <= / 2 -> exp t <= 1 + 2 * t.
Proof.
  intros [H0 H1]. pose proof (exp_ineq1_le (- t)) as E. rewrite exp_Ropp in E.
  pose proof (exp_pos t) as P. assert (F : exp t * (1 + - t) <= 1).
  { apply Rle_trans with (exp t * / exp t); [apply Rmult_le_compat_l; lra|]. rewrite Rinv_r by lra. lra. }
  apply Rmult_le_reg_r with (1 - t); [lra|]. apply Rle_trans with 1; [lra|].
  replace ((1 + 2 * t) * (1 - t)) with (1 + t * (1 - 2 * t)) by ring. assert (0 <= t * (1 - 2 * t)) by (apply Rmult_le_pos; lra). lra.
Qed.
Lemma ln_bpow_bound x : bpow radix2 (-1000) <= x <= bpow radix2 1000 -> Rabs (ln x) <= 1000.
Proof.
  intros [H1 H2]. assert (Hx : 0 < x) by (pose proof (bpow_gt_0 radix2 (-1000)); lra).
  assert (L2 : ln 2 < 1). { rewrite <- (ln_exp 1). apply ln_increasing; [lra|]. pose proof (exp_ineq1 1 ltac:(lra)). lra. }
  assert (L0 : 0 < ln 2) by (rewrite <- ln_1; apply ln_increasing; lra).
  assert (B : forall e, ln (bpow radix2 e) = IZR e * ln 2).
  { intros e. rewrite bpow_exp. rewrite ln_exp. reflexivity. }
  assert (M : forall a b, 0 < a -> a <= b -> ln a <= ln b).
  { intros a b Ha [L|E]; [left; apply ln_increasing; assumption|subst; lra]. }
  apply Rabs_le. split.
  - apply Rle_trans with (ln (bpow radix2 (-1000))); [rewrite B; lra|apply M; [apply bpow_gt_0|exact H1]].
  - apply Rle_trans with (ln (bpow radix2 1000)); [apply M; assumption|rewrite B; lra].
Qed.
(** An exponent that is off by at most u. *)
Lemma near_exponent x q q' : bpow radix2 (-1000) <= x <= bpow radix2 1000 -> Rabs (q' - q) <= u64 -> near 2000 (Rpower x q') (Rpower x q).
Proof.
  intros Hx Hq. pose proof (ln_bpow_bound x Hx) as L.
  assert (T : forall a b, Rabs (a - b) <= u64 -> Rpower x a <= Rpower x b * g 2000).
  { clear q q' Hq. intros a b Hq. replace a with (b + (a - b)) by ring. rewrite Rpower_plus.
    apply Rmult_le_compat_l; [left; apply exp_pos|]. unfold Rpower.
    assert (D : (a - b) * ln x <= 1000 * u64).
    { apply Rle_trans with (Rabs ((a - b) * ln x)); [apply Rle_abs|]. rewrite Rabs_mult.
      rewrite (Rmult_comm 1000). apply Rmult_le_compat; try apply Rabs_pos; assumption. }
    pose proof u64_pos as U. assert (US : 1000 * u64 <= / 2).
    { unfold u64. apply Rle_trans with (1024 * bpow radix2 (-53)); [pose proof (bpow_gt_0 radix2 (-53)); lra|].
      change 1024 with (bpow radix2 10). rewrite <- bpow_plus. apply Rle_trans with (bpow radix2 (-1)); [apply bpow_le; lia|cbn; lra]. }
    apply Rle_trans with (exp (1000 * u64)).
    - destruct D as [D|D]; [left; apply exp_increasing, D|rewrite D; lra].
    - eapply Rle_trans; [apply exp_le_2t; lra|]. eapply Rle_trans; [|apply g_ge].
      replace (INR 2000) with 2000 by (rewrite INR_IZR_INZ; reflexivity). lra. }
  split; [apply T, Hq|]. apply T. rewrite Rabs_minus_sym. exact Hq.
Qed.
