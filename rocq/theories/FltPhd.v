(** Rounding with possible underflow; the PHD weights. *)
From Coq Require Import Reals ZArith Lia Lra.
From Flocq Require Import Core.
From Verif Require Import Base RBase RLists RPhdModel FltIeee FltGibbs FltGibbsProps FltNear FltOspaModel FltOspa FltOspaStep FltPhdModel FltPhdSpec.
Local Open Scope R_scope.

Definition nears (k : nat) (eta x y : R) : Prop := x <= y * g k + eta /\ y <= x * g k + eta.
Definition tiny := bp (-1074).

Lemma tiny_pos : 0 < tiny. Proof. apply bpow_gt_0. Qed.
Lemma near_nears k x y : near k x y -> nears k 0 x y.
Proof. unfold near, nears. lra. Qed.
Lemma nears_weaken a b e f x y : (a <= b)%nat -> e <= f -> 0 <= x -> 0 <= y -> nears a e x y -> nears b f x y.
Proof.
  intros H He Hx Hy [A B]. pose proof (g_mono a b H). split.
  - apply Rle_trans with (y * g a + e); [exact A|]. apply Rplus_le_compat; [apply Rmult_le_compat_l; assumption|exact He].
  - apply Rle_trans with (x * g a + e); [exact B|]. apply Rplus_le_compat; [apply Rmult_le_compat_l; assumption|exact He].
Qed.
Lemma nears_trans a b e f x y z : g a <= 2 -> g b <= 2 -> 0 <= e -> 0 <= f -> nears a e x y -> nears b f y z -> nears (a + b) (2 * e + 2 * f) x z.
Proof.
  intros Ga Gb He Hf [A1 A2] [B1 B2]. pose proof (g_pos a) as Pa. pose proof (g_pos b) as Pb.
  assert (F : f * g a <= f * 2) by (apply Rmult_le_compat_l; assumption).
  assert (E : e * g b <= e * 2) by (apply Rmult_le_compat_l; assumption).
  assert (Q1 : y * g a <= (z * g b + f) * g a) by (apply Rmult_le_compat_r; lra).
  assert (Q2 : y * g b <= (x * g a + e) * g b) by (apply Rmult_le_compat_r; lra).
  split; rewrite g_plus; lra.
Qed.
Lemma nears_scale k e c x y : 0 <= c -> nears k e x y -> nears k (c * e) (c * x) (c * y).
Proof.
  intros Hc [A B]. split.
  - replace (c * y * g k + c * e) with (c * (y * g k + e)) by ring. apply Rmult_le_compat_l; assumption.
  - replace (c * x * g k + c * e) with (c * (x * g k + e)) by ring. apply Rmult_le_compat_l; assumption.
Qed.
Lemma nears_plus k e f x y x' y' : nears k e x y -> nears k f x' y' -> nears k (e + f) (x + x') (y + y').
Proof. intros [A B] [C D]. split; lra. Qed.
Lemma nears_absorb k e x y : 0 <= x -> 0 <= y -> e <= u64 * x -> e <= u64 * y -> nears k e x y -> near (S k) x y.
Proof.
  intros Hx Hy E1 E2 [A B]. pose proof (g_pos k) as G. pose proof u64_pos as U.
  assert (X : 1 * (u64 * x) <= g k * (u64 * x)) by (apply Rmult_le_compat_r; [apply Rmult_le_pos; lra|exact G]).
  assert (Y : 1 * (u64 * y) <= g k * (u64 * y)) by (apply Rmult_le_compat_r; [apply Rmult_le_pos; lra|exact G]).
  split; rewrite g_S; lra.
Qed.
Lemma near_inv k x y : 0 < x -> 0 < y -> near k x y -> near k (/ x) (/ y).
Proof.
  assert (T : forall x y, 0 < x -> 0 < y -> y <= x * g k -> / x <= / y * g k).
  { clear. intros x y Hx Hy H. apply Rmult_le_reg_l with x; [exact Hx|]. rewrite Rinv_r by lra.
    apply Rmult_le_reg_l with y; [exact Hy|]. replace (y * (x * (/ y * g k))) with (x * g k) by (field; lra). lra. }
  intros Hx Hy [A B]. split; apply T; assumption.
Qed.
Lemma nears_mult a b e P x y p q : 0 <= y -> 0 <= x -> 0 <= p <= P -> 0 <= q <= P -> 0 <= e ->
  nears a e x y -> near b p q -> nears (a + b) (e * P) (x * p) (y * q).
Proof.
  intros Hy Hx Hp Hq He [A1 A2] [B1 B2]. pose proof (g_pos a) as Ga.
  assert (L : forall x y p q, 0 <= y -> 0 <= p <= P -> x <= y * g a + e -> p <= q * g b -> x * p <= y * q * g (a + b) + e * P).
  { clear - He Ga. intros x y p q Hy Hp A B. rewrite g_plus.
    apply Rle_trans with ((y * g a + e) * p); [apply Rmult_le_compat_r; lra|].
    assert (y * g a * p <= y * g a * (q * g b)) by (apply Rmult_le_compat_l; [apply Rmult_le_pos; lra|exact B]).
    assert (e * p <= e * P) by (apply Rmult_le_compat_l; lra). lra. }
  split; apply L; assumption.
Qed.

Lemma nears_rnd x : 0 <= x -> nears 2 tiny (rnd64 x) x.
Proof.
  intros Hx. destruct (Rle_dec (bp (-1022)) x) as [H|H].
  - apply rnd_normal, near_nears in H. revert H. apply nears_weaken; try lra; try lia; [pose proof tiny_pos; lra|].
    rewrite <- rnd_0. apply rnd64_mono, Hx.
  - assert (E : Rabs (rnd64 x - x) <= tiny).
    { pose proof (@error_le_half_ulp radix2 fexp64 valid64 (fun z => negb (Z.even z)) x) as E.
      assert (U : ulp radix2 fexp64 x = tiny).
      { apply ulp_FLT_small; [reflexivity|]. rewrite Rabs_pos_eq by exact Hx. change (-1074 + 53)%Z with (-1021)%Z.
        apply Rlt_le_trans with (bp (-1022)); [lra|]. apply bpow_le. lia. }
      rewrite U in E. pose proof tiny_pos. eapply Rle_trans; [exact E|]. lra. }
    apply Rabs_le_inv in E. pose proof (g_pos 2) as G.
    assert (0 <= rnd64 x) by (rewrite <- rnd_0; apply rnd64_mono, Hx).
    assert (x * 1 <= x * g 2) by (apply Rmult_le_compat_l; lra).
    assert (rnd64 x * 1 <= rnd64 x * g 2) by (apply Rmult_le_compat_l; lra).
    split; lra.
Qed.
Lemma rnd_nonneg x : 0 <= x -> 0 <= rnd64 x.
Proof. intros H. rewrite <- rnd_0. apply rnd64_mono, H. Qed.
Lemma bp_mul a b : bp a * bp b = bp (a + b). Proof. symmetry. apply bpow_plus. Qed.
Lemma bp_pos a : 0 < bp a. Proof. apply bpow_gt_0. Qed.
Lemma g2_small : g 2 <= 2.
Proof. apply g_le_2. pose proof u64_small. cbn [INR]. assert (u64 <= bp (-53)) by (unfold u64; apply Rle_refl).
  assert (bp (-53) <= bp (-4)) by (apply bp_le; lia). change (bp (-4)) with (/ 16) in *. lra. Qed.
Lemma g4_small : g 4 <= 2.
Proof. apply g_le_2. cbn [INR]. assert (u64 <= bp (-53)) by (unfold u64; apply Rle_refl).
  assert (bp (-53) <= bp (-4)) by (apply bp_le; lia). change (bp (-4)) with (/ 16) in *. lra. Qed.

Lemma nears_err k e x v : 0 <= x -> 0 <= e -> INR k * u64 <= / 2 -> nears k e v x -> Rabs (v - x) <= INR (2 * k) * u64 * x + e.
Proof.
  intros Hx He Hk [A B]. pose proof (g_bound k) as G. pose proof (g_pos k) as G1. rewrite mult_INR. change (INR 2) with 2.
  set (t := INR k * u64) in *. assert (E : 0 <= t) by (apply Rmult_le_pos; [apply pos_INR|pose proof u64_pos; lra]).
  replace (2 * INR k * u64) with (2 * t) by (unfold t; ring). clearbody t.
  assert (G2 : g k <= 1 + 2 * t).
  { apply Rmult_le_reg_r with (1 - t); [lra|]. eapply Rle_trans; [exact G|]. assert (0 <= t * (1 - 2 * t)) by (apply Rmult_le_pos; lra). lra. }
  assert (X : x * g k <= x * (1 + 2 * t)) by (apply Rmult_le_compat_l; assumption).
  apply Rabs_le. split; [|lra].
  (* v >= (x - e) / g >= (x - e)(1 - t) *)
  assert (V : x - e <= v * g k) by lra.
  destruct (Rle_dec (x - e) 0) as [N|N].
  - destruct (Rle_dec 0 v) as [P|P]; [assert (0 <= 2 * t * x) by (apply Rmult_le_pos; lra); lra|].
    assert (0 <= t * x) by (apply Rmult_le_pos; lra).
    assert ((- v) * 1 <= (- v) * g k) by (apply Rmult_le_compat_l; lra). lra.
  - assert (Pv : 0 <= v). { destruct (Rle_dec 0 v) as [|P]; [assumption|]. assert (v * g k <= 0) by (apply Ropp_le_cancel; rewrite Ropp_0, Ropp_mult_distr_l; apply Rmult_le_pos; lra). lra. }
    assert (Y : (x - e) * (1 - t) <= v * g k * (1 - t)) by (apply Rmult_le_compat_r; lra).
    assert (Z : v * (g k * (1 - t)) <= v * 1) by (apply Rmult_le_compat_l; assumption).
    assert (0 <= e * t) by (apply Rmult_le_pos; lra). assert (0 <= t * x) by (apply Rmult_le_pos; lra). lra.
Qed.

Section Weights.
Context {Meas : Type} (psum : list R -> R) (rate den : R) (c : cfg Meas).
Hypothesis Hpd : prob64 (c_pd c).
Hypothesis Hps : prob64 (c_ps c).
Hypothesis Hlik : lik_ok c.

(** A product of a double probability and a weight. *)
Lemma prod_near a p w : 0 <= a <= 1 -> near 2 a p -> 0 <= p -> rep64 w -> 0 <= w <= bp 300 ->
  rep64 (mul64 a w) /\ 0 <= mul64 a w <= bp 300 /\ nears 4 (bp (-1000)) (mul64 a w) (p * w).
Proof.
  intros Ha Na Hp Rw Hw. assert (H0 : 0 <= a * w) by (apply Rmult_le_pos; lra).
  assert (H1 : a * w <= 1 * w) by (apply Rmult_le_compat_r; lra). rewrite Rmult_1_l in H1.
  assert (M : mul64 a w <= w) by (unfold mul64; rewrite <- (rnd_exact w Rw) at 2; apply rnd64_mono, H1).
  assert (N : 0 <= mul64 a w) by (apply rnd_nonneg, H0).
  split; [apply rnd_rep; [exact H0|apply Rle_trans with (bp 300); [lra|apply fmax_ge; lia]]|].
  split; [lra|].
  assert (Q : nears 2 0 (a * w) (p * w)).
  { apply near_nears. apply (near_mult 2 0); try lra; [exact Na|apply near_refl; lra]. }
  pose proof (nears_trans 2 2 tiny 0 _ _ _ g2_small g2_small ltac:(pose proof tiny_pos; lra) (Rle_refl 0) (nears_rnd _ H0) Q) as T.
  revert T. apply nears_weaken; [lia| |exact N|apply Rmult_le_pos; lra].
  unfold tiny. replace (2 * bp (-1074) + 2 * 0) with (2 * bp (-1074)) by ring. rewrite <- bp_dbl. apply bp_le. lia.
Qed.
(** One detection term. *)
Definition dterm64 q w := mul64 q (mul64 (c_pd c) w).
Definition dterm q w := q * (c_pd c * w).
Lemma dterm_near q w : rep64 q -> 0 <= q <= bp 300 -> rep64 w -> 0 <= w <= bp 300 ->
  rep64 (dterm64 q w) /\ 0 <= dterm64 q w <= bp 601 /\ nears 6 (bp (-690)) (dterm64 q w) (dterm q w) /\ 0 <= dterm q w <= bp 601.
Proof.
  clear Hps Hlik. intros Rq Hq Rw Hw. destruct Hpd as [Rpd Bpd].
  destruct (prod_near (c_pd c) (c_pd c) w Bpd ltac:(apply (near_weaken 0); [lia|lra|lra|apply near_refl; lra]) (proj1 Bpd) Rw Hw) as [R1 [B1 N1]].
  unfold dterm64, dterm. set (a := mul64 (c_pd c) w) in *.
  assert (B600 : forall y, 0 <= y <= bp 300 -> 0 <= q * y <= bp 600).
  { intros y Hy. split; [apply Rmult_le_pos; lra|]. replace (bp 600) with (bp 300 * bp 300) by (rewrite bp_mul; reflexivity). apply Rmult_le_compat; lra. }
  assert (Hpw : 0 <= c_pd c * w <= bp 300).
  { split; [apply Rmult_le_pos; lra|]. apply Rle_trans with (1 * w); [apply Rmult_le_compat_r; lra|lra]. }
  pose proof (B600 a B1) as Qa. pose proof (B600 _ Hpw) as Qd.
  assert (R601 : rnd64 (q * a) <= bp 601).
  { destruct (nears_rnd (q * a) (proj1 Qa)) as [U _]. pose proof g2_small.
    assert (q * a * g 2 <= bp 600 * g 2) by (apply Rmult_le_compat_r; [pose proof (g_pos 2); lra|lra]).
    assert (RE : rep64 (bp 601)). { split; [apply bpow_format; lia|]. rewrite Rabs_pos_eq by (apply bpow_ge_0). apply fmax_ge; lia. }
    rewrite <- (rnd_exact _ RE). apply rnd64_mono. apply Rle_trans with (bp 600); [lra|apply bp_le; lia]. }
  split; [apply rnd_rep; [lra|apply Rle_trans with (bp 600); [lra|apply fmax_ge; lia]]|].
  split; [split; [apply rnd_nonneg; lra|exact R601]|].
  split; [|split; [lra|apply Rle_trans with (bp 600); [lra|apply bp_le; lia]]].
  pose proof (nears_scale _ _ q _ _ (proj1 Hq) N1) as S1.
  pose proof (nears_trans 2 4 tiny (q * bp (-1000)) _ _ _ g2_small g4_small ltac:(pose proof tiny_pos; lra)
               ltac:(apply Rmult_le_pos; [lra|apply bpow_ge_0]) (nears_rnd _ (proj1 Qa)) S1) as T.
  revert T. apply nears_weaken; [lia| |apply rnd_nonneg; lra|lra].
  assert (Q7 : q * bp (-1000) <= bp (-700)).
  { replace (bp (-700)) with (bp 300 * bp (-1000)) by (rewrite bp_mul; reflexivity). apply Rmult_le_compat_r; [apply bpow_ge_0|lra]. }
  assert (T7 : tiny <= bp (-700)) by (apply bp_le; lia).
  assert (bp (-698) = 4 * bp (-700)).
  { change (-698)%Z with (-700 + 1 + 1)%Z. rewrite !bp_dbl. ring. }
  assert (bp (-698) <= bp (-690)) by (apply bp_le; lia). lra.
Qed.
End Weights.

Section Norm.
Context (psum : list R -> R) (rate den : R).
Hypothesis Hsum : good_sum psum.
Hypothesis Hcl : clutter_ok rate den.

Definition dpair (x y : R) : Prop := rep64 x /\ 0 <= x <= bp 601 /\ nears 6 (bp (-690)) x y /\ 0 <= y <= bp 601.

Lemma dpair_nn l64 l : Forall2 dpair l64 l -> nn l64 /\ length l64 = length l /\
  0 <= rsum l64 <= INR (length l) * bp 601 /\ 0 <= rsum l /\ nears 6 (INR (length l) * bp (-690)) (rsum l64) (rsum l).
Proof.
  clear Hsum Hcl. induction 1 as [|x y l64 l [A [B [C D]]] F [IH1 [IH2 [IH3 [IH4 IH5]]]]].
  { split; [intros z []|]. split; [reflexivity|]. change (rsum []) with 0. cbn [length INR]. unfold nears. split; [lra|]. split; [lra|]. lra. }
  change (rsum (x :: l64)) with (x + rsum l64). change (rsum (y :: l)) with (y + rsum l). cbn [length]. rewrite S_INR.
  split; [intros z [<-|Hz]; [split; [exact A|lra]|apply IH1, Hz]|]. split; [congruence|].
  split; [lra|]. split; [lra|]. replace ((INR (length l) + 1) * bp (-690)) with (bp (-690) + INR (length l) * bp (-690)) by ring.
  apply nears_plus; assumption.
Qed.
Lemma den_near l64 l : Forall2 dpair l64 l -> INR (4 * length l + 64) * u64 <= / 4 ->
  near (2 * length l + 15) (add64 (mul64 rate den) (psum l64)) (rate * den + rsum l) /\
  bp (-200) <= rate * den + rsum l /\ bp (-202) <= add64 (mul64 rate den) (psum l64).
Proof.
  intros F Hn. set (n := length l) in *. destruct (dpair_nn _ _ F) as [N [L [S64 [S0 NS]]]]. fold n in S64, NS. destruct Hcl as [K1 K2].
  assert (n51 : INR n <= bp 51). { apply nat_le_51. revert Hn. apply u_mono. lia. }
  assert (U2 : INR n * u64 <= / 4) by (revert Hn; apply u_mono; lia).
  assert (G2n : g (2 * n) <= 2) by (apply g_le_2; revert Hn; apply u_mono; lia).
  assert (G6 : g 6 <= 2) by (apply g_le_2; revert Hn; apply u_mono; lia).
  assert (B660 : INR n * bp 601 <= bp 652).
  { replace (bp 652) with (bp 51 * bp 601) by (rewrite bp_mul; reflexivity). apply Rmult_le_compat_r; [apply bpow_ge_0|exact n51]. }
  assert (B639 : INR n * bp (-690) <= bp (-639)).
  { replace (bp (-639)) with (bp 51 * bp (-690)) by (rewrite bp_mul; reflexivity). apply Rmult_le_compat_r; [apply bpow_ge_0|exact n51]. }
  assert (AP : approx (length l64) (rsum l64) (psum l64)).
  { apply Hsum; [exact N|rewrite L; exact U2|]. apply Rle_trans with (2 * bp 652); [lra|]. rewrite <- bp_dbl. apply fmax_ge. lia. }
  rewrite L in AP. pose proof (near_approx _ _ _ (proj1 S64) U2 AP) as NP. pose proof (proj1 (proj2 AP)) as P0.
  pose proof (nears_trans _ _ _ _ _ _ _ G2n G6 (Rle_refl 0) ltac:(apply Rmult_le_pos; [apply pos_INR|apply bpow_ge_0]) (near_nears _ _ _ NP) NS) as T.
  assert (PS : psum l64 <= bp 653).
  { destruct NP as [NP _]. assert (rsum l64 * g (2 * n) <= rsum l64 * 2) by (apply Rmult_le_compat_l; lra).
    change 653%Z with (652 + 1)%Z. rewrite bp_dbl. lra. }
  (* the clutter term *)
  assert (Hk0 : bp (-1022) <= rate * den) by (apply Rle_trans with (bp (-200)); [apply bp_le; lia|exact K1]).
  pose proof (rnd_normal _ Hk0) as NK. fold (mul64 rate den) in NK. set (k64 := mul64 rate den) in *. set (ka := rate * den) in *.
  pose proof g2_small as G2. pose proof (g_pos 2) as G2'. pose proof (bp_pos (-200)) as b200. pose proof (bp_pos (-639)) as b639.
  assert (K64 : bp (-201) <= k64 <= bp 301).
  { destruct NK as [NK1 NK2]. assert (ka * g 2 <= ka * 2) by (apply Rmult_le_compat_l; lra).
    assert (k0 : 0 <= k64) by (apply rnd_nonneg; fold ka; lra).
    assert (k64 * g 2 <= k64 * 2) by (apply Rmult_le_compat_l; lra).
    split; [pose proof (bp_dbl (-201)) as D; change (-201 + 1)%Z with (-200)%Z in D; lra|change 301%Z with (300 + 1)%Z; rewrite bp_dbl; lra]. }
  assert (D200 : bp (-200) = 2 * bp (-201)) by (rewrite <- bp_dbl; reflexivity). assert (D201 : bp (-201) = 2 * bp (-202)) by (rewrite <- bp_dbl; reflexivity).
  pose proof (bp_pos (-202)) as b202.
  assert (Sn : nears (2 * n + 6) (bp (-638)) (k64 + psum l64) (ka + rsum l)).
  { replace (bp (-638)) with (0 + bp (-638)) by ring. apply nears_plus.
    - apply (nears_weaken 2 _ 0); try lra; try lia. apply near_nears, NK.
    - revert T. apply nears_weaken; try lia; [|lra|lra]. change (-638)%Z with (-639 + 1)%Z. rewrite bp_dbl. lra. }
  assert (AB : bp (-638) <= u64 * bp (-201)). { unfold u64. rewrite bp_mul. apply bp_le. lia. }
  assert (Nn : near (2 * n + 7) (k64 + psum l64) (ka + rsum l)).
  { replace (2 * n + 7)%nat with (S (2 * n + 6)) by lia. apply nears_absorb with (e := bp (-638)); [lra|lra| | |exact Sn].
    - eapply Rle_trans; [exact AB|]. apply Rmult_le_compat_l; [pose proof u64_pos; lra|lra].
    - eapply Rle_trans; [exact AB|]. apply Rmult_le_compat_l; [pose proof u64_pos; lra|lra]. }
  assert (NR : near 2 (add64 k64 (psum l64)) (k64 + psum l64)).
  { apply rnd_normal. apply Rle_trans with (bp (-201)); [apply bp_le; lia|lra]. }
  assert (A0 : 0 <= add64 k64 (psum l64)) by (apply rnd_nonneg; lra).
  split.
  - apply (near_weaken (2 + (2 * n + 7))); [lia|exact A0|lra|]. eapply near_trans; [exact NR|exact Nn].
  - split; [lra|]. destruct NR as [_ NR]. assert (add64 k64 (psum l64) * g 2 <= add64 k64 (psum l64) * 2) by (apply Rmult_le_compat_l; assumption). lra.
Qed.

Lemma normalise_near l64 l : Forall2 dpair l64 l -> INR (4 * length l + 64) * u64 <= / 4 ->
  same_outcome (Forall2 (fun x y => rep64 x /\ 0 <= x /\ close (4 * length l + 48) x y)) (normalise64 psum rate den l64) (normalise (rate * den) l).
Proof.
  intros F Hn. destruct (den_near _ _ F Hn) as [ND [D1 D2]]. unfold normalise64, normalise.
  set (d64 := add64 (mul64 rate den) (psum l64)) in *. set (d := rate * den + rsum l) in *.
  pose proof (bp_pos (-200)) as b200. pose proof (bp_pos (-202)) as b202.
  destruct F as [|x0 y0 l64 l F0 F]; [constructor|].
  unfold Reqb. destruct (Req_EM_T d64 0) as [Q1|Q1]; [exfalso; lra|]. destruct (Req_EM_T d 0) as [Q2|Q2]; [exfalso; lra|].
  cbn [same_outcome]. set (n := length (y0 :: l)) in *.
  assert (FF : Forall2 dpair (x0 :: l64) (y0 :: l)) by (constructor; assumption). clear F0 F.
  assert (GG : forall x y, dpair x y -> rep64 (div64 x d64) /\ 0 <= div64 x d64 /\ close (4 * n + 48) (div64 x d64) (y / d)).
  2:{ clearbody n d d64. revert FF. generalize (x0 :: l64) (y0 :: l). induction 1 as [|x y lx ly P FF IH]; cbn [map]; constructor; [|exact IH]. apply GG, P. }
  clear FF. intros x y [Rx [Hx [Nx Hy]]].
  assert (I64 : 0 <= / d64 <= bp 202). { split; [left; apply Rinv_0_lt_compat; lra|]. change 202%Z with (- - 202)%Z. rewrite bpow_opp. apply Rinv_le_contravar; [exact b202|exact D2]. }
  assert (I : 0 <= / d <= bp 202). { split; [left; apply Rinv_0_lt_compat; lra|]. change 202%Z with (- - 202)%Z. rewrite bpow_opp. apply Rinv_le_contravar; [exact b202|]. apply Rle_trans with (bp (-200)); [apply bp_le; lia|exact D1]. }
  assert (P64 : 0 < d64) by lra. assert (Pd : 0 < d) by lra. pose proof (near_inv _ _ _ P64 Pd ND) as NI.
  pose proof (nears_mult 6 (2 * n + 15) (bp (-690)) (bp 202) x y (/ d64) (/ d) (proj1 Hy) (proj1 Hx) I64 I ltac:(apply bpow_ge_0) Nx NI) as NM.
  rewrite bp_mul in NM. change (-690 + 202)%Z with (-488)%Z in NM.
  assert (X0 : 0 <= x / d64) by (unfold Rdiv; apply Rmult_le_pos; lra).
  assert (Y0 : 0 <= y / d) by (unfold Rdiv; apply Rmult_le_pos; lra).
  assert (XB : x / d64 <= bp 803). { replace (bp 803) with (bp 601 * bp 202) by (rewrite bp_mul; reflexivity). apply Rmult_le_compat; lra. }
  split; [apply rnd_rep; [exact X0|apply Rle_trans with (bp 803); [exact XB|apply fmax_ge; lia]]|].
  split; [apply rnd_nonneg, X0|].
  assert (G2 : g (6 + (2 * n + 15)) <= 2) by (apply g_le_2; revert Hn; apply u_mono; lia).
  pose proof (nears_trans 2 _ tiny _ _ _ _ g2_small G2 ltac:(pose proof tiny_pos; lra) ltac:(apply bpow_ge_0) (nears_rnd _ X0) NM) as T.
  unfold close. apply (nears_weaken _ (2 * n + 24) _ (bp (-480))) in T; [| lia | | apply rnd_nonneg, X0 | exact Y0].
  - apply nears_err in T; [|exact Y0|apply bpow_ge_0|].
    + replace (2 * (2 * n + 24))%nat with (4 * n + 48)%nat in T by lia. exact T.
    + apply Rle_trans with (/ 4); [revert Hn; apply u_mono; lia|lra].
  - assert (T1 : tiny <= bp (-488)) by (apply bp_le; lia).
    assert (E : bp (-486) = 4 * bp (-488)) by (change (-486)%Z with (-488 + 1 + 1)%Z; rewrite !bp_dbl; ring).
    assert (bp (-486) <= bp (-480)) by (apply bp_le; lia). lra.
Qed.
End Norm.

Section Steps.
Context {Meas : Type} (psum : list R -> R) (rate den : R) (c : cfg Meas).
Hypothesis Hpd : prob64 (c_pd c).
Hypothesis Hlik : lik_ok c.
Hypothesis Hsum : good_sum psum.
Hypothesis Hcl : clutter_ok rate den.
Hypothesis Hka : c_kappa c = rate * den.

Lemma correct_one_near z m : forall w p, weights_ok w ->
  same_outcome (fun a b => map fst a = map fst b /\ Forall2 dpair (map snd a) (map snd b) /\ length b = length m)
    (correct_one64 c z w m p) (correct_one c z w m p).
Proof.
  clear Hsum Hcl Hka. induction m as [|m0 m IH]; intros w p Hw; cbn [correct_one64 correct_one].
  { cbn. split; [reflexivity|]. split; [constructor|reflexivity]. }
  destruct p as [|p0 p]; [reflexivity|]. destruct w as [|w0 w]; [reflexivity|].
  pose proof (Hlik z m0 p0) as HL. destruct (fcorrect (c_filter c) z m0 p0) as [[m1 p1] qz]. cbn [snd] in HL. cbn zeta in HL.
  specialize (IH w p ltac:(intros x Hx; apply Hw; right; exact Hx)).
  destruct (correct_one64 c z w m p) as [a|e], (correct_one c z w m p) as [b|e']; cbn [bind same_outcome] in *; try contradiction; [|exact IH].
  destruct IH as [I1 [I2 I3]]. cbn [map fst snd length]. split; [f_equal; exact I1|]. split; [|f_equal; exact I3].
  constructor; [|exact I2]. destruct (Hw w0 (or_introl eq_refl)) as [R0 B0]. destruct HL as [Rq Bq].
  destruct (dterm_near c Hpd qz w0 Rq Bq R0 B0) as [A [B [C D]]]. unfold dpair. fold (dterm64 c qz w0). fold (dterm c qz w0).
  split; [exact A|]. split; [exact B|]. split; [exact C|exact D].
Qed.

Lemma correct_density_near meas gm : weights_ok (gm_w gm) -> INR (4 * length (gm_m gm) + 64) * u64 <= / 4 ->
  same_outcome (close_mix (4 * length (gm_m gm) + 48)) (correct_density64 psum rate den c meas gm) (correct_density c meas gm).
Proof.
  intros Hw Hn. induction meas as [|z zs IH]; cbn [correct_density64 correct_density].
  { split; [reflexivity|]. split; [reflexivity|constructor]. }
  pose proof (correct_one_near z (gm_m gm) (gm_w gm) (gm_p gm) Hw) as H1.
  destruct (correct_one64 c z (gm_w gm) (gm_m gm) (gm_p gm)) as [a|e], (correct_one c z (gm_w gm) (gm_m gm) (gm_p gm)) as [b|e'];
    cbn [bind same_outcome] in *; try contradiction; [|exact H1].
  destruct H1 as [M1 [F1 L1]]. assert (Lb : length (map snd b) = length (gm_m gm)) by (rewrite map_length; exact L1).
  pose proof (normalise_near psum rate den Hsum Hcl _ _ F1 ltac:(rewrite Lb; exact Hn)) as H2. rewrite Lb in H2. rewrite Hka.
  destruct (normalise64 psum rate den (map snd a)) as [ws|e], (normalise (rate * den) (map snd b)) as [vs|e']; cbn [bind same_outcome] in *; try contradiction; [|exact H2].
  destruct (correct_density64 psum rate den c zs gm) as [ra|e], (correct_density c zs gm) as [rb|e']; cbn [bind same_outcome] in *; try contradiction; [|exact IH].
  destruct IH as [I1 [I2 I3]].
  assert (E1 : map (fun x => fst (fst x)) a = map (fun x => fst (fst x)) b).
  { rewrite <- (map_map fst fst a), <- (map_map fst fst b), M1. reflexivity. }
  assert (E2 : map (fun x => snd (fst x)) a = map (fun x => snd (fst x)) b).
  { rewrite <- (map_map fst snd a), <- (map_map fst snd b), M1. reflexivity. }
  unfold close_mix, gm_app. cbn [gm_m gm_p gm_w]. split; [rewrite E1, I1; reflexivity|]. split; [rewrite E2, I2; reflexivity|].
  apply Forall2_app; assumption.
Qed.

Lemma close_of K e a x y : (2 * a <= K)%nat -> INR a * u64 <= / 2 -> 0 <= x -> 0 <= y -> nears a e x y -> 0 <= e -> e <= bp (-480) -> close K x y.
Proof.
  clear. intros H Hu Hx Hy N E0 E. pose proof (nears_err _ _ _ _ Hy E0 Hu N) as T. unfold close. eapply Rle_trans; [exact T|].
  apply Rplus_le_compat; [|exact E]. apply Rmult_le_compat_r; [exact Hy|]. apply Rmult_le_compat_r; [pose proof u64_pos; lra|]. apply le_INR, H.
Qed.
Lemma miss_near w : rep64 w -> 0 <= w <= bp 300 ->
  rep64 (mul64 (sub64 1 (c_pd c)) w) /\ 0 <= mul64 (sub64 1 (c_pd c)) w /\ close 8 (mul64 (sub64 1 (c_pd c)) w) ((1 - c_pd c) * w).
Proof.
  clear Hlik Hsum Hcl Hka. intros Rw Hw. destruct Hpd as [Rp Bp].
  assert (R1 : rep64 1) by (apply (rep64_INR 1); pose proof u64_small; cbn [INR]; lra).
  assert (S0 : 0 <= sub64 1 (c_pd c)) by (apply rnd_nonneg; lra).
  assert (S1 : sub64 1 (c_pd c) <= 1) by (unfold sub64; rewrite <- (rnd_exact 1 R1) at 2; apply rnd64_mono; lra).
  assert (N : near 2 (sub64 1 (c_pd c)) (1 - c_pd c)).
  { pose proof (rnd_diff 1 (c_pd c) R1 Rp) as D. fold (sub64 1 (c_pd c)) in D. rewrite !Rabs_pos_eq in D by lra. exact D. }
  destruct (prod_near _ _ w (conj S0 S1) N ltac:(lra) Rw Hw) as [A [B C]].
  split; [exact A|]. split; [lra|]. apply (close_of 8 (bp (-1000)) 4); try lia; try lra; try assumption.
  - assert (u64 <= bp (-53)) by (unfold u64; apply Rle_refl). assert (bp (-53) <= bp (-4)) by (apply bp_le; lia). change (bp (-4)) with (/ 16) in *. cbn [INR]. lra.
  - apply Rmult_le_pos; lra.
  - apply bpow_ge_0.
  - apply bp_le. lia.
Qed.
Lemma close_weaken a b x y : (a <= b)%nat -> 0 <= y -> close a x y -> close b x y.
Proof.
  clear. intros H Hy C. unfold close in *. eapply Rle_trans; [exact C|]. apply Rplus_le_compat_r. apply Rmult_le_compat_r; [exact Hy|].
  apply Rmult_le_compat_r; [pose proof u64_pos; lra|apply le_INR, H].
Qed.
Lemma correct_near meas_in gm : weights_ok (gm_w gm) -> INR (4 * length (gm_m gm) + 64) * u64 <= / 4 ->
  same_outcome (fun a b => fst a = fst b /\ close_mix (4 * length (gm_m gm) + 48) (snd a) (snd b))
    (correct64 psum rate den c meas_in gm) (correct c meas_in gm).
Proof.
  intros Hw Hn. unfold correct64, correct. destruct (if c_gating c then c_gate c meas_in gm else Ok meas_in) as [meas|e]; [|reflexivity].
  cbn [bind]. pose proof (correct_density_near meas gm Hw Hn) as H.
  destruct (correct_density64 psum rate den c meas gm) as [a|e], (correct_density c meas gm) as [b|e']; cbn [bind same_outcome] in *; try contradiction; [|exact H].
  destruct H as [I1 [I2 I3]]. split; [reflexivity|]. cbn [snd]. unfold close_mix, gm_app. cbn [gm_m gm_p gm_w].
  split; [rewrite I1; reflexivity|]. split; [rewrite I2; reflexivity|]. apply Forall2_app; [exact I3|].
  revert Hw. generalize (gm_w gm). clear I1 I2 I3. intros l Hw. induction l as [|w l IH]; cbn [map]; constructor.
  - destruct (Hw w (or_introl eq_refl)) as [R0 B0]. destruct (miss_near w R0 B0) as [A [B C]]. split; [exact A|]. split; [exact B|].
    revert C. apply close_weaken; [lia|]. destruct Hpd. apply Rmult_le_pos; lra.
  - apply IH. intros x Hx. apply Hw. right. exact Hx.
Qed.
End Steps.

Lemma predict_near {Meas} (c : cfg Meas) gm : prob64 (c_ps c) -> weights_ok (gm_w gm) -> (forall b, In b (c_birth c) -> weights_ok (gm_w b)) ->
  close_mix 8 (predict64 c gm) (predict c gm).
Proof.
  intros Hps Hw Hb. unfold predict64, predict.
  assert (B : close_mix 8 (predict_density64 c gm) (predict_density c gm)).
  { split; [reflexivity|]. split; [reflexivity|]. cbn [predict_density64 predict_density gm_w].
    revert Hw. generalize (gm_w gm). intros l Hw. induction l as [|w l IH]; cbn [map]; constructor; [|apply IH; intros x Hx; apply Hw; right; exact Hx].
    destruct (Hw w (or_introl eq_refl)) as [R0 B0]. destruct Hps as [Rp Bp].
    destruct (prod_near (c_ps c) (c_ps c) w Bp ltac:(apply (near_weaken 0); [lia|lra|lra|apply near_refl; lra]) (proj1 Bp) R0 B0) as [A [B C]].
    split; [exact A|]. split; [lra|]. apply (close_of 8 (bp (-1000)) 4); try lia; try lra; try assumption.
    - assert (u64 <= bp (-53)) by (unfold u64; apply Rle_refl). assert (bp (-53) <= bp (-4)) by (apply bp_le; lia). change (bp (-4)) with (/ 16) in *. cbn [INR]. lra.
    - apply Rmult_le_pos; lra.
    - apply bpow_ge_0.
    - apply bp_le. lia. }
  revert B. generalize (predict_density64 c gm) (predict_density c gm). revert Hb. induction (c_birth c) as [|b l IH]; intros Hb a a' B; cbn [fold_left]; [exact B|].
  apply IH; [intros b' Hb'; apply Hb; right; exact Hb'|]. destruct B as [B1 [B2 B3]]. unfold close_mix, gm_app. cbn [gm_m gm_p gm_w].
  split; [rewrite B1; reflexivity|]. split; [rewrite B2; reflexivity|]. apply Forall2_app; [exact B3|].
  pose proof (Hb b (or_introl eq_refl)) as W. revert W. generalize (gm_w b). intros ws W. induction ws as [|w ws IHw]; constructor; [|apply IHw; intros x Hx; apply W; right; exact Hx].
  destruct (W w (or_introl eq_refl)) as [R0 B0]. split; [exact R0|]. split; [lra|]. unfold close. rewrite Rminus_diag_eq by reflexivity. rewrite Rabs_R0.
  apply Rplus_le_le_0_compat; [|apply bpow_ge_0]. apply Rmult_le_pos; [|lra]. apply Rmult_le_pos; [apply pos_INR|pose proof u64_pos; lra].
Qed.
