(** C42 in full: what CPHD predict computes for every prior, and exactly when
    that is binomial thinning plus Poisson births. *)
From Verif Require Import Base Lists.
From Coq Require Import Reals Lra.
From Verif Require Import OspaModel OspaProofs CphdModel CphdSpec CphdProofs CphdProps.
Open Scope R_scope.

(** The survival part as the code has it: C(i,j) times ((i-j)!)^2 for C(i,j),
    and nothing for j = max_expected_card. *)
Definition thinned_code (ps : R) (mx : nat) (rho : list R) (j : nat) : R :=
  if (j <? mx)%nat
  then sum_ab j mx (fun i => C i j * INR (fact (i - j)) ^ 2 * ps ^ j * (1 - ps) ^ (i - j) * nth i rho 0)
  else 0.
Definition predicted_actual (ps b : R) (mx : nat) (rho : list R) (n : nat) : R :=
  sum_ab 0 n (fun j => poisson b (n - j) * thinned_code ps mx rho j).

Lemma sum_ab_S a n f : (a <= S n)%nat -> sum_ab a (S n) f = sum_ab a n f + f (S n).
Proof.
  intros H. unfold sum_ab. replace (S (S n) - a)%nat with (S n - a + 1)%nat by lia.
  rewrite seq_app, map_app, rsum_app. cbn [seq map]. replace (a + (S n - a))%nat with (S n) by lia.
  rewrite rsum_cons. change (rsum []) with 0. ring.
Qed.
Lemma sum_ab_1 a f : sum_ab a a f = f a.
Proof. unfold sum_ab. replace (S a - a)%nat with 1%nat by lia. cbn [seq map]. rewrite rsum_cons. change (rsum []) with 0. ring. Qed.
Lemma survived_thinned ps mx rho j : (j < mx)%nat -> survived ps mx rho j = thinned_code ps mx rho j.
Proof.
  intros H. unfold survived, thinned_code. apply Nat.ltb_lt in H. rewrite H. apply sum_ab_ext. intros i Hi. unfold C.
  field. split; apply Rgt_not_eq, fact_pos.
Qed.
Lemma code_actual ps b mx rho n : predicted_code ps b mx rho n = exp (b + b) * predicted_actual ps b mx rho n.
Proof.
  unfold predicted_code, predicted_actual. rewrite <- sum_ab_scale. apply sum_ab_ext. intros j Hj.
  assert (E : (if (j <? mx)%nat then survived ps mx rho j else 0) = thinned_code ps mx rho j).
  { destruct (j <? mx)%nat eqn:Ej; [apply survived_thinned, Nat.ltb_lt, Ej|]. unfold thinned_code. rewrite Ej. reflexivity. }
  rewrite E. unfold poisson. replace (exp b) with (exp (b + b) * exp (- b)) by (rewrite <- exp_plus; f_equal; ring).
  field. apply Rgt_not_eq, fact_pos.
Qed.

(** Convolution with a kernel that is nonzero at 0 is one-to-one. *)
Lemma conv_inj p d e mx : p 0%nat <> 0 ->
  (forall n, (n <= mx)%nat -> sum_ab 0 n (fun j => p (n - j)%nat * d j) = sum_ab 0 n (fun j => p (n - j)%nat * e j)) ->
  forall n, (n <= mx)%nat -> d n = e n.
Proof.
  intros Hp H. induction n as [n IH] using (well_founded_induction Wf_nat.lt_wf). intros Hn.
  specialize (H n Hn). destruct n as [|n].
  - rewrite !sum_ab_1 in H. cbn [Nat.sub] in H. apply Rmult_eq_reg_l in H; assumption.
  - rewrite !sum_ab_S in H by lia. rewrite Nat.sub_diag in H.
    rewrite (sum_ab_ext 0 n _ (fun j => p (S n - j)%nat * e j)) in H.
    + apply Rplus_eq_reg_l in H. apply Rmult_eq_reg_l in H; assumption.
    + intros j Hj. rewrite (IH j) by lia. reflexivity.
Qed.

Lemma fact_ge2 k : (2 <= k)%nat -> 2 <= INR (fact k).
Proof.
  intros H. replace 2 with (INR 2) by (cbn; lra). apply le_INR.
  induction k as [|k IH]; [lia|]. destruct (Nat.eq_dec k 1) as [->|]; [cbn; lia|]. specialize (IH ltac:(lia)).
  change (fact (S k)) with (S k * fact k)%nat. nia.
Qed.
Lemma fact_ge1 k : 1 <= INR (fact k).
Proof. replace 1 with (INR 1) by reflexivity. apply le_INR. pose proof (lt_O_fact k). lia. Qed.

Lemma C_pos i j : 0 < C i j.
Proof.
  unfold C. pose proof (fact_pos i). pose proof (fact_pos j). pose proof (fact_pos (i - j)).
  apply Rdiv_lt_0_compat; [assumption|]. apply Rmult_lt_0_compat; assumption.
Qed.

Theorem C42_cphd_predict_actual : forall {V M Meas} (c : ccfg V M Meas) s b,
  0 < k_ps c < 1 -> first_weights (k_birth c) b -> 0 < b -> (0 < cp_max s)%nat -> distribution (cp_max s) (cp_card s) ->
  exists s', cp_predict c s = Ok s' /\ length (cp_card s') = S (cp_max s) /\
    forall n, (n <= cp_max s)%nat -> nth n (cp_card s') 0 =
      predicted_actual (k_ps c) b (cp_max s) (cp_card s) n / sum_ab 0 (cp_max s) (predicted_actual (k_ps c) b (cp_max s) (cp_card s)).
Proof.
  intros V M Meas c s b Hps Hb Hpos Hm Hd. apply birth_sum_iff in Hb. set (mx := cp_max s) in *. set (rho := cp_card s) in *.
  unfold cp_predict. fold mx rho. rewrite (pred_card_val c mx rho b Hps Hb Hpos Hd Hm). cbn [bind].
  eexists. split; [reflexivity|]. cbn [cp_card]. split; [rewrite map_length, seq_length; reflexivity|].
  intros n Hn. rewrite (nth_map_seq (fun n => _)) by lia.
  assert (Hs : 0 < sum_ab 0 mx (predicted_code (k_ps c) b mx rho)).
  { apply (sum_ab_pos _ _ _ 0%nat); [|lia|apply predicted_code0_pos; (assumption || lia)].
    intros k _. apply predicted_code_nonneg; [lra|exact Hpos|apply Hd]. }
  rewrite (sum_ab_ext 0 mx _ (fun n => exp (b + b) * predicted_actual (k_ps c) b mx rho n)) in Hs |- * by (intros; apply code_actual).
  rewrite sum_ab_scale in Hs |- *. rewrite code_actual. pose proof (exp_pos (b + b)). field. split; [|lra].
  intros E. rewrite E, Rmult_0_r in Hs. lra.
Qed.
Print Assumptions C42_cphd_predict_actual.

Lemma last_pos_entry rho mx : (forall i, 0 <= nth i rho 0) -> (exists i, (2 <= i <= mx)%nat /\ nth i rho 0 <> 0) ->
  exists t, (2 <= t <= mx)%nat /\ 0 < nth t rho 0 /\ forall i, (t < i <= mx)%nat -> nth i rho 0 = 0.
Proof.
  intros Hn. induction mx as [|mx IH]; intros [i [Hi Hz]]; [lia|].
  destruct (Req_dec (nth (S mx) rho 0) 0) as [E|E].
  - destruct IH as [t [T1 [T2 T3]]]; [exists i; split; [|exact Hz]; destruct (Nat.eq_dec i (S mx)) as [->|]; [congruence|lia]|].
    exists t. split; [lia|]. split; [exact T2|]. intros k Hk. destruct (Nat.eq_dec k (S mx)) as [->|]; [exact E|apply T3; lia].
  - exists (S mx). specialize (Hn (S mx)). split; [lia|]. split; [lra|]. intros k Hk. lia.
Qed.

(** C42 exactly: predict gives the binomial-thinning-plus-Poisson prediction iff
    the prior has at most one object, and fewer than max_expected_card. *)
Theorem C42_cphd_predict_iff : forall {V M Meas} (c : ccfg V M Meas) s s' b,
  0 < k_ps c < 1 -> first_weights (k_birth c) b -> 0 < b -> (0 < cp_max s)%nat -> distribution (cp_max s) (cp_card s) ->
  cp_predict c s = Ok s' ->
  ((forall n, (n <= cp_max s)%nat -> nth n (cp_card s') 0 = predicted_norm (k_ps c) b (cp_max s) (cp_card s) n) <->
   (forall i, (i <= cp_max s)%nat -> (2 <= i)%nat \/ i = cp_max s -> nth i (cp_card s) 0 = 0)).
Proof.
  intros V M Meas c s s' b Hps Hb Hpos Hm Hd E.
  destruct (C42_cphd_predict_actual c s b Hps Hb Hpos Hm Hd) as [s1 [E1 [_ Hact]]]. rewrite E in E1. injection E1 as <-.
  set (mx := cp_max s) in *. set (rho := cp_card s) in *. set (ps := k_ps c) in *.
  assert (Hrho : forall i, 0 <= nth i rho 0) by (intros i; apply nth_nonneg, Hd).
  assert (Hp0 : 0 < poisson b 0).
  { unfold poisson. pose proof (exp_pos (- b)). cbn [pow fact INR]. lra. }
  set (A := sum_ab 0 mx (predicted_actual ps b mx rho)) in *. set (B := sum_ab 0 mx (predicted ps b mx rho)).
  assert (Hpp : forall k, 0 <= poisson b k).
  { intros k. unfold poisson. apply Rmult_le_pos; [apply Rmult_le_pos; [left; apply exp_pos|apply pow_le; lra]|].
    left. apply Rinv_0_lt_compat, fact_pos. }
  split.
  2:{ intros Hz n Hn. rewrite (Hact n Hn). unfold predicted_norm. fold B.
      assert (Ht : forall j, (j <= mx)%nat -> thinned_code ps mx rho j = thinned ps mx rho j).
      { intros j Hj. unfold thinned_code. destruct (Nat.ltb_spec j mx) as [Hlt|Hge].
        - unfold thinned. apply sum_ab_ext. intros i Hi. destruct (le_lt_dec 2 i) as [H2|H2].
          + rewrite (Hz i) by lia. ring.
          + assert (F : INR (fact (i - j)) = 1) by (destruct (i - j)%nat as [|[|k]] eqn:Ek; [reflexivity|reflexivity|lia]).
            rewrite F. ring.
        - replace j with mx by lia. unfold thinned. rewrite sum_ab_1, (Hz mx) by lia. ring. }
      assert (Hpa : forall k, (k <= mx)%nat -> predicted_actual ps b mx rho k = predicted ps b mx rho k).
      { intros k Hk. apply sum_ab_ext. intros j Hj. rewrite Ht by lia. reflexivity. }
      unfold A. rewrite (sum_ab_ext 0 mx _ (predicted ps b mx rho)) by (intros k Hk; apply Hpa; lia). rewrite (Hpa n Hn). reflexivity. }
  intros Heq.
  assert (HA : 0 < A).
  { apply (sum_ab_pos _ _ _ 0%nat); [|lia|].
    - intros n _. pose proof (predicted_code_nonneg ps b mx rho n ltac:(lra) Hpos (proj1 (proj2 Hd))) as H.
      rewrite code_actual in H. pose proof (exp_pos (b + b)). apply (Rmult_le_reg_l (exp (b + b))); lra.
    - pose proof (predicted_code0_pos ps b mx rho Hps Hpos Hd Hm) as H. rewrite code_actual in H. pose proof (exp_pos (b + b)).
      apply (Rmult_lt_reg_l (exp (b + b))); lra. }
  assert (Hth : forall j, 0 <= thinned ps mx rho j).
  { intros j. apply sum_ab_nonneg. intros i Hi. pose proof (C_pos i j). assert (0 <= ps ^ j) by (apply pow_le; lra).
    assert (0 <= (1 - ps) ^ (i - j)) by (apply pow_le; lra). specialize (Hrho i). repeat (first [assumption | apply Rlt_le; assumption | apply Rmult_le_pos]). }
  assert (HB : 0 < B).
  { assert (HB0 : 0 <= B).
    { apply sum_ab_nonneg. intros n _. apply sum_ab_nonneg. intros j _. apply Rmult_le_pos; [apply Hpp|apply Hth]. }
    destruct HB0 as [H|H]; [exact H|]. exfalso.
    (* then every thinned entry vanishes, hence the prior is zero *)
    assert (Ha : 0 < nth 0 (cp_card s') 0).
    { rewrite (Hact 0%nat) by lia. apply Rdiv_lt_0_compat; [|exact HA].
      pose proof (predicted_code0_pos ps b mx rho Hps Hpos Hd Hm) as H1. rewrite code_actual in H1. pose proof (exp_pos (b + b)).
      apply (Rmult_lt_reg_l (exp (b + b))); lra. }
    rewrite (Heq 0%nat) in Ha by lia. unfold predicted_norm in Ha. fold B in Ha. rewrite <- H in Ha. unfold Rdiv in Ha.
    rewrite Rinv_0, Rmult_0_r in Ha. lra. }
  (* proportional *)
  assert (Hprop : forall j, (j <= mx)%nat -> thinned_code ps mx rho j = (A / B) * thinned ps mx rho j).
  { apply (conv_inj (poisson b)); [lra|]. intros n Hn. specialize (Hact n Hn). rewrite (Heq n Hn) in Hact.
    unfold predicted_norm in Hact. fold B in Hact.
    change (predicted_actual ps b mx rho n = sum_ab 0 n (fun j => poisson b (n - j) * (A / B * thinned ps mx rho j))).
    rewrite (sum_ab_ext 0 n _ (fun j => (A / B) * (poisson b (n - j) * thinned ps mx rho j))) by (intros; ring).
    rewrite sum_ab_scale. change (predicted_actual ps b mx rho n = A / B * predicted ps b mx rho n).
    apply (Rmult_eq_reg_r (/ A)); [|apply Rinv_neq_0_compat; lra]. unfold Rdiv in Hact. rewrite <- Hact. field. lra. }
  assert (Hr : 0 < A / B) by (apply Rdiv_lt_0_compat; assumption).
  assert (Hlast : nth mx rho 0 = 0).
  { specialize (Hprop mx (le_n _)). unfold thinned_code in Hprop. rewrite Nat.ltb_irrefl in Hprop. unfold thinned in Hprop.
    rewrite sum_ab_1 in Hprop. symmetry in Hprop. apply Rmult_integral in Hprop. destruct Hprop as [Hz|Hz]; [lra|].
    apply Rmult_integral in Hz. destruct Hz as [Hz|Hz]; [|exact Hz]. exfalso.
    pose proof (C_pos mx mx). assert (0 < ps ^ mx) by (apply pow_lt; lra). assert (0 < (1 - ps) ^ (mx - mx)) by (apply pow_lt; lra).
    assert (0 < C mx mx * ps ^ mx * (1 - ps) ^ (mx - mx)) by (repeat (first [assumption | apply Rmult_lt_0_compat])). lra. }
  intros i Hi [H2| ->]; [|exact Hlast].
  destruct (Req_dec (nth i rho 0) 0) as [Hz|Hz]; [exact Hz|exfalso].
  destruct (last_pos_entry rho mx Hrho) as [t [T1 [T2 T3]]]; [exists i; split; [lia|exact Hz]|].
  assert (Htm : (t < mx)%nat). { destruct (Nat.eq_dec t mx) as [->|]; [lra|lia]. }
  (* entry t is right, so the ratio is 1 *)
  assert (Hzero : forall f : nat -> R, (forall k, (t < k <= mx)%nat -> f k = 0) -> sum_ab t mx f = f t).
  { intros f Hf. clear - Hf Htm. assert (K : forall m, (t <= m <= mx)%nat -> sum_ab t m f = f t).
    { induction m as [|m IH]; intros Hm.
      - replace t with 0%nat by lia. apply sum_ab_1.
      - destruct (Nat.eq_dec t (S m)) as [->|]; [apply sum_ab_1|]. rewrite sum_ab_S by lia. rewrite IH by lia. rewrite (Hf (S m)) by lia. ring. }
    apply K. lia. }
  assert (Hone : A / B = 1).
  { specialize (Hprop t ltac:(lia)). unfold thinned_code in Hprop. apply Nat.ltb_lt in Htm. rewrite Htm in Hprop.
    unfold thinned in Hprop. rewrite !Hzero in Hprop by (intros k Hk; rewrite T3 by lia; ring).
    rewrite Nat.sub_diag in Hprop. cbn [fact INR pow] in Hprop.
    pose proof (C_pos t t). assert (0 < ps ^ t) by (apply pow_lt; lra).
    assert (H3 : 0 < C t t * ps ^ t * nth t rho 0) by (repeat (first [assumption | apply Rmult_lt_0_compat])).
    apply (Rmult_eq_reg_r (C t t * ps ^ t * nth t rho 0)); [|lra]. nra. }
  specialize (Hprop 0%nat ltac:(lia)). rewrite Hone, Rmult_1_l in Hprop. unfold thinned_code in Hprop.
  assert (H0m : (0 <? mx)%nat = true) by (apply Nat.ltb_lt; lia). rewrite H0m in Hprop. unfold thinned in Hprop.
  assert (Hdiff : 0 < sum_ab 0 mx (fun i => C i 0 * ps ^ 0 * (1 - ps) ^ (i - 0) * nth i rho 0 * (INR (fact (i - 0)) ^ 2 - 1))).
  { apply (sum_ab_pos _ _ _ t); [|lia|].
    - intros k Hk. pose proof (C_pos k 0). assert (0 <= ps ^ 0) by (apply pow_le; lra).
      assert (0 <= (1 - ps) ^ (k - 0)) by (apply pow_le; lra). specialize (Hrho k). pose proof (fact_ge1 (k - 0)).
      assert (0 <= INR (fact (k - 0)) ^ 2 - 1) by nra. repeat (first [assumption | apply Rlt_le; assumption | apply Rmult_le_pos]).
    - pose proof (C_pos t 0). assert (0 < ps ^ 0) by (apply pow_lt; lra).
      assert (0 < (1 - ps) ^ (t - 0)) by (apply pow_lt; lra). pose proof (fact_ge2 (t - 0) ltac:(lia)).
      assert (0 < INR (fact (t - 0)) ^ 2 - 1) by nra. repeat (first [assumption | apply Rmult_lt_0_compat]). }
  assert (Hsum : sum_ab 0 mx (fun i => C i 0 * INR (fact (i - 0)) ^ 2 * ps ^ 0 * (1 - ps) ^ (i - 0) * nth i rho 0) =
     sum_ab 0 mx (fun i => C i 0 * ps ^ 0 * (1 - ps) ^ (i - 0) * nth i rho 0) +
     sum_ab 0 mx (fun i => C i 0 * ps ^ 0 * (1 - ps) ^ (i - 0) * nth i rho 0 * (INR (fact (i - 0)) ^ 2 - 1))).
  { assert (Hplus : forall f g m, sum_ab 0 m (fun i => f i + g i) = sum_ab 0 m f + sum_ab 0 m g).
    { clear. intros f g. induction m as [|m IH]; [rewrite !sum_ab_1; reflexivity|]. rewrite !sum_ab_S by lia. rewrite IH. ring. }
    rewrite <- Hplus. apply sum_ab_ext. intros. ring. }
  lra.
Qed.
Print Assumptions C42_cphd_predict_iff.

(** The first predict of a run (certainly no object) meets the hypotheses and is
    right; with three objects for sure, out of at most four, it is wrong. *)
Lemma dist_at mx k : (k <= mx)%nat -> distribution mx (repeat 0 k ++ 1 :: repeat 0 (mx - k)).
Proof.
  intros H. split; [rewrite app_length; cbn [length]; rewrite !repeat_length; lia|]. split.
  - intros x Hx. apply in_app_or in Hx. destruct Hx as [Hx|[<-|Hx]]; [apply repeat_spec in Hx; lra|lra|apply repeat_spec in Hx; lra].
  - assert (Z : forall n, rsum (repeat 0 n) = 0).
    { induction n as [|n IH]; [reflexivity|]. cbn [repeat]. rewrite rsum_cons, IH. ring. }
    rewrite rsum_app, rsum_cons, !Z. ring.
Qed.
Example C42_iff_ex : exists s1 s2,
  let c := ex_c (1/2) (1/2) 1 ex_birth in
  let none := ex_s 4 [1; 0; 0; 0; 0] {| rm_w := []; rm_m := []; rm_p := [] |} in
  let three := ex_s 4 [0; 0; 0; 1; 0] {| rm_w := []; rm_m := []; rm_p := [] |} in
  cp_predict c none = Ok s1 /\ cp_predict c three = Ok s2 /\
  (forall n, (n <= 4)%nat -> nth n (cp_card s1) 0 = predicted_norm (1/2) 1 4 [1; 0; 0; 0; 0] n) /\
  ~ (forall n, (n <= 4)%nat -> nth n (cp_card s2) 0 = predicted_norm (1/2) 1 4 [0; 0; 0; 1; 0] n).
Proof.
  pose (c := ex_c (1/2) (1/2) 1 ex_birth).
  assert (Hps : 0 < k_ps c < 1) by (cbn; lra).
  destruct (C42_cphd_predict_actual c (ex_s 4 [1; 0; 0; 0; 0] {| rm_w := []; rm_m := []; rm_p := [] |}) 1 Hps (ex_birth_sum _ _ _)
     ltac:(lra) ltac:(cbn; lia) (dist_at 4 0 ltac:(lia))) as [s1 [E1 _]].
  destruct (C42_cphd_predict_actual c (ex_s 4 [0; 0; 0; 1; 0] {| rm_w := []; rm_m := []; rm_p := [] |}) 1 Hps (ex_birth_sum _ _ _)
     ltac:(lra) ltac:(cbn; lia) (dist_at 4 3 ltac:(lia))) as [s2 [E2 _]].
  exists s1, s2. cbn zeta. split; [exact E1|]. split; [exact E2|]. split.
  - apply (C42_cphd_predict_iff c (ex_s 4 [1; 0; 0; 0; 0] {| rm_w := []; rm_m := []; rm_p := [] |}) s1 1 Hps (ex_birth_sum _ _ _) ltac:(lra) ltac:(cbn; lia) (dist_at 4 0 ltac:(lia)) E1).
    cbn [ex_s cp_max cp_card]. intros i Hi [H| ->]; [|reflexivity]. destruct i as [|[|[|[|[|i]]]]]; try lia; reflexivity.
  - intros H. pose proof (proj1 (C42_cphd_predict_iff c (ex_s 4 [0; 0; 0; 1; 0] {| rm_w := []; rm_m := []; rm_p := [] |}) s2 1 Hps (ex_birth_sum _ _ _) ltac:(lra) ltac:(cbn; lia) (dist_at 4 3 ltac:(lia)) E2) H 3%nat) as H3.
    cbn [ex_s cp_max cp_card nth] in H3. specialize (H3 ltac:(lia) ltac:(left; lia)). lra.
Qed.
