(** The mass of the corrected CPHD intensity against the expected number of objects
    of the corrected cardinality distribution (C194). *)
From Verif Require Import Base Lists.
From Coq Require Import Reals Permutation Lra Lia.
From Verif Require Import OspaModel CphdModel OspaProofs CphdSpec CphdProofs CphdProps GlmbBayes.
Open Scope R_scope.

(** ** specification *)
(** Expected value of a distribution on 0, 1, ... *)
Definition mean (rho : list R) : R := rsum (map (fun n => INR n * nth n rho 0) (seq 0 (length rho))).

(** ** proofs *)
Lemma without_length {A} z (l : list A) : (z < length l)%nat -> length (without z l) = (length l - 1)%nat.
Proof. intros H. unfold without. rewrite app_length, firstn_length, skipn_length. lia. Qed.
Lemma esym_delete l : forall j, rsum (map (fun z => nth z l 0 * esym (without z l) j) (seq 0 (length l))) = INR (S j) * esym l (S j).
Proof.
  induction l as [|x l IH]; intros j; [cbn [length seq map esym]; change (rsum []) with 0; ring|].
  cbn [length]. rewrite <- cons_seq, <- seq_shift. cbn [map]. rewrite map_map. change (rsum (?a :: ?b)) with (a + rsum b).
  change (nth 0 (x :: l) 0) with x. change (without 0 (x :: l)) with l.
  destruct j as [|j].
  - rewrite (rsum_ext _ (fun z => nth z l 0 * esym (without z l) 0)).
    + rewrite (IH 0%nat). change (esym (x :: l) 1) with (esym l 1 + x * esym l 0). change (INR 1) with 1. ring.
    + intros z _. change (nth (S z) (x :: l) 0) with (nth z l 0). destruct (without (S z) (x :: l)), (without z l); reflexivity.
  - rewrite (rsum_ext _ (fun z => nth z l 0 * esym (without z l) (S j) + x * (nth z l 0 * esym (without z l) j))).
    + rewrite rsum_plus, rsum_scale, (IH (S j)), (IH j). change (esym (x :: l) (S (S j))) with (esym l (S (S j)) + x * esym l (S j)).
      rewrite (S_INR (S j)). ring.
    + intros z _. change (nth (S z) (x :: l) 0) with (nth z l 0). change (without (S z) (x :: l)) with (x :: without z l).
      change (esym (x :: without z l) (S j)) with (esym (without z l) (S j) + x * esym (without z l) j). ring.
Qed.
Lemma rsum_swap {A B} (f : A -> B -> R) la lb : rsum (map (fun a => rsum (map (f a) lb)) la) = rsum (map (fun b => rsum (map (fun a => f a b) la)) lb).
Proof.
  induction la as [|a la IH].
  - cbn [map]. change (rsum []) with 0. symmetry. rewrite (rsum_const 0 lb). ring.
  - cbn [map]. change (rsum (?a :: ?b)) with (a + rsum b). rewrite IH, <- rsum_plus. reflexivity.
Qed.
Lemma shift_sum (g : nat -> R) m n : (1 <= m)%nat ->
  g 0%nat + rsum (map (fun j => if (j + 1 <=? n)%nat then g (S j) else 0) (seq 0 (S (Nat.min (m - 1) n)))) = rsum (map g (seq 0 (S (Nat.min m n)))).
Proof.
  intros Hm. rewrite <- (cons_seq (Nat.min m n)), <- seq_shift. cbn [map]. rewrite map_map. change (rsum (?a :: ?b)) with (a + rsum b). f_equal.
  destruct (Nat.le_gt_cases m n) as [L|L].
  - rewrite (Nat.min_l (m - 1) n) by lia. rewrite (Nat.min_l m n) by lia. replace (S (m - 1)) with m by lia.
    apply rsum_ext. intros j Hj. apply in_seq in Hj. destruct (j + 1 <=? n)%nat eqn:E; [reflexivity|apply Nat.leb_gt in E; lia].
  - rewrite (Nat.min_r (m - 1) n) by lia. rewrite (Nat.min_r m n) by lia. rewrite seq_S, map_app, rsum_app. cbn [map]. change (rsum [?a]) with (a + 0).
    destruct (0 + n + 1 <=? n)%nat eqn:E; [apply Nat.leb_le in E; lia|]. rewrite Rplus_0_r, Rplus_0_r.
    apply rsum_ext. intros j Hj. apply in_seq in Hj. destruct (j + 1 <=? n)%nat eqn:E'; [reflexivity|apply Nat.leb_gt in E'; lia].
Qed.
Lemma fact_step n j : (j + 1 <= n)%nat -> INR (fact n) / INR (fact (n - (j + 1))) = (INR n - INR j) * (INR (fact n) / INR (fact (n - j))).
Proof.
  intros H. replace (n - j)%nat with (S (n - (j + 1))) by lia. rewrite fact_simpl, mult_INR. rewrite <- minus_INR by lia. replace (S (n - (j + 1))) with (n - j)%nat by lia.
  field. split; [apply INR_fact_neq_0|]. apply not_0_INR. lia.
Qed.
(** Pointwise in the number n of objects. *)
Lemma upsilon_count rate tot q xi n : tot <> 0 ->
  INR n * upsilon rate tot q 0 xi n = tot * q * upsilon rate tot q 1 xi n + rsum (map (fun z => nth z xi 0 * upsilon rate tot q 1 (without z xi) n) (seq 0 (length xi))).
Proof.
  intros Ht. set (m := length xi).
  set (t0 := fun j => exp (- rate) * rate ^ (m - j) * (INR (fact n) / INR (fact (n - j))) * q ^ (n - j) / tot ^ j * esym xi j).
  assert (H0 : upsilon rate tot q 0 xi n = rsum (map t0 (seq 0 (S (Nat.min m n))))).
  { unfold upsilon, sum_ab. fold m. rewrite Nat.sub_0_r. apply rsum_ext. intros j Hj. apply in_seq in Hj. rewrite !Nat.add_0_r. destruct (j <=? n)%nat eqn:E; [reflexivity|apply Nat.leb_gt in E; lia]. }
  assert (H1 : tot * q * upsilon rate tot q 1 xi n = rsum (map (fun j => (INR n - INR j) * t0 j) (seq 0 (S (Nat.min m n))))).
  { unfold upsilon, sum_ab. fold m. rewrite Nat.sub_0_r, <- rsum_scale. apply rsum_ext. intros j Hj. apply in_seq in Hj. unfold t0. destruct (j + 1 <=? n)%nat eqn:E.
    - apply Nat.leb_le in E. rewrite (fact_step n j E).
      assert (Eq : q ^ (n - j) = q * q ^ (n - (j + 1))) by (replace (n - j)%nat with (S (n - (j + 1))) by lia; reflexivity).
      assert (Et : tot ^ (j + 1) = tot * tot ^ j) by (rewrite Nat.add_1_r; reflexivity).
      rewrite Eq, Et. field. repeat split; try exact Ht; try apply pow_nonzero, Ht; apply INR_fact_neq_0.
    - apply Nat.leb_gt in E. replace n with j by lia. ring. }
  assert (H2 : rsum (map (fun z => nth z xi 0 * upsilon rate tot q 1 (without z xi) n) (seq 0 m)) = rsum (map (fun j => INR j * t0 j) (seq 0 (S (Nat.min m n))))).
  { destruct (Nat.eq_dec m 0) as [E0|E0].
    - rewrite E0. cbn [seq map Nat.min]. change (rsum []) with 0. change (rsum [?a]) with (a + 0). change (INR 0) with 0. ring.
    - rewrite <- (shift_sum (fun j => INR j * t0 j) m n) by lia. change (INR 0) with 0. rewrite Rmult_0_l, Rplus_0_l.
      rewrite (rsum_ext _ (fun z => rsum (map (fun j => if (j + 1 <=? n)%nat then (exp (- rate) * rate ^ (m - 1 - j) * (INR (fact n) / INR (fact (n - (j + 1)))) * q ^ (n - (j + 1)) / tot ^ (j + 1)) * (nth z xi 0 * esym (without z xi) j) else 0)
        (seq 0 (S (Nat.min (m - 1) n)))))).
      + rewrite rsum_swap. apply rsum_ext. intros j Hj. apply in_seq in Hj. destruct (j + 1 <=? n)%nat eqn:E.
        * rewrite rsum_scale. change (seq 0 m) with (seq 0 (length xi)). rewrite esym_delete. unfold t0. rewrite !Nat.add_1_r. replace (m - 1 - j)%nat with (m - S j)%nat by lia. unfold Rdiv. ring.
        * rewrite (rsum_const 0). ring.
      + intros z Hz. apply in_seq in Hz. unfold upsilon, sum_ab. rewrite Nat.sub_0_r, (without_length z xi) by (fold m; lia). fold m. rewrite <- rsum_scale. apply rsum_ext. intros j _.
        destruct (j + 1 <=? n)%nat; [|ring]. unfold Rdiv. ring. }
  rewrite H0, H1. fold m. rewrite H2, <- rsum_plus, <- rsum_scale. apply rsum_ext. intros j _. ring.
Qed.
Lemma inner_rsum mx f rho : inner mx f rho = rsum (map (fun n => f n * nth n rho 0) (seq 0 (S mx))).
Proof. unfold inner, sum_ab. rewrite Nat.sub_0_r. reflexivity. Qed.
Lemma inner_count mx rate tot q xi rho : tot <> 0 ->
  rsum (map (fun n => INR n * (upsilon rate tot q 0 xi n * nth n rho 0)) (seq 0 (S mx))) =
  q * tot * inner mx (upsilon rate tot q 1 xi) rho +
  rsum (map (fun z => nth z xi 0 * inner mx (upsilon rate tot q 1 (without z xi)) rho) (seq 0 (length xi))).
Proof.
  intros Ht.
  rewrite (rsum_ext _ (fun n => q * tot * (upsilon rate tot q 1 xi n * nth n rho 0) +
    rsum (map (fun z => nth z xi 0 * (upsilon rate tot q 1 (without z xi) n * nth n rho 0)) (seq 0 (length xi))))).
  - rewrite rsum_plus, rsum_scale, <- inner_rsum, rsum_swap. f_equal. apply rsum_ext. intros z _. rewrite rsum_scale, <- inner_rsum. reflexivity.
  - intros n _. rewrite <- Rmult_assoc, (upsilon_count rate tot q xi n Ht), Rmult_plus_distr_r, (Rmult_comm _ (nth n rho 0)), (Rmult_comm _ (nth n rho 0)), <- rsum_scale.
    f_equal; [ring|]. apply rsum_ext. intros z _. ring.
Qed.
Lemma mean_card rate den pd q mx rho w L : rsum w <> 0 ->
  let xi := xi_of pd den w L in
  let U u x := inner mx (upsilon rate (rsum w) q u x) rho in
  mean (map (cphd_card rate den pd q mx rho w L) (seq 0 (S mx))) =
  q * (rsum w * U 1%nat xi / U 0%nat xi) + rsum (map (fun z => nth z xi 0 * U 1%nat (without z xi)) (seq 0 (length xi))) / U 0%nat xi.
Proof.
  intros Ht xi U. unfold mean. rewrite map_length, seq_length.
  rewrite (rsum_ext _ (fun n => / U 0%nat xi * (INR n * (upsilon rate (rsum w) q 0 xi n * nth n rho 0)))).
  - rewrite rsum_scale, (inner_count mx rate (rsum w) q xi rho Ht). unfold U, Rdiv. ring.
  - intros n Hn. apply in_seq in Hn. rewrite (nth_indep _ 0 (cphd_card rate den pd q mx rho w L 0)) by (rewrite map_length, seq_length; lia).
    rewrite map_nth, seq_nth by lia. unfold cphd_card. fold xi. fold (U 0%nat xi). change (0 + n)%nat with n. unfold Rdiv. ring.
Qed.
Lemma mass_weights rate den pd q mx rho w L :
  let xi := xi_of pd den w L in
  let U u x := inner mx (upsilon rate (rsum w) q u x) rho in
  rsum (firstn (length w) (cphd_weights rate den pd q mx rho w L)) = (1 - pd) * (rsum w * U 1%nat xi / U 0%nat xi) /\
  rsum (cphd_weights rate den pd q mx rho w L) =
  (1 - pd) * (rsum w * U 1%nat xi / U 0%nat xi) + rsum (map (fun z => nth z xi 0 * U 1%nat (without z xi)) (seq 0 (length xi))) / U 0%nat xi.
Proof.
  intros xi U.
  assert (A : rsum (map (fun wi => U 1%nat xi / U 0%nat xi * (1 - pd) * wi) w) = (1 - pd) * (rsum w * U 1%nat xi / U 0%nat xi)).
  { rewrite rsum_scale, map_id. unfold Rdiv. ring. }
  unfold cphd_weights. fold xi. split.
  - rewrite firstn_app, map_length, Nat.sub_diag. cbn [firstn]. rewrite app_nil_r, firstn_all2 by (rewrite map_length; lia). exact A.
  - rewrite rsum_app. f_equal; [exact A|]. rewrite flat_map_concat_map, rsum_concat, map_map.
    unfold Rdiv at 3. rewrite Rmult_comm, <- rsum_scale.
    assert (Lx : length xi = length L) by (unfold xi, xi_of; apply map_length). rewrite Lx.
    rewrite (rsum_ext _ (fun jl => / U 0%nat xi * ((pd / den * rsum (map (fun wq => fst wq * snd wq) (combine w (snd jl)))) * U 1%nat (without (fst jl) xi)))).
    + rewrite (rsum_ext (fun x => / U 0%nat xi * (nth x xi 0 * U 1%nat (without x xi)))
        (fun x => / U 0%nat xi * (pd / den * rsum (map (fun wq => fst wq * snd wq) (combine w (nth x L []))) * U 1%nat (without x xi)))).
      * set (g := fun x => U 1%nat (without x xi)).
        assert (K : forall (F : list R -> R) k L', rsum (map (fun jl => F (snd jl) * g (fst jl)) (combine (seq k (length L')) L')) = rsum (map (fun x => F (nth (x - k) L' []) * g x) (seq k (length L')))).
        { intros F k L'. revert k. induction L' as [|l L' IH]; intros k; [reflexivity|]. cbn [length seq combine map]. rewrite !rsum_cons, Nat.sub_diag. f_equal. rewrite IH.
          apply rsum_ext. intros x Hx. apply in_seq in Hx. replace (x - k)%nat with (S (x - S k)) by lia. reflexivity. }
        rewrite !rsum_scale. f_equal. 
        etransitivity; [exact (K (fun l => pd / den * rsum (map (fun wq => fst wq * snd wq) (combine w l))) 0%nat L)|]. apply rsum_ext. intros x _. rewrite Nat.sub_0_r. reflexivity.
      * intros z Hz. apply in_seq in Hz. do 2 f_equal. unfold xi, xi_of. rewrite (nth_indep _ 0 (pd / den * rsum (map (fun wq => fst wq * snd wq) (combine w [])))) by (rewrite map_length; lia).
        rewrite (map_nth (fun q0 => pd / den * rsum (map (fun wq => fst wq * snd wq) (combine w q0)))). reflexivity.
    + intros [j l] _. cbn [fst snd].
      rewrite (rsum_ext _ (fun wq => U 1%nat (without j xi) / U 0%nat xi * (pd / den) * (fst wq * snd wq))).
      * rewrite rsum_scale. unfold Rdiv. ring.
      * intros wq _. unfold U, Rdiv. ring.
Qed.

(** ** theorems *)
(** The specification itself is consistent: with the missed-detection probability
    the corrected mass is the mean of the corrected distribution. *)
Theorem C194_textbook_mass_is_mean : forall rate den pd mx rho w L, rsum w <> 0 ->
  rsum (cphd_weights rate den pd (1 - pd) mx rho w L) = mean (map (cphd_card rate den pd (1 - pd) mx rho w L) (seq 0 (S mx))).
Proof.
  intros rate den pd mx rho w L Hw. rewrite (mean_card rate den pd (1 - pd) mx rho w L Hw). exact (proj2 (mass_weights rate den pd (1 - pd) mx rho w L)).
Qed.

(** Exact difference between the two in the code, in terms of the mass it gives to
    missed detections (the first components). *)
Theorem C194_cphd_mass_error : forall {V M Meas} (c : ccfg V M Meas) s meas s',
  esf_ok (k_esf c) -> 0 < k_ps c < 1 -> 0 <= k_pd c <= 1 -> 0 < k_rate c -> 0 < k_den c -> k_gating c = false ->
  (forall z m p, 0 <= snd (k_fcorr c z m p)) ->
  raligned (cp_mix s) -> rnonneg (cp_mix s) -> 0 < rsum (rm_w (cp_mix s)) -> distribution (cp_max s) (cp_card s) ->
  cp_correct c meas s = Ok s' ->
  (1 - k_pd c) * (rsum (rm_w (cp_mix s')) - mean (cp_card s')) =
  (k_ps c - k_pd c) * rsum (firstn (length (rm_w (cp_mix s))) (rm_w (cp_mix s'))).
Proof.
  intros V M Meas c s meas s' He Hps Hpd Hr Hd Hg Hl Ha Hn Ht Hdist H.
  destruct (C45_cphd_correct_actual c s meas s' He Hps Hpd Hr Hd Hg Hl Ha Hn Ht Hdist H) as [Ew Ec].
  rewrite Ew, Ec. set (L := map _ meas) in *.
  rewrite (mean_card (k_rate c) (k_den c) (k_pd c) (1 - k_ps c) (cp_max s) (cp_card s) (rm_w (cp_mix s)) L) by lra.
  destruct (mass_weights (k_rate c) (k_den c) (k_pd c) (1 - k_ps c) (cp_max s) (cp_card s) (rm_w (cp_mix s)) L) as [E1 E2].
  rewrite E1, E2. ring.
Qed.

(** What does hold: equal survival and detection probabilities. *)
Theorem C194_cphd_mass_partial : forall {V M Meas} (c : ccfg V M Meas) s meas s',
  esf_ok (k_esf c) -> 0 < k_ps c < 1 -> k_pd c = k_ps c -> 0 < k_rate c -> 0 < k_den c -> k_gating c = false ->
  (forall z m p, 0 <= snd (k_fcorr c z m p)) ->
  raligned (cp_mix s) -> rnonneg (cp_mix s) -> 0 < rsum (rm_w (cp_mix s)) -> distribution (cp_max s) (cp_card s) ->
  cp_correct c meas s = Ok s' -> rsum (rm_w (cp_mix s')) = mean (cp_card s').
Proof.
  intros V M Meas c s meas s' He Hps Hpd Hr Hd Hg Hl Ha Hn Ht Hdist H.
  assert (E : (1 - k_pd c) * (rsum (rm_w (cp_mix s')) - mean (cp_card s')) = (k_ps c - k_pd c) * rsum (firstn (length (rm_w (cp_mix s))) (rm_w (cp_mix s')))).
  { apply (C194_cphd_mass_error c s meas s'); try assumption. lra. }
  rewrite Hpd in E. replace (k_ps c - k_ps c) with 0 in E by ring. rewrite Rmult_0_l in E.
  apply Rmult_integral in E. destruct E as [E|E]; lra.
Qed.

(** Without measurements the two differ by the factor (1 - pd) / (1 - ps). *)
Theorem C194_cphd_mass_no_measurements : forall {V M Meas} (c : ccfg V M Meas) s s',
  esf_ok (k_esf c) -> 0 < k_ps c < 1 -> 0 <= k_pd c <= 1 -> 0 < k_rate c -> 0 < k_den c -> k_gating c = false ->
  (forall z m p, 0 <= snd (k_fcorr c z m p)) ->
  raligned (cp_mix s) -> rnonneg (cp_mix s) -> 0 < rsum (rm_w (cp_mix s)) -> distribution (cp_max s) (cp_card s) ->
  cp_correct c [] s = Ok s' ->
  rsum (rm_w (cp_mix s')) = (1 - k_pd c) / (1 - k_ps c) * mean (cp_card s').
Proof.
  intros V M Meas c s s' He Hps Hpd Hr Hd Hg Hl Ha Hn Ht Hdist H.
  destruct (C45_cphd_correct_actual c s [] s' He Hps Hpd Hr Hd Hg Hl Ha Hn Ht Hdist H) as [Ew Ec]. cbn [map] in Ew, Ec.
  rewrite Ew, Ec, (mean_card (k_rate c) (k_den c) (k_pd c) (1 - k_ps c) (cp_max s) (cp_card s) (rm_w (cp_mix s)) []) by lra.
  rewrite (proj2 (mass_weights (k_rate c) (k_den c) (k_pd c) (1 - k_ps c) (cp_max s) (cp_card s) (rm_w (cp_mix s)) [])).
  change (xi_of (k_pd c) (k_den c) (rm_w (cp_mix s)) []) with (@nil R). cbn [length seq map]. change (rsum []) with 0. 
  match goal with |- _ * ?K + 0 / ?d = _ => generalize K; intros k; replace (0 / d) with 0 by (unfold Rdiv; ring) end. field. lra.
Qed.

(** A new filter, one prediction, one correction: mass 1/6, expected number 1/3. *)
Theorem C194_cphd_mass_refuted : exists s',
  crun (ex_c (1/2) (3/4) 1 ex_birth) (fun ws => seq 0 (length ws)) [CPredict; CCorrect []] (cphd_new 1) = Ok s' /\
  rsum (rm_w (cp_mix s')) = 1 / 6 /\ mean (cp_card s') = 1 / 3.
Proof.
  set (c := ex_c (1/2) (3/4) 1 ex_birth). cbn [crun cstep].
  assert (Hps : 0 < k_ps c < 1) by (cbn; lra).
  destruct (cp_predict c (cphd_new 1)) as [s1|e] eqn:E1.
  2: { destruct (C41_cphd_predict_total c (cphd_new 1) 1) as (s1 & E & _); [cbn; lra|apply ex_birth_sum|lra|cbn; lia|apply init_card_dist|]. congruence. }
  assert (D1 : cp_mix s1 = ex_g1 /\ cp_card s1 = [1/2; 1/2] /\ cp_max s1 = 1%nat).
  { unfold cp_predict in E1. cbn [cphd_new cp_max cp_card] in E1.
    rewrite (pred_card_val c 1 (init_card 1) 1 Hps (proj2 (birth_sum_iff _ _) (ex_birth_sum _ _ _)) Rlt_0_1 (init_card_dist 1) (Nat.lt_0_1)) in E1.
    cbn [bind] in E1. injection E1 as <-. cbn [cp_mix cp_card cp_max]. split; [reflexivity|]. split; [|reflexivity].
    change (init_card 1) with [1; 0]. cbn [seq map k_ps c ex_c]. pose proof (exp_pos 1) as P1. pose proof (exp_pos (Ropp 1)) as P2. f_equal; [evalsums; field; nz|f_equal; evalsums; field; nz]. }
  destruct D1 as (D1 & D2 & D3). cbn [bind].
  assert (Dd : distribution 1 [1/2; 1/2]) by (split; [reflexivity|]; split; [intros x [<-|[<-|[]]]; lra|cbn; field]).
  assert (P : 0 < rsum (rm_w (cp_mix s1))) by (rewrite D1; cbn; lra).
  assert (N : rnonneg (cp_mix s1)) by (rewrite D1; intros x [<-|[]]; lra).
  assert (A : raligned (cp_mix s1)) by (rewrite D1; split; reflexivity).
  assert (D : distribution (cp_max s1) (cp_card s1)) by (rewrite D2, D3; exact Dd).
  destruct (C41_cphd_correct_total c s1 []) as (s2 & E2 & _); try assumption; try exact esf_ref_ok; try (cbn; lra); try reflexivity; [intros; cbn; lra|].
  exists s2. rewrite E2. split; [reflexivity|].
  assert (Em : mean (cp_card s2) = 1 / 3).
  { destruct (C45_cphd_correct_actual c s1 [] s2) as [_ Ec]; try assumption; try exact esf_ref_ok; try (cbn; lra); try reflexivity; [intros; cbn; lra|].
    rewrite Ec, D1, D2, D3. unfold mean, cphd_card, inner, upsilon, sum_ab. cbn. pose proof (exp_pos (Ropp 1)) as P2. field. nz. }
  split; [|exact Em].
  rewrite (C194_cphd_mass_no_measurements c s1 s2); try assumption; try exact esf_ref_ok; try (cbn; lra); try reflexivity; try (intros; cbn; lra).
Qed.


Print Assumptions C194_textbook_mass_is_mean.
Print Assumptions C194_cphd_mass_error.
Print Assumptions C194_cphd_mass_partial.
Print Assumptions C194_cphd_mass_no_measurements.
Print Assumptions C194_cphd_mass_refuted.

(** Instance of the hypotheses: a correction with two measurements. *)
Example C194_ex : let c := ex_c (1/2) (1/2) 1 ex_birth in let s := ex_s 1 [1/2; 1/2] ex_g1 in
  exists s', cp_correct c [5; 7]%nat s = Ok s' /\ esf_ok (k_esf c) /\ 0 < k_ps c < 1 /\ k_pd c = k_ps c /\
  (forall z m p, 0 <= snd (k_fcorr c z m p)) /\ raligned (cp_mix s) /\ rnonneg (cp_mix s) /\ 0 < rsum (rm_w (cp_mix s)) /\
  distribution (cp_max s) (cp_card s) /\ rsum (rm_w (cp_mix s')) = mean (cp_card s').
Proof.
  intros c s.
  assert (D : distribution (cp_max s) (cp_card s)) by (split; [reflexivity|]; split; [intros x [<-|[<-|[]]]; lra|cbn; field]).
  assert (N : rnonneg (cp_mix s)) by (intros x [<-|[]]; lra).
  assert (A : raligned (cp_mix s)) by (split; reflexivity).
  assert (P : 0 < rsum (rm_w (cp_mix s))) by (cbn; lra).
  destruct (C41_cphd_correct_total c s [5; 7]%nat) as (s2 & E2 & _); try assumption; try exact esf_ref_ok; try (cbn; lra); try reflexivity; [intros; cbn; lra|].
  exists s2. split; [exact E2|]. split; [exact esf_ref_ok|]. split; [cbn; lra|]. split; [reflexivity|]. split; [intros; cbn; lra|].
  split; [exact A|]. split; [exact N|]. split; [exact P|]. split; [exact D|].
  apply (C194_cphd_mass_partial c s [5; 7]%nat); try assumption; try exact esf_ref_ok; try (cbn; lra); try reflexivity; intros; cbn; lra.
Qed.
