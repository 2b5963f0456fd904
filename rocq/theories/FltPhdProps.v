(** Properties of the PHD filter's arithmetic in double precision. *)
From Coq Require Import Reals ZArith Lia Lra Permutation.
From Flocq Require Import Core Relative.
From Verif Require Import Base RBase RLists RPhdModel RPhdSpec RPhdProofs FltIeee FltGibbs FltGibbsProps FltNear FltOspaModel FltOspa FltOspaStep FltPhdModel FltPhdSpec FltPhd FltPhdMerge.
Local Open Scope R_scope.

Lemma few_u n : INR n <= bp 47 -> INR (8 * n + 64) * u64 <= / 4.
Proof.
  intros H. rewrite plus_INR, mult_INR. replace (INR 8) with 8 by (cbn; lra). replace (INR 64) with 64 by (rewrite INR_IZR_INZ; reflexivity).
  assert (A : 8 * bp 47 = bp 50) by (change 50%Z with (47 + 1 + 1 + 1)%Z; rewrite !bp_dbl; ring).
  assert (B : 64 <= bp 50) by (apply Rle_trans with (bp 6); [change (bp 6) with 64; lra|apply bp_le; lia]).
  assert (C : bp 51 = 2 * bp 50) by (rewrite <- bp_dbl; reflexivity).
  apply Rle_trans with (bp 51 * u64); [apply Rmult_le_compat_r; [pose proof u64_pos; lra|lra]|].
  unfold u64. rewrite bp_mul. change (51 + -53)%Z with (-2)%Z. change (bp (-2)) with (/ 4). lra.
Qed.

(** * C167: predict and correct compute accurate weights *)
Theorem C167_phd_predict_double_accurate {Meas} (c : cfg Meas) (g : gmix) :
  prob64 (c_ps c) -> weights_ok (gm_w g) -> (forall b, In b (c_birth c) -> weights_ok (gm_w b)) ->
  close_mix 8 (predict64 c g) (predict c g).
Proof. apply predict_near. Qed.

Theorem C167_phd_correct_double_accurate {Meas} (psum : list R -> R) (rate den : R) (c : cfg Meas) (meas : list Meas) (g : gmix) :
  prob64 (c_pd c) -> lik_ok c -> good_sum psum -> clutter_ok rate den -> c_kappa c = rate * den ->
  weights_ok (gm_w g) -> INR (length (gm_m g)) <= bpow radix2 47 ->
  same_outcome (fun a b => fst a = fst b /\ close_mix (4 * length (gm_m g) + 48) (snd a) (snd b))
    (correct64 psum rate den c meas g) (correct c meas g).
Proof.
  intros H1 H2 H3 H4 H5 H6 H7. apply correct_near; try assumption. pose proof (few_u _ H7) as F. revert F. apply u_mono. lia.
Qed.

Lemma f2_len {A B} (P : A -> B -> Prop) a b : Forall2 P a b -> length a = length b.
Proof. induction 1; cbn [length]; congruence. Qed.
(** * C168: detection weights never exceed 1 *)
Lemma seq_sum_ge l : forall a, fmt a -> 0 <= a -> nn l -> a <= fold_left add64 l a /\ forall x, In x l -> x <= fold_left add64 l a.
Proof.
  induction l as [|y l IH]; intros a Fa Ha Hl; cbn [fold_left]; [split; [apply Rle_refl|intros x []]|].
  apply nn_cons in Hl as [Ry [Hy Hl]].
  assert (A : a <= add64 a y) by (unfold add64; rewrite <- (rnd_fix a Fa) at 1; apply rnd64_mono; lra).
  assert (B : y <= add64 a y) by (unfold add64; rewrite <- (rnd_fix y (rep64_fmt y Ry)) at 1; apply rnd64_mono; lra).
  destruct (IH (add64 a y) (rnd_fmt _) ltac:(lra) Hl) as [I1 I2]. split; [lra|]. intros x [<-|Hx]; [lra|apply I2, Hx].
Qed.
(** Summing from left to right (Python up to 3.11) satisfies the hypothesis. *)
Theorem C168_left_to_right_dominates : dominates (fun l => fold_left add64 l 0).
Proof. intros l x Hl _ Hx. apply seq_sum_ge; [apply generic_format_0|apply Rle_refl|exact Hl|exact Hx]. Qed.

Lemma normalise_le_one psum rate den l64 l : good_sum psum -> clutter_ok rate den -> dominates psum -> Forall2 dpair l64 l -> INR (4 * length l + 64) * u64 <= / 4 ->
  forall ws, normalise64 psum rate den l64 = Ok ws -> forall x, In x ws -> 0 <= x <= 1.
Proof.
  intros Hs Hc Hd F Hn ws E x Hx. destruct (den_near psum rate den Hs Hc l64 l F Hn) as [_ [_ D2]]. destruct (dpair_nn _ _ F) as [N [L [S64 _]]].
  pose proof (bp_pos (-202)) as b. set (d := add64 (mul64 rate den) (psum l64)) in *.
  assert (Hin : forall y, In y l64 -> 0 <= div64 y d <= 1).
  { intros y Hy. destruct (N y Hy) as [Ry Py].
    assert (B : rsum l64 <= bp 1000).
    { eapply Rle_trans; [exact (proj2 S64)|]. apply Rle_trans with (bp 51 * bp 601); [|rewrite bp_mul; apply bp_le; lia].
      apply Rmult_le_compat_r; [apply bpow_ge_0|]. apply nat_le_51. revert Hn. apply u_mono. lia. }
    pose proof (Hd l64 y N B Hy) as Y1.
    assert (K0 : 0 <= mul64 rate den) by (apply rnd_nonneg; destruct Hc; pose proof (bp_pos (-200)); lra).
    assert (Y2 : y <= d) by (unfold d, add64; rewrite <- (rnd_exact y Ry); apply rnd64_mono; lra).
    assert (Q0 : 0 <= y / d) by (unfold Rdiv; apply Rmult_le_pos; [exact Py|left; apply Rinv_0_lt_compat; lra]).
    assert (Q1 : y / d <= 1). { apply Rmult_le_reg_r with d; [lra|]. unfold Rdiv. rewrite Rmult_assoc, Rinv_l by lra. lra. }
    split; [apply rnd_nonneg, Q0|]. assert (R1 : rep64 1) by (apply (rep64_INR 1); pose proof u64_small; cbn [INR]; lra).
    unfold div64. rewrite <- (rnd_exact 1 R1). apply rnd64_mono, Q1. }
  unfold normalise64 in E. fold d in E. destruct l64 as [|y0 l64]; [injection E as <-; destruct Hx|].
  destruct (Reqb d 0); [discriminate|]. injection E as <-.
  change (In x (map (fun y => div64 y d) (y0 :: l64))) in Hx. apply in_map_iff in Hx as [y [<- Hy]]. apply Hin, Hy.
Qed.
Lemma density_le_one {Meas} psum rate den (c : cfg Meas) g meas : prob64 (c_pd c) -> lik_ok c -> good_sum psum -> clutter_ok rate den -> dominates psum ->
  weights_ok (gm_w g) -> INR (length (gm_m g)) <= bp 47 ->
  forall r, correct_density64 psum rate den c meas g = Ok r -> forall x, In x (gm_w r) -> 0 <= x <= 1.
Proof.
  intros H1 H2 H3 H4 H5 H6 H7. induction meas as [|z zs IH]; intros r E x Hx; cbn [correct_density64] in E.
  { injection E as <-. destruct Hx. }
  apply bind_ok in E as [l [E1 E]]. apply bind_ok in E as [ws [E2 E]]. apply bind_ok in E as [r' [E3 E]]. injection E as <-.
  cbn [gm_w gm_app] in Hx. apply in_app_or in Hx as [Hx|Hx]; [|exact (IH r' E3 x Hx)].
  pose proof (correct_one_near c H1 H2 z (gm_m g) (gm_w g) (gm_p g) H6) as N. rewrite E1 in N.
  destruct (correct_one c z (gm_w g) (gm_m g) (gm_p g)) as [b|e]; [|contradiction]. destruct N as [_ [F Lb]].
  apply (normalise_le_one psum rate den _ _ H3 H4 H5 F) with (ws := ws); [|exact E2|exact Hx].
  rewrite map_length, Lb. pose proof (few_u _ H7) as U. revert U. apply u_mono. lia.
Qed.
(** [correct] puts the detections first, one block per measurement, then the
    missed detections. *)
Theorem C168_phd_detection_weight_le_one {Meas} (psum : list R -> R) (rate den : R) (c : cfg Meas) (meas : list Meas) (g : gmix) ms g' :
  prob64 (c_pd c) -> lik_ok c -> good_sum psum -> dominates psum -> clutter_ok rate den ->
  weights_ok (gm_w g) -> INR (length (gm_m g)) <= bpow radix2 47 -> aligned g ->
  correct64 psum rate den c meas g = Ok (ms, g') ->
  length (gm_w g') = (length ms * length (gm_w g) + length (gm_w g))%nat /\
  (forall k, (k < length ms * length (gm_w g))%nat -> 0 <= nth k (gm_w g') 0 <= 1) /\
  (forall k, (k < length (gm_w g))%nat -> 0 <= nth (length ms * length (gm_w g) + k) (gm_w g') 0 <= nth k (gm_w g) 0).
Proof.
  intros H1 H2 H3 H5 H4 H6 H7 [_ [A1 A2]] E. unfold correct64 in E. apply bind_ok in E as [meas' [Eg E]]. apply bind_ok in E as [r [Er E]].
  injection E as <- <-. set (n := length (gm_w g)) in *. cbn [gm_w gm_app].
  assert (L : length (gm_w r) = (length meas' * n)%nat).
  { clear Eg. revert r Er. induction meas' as [|z zs IH]; intros r Er; cbn [correct_density64] in Er; [injection Er as <-; reflexivity|].
    apply bind_ok in Er as [l [E1 Er]]. apply bind_ok in Er as [ws [E2 Er]]. apply bind_ok in Er as [r' [E3 Er]]. injection Er as <-. cbn [gm_app gm_w].
    rewrite app_length, (IH r' E3). cbn [length Nat.mul]. f_equal.
    pose proof (correct_one_near c H1 H2 z (gm_m g) (gm_w g) (gm_p g) H6) as N. rewrite E1 in N.
    destruct (correct_one c z (gm_w g) (gm_m g) (gm_p g)) as [b|e]; [|contradiction]. destruct N as [_ [F Lb]].
    assert (Ll : length l = n). { apply f2_len in F. rewrite !map_length in F. congruence. }
    unfold normalise64 in E2. destruct (map snd l) as [|y0 t] eqn:Em; [injection E2 as <-; rewrite <- Ll, <- (map_length snd l), Em; reflexivity|].
    destruct (Reqb _ 0); [discriminate|]. injection E2 as <-. rewrite <- Ll, <- (map_length snd l), Em. cbn [length]. rewrite map_length. reflexivity. }
  split; [rewrite app_length, map_length, L; reflexivity|]. split.
  - intros k Hk. rewrite app_nth1 by lia. apply (density_le_one psum rate den c g meas' H1 H2 H3 H4 H5 H6 H7 r Er). apply nth_In. lia.
  - intros k Hk. rewrite app_nth2 by lia. replace (length meas' * n + k - length (gm_w r))%nat with k by lia.
    rewrite (nth_indep _ 0 (mul64 (sub64 1 (c_pd c)) 0)) by (rewrite map_length; exact Hk). rewrite (map_nth (fun x => mul64 (sub64 1 (c_pd c)) x)).
    destruct (H6 (nth k (gm_w g) 0) (nth_In _ _ Hk)) as [Rw Bw]. destruct H1 as [Rp Bp].
    assert (R1 : rep64 1) by (apply (rep64_INR 1); pose proof u64_small; cbn [INR]; lra).
    assert (S0 : 0 <= sub64 1 (c_pd c)) by (apply rnd_nonneg; lra).
    assert (S1 : sub64 1 (c_pd c) <= 1) by (unfold sub64; rewrite <- (rnd_exact 1 R1) at 2; apply rnd64_mono; lra).
    split; [apply rnd_nonneg, Rmult_le_pos; lra|]. unfold mul64. rewrite <- (rnd_exact _ Rw) at 2. apply rnd64_mono.
    rewrite <- (Rmult_1_l (nth k (gm_w g) 0)) at 2. apply Rmult_le_compat_r; lra.
Qed.

(** * C169: merging and capping *)
Lemma sum_groups (w : nat -> R) groups : rsum (map w (concat groups)) = rsum (map (fun G => rsum (map w G)) groups).
Proof.
  induction groups as [|G gs IH]; cbn [concat map]; [reflexivity|]. rewrite map_app, FltGibbs.rsum_app, IH. reflexivity.
Qed.
Lemma rsum_perm (a b : list R) : Permutation a b -> rsum a = rsum b.
Proof.
  induction 1 as [|x a b P IH|x y a|a b d P1 IH1 P2 IH2]; [reflexivity| | |congruence].
  - change (rsum (x :: a)) with (x + rsum a). change (rsum (x :: b)) with (x + rsum b). rewrite IH. reflexivity.
  - change (rsum (y :: x :: a)) with (y + (x + rsum a)). change (rsum (x :: y :: a)) with (x + (y + rsum a)). ring.
Qed.
Lemma map_nth_w (g : gmix) : map (W g) (seq 0 (length (gm_w g))) = gm_w g.
Proof. unfold W. apply RLists.map_nth_seq. Qed.

Theorem C169_phd_merge_double (psum : list R -> R) minv within (g : gmix) (dim : nat) (B : R) :
  aligned g -> moderate_mix dim B g -> 0 <= B -> good_sum psum -> INR (length (gm_w g)) <= bpow radix2 47 ->
  (forall p, In p (gm_p g) -> exists ic, minv p = Ok ic) ->
  (forall m p ic, In m (gm_m g) -> In p (gm_p g) -> minv p = Ok ic -> within m m ic = true) ->
  exists g' groups, merge64 psum minv within g = Ok g' /\ aligned g' /\
    grouping minv within g (seq 0 (length (gm_w g))) groups /\
    Permutation (concat groups) (seq 0 (length (gm_w g))) /\
    Forall2 (merged64 dim (8 * length (gm_w g) + 16) B g) groups (comps g') /\
    Rabs (total g' - total g) <= INR (8 * length (gm_w g) + 16) * u64 * total g.
Proof.
  intros Ha Hm HB Hs Hn Hi Hself. set (n := length (gm_w g)) in *. pose proof Ha as [_ [A1 A2]]. fold n in A1, A2.
  destruct (loop64 psum minv within g dim B Ha Hm Hs HB (few_u _ Hn) Hi Hself n (seq 0 n) (gm_w g) (seq_NoDup n 0) (init_winv g) ltac:(rewrite seq_length; lia))
    as [l [groups [E [Hg [Hp HF]]]]].
  unfold merge64. rewrite A1. fold n in E. rewrite E. cbn [bind].
  set (g' := {| gm_w := map (fun x => fst (fst x)) l; gm_m := map (fun x => snd (fst x)) l; gm_p := map snd l |}).
  assert (Ec : comps g' = l).
  { unfold comps, g'. cbn [gm_w gm_m gm_p]. clear. induction l as [|[[w m] p] l IH]; cbn [map combine fst snd]; [reflexivity|]. f_equal. exact IH. }
  exists g', groups. split; [reflexivity|]. split; [split; [reflexivity|]; unfold g'; cbn [gm_w gm_m gm_p]; rewrite !map_length; split; reflexivity|].
  split; [exact Hg|]. split; [exact Hp|]. rewrite Ec. split; [exact HF|].
  unfold total, g'. cbn [gm_w]. replace (rsum (gm_w g)) with (rsum (map (fun G => rsum (map (W g) G)) groups)).
  2:{ rewrite <- sum_groups, <- (map_nth_w g). fold n. apply rsum_perm, Permutation_map, Hp. }
  fold n in HF. revert HF. generalize (8 * n + 16)%nat. clear. intros K HF. induction HF as [|G x gs l P F IH]; cbn [map].
  - change (rsum []) with 0. rewrite Rminus_0_r, Rabs_R0. lra.
  - match goal with |- Rabs (rsum (?a :: ?t) - rsum (?b :: ?s)) <= _ => change (rsum (a :: t)) with (a + rsum t); change (rsum (b :: s)) with (b + rsum s) end.
    destruct P as [_ [_ [P _]]]. change (map (fun k => nth k (gm_w g) 0) G) with (map (W g) G) in P.
    match goal with |- Rabs (?a + ?t - (?b + ?s)) <= _ => replace (a + t - (b + s)) with ((a - b) + (t - s)) by ring end.
    eapply Rle_trans; [apply Rabs_triang|]. rewrite Rmult_plus_distr_l. apply Rplus_le_compat; assumption.
Qed.

Theorem C169_phd_cap_double {Meas} (c : cfg Meas) (psum : list R -> R) (idx : list nat) (g : gmix) :
  (forall x, In x (gm_w g) -> rep64 x /\ bpow radix2 (-900) <= x <= bpow radix2 300) -> good_sum psum -> INR (length (gm_w g)) <= bpow radix2 47 ->
  same_outcome (fun a b => gm_m a = gm_m b /\ gm_p a = gm_p b /\
     Forall2 (fun x y => rep64 x /\ Rabs (x - y) <= INR (8 * length (gm_w g) + 16) * u64 * y) (gm_w a) (gm_w b))
    (cap64 psum (c_max c) idx g) (cap c idx g).
Proof. intros H1 H2 H3. apply cap_near; [exact H1|exact H2|apply few_u, H3]. Qed.

(** A concrete case: two components (weights 1/2 and 3, scalar means 0 and 1,
    covariance 1), likelihood 1/4 everywhere, p_D = 3/4, p_S = 1/2, clutter
    2 * 1/2. *)
Definition ex_cfg : cfg R :=
  {| c_filter := {| fpredict := fun m p => (m, p); fcorrect := fun z m p => (fun _ => z, p, / 4) |};
     c_pd := 3 * / 4; c_ps := / 2; c_birth := []; c_kappa := 2 * / 2; c_extract := / 2; c_prune := / 8; c_merge := 4; c_max := 1;
     c_gating := false; c_save_covs := false; c_dim := 1; c_inv := fun p => Ok p; c_gate := fun m _ => Ok m |}.
Definition ex_mix : gmix := {| gm_w := [/ 2; 3]; gm_m := [(fun _ => 0); (fun _ => 1)]; gm_p := [(fun _ _ => 1); (fun _ _ => 1)] |}.
Definition ex_sum (l : list R) : R := fold_left add64 l 0.
Definition ex_within (mi mj : vec) (ic : mat) : bool := Rleb (Rabs (mi 0%nat - mj 0%nat)) 4.
Lemma dy m e x : (Z.abs m < 2 ^ 53)%Z -> (-1074 <= e <= 900)%Z -> x = IZR m * bp e -> rep64 x.
Proof.
  intros Hm He ->. split; [apply dyad_format; [exact Hm|lia]|]. rewrite Rabs_mult, (Rabs_pos_eq (bp e)) by apply bpow_ge_0.
  apply Rle_trans with (bp 53 * bp 900).
  - apply Rmult_le_compat; [apply Rabs_pos|apply bpow_ge_0| |apply bp_le; lia]. rewrite <- abs_IZR. change (bp 53) with (IZR (2 ^ 53)). apply IZR_le. lia.
  - rewrite bp_mul. apply fmax_ge. lia.
Qed.
Lemma half64 : rep64 (/ 2). Proof. apply (dy 1 (-1)); [reflexivity|lia|]. change (bp (-1)) with (/ 2). lra. Qed.
Lemma three64 : rep64 3. Proof. apply (dy 3 0); [reflexivity|lia|]. change (bp 0) with 1. lra. Qed.
Lemma one64 : rep64 1. Proof. apply (dy 1 0); [reflexivity|lia|]. change (bp 0) with 1. lra. Qed.
Lemma ex_w x : In x (gm_w ex_mix) -> rep64 x /\ bp (-900) <= x <= bp 300.
Proof.
  assert (A : bp (-900) <= / 2) by (change (/ 2) with (bp (-1)); apply bp_le; lia). assert (B : 4 <= bp 300) by (change 4 with (bp 2); apply bp_le; lia).
  intros [<-|[<-|[]]]; split; try exact half64; try exact three64; lra.
Qed.
Lemma ex_ok : prob64 (c_pd ex_cfg) /\ prob64 (c_ps ex_cfg) /\ lik_ok ex_cfg /\ clutter_ok 2 (/ 2) /\ c_kappa ex_cfg = 2 * / 2 /\
  weights_ok (gm_w ex_mix) /\ INR 2 <= bp 47 /\ aligned ex_mix.
Proof.
  assert (B : 4 <= bp 300) by (change 4 with (bp 2); apply bp_le; lia). assert (C : bp (-200) <= 1) by (change 1 with (bp 0); apply bp_le; lia).
  split; [split; [apply (dy 3 (-2)); [reflexivity|lia|]; change (bp (-2)) with (/ 4); cbn [ex_cfg c_pd]; lra|cbn [ex_cfg c_pd]; lra]|].
  split; [split; [exact half64|cbn [ex_cfg c_ps]; lra]|].
  split; [intros z m p; cbn [ex_cfg c_filter fcorrect snd]; split; [apply (dy 1 (-2)); [reflexivity|lia|]; change (bp (-2)) with (/ 4); lra|lra]|].
  split; [split; lra|]. split; [reflexivity|]. split.
  - intros x Hx. destruct (ex_w x Hx) as [A [B1 B2]]. split; [exact A|]. pose proof (bp_pos (-900)). lra.
  - split; [change (INR 2) with (bp 1); apply bp_le; lia|]. split; [reflexivity|split; reflexivity].
Qed.
Example C167_hypotheses_met : exists g', correct64 ex_sum 2 (/ 2) ex_cfg [5; 7] ex_mix = Ok ([5; 7], g') /\ length (gm_w g') = 6%nat /\
  (forall k, (k < 4)%nat -> 0 <= nth k (gm_w g') 0 <= 1).
Proof.
  destruct ex_ok as [H1 [H2 [H3 [H4 [H5 [H6 [H7 H8]]]]]]].
  pose proof (C167_phd_correct_double_accurate ex_sum 2 (/ 2) ex_cfg [5; 7] ex_mix H1 H3 seq_sum_good H4 H5 H6 H7) as S.
  assert (E : exists r, correct ex_cfg [5; 7] ex_mix = Ok r).
  { unfold correct. cbn [c_gating ex_cfg bind].
    destruct (correct_density_total ex_cfg ex_mix [5; 7] H8) as [gm Egm]; [|rewrite Egm; cbn [bind]; eexists; reflexivity].
    intros z _. unfold dsum, dw. cbn. lra. }
  destruct E as [[ms gx] E]. rewrite E in S.
  destruct (correct64 ex_sum 2 (/ 2) ex_cfg [5; 7] ex_mix) as [[ms' g']|e] eqn:E64; [|contradiction]. destruct S as [S _]. cbn [fst] in S.
  assert (Ems : ms' = [5; 7]).
  { unfold correct64 in E64. cbn [c_gating ex_cfg bind] in E64. apply bind_ok in E64 as [r [_ E64]]. injection E64 as E64 _. symmetry. exact E64. }
  subst ms'. exists g'. split; [f_equal; f_equal; exact Ems|]. rewrite Ems in *.
  destruct (C168_phd_detection_weight_le_one ex_sum 2 (/ 2) ex_cfg [5; 7] ex_mix _ _ H1 H3 seq_sum_good C168_left_to_right_dominates H4 H6 H7 H8 E64) as [L [K _]].
  split; [exact L|exact K].
Qed.
Example C169_hypotheses_met : exists g' groups, merge64 ex_sum (fun p => Ok p) ex_within ex_mix = Ok g' /\ Permutation (concat groups) [0; 1]%nat /\
  Rabs (total g' - total ex_mix) <= INR 32 * u64 * total ex_mix.
Proof.
  destruct (C169_phd_merge_double ex_sum (fun p => Ok p) ex_within ex_mix 1 1) as [g' [groups [E [_ [_ [Hp [_ T]]]]]]].
  - apply ex_ok.
  - split; [exact ex_w|]. split.
    + intros m i [<-|[<-|[]]] _; (split; [|rewrite ?Rabs_R0, ?Rabs_R1; lra]); [apply rep64_0|exact one64].
    + intros p i j [<-|[<-|[]]] _ _; (split; [exact one64|rewrite ?Rabs_R1; lra]).
  - lra.
  - exact seq_sum_good.
  - apply ex_ok.
  - intros p _. eexists. reflexivity.
  - intros m p ic _ _ _. apply Rleb_le. rewrite Rminus_diag_eq, Rabs_R0 by reflexivity. lra.
  - exists g', groups. split; [exact E|]. split; [exact Hp|exact T].
Qed.

Print Assumptions C167_phd_predict_double_accurate.
Print Assumptions C167_phd_correct_double_accurate.
Print Assumptions C168_left_to_right_dominates.
Print Assumptions C168_phd_detection_weight_le_one.
Print Assumptions C169_phd_merge_double.
Print Assumptions C169_phd_cap_double.
