(** Property theorems about OSPA of every order (C136-C138). *)
From Verif Require Import Base Lists OspaModel OspaSpec OspaProofs OspaMetric OspaOrder OspaProps.
From Coq Require Import Reals Lra Permutation.
Open Scope R_scope.

(** The OSPA distance of order p of a time step, from its reported localization
    and cardinality components (Schuhmacher 2008: the p-norm of the two). *)
Definition ospa_p (p : nat) (r : R * R) : R := root p (fst r ^ p + snd r ^ p).

(** C136: combined with the p-norm the two reported components satisfy the
    triangle inequality for every order p, and stay within the cut-off. *)
Theorem C136_order_p_triangle : forall dim inv det lsa X Y Z c p ue me tcov ecov r1 r2 r3 me1 me2 me3 c1 c2 c3 t,
  lsa_ok lsa -> norm_core me -> 0 <= c -> (1 <= p)%nat ->
  calculate_ospa dim inv det lsa X Y c p ue me tcov ecov = Ok (r1, me1, c1) ->
  calculate_ospa dim inv det lsa Y Z c p ue me tcov ecov = Ok (r2, me2, c2) ->
  calculate_ospa dim inv det lsa X Z c p ue me tcov ecov = Ok (r3, me3, c3) ->
  (t < length Y)%nat -> (t < length Z)%nat ->
  prefix_slots (nth t X []) -> prefix_slots (nth t Y []) -> prefix_slots (nth t Z []) ->
  ospa_p p (nth t r3 (0, 0)) <= ospa_p p (nth t r1 (0, 0)) + ospa_p p (nth t r2 (0, 0)).
Proof.
  intros dim inv det lsa X Y Z c p ue me tcov ecov r1 r2 r3 me1 me2 me3 c1 c2 c3 t L Hm Hc Hp E1 E2 E3 Ht Ht' P1 P2 P3.
  pose proof (C26_ospa_prefix_slots_partial _ _ _ _ _ _ _ _ _ _ _ _ _ _ _ t L E1 Ht P1 P2) as H1.
  pose proof (C26_ospa_prefix_slots_partial _ _ _ _ _ _ _ _ _ _ _ _ _ _ _ t L E2 Ht' P2 P3) as H2.
  pose proof (C26_ospa_prefix_slots_partial _ _ _ _ _ _ _ _ _ _ _ _ _ _ _ t L E3 Ht' P1 P3) as H3.
  apply calc_ok in E1 as [-> [-> _]]. apply calc_ok in E2 as [-> [-> _]]. apply calc_ok in E3 as [-> [-> _]].
  pose proof (ospa_method_symm me tcov ecov Hm) as S. rewrite (symm_cut _ c S) in *.
  unfold ospa_p. fold (pnorm p (fst (nth t r1 (0, 0))) (snd (nth t r1 (0, 0)))) (pnorm p (fst (nth t r2 (0, 0))) (snd (nth t r2 (0, 0)))) (pnorm p (fst (nth t r3 (0, 0))) (snd (nth t r3 (0, 0)))).
  eapply ospa_sets_order_triangle; [exact Hp|apply core_metric, S|exact Hc|exact H1|exact H2|exact H3].
Qed.
Theorem C136_order_p_bounded : forall dim inv det lsa X Y c p ue me tcov ecov r me' c' t,
  lsa_ok lsa -> norm_core me -> 0 <= c -> (1 <= p)%nat ->
  calculate_ospa dim inv det lsa X Y c p ue me tcov ecov = Ok (r, me', c') -> (t < length Y)%nat ->
  prefix_slots (nth t X []) -> prefix_slots (nth t Y []) ->
  0 <= ospa_p p (nth t r (0, 0)) <= c.
Proof.
  intros dim inv det lsa X Y c p ue me tcov ecov r me' c' t L Hm Hc Hp E Ht P1 P2.
  pose proof (C26_ospa_prefix_slots_partial _ _ _ _ _ _ _ _ _ _ _ _ _ _ _ t L E Ht P1 P2) as H.
  apply calc_ok in E as [-> [-> _]]. pose proof (ospa_method_symm me tcov ecov Hm) as S. rewrite (symm_cut _ c S) in *.
  destruct (sets_pnorm_le _ _ _ _ _ _ _ Hp Hc (proj1 (core_metric dim inv det _ S)) H) as [_ [_ B]]. split; [apply root_nonneg|exact B].
Qed.

(** C137: the reported value (localization + cardinality) itself. *)
(** Refuted for p = 2. *)
Theorem C137_reported_triangle_refuted : forall inv det lsa, lsa_ok lsa ->
  exists dim X Y Z c r1 r2 r3 me, 0 < c /\
    calculate_ospa dim inv det lsa [X] [Y] c 2 true (Some Euclidean) false false = Ok ([r1], me, c) /\
    calculate_ospa dim inv det lsa [Y] [Z] c 2 true (Some Euclidean) false false = Ok ([r2], me, c) /\
    calculate_ospa dim inv det lsa [X] [Z] c 2 true (Some Euclidean) false false = Ok ([r3], me, c) /\
    prefix_slots X /\ prefix_slots Y /\ prefix_slots Z /\
    ospa_val r1 + ospa_val r2 < ospa_val r3.
Proof.
  intros inv det lsa L. exists 1%nat, [Some (pt 0)], [Some (pt 0); Some (pt 1); Some (pt 2)], [Some (pt 1); Some (pt 2)], 1.
  destruct (step_ok 1 inv det lsa L Euclidean 1 2 true [Some (pt 0)] [Some (pt 0); Some (pt 1); Some (pt 2)]) as [v1 [V1 E1]]; [cbn; lia|cbn; lia|apply nonan_symm; left; reflexivity|].
  destruct (step_ok 1 inv det lsa L Euclidean 1 2 true [Some (pt 0); Some (pt 1); Some (pt 2)] [Some (pt 1); Some (pt 2)]) as [v2 [V2 E2]]; [cbn; lia|cbn; lia|apply nonan_symm; left; reflexivity|].
  destruct (step_ok 1 inv det lsa L Euclidean 1 2 true [Some (pt 0)] [Some (pt 1); Some (pt 2)]) as [v3 [V3 E3]]; [cbn; lia|cbn; lia|apply nonan_symm; left; reflexivity|].
  change (count [Some (pt 0)]) with 1%nat in *. change (count [Some (pt 0); Some (pt 1); Some (pt 2)]) with 3%nat in *. change (count [Some (pt 1); Some (pt 2)]) with 2%nat in *.
  assert (D0 : sqrt (0 + (0 - 0) ^ 2) = 0) by (replace (0 + (0 - 0) ^ 2) with 0 by ring; apply sqrt_0).
  assert (D1 : forall a, sqrt (0 + (a - a) ^ 2) = 0) by (intros a; replace (0 + (a - a) ^ 2) with 0 by ring; apply sqrt_0).
  assert (NNv : forall m n es ts v, least_cost m n (fun i j => val (dmat 1 inv det Euclidean 1 true es ts i j) ^ 2) v -> 0 <= v).
  { intros m n es ts v [[a [_ <-]] _]. apply rsum_nonneg. intros x Hx. apply in_map_iff in Hx as [ij [<- _]]. apply pow2_ge_0. }
  assert (W1 : v1 = 0).
  { apply Rle_antisym; [|apply (NNv _ _ _ _ _ V1)]. destruct V1 as [_ V1]. eapply Rle_trans; [apply (V1 [(0, 0)]%nat)|].
    - repeat split; cbn; try (repeat constructor; cbn; tauto); intros; destruct H as [H|[]]; injection H as <- <-; lia.
    - unfold cost. cbn [map rsum fold_right fst snd]. unfold dmat, dist_entry, nth, core, nan_min, rsumn, pt, st, val. rewrite D1, Rmin_left by lra. lra. }
  assert (W2 : v2 = 0).
  { apply Rle_antisym; [|apply (NNv _ _ _ _ _ V2)]. destruct V2 as [_ V2]. eapply Rle_trans; [apply (V2 [(1, 0); (2, 1)]%nat)|].
    - split; [|split; [|split; [|reflexivity]]]; cbn [map fst snd].
      + constructor; [cbn; lia|]. constructor; [cbn; tauto|constructor].
      + constructor; [cbn; lia|]. constructor; [cbn; tauto|constructor].
      + intros i j [H|[H|[]]]; injection H as <- <-; lia.
    - unfold cost. cbn [map rsum fold_right fst snd]. unfold dmat, dist_entry, nth, core, nan_min, rsumn, pt, st, val. rewrite !D1, !Rmin_left by lra. lra. }
  assert (W3 : v3 = 1).
  { rewrite (least_const _ _ _ _ 1 V3); [cbn; ring|]. intros i j Hi Hj. replace i with 0%nat by lia.
    assert (S1 : sqrt (0 + (1 - 0) ^ 2) = 1) by (replace (0 + (1 - 0) ^ 2) with (1 * 1) by ring; apply sqrt_square; lra).
    assert (S2 : sqrt (0 + (2 - 0) ^ 2) = 2) by (replace (0 + (2 - 0) ^ 2) with (2 * 2) by ring; apply sqrt_square; lra).
    assert (j = 0 \/ j = 1)%nat as [-> | ->] by lia; unfold dmat, dist_entry, nth, core, nan_min, rsumn, pt, st, val; rewrite ?S1, ?S2, Rmin_right by lra; ring. }
  subst v1 v2 v3.
  exists (root 2 0, root 2 (2 / 3)), (root 2 0, root 2 (1 / 3)), (root 2 (1 / 2), root 2 (1 / 2)), Euclidean.
  split; [lra|]. unfold calculate_ospa. cbn [ospa_method ospa_cut combine mapM fst snd length Nat.ltb Nat.leb]. rewrite E1, E2, E3. cbn [bind].
  change (Nat.max 1 3) with 3%nat. change (Nat.max 3 2) with 3%nat. change (Nat.max 1 2) with 2%nat. change (absdiff 1 3) with 2%nat. change (absdiff 3 2) with 1%nat. change (absdiff 1 2) with 1%nat.
  replace (0 / INR 3) with 0 by (cbn; field). replace (1 ^ 2 * INR 2 / INR 3) with (2 / 3) by (cbn; field). replace (1 ^ 2 * INR 1 / INR 3) with (1 / 3) by (cbn; field).
  replace (1 ^ 2 * INR 1 / INR 2) with (1 / 2) by (cbn; field). replace (1 / INR 2) with (1 / 2) by (cbn; field).
  do 3 (split; [reflexivity|]). split; [exists [pt 0], 0%nat; reflexivity|]. split; [exists [pt 0; pt 1; pt 2], 0%nat; reflexivity|]. split; [exists [pt 1; pt 2], 0%nat; reflexivity|].
  unfold ospa_val. cbn [fst snd]. rewrite root_0.
  pose proof (pow_root 2 (2 / 3) ltac:(lia) ltac:(lra)) as Q1. pose proof (pow_root 2 (1 / 3) ltac:(lia) ltac:(lra)) as Q2. pose proof (pow_root 2 (1 / 2) ltac:(lia) ltac:(lra)) as Q3.
  pose proof (root_nonneg 2 (2 / 3)). pose proof (root_nonneg 2 (1 / 3)). pose proof (root_nonneg 2 (1 / 2)).
  set (a := root 2 (2 / 3)) in *. set (b := root 2 (1 / 3)) in *. set (d := root 2 (1 / 2)) in *. clearbody a b d. cbn [pow] in Q1, Q2, Q3.
  assert (a < 82/100) by nra. assert (b < 58/100) by nra. assert (705/1000 < d) by nra. lra.
Qed.
(** What remains true of the reported value for every order: the triangle
    inequality up to the factor 2^((p-1)/p), which is 1 for p = 1. *)
Theorem C137_relaxed_triangle_partial : forall dim inv det lsa X Y Z c p ue me tcov ecov r1 r2 r3 me1 me2 me3 c1 c2 c3 t,
  lsa_ok lsa -> norm_core me -> 0 <= c -> (1 <= p)%nat ->
  calculate_ospa dim inv det lsa X Y c p ue me tcov ecov = Ok (r1, me1, c1) ->
  calculate_ospa dim inv det lsa Y Z c p ue me tcov ecov = Ok (r2, me2, c2) ->
  calculate_ospa dim inv det lsa X Z c p ue me tcov ecov = Ok (r3, me3, c3) ->
  (t < length Y)%nat -> (t < length Z)%nat ->
  prefix_slots (nth t X []) -> prefix_slots (nth t Y []) -> prefix_slots (nth t Z []) ->
  ospa_val (nth t r3 (0, 0)) ^ p <= 2 ^ (p - 1) * (ospa_val (nth t r1 (0, 0)) + ospa_val (nth t r2 (0, 0))) ^ p.
Proof.
  intros dim inv det lsa X Y Z c p ue me tcov ecov r1 r2 r3 me1 me2 me3 c1 c2 c3 t L Hm Hc Hp E1 E2 E3 Ht Ht' P1 P2 P3.
  pose proof (C136_order_p_triangle _ _ _ _ _ _ _ _ _ _ _ _ _ _ _ _ _ _ _ _ _ _ t L Hm Hc Hp E1 E2 E3 Ht Ht' P1 P2 P3) as T.
  pose proof (C26_ospa_prefix_slots_partial _ _ _ _ _ _ _ _ _ _ _ _ _ _ _ t L E1 Ht P1 P2) as H1.
  pose proof (C26_ospa_prefix_slots_partial _ _ _ _ _ _ _ _ _ _ _ _ _ _ _ t L E2 Ht' P2 P3) as H2.
  pose proof (C26_ospa_prefix_slots_partial _ _ _ _ _ _ _ _ _ _ _ _ _ _ _ t L E3 Ht' P1 P3) as H3.
  apply calc_ok in E1 as [-> [-> _]]. apply calc_ok in E2 as [-> [-> _]]. apply calc_ok in E3 as [-> [-> _]].
  pose proof (ospa_method_symm me tcov ecov Hm) as S. rewrite (symm_cut _ c S) in *.
  pose proof (proj1 (core_metric dim inv det _ S)) as Hd.
  destruct (sets_pnorm_le _ _ _ _ _ _ _ Hp Hc Hd H1) as [A1 [B1 _]]. destruct (sets_pnorm_le _ _ _ _ _ _ _ Hp Hc Hd H2) as [A2 [B2 _]]. destruct (sets_pnorm_le _ _ _ _ _ _ _ Hp Hc Hd H3) as [A3 [B3 _]].
  destruct (sum_pnorm p _ _ Hp A1 B1) as [S1 _]. destruct (sum_pnorm p _ _ Hp A2 B2) as [S2 _]. destruct (sum_pnorm p _ _ Hp A3 B3) as [_ S3].
  unfold ospa_p in T. unfold pnorm in S1, S2, S3. unfold ospa_val. eapply Rle_trans; [exact S3|]. apply Rmult_le_compat_l; [apply pow_le; lra|].
  apply pow_mono; [apply root_nonneg|]. lra.
Qed.

(** C138: the HELLINGER core. *)
(** numpy.linalg on 1 x 1 matrices. *)
Definition scalar_inv (inv : rmat -> rmat) : Prop := forall M, M 0%nat 0%nat <> 0 -> inv M 0%nat 0%nat = / M 0%nat 0%nat.
Definition scalar_det (det : rmat -> R) : Prop := forall M, det M = M 0%nat 0%nat.
(** N(x, s) in one dimension, s the variance. *)
Definition gauss (x s : R) : obj := {| st := fun _ => x; cv := Some (fun _ _ => s) |}.
(** Bhattacharyya coefficient of N(x, s) and N(y, t). *)
Definition bhatta (x s y t : R) : R := sqrt (2 * sqrt (s * t) / (s + t)) * exp (- ((x - y) ^ 2 / (4 * (s + t)))).

Lemma hell_value inv det x s y t : scalar_inv inv -> scalar_det det -> 0 < s -> 0 < t ->
  core 1 inv det Hellinger (gauss x s) (gauss y t) = Some (1 - bhatta x s y t).
Proof.
  intros Hi Hd Hs Ht. unfold core, gauss. cbn [st cv]. unfold quad. cbn [rsumn]. rewrite !Hd, Hi by (unfold madd; lra). unfold mprod, mscale, madd. cbn [rsumn]. rewrite !Rplus_0_l.
  unfold bhatta. do 2 f_equal. f_equal; f_equal; [|field; lra].
  unfold Rdiv. rewrite Rinv_mult, Rinv_inv. field. lra.
Qed.
Lemma bhatta_bounds x s y t : 0 < s -> 0 < t -> 0 < bhatta x s y t <= 1 /\ bhatta x s y t = bhatta y t x s /\ (bhatta x s y t = 1 <-> x = y /\ s = t).
Proof.
  intros Hs Ht. assert (Hst : 0 < s * t) by (apply Rmult_lt_0_compat; assumption). pose proof (sqrt_lt_R0 _ Hst) as Hr. pose proof (sqrt_sqrt (s * t) ltac:(lra)) as Hq. set (r := sqrt (s * t)) in *.
  assert (AG : 2 * r <= s + t). { apply Rnot_lt_le. intros H. assert (0 <= (s - t) ^ 2) by apply pow2_ge_0. assert ((s + t) * (s + t) < (2 * r) * (2 * r)) by (apply Rmult_le_0_lt_compat; lra). nra. }
  assert (Hi : 0 < / (s + t)) by (apply Rinv_0_lt_compat; lra).
  assert (F1 : 0 < 2 * r / (s + t)) by (apply Rmult_lt_0_compat; lra).
  assert (F2 : 2 * r / (s + t) <= 1) by (apply Rmult_le_reg_r with (s + t); [lra|]; unfold Rdiv; rewrite Rmult_assoc, Rinv_l by lra; lra).
  set (u := sqrt (2 * r / (s + t))). assert (U0 : 0 < u) by (apply sqrt_lt_R0; exact F1). assert (U1 : u <= 1) by (rewrite <- sqrt_1; apply sqrt_le_1; lra).
  set (e := - ((x - y) ^ 2 / (4 * (s + t)))). assert (He : e <= 0). { unfold e. assert (0 <= (x - y) ^ 2 / (4 * (s + t))); [|lra]. apply Rmult_le_pos; [apply pow2_ge_0|left; apply Rinv_0_lt_compat; lra]. }
  assert (X0 : 0 < exp e) by apply exp_pos. assert (X1 : exp e <= 1). { destruct He as [He|He]; [rewrite <- exp_0; left; apply exp_increasing; exact He|rewrite He, exp_0; lra]. }
  assert (EB : bhatta x s y t = u * exp e) by reflexivity.
  split; [|split].
  - rewrite EB. split; [apply Rmult_lt_0_compat; assumption|]. rewrite <- (Rmult_1_l 1). apply Rmult_le_compat; lra.
  - unfold bhatta. rewrite (Rmult_comm t s), (Rplus_comm t s). do 3 f_equal. unfold Rdiv. f_equal. ring.
  - rewrite EB. split.
    + intros E. assert (u = 1). { apply Rle_antisym; [exact U1|]. rewrite <- E. rewrite <- (Rmult_1_r u) at 2. apply Rmult_le_compat_l; lra. }
      assert (Ee : exp e = 1) by (rewrite H in E; lra). assert (e = 0) by (apply exp_inv; rewrite exp_0; exact Ee).
      assert (2 * r / (s + t) = 1). { unfold u in H. rewrite <- (sqrt_sqrt (2 * r / (s + t))) by lra. rewrite H. ring. }
      assert (2 * r = s + t). { apply Rmult_eq_reg_r with (/ (s + t)); [|lra]. rewrite Rinv_r by lra. exact H1. }
      split; [|nra]. unfold e in H0. assert (Z : (x - y) ^ 2 / (4 * (s + t)) = 0) by lra. apply Rmult_integral in Z as [Z|Z]; [|pose proof (Rinv_0_lt_compat (4 * (s + t))); lra].
      cbn in Z. rewrite Rmult_1_r in Z. apply Rmult_integral in Z as [Z|Z]; lra.
    + intros [-> ->]. unfold e, u, r. replace ((y - y) ^ 2) with 0 by ring. unfold Rdiv. rewrite Rmult_0_l, Ropp_0, exp_0, Rmult_1_r. rewrite sqrt_square by lra. replace (2 * t * / (t + t)) with 1 by (field; lra). apply sqrt_1.
Qed.

(** Refuted: with the HELLINGER core OSPA violates the triangle inequality, even
    with p = 1 and one object per set (the core is 1 - BC, the squared Hellinger
    distance, not its square root). *)
Theorem C138_hellinger_triangle_refuted : forall inv det lsa, lsa_ok lsa -> scalar_inv inv -> scalar_det det ->
  exists X Y Z r1 r2 r3,
    calculate_ospa 1 inv det lsa [[Some X]] [[Some Y]] 1 1 true (Some Hellinger) true true = Ok ([r1], Hellinger, 1) /\
    calculate_ospa 1 inv det lsa [[Some Y]] [[Some Z]] 1 1 true (Some Hellinger) true true = Ok ([r2], Hellinger, 1) /\
    calculate_ospa 1 inv det lsa [[Some X]] [[Some Z]] 1 1 true (Some Hellinger) true true = Ok ([r3], Hellinger, 1) /\
    ospa_val r1 + ospa_val r2 < ospa_val r3.
Proof.
  intros inv det lsa L Hi Hd. set (a := sqrt (- (8 * ln (9 / 10)))). exists (gauss 0 1), (gauss a 1), (gauss (2 * a) 1).
  assert (G : forall x y, calculate_ospa 1 inv det lsa [[Some (gauss x 1)]] [[Some (gauss y 1)]] 1 1 true (Some Hellinger) true true = Ok ([(1 - bhatta x 1 y 1, 0)], Hellinger, 1)).
  { intros x y. destruct (bhatta_bounds x 1 y 1 ltac:(lra) ltac:(lra)) as [[B0 B1] _].
    destruct (step_ok 1 inv det lsa L Hellinger 1 1 true [Some (gauss x 1)] [Some (gauss y 1)]) as [v [V E]]; [cbn; lia|cbn; lia| |].
    { intros i j Hi' Hj'. cbn in Hi', Hj'. replace i with 0%nat by lia. replace j with 0%nat by lia. unfold dmat, dist_entry, nth. rewrite hell_value by (assumption || lra). discriminate. }
    change (count [Some (gauss x 1)]) with 1%nat in *. change (count [Some (gauss y 1)]) with 1%nat in *.
    assert (W : v = 1 - bhatta x 1 y 1).
    { rewrite (least_const _ _ _ _ (1 - bhatta x 1 y 1) V); [cbn; ring|]. intros i j Hi' Hj'. replace i with 0%nat by lia. replace j with 0%nat by lia. unfold dmat, dist_entry, nth. rewrite hell_value by (assumption || lra). unfold nan_min, val. rewrite Rmin_left by lra. ring. }
    unfold calculate_ospa. cbn [ospa_method]. assert (C1 : ospa_cut Hellinger 1 = 1) by (unfold ospa_cut; apply Rmin_left; lra). rewrite C1. cbn [combine mapM fst snd length Nat.ltb Nat.leb]. rewrite E, W. cbn [bind]. change (Nat.max 1 1) with 1%nat. change (absdiff 1 1) with 0%nat. cbn [INR].
    unfold Rdiv. rewrite Rinv_1, !Rmult_1_r, Rmult_0_r, root_0, root_1 by lra. reflexivity. }
  assert (La : ln (9 / 10) < 0) by (rewrite <- ln_1; apply ln_increasing; lra).
  assert (A2 : a * a = - (8 * ln (9 / 10))) by (unfold a; apply sqrt_sqrt; lra).
  assert (BV : forall x y, bhatta x 1 y 1 = exp (- ((x - y) ^ 2 / 8))).
  { intros x y. unfold bhatta. rewrite Rmult_1_r, sqrt_1. replace (2 * 1 / (1 + 1)) with 1 by field. rewrite sqrt_1, Rmult_1_l. do 3 f_equal. ring. }
  assert (Q : exp (ln (9 / 10)) = 9 / 10) by (apply exp_ln; lra).
  exists (1 - 9 / 10, 0), (1 - 9 / 10, 0), (1 - (9 / 10) * (9 / 10) * (9 / 10) * (9 / 10), 0). rewrite !G, !BV.
  replace (- ((0 - a) ^ 2 / 8)) with (ln (9 / 10)) by (replace ((0 - a) ^ 2) with (a * a) by ring; rewrite A2; field).
  replace (- ((a - 2 * a) ^ 2 / 8)) with (ln (9 / 10)) by (replace ((a - 2 * a) ^ 2) with (a * a) by ring; rewrite A2; field).
  replace (- ((0 - 2 * a) ^ 2 / 8)) with (ln (9 / 10) + ln (9 / 10) + ln (9 / 10) + ln (9 / 10)) by (replace ((0 - 2 * a) ^ 2) with (4 * (a * a)) by ring; rewrite A2; field).
  rewrite !exp_plus, Q. do 3 (split; [reflexivity|]). unfold ospa_val. cbn [fst snd]. lra.
Qed.
(** What holds in one dimension: the entry is 1 - BC, within [0, 1), symmetric,
    and 0 exactly for equal distributions. *)
Theorem C138_hellinger_scalar_partial : forall inv det x s y t, scalar_inv inv -> scalar_det det -> 0 < s -> 0 < t ->
  exists d, core 1 inv det Hellinger (gauss x s) (gauss y t) = Some d /\ core 1 inv det Hellinger (gauss y t) (gauss x s) = Some d /\
    d = 1 - sqrt (2 * sqrt (s * t) / (s + t)) * exp (- ((x - y) ^ 2 / (4 * (s + t)))) /\ 0 <= d < 1 /\ (d = 0 <-> x = y /\ s = t).
Proof.
  intros inv det x s y t Hi Hd Hs Ht. exists (1 - bhatta x s y t). destruct (bhatta_bounds x s y t Hs Ht) as [[B0 B1] [B2 B3]].
  rewrite !hell_value by assumption. split; [reflexivity|]. split; [rewrite B2; reflexivity|]. split; [reflexivity|]. split; [lra|].
  rewrite <- B3. split; lra.
Qed.
(** Contracts are satisfiable. *)
Example C138_contracts_ex : scalar_inv (fun M i j => / M i j) /\ scalar_det (fun M => M 0%nat 0%nat).
Proof. split; intros M; reflexivity. Qed.

Print Assumptions C136_order_p_triangle.
Print Assumptions C136_order_p_bounded.
Print Assumptions C137_reported_triangle_refuted.
Print Assumptions C137_relaxed_triangle_partial.
Print Assumptions C138_hellinger_triangle_refuted.
Print Assumptions C138_hellinger_scalar_partial.
(** The hypotheses of C136 and C137 hold together, with all three results Ok. *)
Example C136_hypotheses_ex : lsa_ok brute_lsa /\ norm_core (Some Euclidean) /\
  exists X Y Z r1 r2 r3 me, 0 < ospa_val r3 /\
    calculate_ospa 1 (fun A => A) (fun _ => 0) brute_lsa [X] [Y] 1 2 true (Some Euclidean) false false = Ok ([r1], me, 1) /\
    calculate_ospa 1 (fun A => A) (fun _ => 0) brute_lsa [Y] [Z] 1 2 true (Some Euclidean) false false = Ok ([r2], me, 1) /\
    calculate_ospa 1 (fun A => A) (fun _ => 0) brute_lsa [X] [Z] 1 2 true (Some Euclidean) false false = Ok ([r3], me, 1) /\
    prefix_slots X /\ prefix_slots Y /\ prefix_slots Z.
Proof.
  split; [exact brute_lsa_ok|]. split; [right; left; reflexivity|].
  destruct (step_ok 1 (fun A => A) (fun _ => 0) brute_lsa brute_lsa_ok Euclidean 1 2 true [Some (pt 0)] [Some (pt 0); Some (pt 1)]) as [v1 [V1 E1]]; [cbn; lia|cbn; lia|apply nonan_symm; left; reflexivity|].
  destruct (step_ok 1 (fun A => A) (fun _ => 0) brute_lsa brute_lsa_ok Euclidean 1 2 true [Some (pt 0); Some (pt 1)] [Some (pt 2); Some (pt 1); Some (pt 1)]) as [v2 [V2 E2]]; [cbn; lia|cbn; lia|apply nonan_symm; left; reflexivity|].
  destruct (step_ok 1 (fun A => A) (fun _ => 0) brute_lsa brute_lsa_ok Euclidean 1 2 true [Some (pt 0)] [Some (pt 2); Some (pt 1); Some (pt 1)]) as [v3 [V3 E3]]; [cbn; lia|cbn; lia|apply nonan_symm; left; reflexivity|].
  exists [Some (pt 0)], [Some (pt 0); Some (pt 1)], [Some (pt 2); Some (pt 1); Some (pt 1)].
  unfold calculate_ospa. cbn [ospa_method ospa_cut combine mapM fst snd length Nat.ltb Nat.leb]. rewrite E1, E2, E3. cbn [bind].
  do 4 eexists. split; [|split; [reflexivity|]; split; [reflexivity|]; split; [reflexivity|]; split; [exists [pt 0], 0%nat; reflexivity|split; [exists [pt 0; pt 1], 0%nat; reflexivity|exists [pt 2; pt 1; pt 1], 0%nat; reflexivity]]].
  unfold ospa_val. cbn [fst snd]. change (count [Some (pt 0)]) with 1%nat. change (count [Some (pt 2); Some (pt 1); Some (pt 1)]) with 3%nat. change (Nat.max 1 3) with 3%nat. change (absdiff 1 3) with 2%nat.
  assert (0 < 1 ^ 2 * INR 2 / INR 3) by (cbn; lra). pose proof (root_nonneg 2 (v3 / INR 3)). pose proof (root_nonneg 2 (1 ^ 2 * INR 2 / INR 3)) as [N|N]; [lra|]. exfalso.
  pose proof (pow_root 2 (1 ^ 2 * INR 2 / INR 3) ltac:(lia) ltac:(lra)) as Q. rewrite <- N in Q. cbn in Q. lra.
Qed.
