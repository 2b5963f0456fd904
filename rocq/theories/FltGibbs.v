(** Proofs about [gibbs] in IEEE double precision. *)
From Coq Require Import Reals ZArith Lra Lia Psatz.
From Flocq Require Import Core.
From Verif Require Import RBase GibbsModel GibbsProofs GibbsSpec FltModel FltSpec FltIeee FltGibbsModel.
Local Open Scope R_scope.

(** Rounded addition and division. *)
Definition add64 (x y : R) : R := rnd64 (x + y).
Definition div64 (x y : R) : R := rnd64 (x / y).

Lemma rnd64_mono x y : x <= y -> rnd64 x <= rnd64 y.
Proof. intros H. apply round_le; [exact valid64 | apply valid_rnd_N | exact H]. Qed.
Lemma rep64_0 : rep64 0.
Proof. split; [apply generic_format_0 | rewrite Rabs_R0; exact fmax64_pos]. Qed.
Lemma rep64_abs x : generic_format radix2 fexp64 x -> 0 <= x -> x <= 2 -> rep64 x.
Proof.
  intros H H0 H1. split; [exact H|]. rewrite Rabs_pos_eq by exact H0.
  eapply Rle_trans; [exact H1|]. eapply Rle_trans; [|exact two53_le_fmax].
  change 2 with (bpow radix2 1). apply bpow_le. lia.
Qed.
Lemma u64_pos : 0 < u64. Proof. apply bpow_gt_0. Qed.

Definition g (k : nat) : R := (1 + u64) ^ k.
Lemma g_pos k : 1 <= g k.
Proof. apply pow_R1_Rle. pose proof u64_pos. lra. Qed.
Lemma g_mono n m : (n <= m)%nat -> g n <= g m.
Proof. intros H. apply Rle_pow; [pose proof u64_pos; lra | exact H]. Qed.
Lemma g_S n : g (S n) = g n * (1 + u64).
Proof. unfold g. cbn [pow]. ring. Qed.
Lemma g_bound n : g n * (1 - INR n * u64) <= 1.
Proof.
  induction n as [|n IH]; [unfold g; cbn [pow INR]; lra|].
  rewrite g_S, S_INR. pose proof (g_pos n) as G. pose proof u64_pos as U. pose proof (pos_INR n) as P.
  assert (0 <= g n * (u64 * u64 * (INR n + 1))).
  { apply Rmult_le_pos; [lra|]. apply Rmult_le_pos; [apply Rmult_le_pos; lra|lra]. }
  replace (g n * (1 + u64) * (1 - (INR n + 1) * u64))
    with (g n * (1 - INR n * u64) - g n * (u64 * u64 * (INR n + 1))) by ring. lra.
Qed.

(** [v] is the real sum [S] up to [k] roundings. *)
Definition approx (k : nat) (S v : R) : Prop := rep64 v /\ 0 <= v /\ Rabs (v - S) <= (g k - 1) * S.

Lemma approx_weaken k m S v : (k <= m)%nat -> 0 <= S -> approx k S v -> approx m S v.
Proof.
  intros H HS [A [B C]]. split; [exact A|]. split; [exact B|]. eapply Rle_trans; [exact C|].
  apply Rmult_le_compat_r; [exact HS|]. pose proof (g_mono k m H). lra.
Qed.
Lemma approx_self x : rep64 x -> 0 <= x -> approx 0 x x.
Proof.
  intros H H0. split; [exact H|]. split; [exact H0|].
  replace (x - x) with 0 by ring. rewrite Rabs_R0. unfold g. cbn [pow]. lra.
Qed.
Lemma approx_le k S v : approx k S v -> v <= g k * S.
Proof. intros [_ [_ H]]. pose proof (Rle_abs (v - S)). lra. Qed.
Lemma approx_ge k S v : approx k S v -> (2 - g k) * S <= v.
Proof.
  intros [_ [_ H]]. pose proof (Rle_abs (- (v - S))) as A. rewrite Rabs_Ropp in A. lra.
Qed.

Lemma approx_add k S1 S2 v1 v2 : 0 <= S1 -> 0 <= S2 -> approx k S1 v1 -> approx k S2 v2 ->
  g k * (S1 + S2) <= fmax64 -> approx (S k) (S1 + S2) (add64 v1 v2).
Proof.
  intros H1 H2 A1 A2 HB. pose proof (approx_le _ _ _ A1) as L1. pose proof (approx_le _ _ _ A2) as L2.
  destruct A1 as [R1 [P1 E1]], A2 as [R2 [P2 E2]].
  destruct ieee64_rounds as [_ [_ [_ [Hadd _]]]].
  destruct (Hadd v1 v2 R1 R2 P1 P2) as [A [B [_ D]]]; [lra|]. cbn [fadd ieee64] in A, B, D.
  split; [exact A|]. split; [unfold add64; lra|]. unfold add64. rewrite g_S.
  replace (rnd64 (v1 + v2) - (S1 + S2)) with ((rnd64 (v1 + v2) - (v1 + v2)) + ((v1 - S1) + (v2 - S2))) by ring.
  eapply Rle_trans; [apply Rabs_triang|].
  pose proof (Rabs_triang (v1 - S1) (v2 - S2)) as T. pose proof u64_pos as U.
  assert (u64 * (v1 + v2) <= u64 * (g k * (S1 + S2))) by (apply Rmult_le_compat_l; lra).
  lra.
Qed.
Lemma add64_0 x : rep64 x -> add64 0 x = x.
Proof. intros H. unfold add64. rewrite Rplus_0_l. apply rnd_exact, H. Qed.

Section Bounds.
(** No overflow: at most [K] roundings, sums at most [B]. *)
Context (K : nat) (B : R) (HB : g K * B <= fmax64).
Definition nn (l : list R) := forall x, In x l -> rep64 x /\ 0 <= x.

Lemma rsum_app (a b : list R) : rsum (a ++ b) = rsum a + rsum b.
Proof.
  induction a as [|x a IH]; [change (rsum []) with 0; cbn [app]; ring|].
  cbn [app]. change (rsum (x :: a ++ b)) with (x + rsum (a ++ b)). change (rsum (x :: a)) with (x + rsum a).
  rewrite IH. ring.
Qed.
Lemma nn_sum l : nn l -> 0 <= rsum l.
Proof.
  induction l as [|x l IH]; intros H; [change (rsum []) with 0; lra|].
  change (rsum (x :: l)) with (x + rsum l).
  pose proof (proj2 (H x (or_introl eq_refl))). assert (0 <= rsum l) by (apply IH; intros y Hy; apply H; right; exact Hy). lra.
Qed.
Lemma nn_cons x l : nn (x :: l) -> rep64 x /\ 0 <= x /\ nn l.
Proof. intros H. split; [apply H; left; reflexivity|]. split; [apply H; left; reflexivity|]. intros y Hy. apply H. right. exact Hy. Qed.

Lemma add_step k S1 S2 v1 v2 : 0 <= S1 -> 0 <= S2 -> approx k S1 v1 -> approx k S2 v2 ->
  (k <= K)%nat -> S1 + S2 <= B -> approx (S k) (S1 + S2) (add64 v1 v2).
Proof.
  intros H1 H2 A1 A2 Hk HS. apply approx_add; try assumption.
  eapply Rle_trans; [|exact HB]. pose proof (g_pos k). pose proof (g_mono k K Hk).
  apply Rmult_le_compat; lra.
Qed.

Lemma fold_approx l : forall d S v, nn l -> 0 <= S -> approx d S v -> (d + length l <= K)%nat ->
  S + rsum l <= B -> approx (d + length l) (S + rsum l) (fold_left add64 l v).
Proof.
  induction l as [|x l IH]; intros d S v Hl HS Hv Hd HT; cbn [fold_left length].
  { change (rsum []) with 0. rewrite Nat.add_0_r, Rplus_0_r. exact Hv. }
  apply nn_cons in Hl as [Rx [Px Hl]]. pose proof (nn_sum l Hl) as P. cbn [length] in Hd.
  change (rsum (x :: l)) with (x + rsum l) in *.
  replace (d + Datatypes.S (length l))%nat with (Datatypes.S d + length l)%nat by lia.
  replace (S + (x + rsum l)) with ((S + x) + rsum l) by ring.
  apply IH; [exact Hl|lra| |lia|lra].
  apply add_step; [exact HS|exact Px|exact Hv| |lia|lra].
  eapply approx_weaken; [|exact Px|apply approx_self; assumption]. lia.
Qed.

Lemma sum8_approx n : forall l d r0 r1 r2 r3 r4 r5 r6 r7 S0 S1 S2 S3 S4 S5 S6 S7,
  (length l <= n)%nat -> nn l ->
  0 <= S0 -> 0 <= S1 -> 0 <= S2 -> 0 <= S3 -> 0 <= S4 -> 0 <= S5 -> 0 <= S6 -> 0 <= S7 ->
  approx d S0 r0 -> approx d S1 r1 -> approx d S2 r2 -> approx d S3 r3 ->
  approx d S4 r4 -> approx d S5 r5 -> approx d S6 r6 -> approx d S7 r7 ->
  (d + 3 + length l <= K)%nat -> S0 + S1 + S2 + S3 + S4 + S5 + S6 + S7 + rsum l <= B ->
  approx (d + 3 + length l) (S0 + S1 + S2 + S3 + S4 + S5 + S6 + S7 + rsum l)
    (sum8 add64 r0 r1 r2 r3 r4 r5 r6 r7 l).
Proof.
  induction n as [|n IH]; intros l d r0 r1 r2 r3 r4 r5 r6 r7 S0 S1 S2 S3 S4 S5 S6 S7 Hn Hl
    P0 P1 P2 P3 P4 P5 P6 P7 A0 A1 A2 A3 A4 A5 A6 A7 HK HS.
  all: pose proof (nn_sum l Hl) as Pl.
  all: assert (Base : approx (d + 3 + length l) (S0 + S1 + S2 + S3 + S4 + S5 + S6 + S7 + rsum l)
     (fold_left add64 l (add64 (add64 (add64 r0 r1) (add64 r2 r3)) (add64 (add64 r4 r5) (add64 r6 r7))))).
  1, 3: apply fold_approx; [exact Hl|lra| |exact HK|exact HS];
    replace (S0 + S1 + S2 + S3 + S4 + S5 + S6 + S7) with (((S0 + S1) + (S2 + S3)) + ((S4 + S5) + (S6 + S7))) by ring;
    replace (d + 3)%nat with (Datatypes.S (Datatypes.S (Datatypes.S d))) by lia;
    repeat (apply add_step; [lra|lra| | |lia|lra]); assumption.
  { destruct l; [|cbn [length] in Hn; lia]. exact Base. }
  destruct l as [|a0 [|a1 [|a2 [|a3 [|a4 [|a5 [|a6 [|a7 l']]]]]]]]; try exact Base. clear Base.
  cbn [sum8]. cbn [length] in HK, Hn.
  apply nn_cons in Hl as [R0' [Q0 Hl]]. apply nn_cons in Hl as [R1' [Q1 Hl]]. apply nn_cons in Hl as [R2' [Q2 Hl]].
  apply nn_cons in Hl as [R3' [Q3 Hl]]. apply nn_cons in Hl as [R4' [Q4 Hl]]. apply nn_cons in Hl as [R5' [Q5 Hl]].
  apply nn_cons in Hl as [R6' [Q6 Hl]]. apply nn_cons in Hl as [R7' [Q7 Hl]].
  pose proof (nn_sum l' Hl) as Pl'.
  assert (ES : rsum (a0 :: a1 :: a2 :: a3 :: a4 :: a5 :: a6 :: a7 :: l')
     = a0 + (a1 + (a2 + (a3 + (a4 + (a5 + (a6 + (a7 + rsum l')))))))) by reflexivity.
  rewrite ES in *.
  assert (HH : approx (Datatypes.S d + 3 + length l')
    ((S0 + a0) + (S1 + a1) + (S2 + a2) + (S3 + a3) + (S4 + a4) + (S5 + a5) + (S6 + a6) + (S7 + a7) + rsum l')
    (sum8 add64 (add64 r0 a0) (add64 r1 a1) (add64 r2 a2) (add64 r3 a3) (add64 r4 a4) (add64 r5 a5) (add64 r6 a6) (add64 r7 a7) l')).
  { assert (St : forall S r a, 0 <= S -> 0 <= a -> rep64 a -> approx d S r -> S + a <= B -> approx (Datatypes.S d) (S + a) (add64 r a)).
    { intros S r a HS' Ha Ra Ar HB'. apply add_step; try assumption; [|lia].
      eapply approx_weaken; [|exact Ha|apply approx_self; assumption]. lia. }
    apply IH; try lra; try lia; try assumption; apply St; try assumption; lra. }
  cbn [length]. eapply approx_weaken in HH; [|shelve|lra].
  replace (S0 + S1 + S2 + S3 + S4 + S5 + S6 + S7 + (a0 + (a1 + (a2 + (a3 + (a4 + (a5 + (a6 + (a7 + rsum l'))))))))) with
    ((S0 + a0) + (S1 + a1) + (S2 + a2) + (S3 + a3) + (S4 + a4) + (S5 + a5) + (S6 + a6) + (S7 + a7) + rsum l') by ring.
  exact HH. Unshelve. lia.
Qed.

Lemma sum_block_approx l : nn l -> (length l <= K)%nat -> rsum l <= B ->
  approx (length l) (rsum l) (sum_block 0 add64 l).
Proof.
  intros Hl HK HS.
  assert (Base : approx (length l) (rsum l) (fold_left add64 l 0)).
  { rewrite <- (Rplus_0_l (rsum l)). rewrite <- (Nat.add_0_l (length l)).
    apply fold_approx; [exact Hl|lra|apply approx_self; [exact rep64_0|lra]|lia|lra]. }
  destruct l as [|a0 [|a1 [|a2 [|a3 [|a4 [|a5 [|a6 [|a7 l']]]]]]]]; try exact Base. clear Base.
  cbn [sum_block]. cbn [length] in HK.
  apply nn_cons in Hl as [R0' [Q0 Hl]]. apply nn_cons in Hl as [R1' [Q1 Hl]]. apply nn_cons in Hl as [R2' [Q2 Hl]].
  apply nn_cons in Hl as [R3' [Q3 Hl]]. apply nn_cons in Hl as [R4' [Q4 Hl]]. apply nn_cons in Hl as [R5' [Q5 Hl]].
  apply nn_cons in Hl as [R6' [Q6 Hl]]. apply nn_cons in Hl as [R7' [Q7 Hl]].
  pose proof (nn_sum l' Hl) as Pl'.
  assert (ES : rsum (a0 :: a1 :: a2 :: a3 :: a4 :: a5 :: a6 :: a7 :: l')
     = a0 + a1 + a2 + a3 + a4 + a5 + a6 + a7 + rsum l').
  { transitivity (a0 + (a1 + (a2 + (a3 + (a4 + (a5 + (a6 + (a7 + rsum l')))))))); [reflexivity|ring]. }
  rewrite ES in *. cbn [length].
  apply approx_weaken with (0 + 3 + length l')%nat; [lia|lra|].
  apply (sum8_approx (length l')); try lra; try lia; try assumption; apply approx_self; assumption.
Qed.

Lemma pairwise_approx fuel : forall l, nn l -> (length l <= K)%nat -> rsum l <= B ->
  approx (length l) (rsum l) (pairwise 0 add64 fuel l).
Proof.
  induction fuel as [|fuel IH]; intros l Hl HK HS; cbn [pairwise]; [apply sum_block_approx; assumption|].
  destruct (Nat.leb_spec (length l) 128) as [H|H]; [apply sum_block_approx; assumption|]. cbn zeta.
  set (n2 := (length l / 2 - (length l / 2) mod 8)%nat).
  assert (Hn : (1 <= n2 < length l)%nat).
  { unfold n2. pose proof (Nat.mod_upper_bound (length l / 2) 8 ltac:(lia)).
    pose proof (Nat.div_mod (length l) 2 ltac:(lia)). pose proof (Nat.mod_upper_bound (length l) 2 ltac:(lia)). lia. }
  clearbody n2. pose proof (firstn_skipn n2 l) as E.
  assert (H1 : nn (firstn n2 l)) by (intros x Hx; apply Hl; rewrite <- E; apply in_or_app; left; exact Hx).
  assert (H2 : nn (skipn n2 l)) by (intros x Hx; apply Hl; rewrite <- E; apply in_or_app; right; exact Hx).
  assert (ES : rsum l = rsum (firstn n2 l) + rsum (skipn n2 l)) by (rewrite <- rsum_app, E; reflexivity).
  pose proof (nn_sum _ H1) as P1. pose proof (nn_sum _ H2) as P2.
  assert (L1 : length (firstn n2 l) = n2) by (apply firstn_length_le; lia).
  assert (L2 : length (skipn n2 l) = (length l - n2)%nat) by apply skipn_length.
  rewrite ES. replace (length l) with (Datatypes.S (length l - 1)) by lia.
  apply add_step; [exact P1|exact P2| | |lia|lra].
  - apply approx_weaken with (length (firstn n2 l)); [lia|exact P1|]. apply IH; [exact H1|lia|lra].
  - apply approx_weaken with (length (skipn n2 l)); [lia|exact P2|]. apply IH; [exact H2|lia|lra].
Qed.

(** np.cumsum. *)
Lemma fcum_length acc l : length (fcum_from add64 acc l) = length l.
Proof. revert acc. induction l as [|x l IH]; intros acc; cbn [fcum_from length]; [reflexivity|cbn zeta; cbn [length]; f_equal; apply IH]. Qed.
Lemma fcum_approx l : forall d S v, nn l -> 0 <= S -> approx d S v -> (d + length l <= K)%nat -> S + rsum l <= B ->
  forall i, (i < length l)%nat -> approx (d + Datatypes.S i) (S + rsum (firstn (Datatypes.S i) l)) (nth i (fcum_from add64 v l) 0).
Proof.
  induction l as [|x l IH]; intros d S v Hl HS Hv Hd HT i Hi; cbn [length] in *; [lia|].
  apply nn_cons in Hl as [Rx [Px Hl]]. pose proof (nn_sum l Hl) as P.
  change (rsum (x :: l)) with (x + rsum l) in HT. cbn [fcum_from]. cbn zeta.
  assert (A : approx (Datatypes.S d) (S + x) (add64 v x)).
  { apply add_step; [exact HS|exact Px|exact Hv| |lia|lra].
    eapply approx_weaken; [|exact Px|apply approx_self; assumption]. lia. }
  destruct i as [|i].
  - cbn [nth firstn]. change (rsum [x]) with (x + 0). rewrite Rplus_0_r.
    replace (d + 1)%nat with (Datatypes.S d) by lia. exact A.
  - cbn [nth]. cbn [firstn]. change (rsum (x :: ?r)) with (x + rsum r).
    replace (d + Datatypes.S (Datatypes.S i))%nat with (Datatypes.S d + Datatypes.S i)%nat by lia.
    change (rsum (x :: match l with [] => [] | a :: l0 => a :: firstn i l0 end)) with (x + rsum (firstn (Datatypes.S i) l)).
    rewrite <- Rplus_assoc. apply IH; [exact Hl|lra|exact A|lia|lra|lia].
Qed.
Lemma cumsum_length l : length (fcumsum add64 l) = length l.
Proof. destruct l; cbn [fcumsum length]; [reflexivity|]. f_equal. apply fcum_length. Qed.
Lemma cumsum_approx l : nn l -> (length l <= K)%nat -> rsum l <= B ->
  forall i, (i < length l)%nat -> approx (length l) (rsum (firstn (S i) l)) (nth i (fcumsum add64 l) 0).
Proof.
  intros Hl HK HS i Hi. destruct l as [|x l]; cbn [length] in *; [lia|].
  apply nn_cons in Hl as [Rx [Px Hl]]. change (rsum (x :: l)) with (x + rsum l) in HS.
  cbn [fcumsum]. destruct i as [|i]; cbn [nth].
  - cbn [firstn]. change (rsum [x]) with (x + 0). rewrite Rplus_0_r.
    eapply approx_weaken; [|exact Px|apply approx_self; assumption]. lia.
  - change (rsum (firstn (S (S i)) (x :: l))) with (x + rsum (firstn (S i) l)).
    apply approx_weaken with (0 + S i)%nat; [lia| |].
    + assert (0 <= rsum (firstn (S i) l)).
      { apply nn_sum. intros y Hy. apply Hl. rewrite <- (firstn_skipn (S i) l). apply in_or_app. left. exact Hy. }
      lra.
    + apply (fcum_approx l 0 x x); [exact Hl|exact Px|apply approx_self; assumption|lia|exact HS|lia].
Qed.
(** Running sums do not decrease. *)
Lemma fcum_mono l : forall d S v, nn l -> 0 <= S -> approx d S v -> (d + length l <= K)%nat -> S + rsum l <= B ->
  forall i, (i < length l)%nat -> nth i (v :: fcum_from add64 v l) 0 <= nth i (fcum_from add64 v l) 0.
Proof.
  induction l as [|x l IH]; intros d S v Hl HS Hv Hd HT i Hi; cbn [length] in *; [lia|].
  apply nn_cons in Hl as [Rx [Px Hl]]. pose proof (nn_sum l Hl) as P.
  change (rsum (x :: l)) with (x + rsum l) in HT. cbn [fcum_from]. cbn zeta.
  assert (A : approx (Datatypes.S d) (S + x) (add64 v x)).
  { apply add_step; [exact HS|exact Px|exact Hv| |lia|lra].
    eapply approx_weaken; [|exact Px|apply approx_self; assumption]. lia. }
  destruct i as [|i].
  - cbn [nth]. unfold add64. apply round_ge_generic; [exact valid64|apply valid_rnd_N|apply Hv|lra].
  - change (nth (Datatypes.S i) (v :: add64 v x :: fcum_from add64 (add64 v x) l) 0)
      with (nth i (add64 v x :: fcum_from add64 (add64 v x) l) 0).
    change (nth (Datatypes.S i) (add64 v x :: fcum_from add64 (add64 v x) l) 0)
      with (nth i (fcum_from add64 (add64 v x) l) 0).
    apply (IH (Datatypes.S d) (S + x)); [exact Hl|lra|exact A|lia|lra|lia].
Qed.
Lemma cumsum_mono l : nn l -> (length l <= K)%nat -> rsum l <= B ->
  forall i, (S i < length l)%nat -> nth i (fcumsum add64 l) 0 <= nth (S i) (fcumsum add64 l) 0.
Proof.
  intros Hl HK HS i Hi. destruct l as [|x l]; cbn [length] in *; [lia|].
  apply nn_cons in Hl as [Rx [Px Hl]]. change (rsum (x :: l)) with (x + rsum l) in HS. cbn [fcumsum].
  change (nth (S i) (x :: fcum_from add64 x l) 0) with (nth i (fcum_from add64 x l) 0).
  apply (fcum_mono l 0 x x); [exact Hl|exact Px|apply approx_self; assumption|lia|exact HS|lia].
Qed.
End Bounds.

(** Up to seven numbers are added in the same order by np.sum and np.cumsum. *)
Lemma fcum_last l : forall v, last (fcum_from add64 v l) v = fold_left add64 l v.
Proof.
  induction l as [|x l IH]; intros v; [reflexivity|]. cbn [fcum_from fold_left]. cbn zeta.
  rewrite <- IH. destruct l as [|y l]; [reflexivity|]. cbn [fcum_from]. cbn zeta.
  set (a := add64 (add64 v x) y). change (last (add64 v x :: a :: fcum_from add64 a l) v) with (last (a :: fcum_from add64 a l) v).
  clearbody a. generalize (fcum_from add64 a l) as t. generalize (add64 v x). intros w t.
  revert a. induction t as [|b t IHt]; intros a; [reflexivity|].
  change (last (a :: b :: t) v) with (last (b :: t) v). change (last (a :: b :: t) w) with (last (b :: t) w). apply IHt.
Qed.
Lemma last_nth' (l : list R) d : l <> [] -> last l d = nth (length l - 1) l 0.
Proof.
  induction l as [|x [|y l] IH]; intros H; [congruence|reflexivity|].
  change (last (x :: y :: l) d) with (last (y :: l) d). rewrite IH by discriminate.
  cbn [length]. replace (S (S (length l)) - 1)%nat with (S (S (length l) - 1)) by lia. reflexivity.
Qed.
Lemma short_sum l : l <> [] -> (length l < 8)%nat -> nn l -> np_sum 0 add64 l = nth (length l - 1) (fcumsum add64 l) 0.
Proof.
  intros Hne HL Hl. unfold np_sum.
  assert (E : pairwise 0 add64 (length l) l = fold_left add64 l 0).
  { destruct l as [|x l]; [congruence|]. cbn [length pairwise]. cbn [length] in HL.
    replace (S (length l) <=? 128)%nat with true by (symmetry; apply Nat.leb_le; lia).
    unfold sum_block. destruct l as [|a1 [|a2 [|a3 [|a4 [|a5 [|a6 [|a7 l']]]]]]]; try reflexivity. cbn [length] in HL. lia. }
  rewrite E. destruct l as [|x l]; [congruence|]. apply nn_cons in Hl as [Rx _]. cbn [fold_left]. rewrite add64_0 by exact Rx.
  rewrite <- fcum_last. cbn [fcumsum length]. rewrite Nat.sub_succ, Nat.sub_0_r.
  destruct l as [|y l]; [reflexivity|]. rewrite last_nth' by (cbn [fcum_from]; discriminate).
  rewrite fcum_length. cbn [length]. rewrite Nat.sub_succ, Nat.sub_0_r. reflexivity.
Qed.
