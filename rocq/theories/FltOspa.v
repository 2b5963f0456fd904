(** Proofs about OSPA in double precision. *)
From Coq Require Import Reals ZArith Lra Lia Psatz List.
From Flocq Require Import Core Relative.
From Verif Require Import RBase OspaModel OspaSpec OspaProofs FltModel FltSpec FltIeee FltGibbsModel FltGibbs FltGibbsDraw FltGibbsProps FltNear FltOspaModel FltOspaSpec.
Local Open Scope R_scope.

Notation bp := (bpow radix2).
Lemma bp_le a b : (a <= b)%Z -> bp a <= bp b. Proof. apply bpow_le. Qed.
Lemma bp_dbl a : bp (a + 1) = 2 * bp a.
Proof. rewrite bpow_plus. change (bp 1) with 2. ring. Qed.
Lemma fmax_ge e : (e <= 1003)%Z -> bp e <= fmax64.
Proof. intros H. apply Rle_trans with (bp 1003); [apply bp_le, H|exact fmax64_big]. Qed.

Lemma rsumn_rsum n f : rsumn n f = RBase.rsum (map f (seq 0 n)).
Proof.
  induction n as [|n IH]; [reflexivity|]. rewrite seq_S, map_app. cbn [rsumn map plus]. rewrite FltGibbs.rsum_app, IH.
  change (RBase.rsum [f n]) with (f n + 0). ring.
Qed.
Lemma rsum_zero_or (b : R) l : (forall x, In x l -> x = 0 \/ b <= x) -> 0 <= b -> RBase.rsum l = 0 \/ b <= RBase.rsum l.
Proof.
  intros H Hb. induction l as [|x l IH]; [left; reflexivity|]. change (RBase.rsum (x :: l)) with (x + RBase.rsum l).
  assert (P : 0 <= RBase.rsum l).
  { apply OspaProofs.rsum_nonneg. intros y Hy. destruct (H y (or_intror Hy)); lra. }
  destruct (H x (or_introl eq_refl)) as [->|Hx]; [|right; lra].
  destruct IH as [E|E]; [intros y Hy; apply H; right; exact Hy|left; lra|right; lra].
Qed.
Lemma rsum_le_const (B : R) l : (forall x, In x l -> x <= B) -> RBase.rsum l <= INR (length l) * B.
Proof.
  induction l as [|x l IH]; intros H; [change (RBase.rsum []) with 0; cbn [length INR]; lra|].
  change (RBase.rsum (x :: l)) with (x + RBase.rsum l). cbn [length]. rewrite S_INR.
  pose proof (H x (or_introl eq_refl)). assert (RBase.rsum l <= INR (length l) * B) by (apply IH; intros y Hy; apply H; right; exact Hy). lra.
Qed.
Lemma near_sqrt k x y : 0 <= x -> 0 <= y -> near k x y -> near k (sqrt x) (sqrt y).
Proof.
  assert (A : forall x y, 0 <= x -> 0 <= y -> x <= y * g k -> sqrt x <= sqrt y * g k).
  { clear x y. intros x y Hx Hy H. pose proof (g_pos k) as G. apply Rle_trans with (sqrt (y * g k)); [apply sqrt_le_1_alt, H|].
    rewrite sqrt_mult by lra. apply Rmult_le_compat_l; [apply sqrt_pos|].
    rewrite <- (sqrt_Rsqr (g k)) at 2 by lra. apply sqrt_le_1_alt. unfold Rsqr.
    rewrite <- (Rmult_1_r (g k)) at 1. apply Rmult_le_compat_l; lra. }
  intros Hx Hy [H1 H2]. split; apply A; assumption.
Qed.
Lemma near_bounds k x y lo hi : INR k * u64 <= / 4 -> near k x y -> 0 <= lo -> lo <= y <= hi -> lo / 2 <= x <= 2 * hi.
Proof.
  intros Hk [A B] Hlo [L H]. pose proof (g_le_2 k Hk) as G. pose proof (g_pos k) as G1. split.
  - destruct (Rle_dec (lo / 2) x) as [|N]; [assumption|]. exfalso.
    assert (0 <= x) by (apply near_nonneg_l with k y; [lra|split; assumption]).
    assert (x * g k <= x * 2) by (apply Rmult_le_compat_l; lra). lra.
  - apply Rle_trans with (y * g k); [exact A|]. apply Rle_trans with (y * 2); [apply Rmult_le_compat_l; lra|lra].
Qed.
Lemma bpow_half e : bp e / 2 = bp (e - 1).
Proof. replace e with (e - 1 + 1)%Z at 1 by lia. rewrite bp_dbl. field. Qed.
Lemma bpow_pair a b : bp a * bp b = bp (a + b).
Proof. symmetry. apply bpow_plus. Qed.
Lemma rep64_rabs_rnd x : Rabs x <= bp 1000 -> rep64 (rnd64 x).
Proof.
  intros H. pose proof (fmax_ge 1000 ltac:(lia)) as M. destruct (Rle_dec 0 x) as [P|N].
  - apply rnd_rep; [exact P|]. rewrite Rabs_pos_eq in H by exact P. lra.
  - split; [apply generic_format_round; [exact valid64|apply valid_rnd_N]|].
    rewrite Rabs_left1 in H by lra.
    assert (F : generic_format radix2 fexp64 (- bp 1000)) by (apply generic_format_opp, bpow_format; lia).
    assert (rnd64 x <= 0) by (apply rnd_le; [apply generic_format_0|lra]).
    rewrite Rabs_left1 by assumption. pose proof (rnd_ge (- bp 1000) x F ltac:(lra)). lra.
Qed.
Lemma rep64_rabs x : rep64 x -> rep64 (Rabs x).
Proof. intros [A B]. split; [apply generic_format_abs, A|]. rewrite Rabs_Rabsolu. exact B. Qed.

Section Core.
Context (dim : nat) (asum : list R -> R) (Hsum : good_sum asum) (inv : rmat -> rmat) (det : rmat -> R).
Context (Hdim : INR (8 + 2 * dim) * u64 <= / 4).

Lemma dim_u : INR dim * u64 <= / 4.
Proof.
  eapply Rle_trans; [|exact Hdim]. apply Rmult_le_compat_r; [apply u64_nonneg|]. apply le_INR. lia.
Qed.
Lemma dim_51 : INR dim <= bp 51.
Proof.
  apply Rmult_le_reg_r with u64; [exact u64_pos|]. eapply Rle_trans; [exact dim_u|]. unfold u64. rewrite bpow_pair.
  apply Rle_trans with (bp (-2)); [cbn; lra|apply bp_le; lia].
Qed.

Lemma core64_near me p x y : symm me -> float_state dim x -> float_state dim y ->
  moderate_pair dim (val (core dim inv det me x y)) p x y ->
  exists d v, core dim inv det me x y = Some d /\ core64 dim asum me x y = Some v /\ 0 <= d /\ rep64 v /\ 0 <= v /\ near (8 + 2 * dim) v d.
Proof.
  intros Hs Fx Fy [Hd _].
  assert (Hdiff : forall i, (i < dim)%nat -> near 2 (Rabs (sub64 (st y i) (st x i))) (Rabs (st y i - st x i)) /\
     (Rabs (st y i - st x i) = 0 \/ bp (-400) <= Rabs (st y i - st x i)) /\ Rabs (st y i - st x i) <= bp 400 /\
     rep64 (Rabs (sub64 (st y i) (st x i)))).
  { intros i Hi. pose proof (rnd_diff _ _ (Fy i Hi) (Fx i Hi)) as N. split; [exact N|].
    assert (B : Rabs (st y i - st x i) <= bp 400).
    { rewrite Rabs_minus_sym. destruct (Hd i Hi) as [E|[_ E]]; [|exact E]. rewrite E, Rminus_diag_eq, Rabs_R0 by reflexivity. apply bpow_ge_0. }
    split; [|split; [exact B|]].
    - rewrite Rabs_minus_sym. destruct (Hd i Hi) as [E|[E _]]; [left; rewrite E, Rminus_diag_eq by reflexivity; apply Rabs_R0|right; exact E].
    - apply rep64_rabs. unfold sub64. apply rep64_rabs_rnd. eapply Rle_trans; [exact B|apply bp_le; lia]. }
  destruct me; try (exfalso; destruct Hs; discriminate).
  - (* Manhattan *)
    set (l64 := map (fun i => Rabs (sub64 (st y i) (st x i))) (seq 0 dim)).
    set (l := map (fun i => Rabs (st y i - st x i)) (seq 0 dim)).
    assert (Hnn : nn l64).
    { intros v Hv. apply in_map_iff in Hv as [i [<- Hi]]. apply in_seq in Hi. split; [apply Hdiff; lia|apply Rabs_pos]. }
    assert (Hlen : length l64 = dim) by (unfold l64; now rewrite map_length, seq_length).
    assert (Hn : near 2 (RBase.rsum l64) (RBase.rsum l)).
    { apply near_rsum. intros i Hi. apply in_seq in Hi. apply Hdiff. lia. }
    assert (Hb : RBase.rsum l <= bp 451).
    { apply Rle_trans with (INR (length l) * bp 400).
      - apply rsum_le_const. intros v Hv. apply in_map_iff in Hv as [i [<- Hi]]. apply in_seq in Hi. apply Hdiff. lia.
      - unfold l. rewrite map_length, seq_length. replace (bp 451) with (bp 51 * bp 400) by (rewrite bpow_pair; reflexivity).
        apply Rmult_le_compat_r; [apply bpow_ge_0|exact dim_51]. }
    assert (Hb64 : RBase.rsum l64 <= 2 * bp 451).
    { apply (near_bounds 2 _ (RBase.rsum l) 0 (bp 451)); [pose proof u64_small; cbn [INR]; lra|exact Hn|lra|].
      split; [|exact Hb]. apply OspaProofs.rsum_nonneg. intros v Hv. apply in_map_iff in Hv as [i [<- _]]. apply Rabs_pos. }
    assert (Ha : approx dim (RBase.rsum l64) (asum l64)).
    { rewrite <- Hlen. apply Hsum; [exact Hnn|rewrite Hlen; exact dim_u|].
      pose proof (fmax_ge 453 ltac:(lia)). replace 453%Z with (451 + 1 + 1)%Z in H by lia. rewrite !bp_dbl in H. lra. }
    exists (rsumn dim (fun i => Rabs (st y i - st x i))), (asum l64).
    split; [reflexivity|]. split; [reflexivity|]. rewrite rsumn_rsum. fold l.
    assert (P : 0 <= RBase.rsum l) by (apply OspaProofs.rsum_nonneg; intros v Hv; apply in_map_iff in Hv as [i [<- _]]; apply Rabs_pos).
    split; [exact P|]. split; [apply Ha|]. split; [apply Ha|].
    apply near_weaken with (2 * dim + 2)%nat; [lia|apply Ha|exact P|].
    eapply near_trans; [apply near_approx; [apply nn_sum, Hnn|exact dim_u|exact Ha]|exact Hn].
  - (* Euclidean *)
    set (l64 := map (fun i => mul64 (sub64 (st y i) (st x i)) (sub64 (st y i) (st x i))) (seq 0 dim)).
    set (l := map (fun i => (st y i - st x i) ^ 2) (seq 0 dim)).
    assert (Hsq : forall i, (i < dim)%nat -> near 6 (mul64 (sub64 (st y i) (st x i)) (sub64 (st y i) (st x i))) ((st y i - st x i) ^ 2) /\
      rep64 (mul64 (sub64 (st y i) (st x i)) (sub64 (st y i) (st x i))) /\
      ((st y i - st x i) ^ 2 = 0 \/ bp (-800) <= (st y i - st x i) ^ 2) /\ (st y i - st x i) ^ 2 <= bp 800).
    { intros i Hi. destruct (Hdiff i Hi) as [N [Z [B _]]]. set (a := sub64 (st y i) (st x i)) in *. set (e := st y i - st x i) in *. clearbody a e.
      assert (E2 : e ^ 2 = Rabs e * Rabs e) by (rewrite <- Rabs_mult, Rabs_pos_eq; [ring|apply Rle_0_sqr]).
      assert (A2 : a * a = Rabs a * Rabs a) by (rewrite <- Rabs_mult, Rabs_pos_eq; [ring|apply Rle_0_sqr]).
      assert (N4 : near 4 (a * a) (e ^ 2)).
      { rewrite E2, A2. apply (near_mult 2 2); try apply Rabs_pos; exact N. }
      assert (U : e ^ 2 <= bp 800).
      { rewrite E2. replace (bp 800) with (bp 400 * bp 400) by (rewrite bpow_pair; reflexivity). apply Rmult_le_compat; try apply Rabs_pos; exact B. }
      assert (P : 0 <= e ^ 2) by (rewrite E2; apply Rmult_le_pos; apply Rabs_pos).
      assert (U4 : INR 4 * u64 <= / 4).
      { unfold u64. replace (INR 4) with (bp 2) by (cbn; lra). rewrite bpow_pair. apply Rle_trans with (bp (-2)); [apply bp_le; lia|cbn; lra]. }
      destruct Z as [Z|Z].
      - assert (E0 : e ^ 2 = 0) by (rewrite E2, Z; ring). rewrite E0 in N4 |- *.
        assert (A0 : a * a = 0). { apply near_sym in N4. apply near_0 with 4%nat; [exact N4|apply Rle_0_sqr]. }
        unfold mul64. rewrite A0, rnd_0. split; [apply near_00|]. split; [apply rep64_0|]. split; [left; reflexivity|apply bpow_ge_0].
      - assert (L : bp (-800) <= e ^ 2).
        { rewrite E2. replace (bp (-800)) with (bp (-400) * bp (-400)) by (rewrite bpow_pair; reflexivity).
          apply Rmult_le_compat; try apply bpow_ge_0; exact Z. }
        destruct (near_bounds 4 (a * a) (e ^ 2) (bp (-800)) (bp 800) U4 N4 (bpow_ge_0 _ _) (conj L U)) as [L' U'].
        rewrite bpow_half in L'. rewrite <- bp_dbl in U'.
        split; [|split; [|split; [right; exact L|exact U]]].
        + apply (near_trans 2 4 _ (a * a)); [|exact N4]. apply rnd_normal. eapply Rle_trans; [|exact L']. apply bp_le; lia.
        + apply rnd_rep; [apply Rle_0_sqr|]. eapply Rle_trans; [exact U'|apply fmax_ge; lia]. }
    assert (Hnn : nn l64).
    { intros v Hv. apply in_map_iff in Hv as [i [<- Hi]]. apply in_seq in Hi. split; [apply Hsq; lia|].
      apply rnd_ge; [apply generic_format_0|apply Rle_0_sqr]. }
    assert (Hlen : length l64 = dim) by (unfold l64; now rewrite map_length, seq_length).
    assert (Hn : near 6 (RBase.rsum l64) (RBase.rsum l)).
    { apply near_rsum. intros i Hi. apply in_seq in Hi. apply Hsq. lia. }
    assert (P : 0 <= RBase.rsum l) by (apply OspaProofs.rsum_nonneg; intros v Hv; apply in_map_iff in Hv as [i [<- _]]; apply pow2_ge_0).
    assert (Hb : RBase.rsum l <= bp 851).
    { apply Rle_trans with (INR (length l) * bp 800).
      - apply rsum_le_const. intros v Hv. apply in_map_iff in Hv as [i [<- Hi]]. apply in_seq in Hi. apply Hsq. lia.
      - unfold l. rewrite map_length, seq_length. replace (bp 851) with (bp 51 * bp 800) by (rewrite bpow_pair; reflexivity).
        apply Rmult_le_compat_r; [apply bpow_ge_0|exact dim_51]. }
    assert (Hz : RBase.rsum l = 0 \/ bp (-800) <= RBase.rsum l).
    { apply rsum_zero_or; [|apply bpow_ge_0]. intros v Hv. apply in_map_iff in Hv as [i [<- Hi]]. apply in_seq in Hi. apply Hsq. lia. }
    assert (U6 : INR 6 * u64 <= / 4).
    { unfold u64. apply Rle_trans with (bp 3 * bp (-53)); [apply Rmult_le_compat_r; [apply bpow_ge_0|cbn; lra]|].
      rewrite bpow_pair. apply Rle_trans with (bp (-2)); [apply bp_le; lia|cbn; lra]. }
    assert (Hb64 : RBase.rsum l64 <= bp 852).
    { change 852%Z with (851 + 1)%Z. rewrite bp_dbl. apply (near_bounds 6 _ (RBase.rsum l) 0 (bp 851)); [exact U6|exact Hn|lra|]. split; assumption. }
    assert (Ha : approx dim (RBase.rsum l64) (asum l64)).
    { rewrite <- Hlen. apply Hsum; [exact Hnn|rewrite Hlen; exact dim_u|].
      pose proof (fmax_ge 853 ltac:(lia)). replace 853%Z with (852 + 1)%Z in H by lia. rewrite bp_dbl in H. lra. }
    assert (Ns : near (2 * dim + 6) (asum l64) (RBase.rsum l)).
    { eapply near_trans; [apply near_approx; [apply nn_sum, Hnn|exact dim_u|exact Ha]|exact Hn]. }
    assert (Pa : 0 <= asum l64) by apply Ha.
    assert (Nq : near (2 * dim + 6) (sqrt (asum l64)) (sqrt (RBase.rsum l))) by (apply near_sqrt; assumption).
    exists (sqrt (rsumn dim (fun i => (st y i - st x i) ^ 2))), (sqrt64 (asum l64)).
    split; [reflexivity|]. split; [reflexivity|]. rewrite rsumn_rsum. fold l. split; [apply sqrt_pos|].
    assert (Hu : INR (2 * dim + 6) * u64 <= / 4).
    { eapply Rle_trans; [|exact Hdim]. apply Rmult_le_compat_r; [apply u64_nonneg|apply le_INR; lia]. }
    destruct Hz as [Z|Z].
    + rewrite Z in *. assert (Z6 : asum l64 = 0) by (apply near_sym in Ns; apply near_0 in Ns; assumption).
      unfold sqrt64. rewrite Z6, sqrt_0, rnd_0. split; [apply rep64_0|]. split; [lra|apply near_00].
    + destruct (near_bounds _ _ _ _ _ Hu Ns (bpow_ge_0 radix2 (-800)) (conj Z Hb)) as [L U].
      rewrite bpow_half in L. rewrite <- bp_dbl in U.
      assert (SL : bp (-401) <= sqrt (asum l64)).
      { rewrite <- (sqrt_Rsqr (bp (-401))) by apply bpow_ge_0. apply sqrt_le_1_alt. unfold Rsqr. rewrite bpow_pair.
        eapply Rle_trans; [|exact L]. apply bp_le; lia. }
      assert (SU : sqrt (asum l64) <= bp 426).
      { rewrite <- (sqrt_Rsqr (bp 426)) by apply bpow_ge_0. apply sqrt_le_1_alt. unfold Rsqr. rewrite bpow_pair. exact U. }
      assert (Rr : rep64 (sqrt64 (asum l64))).
      { apply rnd_rep; [apply sqrt_pos|]. eapply Rle_trans; [exact SU|apply fmax_ge; lia]. }
      split; [exact Rr|]. split; [apply rnd_ge; [apply generic_format_0|apply sqrt_pos]|].
      replace (8 + 2 * dim)%nat with (2 + (2 * dim + 6))%nat by lia. eapply near_trans; [|exact Nq].
      apply rnd_normal. eapply Rle_trans; [|exact SL]. apply bp_le; lia.
Qed.
End Core.
