(** One time step of OSPA in double precision. *)
From Coq Require Import Reals ZArith Lra Lia Psatz List.
From Flocq Require Import Core Relative.
From Verif Require Import RBase OspaModel OspaSpec OspaProofs FltModel FltSpec FltIeee FltGibbsModel FltGibbs FltGibbsDraw FltGibbsProps FltNear FltOspaModel FltOspaSpec FltOspa.
Local Open Scope R_scope.

Lemma rpower_range x q : bp (-1000) <= x <= bp 1000 -> 0 < q <= 1 -> bp (-1000) <= Rpower x q <= bp 1000.
Proof.
  intros [H1 H2] Hq. assert (Hx : 0 < x) by (pose proof (bpow_gt_0 radix2 (-1000)); lra).
  assert (M : forall a b, 0 < a -> a <= b -> ln a <= ln b).
  { intros a b Ha [L|E]; [left; apply ln_increasing; assumption|subst; lra]. }
  assert (EM : forall a b, a <= b -> exp a <= exp b) by (intros a b [L|E]; [left; apply exp_increasing, L|subst; lra]).
  assert (X : x = exp (ln x)) by (symmetry; apply exp_ln, Hx).
  assert (L0 : ln (bp 0) = 0) by (apply ln_1).
  pose proof (M _ _ (bpow_gt_0 radix2 (-1000)) H1) as B1. pose proof (M _ _ Hx H2) as B2.
  assert (N1 : ln (bp (-1000)) <= 0) by (rewrite <- L0; apply M; [apply bpow_gt_0|apply bp_le; lia]).
  assert (N2 : 0 <= ln (bp 1000)) by (rewrite <- L0; apply M; [apply bpow_gt_0|apply bp_le; lia]).
  unfold Rpower. split.
  - rewrite <- (exp_ln (bp (-1000))) at 1 by apply bpow_gt_0. apply EM.
    apply Rle_trans with (q * ln (bp (-1000))).
    + set (a := ln (bp (-1000))) in *. clearbody a. assert (0 <= (1 - q) * (- a)) by (apply Rmult_le_pos; lra). lra.
    + apply Rmult_le_compat_l; lra.
  - rewrite <- (exp_ln (bp 1000)) by apply bpow_gt_0. apply EM.
    apply Rle_trans with (q * ln (bp 1000)).
    + apply Rmult_le_compat_l; lra.
    + set (a := ln (bp 1000)) in *. clearbody a. assert (0 <= (1 - q) * a) by (apply Rmult_le_pos; lra). lra.
Qed.
Lemma small_u k : (k <= 2 ^ 51)%nat -> INR k * u64 <= / 4.
Proof.
  intros H. apply Rle_trans with (INR (2 ^ 51) * u64); [apply Rmult_le_compat_r; [apply u64_nonneg|apply le_INR, H]|].
  rewrite pow_INR. change (INR 2) with 2. unfold u64. replace (2 ^ 51) with (bp 51) by (rewrite bpow_powerRZ; reflexivity). rewrite bpow_pair.
  apply Rle_trans with (bp (-2)); [apply bp_le; lia|cbn; lra].
Qed.
Lemma u_mono a b : (a <= b)%nat -> INR b * u64 <= / 4 -> INR a * u64 <= / 4.
Proof. intros H E. eapply Rle_trans; [|exact E]. apply Rmult_le_compat_r; [apply u64_nonneg|apply le_INR, H]. Qed.
Lemma nat_le_51 a : INR a * u64 <= / 4 -> INR a <= bp 51.
Proof.
  intros E. apply Rmult_le_reg_r with u64; [exact u64_pos|]. eapply Rle_trans; [exact E|]. unfold u64. rewrite bpow_pair.
  apply Rle_trans with (bp (-2)); [cbn; lra|apply bp_le; lia].
Qed.
Lemma nat_rep a : INR a * u64 <= / 4 -> rep64 (INR a).
Proof. intros E. apply rep64_INR. lra. Qed.
(** 1 / n rounded. *)
Lemma inv_near n : (1 <= n)%nat -> INR n * u64 <= / 4 -> near 2 (div64 1 (INR n)) (/ INR n) /\ rep64 (div64 1 (INR n)) /\
  bp (-51) <= / INR n <= 1 /\ 0 < div64 1 (INR n) <= 1 /\ Rabs (div64 1 (INR n) - / INR n) <= u64.
Proof.
  intros Hn E. pose proof (nat_le_51 n E) as B. assert (P : 1 <= INR n) by (apply (le_INR 1); exact Hn).
  assert (I1 : bp (-51) <= / INR n).
  { replace (bp (-51)) with (/ bp 51) by (symmetry; apply (bpow_opp radix2 51)). apply Rinv_le_contravar; lra. }
  assert (I2 : / INR n <= 1) by (rewrite <- Rinv_1; apply Rinv_le_contravar; lra).
  unfold div64. replace (1 / INR n) with (/ INR n) by (unfold Rdiv; ring).
  assert (I0 : 0 < / INR n) by (apply Rinv_0_lt_compat; lra).
  split; [apply rnd_normal; eapply Rle_trans; [|exact I1]; apply bp_le; lia|].
  split; [apply rnd_rep; [lra|eapply Rle_trans; [exact I2|]; change 1 with (bp 0); apply fmax_ge; lia]|].
  split; [split; assumption|]. split.
  - split.
    + apply Rlt_le_trans with (bp (-51)); [apply bpow_gt_0|]. apply rnd_ge; [apply bpow_format; lia|exact I1].
    + apply rnd_le; [exact format_1|exact I2].
  - apply rnd_small; lra.
Qed.

Lemma filter_len {A} (f : A -> bool) l : (length (filter f l) <= length l)%nat.
Proof. induction l as [|x l IH]; [apply le_n|]. cbn [filter]. destruct (f x); cbn [length]; lia. Qed.

Section Step.
Context (dim : nat) (inv : rmat -> rmat) (det : rmat -> R) (pw : R -> R -> R) (asum csum : list R -> R)
        (lsa lsa64 : nat -> nat -> (nat -> nat -> option R) -> result (list (nat * nat))) (kl : nat).
Context (Hpw : pow_ok pw) (Ha : good_sum asum) (Hc : good_sum csum) (HL : lsa_ok lsa) (HL64 : lsa64_ok kl lsa64).
Context (me : method) (Hme : symm me) (c : R) (p N : nat) (Hp : (1 <= p)%nat) (Hcut : moderate_cut c p).
Context (HK : INR (ospa_err dim p N kl) * u64 <= / 4).
Notation kc := (8 + 2 * dim)%nat.
Notation kw := (4 + p * kc)%nat.

Lemma Hkc : INR kc * u64 <= / 4.
Proof. apply u_mono with (ospa_err dim p N kl); [unfold ospa_err; nia|exact HK]. Qed.
Lemma Hkw : INR (p * kc) * u64 <= / 4.
Proof. apply u_mono with (ospa_err dim p N kl); [unfold ospa_err; nia|exact HK]. Qed.
Lemma Hp0 : 0 < INR p. Proof. apply lt_0_INR. lia. Qed.
Lemma c_pos : 0 < c. Proof. apply Hcut. Qed.

(** The p-th power of a nonzero double. *)
Lemma pow_near v d k : rep64 v -> 0 < v -> 0 < d -> near k v d -> INR (p * k) * u64 <= / 4 -> bp (-900) <= d ^ p <= bp 900 ->
  rep64 (pw v (INR p)) /\ near (4 + p * k) (pw v (INR p)) (d ^ p) /\ bp (-902) <= pw v (INR p) <= bp 902.
Proof.
  intros Rv Pv Pd Hn Hk B. pose proof (near_pow k p v d ltac:(lra) ltac:(lra) Hn) as Np.
  destruct (near_bounds _ _ _ _ _ Hk Np (bpow_ge_0 _ _) B) as [L U]. rewrite bpow_half in L. rewrite <- bp_dbl in U.
  destruct Hpw as [_ Hq]. specialize (Hq v (INR p) Rv Pv Hp0). rewrite Rpower_pow in Hq by exact Pv.
  destruct Hq as [Rw Ew].
  { split; [eapply Rle_trans; [|exact L]|eapply Rle_trans; [exact U|]]; apply bp_le; lia. }
  assert (P0 : 0 <= v ^ p) by (apply pow_le; lra).
  assert (N4 : near 4 (pw v (INR p)) (v ^ p)).
  { apply (near_rel 2); [exact P0|pose proof u64_small; cbn [INR]; lra|]. change (INR 2) with 2. exact Ew. }
  split; [exact Rw|]. split; [eapply near_trans; [exact N4|exact Np]|].
  destruct (near_bounds 4 _ _ _ _ (small_u 4 ltac:(apply Nat.leb_le; reflexivity)) N4 (bpow_ge_0 radix2 (-901)) (conj L U)) as [L2 U2].
  rewrite bpow_half in L2. rewrite <- bp_dbl in U2. split; assumption.
Qed.

(** Entries of the distance matrix and their powers. *)
Definition entry_ok (C64 C : option R) : Prop :=
  match C64, C with
  | None, None => True
  | Some w, Some v => rep64 w /\ 0 <= w <= bp 902 /\ 0 <= v <= bp 900 /\ (v = 0 \/ bp (-900) <= v) /\ near kw w v
  | _, _ => False
  end.
Lemma entry_near ue e t : (forall x y, e = Some x -> t = Some y -> float_state dim x /\ float_state dim y /\
    moderate_pair dim (val (core dim inv det me x y)) p x y) ->
  entry_ok (option_map (fun v => pw v (INR p)) (dist_entry64 dim asum me c ue e t)) (npow (dist_entry dim inv det me c ue e t) p).
Proof.
  intros H. destruct Hcut as [Rc [Pc [Lc Uc]]].
  assert (G : forall d v, 0 <= d -> rep64 v -> 0 <= v -> near kc v d -> (d = 0 \/ bp (-900) <= d ^ p) ->
     entry_ok (Some (pw (Rmin v c) (INR p))) (Some (Rmin d c ^ p))).
  { intros d v Pd Rv Pv Nv Hd. assert (Nm := near_min kc v d c Nv Pv Pd ltac:(lra)).
    assert (Um : Rmin d c ^ p <= bp 900).
    { eapply Rle_trans; [|exact Uc]. apply pow_incr. split; [apply Rmin_glb; lra|apply Rmin_r]. }
    assert (Pm : 0 <= Rmin d c) by (apply Rmin_glb; lra).
    destruct Hd as [->|Hd].
    - assert (v = 0) as -> by (apply near_sym in Nv; apply near_0 in Nv; assumption).
      rewrite Rmin_left by lra. destruct Hpw as [H0 _]. rewrite H0 by exact Hp0. rewrite pow_i by lia. unfold entry_ok.
      split; [apply rep64_0|]. split; [split; [lra|apply bpow_ge_0]|]. split; [split; [lra|apply bpow_ge_0]|]. split; [left; reflexivity|apply near_00].
    - assert (Dm : bp (-900) <= Rmin d c ^ p) by (unfold Rmin; destruct (Rle_dec d c); assumption).
      assert (P1 : 0 < Rmin d c).
      { destruct Pm as [L|E]; [exact L|]. exfalso. rewrite <- E, pow_i in Dm by lia. pose proof (bpow_gt_0 radix2 (-900)). lra. }
      assert (Rm : rep64 (Rmin v c)) by (unfold Rmin; destruct (Rle_dec v c); assumption).
      assert (P2 : 0 < Rmin v c).
      { assert (0 <= Rmin v c) by (apply Rmin_glb; lra). destruct H0 as [L|E]; [exact L|]. exfalso. rewrite <- E in Nm. apply near_0 in Nm; lra. }
      destruct (pow_near _ _ kc Rm P2 P1 Nm Hkw (conj Dm Um)) as [A [B [C D]]]. unfold entry_ok.
      split; [exact A|]. split; [split; [pose proof (bpow_ge_0 radix2 (-902)); lra|exact D]|]. split; [split; [apply pow_le, Pm|exact Um]|].
      split; [right; exact Dm|exact B]. }
  unfold dist_entry64, dist_entry. destruct e as [x|], t as [y|].
  - destruct (H x y eq_refl eq_refl) as [Fx [Fy Mp]].
    destruct (core64_near dim asum Ha inv det Hkc me p x y Hme Fx Fy Mp) as [d [v [E [E64 [Pd [Rv [Pv Nv]]]]]]].
    rewrite E, E64. cbn [nan_min option_map npow]. apply G; try assumption. rewrite E in Mp. apply Mp.
  - cbn [nan_min option_map npow]. apply G; [lra|exact Rc|lra|apply near_weaken with 0%nat; [lia|lra|lra|apply near_refl; lra]|right; exact Lc].
  - cbn [nan_min option_map npow]. apply G; [lra|exact Rc|lra|apply near_weaken with 0%nat; [lia|lra|lra|apply near_refl; lra]|right; exact Lc].
  - destruct ue; cbn [nan_min option_map npow]; [|exact I]. apply G; [lra|apply rep64_0|lra|apply near_00|left; reflexivity].
Qed.

(** The last power. *)
Lemma root_near k w v : rep64 w -> 0 <= w -> (v = 0 /\ w = 0 \/ near k w v /\ bp (-999) <= v <= bp 999) -> INR k * u64 <= / 4 ->
  INR p * u64 <= / 4 -> near (2004 + k) (pw w (div64 1 (INR p))) (root p v) /\ rep64 (pw w (div64 1 (INR p))) /\
  0 <= pw w (div64 1 (INR p)) <= 2 * bp 1000.
Proof.
  intros Rw Pw Hv Hk Hpu. destruct (inv_near p Hp Hpu) as [_ [_ [[J1 J2] [J Je]]]]. destruct Hpw as [H0 Hq].
  destruct Hv as [[-> ->]|[Nv [L U]]].
  { rewrite H0 by apply J. rewrite root_0. split; [apply near_00|]. split; [apply rep64_0|]. pose proof (bpow_gt_0 radix2 1000). lra. }
  assert (Pv : 0 < v) by (pose proof (bpow_gt_0 radix2 (-999)); lra).
  destruct (near_bounds _ _ _ _ _ Hk Nv (bpow_ge_0 _ _) (conj L U)) as [L2 U2]. rewrite bpow_half in L2. rewrite <- bp_dbl in U2.
  change (-999 - 1)%Z with (-1000)%Z in L2. change (999 + 1)%Z with 1000%Z in U2.
  assert (Pw' : 0 < w) by (pose proof (bpow_gt_0 radix2 (-1000)); lra).
  pose proof (rpower_range w (div64 1 (INR p)) (conj L2 U2) J) as Rg.
  destruct (Hq w (div64 1 (INR p)) Rw Pw' (proj1 J) Rg) as [Rr Er].
  assert (P1 : 0 <= Rpower w (div64 1 (INR p))) by (left; apply exp_pos).
  assert (N4 : near 4 (pw w (div64 1 (INR p))) (Rpower w (div64 1 (INR p)))).
  { apply (near_rel 2); [exact P1|pose proof u64_small; cbn [INR]; lra|]. change (INR 2) with 2. exact Er. }
  assert (N5 : near 2000 (Rpower w (div64 1 (INR p))) (Rpower w (/ INR p))) by (apply near_exponent; [split; assumption|exact Je]).
  assert (N6 : near k (Rpower w (/ INR p)) (Rpower v (/ INR p))).
  { apply near_rpower; [exact Pw'|exact Pv| |exact Nv]. split; [apply Rinv_0_lt_compat, Hp0|exact J2]. }
  split.
  { unfold root. destruct (Req_EM_T v 0) as [E|_]; [lra|]. replace (2004 + k)%nat with (4 + (2000 + k))%nat by lia.
    eapply near_trans; [exact N4|]. eapply near_trans; [exact N5|exact N6]. }
  split; [exact Rr|].
  destruct (near_bounds 4 _ _ _ _ (small_u 4 ltac:(apply Nat.leb_le; reflexivity)) N4 (Rle_refl 0) (conj P1 (proj2 Rg))) as [A B]. lra.
Qed.

Lemma mul_near k j x y x' y' : near k x x' -> near j y y' -> 0 <= x -> 0 <= y -> 0 <= x' -> 0 <= y' ->
  INR (k + j) * u64 <= / 4 -> (x' * y' = 0 \/ bp (-1000) <= x' * y') -> x' * y' <= bp 1000 ->
  rep64 (mul64 x y) /\ 0 <= mul64 x y /\ near (2 + (k + j)) (mul64 x y) (x' * y').
Proof.
  intros Nx Ny Px Py Px' Py' Hk Hz Hb. pose proof (near_mult k j x y x' y' Px Py Px' Py' Nx Ny) as Nm.
  assert (P : 0 <= x' * y') by (apply Rmult_le_pos; assumption). unfold mul64. destruct Hz as [Z|Z].
  - rewrite Z in *. assert (x * y = 0) as -> by (apply near_sym in Nm; apply near_0 in Nm; [exact Nm|apply Rmult_le_pos; assumption]).
    rewrite rnd_0. split; [apply rep64_0|]. split; [lra|apply near_00].
  - destruct (near_bounds _ _ _ _ _ Hk Nm (bpow_ge_0 _ _) (conj Z Hb)) as [L U]. rewrite bpow_half in L. rewrite <- bp_dbl in U.
    assert (P2 : 0 <= x * y) by (apply Rmult_le_pos; assumption).
    split; [apply rnd_rep; [exact P2|]; eapply Rle_trans; [exact U|apply fmax_ge; lia]|].
    split; [apply rnd_ge; [apply generic_format_0|exact P2]|]. eapply near_trans; [|exact Nm].
    apply rnd_normal. eapply Rle_trans; [|exact L]. apply bp_le; lia.
Qed.

Lemma step_near ue es ts l k : (length es <= N)%nat -> (length ts <= N)%nat ->
  (forall x y, In (Some x) es -> In (Some y) ts -> float_state dim x /\ float_state dim y /\
     moderate_pair dim (val (core dim inv det me x y)) p x y) ->
  ospa_step dim inv det lsa me c p ue es ts = Ok (l, k) ->
  exists l64 k64, ospa_step64 dim pw asum csum lsa64 me c p ue es ts = Ok (l64, k64) /\
    near (ospa_err dim p N kl - 2) l64 l /\ near (ospa_err dim p N kl - 2) k64 k /\
    near (ospa_err dim p N kl) (ospa_val64 (l64, k64)) (l + k).
Proof.
  intros Le Lt Hpair Hstep.
  pose proof HK as HK'. set (KK := ospa_err dim p N kl) in HK' |- *. assert (EK : KK = (2020 + 2 * N + p * kc + kl)%nat) by reflexivity. clearbody KK.
  assert (Hfin : forall l64 k64, rep64 l64 -> rep64 k64 -> 0 <= l64 <= 2 * bp 1000 -> 0 <= k64 <= 2 * bp 1000 -> near (KK - 2) l64 l -> near (KK - 2) k64 k ->
     0 <= l -> 0 <= k -> near KK (ospa_val64 (l64, k64)) (l + k)).
  { intros l64 k64 Rl Rk Bl Bk Nl Nk Pl Pk. unfold ospa_val64, add64. cbn [fst snd].
    destruct ieee64_rounds as [_ [_ [_ [Hadd _]]]].
    destruct (Hadd l64 k64 Rl Rk (proj1 Bl) (proj1 Bk)) as [_ [E _]].
    { pose proof (fmax_ge 1002 ltac:(lia)) as F. replace 1002%Z with (1000 + 1 + 1)%Z in F by lia. rewrite !bp_dbl in F. lra. }
    cbn [fadd ieee64] in E. replace KK with (2 + (KK - 2))%nat by lia. eapply near_trans.
    - apply (near_rel 1); [|pose proof u64_small; cbn [INR]; lra|cbn [INR]; rewrite Rmult_1_l; exact E]. lra.
    - destruct Nl, Nk. split; lra. }
  unfold ospa_step in Hstep. unfold ospa_step64.
  pose proof c_pos as Pc. destruct Hcut as [Rc [_ [Lc Uc]]].
  assert (Bc : c <= bp 1000).
  { destruct (Rle_dec c 1) as [B|B]; [apply Rle_trans with (bp 0); [exact B|apply bp_le; lia]|].
    apply Rle_trans with (c ^ p); [|eapply Rle_trans; [exact Uc|apply bp_le; lia]]. rewrite <- (pow_1 c) at 1. apply Rle_pow; [lra|exact Hp]. }
  destruct ((count ts =? 0) && (count es =? 0))%nat%bool eqn:E1.
  { injection Hstep as <- <-. exists 0, 0. split; [reflexivity|]. split; [apply near_00|]. split; [apply near_00|].
    apply Hfin; try apply rep64_0; try apply near_00; try lra; pose proof (bpow_gt_0 radix2 1000); lra. }
  destruct ((count ts =? 0) || (count es =? 0))%nat%bool eqn:E2.
  { injection Hstep as <- <-. exists 0, c. assert (Nc : near (KK - 2) c c) by (apply near_weaken with 0%nat; [lia|lra|lra|apply near_refl; lra]).
    split; [reflexivity|]. split; [apply near_00|]. split; [exact Nc|].
    apply Hfin; try apply rep64_0; try apply near_00; try assumption; try lra; pose proof (bpow_gt_0 radix2 1000); lra. }
  apply orb_false_iff in E2 as [Et Ee]. apply Nat.eqb_neq in Et, Ee.
  set (m := count es) in *. set (n := count ts) in *.
  assert (Hm : (m <= N)%nat). { unfold m, count. eapply Nat.le_trans; [apply filter_len|exact Le]. }
  assert (Hn : (n <= N)%nat). { unfold n, count. eapply Nat.le_trans; [apply filter_len|exact Lt]. }
  set (C := fun i j => npow (dmat dim inv det me c ue es ts i j) p) in *.
  set (C64 := fun i j => option_map (fun v => pw v (INR p)) (dmat64 dim asum me c ue es ts i j)).
  assert (HC : forall i j, entry_ok (C64 i j) (C i j)).
  { intros i j. unfold C64, C, dmat64, dmat. apply entry_near. intros x y Ex Ey. apply Hpair.
    - rewrite <- Ex. apply nth_In. destruct (Nat.ltb_spec i (length es)) as [|G]; [assumption|]. rewrite nth_overflow in Ex by exact G. discriminate.
    - rewrite <- Ey. apply nth_In. destruct (Nat.ltb_spec j (length ts)) as [|G]; [assumption|]. rewrite nth_overflow in Ey by exact G. discriminate. }
  destruct (lsa m n C) as [a|] eqn:Ea; [|discriminate]. cbn [bind] in Hstep. injection Hstep as <- <-.
  assert (HS : forall i j, (i < m)%nat -> (j < n)%nat -> C i j <> None).
  { intros i j Hi Hj E. destruct (HL m n C) as [_ X]. rewrite X in Ea; [discriminate|]. exists i, j. auto. }
  destruct (proj1 (HL m n C) HS) as [a' [Ea' [Aa Oa]]]. rewrite Ea in Ea'. injection Ea' as <-.
  destruct (HL64 m n C64) as [X _]. destruct X as [b [Eb [Ab Ob]]].
  { intros i j Hi Hj. specialize (HC i j). specialize (HS i j Hi Hj). unfold entry_ok in HC. destruct (C64 i j) as [w|], (C i j); try easy.
    exists w. split; [reflexivity|]. apply HC. }
  rewrite Eb. cbn [bind].
  set (cost64 := csum (map (fun ij => val (C64 (fst ij) (snd ij))) b)). set (opt := acost C a).
  assert (HV : forall i j, rep64 (val (C64 i j)) /\ 0 <= val (C64 i j) <= bp 902 /\ 0 <= val (C i j) <= bp 900 /\
     (val (C i j) = 0 \/ bp (-900) <= val (C i j)) /\ near kw (val (C64 i j)) (val (C i j))).
  { intros i j. specialize (HC i j). unfold entry_ok in HC. destruct (C64 i j) as [w|], (C i j); try easy. cbn [val].
    split; [apply rep64_0|]. split; [split; [lra|apply bpow_ge_0]|]. split; [split; [lra|apply bpow_ge_0]|]. split; [left; reflexivity|apply near_00]. }
  assert (NA : forall s, near kw (acost C64 s) (acost C s)) by (intros s; apply (near_rsum kw); intros ij _; apply HV).
  assert (PA : forall s, 0 <= acost C s) by (intros s; apply OspaProofs.rsum_nonneg; intros x Hx; apply in_map_iff in Hx as [ij [<- _]]; apply HV).
  assert (PA64 : forall s, 0 <= acost C64 s) by (intros s; apply OspaProofs.rsum_nonneg; intros x Hx; apply in_map_iff in Hx as [ij [<- _]]; apply HV).
  assert (Nopt : near (kw + kl) (acost C64 b) opt).
  { split; rewrite g_plus.
    - apply Rle_trans with (acost C64 a * g kl); [apply Ob, Aa|]. replace (opt * (g kw * g kl)) with (opt * g kw * g kl) by ring.
      apply Rmult_le_compat_r; [pose proof (g_pos kl); lra|]. apply NA.
    - apply Rle_trans with (acost C b); [apply Oa, Ab|]. apply Rle_trans with (acost C64 b * g kw); [apply NA|].
      rewrite <- Rmult_assoc. rewrite <- (Rmult_1_r (acost C64 b * g kw)) at 1. apply Rmult_le_compat_l; [|apply g_pos].
      apply Rmult_le_pos; [apply PA64|pose proof (g_pos kw); lra]. }
  assert (Lb : length b = Nat.min m n) by apply Ab. assert (La : length a = Nat.min m n) by apply Aa.
  assert (Hmin : (Nat.min m n <= N)%nat) by lia.
  assert (HNu : INR N * u64 <= / 4) by (apply u_mono with KK; [lia|exact HK']).
  assert (Bopt : opt <= bp 951).
  { apply Rle_trans with (INR (length (map (fun ij => val (C (fst ij) (snd ij))) a)) * bp 900).
    - apply (rsum_le_const (bp 900)). intros x Hx. apply in_map_iff in Hx as [ij [<- _]]. apply HV.
    - rewrite map_length, La. replace (bp 951) with (bp 51 * bp 900) by (rewrite bpow_pair; reflexivity).
      apply Rmult_le_compat_r; [apply bpow_ge_0|]. apply nat_le_51. apply u_mono with N; [exact Hmin|exact HNu]. }
  assert (Zopt : opt = 0 \/ bp (-900) <= opt).
  { apply (rsum_zero_or (bp (-900))); [|apply bpow_ge_0]. intros x Hx. apply in_map_iff in Hx as [ij [<- _]]. apply HV. }
  assert (Ncost : near (2 * N + (kw + kl)) cost64 opt /\ 0 <= cost64).
  { set (lb := map (fun ij => val (C64 (fst ij) (snd ij))) b) in *. assert (nnb : nn lb).
    { intros x Hx. apply in_map_iff in Hx as [ij [<- _]]. split; apply HV. }
    assert (Llb : length lb = Nat.min m n) by (unfold lb; rewrite map_length; exact Lb).
    assert (Hu : INR (length lb) * u64 <= / 4) by (rewrite Llb; apply u_mono with N; assumption).
    assert (Hap : approx (length lb) (RBase.rsum lb) cost64).
    { apply Hc; [exact nnb|exact Hu|].
      assert (B : RBase.rsum lb <= INR (length lb) * bp 902) by (apply rsum_le_const; intros x Hx; apply in_map_iff in Hx as [ij [<- _]]; apply HV).
      assert (B2 : INR (length lb) * bp 902 <= bp 51 * bp 902) by (apply Rmult_le_compat_r; [apply bpow_ge_0|apply nat_le_51, Hu]).
      rewrite bpow_pair in B2. pose proof (fmax_ge (51 + 902 + 1) ltac:(lia)) as F. rewrite bp_dbl in F. lra. }
    split; [|apply Hap]. eapply near_trans; [|exact Nopt]. apply near_weaken with (2 * length lb)%nat; [lia|apply Hap|apply nn_sum, nnb|].
    apply near_approx; [apply nn_sum, nnb|exact Hu|exact Hap]. }
  destruct Ncost as [Ncost Pcost].
  set (M := Nat.max n m). assert (HM : (1 <= M <= N)%nat) by lia.
  destruct (inv_near M (proj1 HM) ltac:(apply u_mono with N; [lia|exact HNu])) as [NI [RI [[BI1 BI2] [PI _]]]].
  assert (HpU : INR p * u64 <= / 4) by (apply u_mono with KK; [nia|exact HK']).
  assert (PopT : 0 <= opt) by apply PA.
  assert (BIp : 0 < / INR M) by (apply Rinv_0_lt_compat, lt_0_INR; lia).
  assert (HI : forall v, v = 0 \/ bp (-900) <= v -> 0 <= v <= bp 951 -> (/ INR M * v = 0 \/ bp (-951) <= / INR M * v) /\ / INR M * v <= bp 951).
  { intros v Hz [Hv0 Hv1]. split.
    - destruct Hz as [->|Hz]; [left; ring|right]. replace (bp (-951)) with (bp (-51) * bp (-900)) by (rewrite bpow_pair; reflexivity).
      apply Rmult_le_compat; try apply bpow_ge_0; assumption.
    - apply Rle_trans with (1 * v); [apply Rmult_le_compat_r; [exact Hv0|exact BI2]|lra]. }
  (* localization *)
  destruct (HI opt Zopt (conj PopT Bopt)) as [ZI BI].
  destruct (mul_near 2 (2 * N + (kw + kl)) (div64 1 (INR M)) cost64 (/ INR M) opt NI Ncost ltac:(lra) Pcost ltac:(lra) PopT
     ltac:(apply u_mono with KK; [lia|exact HK']) ltac:(destruct ZI as [Z|Z]; [left; exact Z|right; eapply Rle_trans; [|exact Z]; apply bp_le; lia])
     ltac:(eapply Rle_trans; [exact BI|apply bp_le; lia])) as [Rx [Px Nx]].
  destruct (root_near (2 + (2 + (2 * N + (kw + kl)))) (mul64 (div64 1 (INR M)) cost64) (/ INR M * opt) Rx Px) as [NL [RL BL]].
  { destruct ZI as [Z|Z].
    - left. split; [exact Z|]. rewrite Z in Nx. apply near_sym in Nx. apply near_0 in Nx; assumption.
    - right. split; [exact Nx|]. split; [eapply Rle_trans; [|exact Z]|eapply Rle_trans; [exact BI|]]; apply bp_le; lia. }
  { apply u_mono with KK; [lia|exact HK']. }
  { exact HpU. }
  assert (NL' : near (KK - 2) (pw (mul64 (div64 1 (INR M)) cost64) (div64 1 (INR p))) (root p (/ INR M * opt))).
  { eapply near_weaken; [|apply BL|apply root_nonneg|exact NL]. lia. }
  (* cardinality *)
  destruct (pow_near c c 0 Rc Pc Pc (near_refl c ltac:(lra)) ltac:(rewrite Nat.mul_0_r; cbn [INR]; lra) (conj Lc Uc)) as [Rcp [Ncp [Lcp Ucp]]].
  rewrite Nat.mul_0_r, Nat.add_0_r in Ncp.
  assert (Pcp0 : 0 <= pw c (INR p)) by (pose proof (bpow_ge_0 radix2 (-902)); lra).
  assert (PcpE : 0 <= c ^ p) by (apply pow_le; lra).
  destruct (HI (c ^ p) (or_intror Lc) (conj PcpE (Rle_trans _ _ _ Uc (bp_le 900 951 ltac:(lia))))) as [ZC BC].
  assert (ZC' : bp (-951) <= / INR M * c ^ p).
  { destruct ZC as [Z|Z]; [exfalso|exact Z]. apply Rmult_integral in Z as [Z|Z]; [lra|]. pose proof (bpow_gt_0 radix2 (-900)). lra. }
  destruct (mul_near 2 4 (div64 1 (INR M)) (pw c (INR p)) (/ INR M) (c ^ p) NI Ncp ltac:(lra) Pcp0 ltac:(lra) PcpE
     ltac:(apply u_mono with KK; [lia|exact HK']) ltac:(right; eapply Rle_trans; [|exact ZC']; apply bp_le; lia)
     ltac:(eapply Rle_trans; [exact BC|apply bp_le; lia])) as [Ry [Py Ny]].
  set (D := absdiff n m). assert (HD : (D <= N)%nat) by (unfold D, absdiff; lia).
  assert (HDu : INR D * u64 <= / 4) by (apply u_mono with N; assumption).
  assert (PD : 0 <= INR D) by apply pos_INR.
  assert (PY : 0 <= / INR M * c ^ p) by (apply Rmult_le_pos; lra).
  assert (ZD : / INR M * c ^ p * INR D = 0 \/ bp (-951) <= / INR M * c ^ p * INR D).
  { destruct (Nat.eq_dec D 0) as [->|ND]; [left; cbn [INR]; ring|right]. rewrite <- (Rmult_1_r (bp (-951))).
    apply Rmult_le_compat; [apply bpow_ge_0|lra|exact ZC'|]. apply (le_INR 1). lia. }
  assert (BD : / INR M * c ^ p * INR D <= bp 999).
  { apply Rle_trans with (bp 900 * bp 51); [|rewrite bpow_pair; apply bp_le; lia]. apply Rmult_le_compat; [exact PY|exact PD| |apply nat_le_51, HDu].
    apply Rle_trans with (1 * c ^ p); [apply Rmult_le_compat_r; assumption|lra]. }
  destruct (mul_near (2 + (2 + 4)) 0 (mul64 (div64 1 (INR M)) (pw c (INR p))) (INR D) (/ INR M * c ^ p) (INR D) Ny (near_refl _ PD) Py PD PY PD
     ltac:(apply u_mono with KK; [lia|exact HK']) ltac:(destruct ZD as [Z|Z]; [left; exact Z|right; eapply Rle_trans; [|exact Z]; apply bp_le; lia])
     ltac:(eapply Rle_trans; [exact BD|apply bp_le; lia])) as [Rz [Pz Nz]].
  destruct (root_near (2 + (2 + (2 + 4) + 0)) (mul64 (mul64 (div64 1 (INR M)) (pw c (INR p))) (INR D)) (/ INR M * c ^ p * INR D) Rz Pz) as [NC [RC BC2]].
  { destruct ZD as [Z|Z].
    - left. split; [exact Z|]. rewrite Z in Nz. apply near_sym in Nz. apply near_0 in Nz; assumption.
    - right. split; [exact Nz|]. split; [eapply Rle_trans; [|exact Z]; apply bp_le; lia|exact BD]. }
  { apply u_mono with KK; [lia|exact HK']. }
  { exact HpU. }
  assert (NC' : near (KK - 2) (pw (mul64 (mul64 (div64 1 (INR M)) (pw c (INR p))) (INR D)) (div64 1 (INR p))) (root p (/ INR M * c ^ p * INR D))).
  { eapply near_weaken; [|apply BC2|apply root_nonneg|exact NC]. lia. }
  eexists. eexists. split; [reflexivity|]. split; [exact NL'|]. split; [exact NC'|].
  apply Hfin; try assumption; apply root_nonneg.
Qed.
End Step.
