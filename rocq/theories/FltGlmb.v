(** Proofs about the GLMB probabilities in double precision. *)
From Coq Require Import Reals ZArith Lia Lra Permutation.
From Flocq Require Import Core Relative.
From Verif Require Import Base RBase GlmbModel FltIeee FltGibbsModel FltGibbs FltGibbsProps FltNear FltOspaModel FltOspa FltOspaStep FltPhdSpec FltPhd FltPhdMerge FltPhdProps FltGlmbModel FltGlmbSpec.
Local Open Scope R_scope.

(** ** Summation dominates its terms *)
Definition fn x := fmt x /\ 0 <= x.
Lemma fn_add a b : fn a -> fn b -> fn (add64 a b) /\ a <= add64 a b /\ b <= add64 a b.
Proof.
  intros [Fa Pa] [Fb Pb]. assert (A : a <= add64 a b) by (unfold add64; rewrite <- (rnd_fix a Fa) at 1; apply rnd64_mono; lra).
  assert (B : b <= add64 a b) by (unfold add64; rewrite <- (rnd_fix b Fb) at 1; apply rnd64_mono; lra).
  split; [split; [apply rnd_fmt|lra]|]. split; assumption.
Qed.
Definition lfn l := forall x, In x l -> fn x.
Lemma lfn_cons x l : lfn (x :: l) -> fn x /\ lfn l.
Proof. intros H. split; [apply H; left; reflexivity|intros y Hy; apply H; right; exact Hy]. Qed.
Definition dom (v : R) (l : list R) := fn v /\ forall x, In x l -> x <= v.
Lemma fold_dom l : forall a, fn a -> lfn l -> dom (fold_left add64 l a) (a :: l).
Proof.
  induction l as [|y l IH]; intros a Fa Hl; cbn [fold_left]; [split; [exact Fa|intros x [<-|[]]; apply Rle_refl]|].
  apply lfn_cons in Hl as [Fy Hl]. destruct (fn_add a y Fa Fy) as [F [A B]]. destruct (IH _ F Hl) as [D1 D2]. split; [exact D1|].
  pose proof (D2 _ (or_introl eq_refl)) as D0. intros x [<-|[<-|Hx]]; [lra|lra|apply D2; right; exact Hx].
Qed.
Lemma sum8_dom n : forall l r0 r1 r2 r3 r4 r5 r6 r7, (length l <= n)%nat -> lfn l -> lfn [r0; r1; r2; r3; r4; r5; r6; r7] ->
  dom (sum8 add64 r0 r1 r2 r3 r4 r5 r6 r7 l) ([r0; r1; r2; r3; r4; r5; r6; r7] ++ l).
Proof.
  induction n as [|n IH]; intros l r0 r1 r2 r3 r4 r5 r6 r7 Hn Hl Hr.
  all: apply lfn_cons in Hr as [F0 Hr]; apply lfn_cons in Hr as [F1 Hr]; apply lfn_cons in Hr as [F2 Hr]; apply lfn_cons in Hr as [F3 Hr];
    apply lfn_cons in Hr as [F4 Hr]; apply lfn_cons in Hr as [F5 Hr]; apply lfn_cons in Hr as [F6 Hr]; apply lfn_cons in Hr as [F7 _].
  all: assert (Base : dom (fold_left add64 l (add64 (add64 (add64 r0 r1) (add64 r2 r3)) (add64 (add64 r4 r5) (add64 r6 r7)))) ([r0; r1; r2; r3; r4; r5; r6; r7] ++ l)).
  1, 3: destruct (fn_add r0 r1 F0 F1) as [G0 [? ?]]; destruct (fn_add r2 r3 F2 F3) as [G1 [? ?]]; destruct (fn_add r4 r5 F4 F5) as [G2 [? ?]]; destruct (fn_add r6 r7 F6 F7) as [G3 [? ?]];
    destruct (fn_add _ _ G0 G1) as [T0 [? ?]]; destruct (fn_add _ _ G2 G3) as [T1 [? ?]]; destruct (fn_add _ _ T0 T1) as [T [? ?]];
    destruct (fold_dom l _ T Hl) as [D1 D2]; (split; [exact D1|]); pose proof (D2 _ (or_introl eq_refl)) as D0; intros x Hx; apply in_app_or in Hx as [Hx|Hx];
    [repeat (destruct Hx as [<-|Hx]; [lra|]); destruct Hx|apply D2; right; exact Hx].
  { destruct l; [exact Base|cbn [length] in Hn; lia]. }
  destruct l as [|a0 [|a1 [|a2 [|a3 [|a4 [|a5 [|a6 [|a7 l']]]]]]]]; try exact Base. clear Base. cbn [sum8]. cbn [length] in Hn.
  apply lfn_cons in Hl as [A0 Hl]; apply lfn_cons in Hl as [A1 Hl]; apply lfn_cons in Hl as [A2 Hl]; apply lfn_cons in Hl as [A3 Hl];
    apply lfn_cons in Hl as [A4 Hl]; apply lfn_cons in Hl as [A5 Hl]; apply lfn_cons in Hl as [A6 Hl]; apply lfn_cons in Hl as [A7 Hl].
  destruct (fn_add r0 a0 F0 A0) as [G0 [? ?]]; destruct (fn_add r1 a1 F1 A1) as [G1 [? ?]]; destruct (fn_add r2 a2 F2 A2) as [G2 [? ?]]; destruct (fn_add r3 a3 F3 A3) as [G3 [? ?]];
    destruct (fn_add r4 a4 F4 A4) as [G4 [? ?]]; destruct (fn_add r5 a5 F5 A5) as [G5 [? ?]]; destruct (fn_add r6 a6 F6 A6) as [G6 [? ?]]; destruct (fn_add r7 a7 F7 A7) as [G7 [? ?]].
  destruct (IH l' (add64 r0 a0) (add64 r1 a1) (add64 r2 a2) (add64 r3 a3) (add64 r4 a4) (add64 r5 a5) (add64 r6 a6) (add64 r7 a7) ltac:(lia) Hl) as [D1 D2].
  { intros x Hx. repeat (destruct Hx as [<-|Hx]; [assumption|]). destruct Hx. }
  split; [exact D1|]. cbn [app] in D2.
  pose proof (D2 (add64 r0 a0) ltac:(cbn; tauto)). pose proof (D2 (add64 r1 a1) ltac:(cbn; tauto)). pose proof (D2 (add64 r2 a2) ltac:(cbn; tauto)).
  pose proof (D2 (add64 r3 a3) ltac:(cbn; tauto)). pose proof (D2 (add64 r4 a4) ltac:(cbn; tauto)). pose proof (D2 (add64 r5 a5) ltac:(cbn; tauto)).
  pose proof (D2 (add64 r6 a6) ltac:(cbn; tauto)). pose proof (D2 (add64 r7 a7) ltac:(cbn; tauto)).
  intros x Hx. cbn [app] in Hx. do 16 (destruct Hx as [<-|Hx]; [lra|]). apply D2. cbn. tauto.
Qed.
Lemma block_dom l : lfn l -> dom (sum_block 0 add64 l) l.
Proof.
  intros Hl. assert (Base : dom (fold_left add64 l 0) l).
  { destruct (fold_dom l 0 (conj (generic_format_0 _ _) (Rle_refl 0)) Hl) as [D1 D2]. split; [exact D1|]. intros x Hx. apply D2. right. exact Hx. }
  destruct l as [|a0 [|a1 [|a2 [|a3 [|a4 [|a5 [|a6 [|a7 l']]]]]]]]; try exact Base. cbn [sum_block].
  apply (sum8_dom (length l')); [lia| |]; intros x Hx; apply Hl; [do 8 right; exact Hx|cbn in Hx |- *; tauto].
Qed.
Lemma pairwise_dom fuel : forall l, lfn l -> dom (pairwise 0 add64 fuel l) l.
Proof.
  induction fuel as [|fuel IH]; intros l Hl; cbn [pairwise]; [apply block_dom, Hl|].
  destruct (length l <=? 128)%nat; [apply block_dom, Hl|]. cbn zeta. set (n2 := (length l / 2 - (length l / 2) mod 8)%nat). clearbody n2.
  pose proof (firstn_skipn n2 l) as E.
  destruct (IH (firstn n2 l)) as [D1 D2]; [intros x Hx; apply Hl; rewrite <- E; apply in_or_app; left; exact Hx|].
  destruct (IH (skipn n2 l)) as [D3 D4]; [intros x Hx; apply Hl; rewrite <- E; apply in_or_app; right; exact Hx|].
  destruct (fn_add _ _ D1 D3) as [F [A B]]. split; [exact F|]. intros x Hx. rewrite <- E in Hx. apply in_app_or in Hx as [Hx|Hx]; [apply D2 in Hx|apply D4 in Hx]; lra.
Qed.
Theorem np_sum_dominates : dominates (np_sum 0 add64).
Proof. intros l x Hl _ Hx. apply pairwise_dom; [intros y Hy; destruct (Hl y Hy); split; [apply rep64_fmt|]; assumption|exact Hx]. Qed.

(** ** Rescaling *)
Definition ppair (a : nat) (e : R) (x y : hyp) : Prop :=
  h_ts x = h_ts y /\ rep64 (h_p x) /\ 0 <= h_p x <= 1 /\ 0 <= h_p y <= 1 /\ nears a e (h_p x) (h_p y).
Lemma quot_near a b e P x y s t : g (a + b) <= 2 -> 0 <= x -> 0 <= y -> 0 < s -> 0 < t -> / s <= P -> / t <= P -> 0 <= e ->
  nears a e x y -> near b s t -> nears (2 + (a + b)) (2 * tiny + 2 * (e * P)) (div64 x s) (y / t).
Proof.
  intros G Hx Hy Hs Ht Ps Pt He N1 N2. pose proof (Rinv_0_lt_compat s Hs) as Is. pose proof (Rinv_0_lt_compat t Ht) as It.
  assert (X : 0 <= x / s) by (unfold Rdiv; apply Rmult_le_pos; lra).
  apply nears_trans with (y := x / s); try (exact g2_small || exact G || apply nears_rnd, X); [pose proof tiny_pos; lra|apply Rmult_le_pos; lra|].
  unfold Rdiv. apply nears_mult; try lra; [exact N1|apply near_inv; assumption].
Qed.
Lemma psum_le1 l x : (forall y, In y l -> 0 <= y) -> In x l -> x <= rsum l.
Proof.
  induction l as [|a l IH]; intros Hp Hx; [destruct Hx|]. change (rsum (a :: l)) with (a + rsum l). destruct Hx as [<-|Hx].
  - assert (0 <= rsum l) by (apply OspaProofs.rsum_nonneg; intros y Hy; apply Hp; right; exact Hy). lra.
  - specialize (IH ltac:(intros y Hy; apply Hp; right; exact Hy) Hx). pose proof (Hp a (or_introl eq_refl)). lra.
Qed.
Lemma div_le1 x s : 0 <= x <= s -> 0 < s -> 0 <= x / s <= 1.
Proof.
  intros [H0 H1] Hs. pose proof (Rinv_0_lt_compat s Hs) as I. split; [unfold Rdiv; apply Rmult_le_pos; lra|].
  apply Rmult_le_reg_r with s; [exact Hs|]. unfold Rdiv. rewrite Rmult_assoc, Rinv_l by lra. lra.
Qed.
Lemma div64_le1 x s : 0 <= x <= s -> 0 < s -> rep64 (div64 x s) /\ 0 <= div64 x s <= 1.
Proof.
  intros H Hs. destruct (div_le1 x s H Hs) as [A B]. assert (R1 : rep64 1) by exact one64.
  split; [apply rnd_rep; [exact A|apply Rle_trans with (bp 0); [exact B|apply fmax_ge; lia]]|]. split; [apply rnd_nonneg, A|].
  unfold div64. rewrite <- (rnd_exact 1 R1). apply rnd64_mono, B.
Qed.

Section Rescale.
Context (sum : list R -> R) (Hs : good_sum sum) (Hd : dominates sum).
Lemma probs_bounds hs : probs64 hs -> INR (8 * length hs + 64) * u64 <= / 4 ->
  nn (map h_p hs) /\ 0 <= rsum (map h_p hs) <= bp 51 /\ approx (length hs) (rsum (map h_p hs)) (sum (map h_p hs)) /\
  forall h, In h hs -> h_p h <= sum (map h_p hs) /\ h_p h <= rsum (map h_p hs).
Proof.
  intros Hp Hn. assert (N : nn (map h_p hs)) by (intros x Hx; apply in_map_iff in Hx as [h [<- Hh]]; destruct (Hp h Hh); split; [assumption|lra]).
  assert (N51 : INR (length hs) <= bp 51) by (apply nat_le_51; revert Hn; apply u_mono; lia).
  assert (B : rsum (map h_p hs) <= bp 51).
  { eapply Rle_trans; [apply (rsum_le_const 1); intros x Hx; apply in_map_iff in Hx as [h [<- Hh]]; apply (Hp h Hh)|]. rewrite map_length. lra. }
  pose proof (nn_sum _ N) as S0. split; [exact N|]. split; [lra|]. split.
  - pose proof (Hs (map h_p hs) N) as A. rewrite map_length in A. apply A; [revert Hn; apply u_mono; lia|].
    apply Rle_trans with (2 * bp 51); [lra|]. rewrite <- bp_dbl. apply fmax_ge. lia.
  - intros h Hh. split; [apply Hd; [exact N|apply Rle_trans with (bp 51); [exact B|apply bp_le; lia]|apply in_map, Hh]|].
    apply psum_le1; [intros y Hy; apply N, Hy|apply in_map, Hh].
Qed.
Lemma rescale_pairs a e l64 l : Forall2 (ppair a e) l64 l -> 0 <= e -> INR (8 * length l + 64) * u64 <= / 4 -> (a <= 4)%nat ->
  (e = 0 /\ 0 < rsum (map h_p l) \/ e <= bp (-1000) /\ bp (-400) <= rsum (map h_p l)) ->
  Forall2 (ppair (2 * length l + 2 * a + 3) (bp (-590))) (rescale64 sum l64) (rescale l).
Proof.
  intros F He Hn Ha Hc. set (n := length l) in *.
  assert (L : length l64 = n) by (unfold n; apply (f2_len _ _ _ F)).
  assert (P64 : probs64 l64).
  { clear - F. induction F as [|x y l64 l P F IH]; intros h Hh; [destruct Hh|]. destruct Hh as [<-|Hh]; [split; apply P|apply IH, Hh]. }
  assert (P1 : forall h, In h l -> 0 <= h_p h <= 1).
  { clear - F. induction F as [|x y l64 l P F IH]; intros h Hh; [destruct Hh|]. destruct Hh as [<-|Hh]; [apply P|apply IH, Hh]. }
  destruct (probs_bounds l64 P64 ltac:(rewrite L; exact Hn)) as [N [B [A D]]].
  assert (NS : nears a (INR n * e) (rsum (map h_p l64)) (rsum (map h_p l))).
  { clear - F n. unfold n. clear n. induction F as [|x y l64 l P F IH]; cbn [map length].
    - change (rsum []) with 0. unfold nears. cbn [INR]. lra.
    - change (rsum (h_p x :: map h_p l64)) with (h_p x + rsum (map h_p l64)). change (rsum (h_p y :: map h_p l)) with (h_p y + rsum (map h_p l)).
      rewrite S_INR. replace ((INR (length l) + 1) * e) with (e + INR (length l) * e) by ring. apply nears_plus; [apply P|exact IH]. }
  set (s64 := rsum (map h_p l64)) in *. set (s := rsum (map h_p l)) in *. set (t := sum (map h_p l64)) in *.
  assert (s0 : 0 < s) by (pose proof (bp_pos (-400)); lra).
  assert (U1 : INR n * u64 <= / 4) by (revert Hn; apply u_mono; lia).
  pose proof (pos_INR n) as Pn. assert (n51 : INR n <= bp 51) by (apply nat_le_51, U1).
  rewrite L in A. pose proof (near_approx _ _ _ (proj1 B) U1 A) as NA. pose proof (proj1 (proj2 A)) as T0.
  assert (G2n : g (2 * n) <= 2) by (apply g_le_2; revert Hn; apply u_mono; lia).
  assert (Ga : g a <= 2) by (apply g_le_2; revert Hn; apply u_mono; lia). pose proof (g_pos a) as Ga1.
  assert (K : near (S a) s64 s /\ (e = 0 \/ e <= bp (-1000) /\ bp (-402) <= s64)).
  { destruct Hc as [[-> Hc]|[E1 E2]].
    - split; [|left; reflexivity]. apply (near_weaken a); [lia|lra|lra|]. destruct NS as [N1 N2]. rewrite Rmult_0_r in N1, N2. split; lra.
    - assert (NE : INR n * e <= bp (-949)).
      { replace (bp (-949)) with (bp 51 * bp (-1000)) by (rewrite bp_mul; reflexivity). apply Rmult_le_compat; lra. }
      assert (Q : bp (-402) <= s64).
      { destruct NS as [_ N2]. assert (s64 * g a <= s64 * 2) by (apply Rmult_le_compat_l; lra). pose proof (bp_dbl (-401)) as D1. pose proof (bp_dbl (-402)) as D2.
        change (-401 + 1)%Z with (-400)%Z in D1. change (-402 + 1)%Z with (-401)%Z in D2. assert (bp (-949) <= bp (-402)) by (apply bp_le; lia).
        lra. }
      assert (AB : bp (-949) <= u64 * bp (-402)). { unfold u64. rewrite bp_mul. apply bp_le. lia. }
      assert (C400 : bp (-402) <= bp (-400)) by (apply bp_le; lia).
      split; [|right; split; assumption]. apply nears_absorb with (e := INR n * e); [lra|lra| | |exact NS].
      + eapply Rle_trans; [exact NE|]. eapply Rle_trans; [exact AB|]. apply Rmult_le_compat_l; [pose proof u64_pos; lra|exact Q].
      + eapply Rle_trans; [exact NE|]. eapply Rle_trans; [exact AB|]. apply Rmult_le_compat_l; [pose proof u64_pos; lra|lra]. }
  destruct K as [K1 K2].
  assert (s64p : 0 < s64). { destruct K1 as [_ K1]. destruct (Rle_lt_or_eq_dec 0 s64 (proj1 B)) as [|E0]; [assumption|]. rewrite <- E0, Rmult_0_l in K1. lra. }
  assert (tp : 0 < t). { destruct NA as [_ NA2]. destruct (Rle_lt_or_eq_dec 0 t T0) as [|E0]; [assumption|]. rewrite <- E0, Rmult_0_l in NA2. lra. }
  pose proof (near_trans _ _ _ _ _ NA K1) as NT.
  assert (EP : exists P, / t <= P /\ / s <= P /\ e * P <= bp (-592)).
  { destruct K2 as [-> | [E1 E2]].
    - exists (Rmax (/ t) (/ s)). split; [apply Rmax_l|]. split; [apply Rmax_r|]. rewrite Rmult_0_l. apply bpow_ge_0.
    - destruct Hc as [[E0 _]|[_ E3]].
      + exists (Rmax (/ t) (/ s)). split; [apply Rmax_l|]. split; [apply Rmax_r|]. rewrite E0, Rmult_0_l. apply bpow_ge_0.
      + assert (T3 : bp (-403) <= t).
        { destruct NA as [_ NA2]. assert (t * g (2 * n) <= t * 2) by (apply Rmult_le_compat_l; assumption). pose proof (bp_dbl (-403)) as D2. change (-403 + 1)%Z with (-402)%Z in D2. lra. }
        exists (bp 403). split; [|split].
        * change 403%Z with (- -403)%Z. rewrite bpow_opp. apply Rinv_le_contravar; [apply bp_pos|exact T3].
        * change 403%Z with (- -403)%Z. rewrite bpow_opp. apply Rinv_le_contravar; [apply bp_pos|]. apply Rle_trans with (bp (-400)); [apply bp_le; lia|exact E3].
        * apply Rle_trans with (bp (-1000) * bp 403); [apply Rmult_le_compat_r; [apply bpow_ge_0|exact E1]|]. rewrite bp_mul. apply bp_le. lia. }
  destruct EP as [P [Pt [Psx EPb]]].
  assert (GG : g (a + (2 * n + S a)) <= 2) by (apply g_le_2; revert Hn; apply u_mono; lia).
  assert (KEY : forall x y, In x l64 -> In y l -> ppair a e x y -> ppair (2 * n + 2 * a + 3) (bp (-590)) {| h_p := div64 (h_p x) t; h_ts := h_ts x |} {| h_p := h_p y / s; h_ts := h_ts y |}).
  { intros x y Hx Hy [Q1 [Q2 [Q3 [Q4 Q5]]]]. unfold ppair. cbn [h_ts h_p].
    destruct (div64_le1 (h_p x) t (conj (proj1 Q3) (proj1 (D x Hx))) tp) as [R1 R2].
    assert (YS : h_p y <= s). { unfold s. apply psum_le1; [intros z Hz; apply in_map_iff in Hz as [h [<- Hh]]; apply P1, Hh|apply in_map, Hy]. }
    pose proof (div_le1 (h_p y) s (conj (proj1 Q4) YS) s0) as R3.
    split; [exact Q1|]. split; [exact R1|]. split; [exact R2|]. split; [exact R3|].
    pose proof (quot_near a (2 * n + S a) e P (h_p x) (h_p y) t s GG (proj1 Q3) (proj1 Q4) tp s0 Pt Psx He Q5 NT) as Z.
    revert Z. apply nears_weaken; [lia| |lra|lra].
    assert (tiny <= bp (-592)) by (apply bp_le; lia). assert (bp (-590) = 4 * bp (-592)) by (change (-590)%Z with (-592 + 1 + 1)%Z; rewrite !bp_dbl; ring). lra. }
  unfold rescale64, rescale. fold s t. clearbody s t n. clear - F KEY. induction F as [|x y l64 l P0 F IH]; cbn [map]; constructor.
  - apply KEY; [left; reflexivity|left; reflexivity|exact P0].
  - apply IH. intros x' y' Hx Hy. apply KEY; right; assumption.
Qed.
End Rescale.
