(** Rounding errors of [assign_opt] in double precision: the reduced matrix
    stays close to the one of a slightly changed cost matrix, for which the
    final matching is exactly optimal. *)
From Coq Require Import Reals List ZArith Lra Lia Bool.
From Flocq Require Import Core.
From Verif Require Import RBase RHungModel RHungSpec RHungProofs FltIeee FltGibbs FltGibbsProps FltNear FltPhd FltPhdMerge FltHungModel FltHungGen.
Import ListNotations.
Local Open Scope R_scope.
Notation bp := (bpow radix2).

Lemma fmt_opp x : fmt x -> fmt (- x).
Proof. apply generic_format_opp. Qed.
Lemma fmt_0 : fmt 0. Proof. apply generic_format_0. Qed.
Lemma sub_err x y : fmt x -> fmt y -> Rabs (sub64 x y - (x - y)) <= u64 * Rabs (x - y).
Proof. intros Hx Hy. exact (add_err x (- y) Hx (fmt_opp y Hy)). Qed.
Lemma sub64_self x : sub64 x x = 0.
Proof. unfold sub64. rewrite Rminus_diag_eq by reflexivity. apply rnd_0. Qed.
Lemma sub64_nonneg x y : y <= x -> 0 <= sub64 x y.
Proof. intros H. unfold sub64. rewrite <- rnd_0. apply rnd64_mono. lra. Qed.
Lemma add64_nonneg x y : 0 <= x -> 0 <= y -> 0 <= add64 x y.
Proof. intros Hx Hy. unfold add64. rewrite <- rnd_0. apply rnd64_mono. lra. Qed.
Lemma add64_ge x y : fmt y -> 0 <= x -> y <= add64 x y.
Proof. intros Hy Hx. unfold add64. rewrite <- (rnd_fix y Hy) at 1. apply rnd64_mono. lra. Qed.
Lemma add64_0l y : fmt y -> add64 0 y = y.
Proof. intros Hy. unfold add64. rewrite Rplus_0_l. apply rnd_fix, Hy. Qed.
Lemma sub64_le x y : fmt x -> 0 <= y -> sub64 x y <= x.
Proof. intros Hx Hy. unfold sub64. rewrite <- (rnd_fix x Hx) at 2. apply rnd64_mono. lra. Qed.

Section S5.
Variables nr nc : nat.
Notation md := (Nat.min nr nc).
Notation inr r c := ((r < nr)%nat /\ (c < nc)%nat).

(** The duals after step 5. *)
Definition u5 (st : hst) (h : R) (u : nat -> R) r := if h_rcov st r then u r - h else u r.
Definition v5 (st : hst) (h : R) (v : nat -> R) c := if h_ccov st c then v c else v c + h.

Lemma sub5_zero st h r c : fmt h -> h_rcov st r = negb (h_ccov st c) -> h_dist st r c = 0 -> step5_sub st h r c = 0.
Proof.
  intros Hh E Z. unfold step5_sub, step5_add. rewrite E, Z. destruct (h_ccov st c); cbn [negb]; [reflexivity|].
  rewrite (add64_0l h Hh). apply sub64_self.
Qed.

Lemma step5_inv C' st u v hist : inv nr nc C' st u v hist -> (nstars nr nc (h_star st) < md)%nat ->
  (forall r c, inr r c -> fmt (h_dist st r c)) ->
  exists h, step5_min nr nc st = Fin h /\ 0 <= h /\ fmt h /\
    (forall r c, inr r c -> h_rcov st r = false -> h_ccov st c = false -> h <= h_dist st r c) /\
    forall st', st' = {| h_dist := step5_sub st h; h_star := h_star st; h_prime := h_prime st;
                         h_ccov := h_ccov st; h_rcov := h_rcov st |} ->
    inv nr nc (fun r c => step5_sub st h r c + u5 st h u r + v5 st h v c) st' (u5 st h u) (v5 st h v) hist /\
    unc_zero nr nc st' = true.
Proof.
  intros Hinv Hlt Hfmt. destruct (uncovered_exist _ _ _ _ _ _ _ Hinv Hlt) as [r0 [c0 [Hr0 [Hc0 [Hrc0 Hcc0]]]]].
  pose proof Hinv as [Hd [[M1 [M2 M3]] [Hsl [Hcs [Hrs Hp]]]]].
  pose proof (step5_min_spec nr nc C' st) as Hmin.
  destruct (step5_min nr nc st) as [h|]; simpl in Hmin.
  2: { exfalso. apply (Hmin (h_dist st r0 c0)). exists r0, c0. auto. }
  destruct Hmin as [[r1 [c1 [Hr1 [Hc1 [Hrc1 [Hcc1 Eh]]]]]] Hle].
  assert (Hh : 0 <= h) by (rewrite Eh; apply Hd; assumption).
  assert (Hfh : fmt h) by (rewrite Eh; apply Hfmt; auto).
  exists h. split; [reflexivity|]. split; [exact Hh|]. split; [exact Hfh|].
  assert (Hle' : forall r c, inr r c -> h_rcov st r = false -> h_ccov st c = false -> h <= h_dist st r c).
  { intros r c [Hr Hc] A B. apply Hle. exists r, c. auto. }
  split; [exact Hle'|]. intros st' ->.
  split.
  - split; [|split; [|split; [|split; [|split]]]]; cbn [h_dist h_star h_prime h_ccov h_rcov].
    + intros r c Hr Hc. split; [ring|]. destruct (Hd r c Hr Hc) as [_ E2]. unfold step5_sub, step5_add.
      destruct (h_rcov st r) eqn:Er; destruct (h_ccov st c) eqn:Ec.
      * apply add64_nonneg; assumption.
      * apply sub64_nonneg. apply add64_ge; assumption.
      * exact E2.
      * apply sub64_nonneg. apply Hle'; auto.
    + split; [|split; assumption]. intros r c Hrc. destruct (M1 _ _ Hrc) as [A [B Z]].
      split; [exact A|]. split; [exact B|]. apply sub5_zero; auto.
    + unfold slack in *. destruct (nr <=? nc)%nat.
      * destruct Hsl as [V HV]. exists (V + h). intros c Hc. destruct (HV c Hc) as [A B].
        unfold v5. split.
        -- destruct (h_ccov st c); lra.
        -- intros Hn. destruct (h_ccov st c) eqn:Ec.
           ++ destruct (Hcs c Ec) as [r Hr]. rewrite Hn in Hr. discriminate.
           ++ rewrite (B Hn). reflexivity.
      * destruct Hsl as [U HU]. exists U. intros r Hr. destruct (HU r Hr) as [A B].
        unfold u5. split.
        -- destruct (h_rcov st r); lra.
        -- intros Hn. destruct (h_rcov st r) eqn:Er; [|apply B, Hn].
           destruct Hp as [_ [P2 [P3 _]]]. apply P2 in Er. destruct (P3 r Er) as [_ [c Hc']].
           rewrite Hn in Hc'. discriminate.
    + exact Hcs.
    + exact Hrs.
    + destruct Hp as [P1 [P2 [P3 [P4 P5]]]]. split; [exact P1|]. split; [exact P2|]. split; [exact P3|].
      split; [exact P4|]. intros l1 r l2 E. destruct (P5 _ _ _ E) as [p [Q1 [Q2 [Q3 [Q4 [Q5 Q6]]]]]].
      exists p. split; [exact Q1|]. split; [exact Q2|]. split; [|split; [exact Q4|split; [exact Q5|exact Q6]]].
      cbn [h_dist]. assert (Er : h_rcov st r = true) by (apply P2; subst hist; apply in_app_iff; simpl; auto).
      apply sub5_zero; [exact Hfh| |exact Q3]. rewrite Er, Q4. reflexivity.
  - unfold unc_zero. apply any_lt_true. exists c1. split; [exact Hc1|]. cbn [h_ccov h_rcov h_dist].
    rewrite Hcc1. cbn [negb andb]. apply any_lt_true. exists r1. split; [exact Hr1|]. rewrite Hrc1. cbn [negb andb].
    apply Reqb_eq. unfold step5_sub, step5_add. rewrite Hrc1, Hcc1, <- Eh. apply sub64_self.
Qed.

(** The duals of a full matching grow by at least [h]. *)
Definition dsum (u v : nat -> R) (b : list (nat * nat)) : R := rsum (map u (map fst b)) + rsum (map v (map snd b)).
Definition covR (f : nat -> bool) (x : nat) : R := if f x then 1 else 0.
Lemma sum_cov f l : rsum (map (covR f) l) = INR (length (filter f l)).
Proof.
  induction l as [|x l IH]; [reflexivity|]. cbn [map filter].
  change (rsum (covR f x :: map (covR f) l)) with (covR f x + rsum (map (covR f) l)). rewrite IH. unfold covR.
  destruct (f x); cbn [length]; [rewrite S_INR|]; lra.
Qed.
Lemma cov_le f n l : NoDup l -> (forall x, In x l -> (x < n)%nat) -> (length (filter f l) <= count_lt f n)%nat.
Proof.
  intros H1 H2. unfold count_lt. apply NoDup_incl_length; [apply NoDup_filter, H1|].
  intros x Hx. apply filter_In in Hx as [A B]. apply filter_In. split; [apply in_seq; specialize (H2 x A); lia|exact B].
Qed.
Lemma u5_sum st h u l : rsum (map (u5 st h u) l) = rsum (map u l) - h * rsum (map (covR (h_rcov st)) l).
Proof.
  induction l as [|x l IH]; [cbn; lra|]. cbn [map].
  change (rsum (u5 st h u x :: map (u5 st h u) l)) with (u5 st h u x + rsum (map (u5 st h u) l)).
  change (rsum (u x :: map u l)) with (u x + rsum (map u l)).
  change (rsum (covR (h_rcov st) x :: map (covR (h_rcov st)) l)) with (covR (h_rcov st) x + rsum (map (covR (h_rcov st)) l)).
  rewrite IH. unfold u5, covR. destruct (h_rcov st x); lra.
Qed.
Lemma v5_sum st h v l : rsum (map (v5 st h v) l) = rsum (map v l) + h * (INR (length l) - rsum (map (covR (h_ccov st)) l)).
Proof.
  induction l as [|x l IH]; [cbn; lra|]. cbn [map length]. rewrite S_INR.
  change (rsum (v5 st h v x :: map (v5 st h v) l)) with (v5 st h v x + rsum (map (v5 st h v) l)).
  change (rsum (v x :: map v l)) with (v x + rsum (map v l)).
  change (rsum (covR (h_ccov st) x :: map (covR (h_ccov st)) l)) with (covR (h_ccov st) x + rsum (map (covR (h_ccov st)) l)).
  rewrite IH. unfold v5, covR. destruct (h_ccov st x); lra.
Qed.
Lemma dual_gain C' st u v hist h b : inv nr nc C' st u v hist -> (nstars nr nc (h_star st) < md)%nat ->
  0 <= h -> plist_ok nr nc b -> length b = md ->
  dsum u v b + h <= dsum (u5 st h u) (v5 st h v) b.
Proof.
  intros Hinv Hlt Hh [B1 [B2 B3]] Hb. pose proof (covered_le _ _ _ _ _ _ _ Hinv) as Hc.
  unfold dsum. rewrite u5_sum, v5_sum, !sum_cov, map_length, Hb.
  assert (A1 : (length (filter (h_rcov st) (map fst b)) <= count_lt (h_rcov st) nr)%nat).
  { apply cov_le; [exact B1|]. intros x Hx. apply in_map_iff in Hx as [[r c] [<- Hx]]. apply (B3 r c Hx). }
  assert (A2 : (length (filter (h_ccov st) (map snd b)) <= count_lt (h_ccov st) nc)%nat).
  { apply cov_le; [exact B2|]. intros x Hx. apply in_map_iff in Hx as [[r c] [<- Hx]]. apply (B3 r c Hx). }
  set (x := length (filter (h_rcov st) (map fst b))) in *. set (y := length (filter (h_ccov st) (map snd b))) in *.
  assert (A3 : (x + y + 1 <= md)%nat) by lia. apply le_INR in A3. rewrite !plus_INR in A3. cbn [INR] in A3.
  assert (A4 : h * 1 <= h * (INR md - INR y - INR x)) by (apply Rmult_le_compat_l; lra). lra.
Qed.
End S5.

Section Err.
Variables nr nc K : nat.
Variable C : nat -> nat -> R.
Notation md := (Nat.min nr nc).
Notation inr r c := ((r < nr)%nat /\ (c < nc)%nat).
Hypothesis HC : forall r c, inr r c -> fmt (C r c) /\ 0 <= C r c <= bp 950.
Hypothesis Hnr : (0 < nr)%nat.
Hypothesis Hnc : (0 < nc)%nat.
Hypothesis HK : INR (md * K) * u64 <= / 64.
Hypothesis HK1 : (1 <= K)%nat.

Definition ebnd (k : nat) (H : R) (x : R) : R := u64 * x + 2 * INR k * u64 * (x + H) * g (2 * k + 1).
Definition Perr (H : R) (dist : nat -> nat -> R) (u v : nat -> R) (C' : nat -> nat -> R) (k : nat) : Prop :=
  0 <= H /\
  (forall r c, inr r c -> fmt (dist r c) /\ 0 <= dist r c <= (C r c + H) * g (2 * k) /\
     Rabs (C' r c - C r c) <= ebnd k H (C r c)) /\
  forall b, plist_ok nr nc b -> length b = md -> H <= dsum u v b.

Lemma md_pos : 1 <= INR md.
Proof. clear -Hnr Hnc. assert (1 <= md)%nat by lia. apply le_INR in H. exact H. Qed.
Lemma K_u k : (k <= K)%nat -> INR k * u64 <= / 64.
Proof.
  intros Hk. pose proof md_pos. pose proof u64_pos. rewrite mult_INR in HK.
  apply le_INR in Hk. pose proof (pos_INR k). pose proof (pos_INR K).
  assert (INR K * u64 <= INR md * INR K * u64).
  { apply Rmult_le_compat_r; [lra|]. assert (1 * INR K <= INR md * INR K) by (apply Rmult_le_compat_r; lra). lra. }
  assert (INR k * u64 <= INR K * u64) by (apply Rmult_le_compat_r; lra). lra.
Qed.
Lemma md_k_u k : (k <= K)%nat -> INR md * INR k * u64 <= / 64.
Proof.
  intros Hk. rewrite mult_INR in HK. pose proof u64_pos. pose proof md_pos. apply le_INR in Hk.
  assert (INR md * INR k * u64 <= INR md * INR K * u64) by (apply Rmult_le_compat_r; [lra|]; apply Rmult_le_compat_l; lra). lra.
Qed.
Lemma u_64 : u64 <= / 64.
Proof. pose proof (K_u 1 HK1). cbn [INR] in H. lra. Qed.
Lemma g2 k : (k <= K)%nat -> g (2 * k + 2) <= 2.
Proof.
  intros Hk. apply g_le_2. rewrite plus_INR, mult_INR. pose proof (K_u k Hk). pose proof u_64. cbn [INR]. lra.
Qed.

Lemma pcost_err H dist u v C' k b : (k <= K)%nat -> Perr H dist u v C' k -> plist_ok nr nc b -> length b = md ->
  Rabs (pcost C' b - pcost C b) <= u64 * pcost C b + 4 * INR k * u64 * (pcost C b + INR md * H).
Proof.
  intros Hk [H0 [Hd _]] [_ [_ B3]] Hb. unfold pcost.
  eapply Rle_trans.
  { apply (sum_diff_le _ _ (fun rc => ebnd k H (C (fst rc) (snd rc)))).
    intros [r c] Hrc. cbn [fst snd]. apply Hd. apply (B3 r c Hrc). }
  assert (E : (forall rc, In rc b -> ebnd k H (C (fst rc) (snd rc)) <= (u64 + 4 * INR k * u64) * C (fst rc) (snd rc) + 4 * INR k * u64 * H)).
  { intros [r c] Hrc. cbn [fst snd]. destruct (HC r c (B3 r c Hrc)) as [_ [HC0 _]]. unfold ebnd.
    assert (Hg : g (2 * k + 1) <= 2) by (eapply Rle_trans; [apply g_mono|apply (g2 k Hk)]; lia).
    assert (X : 0 <= 2 * INR k * u64 * (C r c + H)).
    { pose proof (pos_INR k). pose proof u64_pos. repeat apply Rmult_le_pos; lra. }
    assert (2 * INR k * u64 * (C r c + H) * g (2 * k + 1) <= 2 * INR k * u64 * (C r c + H) * 2) by (apply Rmult_le_compat_l; lra).
    lra. }
  eapply Rle_trans; [apply (sum_le _ _ b E)|].
  rewrite (sum_affine (fun rc => C (fst rc) (snd rc))). rewrite Hb. apply Req_le. unfold pcost.
  change (RBase.rsum (map (fun rc : nat * nat => C (fst rc) (snd rc)) b)) with (rsum (map (fun rc : nat * nat => C (fst rc) (snd rc)) b)). ring.
Qed.
Lemma pcost_C_nonneg b : plist_ok nr nc b -> 0 <= pcost C b.
Proof.
  intros [_ [_ B3]]. apply qsum_nonneg. intros x Hx. apply in_map_iff in Hx as [[r c] [<- Hx]]. cbn [fst snd].
  apply HC. apply (B3 r c Hx).
Qed.
Lemma H_opt H dist u v C' k b : (k <= K)%nat -> Perr H dist u v C' k -> duals nr nc C' dist u v -> plist_ok nr nc b -> length b = md ->
  H <= 2 * pcost C b.
Proof.
  intros Hk HP HD Hb Hlb. pose proof (pcost_err _ _ _ _ _ _ _ Hk HP Hb Hlb) as He.
  destruct HP as [H0 [Hd Hs]]. specialize (Hs b Hb Hlb).
  pose proof (pcost_duals nr nc C' dist u v b HD Hb) as E.
  assert (Z : 0 <= pcost dist b).
  { apply qsum_nonneg. intros x Hx. apply in_map_iff in Hx as [[r c] [<- Hx]]. cbn [fst snd].
    apply Hd. apply (proj2 (proj2 Hb) r c Hx). }
  pose proof (pcost_C_nonneg b Hb) as Hp. pose proof u_64 as Hu. pose proof u64_pos as Hu0.
  pose proof (K_u k Hk) as K1. pose proof (md_k_u k Hk) as K2. pose proof (pos_INR k) as Kp. pose proof md_pos as Mp.
  assert (A : H <= pcost C' b) by (unfold dsum in Hs; lra).
  apply Rabs_le_inv in He. 
  assert (T1 : u64 * pcost C b <= / 64 * pcost C b) by (apply Rmult_le_compat_r; lra).
  assert (T2 : INR k * u64 * pcost C b <= / 64 * pcost C b) by (apply Rmult_le_compat_r; lra).
  assert (T3 : INR md * INR k * u64 * H <= / 64 * H) by (apply Rmult_le_compat_r; lra).
  assert (T4 : 4 * INR k * u64 * (pcost C b + INR md * H) = 4 * (INR k * u64 * pcost C b) + 4 * (INR md * INR k * u64 * H)) by ring.
  lra.
Qed.
(** Some full matching. *)
Definition dg : list (nat * nat) := pairs (diag_assign nr nc).
Lemma dg_ok : plist_ok nr nc dg /\ length dg = md.
Proof. destruct (diag_assignment nr nc) as [A B]. split; [apply assignment_plist, A|exact B]. Qed.
Lemma dg_cost : pcost C dg <= INR md * bp 950.
Proof.
  destruct dg_ok as [D1 D2]. pose proof (pcost_bounds C 0%R (bp 950) dg) as P.
  destruct P as [_ P]; [intros r c Hrc; apply HC; apply (proj2 (proj2 D1) r c Hrc)|].
  rewrite D2 in P. unfold Rn in P. rewrite <- INR_IZR_INZ in P. lra.
Qed.
Lemma H_small H dist u v C' k : (k <= K)%nat -> Perr H dist u v C' k -> duals nr nc C' dist u v -> H <= bp 998.
Proof.
  intros Hk HP HD. destruct dg_ok as [D1 D2]. pose proof (H_opt _ _ _ _ _ _ _ Hk HP HD D1 D2) as A.
  pose proof dg_cost as B. pose proof (md_k_u 1 HK1) as M. cbn [INR] in M. rewrite Rmult_1_r in M.
  assert (M1 : INR md <= bp 47).
  { apply Rmult_le_reg_r with u64; [apply u64_pos|]. unfold u64 in *. rewrite <- bpow_plus. change (47 + -53)%Z with (-6)%Z.
    change (bp (-6)) with (/ 64). exact M. }
  assert (M2 : INR md * bp 950 <= bp 47 * bp 950) by (apply Rmult_le_compat_r; [apply bpow_ge_0|exact M1]).
  rewrite <- bpow_plus in M2. change (47 + 950)%Z with 997%Z in M2.
  replace (bp 998) with (2 * bp 997); [lra|]. change 998%Z with (1 + 997)%Z. rewrite (bpow_plus radix2 1 997). change (bp 1) with 2. reflexivity.
Qed.
Lemma fits_le x : 0 <= x -> x <= bp 1003 -> fits x = true.
Proof. intros H0 H1. unfold fits. apply Rleb_le. rewrite Rabs_pos_eq by exact H0. eapply Rle_trans; [exact H1|apply fmax64_big]. Qed.

Lemma step5_err st u v hist C' k : inv nr nc C' st u v hist -> (exists H, Perr H (h_dist st) u v C' k) ->
  (nstars nr nc (h_star st) < md)%nat -> (k < K)%nat ->
  exists st' u' v' C'', step5f nr nc st = Ok st' /\ inv nr nc C'' st' u' v' hist /\
    h_star st' = h_star st /\ unc_zero nr nc st' = true /\ exists H, Perr H (h_dist st') u' v' C'' (S k).
Proof.
  intros Hinv [H [H0 [Hd Hs]]] Hlt Hk.
  destruct (step5_inv nr nc C' st u v hist Hinv Hlt) as [h [Em [Hh [Hfh [Hmin Hst]]]]]; [intros r c Hrc; apply Hd, Hrc|].
  destruct (Hst _ eq_refl) as [Hinv' Hz]. set (st' := {| h_dist := step5_sub st h; h_star := h_star st; h_prime := h_prime st;
                         h_ccov := h_ccov st; h_rcov := h_rcov st |}) in *.
  set (C'' := fun r c => step5_sub st h r c + u5 st h u r + v5 st h v c) in *.
  pose proof u64_pos as Hu0. pose proof u_64 as Hu1.
  assert (Hadd : forall r c, inr r c -> fmt (step5_add st h r c) /\ 0 <= step5_add st h r c /\ step5_add st h r c <= (h_dist st r c + h) * (1 + u64)).
  { intros r c Hrc. destruct (Hd r c Hrc) as [F [[D0 D1] _]]. unfold step5_add.
    destruct (h_rcov st r).
    - split; [apply rnd_fmt|]. split; [apply add64_nonneg; lra|]. pose proof (add_err _ _ F Hfh) as E. apply Rabs_le_inv in E.
      rewrite Rabs_pos_eq in E by lra. lra.
    - split; [exact F|]. split; [exact D0|]. assert (0 <= (h_dist st r c + h) * u64) by (apply Rmult_le_pos; lra). lra. }
  assert (Hsub : forall r c, inr r c -> fmt (step5_sub st h r c) /\ 0 <= step5_sub st h r c /\
     step5_sub st h r c <= (h_dist st r c + h) * (1 + u64) * (1 + u64) /\
     Rabs (C'' r c - C' r c) <= 2 * u64 * (h_dist st r c + h) * (1 + u64)).
  { intros r c Hrc. destruct (Hd r c Hrc) as [F [[D0 D1] _]]. destruct (Hadd r c Hrc) as [AF [A0 A1]].
    destruct Hinv as [HD _]. destruct (HD r c (proj1 Hrc) (proj2 Hrc)) as [ED _].
    destruct Hinv' as [HD' _]. destruct (HD' r c (proj1 Hrc) (proj2 Hrc)) as [_ ED0]. cbn [h_dist st'] in ED0.
    assert (Q0 : 0 <= u64 * (h_dist st r c + h)) by (apply Rmult_le_pos; lra).
    assert (Q1 : 0 <= u64 * (u64 * (h_dist st r c + h))) by (apply Rmult_le_pos; lra).
    assert (EC : C'' r c - C' r c = step5_sub st h r c - h_dist st r c + (u5 st h u r - u r) + (v5 st h v c - v c)) by (unfold C''; lra).
    split; [|split; [exact ED0|]].
    { unfold step5_sub. destruct (h_ccov st c); [exact AF|apply rnd_fmt]. }
    rewrite EC. unfold u5, v5. specialize (Hmin r c Hrc). revert A0 A1 AF ED0. unfold step5_sub, step5_add.
    destruct (h_rcov st r) eqn:Er; destruct (h_ccov st c) eqn:Ec; intros A0 A1 AF ED0.
    - pose proof (add_err _ _ F Hfh) as E. rewrite (Rabs_pos_eq (_ + h)) in E by lra.
      split; [lra|]. replace (_ + (u r - h - u r) + _) with (add64 (h_dist st r c) h - (h_dist st r c + h)) by ring. lra.
    - pose proof (add_err _ _ F Hfh) as E. rewrite (Rabs_pos_eq (_ + h)) in E by lra.
      pose proof (sub_err _ _ AF Hfh) as E2. pose proof (add64_ge (h_dist st r c) h Hfh D0) as G.
      set (s := add64 (h_dist st r c) h) in *. rewrite (Rabs_pos_eq (s - h)) in E2 by lra.
      apply Rabs_le_inv in E. apply Rabs_le_inv in E2.
      assert (S1 : s - h <= h_dist st r c + u64 * (h_dist st r c + h)) by lra.
      assert (S2 : u64 * (s - h) <= u64 * (h_dist st r c + u64 * (h_dist st r c + h))) by (apply Rmult_le_compat_l; lra).
      assert (S3 : 0 <= u64 * h) by (apply Rmult_le_pos; lra).
      split; [lra|]. apply Rabs_le. split; lra.
    - split; [lra|]. replace (_ + (u r - u r) + _) with 0 by ring. rewrite Rabs_R0. lra.
    - pose proof (sub_err _ _ F Hfh) as E. specialize (Hmin eq_refl eq_refl). rewrite (Rabs_pos_eq (_ - h)) in E by lra.
      assert (S3 : 0 <= u64 * h) by (apply Rmult_le_pos; lra).
      split; [pose proof (sub64_le _ h F Hh); lra|].
      replace (_ + (u r - u r) + _) with (sub64 (h_dist st r c) h - (h_dist st r c - h)) by ring. lra. }
  assert (HP' : Perr (H + h) (h_dist st') (u5 st h u) (v5 st h v) C'' (S k)).
  { split; [lra|]. split.
    - intros r c Hrc. destruct (Hd r c Hrc) as [F [[D0 D1] D2]]. destruct (Hsub r c Hrc) as [SF [S0 [S1 S2]]].
      destruct (HC r c Hrc) as [_ [C0 _]]. cbn [h_dist st'].
      pose proof (g_pos (2 * k)) as G1.
      assert (B : h_dist st r c + h <= (C r c + (H + h)) * g (2 * k)).
      { assert (h * 1 <= h * g (2 * k)) by (apply Rmult_le_compat_l; lra). lra. }
      split; [exact SF|]. split; [split; [exact S0|]|].
      + replace (2 * S k)%nat with (S (S (2 * k))) by lia. rewrite !g_S.
        eapply Rle_trans; [exact S1|]. rewrite <- !Rmult_assoc. repeat apply Rmult_le_compat_r; try lra.
      + replace (C'' r c - C r c) with ((C'' r c - C' r c) + (C' r c - C r c)) by ring.
        eapply Rle_trans; [apply Rabs_triang|]. 
        assert (S2' : Rabs (C'' r c - C' r c) <= 2 * u64 * (C r c + (H + h)) * g (2 * k + 1)).
        { eapply Rle_trans; [exact S2|]. replace (2 * k + 1)%nat with (S (2 * k)) by lia. rewrite g_S.
          replace (2 * u64 * (C r c + (H + h)) * (g (2 * k) * (1 + u64))) with (2 * u64 * ((C r c + (H + h)) * g (2 * k)) * (1 + u64)) by ring.
          apply Rmult_le_compat_r; [lra|]. apply Rmult_le_compat_l; lra. }
        unfold ebnd in *. rewrite S_INR. pose proof (pos_INR k) as Kp.
        assert (G2 : g (2 * k + 1) <= g (2 * S k + 1)) by (apply g_mono; lia). pose proof (g_pos (2 * k + 1)) as G3.
        assert (X1 : 2 * INR k * u64 * (C r c + H) * g (2 * k + 1) <= 2 * INR k * u64 * (C r c + (H + h)) * g (2 * S k + 1)).
        { apply Rmult_le_compat; [|lra| |exact G2].
          - repeat apply Rmult_le_pos; lra.
          - apply Rmult_le_compat_l; [repeat apply Rmult_le_pos; lra|lra]. }
        assert (X2 : 2 * u64 * (C r c + (H + h)) * g (2 * k + 1) <= 2 * u64 * (C r c + (H + h)) * g (2 * S k + 1)).
        { apply Rmult_le_compat_l; [repeat apply Rmult_le_pos; lra|exact G2]. }
        lra.
    - intros b Hb Hlb. pose proof (dual_gain nr nc C' st u v hist h b Hinv Hlt Hh Hb Hlb) as G. specialize (Hs b Hb Hlb). lra. }
  exists st', (u5 st h u), (v5 st h v), C''. split; [|split; [exact Hinv'|split; [reflexivity|split; [exact Hz|exists (H + h); exact HP']]]].
  unfold step5f. rewrite Em.
  assert (Hsm : H + h <= bp 998) by (eapply (H_small _ _ _ _ _ (S k)); [exact Hk|exact HP'|apply Hinv']).
  assert (Hall : all_lt (fun r => all_lt (fun c => fits (step5_add st h r c) && fits (step5_sub st h r c)) nc) nr = true).
  { apply all_lt_true. intros r Hr. apply all_lt_true. intros c Hc.
    destruct (Hadd r c (conj Hr Hc)) as [_ [A0 A1]]. destruct (Hsub r c (conj Hr Hc)) as [_ [S0 [S1 _]]].
    destruct (HC r c (conj Hr Hc)) as [_ [_ C1]]. destruct (Hd r c (conj Hr Hc)) as [_ [[D0 D1] _]].
    assert (Q : (h_dist st r c + h) * (1 + u64) * (1 + u64) <= bp 1003).
    { assert (G1 : g (2 * k) * (1 + u64) * (1 + u64) <= 2).
      { rewrite <- !g_S. replace (S (S (2 * k))) with (2 * k + 2)%nat by lia. apply g2. lia. }
      assert (B : h_dist st r c + h <= (C r c + (H + h)) * g (2 * k)).
      { pose proof (g_pos (2 * k)). assert (h * 1 <= h * g (2 * k)) by (apply Rmult_le_compat_l; lra). lra. }
      assert (B1 : (h_dist st r c + h) * (1 + u64) * (1 + u64) <= (C r c + (H + h)) * (g (2 * k) * (1 + u64) * (1 + u64))).
      { rewrite <- !Rmult_assoc. repeat apply Rmult_le_compat_r; lra. }
      assert (B2 : (C r c + (H + h)) * (g (2 * k) * (1 + u64) * (1 + u64)) <= (bp 998 + bp 998) * 2).
      { assert (bp 950 <= bp 998) by (apply bpow_le; lia). pose proof (g_pos (2 * k)).
        apply Rmult_le_compat; try lra; [|repeat apply Rmult_le_pos; lra]. destruct (HC r c (conj Hr Hc)) as [_ [C0 _]]. lra. }
      replace (bp 1003) with (32 * bp 998); [pose proof (bpow_ge_0 radix2 998); lra|].
      change 1003%Z with (5 + 998)%Z. rewrite (bpow_plus radix2 5 998). change (bp 5) with 32. reflexivity. }
    rewrite andb_true_iff. split; apply fits_le; try assumption; [|lra].
    assert ((h_dist st r c + h) * (1 + u64) * 1 <= (h_dist st r c + h) * (1 + u64) * (1 + u64)) by (apply Rmult_le_compat_l; [apply Rmult_le_pos; lra|lra]). lra. }
  rewrite Hall. reflexivity.
Qed.

Hypothesis HKf : (hung_fuel nr nc <= K)%nat.
(** The matching found is optimal for a slightly changed matrix. *)
Theorem solvef_err : exists star, solvef nr nc C = Ok star /\
  ended nr nc K (fun dist u v C' k => exists H, Perr H dist u v C' k) star.
Proof.
  apply solvef_spec; auto.
  - intros st u v hist C' k A B D E. exact (step5_err st u v hist C' k A B D E).
  - intros dist u v Hd Hu Hv. exists (fun r c => dist r c + u r + v c). split.
    + intros r c Hr Hc. split; [ring|]. destruct (Hd r c Hr Hc) as [m [Hm [_ [-> _]]]]. apply sub64_nonneg. lra.
    + exists 0. split; [lra|]. split.
      * intros r c Hrc. destruct (Hd r c (proj1 Hrc) (proj2 Hrc)) as [m [Hm [[r' [c' [Hr' [Hc' Em]]]] [E Es]]]].
        destruct (HC r c Hrc) as [F [C0 _]]. assert (Fm : fmt m) by (rewrite Em; apply HC; auto).
        rewrite E. split; [apply rnd_fmt|]. split; [split; [apply sub64_nonneg; lra|]|].
        -- pose proof (sub64_le (C r c) m F (proj1 Hm)). change (2 * 0)%nat with 0%nat. unfold g. cbn [pow]. lra.
        -- replace (_ - C r c) with (sub64 (C r c) m - (C r c - m)) by lra.
           eapply Rle_trans; [apply sub_err; assumption|]. rewrite Rabs_pos_eq by lra. unfold ebnd. cbn [INR]. pose proof u64_pos.
           assert (u64 * (C r c - m) <= u64 * C r c) by (apply Rmult_le_compat_l; lra). lra.
      * intros b [B1 [B2 B3]] Hb. unfold dsum.
        assert (0 <= rsum (map u (map fst b))) by (apply qsum_nonneg; intros x Hx; rewrite map_map in Hx; apply in_map_iff in Hx as [[r c] [<- Hx]]; apply Hu, (B3 r c Hx)).
        assert (0 <= rsum (map v (map snd b))) by (apply qsum_nonneg; intros x Hx; rewrite map_map in Hx; apply in_map_iff in Hx as [[r c] [<- Hx]]; apply Hv, (B3 r c Hx)).
        lra.
  - intros r c Hr Hc. apply HC; auto.
Qed.

(** Relative near-optimality of the matching. *)
Definition rel : R := 32 * (INR (md * K) * u64).
Theorem near_opt star l b : ended nr nc K (fun dist u v C' k => exists H, Perr H dist u v C' k) star ->
  plist_ok nr nc l -> (forall r c, In (r, c) l <-> star r c = true) -> length l = md ->
  plist_ok nr nc b -> length b = md -> pcost C l <= pcost C b * (1 + rel).
Proof.
  intros [dist [u [v [C' [k [[H HP] [Hk [HD [HM [HS HN]]]]]]]]]] Hl Hls Hll Hb Hlb.
  assert (Hso : solved nr nc C' star) by (exists dist, u, v; auto).
  pose proof (solved_optimal nr nc C' star l b Hso Hl Hls Hb Hlb Hll) as Hopt.
  pose proof (pcost_err _ _ _ _ _ _ _ Hk HP Hl Hll) as E1. pose proof (pcost_err _ _ _ _ _ _ _ Hk HP Hb Hlb) as E2.
  pose proof (H_opt _ _ _ _ _ _ _ Hk HP HD Hb Hlb) as HH. pose proof (pcost_C_nonneg b Hb) as Pb. pose proof (pcost_C_nonneg l Hl) as Pl.
  apply Rabs_le_inv in E1. apply Rabs_le_inv in E2.
  set (x := INR (md * K) * u64) in *. pose proof u64_pos as Hu. pose proof md_pos as Mp. pose proof (pos_INR k) as Kp.
  assert (K1 : 1 <= INR K) by (apply (le_INR 1), HK1).
  assert (Ek : INR k <= INR K) by (apply le_INR, Hk).
  assert (Ex : x = INR md * INR K * u64) by (unfold x; rewrite mult_INR; reflexivity).
  assert (Kx : INR K * u64 <= x).
  { rewrite Ex. apply Rmult_le_compat_r; [lra|]. assert (1 * INR K <= INR md * INR K) by (apply Rmult_le_compat_r; lra). lra. }
  assert (kx : INR k * u64 <= x) by (assert (INR k * u64 <= INR K * u64) by (apply Rmult_le_compat_r; lra); lra).
  assert (ux : u64 <= x) by (assert (1 * u64 <= INR K * u64) by (apply Rmult_le_compat_r; lra); lra).
  assert (mkx : INR md * INR k * u64 <= x).
  { rewrite Ex. apply Rmult_le_compat_r; [lra|]. apply Rmult_le_compat_l; lra. }
  assert (T : forall y, 0 <= y -> u64 * y <= x * y /\ INR k * u64 * y <= x * y /\ INR md * INR k * u64 * y <= x * y)
    by (intros y Hy; repeat split; apply Rmult_le_compat_r; assumption).
  destruct (T _ Pb) as [T1 [T2 T3]]. destruct (T _ Pl) as [T4 [T5 T6]].
  assert (H0 : 0 <= H) by apply HP.
  assert (T7 : INR md * INR k * u64 * H <= x * (2 * pcost C b)).
  { apply Rmult_le_compat; try lra. repeat apply Rmult_le_pos; lra. }
  assert (E1' : pcost C l <= pcost C' l + u64 * pcost C l + 4 * (INR k * u64 * pcost C l) + 4 * (INR md * INR k * u64 * H)) by lra.
  assert (E2' : pcost C' b <= pcost C b + u64 * pcost C b + 4 * (INR k * u64 * pcost C b) + 4 * (INR md * INR k * u64 * H)) by lra.
  assert (F : pcost C l * (1 - 5 * x) <= pcost C b * (1 + 21 * x)) by lra.
  assert (X0 : 0 <= x) by lra.
  unfold rel. fold x.
  assert (G : (1 + 21 * x) <= (1 + 32 * x) * (1 - 5 * x)).
  { assert (x * x <= x * / 64) by (apply Rmult_le_compat_l; lra). lra. }
  apply Rmult_le_reg_r with (1 - 5 * x); [lra|]. eapply Rle_trans; [exact F|]. rewrite Rmult_assoc. apply Rmult_le_compat_l; lra.
Qed.
End Err.
