(** OSPA in double precision (C165, C166). *)
From Coq Require Import Reals ZArith Lra Lia Psatz List.
From Flocq Require Import Core Relative.
From Verif Require Import RBase OspaModel OspaSpec OspaProofs OspaProps FltModel FltSpec FltIeee FltGibbsModel FltGibbs FltGibbsDraw FltGibbsProps FltNear FltOspaModel FltOspaSpec FltOspa FltOspaStep.
Local Open Scope R_scope.

(** * C165: accuracy
    Whenever the exact computation has a result, so has the computation in
    double precision, and localization, cardinality and OSPA of every time step
    are relatively accurate. *)
Theorem C165_ospa_double_accurate :
  forall dim inv det pw asum csum lsa lsa64 kl est tru c p ue me tcov ecov N r me' c',
  lsa_ok lsa -> lsa64_ok kl lsa64 -> pow_ok pw -> good_sum asum -> good_sum csum ->
  norm_core me -> (1 <= p)%nat -> moderate_cut c p ->
  (forall l, In l est \/ In l tru -> (length l <= N)%nat) ->
  (forall x y, occurs est x -> occurs tru y -> float_state dim x /\ float_state dim y /\
     moderate_pair dim (val (core dim inv det (ospa_method me tcov ecov) x y)) p x y) ->
  4 * INR (ospa_err dim p N kl) * u64 <= 1 ->
  calculate_ospa dim inv det lsa est tru c p ue me tcov ecov = Ok (r, me', c') ->
  exists r64, calculate_ospa64 dim pw asum csum lsa64 est tru c p ue me tcov ecov = Ok (r64, me', c') /\ length r64 = length r /\
    forall t, (t < length r)%nat ->
      let e := nth t r (0, 0) in let f := nth t r64 (0, 0) in let tol := 2 * INR (ospa_err dim p N kl) * u64 in
      Rabs (fst f - fst e) <= tol * fst e /\ Rabs (snd f - snd e) <= tol * snd e /\
      Rabs (ospa_val64 f - ospa_val e) <= tol * ospa_val e.
Proof.
  intros dim inv det pw asum csum lsa lsa64 kl est tru c p ue me tcov ecov N r me' c' HL HL64 Hpw Ha Hc Hm Hp Hcut HN Hpair HK E.
  pose proof (ospa_method_symm me tcov ecov Hm) as S.
  assert (HK4 : INR (ospa_err dim p N kl) * u64 <= / 4) by lra.
  unfold calculate_ospa in E. unfold calculate_ospa64. rewrite (symm_cut _ c S) in *.
  destruct (mapM (fun et => ospa_step dim inv det lsa (ospa_method me tcov ecov) c p ue (fst et) (snd et)) (combine est tru)) as [r0|] eqn:Er; [|discriminate].
  cbn [bind] in E. destruct (length est <? length tru)%nat eqn:El; [discriminate|]. injection E as -> <- <-.
  assert (G : forall et lk, In et (combine est tru) -> ospa_step dim inv det lsa (ospa_method me tcov ecov) c p ue (fst et) (snd et) = Ok lk ->
    exists lk64, ospa_step64 dim pw asum csum lsa64 (ospa_method me tcov ecov) c p ue (fst et) (snd et) = Ok lk64 /\
      near (ospa_err dim p N kl - 2) (fst lk64) (fst lk) /\ near (ospa_err dim p N kl - 2) (snd lk64) (snd lk) /\
      near (ospa_err dim p N kl) (ospa_val64 lk64) (fst lk + snd lk)).
  { intros [es ts] [l k] Hin Hs. cbn [fst snd] in *. pose proof (in_combine_l _ _ _ _ Hin) as I1. pose proof (in_combine_r _ _ _ _ Hin) as I2.
    destruct (step_near dim inv det pw asum csum lsa lsa64 kl Hpw Ha Hc HL HL64 _ S c p N Hp Hcut HK4 ue es ts l k) as [l64 [k64 X]];
      [apply HN; now left|apply HN; now right| |exact Hs|exists (l64, k64); exact X].
    intros x y Hx Hy. apply Hpair; [exists es; now split|exists ts; now split]. }
  assert (Hb : forall lk, In lk r -> 0 <= fst lk /\ 0 <= snd lk).
  { intros lk Hin. apply mapM_ok in Er.
    assert (exists et, In et (combine est tru) /\ ospa_step dim inv det lsa (ospa_method me tcov ecov) c p ue (fst et) (snd et) = Ok lk).
    { clear -Er Hin. induction Er as [|et lk' l l' H Hr IH]; [easy|]. destruct Hin as [->|Hin]; [exists et; split; [now left|exact H]|].
      destruct (IH Hin) as [et' [A B]]. exists et'. split; [now right|exact B]. }
    destruct H as [et [_ Hs]]. destruct lk as [l k].
    assert (Hh : ospa_method me tcov ecov <> Hellinger) by (destruct S as [-> | ->]; discriminate).
    destruct (step_bounds dim inv det lsa HL (ospa_method me tcov ecov) c p ue (fst et) (snd et) l k Hh ltac:(destruct Hcut as [_ [Pc _]]; lra) Hp Hs) as [A B].
    cbn [fst snd]. lra. }
  assert (Hr : exists r64, mapM (fun et => ospa_step64 dim pw asum csum lsa64 (ospa_method me tcov ecov) c p ue (fst et) (snd et)) (combine est tru) = Ok r64 /\
     Forall2 (fun lk64 lk => near (ospa_err dim p N kl - 2) (fst lk64) (fst lk) /\ near (ospa_err dim p N kl - 2) (snd lk64) (snd lk) /\
      near (ospa_err dim p N kl) (ospa_val64 lk64) (fst lk + snd lk)) r64 r).
  { apply mapM_ok in Er. clear -Er G. set (cs := combine est tru) in *. clearbody cs. revert G. induction Er as [|et lk l l' H Hr IH]; intros G; [exists []; split; [reflexivity|constructor]|].
    destruct (G et lk (or_introl eq_refl) H) as [lk64 [Es Hn]]. destruct IH as [r64 [Em Hf]]; [intros et' lk' Hin' Hs'; exact (G et' lk' (or_intror Hin') Hs')|].
    exists (lk64 :: r64). cbn [mapM]. rewrite Es. cbn [bind]. rewrite Em. split; [reflexivity|now constructor]. }
  destruct Hr as [r64 [Em Hf]]. exists r64. rewrite Em. cbn [bind]. split; [reflexivity|].
  apply Forall2_nth in Hf as [Ln Hf]. split; [exact Ln|]. intros t Ht. set (e := nth t r (0, 0)). set (f := nth t r64 (0, 0)). set (tol := 2 * INR (ospa_err dim p N kl) * u64). specialize (Hf t (0, 0) (0, 0) ltac:(lia)). fold e f in Hf.
  destruct (Hb e (nth_In _ _ Ht)) as [P1 P2]. destruct Hf as [N1 [N2 N3]].
  assert (W : forall x v, 0 <= x -> near (ospa_err dim p N kl - 2) v x -> Rabs (v - x) <= tol * x).
  { intros x v Px Nv. apply near_err; [exact Px|lra|]. apply near_weaken with (ospa_err dim p N kl - 2)%nat; [lia|apply (near_nonneg_l _ _ _ Px Nv)|exact Px|exact Nv]. }
  split; [apply W; assumption|]. split; [apply W; assumption|]. apply near_err; [unfold ospa_val; lra|lra|exact N3].
Qed.

(** In particular a result that is exactly zero is computed as exactly zero:
    OSPA between a set and itself. *)
Theorem C165_ospa_double_self_zero :
  forall dim inv det pw asum csum lsa lsa64 kl est c p me tcov ecov N r me' c',
  lsa_ok lsa -> lsa64_ok kl lsa64 -> pow_ok pw -> good_sum asum -> good_sum csum ->
  norm_core me -> (1 <= p)%nat -> moderate_cut c p ->
  (forall l, In l est -> (length l <= N)%nat) ->
  (forall x y, occurs est x -> occurs est y -> float_state dim x /\ float_state dim y /\
     moderate_pair dim (val (core dim inv det (ospa_method me tcov ecov) x y)) p x y) ->
  4 * INR (ospa_err dim p N kl) * u64 <= 1 ->
  calculate_ospa dim inv det lsa est est c p true me tcov ecov = Ok (r, me', c') ->
  exists r64, calculate_ospa64 dim pw asum csum lsa64 est est c p true me tcov ecov = Ok (r64, me', c') /\
    length r64 = length est /\ forall f, In f r64 -> f = (0, 0) /\ ospa_val64 f = 0.
Proof.
  intros dim inv det pw asum csum lsa lsa64 kl est c p me tcov ecov N r me' c' HL HL64 Hpw Ha Hc Hm Hp Hcut HN Hpair HK E.
  destruct (C165_ospa_double_accurate dim inv det pw asum csum lsa lsa64 kl est est c p true me tcov ecov N r me' c' HL HL64 Hpw Ha Hc Hm Hp Hcut
    (fun l H => match H with or_introl h => HN l h | or_intror h => HN l h end) Hpair HK E) as [r64 [E64 [Ln H]]].
  destruct (C24_ospa_self_zero dim inv det lsa est c p me tcov ecov r me' c' HL ltac:(destruct Hm as [-> | [-> | ->]]; discriminate)
    ltac:(destruct Hcut as [_ [Pc _]]; lra) Hp E) as [Lr Z].
  exists r64. split; [exact E64|]. split; [congruence|]. intros f Hf. destruct (In_nth _ _ (0, 0) Hf) as [t [Ht <-]]. rewrite Ln in Ht.
  specialize (H t Ht). cbn zeta in H. rewrite (Z _ (nth_In _ (0, 0) Ht)) in H. destruct H as [H1 [H2 _]]. cbn [fst snd] in H1, H2.
  rewrite Rminus_0_r, Rmult_0_r in H1, H2. destruct (nth t r64 (0, 0)) as [a b]. cbn [fst snd] in *.
  assert (A : forall x, Rabs x <= 0 -> x = 0).
  { intros x Hx. destruct (Req_dec x 0) as [|N0]; [assumption|]. pose proof (Rabs_pos_lt x N0). lra. }
  rewrite (A a H1), (A b H2). split; [reflexivity|]. unfold ospa_val64. cbn [fst snd]. rewrite add64_0 by apply rep64_0. reflexivity.
Qed.

(** * C166: the cut-off as a bound for order 1 *)
Lemma rnd_up m e x : (2 ^ 52 < m < 2 ^ 53)%Z -> (-1074 <= e)%Z -> (IZR m - / 2) * bp e < x -> IZR m * bp e <= rnd64 x.
Proof.
  intros Hm He Hx. apply round_N_ge_midp; [exact valid64|apply dyad_format; [lia|exact He]|].
  assert (Em : mag radix2 (IZR (m - 1) * bp e) = (53 + e)%Z :> Z).
  { apply mag_unique_pos. rewrite (bpow_plus radix2 53 e). replace (53 + e - 1)%Z with (52 + e)%Z by lia. rewrite bpow_plus. split.
    - apply Rmult_le_compat_r; [apply bpow_ge_0|]. change (bp 52) with (IZR (2 ^ 52)). apply IZR_le. lia.
    - apply Rmult_lt_compat_r; [apply bpow_gt_0|]. change (bp 53) with (IZR (2 ^ 53)). apply IZR_lt. lia. }
  assert (F1 : generic_format radix2 fexp64 (IZR (m - 1) * bp e)) by (apply dyad_format; [lia|exact He]).
  assert (P1 : 0 < IZR (m - 1) * bp e) by (apply Rmult_lt_0_compat; [apply IZR_lt; lia|apply bpow_gt_0]).
  assert (Es : succ radix2 fexp64 (IZR (m - 1) * bp e) = IZR m * bp e).
  { rewrite succ_eq_pos by lra. rewrite ulp_neq_0 by lra. unfold cexp. rewrite Em. unfold fexp64, FLT_exp. rewrite Z.max_l by lia.
    replace (53 + e - 53)%Z with e by lia. rewrite minus_IZR. ring. }
  rewrite <- Es at 2. rewrite pred_succ by (exact valid64 || exact F1). rewrite minus_IZR. lra.
Qed.

(** One estimate at 0, five objects at 100, 200, ..., 500: OSPA with cut-off 7
    and order 1 is 7, but the double precision result is larger. *)
Definition at_pos (n : nat) : slot := Some {| st := fun _ => INR n; cv := None |}.
Definition one_est : arr := [[at_pos 0]].
Definition five_tru : arr := [[at_pos 100; at_pos 200; at_pos 300; at_pos 400; at_pos 500]].

Lemma rep_nat n : (n <= 2 ^ 20)%nat -> rep64 (INR n).
Proof.
  intros H. apply nat_rep. apply small_u. eapply Nat.le_trans; [exact H|]. apply Nat.pow_le_mono_r; lia.
Qed.
Lemma core64_line n : (n <= 500)%nat -> core64 1 (np_sum 0 add64) Euclidean {| st := fun _ => INR 0; cv := None |} {| st := fun _ => INR n; cv := None |} = Some (INR n).
Proof.
  intros H. unfold core64. cbn [st seq map]. change (INR 0) with 0.
  assert (R1 : rep64 (INR n)) by (apply rep_nat; assert (500 <= 2 ^ 20)%nat by (apply Nat.leb_le; reflexivity); lia).
  assert (R2 : rep64 (INR n * INR n)). { rewrite <- mult_INR. apply rep_nat. assert (500 * 500 <= 2 ^ 20)%nat by (apply Nat.leb_le; reflexivity). nia. }
  unfold sub64. rewrite Rminus_0_r. rewrite (rnd_exact _ R1). unfold mul64. rewrite (rnd_exact _ R2).
  unfold np_sum. cbn [length pairwise Nat.leb sum_block fold_left]. rewrite (add64_0 _ R2). unfold sqrt64.
  rewrite sqrt_square by apply pos_INR. rewrite (rnd_exact _ R1). reflexivity.
Qed.

Lemma big_sum x : IZR 6305039478318695 * bp (-52) <= x -> 7 < rnd64 (x + rnd64 (x * 4)).
Proof.
  intros Hx. set (a := bp (-52)) in *. assert (A : 0 < a) by apply bpow_gt_0.
  assert (E4 : bp (-50) = 4 * a) by (unfold a; change 4 with (bp 2); rewrite bpow_pair; reflexivity).
  assert (H1 : IZR 6305039478318695 * bp (-50) <= rnd64 (x * 4)).
  { apply rnd_ge; [apply dyad_format; lia|]. rewrite E4. lra. }
  apply Rlt_le_trans with (IZR 7881299347898369 * bp (-50)).
  - rewrite E4. unfold a. change (bp (-52)) with (/ IZR (2 ^ 52)). change (2 ^ 52)%Z with 4503599627370496%Z. lra.
  - apply rnd_up; [lia|lia|]. rewrite E4 in *. lra.
Qed.
Lemma seven_fifths : IZR 6305039478318695 * bp (-52) <= mul64 (div64 1 (INR 5)) 7.
Proof.
  assert (H : IZR 7205759403792794 * bp (-55) <= div64 1 (INR 5)).
  { apply rnd_up; [lia|lia|]. change (bp (-55)) with (/ IZR (2 ^ 55)). change (2 ^ 55)%Z with 36028797018963968%Z. cbn [INR]. lra. }
  apply rnd_up; [lia|lia|]. set (a := bp (-55)) in *. assert (A : 0 < a) by apply bpow_gt_0.
  replace (bp (-52)) with (8 * a) by (unfold a; change 8 with (bp 3); rewrite bpow_pair; reflexivity). lra.
Qed.

Theorem C166_ospa_double_le_cutoff_refuted : forall pw lsa64 kl, (forall x, rep64 x -> pw x 1 = x) -> lsa64_ok kl lsa64 ->
  exists lc, calculate_ospa64 1 pw (np_sum 0 add64) (np_sum 0 add64) lsa64 one_est five_tru 7 1 true None false false = Ok ([lc], Euclidean, 7) /\
    7 < ospa_val64 lc.
Proof.
  intros pw lsa64 kl Hpw HL. unfold calculate_ospa64. cbn [ospa_method ospa_cut one_est five_tru combine mapM fst snd length Nat.ltb Nat.leb].
  unfold ospa_step64. change (count [at_pos 0]) with 1%nat. change (count [at_pos 100; at_pos 200; at_pos 300; at_pos 400; at_pos 500]) with 5%nat.
  cbn [Nat.eqb andb orb]. set (C := fun i j => option_map (fun v => pw v (INR 1)) (dmat64 1 (np_sum 0 add64) Euclidean 7 true [at_pos 0]
     [at_pos 100; at_pos 200; at_pos 300; at_pos 400; at_pos 500] i j)).
  assert (R7 : rep64 7). { replace 7 with (INR 7) by (cbn; lra). apply rep_nat. apply Nat.leb_le. reflexivity. }
  assert (HC : forall i j, (i < 1)%nat -> (j < 5)%nat -> C i j = Some 7).
  { intros i j Hi Hj. replace i with 0%nat by lia. unfold C, dmat64, dist_entry64. change (INR 1) with 1.
    assert (D : forall n, (7 <= n <= 500)%nat -> option_map (fun v => pw v 1) (nan_min (core64 1 (np_sum 0 add64) Euclidean {| st := fun _ => INR 0; cv := None |} {| st := fun _ => INR n; cv := None |}) 7) = Some 7).
    { intros n Hn. rewrite core64_line by lia. cbn [nan_min option_map]. rewrite Rmin_right.
      - rewrite Hpw by exact R7. reflexivity.
      - replace 7 with (INR 7) by (cbn; lra). apply le_INR. lia. }
    assert (J : j = 0%nat \/ j = 1%nat \/ j = 2%nat \/ j = 3%nat \/ j = 4%nat) by lia. destruct J as [-> | [-> | [-> | [-> | ->]]]]; cbn [nth at_pos]; apply D; lia. }
  destruct (proj1 (HL 1%nat 5%nat C)) as [a [Ea [Aa _]]].
  { intros i j Hi Hj. exists 7. split; [apply HC; assumption|lra]. }
  rewrite Ea. cbn [bind]. destruct Aa as [_ [_ [Ha La]]]. destruct a as [|[i j] [|? ?]]; try discriminate.
  destruct (Ha i j (or_introl eq_refl)) as [Hi Hj]. eexists. split; [reflexivity|]. unfold ospa_val64. cbn [fst snd map].
  pose proof (HC i j Hi Hj) as Hij. unfold C in Hij. rewrite Hij. cbn [val]. change (Nat.max 5 1) with 5%nat. change (absdiff 5 1) with 4%nat. change (INR 1) with 1.
  assert (D1 : div64 1 1 = 1). { unfold div64. replace (1 / 1) with (INR 1) by (cbn; lra). rewrite rnd_exact; [reflexivity|]. apply rep_nat. apply Nat.leb_le. reflexivity. }
  rewrite D1. rewrite (Hpw 7 R7). unfold np_sum. cbn [length pairwise Nat.leb sum_block fold_left]. rewrite (add64_0 _ R7).
  destruct (inv_near 5 ltac:(lia) (small_u 5 ltac:(apply Nat.leb_le; reflexivity))) as [_ [_ [_ [[I0 I1] _]]]].
  pose proof seven_fifths as S7. replace (INR 4) with 4 by (cbn; lra).
  assert (Rm : rep64 (mul64 (div64 1 (INR 5)) 7)).
  { apply rnd_rep; [apply Rmult_le_pos; lra|]. apply Rle_trans with (bp 3); [change (bp 3) with 8; lra|apply fmax_ge; lia]. }
  assert (M8 : mul64 (div64 1 (INR 5)) 7 <= 7).
  { apply rnd_le; [apply R7|]. apply Rle_trans with (1 * 7); [apply Rmult_le_compat_r; lra|lra]. }
  assert (M0 : 0 <= mul64 (div64 1 (INR 5)) 7) by (apply rnd_ge; [apply generic_format_0|apply Rmult_le_pos; lra]).
  set (x := mul64 (div64 1 (INR 5)) 7) in *. clearbody x.
  rewrite (Hpw x Rm). rewrite Hpw.
  - unfold add64, mul64. apply big_sum, S7.
  - apply rnd_rep; [lra|]. apply Rle_trans with (bp 5); [change (bp 5) with 32; lra|apply fmax_ge; lia].
Qed.
(** The exact value is at most 7 (C25), and the excess is never more than
    rounding errors. *)
Theorem C166_ospa_double_le_cutoff_partial :
  forall dim inv det pw asum csum lsa lsa64 kl est tru c ue me tcov ecov N r r64 me' c' me'' c'' t,
  lsa_ok lsa -> lsa64_ok kl lsa64 -> pow_ok pw -> good_sum asum -> good_sum csum ->
  norm_core me -> moderate_cut c 1 ->
  (forall l, In l est \/ In l tru -> (length l <= N)%nat) ->
  (forall x y, occurs est x -> occurs tru y -> float_state dim x /\ float_state dim y /\
     moderate_pair dim (val (core dim inv det (ospa_method me tcov ecov) x y)) 1 x y) ->
  4 * INR (ospa_err dim 1 N kl) * u64 <= 1 ->
  calculate_ospa dim inv det lsa est tru c 1 ue me tcov ecov = Ok (r, me', c') ->
  calculate_ospa64 dim pw asum csum lsa64 est tru c 1 ue me tcov ecov = Ok (r64, me'', c'') -> (t < length r64)%nat ->
  0 <= ospa_val64 (nth t r64 (0, 0)) <= c * (1 + 2 * INR (ospa_err dim 1 N kl) * u64).
Proof.
  intros dim inv det pw asum csum lsa lsa64 kl est tru c ue me tcov ecov N r r64 me' c' me'' c'' t HL HL64 Hpw Ha Hc Hm Hcut HN Hpair HK E E64 Ht.
  destruct (C165_ospa_double_accurate dim inv det pw asum csum lsa lsa64 kl est tru c 1 ue me tcov ecov N r me' c' HL HL64 Hpw Ha Hc Hm (le_n 1) Hcut HN Hpair HK E)
    as [r2 [E2 [Ln H]]]. rewrite E64 in E2. injection E2 as <- -> ->. rewrite Ln in Ht. destruct (H t Ht) as [_ [_ H3]]. clear H.
  destruct Hcut as [_ [Pc _]].
  pose proof (C25_ospa_le_cutoff_p1 dim inv det lsa est tru c ue me tcov ecov r me' c' HL ltac:(destruct Hm as [-> | [-> | ->]]; discriminate) ltac:(lra) E (nth t r (0, 0)) (nth_In _ _ Ht)) as B.
  pose proof (C24_ospa_bounds dim inv det lsa est tru c 1 ue me tcov ecov r me' c' HL ltac:(destruct Hm as [-> | [-> | ->]]; discriminate) ltac:(lra) (le_n 1) E) as [_ P].
  specialize (P _ (nth_In r (0, 0) Ht)). unfold ospa_val in *. set (e := nth t r (0, 0)) in *.
  set (tol := 2 * INR (ospa_err dim 1 N kl) * u64) in *.
  assert (T : 0 <= tol <= / 2).
  { unfold tol. split; [|lra]. apply Rmult_le_pos; [apply Rmult_le_pos; [lra|apply pos_INR]|apply u64_nonneg]. }
  assert (V : 0 <= fst e + snd e) by lra.
  pose proof (Rle_abs (ospa_val64 (nth t r64 (0, 0)) - (fst e + snd e))) as A1.
  pose proof (Rle_abs (- (ospa_val64 (nth t r64 (0, 0)) - (fst e + snd e)))) as A2. rewrite Rabs_Ropp in A2.
  assert (tol * (fst e + snd e) <= / 2 * (fst e + snd e)) by (apply Rmult_le_compat_r; lra).
  assert (tol * (fst e + snd e) <= tol * c) by (apply Rmult_le_compat_l; lra).
  split; lra.
Qed.

(** * The hypotheses can be met
    Correctly rounded powers, numpy's summation, an optimal assignment; the
    states of C166. *)
Definition pow64 (x y : R) : R := if Req_EM_T x 0 then 0 else rnd64 (Rpower x y).
Lemma pow64_ok : pow_ok pow64.
Proof.
  split; intros.
  - unfold pow64. destruct (Req_EM_T 0 0); [reflexivity|congruence].
  - unfold pow64. destruct (Req_EM_T x 0); [lra|]. split; [apply rnd_rep; [left; apply exp_pos|eapply Rle_trans; [apply H2|apply fmax_ge; lia]]|].
    pose proof (relative_error_N_FLT radix2 (-1074) 53 (eq_refl _) (fun z => negb (Z.even z)) (Rpower x y)) as E.
    assert (P : 0 <= Rpower x y) by (left; apply exp_pos).
    rewrite Rabs_pos_eq in E by exact P. specialize (E (Rle_trans _ _ _ (bp_le (-1074 + 53 - 1) (-1000) ltac:(lia)) (proj1 H2))).
    fold fexp64 in E. fold (rnd64 (Rpower x y)) in E. eapply Rle_trans; [exact E|]. apply Rmult_le_compat_r; [exact P|].
    replace (/ 2 * bp (- (53) + 1)) with u64; [pose proof u64_pos; lra|].
    unfold u64. replace (-53)%Z with (-1 + (- (53) + 1))%Z by lia. rewrite bpow_plus. reflexivity.
Qed.
Lemma pow64_1 x : rep64 x -> 0 <= x -> pow64 x 1 = x.
Proof.
  intros R P. unfold pow64. destruct (Req_EM_T x 0) as [->|N]; [reflexivity|]. rewrite Rpower_1 by lra. apply rnd_exact, R.
Qed.
Lemma lsa_ok_64 lsa : lsa_ok lsa -> lsa64_ok 0 lsa.
Proof.
  intros H m n C. split; [|apply H]. intros X. destruct (proj1 (H m n C)) as [a [E [A O]]].
  { intros i j Hi Hj. destruct (X i j Hi Hj) as [v [-> _]]. discriminate. }
  exists a. split; [exact E|]. split; [exact A|]. intros b Hb. cbn [pow]. rewrite Rmult_1_r. apply O, Hb.
Qed.
Lemma pow64_total_1 : exists pw, pow_ok pw /\ forall x, rep64 x -> pw x 1 = x.
Proof.
  exists (fun x y => if Req_EM_T y 1 then x else pow64 x y). split; [split|].
  - intros y Hy. destruct (Req_EM_T y 1); [reflexivity|apply pow64_ok, Hy].
  - intros x y Rx Px Py B. destruct (Req_EM_T y 1) as [->|]; [|now apply pow64_ok].
    rewrite Rpower_1 in * by exact Px. split; [exact Rx|]. replace (x - x) with 0 by ring. rewrite Rabs_R0.
    pose proof u64_pos. apply Rmult_le_pos; lra.
  - intros x Rx. destruct (Req_EM_T 1 1); [reflexivity|congruence].
Qed.

Example C165_hypotheses_met inv det : exists r r64 lc,
  calculate_ospa 1 inv det brute_lsa one_est five_tru 7 2 true None false false = Ok (r, Euclidean, 7) /\
  calculate_ospa64 1 pow64 (np_sum 0 add64) (np_sum 0 add64) brute_lsa one_est five_tru 7 2 true None false false = Ok (r64, Euclidean, 7) /\
  r64 = [lc] /\ Rabs (ospa_val64 lc - ospa_val (nth 0 r (0, 0))) <= 5000 * u64 * ospa_val (nth 0 r (0, 0)).
Proof.
  destruct (C24_ospa_total 1 inv det brute_lsa one_est five_tru 7 2 None false false brute_lsa_ok (or_introl eq_refl) (le_n 1)) as [r [me' [c' [Er _]]]].
  pose proof (calc_ok _ _ _ _ _ _ _ _ _ _ _ _ _ _ _ Er) as [-> [-> _]]. cbn [ospa_method ospa_cut] in Er.
  assert (R7 : rep64 7). { replace 7 with (INR 7) by (cbn; lra). apply rep_nat. apply Nat.leb_le. reflexivity. }
  assert (K : ospa_err 1 2 5 0 = 2050%nat) by reflexivity.
  destruct (C165_ospa_double_accurate 1 inv det pow64 (np_sum 0 add64) (np_sum 0 add64) brute_lsa brute_lsa 0 one_est five_tru 7 2 true None false false 5
     r Euclidean 7 brute_lsa_ok (lsa_ok_64 _ brute_lsa_ok) pow64_ok np_sum_good np_sum_good (or_introl eq_refl) ltac:(lia)) as [r64 [E64 [Ln H]]].
  - split; [exact R7|]. split; [lra|]. split; [apply Rle_trans with (bp 0); [apply bp_le; lia|cbn; lra]|apply Rle_trans with (bp 6); [change (bp 6) with 64; lra|apply bp_le; lia]].
  - intros l [[<-|[]]|[<-|[]]]; cbn; lia.
  - intros x y [l [[<-|[]] Hx]] [l' [[<-|[]] Hy]].
    destruct Hx as [Hx|[]].
    assert (Inj : forall n z, at_pos n = Some z -> z = {| st := fun _ => INR n; cv := None |}) by (intros n z E; injection E as E; symmetry; exact E).
    apply Inj in Hx. rewrite Hx. clear x Hx.
    assert (exists n, (1 <= n <= 500)%nat /\ y = {| st := fun _ => INR n; cv := None |}) as [n [Hn ->]].
    { destruct Hy as [Hy|[Hy|[Hy|[Hy|[Hy|[]]]]]]; apply Inj in Hy; [exists 100%nat|exists 200%nat|exists 300%nat|exists 400%nat|exists 500%nat]; (split; [|exact Hy]); lia. }
    assert (B : INR n <= 500) by (replace 500 with (INR 500) by (rewrite INR_IZR_INZ; reflexivity); apply le_INR; lia).
    assert (B1 : 1 <= INR n) by (apply (le_INR 1); lia).
    assert (R : rep64 (INR n)) by (apply rep_nat; assert (500 <= 2 ^ 20)%nat by (apply Nat.leb_le; reflexivity); lia).
    split; [intros i _; cbn; apply rep64_0|]. split; [intros i _; exact R|]. split.
    + intros i _. right. cbn [st]. change (INR 0) with 0. replace (0 - INR n) with (- INR n) by ring. rewrite Rabs_Ropp, Rabs_pos_eq by lra.
      split; [apply Rle_trans with (bp 0); [apply bp_le; lia|exact B1]|apply Rle_trans with (bp 9); [change (bp 9) with 512; lra|apply bp_le; lia]].
    + right. cbn [ospa_method core val rsumn st]. change (INR 0) with 0. rewrite Rplus_0_l, Rminus_0_r.
      replace (INR n ^ 2) with (INR n * INR n) by ring. rewrite sqrt_square by lra. apply Rle_trans with (bp 0); [apply bp_le; lia|].
      change (bp 0) with 1. apply pow_R1_Rle. exact B1.
  - rewrite K. replace (INR 2050) with 2050 by (rewrite INR_IZR_INZ; reflexivity). unfold u64.
    apply Rle_trans with (bp 14 * bp (-53)); [apply Rmult_le_compat_r; [apply bpow_ge_0|change (bp 14) with 16384; lra]|].
    rewrite bpow_pair. apply Rle_trans with (bp 0); [apply bp_le; lia|cbn; lra].
  - exact Er.
  - pose proof (calc_ok 1 inv det brute_lsa one_est five_tru 7 2 true None false false r Euclidean 7 Er) as [_ [_ [_ [Lr _]]]].
    assert (L1 : length r = 1%nat) by (cbn in Lr; lia). rewrite L1 in Ln, H. destruct r64 as [|lc [|? ?]]; try discriminate.
    exists r, [lc], lc. split; [exact Er|]. split; [exact E64|]. split; [reflexivity|]. destruct (H 0%nat ltac:(lia)) as [_ [_ H3]].
    cbn [nth] in H3. eapply Rle_trans; [exact H3|]. rewrite K. replace (INR 2050) with 2050 by (rewrite INR_IZR_INZ; reflexivity).
    apply Rmult_le_compat_r; [|pose proof u64_pos; lra].
    pose proof (C24_ospa_bounds 1 inv det brute_lsa one_est five_tru 7 2 true None false false r Euclidean 7 brute_lsa_ok ltac:(discriminate) ltac:(lra) ltac:(lia) Er) as [_ P].
    assert (Lr0 : (0 < length r)%nat) by lia. specialize (P (nth 0 r (0, 0)) (nth_In _ _ Lr0)). unfold ospa_val. lra.
Qed.

Print Assumptions C165_ospa_double_accurate.
Print Assumptions C165_ospa_double_self_zero.
Print Assumptions C166_ospa_double_le_cutoff_refuted.
Print Assumptions C166_ospa_double_le_cutoff_partial.
