(** Merging and capping of PHD components in double precision. *)
From Coq Require Import Reals ZArith Lia Lra Permutation.
From Flocq Require Import Core Relative.
From Verif Require Import Base RBase RLists RPhdModel RPhdSpec RPhdProofs FltIeee FltGibbs FltGibbsProps FltNear FltOspaModel FltOspa FltOspaStep FltPhdModel FltPhdSpec FltPhd.
Local Open Scope R_scope.

(** ** Signed sums *)
Definition fmt x := generic_format radix2 fexp64 x.
Lemma fmt_int x : fmt x -> exists a, x = IZR a * bp (-1074).
Proof.
  intros H. unfold fmt, generic_format, F2R in H. cbn [Fnum Fexp] in H.
  set (m := Ztrunc (scaled_mantissa radix2 fexp64 x)) in *. set (e := cexp radix2 fexp64 x) in *.
  assert (He : (-1074 <= e)%Z) by (unfold e, cexp, fexp64, FLT_exp; lia).
  exists (m * 2 ^ (e + 1074))%Z. rewrite mult_IZR, (IZR_Zpower radix2) by lia. rewrite Rmult_assoc, <- bpow_plus.
  replace (e + 1074 + -1074)%Z with e by lia. exact H.
Qed.
Lemma rep64_fmt x : rep64 x -> fmt x. Proof. intros [H _]. exact H. Qed.
Lemma rnd_fmt x : fmt (rnd64 x).
Proof. apply generic_format_round; [exact valid64|apply valid_rnd_N]. Qed.
Lemma rnd_fix x : fmt x -> rnd64 x = x.
Proof. intros H. apply round_generic; [apply valid_rnd_N|exact H]. Qed.
Lemma add_err x y : fmt x -> fmt y -> Rabs (add64 x y - (x + y)) <= u64 * Rabs (x + y).
Proof.
  intros Hx Hy. destruct (fmt_int x Hx) as [a Ea]. destruct (fmt_int y Hy) as [b Eb]. unfold add64.
  replace (x + y) with (IZR (a + b) * bp (-1074)) by (rewrite plus_IZR, Ea, Eb; ring). apply rnd_int.
Qed.
Lemma rnd_abs_err x : Rabs (rnd64 x - x) <= u64 * Rabs x + tiny.
Proof.
  pose proof tiny_pos as T. destruct (Rle_dec (bp (-1022)) (Rabs x)) as [H|H].
  - pose proof (relative_error_N_FLT radix2 (-1074) 53 (eq_refl _) (fun z => negb (Z.even z)) x) as E.
    change (-1074 + 53 - 1)%Z with (-1022)%Z in E. specialize (E H).
    replace (/ 2 * bp (- (53) + 1)) with u64 in E; [apply Rle_trans with (1 := E); lra|].
    unfold u64. replace (-53)%Z with (-1 + (-(53) + 1))%Z by lia. rewrite bpow_plus. change (bp (-1)) with (/ 2). reflexivity.
  - pose proof (@error_le_half_ulp radix2 fexp64 valid64 (fun z => negb (Z.even z)) x) as E.
    assert (U : ulp radix2 fexp64 x = tiny).
    { apply ulp_FLT_small; [reflexivity|]. change (-1074 + 53)%Z with (-1021)%Z.
      apply Rlt_le_trans with (bp (-1022)); [lra|]. apply bpow_le. lia. }
    rewrite U in E. assert (0 <= u64 * Rabs x) by (apply Rmult_le_pos; [pose proof u64_pos; lra|apply Rabs_pos]).
    eapply Rle_trans; [exact E|]. lra.
Qed.
Lemma fold_signed l : forall k s s64 A, (forall x, In x l -> fmt x) -> fmt s64 -> Rabs s <= A -> Rabs (s64 - s) <= (g k - 1) * A ->
  Rabs (fold_left add64 l s64 - (s + rsum l)) <= (g (k + length l) - 1) * (A + rsum (map Rabs l)).
Proof.
  induction l as [|x l IH]; intros k s s64 A Hl Hf HA H.
  { cbn [fold_left length map]. change (rsum []) with 0. rewrite Nat.add_0_r, !Rplus_0_r. exact H. }
  cbn [fold_left length map]. change (rsum (x :: l)) with (x + rsum l). change (rsum (Rabs x :: map Rabs l)) with (Rabs x + rsum (map Rabs l)).
  replace (s + (x + rsum l)) with (s + x + rsum l) by ring. replace (A + (Rabs x + rsum (map Rabs l))) with (A + Rabs x + rsum (map Rabs l)) by ring.
  replace (k + S (length l))%nat with (S k + length l)%nat by lia.
  apply IH; [intros y Hy; apply Hl; right; exact Hy|apply rnd_fmt|eapply Rle_trans; [apply Rabs_triang|lra]|].
  pose proof (add_err s64 x Hf (Hl x (or_introl eq_refl))) as E. pose proof (g_pos k) as G. pose proof u64_pos as U. pose proof (Rabs_pos x) as Px.
  pose proof (Rabs_pos s) as Ps.
  assert (B : Rabs (s64 + x) <= g k * (A + Rabs x)).
  { replace (s64 + x) with ((s64 - s) + (s + x)) by ring. eapply Rle_trans; [apply Rabs_triang|]. pose proof (Rabs_triang s x).
    assert (0 <= (g k - 1) * Rabs x) by (apply Rmult_le_pos; lra). lra. }
  replace (add64 s64 x - (s + x)) with ((add64 s64 x - (s64 + x)) + (s64 - s)) by ring. eapply Rle_trans; [apply Rabs_triang|]. rewrite g_S.
  assert (u64 * Rabs (s64 + x) <= u64 * (g k * (A + Rabs x))) by (apply Rmult_le_compat_l; lra).
  assert (0 <= (g k - 1) * Rabs x) by (apply Rmult_le_pos; lra). lra.
Qed.
Lemma fold_signed0 l : (forall x, In x l -> fmt x) -> Rabs (fold_left add64 l 0 - rsum l) <= (g (length l) - 1) * rsum (map Rabs l).
Proof.
  intros H. pose proof (fold_signed l 0 0 0 0 H ltac:(apply generic_format_0) ltac:(rewrite Rabs_R0; lra)) as F.
  rewrite Rminus_0_r, Rabs_R0, !Rplus_0_l in F. cbn [Nat.add] in F. apply F. unfold g. cbn [pow]. lra.
Qed.

Lemma sum_diff_le {A} (f h e : A -> R) l : (forall x, In x l -> Rabs (f x - h x) <= e x) -> Rabs (rsum (map f l) - rsum (map h l)) <= rsum (map e l).
Proof.
  induction l as [|x l IH]; intros H; cbn [map]; [change (rsum []) with 0; rewrite Rminus_0_r, Rabs_R0; lra|].
  change (rsum (f x :: map f l)) with (f x + rsum (map f l)). change (rsum (h x :: map h l)) with (h x + rsum (map h l)). change (rsum (e x :: map e l)) with (e x + rsum (map e l)).
  replace (f x + rsum (map f l) - (h x + rsum (map h l))) with ((f x - h x) + (rsum (map f l) - rsum (map h l))) by ring.
  eapply Rle_trans; [apply Rabs_triang|]. apply Rplus_le_compat; [apply H; left; reflexivity|apply IH; intros y Hy; apply H; right; exact Hy].
Qed.
Lemma sum_le {A} (f h : A -> R) l : (forall x, In x l -> f x <= h x) -> rsum (map f l) <= rsum (map h l).
Proof.
  induction l as [|x l IH]; intros H; cbn [map]; [apply Rle_refl|].
  change (rsum (f x :: map f l)) with (f x + rsum (map f l)). change (rsum (h x :: map h l)) with (h x + rsum (map h l)).
  apply Rplus_le_compat; [apply H; left; reflexivity|apply IH; intros y Hy; apply H; right; exact Hy].
Qed.
Lemma sum_affine {A} (f : A -> R) a b l : rsum (map (fun x => a * f x + b) l) = a * rsum (map f l) + INR (length l) * b.
Proof.
  induction l as [|x l IH]; cbn [map length]; [change (rsum []) with 0; cbn [INR]; ring|].
  change (rsum ((a * f x + b) :: map (fun x => a * f x + b) l)) with (a * f x + b + rsum (map (fun x => a * f x + b) l)).
  change (rsum (f x :: map f l)) with (f x + rsum (map f l)). rewrite IH, S_INR. ring.
Qed.

Lemma g_lin n : INR n * u64 <= / 4 -> g n - 1 <= 2 * (INR n * u64).
Proof.
  intros H. pose proof (g_bound n) as B. pose proof (pos_INR n) as P. pose proof u64_pos as U.
  assert (0 <= INR n * u64) by (apply Rmult_le_pos; lra). set (t := INR n * u64) in *. clearbody t.
  assert (g n <= 1 + 2 * t); [|lra]. apply Rmult_le_reg_r with (1 - t); [lra|]. eapply Rle_trans; [exact B|].
  assert (0 <= t * (1 - 2 * t)) by (apply Rmult_le_pos; lra). lra.
Qed.

(** A weighted average as [_merge] computes it. *)
Lemma wavg_near (wt v : nat -> R) (G : list nat) B w64 : let W := rsum (map wt G) in
  (forall k, In k G -> 0 <= wt k) -> (forall k, In k G -> Rabs (v k) <= B) -> bp (-900) <= W -> 0 <= B ->
  INR (8 * length G + 64) * u64 <= / 4 -> Rabs (w64 - W) <= (g (length G) - 1) * W ->
  Rabs (div64 (fold_left add64 (map (fun k => mul64 (wt k) (v k)) G) 0) w64 - rsum (map (fun k => wt k * v k) G) / W)
    <= INR (8 * length G + 16) * u64 * B + bp (-100).
Proof.
  intros W Hw Hv HW HB Hn Hw64. set (n := length G) in *.
  pose proof u64_pos as U. pose proof tiny_pos as T. pose proof (bp_pos (-900)) as b900.
  set (a := fun k => mul64 (wt k) (v k)). set (s64 := fold_left add64 (map a G) 0). set (TT := rsum (map (fun k => wt k * v k) G)).
  assert (Un : INR n * u64 <= / 4) by (revert Hn; apply u_mono; lia).
  assert (Un1 : INR (S n) * u64 <= / 4) by (revert Hn; apply u_mono; lia).
  assert (U64 : 64 * u64 <= / 4).
  { apply Rle_trans with (2 := Hn). apply Rmult_le_compat_r; [lra|]. replace 64 with (INR 64) by (rewrite INR_IZR_INZ; reflexivity). apply le_INR. lia. }
  assert (U8 : 8 * (INR n * u64) <= / 4).
  { apply Rle_trans with (2 := Hn). rewrite plus_INR, mult_INR. replace (INR 8) with 8 by (cbn; lra). pose proof (pos_INR 64).
    assert (0 <= INR 64 * u64) by (apply Rmult_le_pos; lra). lra. }
  pose proof (g_lin _ Un1) as GL. pose proof (g_lin _ Un) as GLn. pose proof (g_pos n) as G1. pose proof (g_le_2 _ Un) as G2.
  assert (gS : g (S n) = g n * (1 + u64)) by apply g_S.
  assert (Evk : forall k, In k G -> Rabs (wt k * v k) <= B * wt k).
  { intros k Hk. rewrite Rabs_mult, (Rabs_pos_eq (wt k)) by (apply Hw, Hk). rewrite (Rmult_comm B). apply Rmult_le_compat_l; [apply Hw, Hk|apply Hv, Hk]. }
  assert (E1 : Rabs (rsum (map a G) - TT) <= u64 * (B * W) + INR n * tiny).
  { unfold TT. eapply Rle_trans; [apply sum_diff_le with (e := fun k => (u64 * B) * wt k + tiny)|].
    - intros k Hk. eapply Rle_trans; [apply rnd_abs_err|]. pose proof (Evk k Hk). apply Rplus_le_compat_r.
      rewrite Rmult_assoc. apply Rmult_le_compat_l; lra.
    - rewrite sum_affine. fold W n. lra. }
  assert (E2 : rsum (map Rabs (map a G)) <= (1 + u64) * (B * W) + INR n * tiny).
  { rewrite map_map. eapply Rle_trans; [apply sum_le with (h := fun k => ((1 + u64) * B) * wt k + tiny)|].
    - intros k Hk. replace (a k) with ((a k - wt k * v k) + wt k * v k) by ring. eapply Rle_trans; [apply Rabs_triang|].
      pose proof (rnd_abs_err (wt k * v k)) as R. fold (mul64 (wt k) (v k)) in R. fold (a k) in R. pose proof (Evk k Hk) as Q.
      assert (u64 * Rabs (wt k * v k) <= u64 * (B * wt k)) by (apply Rmult_le_compat_l; lra). lra.
    - rewrite sum_affine. fold W n. lra. }
  assert (E3 : Rabs (s64 - rsum (map a G)) <= (g n - 1) * ((1 + u64) * (B * W) + INR n * tiny)).
  { unfold s64. eapply Rle_trans; [apply fold_signed0; intros x Hx; apply in_map_iff in Hx as [k [<- _]]; apply rnd_fmt|].
    rewrite map_length. fold n. apply Rmult_le_compat_l; [lra|exact E2]. }
  assert (NT : 0 <= INR n * tiny) by (apply Rmult_le_pos; [apply pos_INR|lra]).
  assert (W0 : 0 < W) by lra. assert (BW : 0 <= B * W) by (apply Rmult_le_pos; lra).
  assert (E4 : Rabs (s64 - TT) <= (g (S n) - 1) * (B * W) + 2 * (INR n * tiny)).
  { replace (s64 - TT) with ((s64 - rsum (map a G)) + (rsum (map a G) - TT)) by ring. eapply Rle_trans; [apply Rabs_triang|]. rewrite gS.
    assert ((g n - 1) * (INR n * tiny) <= 1 * (INR n * tiny)) by (apply Rmult_le_compat_r; lra). lra. }
  assert (E5 : Rabs TT <= B * W).
  { unfold TT. replace (Rabs _) with (Rabs (rsum (map (fun k => wt k * v k) G) - rsum (map (fun _ => 0) G))).
    - eapply Rle_trans; [apply sum_diff_le with (e := fun k => B * wt k + 0); intros k Hk; rewrite Rminus_0_r, Rplus_0_r; apply Evk, Hk|]. rewrite sum_affine. fold W. lra.
    - assert (Z0 : rsum (map (fun _ => 0) G) = 0).
      { pose proof (sum_affine (fun _ : nat => 0) 0 0 G) as SA. rewrite !Rmult_0_l, Rmult_0_r, Rplus_0_l in SA. exact SA. }
      rewrite Z0, Rminus_0_r. reflexivity. }
  set (E := g (S n) - 1) in *. assert (E0 : 0 <= E) by (unfold E; pose proof (g_pos (S n)); lra).
  assert (EB : E <= 2 * (INR (S n) * u64)) by exact GL. rewrite S_INR in EB.
  assert (gE : g n - 1 <= E). { unfold E. rewrite gS. assert (0 <= g n * u64) by (apply Rmult_le_pos; lra). lra. }
  assert (gh : g n - 1 <= / 2) by lra.
  assert (Hw' : W / 2 <= w64). { apply Rabs_le_inv in Hw64. assert ((g n - 1) * W <= / 2 * W) by (apply Rmult_le_compat_r; lra). lra. }
  assert (I0 : 0 <= / w64) by (left; apply Rinv_0_lt_compat; lra).
  assert (I : / w64 * W <= 2). { apply Rmult_le_reg_l with w64; [lra|]. rewrite <- Rmult_assoc, Rinv_r, Rmult_1_l by lra. lra. }
  assert (IT : / w64 * (INR n * tiny) <= bp (-122)).
  { assert (A1 : / w64 <= bp 901). { change 901%Z with (- -901)%Z. rewrite bpow_opp. apply Rinv_le_contravar; [apply bp_pos|].
      pose proof (bp_dbl (-901)) as D. change (-901 + 1)%Z with (-900)%Z in D. lra. }
    assert (A2 : INR n * tiny <= bp (-1023)). { replace (bp (-1023)) with (bp 51 * tiny) by (unfold tiny; rewrite bp_mul; reflexivity). apply Rmult_le_compat_r; [lra|apply nat_le_51, Un]. }
    replace (bp (-122)) with (bp 901 * bp (-1023)) by (rewrite bp_mul; reflexivity). apply Rmult_le_compat; lra. }
  set (q := s64 / w64).
  assert (Q : Rabs (q - TT / W) <= 4 * (E * B) + 2 * bp (-122)).
  { replace (q - TT / W) with ((s64 - TT) * / w64 + (TT * / W) * ((W - w64) * / w64)) by (unfold q; field; lra).
    eapply Rle_trans; [apply Rabs_triang|]. rewrite !Rabs_mult, (Rabs_pos_eq (/ w64)) by exact I0.
    rewrite (Rabs_pos_eq (/ W)) by (left; apply Rinv_0_lt_compat; lra). rewrite (Rabs_minus_sym W w64).
    assert (A1 : Rabs (s64 - TT) * / w64 <= (E * (B * W) + 2 * (INR n * tiny)) * / w64) by (apply Rmult_le_compat_r; [exact I0|exact E4]).
    assert (A2 : E * B * (/ w64 * W) <= E * B * 2) by (apply Rmult_le_compat_l; [apply Rmult_le_pos; lra|exact I]).
    assert (A3 : Rabs TT * / W <= B). { apply Rmult_le_reg_r with W; [exact W0|]. rewrite Rmult_assoc, Rinv_l by lra. lra. }
    assert (A4 : Rabs (w64 - W) * / w64 <= 2 * E).
    { apply Rle_trans with (E * W * / w64); [apply Rmult_le_compat_r; [exact I0|]; eapply Rle_trans; [exact Hw64|]; apply Rmult_le_compat_r; lra|].
      replace (E * W * / w64) with (E * (/ w64 * W)) by ring. rewrite (Rmult_comm 2). apply Rmult_le_compat_l; lra. }
    assert (A5 : Rabs TT * / W * (Rabs (w64 - W) * / w64) <= B * (2 * E)).
    { apply Rmult_le_compat; [apply Rmult_le_pos; [apply Rabs_pos|left; apply Rinv_0_lt_compat; lra]|apply Rmult_le_pos; [apply Rabs_pos|exact I0]|exact A3|exact A4]. }
    lra. }
  assert (TB : Rabs (TT / W) <= B).
  { unfold Rdiv. rewrite Rabs_mult, (Rabs_pos_eq (/ W)) by (left; apply Rinv_0_lt_compat; lra). apply Rmult_le_reg_r with W; [exact W0|]. rewrite Rmult_assoc, Rinv_l by lra. lra. }
  assert (b122 : bp (-122) <= bp (-104)) by (apply bp_le; lia). pose proof (bp_pos (-122)) as p122.
  assert (b100 : bp (-100) = 16 * bp (-104)). { change (-100)%Z with (-104 + 1 + 1 + 1 + 1)%Z. rewrite !bp_dbl. ring. }
  assert (tb : tiny <= bp (-104)) by (apply bp_le; lia).
  assert (QB : Rabs q <= B + 4 * (E * B) + 2 * bp (-122)).
  { replace q with ((q - TT / W) + TT / W) by ring. eapply Rle_trans; [apply Rabs_triang|]. lra. }
  assert (E8 : E <= / 8) by lra.
  assert (EB8 : E * B <= / 8 * B) by (apply Rmult_le_compat_r; lra).
  assert (EBu : E * B <= 2 * ((INR n + 1) * u64) * B) by (apply Rmult_le_compat_r; lra).
  unfold div64. fold q. replace (rnd64 q - TT / W) with ((rnd64 q - q) + (q - TT / W)) by ring. eapply Rle_trans; [apply Rabs_triang|].
  pose proof (rnd_abs_err q) as RQ. assert (u64 * Rabs q <= u64 * (2 * B + 2 * bp (-122))) by (apply Rmult_le_compat_l; lra).
  assert (u64 * (2 * bp (-122)) <= / 8 * (2 * bp (-122))) by (apply Rmult_le_compat_r; [lra|pose proof u64_small; lra]).
  rewrite plus_INR, mult_INR. replace (INR 8) with 8 by (cbn; lra). replace (INR 16) with 16 by (rewrite INR_IZR_INZ; reflexivity).
  assert (0 <= u64 * B) by (apply Rmult_le_pos; lra).
  assert (N0 : 0 <= INR n * (u64 * B)) by (apply Rmult_le_pos; [apply pos_INR|assumption]).
  replace ((8 * INR n + 16) * u64 * B) with (8 * (INR n * (u64 * B)) + 16 * (u64 * B)) by ring.
  replace (2 * ((INR n + 1) * u64) * B) with (2 * (INR n * (u64 * B)) + 2 * (u64 * B)) in EBu by ring. lra.
Qed.

Section Merge64.
Context (psum : list R -> R) (minv : mat -> result mat) (wi : vec -> vec -> mat -> bool) (g0 : gmix) (dim : nat) (B : R).
Notation n := (length (gm_w g0)).
Context (Ha : aligned g0) (Hmod : moderate_mix dim B g0) (Hsum : good_sum psum) (HB : 0 <= B).
Context (Hn : INR (8 * n + 64) * u64 <= / 4).
Context (Hinv : forall p, In p (gm_p g0) -> exists ic, minv p = Ok ic).
Context (Hself : forall m p ic, In m (gm_m g0) -> In p (gm_p g0) -> minv p = Ok ic -> wi m m ic = true).

Lemma Wpos i : (i < n)%nat -> rep64 (W g0 i) /\ bp (-900) <= W g0 i <= bp 300.
Proof. clear - Hmod. intros H. apply (proj1 Hmod), nth_In, H. Qed.
Lemma Wnonneg i : (i < n)%nat -> 0 < W g0 i.
Proof. clear - Hmod. intros H. destruct (Wpos i H) as [_ [A _]]. pose proof (bp_pos (-900)). lra. Qed.

Lemma group_sum G : NoDup G -> (forall i, In i G -> (i < n)%nat) -> (length G <= n)%nat.
Proof.
  clear. intros ND H. rewrite <- (seq_length n 0). apply NoDup_incl_length; [exact ND|]. intros i Hi. apply in_seq. specialize (H i Hi). lia.
Qed.
Lemma group_weight G : G <> [] -> (length G <= n)%nat -> (forall i, In i G -> (i < n)%nat) ->
  bp (-900) <= rsum (map (W g0) G) /\ approx (length G) (rsum (map (W g0) G)) (psum (map (W g0) G)).
Proof.
  intros Hne Hl HG. split.
  - destruct G as [|i G]; [congruence|]. cbn [map]. change (rsum (W g0 i :: map (W g0) G)) with (W g0 i + rsum (map (W g0) G)).
    assert (0 <= rsum (map (W g0) G)).
    { apply OspaProofs.rsum_nonneg. intros x Hx. apply in_map_iff in Hx as [k [<- Hk]]. left. apply Wnonneg, HG. right. exact Hk. }
    destruct (Wpos i (HG i (or_introl eq_refl))) as [_ [A _]]. lra.
  - pose proof (Hsum (map (W g0) G)) as S. rewrite map_length in S. apply S.
    + intros x Hx. apply in_map_iff in Hx as [k [<- Hk]]. split; [apply Wpos, HG, Hk|left; apply Wnonneg, HG, Hk].
    + revert Hn. apply u_mono. lia.
    + apply Rle_trans with (2 * (INR (length (map (W g0) G)) * bp 300)).
      * apply Rmult_le_compat_l; [lra|]. apply rsum_le_const. intros x Hx. apply in_map_iff in Hx as [k [<- Hk]]. apply Wpos, HG, Hk.
      * rewrite map_length. assert (INR (length G) <= bp 51) by (apply nat_le_51; revert Hn; apply u_mono; lia).
        apply Rle_trans with (2 * (bp 51 * bp 300)); [|rewrite bp_mul, <- bp_dbl; apply fmax_ge; lia].
        apply Rmult_le_compat_l; [lra|]. apply Rmult_le_compat_r; [apply bpow_ge_0|assumption].
Qed.

Lemma turn64 inds ws : inds <> [] -> NoDup inds -> winv g0 inds ws ->
  exists jj ic new ws', let G := filter (fun i => wi (Mn g0 i) (Mn g0 jj) ic) inds in let rest := filter (fun i => negb (wi (Mn g0 i) (Mn g0 jj) ic)) inds in
    merge_turn64 psum minv wi g0 inds ws = Ok (new, rest, ws') /\ In jj inds /\ (forall k, In k inds -> W g0 k <= W g0 jj) /\ minv (P g0 jj) = Ok ic /\
    In jj G /\ merged64 dim (8 * n + 16) B g0 G new /\ winv g0 rest ws'.
Proof.
  intros Hne ND [L [Hb Hw]]. pose proof Ha as [_ [H1 H2]]. unfold merge_turn64.
  destruct inds as [|i0 inds0] eqn:Ei; [congruence|]. rewrite <- Ei in *.
  assert (Hi0 : In i0 inds) by (rewrite Ei; left; reflexivity). clear Ei inds0.
  assert (exists jj, argmax ws = Ok jj) as [jj Ej].
  { destruct ws; [|eexists; reflexivity]. apply Hb in Hi0. cbn [length] in L. lia. }
  rewrite Ej. cbn [bind]. apply argmax_spec in Ej as [Hj Hmax].
  assert (Hjin : In jj inds).
  { destruct (existsb (Nat.eqb jj) inds) eqn:Ex; [apply existsb_eqb; exact Ex|].
    pose proof (Hb i0 Hi0) as Hi0n. assert (Hle := Hmax i0 ltac:(lia)). rewrite !Hw in Hle by lia.
    assert (T : existsb (Nat.eqb i0) inds = true) by (apply existsb_eqb; exact Hi0). rewrite T, Ex in Hle.
    pose proof (Wnonneg i0 Hi0n). lra. }
  assert (Hjn : (jj < n)%nat) by (apply Hb; exact Hjin).
  assert (E1 : nth_error (gm_p g0) jj = Some (P g0 jj)) by (unfold P; apply nth_error_nth'; lia).
  assert (E2 : nth_error (gm_m g0) jj = Some (Mn g0 jj)) by (unfold Mn; apply nth_error_nth'; lia).
  rewrite E1, E2. destruct (Hinv (P g0 jj)) as [ic Eic]; [apply nth_In; lia|]. rewrite Eic. cbn [bind].
  exists jj, ic. set (G := filter (fun i => wi (Mn g0 i) (Mn g0 jj) ic) inds). set (rest := filter (fun i => negb (wi (Mn g0 i) (Mn g0 jj) ic)) inds).
  change (filter (fun ii => wi (nth ii (gm_m g0) (fun _ => 0)) (Mn g0 jj) ic) inds) with G.
  assert (HG : forall i, In i G -> In i inds) by (intros i Hi; apply filter_In in Hi; tauto).
  assert (HGn : forall i, In i G -> (i < n)%nat) by (intros i Hi; apply Hb, HG, Hi).
  assert (HjG : In jj G).
  { apply filter_In. split; [exact Hjin|]. apply Hself with (p := P g0 jj); [apply nth_In; lia|apply nth_In; lia|exact Eic]. }
  assert (Gne : G <> []) by (destruct G; [destruct HjG|discriminate]).
  assert (LG : (length G <= n)%nat) by (apply group_sum; [apply NoDup_filter, ND|exact HGn]).
  assert (Ewt : forall i, In i G -> nth i ws 0%R = W g0 i).
  { intros i Hi. apply HG in Hi. rewrite Hw by (apply Hb; exact Hi).
    assert (T : existsb (Nat.eqb i) inds = true) by (apply existsb_eqb; exact Hi). rewrite T. reflexivity. }
  assert (Em : map (fun ii => nth ii ws 0%R) G = map (W g0) G) by (apply map_ext_in; exact Ewt).
  rewrite Em. destruct (group_weight G Gne LG HGn) as [W9 AP]. pose proof (bp_pos (-900)) as b9.
  set (w64 := psum (map (W g0) G)) in *. set (w := rsum (map (W g0) G)) in *.
  assert (Ul : INR (8 * length G + 64) * u64 <= / 4) by (revert Hn; apply u_mono; lia).
  assert (U1 : INR (length G) * u64 <= / 4) by (revert Ul; apply u_mono; lia).
  pose proof (proj2 (proj2 AP)) as AE.
  assert (w64pos : 0 < w64).
  { pose proof (approx_ge _ _ _ AP) as Q. pose proof (g_lin _ U1) as GL. assert ((2 - FltGibbs.g (length G)) * w >= / 2 * w); [|lra].
    apply Rle_ge. apply Rmult_le_compat_r; lra. }
  destruct (Reqb w64 0) eqn:Eq; [apply Reqb_eq in Eq; lra|].
  set (m_new := fun i : nat => div64 (vsum64 (map (fun ii k => mul64 (nth ii ws 0) (nth ii (gm_m g0) (fun _ => 0) k)) G) i) w64).
  set (p_new := fun i j : nat => div64 (msum64 (map (fun ii k l => mul64 (nth ii ws 0) (nth ii (gm_p g0) (fun _ _ => 0) k l)) G) i j) w64).
  exists (w64, m_new, p_new), (set_all G (-1) ws). cbn zeta.
  assert (ER : filter (fun i => negb (existsb (Nat.eqb i) G)) inds = rest).
  { apply filter_ext_in. intros i Hi. f_equal. unfold G. destruct (wi (Mn g0 i) (Mn g0 jj) ic) eqn:Ew.
    + apply existsb_eqb. apply filter_In. auto.
    + apply existsb_eqb_false. intros Hx. apply filter_In in Hx as [_ Hx]. congruence. }
  rewrite ER. split; [reflexivity|]. split; [exact Hjin|]. split.
  { intros k Hk. assert (Hkn := Hb k Hk). assert (Hle := Hmax k ltac:(lia)). rewrite !Hw in Hle by assumption.
    assert (T : existsb (Nat.eqb k) inds = true) by (apply existsb_eqb; exact Hk).
    assert (T' : existsb (Nat.eqb jj) inds = true) by (apply existsb_eqb; exact Hjin). rewrite T, T' in Hle. exact Hle. }
  split; [exact Eic|]. split; [exact HjG|]. split.
  - assert (KK : forall x, 0 <= x -> INR (8 * length G + 16) * u64 * x <= INR (8 * n + 16) * u64 * x).
    { intros x Hx. apply Rmult_le_compat_r; [exact Hx|]. apply Rmult_le_compat_r; [pose proof u64_pos; lra|]. apply le_INR. lia. }
    unfold merged64. cbn [fst snd]. change (map (fun k => nth k (gm_w g0) 0) G) with (map (W g0) G). fold w. cbn zeta.
    split; [lra|]. split; [exact (proj1 AP)|]. split; [|split].
    + eapply Rle_trans; [exact AE|]. apply Rle_trans with (2 * (INR (length G) * u64) * w); [apply Rmult_le_compat_r; [lra|apply g_lin, U1]|].
      apply Rmult_le_compat_r; [lra|]. rewrite <- Rmult_assoc. apply Rmult_le_compat_r; [pose proof u64_pos; lra|].
      replace (2 * INR (length G)) with (INR (2 * length G)) by (rewrite mult_INR; reflexivity). apply le_INR. lia.
    + intros i Hi. unfold m_new, vsum64. rewrite map_map.
      rewrite (map_ext_in _ (fun k => mul64 (W g0 k) (Mn g0 k i)) G) by (intros k Hk; rewrite (Ewt k Hk); reflexivity).
      eapply Rle_trans; [apply (wavg_near (W g0) (fun k => Mn g0 k i) G B w64)|].
      * intros k Hk. left. apply Wnonneg, HGn, Hk.
      * intros k Hk. apply (proj1 (proj2 Hmod)); [apply nth_In; rewrite H1; apply HGn, Hk|exact Hi].
      * exact W9.
      * exact HB.
      * exact Ul.
      * exact AE.
      * apply Rplus_le_compat_r, KK, HB.
    + intros i j Hi Hj'. unfold p_new, msum64. rewrite map_map.
      rewrite (map_ext_in _ (fun k => mul64 (W g0 k) (P g0 k i j)) G) by (intros k Hk; rewrite (Ewt k Hk); reflexivity).
      eapply Rle_trans; [apply (wavg_near (W g0) (fun k => P g0 k i j) G B w64)|].
      * intros k Hk. left. apply Wnonneg, HGn, Hk.
      * intros k Hk. apply (proj2 (proj2 Hmod)); [apply nth_In; rewrite H2; apply HGn, Hk|exact Hi|exact Hj'].
      * exact W9.
      * exact HB.
      * exact Ul.
      * exact AE.
      * apply Rplus_le_compat_r, KK, HB.
  - rewrite <- ER. destruct (set_all_spec G (-1)%R ws) as [SL SN].
    { intros i Hi. rewrite L. apply HGn. exact Hi. }
    split; [lia|]. split; [intros i Hi; apply filter_In in Hi as [Hi _]; apply Hb; exact Hi|].
    intros i Hi. rewrite SN, Hw by exact Hi. destruct (existsb (Nat.eqb i) G) eqn:Ex.
    + assert (T : existsb (Nat.eqb i) (filter (fun i0 => negb (existsb (Nat.eqb i0) G)) inds) = false); [|rewrite T; reflexivity].
      apply existsb_eqb_false. intros Hx. apply filter_In in Hx as [_ Hx]. rewrite Ex in Hx. discriminate.
    + assert (T : existsb (Nat.eqb i) (filter (fun i0 => negb (existsb (Nat.eqb i0) G)) inds) = existsb (Nat.eqb i) inds); [|rewrite T; reflexivity].
      destruct (existsb (Nat.eqb i) inds) eqn:Ei.
      * apply existsb_eqb. apply filter_In. split; [apply existsb_eqb; exact Ei|rewrite Ex; reflexivity].
      * apply existsb_eqb_false. intros Hx. apply filter_In in Hx as [Hx _]. apply existsb_eqb_false in Ei. contradiction.
Qed.

Lemma loop64 fuel : forall inds ws, NoDup inds -> winv g0 inds ws -> (length inds <= fuel)%nat ->
  exists l groups, merge_loop64 psum minv wi g0 fuel inds ws = Ok l /\ grouping minv wi g0 inds groups /\
    Permutation (concat groups) inds /\ Forall2 (merged64 dim (8 * n + 16) B g0) groups l.
Proof.
  induction fuel as [|f IH]; intros inds ws ND Hw Hf.
  { destruct inds; [|cbn [length] in Hf; lia]. exists [], []. split; [reflexivity|]. split; [reflexivity|]. split; constructor. }
  destruct inds as [|i inds0] eqn:Ei; [exists [], []; split; [reflexivity|]; split; [reflexivity|]; split; constructor|]. rewrite <- Ei in *.
  destruct (turn64 inds ws ltac:(rewrite Ei; discriminate) ND Hw) as [jj [ic [new [ws' [E [Hj [Hmx [Eic [HjG [Hm Hw']]]]]]]]]].
  set (G := filter (fun i => wi (Mn g0 i) (Mn g0 jj) ic) inds) in *. set (rest := filter (fun i => negb (wi (Mn g0 i) (Mn g0 jj) ic)) inds) in *.
  assert (Hlt : (length rest < length inds)%nat).
  { unfold rest. apply (filter_len_lt _ _ jj Hj). apply filter_In in HjG as [_ ->]. reflexivity. }
  destruct (IH rest ws' (NoDup_filter _ ND) Hw' ltac:(lia)) as [l [groups [El [Hg [Hp HF]]]]].
  exists (new :: l), (G :: groups). split.
  - rewrite Ei. cbn [merge_loop64]. rewrite <- Ei, E. cbn [bind]. rewrite El. reflexivity.
  - split; [|split; [|constructor; assumption]].
    + cbn [grouping]. exists jj, ic. split; [exact Hj|]. split; [exact Hmx|]. split; [exact Eic|]. split; [reflexivity|exact Hg].
    + cbn [concat]. rewrite Hp. apply filter_partition_perm.
Qed.
End Merge64.

Lemma near_div a b x y p q : 0 <= x -> 0 <= p -> 0 < y -> 0 < q -> near a x p -> near b y q -> near (a + b) (x / y) (p / q).
Proof.
  intros Hx Hp Hy Hq A B. unfold Rdiv. apply near_mult; try assumption; try (left; apply Rinv_0_lt_compat; assumption). apply near_inv; assumption.
Qed.
Lemma near_half k x y : g k <= 2 -> 0 <= x -> 0 <= y -> near k x y -> y / 2 <= x /\ x <= 2 * y.
Proof.
  intros G Hx Hy [A B]. assert (y * g k <= y * 2) by (apply Rmult_le_compat_l; assumption). assert (x * g k <= x * 2) by (apply Rmult_le_compat_l; assumption). lra.
Qed.

Section Cap64.
Context {Meas : Type} (c : cfg Meas) (psum : list R -> R) (g0 : gmix).
Notation n := (length (gm_w g0)).
Context (Hw : forall x, In x (gm_w g0) -> rep64 x /\ bp (-900) <= x <= bp 300) (Hsum : good_sum psum).
Context (Hn : INR (8 * n + 64) * u64 <= / 4).

Lemma sub_sum l : (length l <= n)%nat -> incl l (gm_w g0) ->
  approx (length l) (rsum l) (psum l) /\ 0 <= rsum l <= bp 351 /\ (l <> [] -> bp (-900) <= rsum l).
Proof.
  intros Hl Hi. pose proof (bp_pos (-900)) as b9.
  assert (N51 : INR (length l) <= bp 51) by (apply nat_le_51; revert Hn; apply u_mono; lia).
  assert (S0 : 0 <= rsum l) by (apply OspaProofs.rsum_nonneg; intros x Hx; destruct (Hw x (Hi x Hx)); lra).
  assert (S1 : rsum l <= bp 351).
  { eapply Rle_trans; [apply (rsum_le_const (bp 300)); intros x Hx; apply (Hw x (Hi x Hx))|]. replace (bp 351) with (bp 51 * bp 300) by (rewrite bp_mul; reflexivity).
    apply Rmult_le_compat_r; [apply bpow_ge_0|exact N51]. }
  split; [|split; [split; assumption|]].
  - apply Hsum; [intros x Hx; destruct (Hw x (Hi x Hx)); split; [assumption|lra]|revert Hn; apply u_mono; lia|].
    apply Rle_trans with (2 * bp 351); [lra|]. rewrite <- bp_dbl. apply fmax_ge. lia.
  - intros Hne. destruct l as [|x l]; [congruence|]. change (rsum (x :: l)) with (x + rsum l).
    assert (0 <= rsum l) by (apply OspaProofs.rsum_nonneg; intros y Hy; destruct (Hw y (Hi y (or_intror Hy))); lra).
    destruct (Hw x (Hi x (or_introl eq_refl))). lra.
Qed.
Lemma rsum_incl drop (l : list R) : (forall x, In x l -> 0 <= x) -> rsum (keep_idx drop l) <= rsum l /\ (length (keep_idx drop l) <= length l)%nat.
Proof.
  clear. unfold keep_idx. generalize 0%nat as s. induction l as [|x l IH]; intros s H; cbn [length seq combine filter map]; [split; [apply Rle_refl|lia]|].
  destruct (IH (S s) ltac:(intros y Hy; apply H; right; exact Hy)) as [I1 I2]. change (rsum (x :: l)) with (x + rsum l). pose proof (H x (or_introl eq_refl)).
  cbn [fst]. destruct (negb (drop s)); cbn [map snd length]; [|split; [lra|lia]].
  match goal with |- rsum (x :: ?t) <= _ /\ _ => change (rsum (x :: t)) with (x + rsum t) end. split; [lra|lia].
Qed.
Lemma cap_near idx :
  same_outcome (fun a b => gm_m a = gm_m b /\ gm_p a = gm_p b /\
     Forall2 (fun x y => rep64 x /\ Rabs (x - y) <= INR (8 * n + 16) * u64 * y) (gm_w a) (gm_w b))
    (cap64 psum (c_max c) idx g0) (cap c idx g0).
Proof.
  unfold cap64, cap. destruct (c_max c <? n)%nat.
  2:{ split; [reflexivity|]. split; [reflexivity|]. revert Hw. clear. intros Hw.
      assert (K : forall y, 0 <= y -> 0 <= INR (8 * n + 16) * u64 * y) by (intros y Hy; apply Rmult_le_pos; [apply Rmult_le_pos; [apply pos_INR|pose proof u64_pos; lra]|exact Hy]).
      revert K. generalize (INR (8 * n + 16) * u64). intros e K. revert Hw. generalize (gm_w g0). intros l Hw.
      induction l as [|x l IH]; constructor; [|apply IH; intros y Hy; apply Hw; right; exact Hy].
      destruct (Hw x (or_introl eq_refl)) as [R0 B0]. split; [exact R0|]. rewrite Rminus_diag_eq, Rabs_R0 by reflexivity. apply K. pose proof (bp_pos (-900)). lra. }
  set (drop := if (c_max c =? 0)%nat then [] else firstn (length idx - c_max c) idx).
  destruct (del_idx drop (gm_m g0)) as [m|e]; [|reflexivity]. destruct (del_idx drop (gm_w g0)) as [w1|e] eqn:E1; [|reflexivity].
  destruct (del_idx drop (gm_p g0)) as [p|e]; [|reflexivity]. cbn [bind].
  apply del_idx_inv in E1 as [Ew1 _]. set (K := fun i => existsb (Nat.eqb i) drop) in Ew1.
  assert (Hpos : forall x, In x (gm_w g0) -> 0 <= x) by (intros x Hx; destruct (Hw x Hx); pose proof (bp_pos (-900)); lra).
  destruct (rsum_incl K (gm_w g0) Hpos) as [S1 L1]. rewrite <- Ew1 in S1, L1.
  assert (I1 : incl w1 (gm_w g0)) by (intros x Hx; rewrite Ew1 in Hx; exact (keep_idx_in _ _ _ Hx)).
  destruct (sub_sum (gm_w g0) (le_n _) (incl_refl _)) as [A [B _]]. destruct (sub_sum w1 L1 I1) as [A1 [B1 N1]].
  pose proof (bp_pos (-900)) as b9.
  destruct w1 as [|x0 w1'].
  { assert (Z : psum [] = 0). { destruct A1 as [_ [_ A1]]. change (rsum []) with 0 in A1. rewrite Rmult_0_r, Rminus_0_r in A1. destruct (Req_dec (psum []) 0) as [|N]; [assumption|]. apply Rabs_pos_lt in N. lra. }
    rewrite Z. change (rsum []) with 0. unfold Reqb. destruct (Req_EM_T 0 0); [reflexivity|congruence]. }
  specialize (N1 ltac:(discriminate)). set (w1 := x0 :: w1') in *. clearbody w1. clear x0 w1' Ew1.
  assert (U : INR (2 * n) * u64 <= / 4) by (revert Hn; apply u_mono; lia).
  assert (U1 : INR n * u64 <= / 4) by (revert Hn; apply u_mono; lia).
  assert (G2n : g (2 * n) <= 2) by (apply g_le_2, U).
  pose proof (near_approx _ _ _ (proj1 B) U1 A) as NA.
  assert (NB : near (2 * n) (psum w1) (rsum w1)).
  { apply (near_weaken (2 * length w1)); [lia|exact (proj1 (proj2 A1))|lra|]. apply near_approx; [lra| |exact A1]. revert U1. apply u_mono. exact L1. }
  destruct (near_half _ _ _ G2n (proj1 (proj2 A1)) (proj1 B1) NB) as [P1 P1']. destruct (near_half _ _ _ G2n (proj1 (proj2 A)) (proj1 B) NA) as [P2 P2'].
  set (s := rsum (gm_w g0)) in *. set (s1 := rsum w1) in *. set (t := psum (gm_w g0)) in *. set (t1 := psum w1) in *.
  unfold Reqb. destruct (Req_EM_T t1 0) as [Q|Q]; [exfalso; lra|]. destruct (Req_EM_T s1 0) as [Q'|Q']; [exfalso; lra|].
  split; [reflexivity|]. split; [reflexivity|]. cbn [gm_w].
  assert (T1 : 0 < t1) by lra. assert (S1p : 0 < s1) by lra.
  pose proof (near_div (2 * n) (2 * n) t t1 s s1 (proj1 (proj2 A)) (proj1 B) T1 S1p NA NB) as ND.
  assert (R1 : 1 <= s / s1). { apply Rmult_le_reg_r with s1; [exact S1p|]. unfold Rdiv. rewrite Rmult_assoc, Rinv_l by lra. lra. }
  assert (G4n : g (2 * n + 2 * n) <= 2) by (apply g_le_2; revert Hn; apply u_mono; lia).
  assert (t0 : 0 <= t / t1). { unfold Rdiv. apply Rmult_le_pos; [exact (proj1 (proj2 A))|left; apply Rinv_0_lt_compat, T1]. }
  assert (r0 : 0 <= s / s1) by lra. destruct (near_half _ _ _ G4n t0 r0 ND) as [H1 H2].
  assert (NR : near 2 (div64 t t1) (t / t1)). { apply rnd_normal. apply Rle_trans with (bp (-1)); [apply bp_le; lia|]. change (bp (-1)) with (/ 2). lra. }
  assert (dn : 0 <= div64 t t1) by (apply rnd_nonneg, t0).
  pose proof (near_trans _ _ _ _ _ NR ND) as NT. assert (G4n2 : g (2 + (2 * n + 2 * n)) <= 2) by (apply g_le_2; revert Hn; apply u_mono; lia).
  destruct (near_half _ _ _ G4n2 dn r0 NT) as [H3 H4].
  assert (KEY : forall x, In x w1 -> rep64 (mul64 x (div64 t t1)) /\ Rabs (mul64 x (div64 t t1) - x * (s / s1)) <= INR (8 * n + 16) * u64 * (x * (s / s1))).
  { intros x Hx. destruct (Hw x (I1 x Hx)) as [Rx Bx].
    assert (xs : x <= s1).
    { unfold s1. revert Hx. assert (Hp1 : forall y, In y w1 -> 0 <= y) by (intros y Hy; apply Hpos, I1, Hy). revert Hp1. clear. induction w1 as [|a w IH]; intros Hp Hx; [destruct Hx|]; destruct Hx as [<-|Hx].
      - change (rsum (a :: w)) with (a + rsum w). assert (0 <= rsum w) by (apply OspaProofs.rsum_nonneg; intros y Hy; apply Hp; right; exact Hy). lra.
      - change (rsum (a :: w)) with (a + rsum w). specialize (IH ltac:(intros y Hy; apply Hp; right; exact Hy) Hx). pose proof (Hp a (or_introl eq_refl)). lra. }
    set (r := s / s1) in *. set (r64 := div64 t t1) in *. assert (x0 : 0 <= x) by lra.
    assert (xr : x * r <= s). { unfold r, Rdiv. rewrite (Rmult_comm s), <- Rmult_assoc. apply Rle_trans with (1 * s); [|lra]. apply Rmult_le_compat_r; [lra|].
      apply Rmult_le_reg_r with s1; [exact S1p|]. rewrite Rmult_assoc, Rinv_l by lra. lra. }
    assert (NX : near (2 + (2 * n + 2 * n)) (x * r64) (x * r)).
    { apply (near_mult 0); try assumption; apply near_refl, x0. }
    assert (xr0 : 0 <= x * r64) by (apply Rmult_le_pos; assumption). assert (xr1 : x <= x * r) by (rewrite <- (Rmult_1_r x) at 1; apply Rmult_le_compat_l; assumption).
    assert (xrr : 0 <= x * r) by lra. destruct (near_half _ _ _ G4n2 xr0 xrr NX) as [H5 H6].
    assert (NO : bp (-1022) <= x * r64). { apply Rle_trans with (bp (-901)); [apply bp_le; lia|]. pose proof (bp_dbl (-901)) as D. change (-901 + 1)%Z with (-900)%Z in D. lra. }
    split; [apply rnd_normal_rep; [exact NO|]; apply Rle_trans with (2 * bp 351); [lra|rewrite <- bp_dbl; apply fmax_ge; lia]|].
    pose proof (near_trans _ _ _ _ _ (rnd_normal _ NO) NX) as NF.
    apply near_err in NF; [|lra|apply Rle_trans with (/ 4); [revert Hn; apply u_mono; lia|lra]].
    eapply Rle_trans; [exact NF|]. apply Rmult_le_compat_r; [lra|]. apply Rmult_le_compat_r; [pose proof u64_pos; lra|].
    replace (2 * INR (2 + (2 + (2 * n + 2 * n)))) with (INR (2 * (2 + (2 + (2 * n + 2 * n))))) by (rewrite mult_INR; reflexivity). apply le_INR. lia. }
  clearbody t t1 s s1. clear - KEY. induction w1 as [|x l IH]; cbn [map]; constructor; [apply KEY; left; reflexivity|apply IH; intros y Hy; apply KEY; right; exact Hy].
Qed.
End Cap64.
