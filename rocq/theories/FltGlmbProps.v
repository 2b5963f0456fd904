(** * C170-C172: GLMB hypothesis probabilities in double precision *)
From Coq Require Import Reals ZArith Lia Lra Permutation.
From Flocq Require Import Core Relative.
From Verif Require Import Base RBase CphdModel CphdSpec CphdProofs CphdProps GlmbModel GlmbSpec GlmbProofs GlmbExtract FltIeee FltGibbsModel FltGibbs FltGibbsProps FltNear FltOspaModel FltOspa FltOspaStep FltPhdSpec FltPhd FltPhdMerge FltPhdProps FltGlmbModel FltGlmbSpec FltGlmb FltGlmbPred.
Local Open Scope R_scope.

(** ** C170: prediction *)
(** The hypotheses after [predict]: for all birth and survival hypotheses with
    double probabilities, at most 2^47 pairs, the double-precision computation
    finds the same hypotheses in the same order as the exact one, each
    probability close to the exact one, and they sum to 1 up to rounding. *)
Theorem C170_glmb_predict64 : forall {FS ST CV MS} (E : genv FS ST CV MS) nb bh sh,
  probs64 bh -> probs64 sh -> bpow radix2 (-400) <= rsum (map h_p bh) * rsum (map h_p sh) ->
  INR (length bh * length sh) <= bpow radix2 47 ->
  Forall2 (close_hyp (8 * (length bh * length sh) + 14)) (pred_hyps64 E nb bh sh) (clean_predictions E (set_pred_hyps nb bh sh)) /\
  Rabs (rsum (map h_p (pred_hyps64 E nb bh sh)) - 1) <= INR (8 * (length bh * length sh) + 15) * u64.
Proof.
  intros FS ST CV MS E nb bh sh H1 H2 H3 H4. destruct (pred_close E nb bh sh H1 H2 H3 H4) as [A [B C]]. split; [exact A|].
  replace (8 * (length bh * length sh) + 15)%nat with (S (8 * (length bh * length sh) + 14)) by lia. apply (near_one _ _ _ A B).
  pose proof (few_u _ H4) as U. revert U. apply u_mono. lia.
Qed.
Print Assumptions C170_glmb_predict64.

(** ** C171: pruning and capping *)
Lemma ppair_refl hs : probs64 hs -> Forall2 (ppair 0 0) hs hs.
Proof.
  induction hs as [|h hs IH]; intros H; constructor; [|apply IH; intros x Hx; apply H; right; exact Hx].
  destruct (H h (or_introl eq_refl)) as [R P]. split; [reflexivity|]. split; [exact R|]. split; [exact P|]. split; [exact P|]. apply near_nears, near_refl. lra.
Qed.
Lemma ppair_close a e x y : INR a * u64 <= / 2 -> 0 <= e -> e <= bp (-500) -> ppair a e x y -> close_hyp (2 * a) x y.
Proof.
  intros U E0 E1 [T [R [X [Y N]]]]. split; [exact T|]. split; [exact R|]. split; [apply X|].
  eapply Rle_trans; [apply (nears_err a e); [apply Y|exact E0|exact U|exact N]|lra].
Qed.
Lemma ppairs_probs a e l64 l : Forall2 (ppair a e) l64 l -> probs64 l64.
Proof. induction 1 as [|x y l64 l P F IH]; intros h Hh; [destruct Hh|]. destruct Hh as [<-|Hh]; [split; apply P|apply IH, Hh]. Qed.
Lemma rescale64_close sum hs : good_sum sum -> dominates sum -> probs64 hs -> INR (length hs) <= bp 47 -> 0 < rsum (map h_p hs) ->
  Forall2 (close_hyp (4 * length hs + 6)) (rescale64 sum hs) (rescale hs) /\ nearly_dist (4 * length hs + 7) (rescale64 sum hs).
Proof.
  intros G D P N S. pose proof (few_u _ N) as U.
  pose proof (rescale_pairs sum G D 0 0 hs hs (ppair_refl hs P) (Rle_refl 0) U ltac:(lia) (or_introl (conj eq_refl S))) as F.
  assert (U2 : INR (2 * length hs + 3) * u64 <= / 2) by (assert (INR (2 * length hs + 3) * u64 <= / 4) by (revert U; apply u_mono; lia); lra).
  assert (C : Forall2 (close_hyp (4 * length hs + 6)) (rescale64 sum hs) (rescale hs)).
  { revert F. apply f2_imp. intros x y Pxy. replace (4 * length hs + 6)%nat with (2 * (2 * length hs + 3))%nat by lia.
    apply (ppair_close _ (bp (-590))); [exact U2|apply bpow_ge_0|apply bp_le; lia|]. replace (2 * length hs + 3)%nat with (2 * length hs + 2 * 0 + 3)%nat by lia. exact Pxy. }
  split; [exact C|]. split; [exact (ppairs_probs _ _ _ _ F)|].
  replace (4 * length hs + 7)%nat with (Datatypes.S (4 * length hs + 6)) by lia. apply (near_one _ _ _ C); [apply rescale_total; lra|].
  unfold rescale. cbn zeta. rewrite map_length. revert U. apply u_mono. lia.
Qed.
Lemma probs_filter f hs : probs64 hs -> probs64 (filter f hs).
Proof. intros H h Hh. apply filter_In in Hh as [Hh _]. apply H, Hh. Qed.
Lemma filter_len {A} (f : A -> bool) l : (length (filter f l) <= length l)%nat.
Proof. induction l as [|a l IH]; cbn [filter length]; [lia|]. destruct (f a); cbn [length]; lia. Qed.
Lemma calc_card64_nth hs n : hs <> [] -> nth n (calc_card64 hs) 0 = run_sum (map h_p (filter (fun h => (length (h_ts h) =? n)%nat) hs)).
Proof.
  intros Hne. unfold calc_card64. destruct hs as [|h0 hs0]; [congruence|]. set (hs := h0 :: hs0) in *. set (mx := list_max (map (fun h => length (h_ts h)) hs)).
  destruct (Nat.lt_ge_cases n (S mx)) as [Hl|Hl].
  - set (f := fun n => run_sum (map h_p (filter (fun h => (length (h_ts h) =? n)%nat) hs))). rewrite (nth_indep _ 0 (f 0%nat)) by (rewrite map_length, seq_length; exact Hl).
    rewrite map_nth, seq_nth by exact Hl. reflexivity.
  - rewrite nth_overflow by (rewrite map_length, seq_length; exact Hl).
    assert (E : filter (fun h => (length (h_ts h) =? n)%nat) hs = []).
    { destruct (filter _ hs) as [|x l] eqn:Ef; [reflexivity|]. exfalso. assert (Hx : In x (x :: l)) by (left; reflexivity). rewrite <- Ef in Hx. apply filter_In in Hx as [Hx Hn]. apply Nat.eqb_eq in Hn.
      assert (length (h_ts x) <= mx)%nat; [|lia]. unfold mx. clear - Hx. induction hs as [|y hs IH]; [destruct Hx|]. cbn [map list_max fold_right]. change (fold_right Init.Nat.max 0%nat (map (fun h => length (h_ts h)) hs)) with (list_max (map (fun h => length (h_ts h)) hs)).
      destruct Hx as [<-|Hx]; [lia|specialize (IH Hx); lia]. }
    rewrite E. reflexivity.
Qed.
Lemma card_entry hs n : hs <> [] -> probs64 hs -> INR (length hs) <= bp 47 ->
  near (2 * length hs) (nth n (calc_card64 hs) 0) (mass (fun h => (length (h_ts h) =? n)%nat) hs) /\ 0 <= mass (fun h => (length (h_ts h) =? n)%nat) hs.
Proof.
  intros Hne P N. rewrite (calc_card64_nth hs n Hne). unfold mass. set (l := filter (fun h => (length (h_ts h) =? n)%nat) hs).
  assert (Hl : (length l <= length hs)%nat) by apply filter_len. pose proof (few_u _ N) as U.
  assert (Pl : probs64 l) by (apply probs_filter, P).
  destruct (probs_bounds run_sum seq_sum_good C168_left_to_right_dominates l Pl) as [Nn [B [A _]]]; [revert U; apply u_mono; lia|].
  split; [|apply B]. apply (near_weaken (2 * length l)); [lia|apply A|apply B|]. apply near_approx; [apply B| |exact A]. revert U. apply u_mono. lia.
Qed.
Lemma card64_near hs : hs <> [] -> probs64 hs -> INR (length hs) <= bp 47 -> card_near (4 * length hs) (calc_card64 hs) hs.
Proof.
  intros Hne P N n. destruct (card_entry hs n Hne P N) as [C M]. pose proof (few_u _ N) as U.
  eapply Rle_trans; [apply (near_err (2 * length hs)); [exact M| |exact C]|].
  - assert (INR (2 * length hs) * u64 <= / 4) by (revert U; apply u_mono; lia). lra.
  - right. replace (4 * length hs)%nat with (2 * (2 * length hs))%nat by lia. rewrite (mult_INR 2 (2 * length hs)). change (INR 2) with 2. ring.
Qed.

(** Pruning: for every threshold that is not negative and every state, exactly
    the hypotheses above the threshold remain, in order, with probabilities in
    [0, 1] close to the exact ones; they sum to 1 up to rounding, and the
    cardinality distribution is that of the hypotheses up to rounding. *)
Theorem C171_glmb_prune64 : forall {FS ST CV MS} (c : gcfg ST CV) (s : glmb FS ST CV MS),
  0 <= c_prune c -> probs64 (g_hyps s) -> INR (length (g_hyps s)) <= bpow radix2 47 ->
  let s' := prune64 c s in let n := length (g_hyps s') in
  map h_ts (g_hyps s') = map h_ts (filter (fun h => if Rlt_dec (c_prune c) (h_p h) then true else false) (g_hyps s)) /\
  Forall2 (close_hyp (4 * n + 6)) (g_hyps s') (g_hyps (prune c s)) /\
  (g_hyps s' <> [] -> nearly_dist (4 * n + 7) (g_hyps s') /\ card_near (4 * n) (g_card s') (g_hyps s')).
Proof.
  intros FS ST CV MS c s Hc Hp Hn s' n. unfold n, s', prune64, with_hyps64, prune, with_hyps. cbn [g_hyps g_card].
  set (l := filter _ (g_hyps s)). clear n s'.
  assert (Pl : probs64 l) by (apply probs_filter, Hp). assert (Ll : (length l <= length (g_hyps s))%nat) by apply filter_len.
  assert (Nl : INR (length l) <= bp 47) by (apply Rle_trans with (INR (length (g_hyps s))); [apply le_INR, Ll|exact Hn]).
  assert (LR : length (rescale64 (np_sum 0 add64) l) = length l) by (unfold rescale64; cbn zeta; apply map_length). rewrite LR.
  split; [unfold rescale64; cbn zeta; rewrite map_map; reflexivity|].
  destruct l as [|h0 l0] eqn:El; [split; [constructor|intros X; exfalso; apply X; reflexivity]|]. rewrite <- El in *.
  assert (S0 : 0 < rsum (map h_p l)).
  { assert (H0 : In h0 l) by (rewrite El; left; reflexivity). pose proof H0 as H1. subst l. apply filter_In in H1 as [_ H1].
    destruct (Rlt_dec (c_prune c) (h_p h0)) as [H2|]; [|discriminate]. apply Rlt_le_trans with (h_p h0); [lra|].
    apply psum_le1; [intros y Hy; apply in_map_iff in Hy as [h [<- Hh]]; apply (Pl h Hh)|apply in_map, H0]. }
  destruct (rescale64_close (np_sum 0 add64) l np_sum_good np_sum_dominates Pl Nl S0) as [C D].
  split; [exact C|]. intros Hne. split; [exact D|]. pose proof (card64_near _ Hne (proj1 D)) as K. rewrite LR in K. apply K, Nl.
Qed.
Print Assumptions C171_glmb_prune64.

(** Capping: nothing happens when there are few hypotheses; otherwise the result
    is, up to rounding, the exact result (C54 says which hypotheses those are). *)
Theorem C171_glmb_cap64 : forall {FS ST CV MS} (E : genv FS ST CV MS) (c : gcfg ST CV) (s : glmb FS ST CV MS),
  rsorts (v_argsort E) -> probs64 (g_hyps s) -> 0 < rsum (map h_p (g_hyps s)) -> (0 < c_maxh c)%nat -> INR (length (g_hyps s)) <= bpow radix2 47 ->
  let s' := cap64 E c s in
  ((length (g_hyps s) <= c_maxh c)%nat -> s' = s) /\
  ((c_maxh c < length (g_hyps s))%nat ->
    length (g_hyps s') = c_maxh c /\
    Forall2 (close_hyp (4 * c_maxh c + 6)) (g_hyps s') (g_hyps (cap E c s)) /\
    nearly_dist (4 * c_maxh c + 7) (g_hyps s') /\ card_near (4 * c_maxh c) (g_card s') (g_hyps s')).
Proof.
  intros FS ST CV MS E c s Hs Hp Ht Hm Hn s'. unfold s', cap64, cap, with_hyps64, with_hyps. clear s'.
  destruct (Nat.ltb_spec (c_maxh c) (length (g_hyps s))) as [Hl|Hl]; split; intros Hx; try lia; [|reflexivity]. cbn [g_hyps g_card].
  set (hs := g_hyps s) in *. set (dd := {| h_p := 0; h_ts := [] |}). destruct (Hs (map h_p hs)) as [P So]. rewrite map_length in P, So.
  set (o := v_argsort E (map h_p hs)) in *. set (kept := firstn (c_maxh c) (rev o)).
  assert (Lo : length o = length hs) by (rewrite (Permutation_length P), seq_length; reflexivity).
  assert (Lk : length kept = c_maxh c) by (unfold kept; rewrite firstn_length, rev_length; lia).
  assert (Hin : forall i, In i o -> (i < length hs)%nat) by (intros i Hi; apply (Permutation_in _ P), in_seq in Hi; lia).
  assert (Hk : forall i, In i kept -> (i < length hs)%nat).
  { intros i Hi. apply Hin. rewrite in_rev. rewrite <- (firstn_skipn (c_maxh c)). apply in_or_app. left. exact Hi. }
  set (l := map (fun i => nth i hs dd) kept).
  assert (LL : length l = c_maxh c) by (unfold l; rewrite map_length; exact Lk).
  assert (Pl : probs64 l) by (intros h Hh; apply in_map_iff in Hh as [i [<- Hi]]; apply Hp, nth_In, Hk, Hi).
  assert (Nl : INR (length l) <= bp 47) by (rewrite LL; apply Rle_trans with (INR (length hs)); [apply le_INR; lia|exact Hn]).
  assert (S0 : 0 < rsum (map h_p l)).
  { set (b := nth (length hs - 1) o 0%nat).
    assert (Hb : In b kept).
    { unfold kept. destruct (c_maxh c) as [|m]; [lia|]. destruct (rev o) as [|b0 ro] eqn:Er; [apply (f_equal (@length _)) in Er; rewrite rev_length in Er; cbn in Er; lia|].
      cbn [firstn]. left. unfold b. rewrite <- (rev_involutive o), Er, rev_nth by (rewrite <- Er, rev_length; lia). rewrite <- Er, rev_length, Lo, Er.
      replace (length hs - S (length hs - 1))%nat with 0%nat by lia. reflexivity. }
    assert (Hbig : exists h, In h hs /\ 0 < h_p h).
    { clear - Ht Hp. destruct (Exists_dec (fun h => 0 < h_p h) hs) as [X|X]; [intros h; apply Rlt_dec| |].
      - apply Exists_exists in X. exact X.
      - exfalso. assert (Z : rsum (map h_p hs) <= 0); [|lra]. assert (Y : forall h, In h hs -> h_p h <= 0).
        { intros h Hh. apply Rnot_lt_le. intros Z. apply X, Exists_exists. exists h. split; assumption. }
        clear - Y. induction hs as [|h hs IH]; cbn [map]; [change (rsum []) with 0; lra|]. change (rsum (h_p h :: map h_p hs)) with (h_p h + rsum (map h_p hs)).
        pose proof (Y h (or_introl eq_refl)). assert (rsum (map h_p hs) <= 0) by (apply IH; intros x Hx; apply Y; right; exact Hx). lra. }
    destruct Hbig as [h [Hh Hpos]]. apply (In_nth _ _ dd) in Hh as [i [Hi Ei]].
    assert (Hio : In i o) by (apply (Permutation_in _ (Permutation_sym P)), in_seq; lia). apply (In_nth _ _ 0%nat) in Hio as [j [Hj Ej]].
    assert (Hv : forall k, (k < length hs)%nat -> nth k (map h_p hs) 0 = h_p (nth k hs dd)).
    { intros k Hkk. rewrite (nth_indep _ 0 (h_p dd)) by (rewrite map_length; exact Hkk). apply map_nth. }
    assert (Hge : h_p h <= h_p (nth b hs dd)).
    { destruct (Nat.eq_dec j (length hs - 1)) as [->|Hj'].
      - unfold b. rewrite Ej, Ei. apply Rle_refl.
      - specialize (So j (length hs - 1)%nat ltac:(lia)). fold b in So. rewrite Ej in So. rewrite !Hv in So; [rewrite Ei in So; exact So|apply Hk, Hb|exact Hi]. }
    apply Rlt_le_trans with (h_p (nth b hs dd)); [lra|]. apply psum_le1; [intros y Hy; apply in_map_iff in Hy as [x [<- Hxx]]; apply (Pl x Hxx)|].
    apply in_map. unfold l. apply in_map_iff. exists b. split; [reflexivity|exact Hb]. }
  destruct (rescale64_close run_sum l seq_sum_good C168_left_to_right_dominates Pl Nl S0) as [C D]. rewrite LL in C, D.
  assert (LR : length (rescale64 run_sum l) = c_maxh c) by (unfold rescale64; cbn zeta; rewrite map_length; exact LL).
  split; [exact LR|]. split; [exact C|]. split; [exact D|].
  assert (Hne : rescale64 run_sum l <> []) by (intros X; rewrite X in LR; cbn in LR; lia).
  pose proof (card64_near _ Hne (proj1 D)) as K. rewrite LR in K. apply K. rewrite <- LL. exact Nl.
Qed.
Print Assumptions C171_glmb_cap64.

(** ** C172: the reported hypothesis *)
Lemma g_le k : INR k * u64 <= / 2 -> g k <= 1 + 2 * INR k * u64.
Proof.
  intros H. pose proof (g_one k) as G. assert (N : near k (g k) 1).
  { split; [lra|]. assert (1 * 1 <= g k * g k) by (apply Rmult_le_compat; lra). lra. }
  pose proof (near_err k 1 (g k) Rle_0_1 H N) as E. rewrite Rabs_pos_eq in E by lra. lra.
Qed.
(** For every state whose cardinality distribution was computed by the filter:
    the hypothesis reported is (exactly) the most probable one among those with
    as many tracks, and no other number of tracks is more probable by more than
    rounding. *)
Theorem C172_glmb_most_probable64 : forall {FS ST CV MS} (s : glmb FS ST CV MS) i,
  g_card s = calc_card64 (g_hyps s) -> probs64 (g_hyps s) -> 0 < rsum (map h_p (g_hyps s)) -> INR (length (g_hyps s)) <= bpow radix2 47 ->
  map_index s = Ok i ->
  exists h, nth_error (g_hyps s) i = Some h /\
    (forall h', In h' (g_hyps s) -> length (h_ts h') = length (h_ts h) -> h_p h' <= h_p h) /\
    forall n, mass (fun x => (length (h_ts x) =? n)%nat) (g_hyps s) <=
      (1 + INR (8 * length (g_hyps s)) * u64) * mass (fun x => (length (h_ts x) =? length (h_ts h))%nat) (g_hyps s).
Proof.
  intros FS ST CV MS s i Hc Hp Ht Hn H. set (hs := g_hyps s) in *.
  assert (Hne : hs <> []) by (intros E; rewrite E in Ht; cbn [map] in Ht; change (rsum []) with 0 in Ht; lra).
  assert (Hbig : exists h, In h hs /\ 0 < h_p h).
  { clear - Ht Hp. destruct (Exists_dec (fun h => 0 < h_p h) hs) as [X|X]; [intros h; apply Rlt_dec| |].
    - apply Exists_exists in X. exact X.
    - exfalso. assert (Z : rsum (map h_p hs) <= 0); [|lra]. assert (Y : forall h, In h hs -> h_p h <= 0).
      { intros h Hh. apply Rnot_lt_le. intros Z. apply X, Exists_exists. exists h. split; assumption. }
      clear - Y. induction hs as [|h hs IH]; cbn [map]; [change (rsum []) with 0; lra|]. change (rsum (h_p h :: map h_p hs)) with (h_p h + rsum (map h_p hs)).
      pose proof (Y h (or_introl eq_refl)). assert (rsum (map h_p hs) <= 0) by (apply IH; intros x Hx; apply Y; right; exact Hx). lra. }
  unfold map_index in H. apply bind_ok in H as [card [E1 H]]. apply argmaxR_spec in E1 as [C1 [C2 _]]. apply argmaxR_spec in H as [I1 [I2 _]].
  fold hs in I1, I2. rewrite map_length in I1, I2. rewrite Hc in C1, C2. set (v := fun h => if (length (h_ts h) =? card)%nat then h_p h * 1 else h_p h * 0) in *.
  set (M := fun n => mass (fun x => (length (h_ts x) =? n)%nat) hs).
  pose proof (few_u _ Hn) as U. set (K := (2 * length hs)%nat) in *.
  assert (Hent : forall n, near K (nth n (calc_card64 hs) 0) (M n) /\ 0 <= M n) by (intros n; apply card_entry; assumption).
  pose proof (g_one K) as GK.
  assert (Hcard : forall n, M n <= M card * g (K + K)).
  { intros n. destruct (Hent n) as [[_ A] _]. destruct (Hent card) as [[B _] Mc].
    assert (Q : nth n (calc_card64 hs) 0 <= nth card (calc_card64 hs) 0).
    { destruct (Nat.lt_ge_cases n (length (calc_card64 hs))) as [Hl|Hl]; [apply C2, Hl|]. rewrite nth_overflow by exact Hl.
      rewrite (calc_card64_nth hs card Hne).
      destruct (fold_dom (map h_p (filter (fun h => (length (h_ts h) =? card)%nat) hs)) 0 (conj (generic_format_0 _ _) (Rle_refl 0))) as [[_ D] _]; [|exact D].
      intros x Hx. apply in_map_iff in Hx as [h [<- Hh]]. apply filter_In in Hh as [Hh _]. destruct (Hp h Hh) as [R0 P0]. split; [apply rep64_fmt, R0|lra]. }
    rewrite g_plus. eapply Rle_trans; [exact A|]. apply Rle_trans with (nth card (calc_card64 hs) 0 * g K); [apply Rmult_le_compat_r; lra|].
    rewrite <- Rmult_assoc. apply Rmult_le_compat_r; lra. }
  assert (Hv : forall k x, nth_error hs k = Some x -> (k < length hs)%nat /\ nth k (map v hs) 0 = v x).
  { intros k x Hk. split; [apply nth_error_Some; congruence|]. apply nth_error_nth. apply map_nth_error. exact Hk. }
  destruct (nth_error hs i) as [h|] eqn:Eh; [|apply nth_error_None in Eh; lia]. exists h. split; [reflexivity|].
  destruct (Hv i h Eh) as [_ Vi].
  assert (Mh : forall x, In x hs -> h_p x <= M (length (h_ts x))).
  { intros x Hx. unfold M, mass. apply psum_le1; [intros y Hy; apply in_map_iff in Hy as [z [<- Hz]]; apply filter_In in Hz as [Hz _]; apply (Hp z Hz)|].
    apply in_map, filter_In. split; [exact Hx|apply Nat.eqb_refl]. }
  assert (Mpos : 0 < M card).
  { destruct Hbig as [x [Hx Px]]. pose proof (Mh x Hx) as A. pose proof (Hcard (length (h_ts x))) as B. pose proof (g_one (K + K)) as G.
    destruct (Rle_lt_or_eq_dec 0 (M card) (proj2 (Hent card))) as [|E0]; [assumption|]. rewrite <- E0, Rmult_0_l in B. lra. }
  assert (Hx : exists x, In x hs /\ (length (h_ts x) =? card)%nat = true /\ 0 < h_p x).
  { unfold M, mass in Mpos. set (f := fun x => (length (h_ts x) =? card)%nat) in *. assert (Y : exists x, In x (filter f hs) /\ 0 < h_p x).
    { destruct (Exists_dec (fun h => 0 < h_p h) (filter f hs)) as [X|X]; [intros z; apply Rlt_dec|apply Exists_exists in X; exact X|].
      exfalso. assert (Y : forall z, In z (filter f hs) -> h_p z <= 0) by (intros z Hz; apply Rnot_lt_le; intros Z; apply X, Exists_exists; exists z; split; assumption).
      assert (rsum (map h_p (filter f hs)) <= 0); [|lra]. clear - Y. induction (filter f hs) as [|z l IH]; cbn [map]; [change (rsum []) with 0; lra|]. change (rsum (h_p z :: map h_p l)) with (h_p z + rsum (map h_p l)).
      pose proof (Y z (or_introl eq_refl)). assert (rsum (map h_p l) <= 0) by (apply IH; intros x Hx; apply Y; right; exact Hx). lra. }
    destruct Y as [x [Hx Px]]. apply filter_In in Hx as [Hx Fx]. exists x. split; [exact Hx|]. split; [exact Fx|exact Px]. }
  assert (Hlen : length (h_ts h) = card).
  { destruct Hx as [x [Hx [Hxl Px]]]. destruct (In_nth_error _ _ Hx) as [k Hk]. destruct (Hv k x Hk) as [Lk Vk]. specialize (I2 k Lk). rewrite Vi, Vk in I2. unfold v in I2. rewrite Hxl in I2.
    destruct (Nat.eqb_spec (length (h_ts h)) card) as [|_]; [assumption|]. lra. }
  split.
  - intros h' Hh' Hl'. destruct (In_nth_error _ _ Hh') as [k Hk]. destruct (Hv k h' Hk) as [Lk Vk]. specialize (I2 k Lk). rewrite Vi, Vk in I2. unfold v in I2.
    rewrite Hl', Hlen, Nat.eqb_refl in I2. lra.
  - intros n. rewrite Hlen. fold (M n). fold (M card). eapply Rle_trans; [apply Hcard|]. rewrite Rmult_comm. apply Rmult_le_compat_r; [lra|].
    eapply Rle_trans; [apply g_le; assert (INR (K + K) * u64 <= / 4) by (revert U; apply u_mono; lia); lra|]. right.
    replace (8 * length hs)%nat with (2 * (K + K))%nat by (unfold K; lia). rewrite (mult_INR 2). change (INR 2) with 2. reflexivity.
Qed.
Print Assumptions C172_glmb_most_probable64.

(** ** The hypotheses are met *)
Definition quarter64 : rep64 (/ 4).
Proof. apply (dy 1 (-2)); [reflexivity|lia|]. change (bp (-2)) with (/ 4). lra. Qed.
Definition exE : genv unit unit unit unit :=
  {| v_rnd := fun _ => 0%Z; v_init := fun _ _ => tt; v_pred := fun _ _ _ => (tt, tt, tt); v_corr := fun _ _ _ _ => None;
     v_kshort := fun _ _ => Ok ([], []); v_murty := fun _ _ _ _ => Ok ([], []); v_lse0 := Ok tt; v_hash := fun l => Z.of_nat (length l); v_argsort := sort_ref |}.
Definition exC (m : nat) : gcfg unit unit :=
  {| c_births := []; c_ps := / 2; c_pd := / 2; c_crate := 1; c_cden := 1; c_reqb := 1; c_reqs := 1; c_requ := 1;
     c_prune := / 8; c_maxh := m; c_savecov := false; c_savemeas := false |}.
Definition ex_bh : list hyp := [{| h_p := / 2; h_ts := [] |}; {| h_p := / 4; h_ts := [0%nat] |}].
Definition ex_sh : list hyp := [{| h_p := / 2; h_ts := [1%nat] |}; {| h_p := / 4; h_ts := [0; 1]%nat |}; {| h_p := / 4; h_ts := [] |}].
Definition ex_st : glmb unit unit unit unit := with_hyps64 glmb_new ex_sh.
Lemma ex_probs : probs64 ex_bh /\ probs64 ex_sh.
Proof.
  split; intros h Hh; [destruct Hh as [<-|[<-|[]]]|destruct Hh as [<-|[<-|[<-|[]]]]]; cbn [h_p]; (split; [first [exact half64|exact quarter64]|lra]).
Qed.
Lemma ex_sums : rsum (map h_p ex_bh) = 3 / 4 /\ rsum (map h_p ex_sh) = 1.
Proof. unfold ex_bh, ex_sh, rsum. cbn [map h_p fold_right]. split; lra. Qed.
Lemma small_b47 n : (n <= 8)%nat -> INR n <= bp 47.
Proof. intros H. apply le_INR in H. apply Rle_trans with (bp 3); [change (bp 3) with 8; replace (INR 8) with 8 in H by (rewrite INR_IZR_INZ; reflexivity); exact H|apply bp_le; lia]. Qed.
Example C170_ex : probs64 ex_bh /\ probs64 ex_sh /\ bpow radix2 (-400) <= rsum (map h_p ex_bh) * rsum (map h_p ex_sh) /\
  INR (length ex_bh * length ex_sh) <= bpow radix2 47 /\ length (pred_hyps64 exE 1 ex_bh ex_sh) = 4%nat.
Proof.
  split; [apply ex_probs|]. split; [apply ex_probs|]. destruct ex_sums as [-> ->]. split; [|split; [apply small_b47; cbn; lia|reflexivity]].
  apply Rle_trans with (bp (-1)); [apply bp_le; lia|]. change (bp (-1)) with (/ 2). lra.
Qed.
Example C171_ex : 0 <= c_prune (exC 2) /\ rsorts (v_argsort exE) /\ probs64 (g_hyps ex_st) /\ 0 < rsum (map h_p (g_hyps ex_st)) /\
  INR (length (g_hyps ex_st)) <= bpow radix2 47 /\ (0 < c_maxh (exC 2) < length (g_hyps ex_st))%nat /\ g_hyps (prune64 (exC 2) ex_st) <> [].
Proof.
  assert (G : g_hyps ex_st = ex_sh) by reflexivity. rewrite G. split; [cbn; lra|]. split; [exact C44_ex|]. split; [apply ex_probs|]. destruct ex_sums as [_ ->].
  split; [lra|]. split; [apply small_b47; cbn; lia|]. split; [cbn; lia|]. intros X. apply (f_equal (@length _)) in X.
  unfold prune64, with_hyps64, rescale64 in X. cbn [g_hyps] in X. rewrite map_length, G in X. unfold ex_sh in X. cbn [filter c_prune exC h_p] in X.
  destruct (Rlt_dec (/ 8) (/ 2)) as [|Y]; [discriminate|lra].
Qed.
Example C172_ex : g_card ex_st = calc_card64 (g_hyps ex_st) /\ probs64 (g_hyps ex_st) /\ 0 < rsum (map h_p (g_hyps ex_st)) /\
  INR (length (g_hyps ex_st)) <= bpow radix2 47 /\ exists i, map_index ex_st = Ok i.
Proof.
  assert (G : g_hyps ex_st = ex_sh) by reflexivity. split; [reflexivity|]. rewrite G. split; [apply ex_probs|]. destruct ex_sums as [_ ->]. split; [lra|]. split; [apply small_b47; cbn; lia|].
  apply GlmbExtract.map_index_ok; discriminate.
Qed.
