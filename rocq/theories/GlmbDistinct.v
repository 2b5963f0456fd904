(** No two hypotheses have the same set of tracks: proofs for the GLMB filter and
    for the joint GLMB filter. *)
From Verif Require Import Base Lists.
From Coq Require Import Reals Permutation Sorted Lra.
From Verif Require Import OspaModel CphdModel OspaProofs OspaMetric CphdSpec CphdProofs GlmbModel GlmbSpec GlmbProofs GlmbInv GlmbProps.
From Verif Require Import JglmbModel JglmbSpec JglmbProofs JglmbInv.
Open Scope R_scope.

Definition key (h : hyp) : list nat := sort_nat (h_ts h).
Definition ds (hs : list hyp) : Prop := NoDup (map key hs).
Lemma ds_positions hs : ds hs -> forall i j h1 h2, nth_error hs i = Some h1 -> nth_error hs j = Some h2 -> Permutation (h_ts h1) (h_ts h2) -> i = j.
Proof.
  intros H i j h1 h2 H1 H2 HP. unfold ds in H. rewrite NoDup_nth_error in H. apply H.
  - rewrite map_length. apply nth_error_Some. congruence.
  - rewrite !nth_error_map, H1, H2. cbn. f_equal. apply sort_eq_perm, HP.
Qed.
Lemma ds_ext hs hs' : map h_ts hs = map h_ts hs' -> ds hs -> ds hs'.
Proof.
  unfold ds. intros E H. replace (map key hs') with (map sort_nat (map h_ts hs')) by (rewrite map_map; reflexivity).
  rewrite <- E, map_map. exact H.
Qed.
Lemma ds_rescale hs : ds hs -> ds (rescale hs).
Proof. apply ds_ext. unfold rescale. rewrite map_map. reflexivity. Qed.
Lemma nodup_map_filter {A B} (f : A -> B) (p : A -> bool) l : NoDup (map f l) -> NoDup (map f (filter p l)).
Proof.
  induction l as [|x l IH]; intros H; [constructor|]. cbn [map] in H. inversion H as [|? ? Hx Hl]; subst. cbn [filter]. destruct (p x); [|auto].
  cbn [map]. constructor; [|auto]. intros Hi. apply Hx. apply in_map_iff in Hi as [y [<- Hy]]. apply in_map. apply filter_In in Hy. tauto.
Qed.
Lemma ds_filter p hs : ds hs -> ds (filter p hs).
Proof. apply nodup_map_filter. Qed.
Lemma ds_pick hs d ks : ds hs -> NoDup ks -> (forall k, In k ks -> (k < length hs)%nat) -> ds (map (fun i => nth i hs d) ks).
Proof.
  intros H Hk Hb. unfold ds in *. rewrite map_map. induction ks as [|k ks IH]; [constructor|]. inversion Hk as [|? ? Hx Hl]; subst. cbn [map]. constructor.
  - intros Hi. apply in_map_iff in Hi as [j [Ej Hj]]. apply Hx. assert (j = k); [|subst; exact Hj].
    pose proof (Hb j (or_intror Hj)) as B1. pose proof (Hb k (or_introl eq_refl)) as B2.
    apply (ds_positions hs H j k (nth j hs d) (nth k hs d)); [apply nth_error_nth'; exact B1|apply nth_error_nth'; exact B2|]. apply sort_eq_perm. exact Ej.
  - apply IH; [exact Hl|]. intros j Hj. apply Hb. right. exact Hj.
Qed.
(** Pieces that are distinct inside and across give distinct hypotheses. *)
Lemma ds_concat {A} (g : A -> result (list hyp)) (K : A -> list nat) hs : forall ll,
  mapM g hs = Ok ll -> NoDup (map K hs) ->
  (forall h l, In h hs -> g h = Ok l -> ds l) ->
  (forall h1 h2 l1 l2 x y, In h1 hs -> In h2 hs -> g h1 = Ok l1 -> g h2 = Ok l2 -> In x l1 -> In y l2 -> key x = key y -> K h1 = K h2) -> ds (concat ll).
Proof.
  induction hs as [|h hs IH]; intros ll H HK Hi Hc; cbn [mapM] in H; [injection H as <-; constructor|].
  apply bind_ok in H as [l [E1 H]]. apply bind_ok in H as [ls [E2 H]]. injection H as <-. cbn [map] in HK. inversion HK as [|? ? Hx HK']; subst.
  cbn [concat]. unfold ds in *. rewrite map_app. apply nodup_app'; [apply (Hi h); [left; reflexivity|exact E1]| |].
  - apply IH; [exact E2|exact HK'|intros h' l' Hh'; apply Hi; right; exact Hh'|]. intros h1 h2 l1 l2 x y A1 A2. apply Hc; right; assumption.
  - intros z Hz Hz2. apply in_map_iff in Hz as [x [Ex Hx1]]. apply in_map_iff in Hz2 as [y [Ey Hy]].
    destruct (mapM_in_concat _ _ _ _ E2 Hy) as [h2 [l2 [Hh2 [E3 Hl2]]]]. apply Hx.
    rewrite (Hc h h2 l l2 x y); [apply in_map; exact Hh2|left; reflexivity|right; exact Hh2|exact E1|exact E3|exact Hx1|exact Hl2|congruence].
Qed.

Section Reindex.
Lemma reindex_back nnz h h' : In h' (reindex nnz h) -> h_ts h = map (fun k => nth k nnz 0%nat) (h_ts h').
Proof.
  intros H. apply reindex_in in H as [_ H]. revert H. generalize (h_ts h') as b. induction (h_ts h) as [|i a IH]; intros [|k b] H; cbn [map] in *; try discriminate; [reflexivity|].
  injection H as H1 H2. symmetry in H1. apply index_of_some in H1. rewrite (nth_error_nth _ _ 0%nat H1). f_equal. apply IH, H2.
Qed.
Lemma reindex_le1 nnz h : (length (reindex nnz h) <= 1)%nat.
Proof. unfold reindex. destruct (all_some _); cbn; lia. Qed.
Lemma ds_reindex nnz hs : ds hs -> ds (flat_map (reindex nnz) hs).
Proof.
  unfold ds. induction hs as [|h hs IH]; intros H; [constructor|]. cbn [map flat_map] in *. inversion H as [|? ? Hx Hl]; subst. rewrite map_app.
  apply nodup_app'; [|apply IH, Hl|].
  - pose proof (reindex_le1 nnz h) as L. destruct (reindex nnz h) as [|a [|b r]]; [constructor|constructor; [intros []|constructor]|cbn in L; lia].
  - intros z H1 H2. apply in_map_iff in H1 as [a [Ea Ha]]. apply in_map_iff in H2 as [b [Eb Hb]]. apply in_flat_map in Hb as [h2 [Hh2 Hb]].
    apply Hx. assert (E : key h = key h2); [|rewrite E; apply in_map; exact Hh2]. unfold key. apply sort_eq_perm.
    rewrite (reindex_back _ _ _ Ha), (reindex_back _ _ _ Hb). apply Permutation_map. apply sort_eq_perm. fold (key a) (key b). congruence.
Qed.
End Reindex.

Lemma nodup_firstn {A} n (l : list A) : NoDup l -> NoDup (firstn n l).
Proof. intros H. rewrite <- (firstn_skipn n l) in H. apply nodup_app_l in H. exact H. Qed.

Section L.
Context {FS ST CV MS : Type}.
Variable E : genv FS ST CV MS.
Implicit Types (c : gcfg ST CV) (s : glmb FS ST CV MS).
Lemma ds_merge hs : ds (clean_predictions E hs).
Proof.
  unfold ds, clean_predictions. fold (fold_add E hs []).
  assert (K : forall x, In x (fold_add E hs []) -> fst x = v_hash E (sort_nat (h_ts (snd x)))) by (apply fold_add_key; intros z []).
  pose proof (fold_add_nodup E hs [] (NoDup_nil _)) as N. revert K N. generalize (fold_add E hs []) as u. induction u as [|x u IH]; intros K N; [constructor|].
  cbn [map] in *. inversion N as [|? ? Hx Hl]; subst. constructor; [|apply IH; [intros y Hy; apply K; right; exact Hy|exact Hl]].
  intros Hi. apply Hx. apply in_map_iff in Hi as [h [Eh Hh]]. apply in_map_iff in Hh as [y [<- Hy]].
  rewrite (K x (or_introl eq_refl)). unfold key in Eh. rewrite <- Eh, <- (K y (or_intror Hy)). apply in_map. exact Hy.
Qed.
Lemma ds_normalise hs r : normalise_log E hs = Ok r -> ds hs -> ds r.
Proof.
  intros H. destruct (normalise_cases _ _ _ H) as [[-> [-> _]]|[_ ->]]; [auto|]. apply ds_ext. rewrite map_map. reflexivity.
Qed.
Lemma ds_prune c s : ds (g_hyps s) -> ds (g_hyps (prune c s)).
Proof. intros H. cbn. apply ds_rescale, ds_filter, H. Qed.
Lemma ds_cap c s : rsorts (v_argsort E) -> ds (g_hyps s) -> ds (g_hyps (cap E c s)).
Proof.
  intros Hs H. unfold cap. destruct (_ <? _)%nat; [|exact H]. cbn [g_hyps with_hyps]. apply ds_rescale. destruct (Hs (map h_p (g_hyps s))) as [HP _]. rewrite map_length in HP.
  set (l := v_argsort E (map h_p (g_hyps s))) in *. apply ds_pick; [exact H| |].
  - apply nodup_firstn, NoDup_rev. eapply Permutation_NoDup; [apply Permutation_sym; exact HP|apply seq_NoDup].
  - intros k Hk. assert (Hi : In k l).
    { apply in_rev. rewrite <- (firstn_skipn (c_maxh c) (rev l)). apply in_or_app. left. exact Hk. }
    eapply Permutation_in in Hi; [|exact HP]. apply in_seq in Hi. lia.
Qed.
Lemma ds_cleaned c pr ca s : rsorts (v_argsort E) -> ds (g_hyps s) -> ds (g_hyps (cleaned E c pr ca s)).
Proof.
  intros Hs H. unfold cleaned. cbn zeta. set (s2 := if pr then prune c (bump s) else bump s). assert (H2 : ds (g_hyps s2)).
  { unfold s2. destruct pr; [apply ds_prune|]; exact H. }
  destruct ca; [apply ds_cap; assumption|exact H2].
Qed.

(** ** The GLMB correction *)
Lemma shift_inj n (x y : nat * nat) : (fst x < n)%nat -> (fst y < n)%nat -> (fst x + n * snd x = fst y + n * snd y)%nat -> x = y.
Proof.
  intros B1 B2 E0. assert (Ef : fst x = fst y).
  { rewrite <- (Nat.mod_small (fst x) n B1), <- (Nat.mod_small (fst y) n B2), <- (Nat.mod_add (fst x) (snd x) n) by lia.
    rewrite <- (Nat.mod_add (fst y) (snd y) n) by lia. f_equal. lia. }
  destruct x as [i v], y as [j w]; cbn [fst snd] in *. subst j. f_equal. assert (n * v = n * w)%nat by lia. apply Nat.mul_cancel_l in H; lia.
Qed.
Lemma shifted_pairs n ts1 row1 ts2 row2 : (forall i, In i ts1 -> (i < n)%nat) -> (forall i, In i ts2 -> (i < n)%nat) ->
  Permutation (shifted n ts1 row1) (shifted n ts2 row2) -> Permutation (combine ts1 row1) (combine ts2 row2).
Proof.
  intros B1 B2 HP. unfold shifted in HP. apply Permutation_map_inv in HP as [l [E1 HP]].
  assert (B3 : forall x, In x l -> (fst x < n)%nat).
  { intros [i v] Hx. apply B2. eapply Permutation_in in Hx; [|apply Permutation_sym; exact HP]. apply in_combine_l in Hx. exact Hx. }
  assert (B4 : forall x, In x (combine ts1 row1) -> (fst x < n)%nat) by (intros [i v] Hx; apply B1; apply in_combine_l in Hx; exact Hx).
  assert (El : combine ts1 row1 = l).
  { clear HP B1 B2. revert E1 B3 B4. generalize (combine ts1 row1) as l2. clear. intros l2. revert l. induction l2 as [|x l2 IH]; intros [|y l] E B3 B4; cbn [map] in E; try discriminate; [reflexivity|].
    injection E as Ex E. f_equal; [|apply IH; [exact E|intros z Hz; apply B3; right; exact Hz|intros z Hz; apply B4; right; exact Hz]].
    apply (shift_inj n); [apply B4; left; reflexivity|apply B3; left; reflexivity|exact Ex]. }
  rewrite El. symmetry. exact HP.
Qed.
Lemma combine_fst {A B} (a : list A) (b : list B) : length b = length a -> map fst (combine a b) = a.
Proof. revert b. induction a as [|x a IH]; intros [|y b] L; cbn in *; try discriminate; [reflexivity|]. f_equal. apply IH. lia. Qed.
Lemma combine_perm_nodup (ts r1 r2 : list nat) : NoDup ts -> length r1 = length ts -> length r2 = length ts -> Permutation (combine ts r1) (combine ts r2) -> r1 = r2.
Proof.
  revert r1 r2. induction ts as [|i ts IH]; intros [|a r1] [|b r2] N L1 L2 HP; cbn [length combine] in *; try discriminate; [reflexivity|].
  inversion N as [|? ? Hi N']; subst. assert (Ha : In (i, a) ((i, b) :: combine ts r2)) by (eapply Permutation_in; [exact HP|left; reflexivity]).
  destruct Ha as [Ha|Ha]; [|apply in_combine_l in Ha; contradiction]. injection Ha as <-. f_equal. apply Permutation_cons_inv in HP. apply IH; [exact N'|lia|lia|exact HP].
Qed.
(** Rows that are all different. *)
Definition rows_nodup (f : nat -> nat -> (nat -> nat -> R) -> nat -> result (list (list nat) * list R)) : Prop :=
  forall nr nc M m rows costs, f nr nc M m = Ok (rows, costs) -> NoDup rows.
Lemma ds_cor_hyp c nm ntab ac ss h l : murty_ok (v_murty E) -> rows_nodup (v_murty E) -> NoDup (h_ts h) -> cor_hyp E c nm ntab ac ss h = Ok l -> ds l.
Proof.
  intros Hm Hn Hd H. unfold cor_hyp in H. destruct (h_ts h) as [|t0 ts0] eqn:Et.
  - apply bind_ok in H as [a [_ H]]. apply bind_ok in H as [b [_ H]]. injection H as <-. constructor; [intros []|constructor].
  - rewrite <- Et in *. clear Et t0 ts0. destruct (forallb _ _) eqn:Ef; cbn [negb] in H; [|discriminate].
    apply bind_ok in H as [ra [_ H]]. apply bind_ok in H as [lcl [_ H]]. cbn zeta in H.
    apply bind_ok in H as [[rows costs] [E1 H]]. apply bind_ok in H as [lmd [_ H]]. apply bind_ok in H as [lw [_ H]]. injection H as <-.
    destruct (Hm _ _ _ _ _ _ E1) as [HL Hr]. apply Hn in E1. unfold ds. rewrite map_map. unfold key. cbn [h_ts].
    assert (B : forall i, In i (h_ts h) -> (i < ntab)%nat) by (intros i Hii; rewrite forallb_forall in Ef; apply Ef in Hii; apply Nat.ltb_lt in Hii; exact Hii).
    rewrite <- (combine_fst rows costs) in E1 by congruence. clear HL. assert (HR : forall rc, In rc (combine rows costs) -> length (fst rc) = length (h_ts h)).
    { intros [row co] Hi. apply in_combine_l in Hi. apply (Hr row Hi). }
    clear Hr. revert E1 HR. generalize (combine rows costs) as rc. induction rc as [|x rc IH]; intros N HR; [constructor|]. cbn [map] in *. inversion N as [|? ? Hx N']; subst.
    constructor; [|apply IH; [exact N'|intros y Hy; apply HR; right; exact Hy]]. intros Hi. apply Hx. apply in_map_iff in Hi as [y [Ey Hy]]. apply sort_eq_perm in Ey.
    fold (shifted ntab (h_ts h) (fst y)) (shifted ntab (h_ts h) (fst x)) in Ey. apply shifted_pairs in Ey; [|exact B|exact B].
    apply combine_perm_nodup in Ey; [|exact Hd|apply HR; right; exact Hy|apply HR; left; reflexivity]. rewrite <- Ey. apply in_map. exact Hy.
Qed.
Lemma ds_gen_cor c nm ntab ac hs r : murty_ok (v_murty E) -> rows_nodup (v_murty E) -> (forall h, In h hs -> NoDup (h_ts h)) -> gen_cor_hyps E c nm ntab ac hs = Ok r -> ds hs -> ds r.
Proof.
  intros Hm Hn Hd H HD. unfold gen_cor_hyps in H. destruct nm as [|nm].
  - apply bind_ok in H as [l [E1 H]]. apply (ds_normalise _ _ H). revert HD. apply ds_ext. apply mapM_ok in E1. clear -E1.
    induction E1 as [|h h' hs l Hh _ IH]; [reflexivity|]. cbn [map]. apply miss_hyp_in in Hh as [_ Hh]. rewrite Hh, IH. reflexivity.
  - cbn zeta in H. apply bind_ok in H as [ll [E1 H]]. apply (ds_normalise _ _ H). apply (ds_concat _ key _ _ E1 HD).
    + intros h l Hh El. exact (ds_cor_hyp _ _ _ _ _ _ _ Hm Hn (Hd h Hh) El).
    + intros h1 h2 l1 l2 x y Hh1 Hh2 El1 El2 Hx Hy Ek.
      destruct (cor_hyp_in _ _ _ _ _ _ _ _ _ Hm El1 Hx) as [B1 [row1 [R1 E3]]]. destruct (cor_hyp_in _ _ _ _ _ _ _ _ _ Hm El2 Hy) as [B2 [row2 [R2 E4]]].
      unfold key in *. rewrite E3, E4 in Ek. apply sort_eq_perm in Ek. apply shifted_pairs in Ek; [|exact B1|exact B2]. apply (Permutation_map fst) in Ek.
      rewrite !combine_fst in Ek by (apply R1 || apply R2). apply sort_eq_perm. exact Ek.
Qed.
(** No index twice in a hypothesis. *)
Definition GND s : Prop := forall h, In h (g_hyps s) -> NoDup (h_ts h).
Lemma gnd_sub s s' : GND s -> subhyps (g_hyps s') (g_hyps s) -> GND s'.
Proof. intros H B h Hh. destruct (B h Hh) as [->|[h0 [Hh0 <-]]]; [constructor|exact (H h0 Hh0)]. Qed.
Lemma gnd_predict c t s s' : kshort_ok (v_kshort E) -> predict E c t s = Ok s' -> GND s -> GND s'.
Proof.
  intros Hk H HI h' Hi. destruct (predict_inv _ _ _ _ _ H) as [btab [lcost [paths [costs [bh [sh [E1 [E2 [E3 [E4 [Et [Eh _]]]]]]]]]]]].
  rewrite Eh in Hi. apply clean_in in Hi as [h0 [Hi Ets]]. unfold set_pred_hyps in Hi. apply in_map_iff in Hi as [h1 [<- Hi]].
  apply in_flat_map in Hi as [hb [Hb Hi]]. apply in_map_iff in Hi as [hsv [<- Hsv]]. cbn in Ets. rewrite <- Ets.
  destruct (surv_hyps_in _ _ _ _ _ _ Hk E4 Hsv) as [h [sub [Hh [Hr [Hnd Hsub]]]]].
  apply bind_ok in E1 as [cs [E1 E5]]. inversion E5 as [[Hbt Hcs]]; subst cs; clear E5. apply mapM_length in E1.
  assert (Hbl : length btab = length (c_births c)) by (rewrite <- Hbt, map_length, combine_length, seq_length; apply Nat.min_id).
  destruct (Hk _ _ _ _ E2) as [_ Hp]. destruct (Hp _ (birth_hyps_in _ _ _ _ _ _ E3 Hb)) as [Hpn Hpl]. rewrite E1 in Hpl.
  apply nodup_app'; [exact Hpn| |].
  - apply nodup_map_inj; [|intros; lia]. pose proof (HI h Hh) as N. clear -N Hnd Hsub.
    revert Hsub. generalize (h_ts hsv) as ts. induction Hnd as [|j sub Hj Hnd IH]; intros ts HF; inversion HF as [|? i ? ts' Hji HF']; subst; constructor; [|apply IH; exact HF'].
    intros Hin. apply In_nth_error in Hin as [k Hk]. destruct (F2_nth_r _ _ _ _ _ HF' Hk) as [j' [Hj1 Hj2]]. apply Hj.
    rewrite NoDup_nth_error in N. rewrite (N j j'); [exact (nth_error_In _ _ Hj1)|apply nth_error_Some; congruence|congruence].
  - intros i Hi Hj. apply Hpl in Hi. apply in_map_iff in Hj as [x [E0 _]]. rewrite Hbt, Hbl in E0. lia.
Qed.
Lemma gnd_shifted n ts row : NoDup ts -> (forall i, In i ts -> (i < n)%nat) -> NoDup (shifted n ts row).
Proof.
  intros H Hn. unfold shifted. apply nodup_map_inj.
  - apply (NoDup_map_inv fst). pose proof (nodup_combine_fst ts row (fun _ => true) H) as X. replace (filter (fun _ => true) (combine ts row)) with (combine ts row) in X; [exact X|]. clear. induction (combine ts row) as [|x l IH]; [reflexivity|]. cbn [filter]. rewrite <- IH. reflexivity.
  - intros [i v] [j w] Hx Hy. apply (shift_inj n); apply Hn; [apply in_combine_l in Hx; exact Hx|apply in_combine_l in Hy; exact Hy].
Qed.
Lemma gnd_correct c t meas s s' : murty_ok (v_murty E) -> correct E c t meas s = Ok s' -> GND s -> GND s'.
Proof.
  intros Hm H HI h' Hi. destruct (correct_inv _ _ _ _ _ _ H) as [hs [E1 [_ [Eh _]]]]. rewrite Eh in Hi. apply in_flat_map in Hi as [h1 [Hh1 Hi]].
  apply (nd_reindex _ _ _ Hi). destruct (cor_hyps_in _ _ _ _ _ _ _ _ Hm E1 Hh1) as [h [row [Hh [B [_ ->]]]]]. apply gnd_shifted; [exact (HI h Hh)|exact B].
Qed.
(** Both invariants, over every history. *)
Lemma ds_run c os : forall s s', kshort_ok (v_kshort E) -> murty_ok (v_murty E) -> rows_nodup (v_murty E) -> rsorts (v_argsort E) -> run E c os s = Ok s' ->
  GND s /\ ds (g_hyps s) -> GND s' /\ ds (g_hyps s').
Proof.
  induction os as [|o os IH]; intros s s' Hk Hm Hn Hs H HI; cbn [run] in H; [injection H as <-; exact HI|]. apply bind_ok in H as [s1 [H1 H]].
  apply (IH s1 s' Hk Hm Hn Hs H). destruct HI as [HG HD]. destruct o as [t|t meas|pr ca ex|u k]; cbn [exec] in H1.
  - split; [exact (gnd_predict _ _ _ _ Hk H1 HG)|]. destruct (predict_inv _ _ _ _ _ H1) as [btab [lc [paths [costs [bh [sh [_ [_ [_ [_ [_ [Eh _]]]]]]]]]]]]. rewrite Eh. apply ds_merge.
  - split; [exact (gnd_correct _ _ _ _ _ Hm H1 HG)|]. destruct (correct_inv _ _ _ _ _ _ H1) as [hs [E1 [_ [Eh _]]]]. rewrite Eh. apply ds_reindex. exact (ds_gen_cor _ _ _ _ _ _ Hm Hn HG E1 HD).
  - destruct (cleanup_inv _ _ _ _ _ _ _ H1) as [_ [_ [B [Eh _]]]]. split; [exact (gnd_sub _ _ HG B)|]. rewrite Eh. apply ds_cleaned; assumption.
  - apply bind_ok in H1 as [[oo g'] [H1 H2]]. injection H2 as <-. destruct (extract_tab _ _ _ _ _ _ H1) as [_ [B _]]. unfold GND. rewrite B. split; assumption.
Qed.

(** ** The joint filter *)
Variable G : sampler.
Lemma jds_run gt c os : forall (s s' : jst FS ST CV MS), rsorts (v_argsort E) -> jrun E G gt c os s = Ok s' -> ds (g_hyps (y_g s)) -> ds (g_hyps (y_g s')).
Proof.
  induction os as [|o os IH]; intros s s' Hs H HI; cbn [jrun] in H; [injection H as <-; exact HI|]. apply bind_ok in H as [s1 [H1 H]].
  apply (IH s1 s' Hs H). destruct o as [t|t meas|pr ca ex|u k]; cbn [jexec] in H1.
  - destruct (jpredict_inv _ _ _ _ _ H1) as [_ [Hh _]]. rewrite Hh. exact HI.
  - destruct (jcorrect_inv _ _ _ _ _ _ _ _ H1) as [hs [_ [_ [_ [_ [Eh _]]]]]]. rewrite Eh. apply ds_reindex, ds_merge.
  - apply bind_ok in H1 as [g [H1 H2]]. injection H2 as <-. cbn [with_g y_g]. destruct (cleanup_inv _ _ _ _ _ _ _ H1) as [_ [_ [_ [Eh _]]]]. rewrite Eh. apply ds_cleaned; assumption.
  - apply bind_ok in H1 as [[oo g'] [H1 H2]]. injection H2 as <-. cbn [with_g y_g]. destruct (extract_tab _ _ _ _ _ _ H1) as [_ [B _]]. rewrite B. exact HI.
Qed.
End L.
