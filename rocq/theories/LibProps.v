(** The GLMB filters on top of the library's own k_shortest and murty_m_best: the
    properties without contracts on the two graph algorithms. *)
From Verif Require Import Base Lists.
From Coq Require Import Reals Permutation Lra Lia Classical.
From Verif Require Import OspaModel CphdModel OspaProofs CphdSpec CphdProofs CphdProps GlmbModel GlmbSpec GlmbProofs GlmbInv GlmbExtract GlmbMost GlmbTotal GlmbBayes GlmbProps GlmbProps2 GlmbProps4 GlmbDistinct GlmbProps5 GlmbDemo LibAlgs.
Open Scope R_scope.

(** The outside functions with the library's graph algorithms (tracker.py:13-14
    imports them from gasur.utilities.graphs). *)
Definition with_lib {FS ST CV MS} (si : list R -> list nat) (E : genv FS ST CV MS) : genv FS ST CV MS :=
  {| v_rnd := v_rnd E; v_init := v_init E; v_pred := v_pred E; v_corr := v_corr E; v_kshort := l_kshort si; v_murty := l_murty;
     v_lse0 := v_lse0 E; v_hash := v_hash E; v_argsort := v_argsort E |}.
Definition with_ks {FS ST CV MS} (f : list R -> nat -> result (list (list nat) * list R)) (E : genv FS ST CV MS) : genv FS ST CV MS :=
  {| v_rnd := v_rnd E; v_init := v_init E; v_pred := v_pred E; v_corr := v_corr E; v_kshort := f; v_murty := v_murty E;
     v_lse0 := v_lse0 E; v_hash := v_hash E; v_argsort := v_argsort E |}.
(** The library's k_shortest where it returns, nothing where it raises. *)
Definition tot_ks (si : list R -> list nat) (lc : list R) (k : nat) : result (list (list nat) * list R) :=
  match l_kshort si lc k with Ok r => Ok r | Err _ => Ok ([], []) end.
Lemma tot_total si : kshort_total (tot_ks si).
Proof. intros lc k. unfold tot_ks. destruct (l_kshort si lc k); eexists; reflexivity. Qed.
Lemma tot_ok si : sorts_down si -> kshort_ok (tot_ks si).
Proof.
  intros Hs lc k ps cs. unfold tot_ks. destruct (l_kshort si lc k) as [[a b]|] eqn:E; intros H; injection H as <- <-.
  - exact (l_kshort_ok si Hs lc k a b E).
  - split; [reflexivity|intros p []].
Qed.
Lemma tot_or si lc k : sorts_down si -> l_kshort si lc k = tot_ks si lc k \/ (l_kshort si lc k = Err IndexErr /\ ~ scaled_vec lc).
Proof.
  intros Hs. destruct (classic (scaled_vec lc)) as [Hc|Hc].
  - left. unfold tot_ks. destruct (l_kshort_total si Hs lc k Hc) as [r ->]. reflexivity.
  - destruct k as [|k]; [left; reflexivity|]. right. split; [|exact Hc]. apply l_kshort_overrun; [exact Hs|exact Hc|lia].
Qed.

Section L.
Context {FS ST CV MS : Type}.
Variables (E : genv FS ST CV MS) (f g : list R -> nat -> result (list (list nat) * list R)).
Implicit Types (c : gcfg ST CV) (s : glmb FS ST CV MS).
(** predict depends on k_shortest only through its answers on the birth costs and
    on the costs of surviving; if it raises there, so does predict. *)
Lemma surv_hyp_ks c n ss h : (forall l k, l <> [] -> (forall x, In x l -> x = - ln (c_ps c / (1 - c_ps c))) -> f l k = g l k \/ f l k = Err IndexErr) ->
  surv_hyp (with_ks f E) c n ss h = surv_hyp (with_ks g E) c n ss h \/ surv_hyp (with_ks f E) c n ss h = Err IndexErr.
Proof.
  intros H. unfold surv_hyp. destruct (h_ts h) as [|a ts] eqn:Et; [left; reflexivity|]. destruct (negb _); [left; reflexivity|].
  destruct (rdiv (c_ps c) (1 - c_ps c)) as [r|] eqn:Er; [|left; reflexivity]. cbn [bind]. destruct (lnp r) as [l|] eqn:El; [|left; reflexivity]. cbn [bind v_kshort with_ks].
  match goal with |- context [f ?lc ?k] => destruct (H lc k) as [F|F] end.
  - discriminate.
  - intros x Hx. apply in_map_iff in Hx. destruct Hx as [_ [<- _]]. f_equal. unfold lnp in El. destruct (Rlt_dec 0 r); [|discriminate]. injection El as <-. unfold rdiv in Er. destruct (Req_EM_T (1 - c_ps c) 0); [discriminate|]. injection Er as <-. reflexivity.
  - rewrite F. left. reflexivity.
  - rewrite F. right. reflexivity.
Qed.
Lemma mapM_ks {A B} (u v : A -> result B) l : (forall x, In x l -> u x = v x \/ u x = Err IndexErr) ->
  mapM u l = mapM v l \/ mapM u l = Err IndexErr.
Proof.
  induction l as [|x l IH]; intros H; [left; reflexivity|]. cbn [mapM]. destruct (H x (or_introl eq_refl)) as [-> | ->]; [|right; reflexivity].
  destruct (v x) as [y|e] eqn:Ev; [|left; reflexivity]. cbn [bind]. destruct IH as [-> | ->]; [intros; apply H; right; assumption|left; reflexivity|right; reflexivity].
Qed.
Lemma predict_ks c t s : (forall k, f (map (fun b => - ln (snd b / (1 - snd b))) (c_births c)) k = g (map (fun b => - ln (snd b / (1 - snd b))) (c_births c)) k \/ f (map (fun b => - ln (snd b / (1 - snd b))) (c_births c)) k = Err IndexErr) ->
  (forall l k, l <> [] -> (forall x, In x l -> x = - ln (c_ps c / (1 - c_ps c))) -> f l k = g l k \/ f l k = Err IndexErr) ->
  predict (with_ks f E) c t s = predict (with_ks g E) c t s \/ predict (with_ks f E) c t s = Err IndexErr.
Proof.
  intros Hb Hs. unfold predict. change (gen_birth_tab (with_ks g E) c t (g_cnt s)) with (gen_birth_tab (with_ks f E) c t (g_cnt s)).
  destruct (gen_birth_tab (with_ks f E) c t (g_cnt s)) as [[btab lcost]|] eqn:Eb; [|left; reflexivity]. cbn [bind v_kshort with_ks].
  assert (HL : lcost = map (fun b => - ln (snd b / (1 - snd b))) (c_births c)).
  { unfold gen_birth_tab in Eb. destruct (mapM _ (c_births c)) as [cs|] eqn:Em; [|discriminate]. cbn [bind] in Eb. injection Eb as _ <-. clear -Em. revert cs Em. induction (c_births c) as [|b l IH]; intros cs; cbn [mapM map]; [intros H; injection H as <-; reflexivity|].
    unfold birth_cost at 1. destruct (Req_EM_T (snd b) 1); [discriminate|]. unfold lnp. destruct (Rlt_dec _ _); [|discriminate]. cbn [bind]. destruct (mapM _ l) as [cs'|]; [|discriminate]. cbn [bind]. intros H. injection H as <-. rewrite (IH cs' eq_refl). reflexivity. }
  rewrite HL. destruct (Hb (c_reqb c)) as [F|F]; rewrite F; [|right; reflexivity].
  destruct (g _ (c_reqb c)) as [[paths costs]|]; [|left; reflexivity]. cbn [bind]. change (gen_birth_hyps (with_ks g E) c paths costs) with (gen_birth_hyps (with_ks f E) c paths costs).
  destruct (gen_birth_hyps (with_ks f E) c paths costs) as [bh|]; [|left; reflexivity]. cbn [bind].
  assert (HS : gen_surv_hyps (with_ks f E) c (length (g_tab s)) (g_hyps s) = gen_surv_hyps (with_ks g E) c (length (g_tab s)) (g_hyps s) \/ gen_surv_hyps (with_ks f E) c (length (g_tab s)) (g_hyps s) = Err IndexErr).
  { unfold gen_surv_hyps. cbv zeta. match goal with |- context [mapM (surv_hyp (with_ks f E) c ?n ?ss) ?l] => destruct (mapM_ks (surv_hyp (with_ks f E) c n ss) (surv_hyp (with_ks g E) c n ss) l) as [M|M] end.
    - intros h _. apply surv_hyp_ks, Hs.
    - rewrite M. left. reflexivity.
    - rewrite M. right. reflexivity. }
  destruct HS as [-> | ->]; [left; reflexivity|right; reflexivity].
Qed.
End L.
(** * The library's answers on a scaled filter *)
(** The log-odds of the birth and survival probabilities are 0 or at least the
    machine epsilon. *)
Definition odds_ok (p : R) : Prop := ln (p / (1 - p)) = 0 \/ / 2 ^ 52 <= Rabs (ln (p / (1 - p))).
Definition scaled_cfg {ST CV} (c : gcfg ST CV) : Prop := (forall b p, In (b, p) (c_births c) -> odds_ok p) /\ odds_ok (c_ps c).
Lemma odds_neg p : odds_ok p -> - ln (p / (1 - p)) = 0 \/ / 2 ^ 52 <= Rabs (- ln (p / (1 - p))).
Proof. intros [H|H]; [left; lra|right; rewrite Rabs_Ropp; exact H]. Qed.
Section R.
Context {FS ST CV MS : Type}.
Variables (E : genv FS ST CV MS) (si : list R -> list nat).
Hypothesis Hsi : sorts_down si.
Implicit Types (c : gcfg ST CV) (s : glmb FS ST CV MS).
Let El := with_ks (tot_ks si) (with_lib si E).
Lemma lib_exec c o s : exec (with_lib si E) c o s = exec El c o s \/ exec (with_lib si E) c o s = Err IndexErr.
Proof.
  destruct o as [t|t meas|pr ca ex|u k]; try (left; reflexivity). cbn [exec]. apply (predict_ks (with_lib si E) (l_kshort si) (tot_ks si) c t s).
  - intros k. destruct (tot_or si (map (fun b => - ln (snd b / (1 - snd b))) (c_births c)) k Hsi) as [H|[H _]]; auto.
  - intros l k _ _. destruct (tot_or si l k Hsi) as [H|[H _]]; auto.
Qed.
Lemma lib_exec_eq c o s : scaled_cfg c -> exec (with_lib si E) c o s = exec El c o s.
Proof.
  intros [Hb Hs]. assert (HB : scaled_vec (map (fun b => - ln (snd b / (1 - snd b))) (c_births c))).
  { intros x Hx. apply in_map_iff in Hx. destruct Hx as [[b p] [<- Hx]]. exact (odds_neg p (Hb b p Hx)). }
  assert (HS : forall l, (forall x, In x l -> x = - ln (c_ps c / (1 - c_ps c))) -> scaled_vec l) by (intros l Hl x Hx; rewrite (Hl x Hx); exact (odds_neg _ Hs)).
  destruct o as [t|t meas|pr ca ex|u k]; try reflexivity. cbn [exec].
  assert (HE : forall lc k, scaled_vec lc -> l_kshort si lc k = tot_ks si lc k) by (intros lc k Hv; destruct (tot_or si lc k Hsi) as [H|[_ H]]; [exact H|contradiction]).
  destruct (predict_ks (with_lib si E) (l_kshort si) (tot_ks si) c t s) as [H|H]; [left; apply HE, HB|intros l k _ Hl; left; apply HE, HS, Hl|exact H|].
  destruct (predict_ks (with_lib si E) (tot_ks si) (l_kshort si) c t s) as [H'|H']; [left; symmetry; apply HE, HB|intros l k _ Hl; left; symmetry; apply HE, HS, Hl| |].
  - symmetry. exact H'.
  - change (predict (with_lib si E) c t s) with (predict (with_ks (l_kshort si) (with_lib si E)) c t s). rewrite H. symmetry. exact H'.
Qed.
Lemma lib_run c os : forall s, run (with_lib si E) c os s = run El c os s \/ run (with_lib si E) c os s = Err IndexErr.
Proof.
  induction os as [|o os IH]; intros s; [left; reflexivity|]. cbn [run]. destruct (lib_exec c o s) as [-> | ->]; [|right; reflexivity]. destruct (exec El c o s) as [s'|]; cbn [bind]; [apply IH|left; reflexivity].
Qed.
Lemma lib_run_eq c os : scaled_cfg c -> forall s, run (with_lib si E) c os s = run El c os s.
Proof.
  intros Hc. induction os as [|o os IH]; intros s; [reflexivity|]. cbn [run]. rewrite (lib_exec_eq c o s Hc). destruct (exec El c o s) as [s'|]; cbn [bind]; [apply IH|reflexivity].
Qed.
End R.

(** * C119: everything proved of the GLMB filter under contracts on k_shortest and
    murty_m_best holds with the library's own, for every history of calls. *)
Theorem C119_glmb_with_library : forall {FS ST CV MS} (E : genv FS ST CV MS) si c os s,
  sorts_down si -> run (with_lib si E) c os glmb_new = Ok s ->
  (** hypotheses refer to existing tracks *)
  refs_ok (g_tab s) (g_hyps s) /\
  (** they are a probability distribution *)
  (rsorts (v_argsort E) -> never_fails E os -> g_hyps s <> [] -> prob_dist (g_hyps s)) /\
  (** no label twice in a hypothesis *)
  (NoDup (map (v_rnd E) (predict_times os)) -> forall h, In h (g_hyps s) -> NoDup (map e_label (tracks (g_tab s) h))) /\
  (** no measurement used twice in a hypothesis, histories of the right length *)
  (forall ph, protocol 0 os = Some ph ->
     (forall h i j e1 e2, In h (g_hyps s) -> i <> j -> nth_error (tracks (g_tab s) h) i = Some e1 -> nth_error (tracks (g_tab s) h) j = Some e2 -> ~ share_meas e1 e2) /\
     (ph <> 1%nat -> forall e, In e (g_tab s) -> exists n, (1 <= n)%nat /\ hist_len n e /\ (e_time e + n = g_cnt s + (if ph =? 0 then 0 else 1))%nat)) /\
  (** no two hypotheses with the same tracks *)
  (rsorts (v_argsort E) -> forall i j h1 h2, nth_error (g_hyps s) i = Some h1 -> nth_error (g_hyps s) j = Some h2 -> Permutation (h_ts h1) (h_ts h2) -> i = j).
Proof.
  intros FS ST CV MS E si c os s Hsi H. pose proof (l_kshort_ok si Hsi) as Hk. pose proof l_murty_ok as Hm.
  split; [exact (C48_glmb_references (with_lib si E) c os s Hk Hm H)|].
  split; [intros Hs Hn; exact (C46_glmb_distribution (with_lib si E) c os s Hm Hs Hn H)|].
  split; [intros Hn; exact (C49_glmb_labels (with_lib si E) c os s Hk Hm Hn H)|].
  split; [intros ph Hp; split; [exact (C50_glmb_exclusive (with_lib si E) c os ph s Hk Hm Hp H)|intros Hq; exact (C61_glmb_history_length (with_lib si E) c os s ph Hk Hm Hp Hq H)]|].
  intros Hs. refine (C107_glmb_no_duplicates (with_lib si E) c os s Hk Hm _ Hs H). intros nr nc M m rows costs Hr. exact (proj1 (proj2 (l_murty_best nr nc M m rows costs Hr))).
Qed.
Print Assumptions C119_glmb_with_library.
Theorem C119_outputs_with_library : forall {FS ST CV MS} (E : genv FS ST CV MS) si c os s u k,
  sorts_down si -> run (with_lib si E) c os glmb_new = Ok s ->
  (births_ok c -> protocol 0 os = Some 0%nat -> (exists t, In (OpPredict t) os) -> exists o s', extract_states c u k s = Ok (o, s')) /\
  (NoDup (map (v_rnd E) (predict_times os)) -> forall o s', extract_states c u k s = Ok (o, s') ->
     let n := length (filter (fun o => match o with OpCleanup _ _ _ => true | _ => false end) os) in
     length (g_states s') = n /\ length (g_labels s') = n /\ length (g_covs s') = n /\
     forall tt, length (nth tt (g_states s') []) = length (nth tt (g_labels s') []) /\
                length (nth tt (g_covs s') []) = length (nth tt (g_labels s') []) /\ NoDup (nth tt (g_labels s') [])).
Proof.
  intros FS ST CV MS E si c os s u k Hsi H. pose proof (l_kshort_ok si Hsi) as Hk. pose proof l_murty_ok as Hm. split.
  - intros Hb Hp Ht. exact (C55_glmb_extract_total (with_lib si E) c os s u k Hk Hm Hb H Hp Ht).
  - intros Hn o s' He. exact (C55_glmb_outputs_aligned (with_lib si E) c os s u k o s' Hk Hm Hn H He).
Qed.
Print Assumptions C119_outputs_with_library.

(** * C120: standard cycles never raise -- provided no log-odds is nonzero but
    below machine epsilon. *)
Theorem C120_library_cycle_total_partial : forall {FS ST CV MS} (E : genv FS ST CV MS) si c xs,
  sorts_down si -> cfg_ok c -> births_ok c -> v_lse0 E = Ok tt -> rsorts (v_argsort E) ->
  (scaled_cfg c -> exists s', run (with_lib si E) c (flat_map cycle xs) glmb_new = Ok s') /\
  forall e, run (with_lib si E) c (flat_map cycle xs) glmb_new = Err e -> e = IndexErr.
Proof.
  intros FS ST CV MS E si c xs Hsi Hc Hb Hl Hs.
  destruct (C88_glmb_cycle_total (with_ks (tot_ks si) (with_lib si E)) c xs Hc Hb (tot_total si) l_murty_total (tot_ok si Hsi) l_murty_ok Hl Hs) as [s' R].
  split.
  - intros Hsc. exists s'. rewrite (lib_run_eq E si Hsi c _ Hsc). exact R.
  - intros e He. destruct (lib_run E si Hsi c (flat_map cycle xs) glmb_new) as [H|H]; rewrite He in H; [rewrite R in H; discriminate|injection H as ->; reflexivity].
Qed.
Print Assumptions C120_library_cycle_total_partial.
(** Otherwise predict raises IndexError: whatever the state, if such a birth term
    exists and at least one birth hypothesis is asked for; and if the survival
    probability is such, as soon as a hypothesis with tracks has a share. *)
Theorem C120_tiny_log_odds_refuted : forall {FS ST CV MS} (E : genv FS ST CV MS) si c t s b p,
  sorts_down si -> cfg_ok c -> (1 <= c_reqb c)%nat -> In (b, p) (c_births c) -> ~ odds_ok p ->
  predict (with_lib si E) c t s = Err IndexErr.
Proof.
  intros FS ST CV MS E si c t s b p Hsi Hc Hk Hb Hp. unfold predict. destruct (birth_tab_ok (with_lib si E) c t (g_cnt s) Hc) as [[btab lcost] Eb]. rewrite Eb. cbn [bind v_kshort with_lib].
  rewrite l_kshort_overrun; [reflexivity|exact Hsi| |exact Hk]. intros Hv. apply Hp.
  assert (Hin : In (- ln (p / (1 - p))) lcost).
  { unfold gen_birth_tab in Eb. destruct (mapM _ (c_births c)) as [cs|] eqn:Em; [|discriminate]. cbn [bind] in Eb. injection Eb as _ <-. apply mapM_ok in Em. clear -Em Hb. induction Em as [|x y l l' Hxy _ IH]; [destruct Hb|]. destruct Hb as [-> |Hb]; [|right; exact (IH Hb)]. left.
    unfold birth_cost in Hxy. cbn [snd] in Hxy. destruct (Req_EM_T p 1); [discriminate|]. unfold lnp in Hxy. destruct (Rlt_dec _ _); [|discriminate]. cbn [bind] in Hxy. injection Hxy as <-. reflexivity. }
  destruct (Hv _ Hin) as [H|H]; [left; lra|right; rewrite Rabs_Ropp in H; exact H].
Qed.
Print Assumptions C120_tiny_log_odds_refuted.
(** Such a probability: about one half. *)
Example C120_ex : let p := / (1 + exp (- / 2 ^ 53)) in 0 < p < 1 /\ ~ odds_ok p.
Proof.
  intros p. assert (Hx : 0 < exp (- / 2 ^ 53)) by apply exp_pos. assert (Hp : 0 < p < 1).
  { unfold p. split; [apply Rinv_0_lt_compat; lra|]. rewrite <- Rinv_1. apply Rinv_lt_contravar; lra. }
  split; [exact Hp|]. assert (Ho : p / (1 - p) = exp (/ 2 ^ 53)).
  { replace (/ 2 ^ 53) with (- - / 2 ^ 53) by ring. rewrite exp_Ropp. unfold p. field. split; lra. }
  unfold odds_ok. rewrite Ho, ln_exp. assert (H0 : 0 < / 2 ^ 53) by (apply Rinv_0_lt_compat; lra). intros [H|H]; [lra|]. rewrite Rabs_right in H by lra.
  assert (/ 2 ^ 53 < / 2 ^ 52) by (apply Rinv_lt_contravar; lra). lra.
Qed.

(** * C121: the measurement update with the library's murty_m_best. *)
Theorem C121_library_update : forall {FS ST CV MS} (E : genv FS ST CV MS) si c t meas s s',
  cfg_ok c -> (forall z f x, In z meas -> v_corr E t z f x <> None) -> (forall e z, In e (g_tab s) -> In z meas -> 0 < track_lik E t z e) ->
  correct (with_lib si E) c t meas s = Ok s' ->
  exists K rr, 0 < K /\
    (** per hypothesis: associations, none twice, at most its share, none left out
        more probable, fewer than the share only if they are all *)
    Forall2 (fun h rows => Forall (valid_row (length (h_ts h)) (length meas)) rows /\
       (h_ts h <> [] -> meas <> [] -> NoDup rows /\ (length rows <= share_of (c_requ c) (g_hyps s) h)%nat /\
          (forall row row', In row rows -> valid_row (length (h_ts h)) (length meas) row' -> ~ In row' rows ->
             assoc_weight E c t meas (tracks (g_tab s) h) row' <= assoc_weight E c t meas (tracks (g_tab s) h) row) /\
          ((length rows < share_of (c_requ c) (g_hyps s) h)%nat -> forall row, valid_row (length (h_ts h)) (length meas) row -> In row rows))) (g_hyps s) rr /\
    (** one new hypothesis each, weighted by Bayes' rule, with the updated tracks *)
    Forall2 (fun hr h' => h_p h' = K * (h_p (fst hr) * assoc_weight E c t meas (tracks (g_tab s) (fst hr)) (snd hr)) /\
                          Forall2 (fun ea e' => successor E c t meas (fst ea) (snd ea) e') (combine (tracks (g_tab s) (fst hr)) (snd hr)) (tracks (g_tab s') h'))
      (flat_map (fun hr => map (pair (fst hr)) (snd hr)) (combine (g_hyps s) rr)) (g_hyps s').
Proof.
  intros FS ST CV MS E si c t meas s s' Hc Hn Hl H.
  destruct (C93_glmb_update_bayes (with_lib si E) c t meas s s' l_murty_ok l_murty_cost Hc Hn Hl H) as [K [rr [HK [HF HG]]]].
  exists K, rr. split; [exact HK|]. split; [|exact HG].
  assert (Hr : forall h, In h (g_hyps s) -> length (tracks (g_tab s) h) = length (h_ts h)).
  { intros h Hh. destruct (correct_inv _ _ _ _ _ _ H) as [hs [Eg _]]. unfold gen_cor_hyps in Eg.
    assert (HM : forall {B} (f : hyp -> result B) ys, mapM f (g_hyps s) = Ok ys -> exists y, f h = Ok y).
    { intros B f ys Ey. apply mapM_ok in Ey. clear -Ey Hh. induction Ey as [|x y l l' Hx _ IH]; [destruct Hh|]. destruct Hh as [-> |Hh]; [eauto|exact (IH Hh)]. }
    assert (Hi : forall i, In i (h_ts h) -> (i < length (g_tab s))%nat).
    { intros i Hi. destruct (length meas) as [|nm].
      - destruct (mapM (miss_hyp c (length (g_tab s))) (g_hyps s)) as [ys|] eqn:Ey; [|discriminate]. destruct (HM _ _ _ Ey) as [y Hy]. unfold miss_hyp in Hy. destruct (forallb _ (h_ts h)) eqn:Ef; [|discriminate]. rewrite forallb_forall in Ef. apply Nat.ltb_lt, Ef, Hi.
      - match type of Eg with context [mapM ?f (g_hyps s)] => destruct (mapM f (g_hyps s)) as [ys|] eqn:Ey; [|discriminate] end. destruct (HM _ _ _ Ey) as [y Hy]. unfold cor_hyp in Hy.
        destruct (h_ts h) as [|a ts] eqn:Et; [destruct Hi|]. destruct (forallb (fun i => (i <? length (g_tab s))%nat) (a :: ts)) eqn:Ef; [|discriminate]. rewrite forallb_forall in Ef. apply Nat.ltb_lt, Ef, Hi. }
    unfold tracks. clear -Hi. induction (h_ts h) as [|i l IH]; [reflexivity|]. cbn [flat_map length]. destruct (nth_error (g_tab s) i) eqn:Ei; [|apply nth_error_None in Ei; specialize (Hi i (or_introl eq_refl)); lia]. cbn [app length]. rewrite IH; [reflexivity|]. intros j Hj. apply Hi. right. exact Hj. }
  assert (HH : forall l, (forall h, In h l -> In h (g_hyps s)) -> forall r, Forall2 (fun h rows => considered (with_lib si E) c t meas (g_hyps s) h (tracks (g_tab s) h) rows /\ Forall (valid_row (length (h_ts h)) (length meas)) rows) l r ->
     Forall2 (fun h rows => Forall (valid_row (length (h_ts h)) (length meas)) rows /\
       (h_ts h <> [] -> meas <> [] -> NoDup rows /\ (length rows <= share_of (c_requ c) (g_hyps s) h)%nat /\
          (forall row row', In row rows -> valid_row (length (h_ts h)) (length meas) row' -> ~ In row' rows ->
             assoc_weight E c t meas (tracks (g_tab s) h) row' <= assoc_weight E c t meas (tracks (g_tab s) h) row) /\
          ((length rows < share_of (c_requ c) (g_hyps s) h)%nat -> forall row, valid_row (length (h_ts h)) (length meas) row -> In row rows))) l r).
  { intros l Hin r HF2. induction HF2 as [|h rows l r [Hcon Hv] _ IH]; [constructor|]. constructor; [|apply IH; intros x Hx; apply Hin; right; exact Hx]. split; [exact Hv|]. intros Ht Hmn.
    pose proof (Hr h (Hin h (or_introl eq_refl))) as HL.
    assert (Hes : tracks (g_tab s) h <> []) by (intros X; rewrite X in HL; destruct (h_ts h); [congruence|discriminate]).
    destruct (C94_glmb_update_keeps_best (with_lib si E) c t meas (g_hyps s) h (tracks (g_tab s) h) rows l_murty_ok l_murty_best Hc) as [A [B [C D]]]; [|exact Hes|exact Hmn|exact Hcon|].
    { intros e z He Hz. apply Hl; [|exact Hz]. unfold tracks in He. apply in_flat_map in He. destruct He as [i [_ He]]. destruct (nth_error (g_tab s) i) eqn:Ei; [|destruct He]. destruct He as [<-|[]]. apply (nth_error_In _ _ Ei). }
    rewrite HL in C, D. split; [exact B|]. split; [exact A|]. split; [exact C|exact D]. }
  exact (HH (g_hyps s) (fun h Hh => Hh) rr HF).
Qed.
Print Assumptions C121_library_update.
