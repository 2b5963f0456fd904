(** The SMC-GLMB filter on top of the library's own k_shortest and murty_m_best. *)
From Verif Require Import Base Lists.
From Coq Require Import Reals Permutation Lra Lia Classical.
From Verif Require Import OspaModel CphdModel OspaProofs CphdSpec CphdProofs CphdProps GlmbModel GlmbSpec GlmbProofs GlmbInv GlmbExtract GlmbMost GlmbTotal GlmbBayes GlmbProps GlmbProps2 GlmbProps4 GlmbDemo LibAlgs LibProps
  SmcModel SmcSpec SmcProofs SmcBayes SmcUpd SmcTotal SmcProps SmcDemo SmcDemo2 LibPredict.
Open Scope R_scope.

Definition swith {P X ST CV MS} (E : genv (pfs P X) ST CV MS) (Z : senv P X ST CV MS) : senv P X ST CV MS :=
  {| z_g := E; z_pred := z_pred Z; z_corr := z_corr Z; z_cov := z_cov Z |}.
(** The outside functions with the library's graph algorithms. *)
Definition swith_lib {P X ST CV MS} (si : list R -> list nat) (Z : senv P X ST CV MS) : senv P X ST CV MS := swith (with_lib si (z_g Z)) Z.
Section S.
Context {P X ST CV MS : Type}.
Variables (Z : senv P X ST CV MS) (si : list R -> list nat).
Hypothesis Hsi : sorts_down si.
Let Zl := swith_lib si Z.
Let Zt := swith (with_ks (tot_ks si) (with_lib si (z_g Z))) Z.
Lemma ssurv_ks c av ss h : ssurv_hyp Zl c av ss h = ssurv_hyp Zt c av ss h \/ ssurv_hyp Zl c av ss h = Err IndexErr.
Proof.
  unfold ssurv_hyp. destruct (h_ts h) as [|a ts]; [left; reflexivity|]. destruct (mapM (geti av) (a :: ts)) as [ps|]; [|left; reflexivity]. cbn [bind].
  destruct (mapM _ ps) as [lc|]; [|left; reflexivity]. cbn [bind]. unfold Zl, Zt, swith_lib, swith. cbn [z_g v_kshort with_lib with_ks].
  match goal with |- context [l_kshort si lc ?k] => destruct (tot_or si lc k Hsi) as [F|[F _]] end; rewrite F; [left; reflexivity|right; reflexivity].
Qed.
Lemma slib_exec c bs o s : sexec Zl c bs o s = sexec Zt c bs o s \/ sexec Zl c bs o s = Err IndexErr.
Proof.
  destruct o as [psf t|pdf t meas|pr ca ex|u k]; try (left; reflexivity). cbn [sexec]. unfold spredict. destruct (mapM _ bs) as [lc|]; [|left; reflexivity]. cbn [bind].
  change (v_kshort (z_g Zl) lc (c_reqb c)) with (l_kshort si lc (c_reqb c)). change (v_kshort (z_g Zt) lc (c_reqb c)) with (tot_ks si lc (c_reqb c)).
  destruct (tot_or si lc (c_reqb c) Hsi) as [F|[F _]]; rewrite F; [|right; reflexivity]. destruct (tot_ks si lc (c_reqb c)) as [[ps cs]|]; [|left; reflexivity]. cbn [bind].
  change (sbirth_hyps Zt bs ps cs) with (sbirth_hyps Zl bs ps cs). destruct (sbirth_hyps Zl bs ps cs) as [bh|]; [|left; reflexivity]. cbn [bind].
  change (spred_entry Zt psf c t) with (spred_entry Zl psf c t). destruct (mapM (spred_entry Zl psf c t) (g_tab s)) as [st|]; [|left; reflexivity]. cbn [bind]. destruct (mapM (avg_prob psf) (g_tab s)) as [av|]; [|left; reflexivity]. cbn [bind].
  assert (HS : ssurv_hyps Zl c av (g_hyps s) = ssurv_hyps Zt c av (g_hyps s) \/ ssurv_hyps Zl c av (g_hyps s) = Err IndexErr).
  { unfold ssurv_hyps. cbv zeta. match goal with |- context [mapM (ssurv_hyp Zl c ?n ?ss) ?l] => destruct (mapM_ks (ssurv_hyp Zl c n ss) (ssurv_hyp Zt c n ss) l) as [M|M] end.
    - intros h _. apply ssurv_ks.
    - rewrite M. left. reflexivity.
    - rewrite M. right. reflexivity. }
  destruct HS as [-> | ->]; [left; reflexivity|right; reflexivity].
Qed.
Lemma slib_run c bs os : forall s, srun Zl c bs os s = srun Zt c bs os s \/ srun Zl c bs os s = Err IndexErr.
Proof.
  induction os as [|o os IH]; intros s; [left; reflexivity|]. cbn [srun]. destruct (slib_exec c bs o s) as [-> | ->]; [|right; reflexivity]. destruct (sexec Zt c bs o s) as [s'|]; cbn [bind]; [apply IH|left; reflexivity].
Qed.
End S.

(** * C122: the SMC-GLMB filter with the library's graph algorithms, every history
    of calls: references, distribution, labels, exclusive use of measurements; and
    standard cycles end normally or with k_shortest's IndexError. *)
Theorem C122_smc_with_library : forall {P X ST CV MS} (Z : senv P X ST CV MS) si c bs os s,
  sorts_down si -> srun (swith_lib si Z) c bs os glmb_new = Ok s ->
  refs_ok (g_tab s) (g_hyps s) /\
  (rsorts (v_argsort (z_g Z)) -> snever_fails Z os -> g_hyps s <> [] -> prob_dist (g_hyps s)) /\
  (NoDup (map (v_rnd (z_g Z)) (spredict_times os)) -> forall h, In h (g_hyps s) -> NoDup (map e_label (tracks (g_tab s) h))) /\
  (forall ph, sprotocol 0 os = Some ph -> forall h i j e1 e2, In h (g_hyps s) -> i <> j ->
     nth_error (tracks (g_tab s) h) i = Some e1 -> nth_error (tracks (g_tab s) h) j = Some e2 -> ~ share_meas e1 e2).
Proof.
  intros P X ST CV MS Z si c bs os s Hsi H. pose proof (l_kshort_ok si Hsi) as Hk. pose proof l_murty_ok as Hm.
  split; [exact (C111_smc_references (swith_lib si Z) c bs os s Hk Hm H)|].
  split; [intros Hs Hn; exact (C110_smc_distribution (swith_lib si Z) c bs os s Hm Hs Hn H)|].
  split; [intros Hn; exact (C111_smc_labels (swith_lib si Z) c bs os s Hk Hm Hn H)|].
  intros ph Hp; exact (C111_smc_exclusive (swith_lib si Z) c bs os ph s Hk Hm Hp H).
Qed.
Print Assumptions C122_smc_with_library.
Theorem C122_smc_cycles_end : forall {P X ST CV MS} (Z : senv P X ST CV MS) si c bs xs,
  sorts_down si -> pf_works Z -> (forall psf pdf t meas fl, In (psf, pdf, t, meas, fl) xs -> prob_fun psf /\ prob_fun pdf) -> sbirths_ok bs -> 0 < c_crate c -> 0 < c_cden c ->
  v_lse0 (z_g Z) = Ok tt -> rsorts (v_argsort (z_g Z)) ->
  (exists s, srun (swith_lib si Z) c bs (flat_map scycle xs) glmb_new = Ok s) \/ srun (swith_lib si Z) c bs (flat_map scycle xs) glmb_new = Err IndexErr.
Proof.
  intros P X ST CV MS Z si c bs xs Hsi Hw Hx Hb Hcr Hcd Hl Hs.
  destruct (C116_smc_cycle_total (swith (with_ks (tot_ks si) (with_lib si (z_g Z))) Z) c bs xs Hw Hx Hb Hcr Hcd (tot_total si) l_murty_total (tot_ok si Hsi) l_murty_ok Hl Hs) as [s [R _]].
  destruct (slib_run Z si Hsi c bs (flat_map scycle xs) glmb_new) as [H|H]; [left; exists s; rewrite H; exact R|right; exact H].
Qed.
Print Assumptions C122_smc_cycles_end.
(** The hypotheses can be met: births of probability 9/10; the first predict
    returns. *)
Example C122_ex : let Z := z_env (fun x => x + 1) 1 in
  sorts_down lib_si /\ pf_works Z /\ sbirths_ok z_births /\ rsorts (v_argsort (z_g Z)) /\ v_lse0 (z_g Z) = Ok tt /\
  exists s, srun (swith_lib lib_si Z) z_cfg z_births [SPredict (constf (1 / 2)) 0] glmb_new = Ok s /\ g_hyps s <> [].
Proof.
  intros Z. split; [exact lib_si_ok|]. split; [apply z_works; lra|]. split; [|split; [exact C44_ex|split; [reflexivity|]]].
  { intros s m cv p [H|[]]. injection H as <- _ _ <-. split; [split; [discriminate|split; [reflexivity|intros w [<-|[<-|[]]]; lra]]|]. split; [cbn; lra|lra]. }
  cbn [srun sexec]. unfold spredict. cbn [z_births mapM bprob snd]. rewrite d_birth_cost. cbn [bind]. change (v_kshort (z_g (swith_lib lib_si Z))) with (l_kshort lib_si).
  destruct (l_kshort_first lib_si [- ln (9 / 10 / (1 - 9 / 10))] (c_reqb z_cfg) lib_si_ok) as [p [ps [cs [Ek _]]]]; [intros x [<-|[]]; exact (odds_neg _ odds_9)|cbn; lia|]. rewrite Ek. cbn [bind].
  unfold sbirth_hyps. cbn [z_births mapM bprob snd]. rewrite lnp_ok by lra. cbn [bind combine map normalise_log glmb_new g_tab g_hyps mapM]. unfold ssurv_hyps. cbn [mapM map h_p h_ts ssurv_hyp]. rewrite (lnp_ok 1) by lra. cbn [bind concat app normalise_log map h_p h_ts].
  eexists. split; [reflexivity|]. cbn [g_hyps]. apply clean_cons_ne. discriminate.
Qed.
