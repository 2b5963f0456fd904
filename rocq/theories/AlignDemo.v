(** Concrete cases for C190: one scan, cleanup without extraction, then an
    extraction that shows one track. *)
From Verif Require Import Base Lists.
From Coq Require Import Reals Permutation Lra Lia.
From Verif Require Import OspaModel CphdModel OspaProofs CphdSpec CphdProofs CphdProps OspaMetric GlmbModel GlmbSpec GlmbProofs GlmbInv GlmbExtract GlmbMost GlmbTotal GlmbProps GlmbProps2 GlmbProps4 GlmbDemo GlmbProps3 GlmbMost2 GlmbNewest.
From Verif Require Import JglmbModel JglmbSpec JglmbProofs JglmbInv GibbsReal JglmbGibbs JglmbProps JglmbTotal JglmbDemo.
From Verif Require Import SmcModel SmcSpec SmcProofs SmcBayes SmcUpd SmcTotal SmcProps SmcDemo SmcDemo2 SmcJModel SmcJProofs SmcJProps SmcJDemo NewestAll NewestDemo AlignAll.
Open Scope R_scope.

Lemma clean_then_extract {FS ST CV MS} (E : genv FS ST CV MS) c pr ca (s s' : glmb FS ST CV MS) : cleanup E c pr ca true s = Ok s' ->
  exists s1 o, cleanup E c pr ca false s = Ok s1 /\ extract_states c true true s1 = Ok (o, s').
Proof.
  unfold cleanup. cbn zeta. intros H. apply bind_ok in H as [[o s2] [H1 H2]]. assert (s2 = s') by congruence. subst s2. eauto.
Qed.
Example C190_smc_hypotheses : exists (Z : senv R unit R unit unit) c bs f s o s', let os := [SPredict f 0; SCorrect f 0 []; SCleanup false false false] in
  kshort_ok (v_kshort (z_g Z)) /\ murty_ok (v_murty (z_g Z)) /\ NoDup (map (v_rnd (z_g Z)) (spredict_times os)) /\
  srun Z c bs os glmb_new = Ok s /\ extract_states c true true s = Ok (o, s') /\ lists_aligned 1 s' /\ length (last (g_labels s') []) = 1%nat.
Proof.
  destruct n_smc as [_ [s [_ [_ [_ [R H]]]]]]. destruct (z_contracts (fun x => x) 1) as [Hk [_ [_ [Hm [_ [_ [_ [_ [Hs _]]]]]]]]].
  pose (Z := z_env (fun x => x) 1). pose (f := @constf Rdefinitions.RbaseSymbolsImpl.R (1 / 2)). fold Z f in R.
  assert (Hn : newest_shown s).
  { eapply (C188_smc_newest_step Z z_cfg z_births []); [exact Hk|exact Hm|exact Hs|reflexivity| |exact R|rewrite H; discriminate]. right. intros z p []. }
  cbn [srun sexec] in R. apply bind_ok in R as [s1 [P1 R]]. apply bind_ok in R as [s2 [P2 R]]. apply bind_ok in R as [s3 [P3 R]]. injection R as ->.
  destruct (clean_then_extract _ _ _ _ _ _ P3) as [s4 [o [P4 Hx]]].
  assert (R4 : srun Z z_cfg z_births [SPredict f 0; SCorrect f 0 []; SCleanup false false false] glmb_new = Ok s4).
  { cbn [srun sexec]. rewrite P1. cbn [bind]. rewrite P2. cbn [bind]. rewrite P4. reflexivity. }
  assert (Hd : NoDup (map (v_rnd (z_g Z)) (spredict_times ([SPredict f 0; SCorrect f 0 []; SCleanup false false false] : list (sop R unit))))) by (unfold spredict_times; cbn [flat_map app map]; apply NoDup_cons; [intros Hf0; destruct Hf0|apply NoDup_nil]).
  exists Z, z_cfg, z_births, f, s4, o, s. cbv zeta. split; [exact Hk|]. split; [exact Hm|]. split; [exact Hd|]. split; [exact R4|]. split; [exact Hx|].
  split; [exact (C190_smc_outputs_aligned Z _ _ _ _ _ _ _ _ Hk Hm Hd R4 Hx)|].
  destruct Hn as [h [[Hh _] [_ [-> [Hl _]]]]]. rewrite map_length, Hl. rewrite H in Hh. destruct Hh as [<-|[]]. reflexivity.
Qed.
Example C190_jglmb_hypotheses : exists (E : genv unit unit unit unit) c s o g, let os := [OpPredict 0; OpCorrect 0 []; OpCleanup false false false] in
  uniform j_rnd /\ NoDup (map (v_rnd E) (predict_times os)) /\ settled false (os ++ [OpExtract true true]) /\
  jrun E (sampler_of j_rnd) false c os jst_new = Ok s /\ extract_states c true true (y_g s) = Ok (o, g) /\ lists_aligned 1 g /\ length (last (g_labels g) []) = 1%nat.
Proof.
  destruct n_joint as [s2 [s [R2 [_ [_ [Hl [R Hn0]]]]]]]. pose (E := d_env false). fold E in R, R2.
  assert (Hn : newest_shown (y_g s)).
  { eapply (C188_jglmb_newest_step E j_rnd false n_cfg []); [exact j_uniform|exact C44_ex|reflexivity| |exact R|exact Hn0]. right. split; [apply d_hash_ok|intros z f x []]. }
  cbn [jrun jexec] in R, R2. apply bind_ok in R as [s1 [P1 R]]. apply bind_ok in R as [s2' [P2 R]]. apply bind_ok in R as [s3 [P3 R]]. apply bind_ok in P3 as [g [P3 E3]].
  rewrite P1 in R2. cbn [bind] in R2. rewrite P2 in R2. cbn [bind] in R2. assert (s2' = s2) by congruence. subst s2'. assert (s = with_g s2 g) by congruence. subst s. cbn [with_g y_g] in Hn.
  destruct (clean_then_extract _ _ _ _ _ _ P3) as [g4 [o [P4 Hx]]].
  assert (R4 : jrun E (sampler_of j_rnd) false n_cfg [OpPredict 0; OpCorrect 0 []; OpCleanup false false false] jst_new = Ok (with_g s2 g4)).
  { cbn [jrun jexec]. rewrite P1. cbn [bind]. rewrite P2. cbn [bind]. rewrite P4. reflexivity. }
  assert (Hd : NoDup (map (v_rnd E) (predict_times (@cons (gop unit) (OpPredict 0) [OpCorrect 0 []; OpCleanup false false false])))) by (unfold predict_times; cbn [flat_map app map]; apply NoDup_cons; [intros Hf0; destruct Hf0|apply NoDup_nil]).
  assert (Hst : settled false (([OpPredict 0; OpCorrect 0 []; OpCleanup false false false] : list (gop unit)) ++ [OpExtract true true])) by (cbn; repeat split; discriminate).
  exists E, n_cfg, (with_g s2 g4), o, g. cbv zeta. split; [exact j_uniform|]. split; [exact Hd|]. split; [exact Hst|]. split; [exact R4|]. split; [exact Hx|].
  split; [exact (C190_jglmb_outputs_aligned E j_rnd false _ _ _ _ _ _ _ j_uniform Hd Hst R4 Hx)|].
  destruct Hn as [h [[Hh _] [_ [-> [Hl1 _]]]]]. rewrite map_length, Hl1. apply Hl.
  destruct (cleanup_inv _ _ _ _ _ _ _ P3) as [_ [_ [_ [Eh _]]]]. rewrite Eh in Hh. exact Hh.
Qed.
Example C190_smc_jglmb_hypotheses : exists s o g, let f := constf (1 / 2) in let vs := [nz_call (SPredict f 0); nz_call (SCorrect f 0 []); nz_call (SCleanup false false false)] in
  uniform j_rnd /\ NoDup (sjtimes vs) /\ ssettled false (sjops vs ++ [SExtract true true]) /\
  sjrun (sampler_of j_rnd) false vs jst_new = Ok s /\ extract_states nz_cfg true true (y_g s) = Ok (o, g) /\ lists_aligned 1 g /\ length (last (g_labels g) []) = 1%nat.
Proof.
  destruct n_sjoint as [s2 [s [R2 [_ [_ [Hl [R Hn0]]]]]]]. pose (f := @constf Rdefinitions.RbaseSymbolsImpl.R (1 / 2)). fold f in R, R2. destruct (z_contracts (fun x => x) 1) as [_ [_ [_ [_ [_ [_ [_ [Hh [Hs _]]]]]]]]].
  assert (Hn : newest_shown (y_g s)).
  { eapply (C188_smc_jglmb_newest_step j_rnd false []); [exact j_uniform|exact Hs|reflexivity| |exact R|exact Hn0]. right. split; [exact Hh|intros z p []]. }
  unfold nz_call in R, R2. cbn [sjrun sjexec] in R, R2. apply bind_ok in R as [s1 [P1 R]]. apply bind_ok in R as [s2' [P2 R]]. apply bind_ok in R as [s3 [P3 R]]. apply bind_ok in P3 as [g [P3 E3]].
  rewrite P1 in R2. cbn [bind] in R2. rewrite P2 in R2. cbn [bind] in R2. assert (s2' = s2) by congruence. subst s2'. assert (s = with_g s2 g) by congruence. subst s. cbn [with_g y_g] in Hn.
  destruct (clean_then_extract _ _ _ _ _ _ P3) as [g4 [o [P4 Hx]]].
  assert (R4 : sjrun (sampler_of j_rnd) false [nz_call (SPredict f 0); nz_call (SCorrect f 0 []); nz_call (SCleanup false false false)] jst_new = Ok (with_g s2 g4)).
  { unfold nz_call. cbn [sjrun sjexec]. rewrite P1. cbn [bind]. rewrite P2. cbn [bind]. rewrite P4. reflexivity. }
  assert (Hd : NoDup (sjtimes [nz_call (SPredict f 0); nz_call (SCorrect f 0 []); nz_call (SCleanup false false false)])) by (unfold sjtimes, nz_call; cbn [flat_map app map snd fst]; apply NoDup_cons; [intros Hf0; destruct Hf0|apply NoDup_nil]).
  assert (Hst : ssettled false (sjops [nz_call (SPredict f 0); nz_call (SCorrect f 0 []); nz_call (SCleanup false false false)] ++ [SExtract true true])) by (cbn; repeat split; discriminate).
  exists (with_g s2 g4), o, g. cbv zeta. split; [exact j_uniform|]. split; [exact Hd|]. split; [exact Hst|]. split; [exact R4|]. split; [exact Hx|].
  split; [exact (C190_smc_jglmb_outputs_aligned j_rnd false _ _ _ _ _ _ _ j_uniform Hd Hst R4 Hx)|].
  destruct Hn as [h [[Hh' _] [_ [-> [Hl1 _]]]]]. rewrite map_length, Hl1. apply Hl.
  destruct (cleanup_inv _ _ _ _ _ _ _ P3) as [_ [_ [_ [Eh _]]]]. rewrite Eh in Hh'. exact Hh'.
Qed.
