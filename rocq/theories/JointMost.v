(** extract_most_prob_states of the joint GLMB filter (C193). *)
From Verif Require Import Base Lists.
From Coq Require Import Reals Permutation Lra Lia Sorted.
From Verif Require Import OspaModel CphdModel OspaProofs CphdSpec CphdProofs CphdProps OspaMetric GlmbModel GlmbSpec GlmbProofs GlmbInv GlmbExtract GlmbMost GlmbTotal GlmbProps GlmbProps2 GlmbProps4 GlmbDemo GlmbProps3 GlmbMost2.
From Verif Require Import JglmbModel JglmbSpec JglmbProofs JglmbInv GibbsReal JglmbGibbs JglmbProps JglmbTotal JglmbDemo.
From Verif Require Import SmcModel SmcSpec SmcProofs SmcBayes SmcUpd SmcTotal SmcProps SmcDemo SmcDemo2 SmcJModel SmcJProofs SmcJProps SmcJDemo NewestAll NewestDemo.
Open Scope R_scope.

Lemma jcycles_extractable {FS ST CV MS} (E : genv FS ST CV MS) rnd c xs s : cfg_ok c -> births_ok c -> uniform rnd -> v_lse0 E = Ok tt -> rsorts (v_argsort E) -> xs <> [] ->
  jrun E (sampler_of rnd) false c (flat_map cycle xs) jst_new = Ok s -> g_hyps (y_g s) <> [] -> Extractable c (y_g s) /\ forall h, In h (g_hyps (y_g s)) -> 0 < h_p h.
Proof.
  intros Hc Hb Hr Hl Hs Hx E1 Hne. destruct (sampler_ok rnd Hr) as [Hok Hgt].
  destruct (jcycles_total E _ c xs Hc Hb Hok Hgt Hl Hs) as [s0 [E2 HR]]. assert (s0 = s) by congruence. subst s0. clear E2.
  assert (Hcard : g_card (y_g s) <> []).
  { destruct (exists_last Hx) as [xs' [[[t meas] [[pr ca] ex]] ->]]. rewrite flat_map_app in E1. cbn [flat_map] in E1. rewrite app_nil_r, jrun_app in E1.
    apply bind_ok in E1 as [s1 [_ E1]]. cbn [cycle jrun jexec] in E1. apply bind_ok in E1 as [s2 [_ E1]]. apply bind_ok in E1 as [s3 [E3 E1]]. apply bind_ok in E1 as [s4 [E4 E1]].
    injection E1 as <-. apply bind_ok in E4 as [g4 [E4 X]]. injection X as <-. cbn [with_g y_g].
    apply (card_exec E c (OpCleanup pr ca ex) (y_g s3) g4); [cbn [exec]; exact E4|]. right.
    destruct (jcorrect_inv _ _ _ _ _ _ _ _ E3) as [hs X]. cbn zeta in X. destruct X as [_ [_ [_ [_ [_ [Ec _]]]]]]. rewrite Ec. apply calc_card_ne. }
  destruct HR as [HC [Ho HP]]. pose proof (jc_cinv _ _ _ HC Ho) as [[HL HI] [HS HX]]. split; [|exact HP].
  split; [exact Hcard|]. split; [exact Hne|]. split; [eapply hinv_refs; exact HI|]. split; [intros e He; split; auto|exact HX].
Qed.

(** * C193: for a positive threshold it terminates with hypotheses of the filter,
    each at most once, all but the first at or above the threshold. *)
Theorem C193_jglmb_most_prob_ends_partial : forall {FS ST CV MS} (E : genv FS ST CV MS) rnd c xs s th,
  cfg_ok c -> births_ok c -> uniform rnd -> v_lse0 E = Ok tt -> rsorts (v_argsort E) -> xs <> [] ->
  jrun E (sampler_of rnd) false c (flat_map cycle xs) jst_new = Ok s -> g_hyps (y_g s) <> [] -> 0 < th ->
  exists first rest is, NoDup is /\
    Forall2 (fun i o => exists h, nth_error (g_hyps (y_g s)) i = Some h /\ h_p h = snd o) is (first :: rest) /\
    (forall o, In o rest -> th <= snd o) /\
    forall fuel, (length (g_hyps (y_g s)) <= fuel)%nat -> most_prob fuel c th (y_g s) = Ok (first :: rest).
Proof.
  intros FS ST CV MS E rnd c xs s th Hc Hb Hr Hl Hs Hx H Hne Hth. apply most_prob_ends; [|exact Hth].
  apply (jcycles_extractable E rnd c xs s); assumption.
Qed.
Print Assumptions C193_jglmb_most_prob_ends_partial.
(** Exactly what it returns when the cardinality distribution matches. *)
Theorem C193_jglmb_most_prob_exact_partial : forall {FS ST CV MS} (E : genv FS ST CV MS) rnd c xs s th,
  cfg_ok c -> births_ok c -> uniform rnd -> v_lse0 E = Ok tt -> rsorts (v_argsort E) -> xs <> [] ->
  jrun E (sampler_of rnd) false c (flat_map cycle xs) jst_new = Ok s -> g_hyps (y_g s) <> [] -> 0 < th ->
  card_matches (g_card (y_g s)) (g_hyps (y_g s)) ->
  let hs := g_hyps (y_g s) in
  let prob i := nth i (map h_p hs) 0 in
  exists n main extra out,
    (** [n] is the most probable cardinality, its hypotheses of probability at least
        [th] are all in [main] with no others but the first, a most probable one *)
    is_mode (g_card (y_g s)) n /\
    (forall i h, nth_error hs i = Some h -> length (h_ts h) = n -> th <= h_p h -> In i main) /\
    (forall i, In i main -> exists h, nth_error hs i = Some h /\ length (h_ts h) = n) /\
    (exists first rest, main = first :: rest /\ (forall i, In i rest -> th <= prob i) /\ (forall i h, nth_error hs i = Some h -> length (h_ts h) = n -> h_p h <= prob first)) /\
    (** in order of probability, each once *)
    StronglySorted (fun i j => prob j <= prob i) main /\ NoDup (main ++ extra) /\
    (** at most one more: the first of the list, of another cardinality *)
    (extra = [] \/ (extra = [0%nat] /\ th <= prob 0%nat /\ (forall h, nth_error hs 0 = Some h -> length (h_ts h) <> n))) /\
    (** these are the results *)
    Forall2 (fun i o => (i < length hs)%nat /\ snd o = prob i) (main ++ extra) out /\
    forall fuel, (length hs <= fuel)%nat -> most_prob fuel c th (y_g s) = Ok out.
Proof.
  intros FS ST CV MS E rnd c xs s th Hc Hb Hr Hl Hs Hx H Hne Hth Hcm. destruct (jcycles_extractable E rnd c xs s Hc Hb Hr Hl Hs Hx H Hne) as [HE HP].
  apply most_prob_exact; assumption.
Qed.
Print Assumptions C193_jglmb_most_prob_exact_partial.
(** For a threshold of 0 (or less) it never terminates. *)
Theorem C193_jglmb_most_prob_ends_refuted : forall {FS ST CV MS} (E : genv FS ST CV MS) rnd c xs s th fuel,
  cfg_ok c -> births_ok c -> uniform rnd -> v_lse0 E = Ok tt -> rsorts (v_argsort E) -> xs <> [] ->
  jrun E (sampler_of rnd) false c (flat_map cycle xs) jst_new = Ok s -> g_hyps (y_g s) <> [] -> th <= 0 -> most_prob fuel c th (y_g s) = Err OutOfFuel.
Proof.
  intros FS ST CV MS E rnd c xs s th fuel Hc Hb Hr Hl Hs Hx H Hne Hth. destruct (jcycles_extractable E rnd c xs s Hc Hb Hr Hl Hs Hx H Hne) as [HE HP].
  apply most_prob_diverges; [exact HE| |exact Hth]. intros h Hh. apply Rlt_le, HP, Hh.
Qed.
Print Assumptions C193_jglmb_most_prob_ends_refuted.

(** One scan: a birth, no measurement. *)
Example C193_hypotheses : exists (E : genv unit unit unit unit) c s, cfg_ok c /\ births_ok c /\ uniform j_rnd /\ v_lse0 E = Ok tt /\ rsorts (v_argsort E) /\
  jrun E (sampler_of j_rnd) false c (flat_map cycle [(0, [], (false, false, true))]) jst_new = Ok s /\ g_hyps (y_g s) <> [] /\ card_matches (g_card (y_g s)) (g_hyps (y_g s)).
Proof.
  destruct n_joint as [s2 [s [R2 [_ [Hn2 [_ [R Hn]]]]]]].
  exists (d_env false), n_cfg, s. split; [split; [intros b p [Hb|[]]; inversion Hb; lra|cbn; lra]|].
  split; [intros b p [H|[]]; inversion H; subst; cbn; lia|].
  split; [exact j_uniform|]. split; [reflexivity|]. split; [exact C44_ex|]. split; [exact R|]. split; [exact Hn|].
  cbn [jrun jexec] in R, R2. apply bind_ok in R as [s1 [P1 R]]. apply bind_ok in R as [s2' [P2 R]]. rewrite P1 in R2. cbn [bind] in R2. rewrite P2 in R2. cbn [bind] in R2. assert (s2' = s2) by congruence. subst s2'.
  apply bind_ok in R as [s3 [P3 R]]. apply bind_ok in P3 as [g [P3 E3]]. assert (s = with_g s2 g) by congruence. subst s. cbn [with_g y_g].
  destruct (cleanup_inv _ _ _ _ _ _ _ P3) as [_ [_ [_ [-> [-> _]]]]].
  change (card_matches (g_card (y_g s2)) (g_hyps (y_g s2))).
  apply (jcorrect_dist (d_env false) _ _ _ _ _ _ _ (uniform_ok _ j_uniform) (fun z f x (Hi : In z []) => match Hi with end) P2 Hn2), d_hash_ok.
Qed.
