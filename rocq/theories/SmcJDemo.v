(** Property C130, and concrete cases for C129 and C130. *)
From Verif Require Import Base Lists.
From Coq Require Import Reals Permutation Lra.
From Verif Require Import OspaModel CphdModel OspaProofs CphdSpec CphdProofs CphdProps OspaMetric GlmbModel GlmbSpec GlmbProofs GlmbInv GlmbProps GlmbDemo GlmbProps4.
From Verif Require Import JglmbModel JglmbSpec JglmbProofs JglmbInv GibbsReal JglmbGibbs JglmbProps JglmbDemo SmcModel SmcSpec SmcProofs SmcTotal SmcProps SmcDemo SmcJModel SmcJProofs SmcJProps.
Open Scope R_scope.

(** The hypotheses of C129: two scans, different particle filters and functions. *)
Definition zj_scans :=
  [(z_env (fun x => x + 1) 1, z_cfg, z_births, (constf (1 / 2), constf (1 / 2), 0, [tt], (true, true, true)));
   (z_env (fun x => 2 * x) 3, z_cfg, z_births, (constf (1 / 3), constf (1 / 5), 1, [tt; tt], (true, true, false)))] :
  list (senv R unit R unit unit * gcfg R unit * list (pfs R unit * R * unit * R) * ((list R -> list R) * (list R -> list R) * R * list unit * (bool * bool * bool))).
Example C129_ex : exists s, uniform j_rnd /\ Forall sjscan_ok zj_scans /\ ForallOrdPairs sjnot_switched_on zj_scans /\
  sjevery (fun Z o => rsorts (v_argsort (z_g Z)) /\ snever_fails Z [o]) (flat_map sjscan zj_scans) /\ NoDup (sjtimes (flat_map sjscan zj_scans)) /\
  sprotocol 0 (sjops (flat_map sjscan zj_scans)) = Some 0%nat /\ sjrun (sampler_of j_rnd) false (flat_map sjscan zj_scans) jst_new = Ok s.
Proof.
  assert (H1 : Forall sjscan_ok zj_scans).
  { constructor; [|constructor; [|constructor]]; (split; [apply z_works; lra|]); (split; [apply const_prob; lra|]); (split; [apply const_prob; lra|]); (split; [exact z_births_ok|]);
      (split; [cbn; lra|]); (split; [cbn; lra|]); (split; [reflexivity|exact C44_ex]). }
  assert (H2 : ForallOrdPairs sjnot_switched_on zj_scans).
  { constructor; [constructor; [intros H; exact H|constructor]|]. constructor; [constructor|constructor]. }
  destruct (C129_cycle_total j_rnd _ j_uniform H1 H2) as [s [Hs _]]. exists s. split; [exact j_uniform|]. split; [exact H1|]. split; [exact H2|].
  split; [|split; [|split; [reflexivity|exact Hs]]].
  - intros Z c bs o Hi. assert (HZ : exists mv g, Z = z_env mv g) by (cbn in Hi; repeat (destruct Hi as [Hi|Hi]; [injection Hi as <- _ _ _; eauto|]); destruct Hi).
    destruct HZ as [mv [g ->]]. split; [exact C44_ex|]. intros pdf t meas _ z s0 _. discriminate.
  - destruct smc_hypotheses_ex as [? [_ [_ [_ [_ [_ [_ [_ [Hnd _]]]]]]]]]. exact Hnd.
Qed.

(** * C130: a scan without measurements *)
Section U.
Context {P X ST CV MS : Type}.
Notation pfs := (pfs P X).
Notation jst := (jst pfs ST CV MS).
Lemma nnz_all {FS} (tab1 tab2 : list (option (GlmbModel.entry FS ST CV))) hs : length tab1 = length tab2 -> (forall i, (i < length tab1)%nat -> nth i tab1 None <> None) ->
  (forall i, (i < length tab2)%nat -> nth i tab2 None <> None) -> nnz_inds tab1 hs = nnz_inds tab2 hs.
Proof.
  intros L H1 H2. unfold nnz_inds. rewrite <- L. apply filter_ext_in. intros i Hi. apply in_seq in Hi. specialize (H1 i ltac:(lia)). specialize (H2 i ltac:(lia)).
  destruct (nth i tab1 None); [|congruence]. destruct (nth i tab2 None); [reflexivity|congruence].
Qed.
(** For every state of the filter: whatever the two functions are, a scan without
    measurements leads to the same hypotheses with the same probabilities, and to
    the same cardinality distribution. *)
Theorem C130_smc_jglmb_functions_ignored : forall (G : sampler) (Z : senv P X ST CV MS) gt c bs t (s s1 s2 : jst) psf1 pdf1 psf2 pdf2,
  sjrun G gt [(Z, c, bs, SPredict psf1 t); (Z, c, bs, SCorrect pdf1 t [])] s = Ok s1 ->
  sjrun G gt [(Z, c, bs, SPredict psf2 t); (Z, c, bs, SCorrect pdf2 t [])] s = Ok s2 ->
  g_hyps (y_g s1) = g_hyps (y_g s2) /\ g_card (y_g s1) = g_card (y_g s2).
Proof.
  intros G Z gt c bs t s s1 s2 psf1 pdf1 psf2 pdf2 H1 H2. cbn [sjrun sjexec] in H1, H2.
  apply bind_ok in H1 as [u1 [P1 H1]]. apply bind_ok in H1 as [v1 [C1 H1]]. injection H1 as <-.
  apply bind_ok in H2 as [u2 [P2 H2]]. apply bind_ok in H2 as [v2 [C2 H2]]. injection H2 as <-.
  destruct (sjpredict_inv _ _ _ _ _ _ _ P1) as [st1 [A1 [T1 [Y1 [_ [_ [_ [O1 K1]]]]]]]].
  destruct (sjpredict_inv _ _ _ _ _ _ _ P2) as [st2 [A2 [T2 [Y2 [_ [_ [_ [O2 K2]]]]]]]].
  assert (L : length (g_tab (y_g u1)) = length (g_tab (y_g u2))).
  { rewrite T1, T2, !app_length. f_equal. rewrite (mapM_length _ _ _ A1), (mapM_length _ _ _ A2). reflexivity. }
  destruct (sjcorrect_inv _ _ _ _ _ _ _ _ _ _ C1) as [r1 [h1 X1]]. cbn zeta in X1. destruct X1 as [R1 [_ [E1 [_ [B1 [D1 _]]]]]].
  destruct (sjcorrect_inv _ _ _ _ _ _ _ _ _ _ C2) as [r2 [h2 X2]]. cbn zeta in X2. destruct X2 as [R2 [_ [E2 [_ [B2 [D2 _]]]]]].
  unfold scor_rows in R1, R2. cbn [mapM] in R1, R2. injection R1 as <-. injection R2 as <-.
  rewrite Y1, O1, K1, L in E1. rewrite Y2, O2, K2 in E2. rewrite E1 in E2. injection E2 as <-. split; [|congruence]. rewrite B1, B2. f_equal. f_equal.
  assert (LT : forall tab : list (GlmbModel.entry pfs ST CV), length (scor_tab [] tab) = length tab) by (intros tab; unfold scor_tab; cbn; rewrite app_nil_r; apply map_length).
  apply nnz_all.
  - rewrite !LT. exact L.
  - intros i Hi. rewrite LT in Hi. unfold scor_tab. cbn [length seq combine map concat]. rewrite app_nil_r. destruct (nth_error (g_tab (y_g u1)) i) as [e|] eqn:Ee; [|apply nth_error_None in Ee; lia].
    erewrite nth_error_nth; [|apply map_nth_error; exact Ee]. discriminate.
  - intros i Hi. rewrite LT in Hi. unfold scor_tab. cbn [length seq combine map concat]. rewrite app_nil_r. destruct (nth_error (g_tab (y_g u2)) i) as [e|] eqn:Ee; [|apply nth_error_None in Ee; lia].
    erewrite nth_error_nth; [|apply map_nth_error; exact Ee]. discriminate.
Qed.
End U.
Print Assumptions C130_smc_jglmb_functions_ignored.
(** So the claim fails: with detection probability 1/10 everywhere and with 9/10
    everywhere, a missed target is believed in to the same degree. *)
Theorem C130_smc_jglmb_functions_refuted : exists (Z : senv R unit R unit unit) c bs t s1 s2,
  let psf := constf (1 / 2) in let run pdf := sjrun (sampler_of j_rnd) false [(Z, c, bs, SPredict psf t); (Z, c, bs, SCorrect pdf t [])] jst_new in
  pf_works Z /\ sbirths_ok bs /\ run (constf (1 / 10)) = Ok s1 /\ run (constf (9 / 10)) = Ok s2 /\
  g_hyps (y_g s1) = g_hyps (y_g s2) /\ g_card (y_g s1) = g_card (y_g s2).
Proof.
  pose (Z := z_env (fun x => x + 1) 1).
  assert (A : forall q, 0 < q < 1 -> exists s, sjrun (sampler_of j_rnd) false [(Z, z_cfg, z_births, SPredict (constf (1 / 2)) 0); (Z, z_cfg, z_births, SCorrect (constf q) 0 [])] jst_new = Ok s).
  { intros q Hq. destruct (C129_cycle_total j_rnd [(Z, z_cfg, z_births, (constf (1 / 2), constf q, 0, [], (false, false, false)))] j_uniform) as [s [Hs _]].
    - constructor; [|constructor]. split; [apply z_works; lra|]. split; [apply const_prob; lra|]. split; [apply const_prob; lra|]. split; [exact z_births_ok|].
      split; [cbn; lra|]. split; [cbn; lra|]. split; [reflexivity|exact C44_ex].
    - constructor; constructor.
    - cbn [flat_map sjscan scycle map app] in Hs.
      cbn [sjrun] in Hs. apply bind_ok in Hs as [s0 [H0 Hs]]. apply bind_ok in Hs as [s1 [H1 _]]. exists s1. cbn [sjrun]. rewrite H0. cbn [bind]. rewrite H1. reflexivity. }
  destruct (A (1 / 10) ltac:(lra)) as [s1 H1]. destruct (A (9 / 10) ltac:(lra)) as [s2 H2]. exists Z, z_cfg, z_births, 0, s1, s2. cbv zeta.
  split; [apply z_works; lra|]. split; [exact z_births_ok|]. split; [exact H1|]. split; [exact H2|].
  exact (C130_smc_jglmb_functions_ignored _ _ _ _ _ _ _ _ _ _ _ _ _ H1 H2).
Qed.
Print Assumptions C130_smc_jglmb_functions_refuted.
