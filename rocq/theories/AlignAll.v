(** The extracted lists of the particle and joint classes are aligned (C190). *)
From Verif Require Import Base Lists.
From Coq Require Import Reals Permutation Lra Lia.
From Verif Require Import OspaModel CphdModel OspaProofs CphdSpec CphdProofs CphdProps GlmbModel GlmbSpec GlmbProofs GlmbInv GlmbExtract GlmbMost GlmbTotal GlmbProps GlmbProps2 GlmbProps4 GlmbDemo GlmbProps3 GlmbMost2 GlmbNewest.
From Verif Require Import JglmbModel JglmbSpec JglmbProofs JglmbInv GibbsReal JglmbGibbs JglmbProps JglmbTotal.
From Verif Require Import SmcModel SmcSpec SmcProofs SmcBayes SmcUpd SmcTotal SmcJModel SmcJProofs SmcJProps NewestAll.
Open Scope R_scope.

(** ** specification *)
(** The lists of states, labels and covariances have one entry per time step, the
    three entries of a time step have the same length, and its labels are pairwise
    different. *)
Definition lists_aligned {FS ST CV MS} (n : nat) (s : glmb FS ST CV MS) : Prop :=
  length (g_states s) = n /\ length (g_labels s) = n /\ length (g_covs s) = n /\
  forall tt, length (nth tt (g_states s) []) = length (nth tt (g_labels s) []) /\
             length (nth tt (g_covs s) []) = length (nth tt (g_labels s) []) /\ NoDup (nth tt (g_labels s) []).
(** number of completed time steps *)
Definition is_clean {MS} (o : gop MS) : bool := match o with OpCleanup _ _ _ => true | _ => false end.
Definition is_sclean {P MS} (o : sop P MS) : bool := match o with SCleanup _ _ _ => true | _ => false end.
(** No extraction between a predict and the next correct ([mid]: a predict has
    been called since the last correct). *)
Fixpoint settled {MS} (mid : bool) (os : list (gop MS)) : Prop :=
  match os with
  | [] => True
  | OpPredict _ :: r => settled true r
  | OpCorrect _ _ :: r => settled false r
  | OpCleanup _ _ ex :: r => (ex = true -> mid = false) /\ settled mid r
  | OpExtract _ _ :: r => mid = false /\ settled mid r
  end.
Fixpoint ssettled {P MS} (mid : bool) (os : list (sop P MS)) : Prop :=
  match os with
  | [] => True
  | SPredict _ _ :: r => ssettled true r
  | SCorrect _ _ _ :: r => ssettled false r
  | SCleanup _ _ ex :: r => (ex = true -> mid = false) /\ ssettled mid r
  | SExtract _ _ :: r => mid = false /\ ssettled mid r
  end.

(** ** proofs *)
Lemma clean_ext_labels {FS ST CV MS} (E : genv FS ST CV MS) c pr ca ex (s s' : glmb FS ST CV MS) : cleanup E c pr ca ex s = Ok s' ->
  (ex = true -> HInv lab_ne (g_tab s) (g_hyps s)) -> NoDup (map x_label (g_ext s)) -> NoDup (map x_label (g_ext s')).
Proof.
  intros H HI HX. destruct (cleanup_inv _ _ _ _ _ _ _ H) as [_ [_ [_ [_ [_ [[_ ->]|[He [o H2]]]]]]]]; destruct (cleaned_inv E c pr ca s) as [_ [_ [B _]]].
  - rewrite B. exact HX.
  - eapply ext_labels_extract; [exact H2|apply cleaned_hinv, HI, He|rewrite B; exact HX].
Qed.
Section S.
Context {P X ST CV MS : Type}.
Notation glmb := (glmb (pfs P X) ST CV MS).
Lemma salign_run (Z : senv P X ST CV MS) c bs os : forall (s s' : glmb) used, kshort_ok (v_kshort (z_g Z)) -> murty_ok (v_murty (z_g Z)) -> srun Z c bs os s = Ok s' ->
  NoDup (map (v_rnd (z_g Z)) (spredict_times os)) -> (forall z, In z used -> ~ In z (map (v_rnd (z_g Z)) (spredict_times os))) -> LInv used s ->
  NoDup (map x_label (g_ext s)) -> NoDup (map x_label (g_ext s')) /\ HInv lab_ne (g_tab s') (g_hyps s') /\ g_cnt s' = (g_cnt s + length (filter is_sclean os))%nat.
Proof.
  induction os as [|o os IH]; intros s s' used Hk Hm H Hnd Hdis HI HX; cbn [srun] in H; [injection H as <-; split; [exact HX|split; [apply HI|cbn; lia]]|].
  apply bind_ok in H as [s1 [H1 H]].
  assert (Hnew : forall psf t, o = SPredict psf t -> ~ In (v_rnd (z_g Z) t) used).
  { intros psf t -> Hi. apply (Hdis _ Hi). cbn. left. reflexivity. }
  assert (Hs : NoDup (map x_label (g_ext s1)) /\ g_cnt s1 = (g_cnt s + length (filter is_sclean [o]))%nat).
  { destruct o as [psf t|pdf t meas|pr ca ex|u k]; cbn [sexec] in H1; cbn [filter is_sclean length].
    - destruct (spredict_inv _ _ _ _ _ _ _ H1) as [_ [_ [_ [_ [_ [_ [_ [_ [_ [_ [_ [_ [_ [_ [_ [_ [Ec [Ex _]]]]]]]]]]]]]]]]]]. rewrite Ex, Ec. split; [exact HX|lia].
    - destruct (scorrect_inv _ _ _ _ _ _ _ H1) as [_ [_ [_ [_ [_ [_ [_ [_ [_ [Ec [Ex _]]]]]]]]]]]. rewrite Ex, Ec. split; [exact HX|lia].
    - split; [exact (clean_ext_labels (z_g Z) c pr ca ex s s1 H1 (fun _ => proj2 HI) HX)|]. destruct (cleanup_inv _ _ _ _ _ _ _ H1) as [_ [Ec _]]. rewrite Ec. lia.
    - apply bind_ok in H1 as [[o s2] [H1 H2]]. injection H2 as <-. split; [eapply ext_labels_extract; [exact H1|apply HI|exact HX]|].
      destruct (extract_tab _ _ _ _ _ _ H1) as [_ [_ [Ec _]]]. lia. }
  destruct Hs as [HX1 Hc]. destruct (IH s1 s' (match o with SPredict _ t => v_rnd (z_g Z) t :: used | _ => used end) Hk Hm H) as [A [B C]].
  - destruct o; cbn in Hnd; try exact Hnd. inversion Hnd; assumption.
  - destruct o as [psf t| | |]; cbn in Hdis, Hnd; try exact Hdis. intros z [<-|Hz]; [inversion Hnd; assumption|]. intros Hi. apply (Hdis z Hz). right. exact Hi.
  - exact (slabel_exec Z c bs o s s1 used Hk Hm H1 Hnew HI).
  - exact HX1.
  - split; [exact A|]. split; [exact B|]. rewrite C, Hc. cbn [filter]. destruct (is_sclean o); cbn [length]; lia.
Qed.
End S.
(** between a predict and the next correct the indices of the joint classes refer
    to the table before the predict *)
Definition whole {FS ST CV MS} (mid : bool) (s : jst FS ST CV MS) : Prop := mid = false -> y_old s = length (g_tab (y_g s)).
Section J.
Context {FS ST CV MS : Type} (E : genv FS ST CV MS) (G : sampler).
Implicit Types (c : gcfg ST CV) (s : jst FS ST CV MS).
Fixpoint mid_after (mid : bool) (os : list (gop MS)) : bool :=
  match os with [] => mid | OpPredict _ :: r => mid_after true r | OpCorrect _ _ :: r => mid_after false r | _ :: r => mid_after mid r end.
Lemma jalign_run gt c os : forall mid s s' used, gibbs_ok G -> jrun E G gt c os s = Ok s' -> settled mid os ->
  NoDup (map (v_rnd E) (predict_times os)) -> (forall z, In z used -> ~ In z (map (v_rnd E) (predict_times os))) -> JLInv used s -> whole mid s ->
  NoDup (map x_label (g_ext (y_g s))) -> NoDup (map x_label (g_ext (y_g s'))) /\ JInv lab_ne s' /\ whole (mid_after mid os) s' /\
  g_cnt (y_g s') = (g_cnt (y_g s) + length (filter is_clean os))%nat.
Proof.
  induction os as [|o os IH]; intros mid s s' used Hg H Hst Hnd Hdis HI HW HX; cbn [jrun] in H;
    [injection H as <-; split; [exact HX|split; [apply HI|split; [exact HW|cbn; lia]]]|].
  apply bind_ok in H as [s1 [H1 H]].
  assert (Hnew : forall t, o = OpPredict t -> ~ In (v_rnd E t) used).
  { intros t -> Hi. apply (Hdis _ Hi). cbn. left. reflexivity. }
  pose proof (jlinv_exec E G gt c o s s1 used Hg H1 Hnew HI) as HI1.
  assert (Hs : NoDup (map x_label (g_ext (y_g s1))) /\ whole (mid_after mid [o]) s1 /\ g_cnt (y_g s1) = (g_cnt (y_g s) + length (filter is_clean [o]))%nat).
  { destruct o as [t|t meas|pr ca ex|u k]; cbn [jexec] in H1; cbn [filter is_clean length mid_after]; cbn [settled] in Hst.
    - destruct (jpredict_inv _ _ _ _ _ H1) as [_ [_ [_ [Ec [Ex _]]]]]. rewrite Ex, Ec. split; [exact HX|]. split; [intros ?; discriminate|lia].
    - destruct (jcorrect_inv _ _ _ _ _ _ _ _ H1) as [hs X0]. cbn zeta in X0. destruct X0 as [_ [_ [_ [_ [_ [_ [Ec [Ex Ho]]]]]]]]. rewrite Ex, Ec. split; [exact HX|]. split; [|lia].
      intros _. apply Ho.
    - apply bind_ok in H1 as [g [H1 H2]]. injection H2 as <-. cbn [with_g y_g y_old] in *. destruct Hst as [Hmid _].
      split; [apply (clean_ext_labels E c pr ca ex (y_g s) g H1); [intros He; apply (jinv_full lab_ne s (proj2 HI)), HW, Hmid, He|exact HX]|].
      destruct (cleanup_inv _ _ _ _ _ _ _ H1) as [Et [Ec _]]. rewrite Ec. split; [|lia]. intros Hm. cbn [with_g y_g y_old]. rewrite Et. apply HW, Hm.
    - apply bind_ok in H1 as [[o g] [H1 H2]]. injection H2 as <-. cbn [with_g y_g y_old] in *. destruct Hst as [Hmid _].
      split; [eapply ext_labels_extract; [exact H1|apply (jinv_full lab_ne s (proj2 HI)), HW, Hmid|exact HX]|].
      destruct (extract_tab _ _ _ _ _ _ H1) as [Et [_ [Ec _]]]. rewrite Ec. split; [|lia]. intros Hm. cbn [with_g y_g y_old]. rewrite Et. apply HW, Hm. }
  destruct Hs as [HX1 [HW1 Hc]].
  destruct (IH (mid_after mid [o]) s1 s' (match o with OpPredict t => v_rnd E t :: used | _ => used end) Hg H) as [A [B [C D]]].
  - destruct o; cbn in Hst |- *; try exact Hst; apply Hst.
  - destruct o; cbn in Hnd; try exact Hnd. inversion Hnd; assumption.
  - destruct o as [t| | |]; cbn in Hdis, Hnd; try exact Hdis. intros z [<-|Hz]; [inversion Hnd; assumption|]. intros Hi. apply (Hdis z Hz). right. exact Hi.
  - exact HI1.
  - exact HW1.
  - exact HX1.
  - split; [exact A|]. split; [exact B|]. split; [destruct o; exact C|]. rewrite D, Hc. cbn [filter]. destruct (is_clean o); cbn [length]; lia.
Qed.
End J.
Section SJ.
Context {P X ST CV MS : Type} (G : sampler).
Notation jst := (jst (pfs P X) ST CV MS).
Fixpoint smid_after (mid : bool) (os : list (sop P MS)) : bool :=
  match os with [] => mid | SPredict _ _ :: r => smid_after true r | SCorrect _ _ _ :: r => smid_after false r | _ :: r => smid_after mid r end.
Lemma sjalign_run gt (vs : list (sjcall P X ST CV MS)) : forall mid (s s' : jst) used, gibbs_ok G -> sjrun G gt vs s = Ok s' -> ssettled mid (sjops vs) ->
  NoDup (sjtimes vs) -> (forall z, In z used -> ~ In z (sjtimes vs)) -> JLInv used s -> whole mid s ->
  NoDup (map x_label (g_ext (y_g s))) -> NoDup (map x_label (g_ext (y_g s'))) /\ JInv lab_ne s' /\ whole (smid_after mid (sjops vs)) s' /\
  g_cnt (y_g s') = (g_cnt (y_g s) + length (filter is_sclean (sjops vs)))%nat.
Proof.
  induction vs as [|[[[Z c] bs] o] vs IH]; intros mid s s' used Hg H Hst Hnd Hdis HI HW HX; cbn [sjrun] in H;
    [injection H as <-; split; [exact HX|split; [apply HI|split; [exact HW|cbn; lia]]]|].
  apply bind_ok in H as [s1 [H1 H]]. unfold sjops in *. cbn [map snd] in *.
  assert (Hnew : forall psf t, o = SPredict psf t -> ~ In (v_rnd (z_g Z) t) used).
  { intros psf t -> Hi. apply (Hdis _ Hi). cbn. left. reflexivity. }
  pose proof (sjlinv_exec Z G gt c bs o s s1 used Hg H1 Hnew HI) as HI1.
  assert (Hs : NoDup (map x_label (g_ext (y_g s1))) /\ whole (smid_after mid [o]) s1 /\ g_cnt (y_g s1) = (g_cnt (y_g s) + length (filter is_sclean [o]))%nat).
  { destruct o as [psf t|pdf t meas|pr ca ex|u k]; cbn [sjexec] in H1; cbn [filter is_sclean length smid_after]; cbn [ssettled] in Hst.
    - destruct (sjpredict_inv _ _ _ _ _ _ _ H1) as [st [_ [_ [_ [_ [Ec [Ex _]]]]]]]. rewrite Ex, Ec. split; [exact HX|]. split; [intros ?; discriminate|lia].
    - destruct (sjcorrect_inv _ _ _ _ _ _ _ _ _ _ H1) as [rows [hs X0]]. cbn zeta in X0. destruct X0 as [_ [_ [_ [_ [_ [_ [Ec [Ex Ho]]]]]]]]. rewrite Ex, Ec. split; [exact HX|]. split; [|lia].
      intros _. apply Ho.
    - apply bind_ok in H1 as [g [H1 H2]]. injection H2 as <-. cbn [with_g y_g y_old] in *. destruct Hst as [Hmid _].
      split; [apply (clean_ext_labels (z_g Z) c pr ca ex (y_g s) g H1); [intros He; apply (jinv_full lab_ne s (proj2 HI)), HW, Hmid, He|exact HX]|].
      destruct (cleanup_inv _ _ _ _ _ _ _ H1) as [Et [Ec _]]. rewrite Ec. split; [|lia]. intros Hm. cbn [with_g y_g y_old]. rewrite Et. apply HW, Hm.
    - apply bind_ok in H1 as [[o g] [H1 H2]]. injection H2 as <-. cbn [with_g y_g y_old] in *. destruct Hst as [Hmid _].
      split; [eapply ext_labels_extract; [exact H1|apply (jinv_full lab_ne s (proj2 HI)), HW, Hmid|exact HX]|].
      destruct (extract_tab _ _ _ _ _ _ H1) as [Et [_ [Ec _]]]. rewrite Ec. split; [|lia]. intros Hm. cbn [with_g y_g y_old]. rewrite Et. apply HW, Hm. }
  destruct Hs as [HX1 [HW1 Hc]].
  destruct (IH (smid_after mid [o]) s1 s' (match o with SPredict _ t => v_rnd (z_g Z) t :: used | _ => used end) Hg H) as [A [B [C D]]].
  - destruct o; cbn in Hst |- *; try exact Hst; apply Hst.
  - destruct o; cbn in Hnd; try exact Hnd. inversion Hnd; assumption.
  - destruct o as [psf t| | |]; cbn in Hdis, Hnd; try exact Hdis. intros z [<-|Hz]; [inversion Hnd; assumption|]. intros Hi. apply (Hdis z Hz). right. exact Hi.
  - exact HI1.
  - exact HW1.
  - exact HX1.
  - split; [exact A|]. split; [exact B|]. split; [destruct o; exact C|]. rewrite D, Hc. cbn [filter]. destruct (is_sclean o); cbn [length]; lia.
Qed.
End SJ.

(** * C190 *)
(** SMC-GLMB: any history with different (rounded) predict times, extraction at
    any point. *)
Theorem C190_smc_outputs_aligned : forall {P X ST CV MS} (Z : senv P X ST CV MS) c bs os s u k o s',
  kshort_ok (v_kshort (z_g Z)) -> murty_ok (v_murty (z_g Z)) -> NoDup (map (v_rnd (z_g Z)) (spredict_times os)) ->
  srun Z c bs os glmb_new = Ok s -> extract_states c u k s = Ok (o, s') -> lists_aligned (length (filter is_sclean os)) s'.
Proof.
  intros P X ST CV MS Z c bs os s u k o s' Hk Hm Hd H Hx.
  destruct (salign_run Z c bs os _ _ [] Hk Hm H Hd (fun z f => match f with end)) as [A [B C]]; [split; [intros e []|apply hinv_new]|constructor|].
  change (g_cnt s = length (filter is_sclean os)) in C.
  unfold lists_aligned. rewrite <- C. apply (extract_aligned c u k s o s' Hx). eapply ext_labels_extract; [exact Hx|exact B|exact A].
Qed.
Print Assumptions C190_smc_outputs_aligned.
(** JGLMB: gibbs with any random numbers. *)
Theorem C190_jglmb_outputs_aligned : forall {FS ST CV MS} (E : genv FS ST CV MS) rnd gt c os s u k o g,
  uniform rnd -> NoDup (map (v_rnd E) (predict_times os)) -> settled false (os ++ [OpExtract u k]) ->
  jrun E (sampler_of rnd) gt c os jst_new = Ok s -> extract_states c u k (y_g s) = Ok (o, g) -> lists_aligned (length (filter is_clean os)) g.
Proof.
  intros FS ST CV MS E rnd gt c os s u k o g Hr Hd Hst H Hx. apply uniform_ok in Hr.
  assert (Hst' : settled false os /\ mid_after false os = false).
  { revert Hst. generalize false at 1 2 3 as m. clear. induction os as [|o os IH]; intros m; cbn [app settled mid_after]; [tauto|]. destruct o; auto; intros [A B]; apply IH in B; tauto. }
  destruct Hst' as [Hst1 Hst2].
  destruct (jalign_run E _ gt c os false _ _ [] Hr H Hst1 Hd (fun z f => match f with end)) as [A [B [C D]]]; [split; [intros e []|apply jinv_new]|intros _; reflexivity|constructor|].
  change (g_cnt (y_g s) = length (filter is_clean os)) in D.
  unfold lists_aligned. rewrite <- D. apply (extract_aligned c u k (y_g s) o g Hx). eapply ext_labels_extract; [exact Hx|apply (jinv_full lab_ne s B), C, Hst2|exact A].
Qed.
Print Assumptions C190_jglmb_outputs_aligned.
(** SMC-JGLMB; configuration, births and particle filter may differ from call to call. *)
Theorem C190_smc_jglmb_outputs_aligned : forall {P X ST CV MS} rnd gt (vs : list (sjcall P X ST CV MS)) c s u k o g,
  uniform rnd -> NoDup (sjtimes vs) -> ssettled false (sjops vs ++ [SExtract u k]) ->
  sjrun (sampler_of rnd) gt vs jst_new = Ok s -> extract_states c u k (y_g s) = Ok (o, g) -> lists_aligned (length (filter is_sclean (sjops vs))) g.
Proof.
  intros P X ST CV MS rnd gt vs c s u k o g Hr Hd Hst H Hx. apply uniform_ok in Hr.
  assert (Hst' : ssettled false (sjops vs) /\ smid_after false (sjops vs) = false).
  { revert Hst. generalize false at 1 2 3 as m. generalize (sjops vs) as os. clear. induction os as [|o os IH]; intros m; cbn [app ssettled smid_after]; [tauto|]. destruct o; auto; intros [A B]; apply IH in B; tauto. }
  destruct Hst' as [Hst1 Hst2].
  destruct (sjalign_run _ gt vs false _ _ [] Hr H Hst1 Hd (fun z f => match f with end)) as [A [B [C D]]]; [split; [intros e []|apply jinv_new]|intros _; reflexivity|constructor|].
  change (g_cnt (y_g s) = length (filter is_sclean (sjops vs))) in D.
  unfold lists_aligned. rewrite <- D. apply (extract_aligned c u k (y_g s) o g Hx). eapply ext_labels_extract; [exact Hx|apply (jinv_full lab_ne s B), C, Hst2|exact A].
Qed.
Print Assumptions C190_smc_jglmb_outputs_aligned.
