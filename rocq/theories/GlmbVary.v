(** GLMB histories in which the caller re-assigns attributes (probabilities, birth
    terms, thresholds, clutter, inner filter, ...) between the calls. *)
From Verif Require Import Base Lists.
From Coq Require Import Reals Permutation Lra.
From Verif Require Import OspaModel CphdModel OspaProofs CphdSpec CphdProofs GlmbModel GlmbSpec GlmbProofs GlmbInv GlmbExtract GlmbMost GlmbTotal GlmbProps GlmbProps2 GlmbDemo.
Open Scope R_scope.

Section M.
Context {FS ST CV MS : Type}.
(** One call of a public method (tracker.py:2210, 2426, 2708, 2533) together with
    the values the public attributes (tracker.py:1857-1893, 59-86) and the inner
    filter have at that moment. *)
Definition vcall : Type := genv FS ST CV MS * gcfg ST CV * gop MS.
(** The calls one after the other, from a filter state. *)
Fixpoint vrun (vs : list vcall) (s : glmb FS ST CV MS) : result (glmb FS ST CV MS) :=
  match vs with
  | [] => Ok s
  | (E, c, o) :: vs' => do s1 <- exec E c o s; vrun vs' s1
  end.
(** Every call's environment satisfies [P]. *)
Definition every (P : genv FS ST CV MS -> gcfg ST CV -> gop MS -> Prop) (vs : list vcall) : Prop :=
  forall E c o, In (E, c, o) vs -> P E c o.
Definition ops_of (vs : list vcall) : list (gop MS) := map snd vs.
(** The rounded predict times, each rounded as configured at that call. *)
Definition birth_times (vs : list vcall) : list Z :=
  flat_map (fun v => match snd v with OpPredict t => [v_rnd (fst (fst v)) t] | _ => [] end) vs.
Definition graphs_ok (vs : list vcall) : Prop := every (fun E _ _ => kshort_ok (v_kshort E) /\ murty_ok (v_murty E)) vs.

Lemma every_tl P v vs : every P (v :: vs) -> every P vs.
Proof. intros H E c o Hi. apply H. right. exact Hi. Qed.
Lemma every_hd P E c o vs : every P ((E, c, o) :: vs) -> P E c o.
Proof. intros H. apply H. left. reflexivity. Qed.
(** An invariant kept by every single call is kept by the history. *)
Lemma run1 E c o (s : glmb FS ST CV MS) : run E c [o] s = exec E c o s.
Proof. cbn [run]. destruct (exec E c o s); reflexivity. Qed.
Lemma vrun_app vs1 vs2 s : vrun (vs1 ++ vs2) s = (do s1 <- vrun vs1 s; vrun vs2 s1).
Proof.
  revert s. induction vs1 as [|[[E c] o] vs1 IH]; intros s; [reflexivity|]. cbn [vrun app]. destruct (exec E c o s) as [s1|e]; [|reflexivity]. cbn [bind]. apply IH.
Qed.
Lemma vrun_const E c os s : vrun (map (fun o => (E, c, o)) os) s = run E c os s.
Proof. revert s. induction os as [|o os IH]; intros s; [reflexivity|]. cbn [map vrun run]. destruct (exec E c o s); [|reflexivity]. apply IH. Qed.

Lemma v_dist vs : forall s s', every (fun E _ o => murty_ok (v_murty E) /\ rsorts (v_argsort E) /\ never_fails E [o]) vs -> vrun vs s = Ok s' ->
  (g_hyps s <> [] -> prob_dist (g_hyps s)) -> g_hyps s' <> [] -> prob_dist (g_hyps s').
Proof.
  induction vs as [|[[E c] o] vs IH]; intros s s' Hv H HI; cbn [vrun] in H; [inversion H; subst; exact HI|].
  apply bind_ok in H as [s1 [H1 H]]. destruct (every_hd _ _ _ _ _ Hv) as [Hm [Hs Hn]]. apply (IH s1 s' (every_tl _ _ _ Hv) H). exact (exec_dist E c o s s1 Hm Hs Hn H1 HI).
Qed.
Lemma v_hinv vs : forall s s', graphs_ok vs -> vrun vs s = Ok s' -> HInv (fun _ _ => True) (g_tab s) (g_hyps s) -> HInv (fun _ _ => True) (g_tab s') (g_hyps s').
Proof.
  induction vs as [|[[E c] o] vs IH]; intros s s' Hv H HI; cbn [vrun] in H; [inversion H; subst; exact HI|].
  apply bind_ok in H as [s1 [H1 H]]. destruct (every_hd _ _ _ _ _ Hv) as [Hk Hm]. apply (IH s1 s' (every_tl _ _ _ Hv) H). exact (hinv_exec E c o s s1 Hk Hm H1 HI).
Qed.
Lemma v_linv vs : forall s s' used, graphs_ok vs -> vrun vs s = Ok s' -> NoDup (birth_times vs) -> (forall z, In z used -> ~ In z (birth_times vs)) ->
  LInv used s -> NoDup (map x_label (g_ext s)) -> (exists used', LInv used' s') /\ NoDup (map x_label (g_ext s')).
Proof.
  induction vs as [|[[E c] o] vs IH]; intros s s' used Hv H Hnd Hdis HI HX; cbn [vrun] in H; [inversion H; subst; eauto|].
  apply bind_ok in H as [s1 [H1 H]]. destruct (every_hd _ _ _ _ _ Hv) as [Hk Hm].
  assert (Hnew : forall t, o = OpPredict t -> ~ In (v_rnd E t) used) by (intros t -> Hi; apply (Hdis _ Hi); cbn; left; reflexivity).
  apply (IH s1 s' (match o with OpPredict t => v_rnd E t :: used | _ => used end) (every_tl _ _ _ Hv) H).
  - destruct o; cbn in Hnd; try exact Hnd. inversion Hnd; assumption.
  - destruct o as [t| | |]; cbn in Hdis, Hnd; try exact Hdis. intros z [<-|Hz]; [inversion Hnd; assumption|]. intros Hi. apply (Hdis z Hz). right. exact Hi.
  - exact (linv_exec E c o s s1 used Hk Hm H1 Hnew HI).
  - refine (ext_labels_run E c [o] s s1 used Hk Hm _ _ _ HI HX); [rewrite run1; exact H1| |].
    + destruct o; cbn [predict_times flat_map app map]; repeat constructor; intros [].
    + intros z Hz Hi. destruct o as [t| | |]; cbn in Hi; try contradiction. destruct Hi as [<-|[]]. exact (Hnew t eq_refl Hz).
Qed.
Lemma proto_cons (o : gop MS) os ph ph' : protocol ph (o :: os) = Some ph' -> exists p1, protocol ph [o] = Some p1 /\ protocol p1 os = Some ph'.
Proof. destruct o as [t|t m|a b d|u k]; destruct ph as [|[|[|ph]]]; cbn; intros H; try discriminate; eauto. Qed.
Lemma v_pinv vs : forall ph ph' s s', graphs_ok vs -> vrun vs s = Ok s' -> protocol ph (ops_of vs) = Some ph' -> PInv ph s -> PInv ph' s'.
Proof.
  induction vs as [|[[E c] o] vs IH]; intros ph ph' s s' Hv H Hp HI; cbn [vrun] in H; [inversion H; inversion Hp; subst; exact HI|].
  apply bind_ok in H as [s1 [H1 H]]. destruct (every_hd _ _ _ _ _ Hv) as [Hk Hm]. apply proto_cons in Hp as [p1 [Hp1 Hp]].
  apply (IH p1 ph' s1 s' (every_tl _ _ _ Hv) H Hp). refine (pinv_run E c [o] ph p1 s s1 Hk Hm _ Hp1 HI). rewrite run1. exact H1.
Qed.
Lemma v_cnt vs : forall s s', vrun vs s = Ok s' -> g_cnt s' = (g_cnt s + length (filter (fun o => match o with OpCleanup _ _ _ => true | _ => false end) (ops_of vs)))%nat.
Proof.
  induction vs as [|[[E c] o] vs IH]; intros s s' H; cbn [vrun] in H; [inversion H; cbn; lia|].
  apply bind_ok in H as [s1 [H1 H]]. rewrite (IH _ _ H). rewrite <- run1 in H1. rewrite (cnt_run E c [o] s s1 H1). cbn [ops_of map snd filter length]. destruct o; cbn [length]; unfold ops_of; lia.
Qed.
End M.
Arguments vcall : clear implicits.

(** * C124: whatever is re-assigned between the calls *)
Theorem C124_distribution : forall {FS ST CV MS} (vs : list (vcall FS ST CV MS)) s,
  every (fun E _ o => murty_ok (v_murty E) /\ rsorts (v_argsort E) /\ never_fails E [o]) vs -> vrun vs glmb_new = Ok s ->
  g_hyps s <> [] -> prob_dist (g_hyps s).
Proof. intros FS ST CV MS vs s Hv H. apply (v_dist vs _ _ Hv H). intros _. split; [intros h [<-|[]]; cbn; lra|cbn; lra]. Qed.
Print Assumptions C124_distribution.
Theorem C124_references : forall {FS ST CV MS} (vs : list (vcall FS ST CV MS)) s,
  graphs_ok vs -> vrun vs glmb_new = Ok s -> refs_ok (g_tab s) (g_hyps s).
Proof. intros FS ST CV MS vs s Hv H. eapply hinv_refs. apply (v_hinv vs _ _ Hv H). apply hinv_new. Qed.
Print Assumptions C124_references.
Theorem C124_labels : forall {FS ST CV MS} (vs : list (vcall FS ST CV MS)) s,
  graphs_ok vs -> NoDup (birth_times vs) -> vrun vs glmb_new = Ok s ->
  forall h, In h (g_hyps s) -> NoDup (map e_label (tracks (g_tab s) h)).
Proof.
  intros FS ST CV MS vs s Hv Hd H h Hh. destruct (v_linv vs _ _ [] Hv H Hd) as [[used [_ HI]] _]; [intros z []|split; [intros e []|apply hinv_new]|constructor|].
  apply pairs_nodup. exact (hinv_tracks _ _ _ _ HI Hh).
Qed.
Print Assumptions C124_labels.
Theorem C124_exclusive : forall {FS ST CV MS} (vs : list (vcall FS ST CV MS)) ph s,
  graphs_ok vs -> protocol 0 (ops_of vs) = Some ph -> vrun vs glmb_new = Ok s ->
  forall h i j e1 e2, In h (g_hyps s) -> i <> j -> nth_error (tracks (g_tab s) h) i = Some e1 -> nth_error (tracks (g_tab s) h) j = Some e2 ->
    ~ share_meas e1 e2.
Proof.
  intros FS ST CV MS vs ph s Hv Hp H h i j e1 e2 Hh Hij H1 H2.
  destruct (v_pinv vs 0 ph _ _ Hv H Hp) as [_ HI]; [split; [intros e []|apply hinv_new]|].
  exact (hinv_tracks _ _ _ _ HI Hh i j e1 e2 Hij H1 H2).
Qed.
Print Assumptions C124_exclusive.
Theorem C124_history_length : forall {FS ST CV MS} (vs : list (vcall FS ST CV MS)) s ph,
  graphs_ok vs -> protocol 0 (ops_of vs) = Some ph -> ph <> 1%nat -> vrun vs glmb_new = Ok s ->
  forall e, In e (g_tab s) -> exists n, (1 <= n)%nat /\ hist_len n e /\ (e_time e + n = g_cnt s + (if ph =? 0 then 0 else 1))%nat.
Proof.
  intros FS ST CV MS vs s ph Hv Hp Hph H e He.
  destruct (v_pinv vs 0 ph _ _ Hv H Hp) as [HL _]; [split; [intros x []|apply hinv_new]|].
  destruct (HL e He) as [n [H1 [H2 [H3 [H4 [H5 H6]]]]]]. exists n. split; [exact H1|].
  destruct (ph =? 1)%nat eqn:E1; [apply Nat.eqb_eq in E1; contradiction|]. split; [repeat split; assumption|].
  destruct (ph =? 0)%nat; lia.
Qed.
Print Assumptions C124_history_length.
(** Output lists of an extraction: one list per completed step, aligned, no label twice. *)
Theorem C124_outputs_aligned : forall {FS ST CV MS} (vs : list (vcall FS ST CV MS)) s c u k o s',
  graphs_ok vs -> NoDup (birth_times vs) -> vrun vs glmb_new = Ok s -> extract_states c u k s = Ok (o, s') ->
  let n := length (filter (fun o => match o with OpCleanup _ _ _ => true | _ => false end) (ops_of vs)) in
  length (g_states s') = n /\ length (g_labels s') = n /\ length (g_covs s') = n /\
  forall tt, length (nth tt (g_states s') []) = length (nth tt (g_labels s') []) /\
             length (nth tt (g_covs s') []) = length (nth tt (g_labels s') []) /\ NoDup (nth tt (g_labels s') []).
Proof.
  intros FS ST CV MS vs s c u k o s' Hv Hd H Hx n.
  assert (Hn : g_cnt s = n) by (rewrite (v_cnt vs _ _ H); reflexivity).
  destruct (v_linv vs _ _ [] Hv H Hd) as [[used [_ HI]] HX]; [intros z []|split; [intros e []|apply hinv_new]|constructor|].
  assert (Hlab : NoDup (map x_label (g_ext s'))) by (eapply ext_labels_extract; [exact Hx|exact HI|exact HX]).
  rewrite <- Hn. exact (extract_aligned c u k s o s' Hx Hlab).
Qed.
Print Assumptions C124_outputs_aligned.

(** One scan (predict, correct, cleanup) with the attribute values of that scan. *)
Definition vscan {FS ST CV MS} (x : genv FS ST CV MS * gcfg ST CV * (R * list MS * (bool * bool * bool))) : list (vcall FS ST CV MS) :=
  let '(E, c, sc) := x in map (fun o => (E, c, o)) (cycle sc).
Definition scan_ok {FS ST CV MS} (x : genv FS ST CV MS * gcfg ST CV * (R * list MS * (bool * bool * bool))) : Prop :=
  let '(E, c, _) := x in cfg_ok c /\ births_ok c /\ kshort_total (v_kshort E) /\ murty_total (v_murty E) /\ kshort_ok (v_kshort E) /\
     murty_ok (v_murty E) /\ v_lse0 E = Ok tt /\ rsorts (v_argsort E).
(** Covariances recorded at the later scan only if at the earlier one. *)
Definition not_switched_on {FS ST CV MS} (x y : genv FS ST CV MS * gcfg ST CV * (R * list MS * (bool * bool * bool))) : Prop :=
  c_savecov (snd (fst y)) = true -> c_savecov (snd (fst x)) = true.
Lemma rinv_cfg {FS ST CV MS} c c' (s : glmb FS ST CV MS) : (c_savecov c' = true -> c_savecov c = true) -> RInv c s -> RInv c' s.
Proof.
  intros Hc [[HP [HS HX]] Hp]. split; [split; [exact HP|split; [|exact HX]]|exact Hp]. intros e He. destruct (HS e He) as [m [M1 [M2 [M3 [M4 M5]]]]].
  exists m. repeat (split; [assumption|]). intros Hs. apply M5, Hc, Hs.
Qed.
(** With admissible parameters at every scan no scan raises - if recording of
    covariances is not switched on on the way. *)
Theorem C124_cycle_total : forall {FS ST CV MS} (xs : list (genv FS ST CV MS * gcfg ST CV * (R * list MS * (bool * bool * bool)))),
  Forall scan_ok xs -> ForallOrdPairs not_switched_on xs -> exists s', vrun (flat_map vscan xs) glmb_new = Ok s'.
Proof.
  intros FS ST CV MS xs.
  assert (G : forall xs (s : glmb FS ST CV MS), Forall scan_ok xs -> ForallOrdPairs not_switched_on xs -> (forall x, In x xs -> RInv (snd (fst x)) s) ->
    exists s', vrun (flat_map vscan xs) s = Ok s').
  { clear xs. induction xs as [|[[E c] sc] xs IH]; intros s Hx Ho HR; [eexists; reflexivity|]. cbn [flat_map]. rewrite vrun_app. cbn [vscan]. rewrite vrun_const.
    inversion Hx as [|? ? Hsc Hx']; subst. destruct Hsc as [H1 [H2 [H3 [H4 [H5 [H6 [H7 H8]]]]]]]. inversion Ho as [|? ? Ho1 Ho2]; subst.
    destruct (cycle_total E c sc s H1 H2 H3 H4 H5 H6 H7 H8 (HR _ (or_introl eq_refl))) as [s1 [E1 HR2]]. rewrite E1. cbn [bind].
    apply (IH s1 Hx' Ho2). intros x Hi. rewrite Forall_forall in Ho1. exact (rinv_cfg c _ s1 (Ho1 x Hi) HR2). }
  intros Hx Ho. apply (G xs glmb_new Hx Ho). intros x _. split; [apply cinv_new|]. intros h [<-|[]]. cbn. lra.
Qed.
Print Assumptions C124_cycle_total.
(** The hypotheses hold together: two scans, the survival probability and the
    birth probability of the terms changed in between. *)
Example C124_ex : exists s, let vs := flat_map vscan [(d_env false, d_cfg (9 / 10), (0, [tt], (true, true, true))); (d_env false, d_cfg (1 / 3), (1, [tt; tt], (true, true, true)))] in
  graphs_ok vs /\ every (fun E _ o => murty_ok (v_murty E) /\ rsorts (v_argsort E) /\ never_fails E [o]) vs /\ NoDup (birth_times vs) /\
  protocol 0 (ops_of vs) = Some 0%nat /\ vrun vs glmb_new = Ok s.
Proof.
  destruct (C124_cycle_total (FS := unit) (ST := unit) (CV := unit) [(d_env false, d_cfg (9 / 10), (0, [tt], (true, true, true))); (d_env false, d_cfg (1 / 3), (1, [tt; tt], (true, true, true)))]) as [s Hs].
  { constructor; [|constructor; [|constructor]]; (split; [apply d_cfg_ok; lra|]); (split; [apply d_births|]); (split; [exact d_kshort_total|]); (split; [exact d_murty_total|]);
      (split; [exact d_kshort_ok|]); (split; [exact d_murty_ok|]); (split; [reflexivity|exact CphdProps.C44_ex]). }
  { constructor; [constructor; [intros H; exact H|constructor]|]. constructor; [constructor|constructor]. }
  exists s. intros vs. assert (HE : forall E c o, In (E, c, o) vs -> E = d_env false).
  { intros E c o Hi. unfold vs in Hi. cbn in Hi. repeat (destruct Hi as [Hi|Hi]; [injection Hi; congruence|]). destruct Hi. }
  split; [intros E c o Hi; rewrite (HE E c o Hi); split; [exact d_kshort_ok|exact d_murty_ok]|].
  split; [intros E c o Hi; rewrite (HE E c o Hi); split; [exact d_murty_ok|split; [exact CphdProps.C44_ex|apply d_never_fails]]|].
  split; [|split; [reflexivity|exact Hs]]. destruct glmb_hypotheses_ex as [? [_ [_ [_ [_ [_ [_ [_ [_ [_ [Hnd _]]]]]]]]]]]. exact Hnd.
Qed.

(** * C125: switching on the recording of covariances *)
Definition with_cov (c : gcfg unit unit) : gcfg unit unit :=
  {| c_births := c_births c; c_ps := c_ps c; c_pd := c_pd c; c_crate := c_crate c; c_cden := c_cden c; c_reqb := c_reqb c; c_reqs := c_reqs c; c_requ := c_requ c;
     c_prune := c_prune c; c_maxh := c_maxh c; c_savecov := true; c_savemeas := c_savemeas c |}.
Theorem C125_save_covs_switched_on_refuted : exists (E : genv unit unit unit unit) c s,
  cfg_ok c /\ births_ok c /\ kshort_ok (v_kshort E) /\ murty_ok (v_murty E) /\
  run E c (cycle (0, [], (false, false, false))) glmb_new = Ok s /\
  (exists i s', extract_states c true true s = Ok (Some i, s')) /\
  extract_states (with_cov c) true true s = Err IndexErr.
Proof.
  exists (d_env false), (d_cfg (9 / 10)). eexists. split; [apply d_cfg_ok; lra|]. split; [apply d_births|]. split; [exact d_kshort_ok|]. split; [exact d_murty_ok|].
  assert (Hc : correct (d_env false) (d_cfg (9 / 10)) 0 [] wS1 = Ok {| g_tab := [add_assoc None (b_ent 0 0)]; g_hyps := one [0%nat]; g_card := calc_card (one [0%nat]);
     g_cnt := 0; g_meas := []; g_ext := []; g_states := []; g_labels := []; g_covs := [] |}).
  { unfold correct. rewrite (surjective_pairing (gen_cor_tab (d_env false) (d_cfg (9 / 10)) 0 [] (g_tab wS1))). unfold gen_cor_hyps. cbn [length].
    cbn [wS1 g_hyps g_tab one mapM map]. unfold miss_hyp. cbn [h_ts h_p forallb length Nat.ltb Nat.leb andb negb mapM]. cbn [d_cfg c_pd]. rewrite lnp_ok by lra. cbn [bind].
    rewrite lnp_ok by lra. cbn [bind]. rewrite norm1. reflexivity. }
  split.
  - change (cycle (0, [], (false, false, false))) with ([OpPredict 0] ++ [OpCorrect (MS := unit) 0 []; OpCleanup false false false]). rewrite run_app, w_predict by lra. cbn [bind run exec].
    rewrite Hc. cbn [bind]. reflexivity.
  - set (s := bump _). assert (Hcard : argmaxR (g_card s) = Ok 1%nat).
    { cbn. destruct (Rlt_dec _ _) as [?|Hn]; [reflexivity|exfalso; apply Hn; lra]. }
    assert (Hm : map_index s = Ok 0%nat) by (unfold map_index; rewrite Hcard; reflexivity).
    split.
    + exists 0%nat. unfold extract_states. rewrite Hcard. cbn [bind]. change (g_hyps s) with (one [0%nat]). rewrite Hm. cbn [bind]. unfold one. eexists. reflexivity.
    + unfold extract_states. rewrite Hcard. cbn [bind]. change (g_hyps s) with (one [0%nat]). rewrite Hm. cbn [bind]. unfold one. reflexivity.
Qed.
Print Assumptions C125_save_covs_switched_on_refuted.
