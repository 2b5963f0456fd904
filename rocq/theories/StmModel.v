(** Student's-t mixture GLMB: what the class changes in the GLMB filter
    (tracker.py:3188-3244). *)
From Verif Require Import Base Lists.
From Coq Require Import Reals Permutation Lra.
From Verif Require Import OspaModel CphdModel OspaProofs CphdSpec GlmbModel GlmbSpec GlmbProofs GlmbInv GlmbProps4 GlmbVary GlmbDemo.
Open Scope R_scope.

Section M.
Context {FS ST SC CV MS : Type}.
(** StudentsTMixture, distributions.py:77-107: means, scalings, weights, dof.
    Lists of equal length are assumed where it matters ([b_c] below has one entry
    per scaling; tracker.py:3193-3206 would leave [None]s). *)
Record tdist := { t_m : list ST; t_s : list SC; t_w : list R; t_dof : R }.
(** The inner Student's-t filter and the rest of the surroundings: [u_save dof scale]
    is the state saved by the base filter after dof and scale were assigned
    (tracker.py:3198-3201), [u_cov dof scale] the covariance a filter with these
    values has (used by the specification only). *)
Record tenv := { u_rnd : R -> Z; u_save : R -> SC -> FS; u_none : FS; u_pred : R -> FS -> ST -> FS * ST * CV;
  u_corr : R -> MS -> FS -> ST -> option (FS * ST * CV * R);
  u_kshort : list R -> nat -> result (list (list nat) * list R);
  u_murty : nat -> nat -> (nat -> nat -> R) -> nat -> result (list (list nat) * list R);
  u_lse0 : result unit; u_hash : list nat -> Z; u_argsort : list R -> list nat; u_cov : R -> SC -> CV }.
Record tcfg := { tc_births : list (tdist * R); tc_ps : R; tc_pd : R; tc_crate : R; tc_cden : R; tc_reqb : nat; tc_reqs : nat; tc_requ : nat;
  tc_prune : R; tc_maxh : nat; tc_savecov : bool; tc_savemeas : bool }.
(** A recorded covariance is paired with a ghost: the birth component (dof, scaling)
    it belongs to, [None] for covariances recorded later. *)
Definition gcv : Type := CV * option (R * SC).
(** [_init_filt_states], tracker.py:3192-3206: the filter state of a component
    comes from the base filter with the term's dof and the component's scaling; the
    recorded covariance is [self.filter.cov] - of the working filter, whose value [w]
    at that moment is an input of the call.  With save_covs off the code records a
    list of [None]s (3195) where the model, like the GLMB filter, records the empty
    list; only a filter whose save_covs is switched on later could tell. *)
Definition tbirth (w : CV) (d : tdist) : bdist ST gcv := {| b_m := t_m d; b_c := map (fun sc => (w, Some (t_dof d, sc))) (t_s d); b_w := t_w d |}.
Definition tgenv (U : tenv) : genv FS ST gcv MS :=
  {| v_rnd := u_rnd U; v_init := fun _ cv => match snd cv with Some (dof, sc) => u_save U dof sc | None => u_none U end;
     v_pred := fun t f x => let '(f', x', cv) := u_pred U t f x in (f', x', (cv, None));
     v_corr := fun t z f x => match u_corr U t z f x with Some (f', x', cv, l) => Some (f', x', (cv, None), l) | None => None end;
     v_kshort := u_kshort U; v_murty := u_murty U; v_lse0 := u_lse0 U; v_hash := u_hash U; v_argsort := u_argsort U |}.
Definition tgcfg (w : CV) (c : tcfg) : gcfg ST gcv :=
  {| c_births := map (fun dp => (tbirth w (fst dp), snd dp)) (tc_births c); c_ps := tc_ps c; c_pd := tc_pd c; c_crate := tc_crate c; c_cden := tc_cden c;
     c_reqb := tc_reqb c; c_reqs := tc_reqs c; c_requ := tc_requ c; c_prune := tc_prune c; c_maxh := tc_maxh c; c_savecov := tc_savecov c; c_savemeas := tc_savemeas c |}.
(** A call of predict, correct, cleanup or extract_states (inherited, tracker.py:2210-2749)
    with the current attributes and the working filter's covariance at that moment. *)
Definition tcall : Type := tenv * tcfg * CV * gop MS.
Definition tvcall (v : tcall) : vcall FS ST gcv MS := let '(U, c, w, o) := v in (tgenv U, tgcfg w c, o).
Definition trun (vs : list tcall) (s : glmb FS ST gcv MS) : result (glmb FS ST gcv MS) := vrun (map tvcall vs) s.
Definition tpredict (U : tenv) (c : tcfg) (w : CV) (t : R) (s : glmb FS ST gcv MS) : result (glmb FS ST gcv MS) := predict (tgenv U) (tgcfg w c) t s.
Lemma trun_predict U c w t s : trun [(U, c, w, OpPredict t)] s = tpredict U c w t s.
Proof. unfold trun, tpredict. cbn [map tvcall vrun exec]. destruct (predict _ _ _ _); reflexivity. Qed.
Definition tevery (P : tenv -> gop MS -> Prop) (vs : list tcall) : Prop := forall U c w o, In (U, c, w, o) vs -> P U o.
Definition tops (vs : list tcall) : list (gop MS) := map snd vs.
Definition ttimes (vs : list tcall) : list Z := flat_map (fun v => match snd v with OpPredict t => [u_rnd (fst (fst (fst v))) t] | _ => [] end) vs.
Lemma tops_of vs : ops_of (map tvcall vs) = tops vs.
Proof. unfold ops_of, tops. rewrite map_map. apply map_ext. intros [[[U c] w] o]. reflexivity. Qed.
Lemma ttimes_of vs : birth_times (map tvcall vs) = ttimes vs.
Proof. unfold birth_times, ttimes. induction vs as [|[[[U c] w] o] vs IH]; [reflexivity|]. cbn [map flat_map]. rewrite IH. reflexivity. Qed.
Lemma tev (P : genv FS ST gcv MS -> gcfg ST gcv -> gop MS -> Prop) vs : (forall U c w o, In (U, c, w, o) vs -> P (tgenv U) (tgcfg w c) o) -> every P (map tvcall vs).
Proof. intros H E c o Hi. apply in_map_iff in Hi as [[[[U c'] w] o'] [Ei Hi]]. injection Ei as <- <- <-. apply H, Hi. Qed.
(** The inner filter does not raise one of the caught exceptions on the scan. *)
Definition tnever_fails (U : tenv) (o : gop MS) : Prop := forall t meas, o = OpCorrect t meas -> forall z f x, In z meas -> u_corr U t z f x <> None.
End M.
Arguments tcall : clear implicits.
Arguments tenv : clear implicits.
Arguments tcfg : clear implicits.
Arguments tdist : clear implicits.
Arguments gcv : clear implicits.

(** * C126: the guarantees of the GLMB filter hold for the Student's-t filter *)
Theorem C126_stm_distribution : forall {FS ST SC CV MS} (vs : list (tcall FS ST SC CV MS)) s,
  tevery (fun U o => murty_ok (u_murty U) /\ rsorts (u_argsort U) /\ tnever_fails U o) vs -> trun vs glmb_new = Ok s ->
  g_hyps s <> [] -> prob_dist (g_hyps s).
Proof.
  intros FS ST SC CV MS vs s Hv H. apply (C124_distribution (map tvcall vs) s); [|exact H]. apply tev. intros U c w o Hi. destruct (Hv U c w o Hi) as [H1 [H2 H3]].
  split; [exact H1|]. split; [exact H2|]. intros t meas [->|[]] z f x Hz. cbn [tgenv v_corr]. pose proof (H3 t meas eq_refl z f x Hz) as H4. destruct (u_corr U t z f x) as [[[[? ?] ?] ?]|]; [discriminate|contradiction].
Qed.
Print Assumptions C126_stm_distribution.
Theorem C126_stm_tracks : forall {FS ST SC CV MS} (vs : list (tcall FS ST SC CV MS)) s,
  tevery (fun U _ => kshort_ok (u_kshort U) /\ murty_ok (u_murty U)) vs -> trun vs glmb_new = Ok s ->
  refs_ok (g_tab s) (g_hyps s) /\
  (NoDup (ttimes vs) -> forall h, In h (g_hyps s) -> NoDup (map e_label (tracks (g_tab s) h))) /\
  (forall ph, protocol 0 (tops vs) = Some ph -> forall h i j e1 e2, In h (g_hyps s) -> i <> j ->
     nth_error (tracks (g_tab s) h) i = Some e1 -> nth_error (tracks (g_tab s) h) j = Some e2 -> ~ share_meas e1 e2).
Proof.
  intros FS ST SC CV MS vs s Hv H. assert (Hg : graphs_ok (map tvcall vs)) by (apply tev; intros U c w o Hi; exact (Hv U c w o Hi)).
  split; [exact (C124_references _ _ Hg H)|]. split.
  - intros Hd. apply (C124_labels (map tvcall vs) s Hg); [rewrite ttimes_of; exact Hd|exact H].
  - intros ph Hp. apply (C124_exclusive (map tvcall vs) ph s Hg); [rewrite tops_of; exact Hp|exact H].
Qed.
Print Assumptions C126_stm_tracks.
Theorem C126_stm_outputs : forall {FS ST SC CV MS} (vs : list (tcall FS ST SC CV MS)) s c u k o s',
  tevery (fun U _ => kshort_ok (u_kshort U) /\ murty_ok (u_murty U)) vs -> NoDup (ttimes vs) -> trun vs glmb_new = Ok s ->
  extract_states c u k s = Ok (o, s') ->
  let n := length (filter (fun o => match o with OpCleanup _ _ _ => true | _ => false end) (tops vs)) in
  length (g_states s') = n /\ length (g_labels s') = n /\ length (g_covs s') = n /\
  forall tt, length (nth tt (g_states s') []) = length (nth tt (g_labels s') []) /\
             length (nth tt (g_covs s') []) = length (nth tt (g_labels s') []) /\ NoDup (nth tt (g_labels s') []).
Proof.
  intros FS ST SC CV MS vs s c u k o s' Hv Hd H Hx. assert (Hg : graphs_ok (map tvcall vs)) by (apply tev; intros U c0 w o0 Hi; exact (Hv U c0 w o0 Hi)).
  rewrite <- tops_of. apply (C124_outputs_aligned (map tvcall vs) s c u k o s' Hg); [rewrite ttimes_of; exact Hd|exact H|exact Hx].
Qed.
Print Assumptions C126_stm_outputs.

(** * C127: recorded covariance of a new-born track *)
(** The filter state of every component of a new track is right: saved with its
    own dof and scaling. *)
Theorem C127_stm_birth_states_partial : forall {FS ST SC CV MS} (U : tenv FS ST SC CV MS) c w t s s' i d p, tpredict U c w t s = Ok s' ->
  nth_error (tc_births c) i = Some (d, p) -> length (t_s d) = length (t_m d) ->
  exists e, nth_error (g_tab s') i = Some e /\ e_label e = (u_rnd U t, i) /\ e_st e = [t_m d] /\ e_w e = [t_w d] /\ e_fs e = map (u_save U (t_dof d)) (t_s d).
Proof.
  intros FS ST SC CV MS U c w t s s' i d p H Hi Hl. destruct (C95_glmb_predicted_tracks _ _ _ _ _ H) as [_ [Hb _]].
  destruct (Hb i (tbirth w d) p) as [e [E1 [E2 [_ [_ [E3 [E4 [E5 _]]]]]]]]; [cbn [tgcfg c_births]; rewrite nth_error_map, Hi; reflexivity|].
  exists e. repeat (split; [assumption|]). rewrite E5. cbn [tbirth b_m b_c tgenv v_init]. clear -Hl. revert Hl. generalize (t_m d) as ms, (t_s d) as ss.
  intros ms. induction ms as [|m ms IH]; intros [|x ss] Hl; try discriminate; [reflexivity|]. cbn [map combine fst snd]. f_equal. apply IH. injection Hl as Hl. exact Hl.
Qed.
Print Assumptions C127_stm_birth_states_partial.
(** The recorded covariance never depends on the birth term: it is the working
    filter's, so wrong for every term whose covariance differs from it. *)
Theorem C127_stm_birth_covariance_refuted : forall {FS ST SC CV MS} (U : tenv FS ST SC CV MS) c w t s s' i d p, tpredict U c w t s = Ok s' ->
  tc_savecov c = true -> nth_error (tc_births c) i = Some (d, p) ->
  exists e l, nth_error (g_tab s') i = Some e /\ e_cov e = [l] /\
    (forall k sc, nth_error (t_s d) k = Some sc -> u_cov U (t_dof d) sc <> w ->
       exists cv, nth_error (map (option_map fst) l) k = Some (Some cv) /\ cv = w /\ cv <> u_cov U (t_dof d) sc).
Proof.
  intros FS ST SC CV MS U c w t s s' i d p H Hs Hi. destruct (C95_glmb_predicted_tracks _ _ _ _ _ H) as [_ [Hb _]].
  destruct (Hb i (tbirth w d) p) as [e [E1 [_ [_ [_ [_ [_ [_ E6]]]]]]]]; [cbn [tgcfg c_births]; rewrite nth_error_map, Hi; reflexivity|].
  cbn [tgcfg c_savecov] in E6. rewrite Hs in E6. exists e. eexists. split; [exact E1|]. split; [exact E6|]. intros k sc Hk Hne. exists w.
  split; [|split; [reflexivity|auto]]. cbn [tbirth b_c]. rewrite !map_map, nth_error_map, Hk. reflexivity.
Qed.
Print Assumptions C127_stm_birth_covariance_refuted.
(** One such run: the working filter has covariance 5, the birth term 1. *)
Definition t_env : tenv unit unit R R unit :=
  {| u_rnd := fun t => Int_part t; u_save := fun _ _ => tt; u_none := tt; u_pred := fun _ _ _ => (tt, tt, 1); u_corr := fun _ _ _ _ => Some (tt, tt, 1, 1);
     u_kshort := d_kshort; u_murty := d_murty; u_lse0 := Ok tt; u_hash := fun l => Z.of_nat (enc l); u_argsort := CphdProps.sort_ref; u_cov := fun dof sc => dof / (dof - 2) * sc |}.
Definition t_cfg : tcfg unit R :=
  {| tc_births := [({| t_m := [tt]; t_s := [1 / 3]; t_w := [1]; t_dof := 3 |}, 9 / 10)]; tc_ps := 9 / 10; tc_pd := 9 / 10; tc_crate := 1; tc_cden := 1;
     tc_reqb := 1; tc_reqs := 1; tc_requ := 1; tc_prune := 0; tc_maxh := 10; tc_savecov := true; tc_savemeas := false |}.
Example C127_ex : exists s', tpredict t_env t_cfg 5 0 glmb_new = Ok s' /\ (exists e, nth_error (g_tab s') 0 = Some e /\ e_cov e = [[Some (5, Some (3, 1 / 3))]]) /\
  u_cov t_env 3 (1 / 3) = 1 /\ tevery (fun U o => kshort_ok (u_kshort U) /\ murty_ok (u_murty U) /\ rsorts (u_argsort U) /\ tnever_fails U o) [(t_env, t_cfg, 5, OpPredict 0)].
Proof.
  assert (H : exists s', tpredict t_env t_cfg 5 0 glmb_new = Ok s').
  { unfold tpredict. apply GlmbTotal.predict_total; [|exact d_kshort_total|exact d_kshort_ok|reflexivity| |].
    - split; [intros b p [Hb|[]]; inversion Hb; lra|]. cbn. lra.
    - intros h [<-|[]]. cbn. lra.
    - intros h i [<-|[]] []. }
  destruct H as [s' H]. exists s'. split; [exact H|]. split; [|split].
  - destruct (C95_glmb_predicted_tracks _ _ _ _ _ H) as [_ [Hb _]]. destruct (Hb 0%nat _ _ eq_refl) as [e [E1 [_ [_ [_ [_ [_ [_ E6]]]]]]]]. exists e. split; [exact E1|]. rewrite E6. reflexivity.
  - cbn. field.
  - intros U c w o [Hi|[]]. injection Hi as <- <- <- <-. split; [exact d_kshort_ok|]. split; [exact d_murty_ok|]. split; [exact CphdProps.C44_ex|]. intros t meas E0. discriminate.
Qed.
