(** C209: the coordinate frame does not matter to the SMC joint GLMB filter. *)
From Verif Require Import Base Lists.
From Coq Require Import Reals Permutation Lra Lia FunctionalExtensionality.
From Verif Require Import OspaModel CphdModel OspaProofs CphdSpec CphdProofs GlmbModel GlmbSpec GlmbProofs SmcModel JglmbModel SmcJModel GlmbFrame JglmbFrame SmcFrame.
Open Scope R_scope.

(** ** Specification: one call of a history and the same call in the other frame (the
    particle filter, the attributes and the birth terms may differ from call to call). *)
Section Spec.
Context {P X ST CV MS P' X' ST' CV' MS' : Type}.
Variables (fP : P -> P') (fX : X -> X') (fS : ST -> ST') (fC : CV -> CV') (fM : MS -> MS').
Definition moved_call (v : sjcall P X ST CV MS) (v' : sjcall P' X' ST' CV' MS') : Prop :=
  let '(Z, c, bs, o) := v in let '(Z', c', bs', o') := v' in
  same_senv fP fX fS fC fM Z Z' /\ c' = moved_cfg fS fC c /\ bs' = map (moved_sbirth fP fX fS fC) bs /\ moved_sop fP fM o o'.
End Spec.

(** ** Proofs *)
Section Frame.
Context {P X ST CV MS P' X' ST' CV' MS' : Type}.
Variables (fP : P -> P') (fX : X -> X') (fS : ST -> ST') (fC : CV -> CV') (fM : MS -> MS').
Variable G : nat -> nat -> nat -> (nat -> nat -> R) -> nat -> result (list (list nat) * list R).
Notation fF := (moved_pf fP fX).
Notation mc := (moved_cfg fS fC).
Notation mb := (moved_sbirth fP fX fS fC).
Notation me := (moved_entry fF fS fC).
Notation mg := (moved_glmb fF fS fC fM).
Notation mj := (moved_jst fF fS fC fM).
Section One.
Variables (Z : senv P X ST CV MS) (Z' : senv P' X' ST' CV' MS').
Hypothesis SZ : same_senv fP fX fS fC fM Z Z'.
Implicit Types (c : gcfg ST CV) (s : jst (pfs P X) ST CV MS).
Lemma sjcfg_births c bs : c_births (sjcfg (mc c) (map mb bs)) = map (fun b => ({| b_m := []; b_c := []; b_w := [] |}, snd b)) (c_births (sjcfg c bs)).
Proof. cbn [sjcfg c_births]. rewrite !map_map. apply map_ext. intros b. cbn [snd]. rewrite bprob_moved. reflexivity. Qed.
Lemma savg_moved c bs i : avg_surv (sjcfg (mc c) (map mb bs)) i = avg_surv (sjcfg c bs) i.
Proof. unfold avg_surv. rewrite sjcfg_births, map_map. reflexivity. Qed.
Lemma stind_moved c bs h : tindices (sjcfg (mc c) (map mb bs)) h = tindices (sjcfg c bs) h.
Proof. unfold tindices. rewrite sjcfg_births, map_length. reflexivity. Qed.
Lemma sjoint_moved c bs k n ac i col : joint_cost (sjcfg (mc c) (map mb bs)) k n ac i col = joint_cost (sjcfg c bs) k n ac i col.
Proof. unfold joint_cost. rewrite savg_moved. reflexivity. Qed.
Lemma sjcor_hyp_moved c bs k n m ac ss call h : jcor_hyp G (sjcfg (mc c) (map mb bs)) k n m ac ss call h = jcor_hyp G (sjcfg c bs) k n m ac ss call h.
Proof.
  unfold jcor_hyp. rewrite stind_moved. cbv zeta. destruct (negb _); [reflexivity|].
  match goal with |- bind (G _ _ _ ?f _) _ = bind (G _ _ _ ?g _) _ => replace f with g; [reflexivity|] end.
  apply functional_extensionality. intros r. apply functional_extensionality. intros j. rewrite sjoint_moved. reflexivity.
Qed.
Lemma sjcor_hyps_moved c bs k n m ac call hs : jcor_hyps (z_g Z') G (sjcfg (mc c) (map mb bs)) k n m ac call hs = jcor_hyps (z_g Z) G (sjcfg c bs) k n m ac call hs.
Proof.
  unfold jcor_hyps. cbv zeta. set (ss := rsum _).
  assert (X0 : forall l, mapM (fun ch => jcor_hyp G (sjcfg (mc c) (map mb bs)) k n m ac ss (fst ch) (snd ch)) l = mapM (fun ch => jcor_hyp G (sjcfg c bs) k n m ac ss (fst ch) (snd ch)) l).
  { induction l as [|x l IH]; [reflexivity|]. cbn [mapM]. rewrite sjcor_hyp_moved, IH. reflexivity. }
  rewrite X0. destruct (mapM _ _); [|reflexivity]. cbn [bind]. apply (snorm_eq fP fX fS fC fM Z Z' SZ).
Qed.
Lemma sjpredict_moved f f' c bs t s : (forall l, f' (map fP l) = f l) -> sjpredict Z' f' (mc c) (map mb bs) t (mj s) = rmap mj (sjpredict Z f c bs t s).
Proof.
  intros H. unfold sjpredict. rewrite (mapM_births fP fX fS fC (fun q => if Req_EM_T q 1 then Err ValueErr else Ok tt)). apply bind_same. intros _.
  cbn [moved_jst y_g y_old y_calls]. cbn [moved_glmb g_tab g_hyps g_card g_cnt g_meas g_ext g_states g_labels g_covs].
  rewrite (mapM_rmap me me (spred_entry Z f c t)) by (intros e; apply (pred_entry_moved fP fX fS fC fM Z Z' SZ), H). apply bind_rmap. intros stab. cbn [rmap].
  rewrite (birth_tab_moved' fP fX fS fC fM Z Z' SZ), <- map_app. reflexivity.
Qed.
Lemma sjcorrect_moved ga f f' c bs t meas s : (forall l, f' (map fP l) = f l) ->
  sjcorrect G Z' ga f' (mc c) (map mb bs) t (map fM meas) (mj s) = rmap mj (sjcorrect G Z ga f c bs t meas s).
Proof.
  intros H. unfold sjcorrect. cbn [moved_jst y_g y_old y_calls]. cbn [moved_glmb g_tab g_hyps g_card g_cnt g_meas g_ext g_states g_labels g_covs]. cbv zeta.
  rewrite (cor_rows_moved fP fX fS fC fM Z Z' SZ f f' c t meas _ H). apply bind_rmap. intros rows. rewrite !map_length.
  destruct (negb _); [reflexivity|]. destruct (ga && _)%bool; [reflexivity|].
  replace (scor_cost (map (map (option_map (fun r : GlmbModel.entry (pfs P X) ST CV * R => (me (fst r), snd r)))) rows)) with (scor_cost rows)
    by (apply functional_extensionality; intros i; apply functional_extensionality; intros j; symmetry; apply (cor_cost_moved' fP fX fS fC)).
  rewrite sjcor_hyps_moved. apply bind_same. intros hs.
  replace (clean_predictions (z_g Z') hs) with (clean_predictions (z_g Z) hs) by (unfold clean_predictions; rewrite (ss_hash _ _ _ _ _ _ _ SZ); reflexivity).
  rewrite (cor_tab_moved' fP fX fS fC), clean_moved. destruct (clean_updates (scor_tab rows (g_tab (y_g s))) _) as [u v]. cbn [fst snd rmap].
  unfold moved_jst, moved_glmb. cbn [y_g y_old y_calls g_tab g_hyps g_card g_cnt g_meas g_ext g_states g_labels g_covs].
  rewrite !map_length, map_app. reflexivity.
Qed.
Lemma scleanup_moved c a b d (g : glmb (pfs P X) ST CV MS) : cleanup (z_g Z') (mc c) a b d (mg g) = rmap mg (cleanup (z_g Z) c a b d g).
Proof. exact (sexec_moved fP fX fS fC fM Z Z' SZ c [] (SCleanup a b d) (SCleanup a b d) g (ms_cleanup _ _ a b d)). Qed.
Lemma sjexec_moved ga c bs o o' s : moved_sop fP fM o o' -> sjexec G Z' ga (mc c) (map mb bs) o' (mj s) = rmap mj (sjexec G Z ga c bs o s).
Proof.
  intros [f f' t H|f f' t meas H|a b d|u k]; cbn [sjexec].
  - apply sjpredict_moved, H.
  - apply sjcorrect_moved, H.
  - change (y_g (mj s)) with (mg (y_g s)). rewrite scleanup_moved. apply bind_rmap. intros g. reflexivity.
  - change (y_g (mj s)) with (mg (y_g s)). rewrite extract_moved. apply bind_rmap. intros [oi g]. reflexivity.
Qed.
End One.
Lemma sjrun_moved ga vs vs' : Forall2 (moved_call fP fX fS fC fM) vs vs' -> forall s, sjrun G ga vs' (mj s) = rmap mj (sjrun G ga vs s).
Proof.
  induction 1 as [|[[[Z c] bs] o] [[[Z' c'] bs'] o'] vs vs' Ho H IH]; intros s; [reflexivity|]. destruct Ho as [SZ [-> [-> Ho]]]. cbn [sjrun].
  rewrite (sjexec_moved Z Z' SZ ga c bs o o' s Ho). apply bind_rmap. intros s'. apply IH.
Qed.
End Frame.

(** C209: any history of calls, each rewritten into the other frame, gives exactly the
    rewritten filter, or the same exception. *)
Theorem C209_smc_jglmb_frame : forall {P X ST CV MS P' X' ST' CV' MS' : Type} (fP : P -> P') (fX : X -> X') (fS : ST -> ST') (fC : CV -> CV') (fM : MS -> MS')
    G gating (vs : list (sjcall P X ST CV MS)) (vs' : list (sjcall P' X' ST' CV' MS')),
  Forall2 (moved_call fP fX fS fC fM) vs vs' ->
  sjrun G gating vs' jst_new = rmap (moved_jst (moved_pf fP fX) fS fC fM) (sjrun G gating vs jst_new).
Proof. intros P X ST CV MS P' X' ST' CV' MS' fP fX fS fC fM G gating vs vs' H. exact (sjrun_moved fP fX fS fC fM G gating vs vs' H jst_new). Qed.
Print Assumptions C209_smc_jglmb_frame.

(** The hypothesis is met: the particles of C208_instance, in units [k] times smaller;
    one birth with two particles is predicted, and what comes out is the scaled table. *)
Definition parts_birth : pfs R unit * R * R * R := ({| p_parts := [0; 2]; p_w := [1 / 2; 1 / 2]; p_rest := tt |}, 1, 1, 9 / 10).
Definition parts_cfg : gcfg R R :=
  {| c_births := []; c_ps := 1 / 2; c_pd := 9 / 10; c_crate := 1; c_cden := 1; c_reqb := 1; c_reqs := 1; c_requ := 1;
     c_prune := 0; c_maxh := 10; c_savecov := true; c_savemeas := false |}.
Example C209_instance : forall G k, 0 < k ->
  let vs := [(parts_env 1, parts_cfg, [parts_birth], SPredict (parts_psf 1) 0)] in
  let vs' := [(parts_env k, parts_cfg, [moved_sbirth (fun x => k * x) (fun u => u) (fun x => k * x) (fun p => k * k * p) parts_birth], SPredict (parts_psf k) 0)] in
  Forall2 (moved_call (fun x => k * x) (fun u => u) (fun x => k * x) (fun p => k * k * p) (fun z => k * z)) vs vs' /\
  exists s s', sjrun G false vs jst_new = Ok s /\ sjrun G false vs' jst_new = Ok s' /\
    map (fun e => map p_parts (e_fs e)) (g_tab (y_g s)) = [[[0; 2]]] /\ map (fun e => map p_parts (e_fs e)) (g_tab (y_g s')) = [[[k * 0; k * 2]]].
Proof.
  intros G k Hk vs vs'. destruct (C208_instance k Hk) as [SZ Ho].
  assert (F : Forall2 (moved_call (fun x => k * x) (fun u => u) (fun x => k * x) (fun p => k * k * p) (fun z => k * z)) vs vs').
  { constructor; [|constructor]. split; [exact SZ|]. split; [reflexivity|]. split; [reflexivity|]. constructor. intros l. unfold parts_psf. rewrite map_map. apply map_ext. intros x. destruct (Rlt_dec (k * x) k) as [A|A], (Rlt_dec x 1) as [B|B]; try reflexivity; exfalso; nra. }
  split; [exact F|].
  assert (H : exists s, sjrun G false vs jst_new = Ok s /\ map (fun e => map p_parts (e_fs e)) (g_tab (y_g s)) = [[[0; 2]]]).
  { unfold vs. cbn [sjrun sjexec]. unfold sjpredict. cbn [mapM bprob parts_birth snd]. destruct (Req_EM_T (9 / 10) 1) as [A|_]; [lra|]. eexists. split; reflexivity. }
  destruct H as [s [H1 H2]]. exists s. pose proof (C209_smc_jglmb_frame _ _ _ _ _ G false vs vs' F) as K. rewrite H1 in K. cbn [rmap] in K.
  eexists. split; [exact H1|]. split; [exact K|]. split; [exact H2|].
  change (map (fun e => map p_parts (e_fs e)) (map (moved_entry (moved_pf (fun x => k * x) (fun u => u)) (fun x => k * x) (fun p => k * k * p)) (g_tab (y_g s))) = [[[k * 0; k * 2]]]).
  rewrite map_map. rewrite (map_ext _ (fun e => map (map (fun x => k * x)) (map p_parts (e_fs e)))) by (intros e; cbn [moved_entry e_fs]; rewrite !map_map; reflexivity).
  rewrite <- (map_map (fun e => map p_parts (e_fs e)) (map (map (fun x => k * x)))), H2. reflexivity.
Qed.
