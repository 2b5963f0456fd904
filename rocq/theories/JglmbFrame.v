(** C207: the coordinate frame does not matter to the JGLMB filter. *)
From Verif Require Import Base Lists.
From Coq Require Import Reals Permutation Lra Lia FunctionalExtensionality.
From Verif Require Import OspaModel CphdModel OspaProofs CphdSpec CphdProofs GlmbModel GlmbSpec GlmbProofs JglmbModel GlmbFrame.
Open Scope R_scope.

(** ** Specification: the embedded GLMB state rewritten (GlmbFrame), the rest the same. *)
Definition moved_jst {FS ST CV MS FS' ST' CV' MS' : Type} (fF : FS -> FS') (fS : ST -> ST') (fC : CV -> CV') (fM : MS -> MS') (s : jst FS ST CV MS) : jst FS' ST' CV' MS' :=
  {| y_g := moved_glmb fF fS fC fM (y_g s); y_old := y_old s; y_calls := y_calls s |}.

(** ** Proofs *)
Section Frame.
Context {FS ST CV MS FS' ST' CV' MS' : Type}.
Variables (fF : FS -> FS') (fS : ST -> ST') (fC : CV -> CV') (fM : MS -> MS').
Variables (E : genv FS ST CV MS) (E' : genv FS' ST' CV' MS') (G : nat -> nat -> nat -> (nat -> nat -> R) -> nat -> result (list (list nat) * list R)).
Hypothesis SE : same_env fF fS fC fM E E'.
Notation mc := (moved_cfg fS fC).
Notation me := (moved_entry fF fS fC).
Notation mg := (moved_glmb fF fS fC fM).
Notation mj := (moved_jst fF fS fC fM).
Implicit Types (c : gcfg ST CV) (s : jst FS ST CV MS).
Lemma jbirth_moved c t cnt : jbirth_tab E' (mc c) t cnt = map me (jbirth_tab E c t cnt).
Proof.
  unfold jbirth_tab. cbn [c_births moved_cfg]. rewrite map_length, map_map.
  assert (K : forall (l : list (bdist ST CV * R)) k, map (fun ib => birth_entry E' (mc c) t cnt (fst ib) (fst (snd ib))) (combine (seq k (length l)) (map (fun b => (moved_birth fS fC (fst b), snd b)) l)) =
    map (fun x => me (birth_entry E c t cnt (fst x) (fst (snd x)))) (combine (seq k (length l)) l)).
  { induction l as [|b l IH]; intros k; [reflexivity|]. cbn [length seq map combine fst snd]. rewrite (birth_moved fF fS fC fM E E' SE), IH. reflexivity. }
  apply K.
Qed.
Lemma jpredict_moved c t s : jpredict E' (mc c) t (mj s) = rmap mj (jpredict E c t s).
Proof.
  unfold jpredict. cbn [c_births moved_cfg].
  rewrite (mapM_rmap (fun b => (moved_birth fS fC (fst b), snd b)) (fun x => x) (fun b => if Req_EM_T (snd b) 1 then Err ValueErr else Ok tt)) by (intros b; cbn [snd]; destruct (Req_EM_T (snd b) 1); reflexivity).
  apply bind_rmap. intros _. cbn [rmap]. f_equal. unfold moved_jst, with_g, set_tab, moved_glmb. cbn [y_g y_old y_calls g_tab g_hyps g_card g_cnt g_meas g_ext g_states g_labels g_covs].
  f_equal. f_equal. rewrite map_app, jbirth_moved. f_equal. rewrite !map_map. apply map_ext. intros e. apply (pred_moved fF fS fC fM E E' SE).
Qed.
Lemma avg_moved c i : avg_surv (mc c) i = avg_surv c i.
Proof. unfold avg_surv. cbn [c_births c_ps moved_cfg]. rewrite map_map. reflexivity. Qed.
Lemma tind_moved c h : tindices (mc c) h = tindices c h.
Proof. unfold tindices. cbn [c_births moved_cfg]. rewrite map_length. reflexivity. Qed.
Lemma joint_moved c k n ac i col : joint_cost (mc c) k n ac i col = joint_cost c k n ac i col.
Proof. unfold joint_cost. rewrite avg_moved. reflexivity. Qed.
Lemma jcor_hyp_moved c k n m ac ss call h : jcor_hyp G (mc c) k n m ac ss call h = jcor_hyp G c k n m ac ss call h.
Proof.
  unfold jcor_hyp. rewrite tind_moved. cbv zeta. destruct (negb _); [reflexivity|].
  match goal with |- bind (G _ _ _ ?f _) _ = bind (G _ _ _ ?g _) _ => replace f with g; [reflexivity|] end.
  apply functional_extensionality. intros r. apply functional_extensionality. intros j. rewrite joint_moved. reflexivity.
Qed.
Lemma jcor_hyps_moved c k n m ac call hs : jcor_hyps E' G (mc c) k n m ac call hs = jcor_hyps E G c k n m ac call hs.
Proof.
  unfold jcor_hyps. cbv zeta. set (ss := rsum _).
  assert (X : forall l, mapM (fun ch => jcor_hyp G (mc c) k n m ac ss (fst ch) (snd ch)) l = mapM (fun ch => jcor_hyp G c k n m ac ss (fst ch) (snd ch)) l).
  { induction l as [|x l IH]; [reflexivity|]. cbn [mapM]. rewrite jcor_hyp_moved, IH. reflexivity. }
  rewrite X. destruct (mapM _ _); [|reflexivity]. cbn [bind]. apply (norm_eq fF fS fC fM E E' SE).
Qed.
Lemma jcorrect_moved ga c t meas s : jcorrect E' G ga (mc c) t (map fM meas) (mj s) = rmap mj (jcorrect E G ga c t meas s).
Proof.
  unfold jcorrect. cbn [moved_jst y_g y_old y_calls]. cbn [moved_glmb g_tab g_hyps g_card g_cnt g_meas g_ext g_states g_labels g_covs]. cbn [c_births moved_cfg]. rewrite !map_length.
  destruct (negb _); [reflexivity|]. destruct (ga && _)%bool; [reflexivity|].
  pose proof (cor_tab_moved fF fS fC fM E E' SE c t meas (g_tab (y_g s))) as HT.
  assert (HC : snd (gen_cor_tab E' (mc c) t (map fM meas) (map me (g_tab (y_g s)))) = snd (gen_cor_tab E c t meas (g_tab (y_g s)))).
  { apply functional_extensionality. intros i. apply functional_extensionality. intros j. apply (cor_cost_moved fF fS fC fM E E' SE). }
  change {| c_births := map (fun b => (moved_birth fS fC (fst b), snd b)) (c_births c); c_ps := c_ps c; c_pd := c_pd c; c_crate := c_crate c; c_cden := c_cden c;
    c_reqb := c_reqb c; c_reqs := c_reqs c; c_requ := c_requ c; c_prune := c_prune c; c_maxh := c_maxh c; c_savecov := c_savecov c; c_savemeas := c_savemeas c |} with (mc c).
  destruct (gen_cor_tab E' (mc c) t (map fM meas) (map me (g_tab (y_g s)))) as [tab' ac']. destruct (gen_cor_tab E c t meas (g_tab (y_g s))) as [tab ac]. cbn [fst snd] in HT, HC. subst tab' ac'.
  rewrite jcor_hyps_moved. apply bind_same. intros hs. replace (clean_predictions E' hs) with (clean_predictions E hs) by (unfold clean_predictions; rewrite (se_hash _ _ _ _ _ _ SE); reflexivity).
  rewrite clean_moved. destruct (clean_updates tab _) as [u v]. cbn [fst snd rmap]. unfold moved_jst, moved_glmb. cbn [y_g y_old y_calls g_tab g_hyps g_card g_cnt g_meas g_ext g_states g_labels g_covs].
  rewrite !map_length, map_app. reflexivity.
Qed.
Lemma jexec_moved ga c o s : jexec E' G ga (mc c) (moved_op fM o) (mj s) = rmap mj (jexec E G ga c o s).
Proof.
  destruct o as [t|t meas|a b d|u k]; cbn [jexec moved_op].
  - apply jpredict_moved.
  - apply jcorrect_moved.
  - change (y_g (mj s)) with (mg (y_g s)). rewrite (exec_moved fF fS fC fM E E' SE c (OpCleanup a b d) (y_g s) : cleanup E' (mc c) a b d (mg (y_g s)) = _). apply bind_rmap. intros g. reflexivity.
  - change (y_g (mj s)) with (mg (y_g s)). rewrite extract_moved. apply bind_rmap. intros [oi g]. reflexivity.
Qed.
Lemma jrun_moved ga c os : forall s, jrun E' G ga (mc c) (map (moved_op fM) os) (mj s) = rmap mj (jrun E G ga c os s).
Proof. induction os as [|o os IH]; intros s; [reflexivity|]. cbn [map jrun]. rewrite jexec_moved. apply bind_rmap. intros s'. apply IH. Qed.
End Frame.

(** C207: any sequence of calls, on rewritten births and measurements and with the same
    random numbers, gives exactly the rewritten filter, or the same exception. *)
Theorem C207_jglmb_frame : forall {FS ST CV MS FS' ST' CV' MS' : Type} (fF : FS -> FS') (fS : ST -> ST') (fC : CV -> CV') (fM : MS -> MS')
    (E : genv FS ST CV MS) (E' : genv FS' ST' CV' MS') G gating (c : gcfg ST CV) (os : list (gop MS)),
  same_env fF fS fC fM E E' ->
  jrun E' G gating (moved_cfg fS fC c) (map (moved_op fM) os) jst_new = rmap (moved_jst fF fS fC fM) (jrun E G gating c os jst_new).
Proof. intros. exact (jrun_moved fF fS fC fM E E' G H gating c os jst_new). Qed.
Print Assumptions C207_jglmb_frame.

(** The hypothesis is met by C206_instance; the filter does something: a birth at 0. *)
Definition line_cfg : gcfg R R :=
  {| c_births := [({| b_m := [0]; b_c := [1]; b_w := [1] |}, 9 / 10)]; c_ps := 1 / 2; c_pd := 9 / 10; c_crate := 1; c_cden := 1; c_reqb := 1; c_reqs := 1; c_requ := 1;
     c_prune := 0; c_maxh := 10; c_savecov := true; c_savemeas := false |}.
Example C207_instance : forall G, exists s, jrun (line_env 1 0) G false line_cfg [OpPredict 0] jst_new = Ok s /\
  map (fun e => e_st e) (g_tab (y_g s)) = [[[0]]] /\
  jrun (line_env 3 5) G false (moved_cfg (fun x => 3 * x + 5) (fun p => 3 * 3 * p) line_cfg) [OpPredict 0] jst_new =
    Ok (moved_jst (fun x => 3 * x + 5) (fun x => 3 * x + 5) (fun p => 3 * 3 * p) (fun z => 3 * z + 5) s).
Proof.
  intros G.
  assert (H : exists s, jrun (line_env 1 0) G false line_cfg [OpPredict 0] jst_new = Ok s /\ map (fun e => e_st e) (g_tab (y_g s)) = [[[0]]]).
  { cbn [jrun jexec]. unfold jpredict. cbn [line_cfg c_births mapM snd]. destruct (Req_EM_T (9 / 10) 1) as [X|_]; [lra|]. cbn [bind]. eexists. split; reflexivity. }
  destruct H as [s [H1 H2]]. exists s. split; [exact H1|]. split; [exact H2|].
  pose proof (C207_jglmb_frame _ _ _ _ (line_env 1 0) (line_env 3 5) G false line_cfg [OpPredict 0] (C206_instance 3 5 ltac:(lra))) as K. rewrite H1 in K. exact K.
Qed.
