(** Properties C62, C63 and C98-C100 of the joint GLMB filter.

    [E] stands for the surroundings of the class (inner filter, hash, ...), [c] is
    any configuration; the sampler is the model of gibbs itself ([sampler_of]),
    with any random numbers in [0, 1). *)
From Verif Require Import Base Lists.
From Coq Require Import Reals Permutation Sorted Lra.
From Verif Require Import OspaModel CphdModel OspaProofs CphdSpec CphdProofs GlmbModel GlmbSpec GlmbProofs GlmbInv GlmbExtract GlmbMost GlmbTotal GlmbProps GlmbDemo.
From Verif Require Import JglmbModel JglmbSpec JglmbProofs JglmbInv GibbsReal JglmbGibbs.
Open Scope R_scope.

Section L.
Context {FS ST CV MS : Type}.
Variable E : genv FS ST CV MS.
Variable G : sampler.
Implicit Types (c : gcfg ST CV) (s : jst FS ST CV MS).
(** Without failures every merged hypothesis survives the compaction. *)
Lemma jcorrect_full gt c t meas s s' : gibbs_ok G -> (forall z f x, In z meas -> v_corr E t z f x <> None) -> jcorrect E G gt c t meas s = Ok s' ->
  exists hs, Forall2 (fun h h' => h_p h' = h_p h /\ length (h_ts h') = length (h_ts h)) (clean_predictions E hs) (g_hyps (y_g s')) /\
    (hs <> [] -> prob_dist hs) /\ g_card (y_g s') = calc_card hs.
Proof.
  intros Hg Hn H. destruct (jcorrect_inv _ _ _ _ _ _ _ _ H) as [hs [_ [_ [Eg [Et [Eh [Ec _]]]]]]]. exists hs. rewrite Eh.
  set (tab := fst (gen_cor_tab E c t meas (g_tab (y_g s)))) in *.
  split; [|split; [intros Hne; exact (jcor_hyps_dist _ _ _ _ _ _ _ _ _ _ Eg Hne)|exact Ec]].
  assert (Hall : forall h, In h (clean_predictions E hs) -> exists h', reindex (nnz_inds tab (clean_predictions E hs)) h = [h']).
  { intros h Hh. apply reindex_all; [exact Hh|]. intros i Hi. destruct (clean_in _ _ _ Hh) as [h2 [Hh2 E2]].
    destruct (jcor_hyps_in _ _ _ _ _ _ _ _ _ _ _ Hg Eg Hh2) as [h0 [row [_ [HB [Lr [_ [HR Hts]]]]]]]. rewrite <- E2, Hts, decode_live in Hi.
    apply in_map_iff in Hi as [[k v] [<- Hkv]]. cbn [fst snd]. apply filter_In in Hkv as [Hkv _].
    pose proof (proj1 (HB k (in_combine_l _ _ _ _ Hkv))) as Hk. pose proof (HR v (in_combine_r _ _ _ _ Hkv)) as Hv.
    assert (Ha : (assoc_of (length (tindices c h0)) v <= length meas)%nat) by (unfold assoc_of; lia).
    destruct (nth_error (g_tab (y_g s)) k) as [e|] eqn:Ee; [|apply nth_error_None in Ee; lia].
    destruct (upd_some E c t meas e _ Hn Ha) as [e' He']. exists e'. unfold tab. rewrite (cor_tab_nth E c t meas _ _ _ _ Ee Ha), He'. reflexivity. }
  set (nnz := nnz_inds tab _) in *. clearbody nnz. clear Eg Ec Et Eh. revert Hall. generalize (clean_predictions E hs) as l. induction l as [|h l IH]; intros Hall; [constructor|].
  cbn [flat_map]. destruct (Hall h (or_introl eq_refl)) as [h' Eh']. rewrite Eh'. cbn [app]. constructor; [|apply IH; intros x Hx; apply Hall; right; exact Hx].
  assert (Hi : In h' (reindex nnz h)) by (rewrite Eh'; left; reflexivity). apply reindex_in in Hi as [Hp Hts]. split; [exact Hp|].
  apply (f_equal (@length _)) in Hts. rewrite !map_length in Hts. exact Hts.
Qed.
Lemma clean_nil : clean_predictions E [] = [].
Proof. reflexivity. Qed.
Lemma jcorrect_dist gt c t meas s s' : gibbs_ok G -> (forall z f x, In z meas -> v_corr E t z f x <> None) -> jcorrect E G gt c t meas s = Ok s' ->
  g_hyps (y_g s') <> [] -> prob_dist (g_hyps (y_g s')) /\ (hash_ok (v_hash E) -> card_matches (g_card (y_g s')) (g_hyps (y_g s'))).
Proof.
  intros Hg Hn H Hne. destruct (jcorrect_full _ _ _ _ _ _ Hg Hn H) as [hs [HF [HD HC]]].
  assert (Hh : hs <> []) by (intros ->; rewrite clean_nil in HF; inversion HF; congruence).
  pose proof (clean_pred_dist E _ (HD Hh)) as [Hp Hs]. destruct (F2_dist _ _ HF) as [M1 M2]. split.
  - split; [|rewrite M1; exact Hs]. intros h' Hh'. apply In_nth_error in Hh' as [k Hk]. destruct (F2_nth_r _ _ _ _ _ HF Hk) as [h [Hh1 [-> _]]]. apply Hp. eapply nth_error_In; eauto.
  - intros HH n. rewrite HC, (calc_card_matches hs Hh n), M2. symmetry. apply (C51_merge_preserves_mass E (fun l => (length l =? n)%nat) hs HH).
    intros a b Hab. rewrite (Permutation_length Hab). reflexivity.
Qed.
Lemma jexec_dist gt c o s s' : gibbs_ok G -> rsorts (v_argsort E) -> never_fails E [o] -> jexec E G gt c o s = Ok s' ->
  (g_hyps (y_g s) <> [] -> prob_dist (g_hyps (y_g s))) -> g_hyps (y_g s') <> [] -> prob_dist (g_hyps (y_g s')).
Proof.
  intros Hg Hs Hn H HI Hne. destruct o as [t|t meas|pr ca ex|u k]; cbn [jexec] in H.
  - destruct (jpredict_inv _ _ _ _ _ H) as [_ [Hh _]]. rewrite Hh in *. auto.
  - apply (jcorrect_dist _ _ _ _ _ _ Hg (Hn t meas (or_introl eq_refl)) H Hne).
  - apply bind_ok in H as [g [H1 H2]]. injection H2 as <-. cbn [with_g y_g] in *. destruct (cleanup_inv _ _ _ _ _ _ _ H1) as [_ [_ [_ [Eh _]]]]. rewrite Eh in *. unfold cleaned in *. cbn zeta in *.
    set (s2 := if pr then prune c (bump (y_g s)) else bump (y_g s)) in *.
    assert (H2 : g_hyps s2 <> [] -> prob_dist (g_hyps s2)).
    { unfold s2. destruct pr; [|exact HI]. intros H2. apply prune_dist; [|exact H2]. intros h Hh. apply (HI ltac:(intros E0; cbn in Hh; rewrite E0 in Hh; destruct Hh)). exact Hh. }
    destruct ca; [|auto]. apply cap_dist; [exact Hs| |exact Hne]. apply H2. intros E0. apply Hne. unfold cap. rewrite E0. cbn [length].
    destruct (c_maxh c <? 0)%nat eqn:El; [apply Nat.ltb_lt in El; lia|exact E0].
  - apply bind_ok in H as [[o g] [H1 H2]]. injection H2 as <-. cbn [with_g y_g] in *. destruct (extract_tab _ _ _ _ _ _ H1) as [_ [B _]]. rewrite B in *. auto.
Qed.
Lemma jrun_app gt c os1 os2 s : jrun E G gt c (os1 ++ os2) s = (do s1 <- jrun E G gt c os1 s; jrun E G gt c os2 s1).
Proof.
  revert s. induction os1 as [|o os1 IH]; intros s; [reflexivity|]. cbn [jrun app]. destruct (jexec E G gt c o s) as [s1|e]; cbn [bind]; [apply IH|reflexivity].
Qed.
(** After the last correct, until the next predict: the table and its old copy have the same length. *)
Lemma jold_rest gt c os : forall s s', jrun E G gt c os s = Ok s' -> (forall t, ~ In (OpPredict t) os) -> y_old s = length (g_tab (y_g s)) -> y_old s' = length (g_tab (y_g s')).
Proof.
  induction os as [|o os IH]; intros s s' H Hp HI; cbn [jrun] in H; [injection H as <-; exact HI|]. apply bind_ok in H as [s1 [H1 H]].
  apply (IH s1 s' H); [intros t Ht; apply (Hp t); right; exact Ht|]. apply jrest in H1. destruct o as [t|t meas|pr ca ex|u k].
  - exfalso. apply (Hp t). left. reflexivity.
  - destruct (jcorrect_inv _ _ _ _ _ _ _ _ H1) as [hs X]. cbn zeta in X. tauto.
  - destruct H1 as [g' [-> [A _]]]. cbn [with_g y_g y_old]. rewrite A. exact HI.
  - destruct H1 as [g' [-> [A _]]]. cbn [with_g y_g y_old]. rewrite A. exact HI.
Qed.
Lemma jold_correct gt c os t meas rest s s' : jrun E G gt c (os ++ OpCorrect t meas :: rest) s = Ok s' -> (forall t, ~ In (OpPredict t) rest) -> y_old s' = length (g_tab (y_g s')).
Proof.
  intros H Hp. rewrite jrun_app in H. apply bind_ok in H as [s1 [_ H]]. cbn [jrun jexec] in H. apply bind_ok in H as [s2 [H2 H]].
  apply (jold_rest _ _ _ _ _ H Hp). destruct (jcorrect_inv _ _ _ _ _ _ _ _ H2) as [hs X]. cbn zeta in X. tauto.
Qed.
Lemma jinv_full D s : JInv D s -> y_old s = length (g_tab (y_g s)) -> HInv D (g_tab (y_g s)) (g_hyps (y_g s)).
Proof.
  intros [pre [base [A [B [C _]]]]] Ho. rewrite A, app_length in Ho. destruct pre; [|cbn in Ho; lia]. rewrite A. exact C.
Qed.
End L.

(** Random numbers as rng.uniform gives them. *)
Definition uniform (rnd : nat -> nat -> nat -> R) : Prop := forall call sol v, 0 <= rnd call sol v < 1.
Lemma uniform_ok rnd : uniform rnd -> gibbs_ok (sampler_of rnd).
Proof. intros H. apply (sampler_ok rnd H). Qed.

(** * C62: after any history in which the inner filter did not fail, the
    hypotheses, if any, are a probability distribution. *)
Theorem C62_jglmb_distribution_partial : forall {FS ST CV MS} (E : genv FS ST CV MS) rnd gt c os s,
  uniform rnd -> rsorts (v_argsort E) -> never_fails E os -> jrun E (sampler_of rnd) gt c os jst_new = Ok s ->
  g_hyps (y_g s) <> [] -> prob_dist (g_hyps (y_g s)).
Proof.
  intros FS ST CV MS E rnd gt c os s Hr Hs Hn H. apply uniform_ok in Hr. revert Hr H. generalize (sampler_of rnd) as G. intros G Hg H.
  assert (A : forall os s0, never_fails E os -> jrun E G gt c os s0 = Ok s -> (g_hyps (y_g s0) <> [] -> prob_dist (g_hyps (y_g s0))) -> g_hyps (y_g s) <> [] -> prob_dist (g_hyps (y_g s))).
  { clear os Hn H. induction os as [|o os IH]; intros s0 Hn H HI; cbn [jrun] in H; [inversion H; subst; exact HI|].
    apply bind_ok in H as [s1 [H1 H]]. apply (IH s1); [intros t m Hi; apply Hn; right; exact Hi|exact H|].
    apply (jexec_dist E G gt c o s0 s1 Hg Hs); [|exact H1|exact HI]. intros t m [->|[]]. apply Hn. left. reflexivity. }
  apply (A os _ Hn H). intros _. split; cbn; [intros h [<-|[]]; cbn; lra|lra].
Qed.
Print Assumptions C62_jglmb_distribution_partial.

(** * C63: after correct, until the next predict (whatever cleanups and
    extractions are in between), every index is within the table, no track appears
    twice in a hypothesis, its labels are different when the predict times are, and
    in the intended order of calls no measurement feeds two of its tracks. *)
Theorem C63_jglmb_valid : forall {FS ST CV MS} (E : genv FS ST CV MS) rnd gt c os t meas rest s,
  uniform rnd -> jrun E (sampler_of rnd) gt c (os ++ OpCorrect t meas :: rest) jst_new = Ok s -> (forall t, ~ In (OpPredict t) rest) ->
  refs_ok (g_tab (y_g s)) (g_hyps (y_g s)) /\
  forall h, In h (g_hyps (y_g s)) -> NoDup (h_ts h) /\
    (NoDup (map (v_rnd E) (predict_times (os ++ OpCorrect t meas :: rest))) -> NoDup (map e_label (tracks (g_tab (y_g s)) h))) /\
    (forall ph, protocol 0 (os ++ OpCorrect t meas :: rest) = Some ph -> forall i j e1 e2, i <> j ->
       nth_error (tracks (g_tab (y_g s)) h) i = Some e1 -> nth_error (tracks (g_tab (y_g s)) h) j = Some e2 -> ~ share_meas e1 e2).
Proof.
  intros FS ST CV MS E rnd gt c os t meas rest s Hr H Hp. apply uniform_ok in Hr. revert Hr H. generalize (sampler_of rnd) as G. intros G Hg H.
  pose proof (jold_correct E G _ _ _ _ _ _ _ _ H Hp) as Ho. split.
  { exact (hinv_refs _ _ _ (jinv_full _ _ (jtrue_run E G _ _ _ _ _ Hg H (jinv_new _)) Ho)). }
  intros h Hh. split; [exact (nd_run E G _ _ _ _ _ Hg H nd_new h Hh)|]. split.
  - intros Hd. destruct (jlinv_run E G _ _ _ _ _ [] Hg H Hd) as [used [[_ HI] _]]; [intros z []|split; [intros e []|apply jinv_new]|].
    apply pairs_nodup. exact (hinv_tracks _ _ _ _ (jinv_full _ _ HI Ho) Hh).
  - intros ph Hpr i j e1 e2 Hij H1 H2. destruct (jpinv_run E G _ _ _ 0 ph _ _ Hg H Hpr jpinv_new) as [_ HI].
    exact (hinv_tracks _ _ _ _ (jinv_full _ _ HI Ho) Hh i j e1 e2 Hij H1 H2).
Qed.
Print Assumptions C63_jglmb_valid.
(** Whatever the order of the calls: the measurements of one correct are never
    given to two tracks of one hypothesis. *)
Theorem C63_jglmb_one_scan : forall {FS ST CV MS} (E : genv FS ST CV MS) rnd gt c t meas s s',
  uniform rnd -> jcorrect E (sampler_of rnd) gt c t meas s = Ok s' ->
  forall h i j e1 e2 m, In h (g_hyps (y_g s')) -> i <> j ->
    nth_error (tracks (g_tab (y_g s')) h) i = Some e1 -> nth_error (tracks (g_tab (y_g s')) h) j = Some e2 ->
    last (e_assoc e1) None = Some m -> last (e_assoc e2) None <> Some m.
Proof.
  intros FS ST CV MS E rnd gt c t meas s s' Hr H h i j e1 e2 m Hh Hij H1 H2.
  pose proof (jpairs_correct E (sampler_of rnd) (fun _ _ => True) (fun x y => last (e_assoc x) None = Some m -> last (e_assoc y) None <> Some m) gt c t meas s s' (uniform_ok _ Hr) H) as HI.
  assert (HH : HInv (fun x y : entry FS ST CV => last (e_assoc x) None = Some m -> last (e_assoc y) None <> Some m) (g_tab (y_g s')) (g_hyps (y_g s'))).
  { apply HI; [intros; intros p q x y _ _ _; exact I|]. clear. intros e1 e2 a b e1' e2' _ _ _ Hab U1 U2 L1 L2.
    assert (Hu : forall e a e', upd_entry E c t meas e a = Some e' -> last (e_assoc e') None = Some m -> a = S m).
    { clear. intros e a e' U L. destruct a as [|q]; cbn [upd_entry] in U.
      - injection U as <-. cbn [add_assoc e_assoc] in L. rewrite last_last in L. discriminate.
      - destruct (nth_error meas q) as [z|]; [|discriminate]. destruct (cor_entry E c t z e) as [[e0 x]|] eqn:Ec; [|discriminate]. injection U as <-.
        cbn [add_assoc e_assoc] in L. rewrite last_last in L. congruence. }
    pose proof (Hu _ _ _ U1 L1). pose proof (Hu _ _ _ U2 L2). subst. specialize (Hab eq_refl). discriminate. }
  exact (hinv_tracks _ _ _ _ HH Hh i j e1 e2 Hij H1 H2).
Qed.
Print Assumptions C63_jglmb_one_scan.

(** * C98: the cardinality distribution matches the hypotheses after a correct in
    which the inner filter did not fail. *)
Theorem C98_jglmb_cardinality : forall {FS ST CV MS} (E : genv FS ST CV MS) rnd gt c t meas s s',
  uniform rnd -> hash_ok (v_hash E) -> (forall z f x, In z meas -> v_corr E t z f x <> None) -> jcorrect E (sampler_of rnd) gt c t meas s = Ok s' ->
  g_hyps (y_g s') <> [] -> card_matches (g_card (y_g s')) (g_hyps (y_g s')).
Proof. intros FS ST CV MS E rnd gt c t meas s s' Hr Hh Hn H Hne. apply (jcorrect_dist E _ _ _ _ _ _ _ (uniform_ok _ Hr) Hn H Hne), Hh. Qed.
Print Assumptions C98_jglmb_cardinality.

(** * C99: histories.  In the intended order of calls (outside predict .. correct)
    all histories of a track are as long as the track is old. *)
Theorem C99_jglmb_history_length : forall {FS ST CV MS} (E : genv FS ST CV MS) rnd gt c os s ph,
  uniform rnd -> protocol 0 os = Some ph -> ph <> 1%nat -> jrun E (sampler_of rnd) gt c os jst_new = Ok s ->
  forall e, In e (g_tab (y_g s)) -> exists n, (1 <= n)%nat /\ hist_len n e /\ (e_time e + n = g_cnt (y_g s) + (if ph =? 0 then 0 else 1))%nat.
Proof.
  intros FS ST CV MS E rnd gt c os s ph Hr Hp Hph H e He.
  destruct (jpinv_run E _ _ _ _ 0 ph _ _ (uniform_ok _ Hr) H Hp jpinv_new) as [HL _].
  destruct (HL e He) as [n [H1 [H2 [H3 [H4 [H5 H6]]]]]]. exists n. split; [exact H1|].
  destruct (ph =? 1)%nat eqn:E1; [apply Nat.eqb_eq in E1; contradiction|]. split; [repeat split; assumption|].
  destruct (ph =? 0)%nat; lia.
Qed.
Print Assumptions C99_jglmb_history_length.
(** A track keeps its label and its birth time; a new label carries the predict
    time and an index below the number of birth terms. *)
Theorem C99_jglmb_labels_persist : forall {FS ST CV MS} (E : genv FS ST CV MS) G gt c o s s', jexec E G gt c o s = Ok s' ->
  forall e', In e' (g_tab (y_g s')) ->
    (exists t, o = OpPredict t /\ fst (e_label e') = v_rnd E t /\ (snd (e_label e') < length (c_births c))%nat /\ e_time e' = g_cnt (y_g s) /\ e_assoc e' = []) \/
    (exists e, In e (g_tab (y_g s)) /\ e_label e' = e_label e /\ e_time e' = e_time e /\ exists l, e_assoc e' = e_assoc e ++ l).
Proof.
  intros FS ST CV MS E G gt c o s s' H e' He'. apply jrest in H. destruct o as [t|t meas|pr ca ex|u k].
  - destruct (jpredict_inv _ _ _ _ _ H) as [A _]. rewrite A in He'. apply in_app_or in He' as [He'|He'].
    + left. exists t. apply In_nth_error in He' as [i Hi]. assert (Hl : (i < length (c_births c))%nat) by (rewrite <- (jbirth_len E c t (g_cnt (y_g s))); apply nth_error_Some; congruence).
      destruct (jbirth_nth _ _ _ _ _ _ Hi) as [b ->]. cbn. auto.
    + right. apply in_map_iff in He' as [e [<- He]]. exists e. cbn. repeat split; auto. exists []. symmetry. apply app_nil_r.
  - right. destruct (jcorrect_tab_in _ _ _ _ _ _ _ _ _ H He') as [e [a [He U]]]. exists e. split; [exact He|].
    destruct (upd_label E _ _ _ _ _ _ U) as [A [B [x [C _]]]]. split; [exact A|]. split; [exact B|]. exists [x]. exact C.
  - right. destruct H as [g' [-> [A _]]]. cbn [with_g y_g] in He'. rewrite A in He'. exists e'. repeat split; auto. exists []. symmetry. apply app_nil_r.
  - right. destruct H as [g' [-> [A _]]]. cbn [with_g y_g] in He'. rewrite A in He'. exists e'. repeat split; auto. exists []. symmetry. apply app_nil_r.
Qed.
Print Assumptions C99_jglmb_labels_persist.
