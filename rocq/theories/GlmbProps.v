(** Properties C46-C58 and C61 of the GLMB filter.

    In all statements [E] stands for the surroundings of the class (inner
    filter, k_shortest, murty_m_best, ...), see [genv]; [c] is any configuration. *)
From Verif Require Import Base Lists.
From Coq Require Import Reals Permutation Sorted Lra.
From Verif Require Import OspaModel CphdModel OspaProofs CphdSpec CphdProofs GlmbModel GlmbSpec GlmbProofs GlmbInv GlmbExtract GlmbMost GlmbTotal.
Open Scope R_scope.

Section L.
Context {FS ST CV MS : Type}.
Variable E : genv FS ST CV MS.
Implicit Types (c : gcfg ST CV) (s : glmb FS ST CV MS).
Lemma upd_some c t meas e a : (forall z f x, In z meas -> v_corr E t z f x <> None) -> (a <= length meas)%nat -> exists e', upd_entry E c t meas e a = Some e'.
Proof.
  intros Hn Ha. destruct a as [|j]; cbn; [eexists; reflexivity|]. destruct (nth_error meas j) as [z|] eqn:Ez; [|apply nth_error_None in Ez; lia].
  unfold cor_entry. destruct (all_some _) as [rs|] eqn:Ea; [eexists; reflexivity|]. exfalso. apply all_some_none, in_map_iff in Ea as [x [Hx _]].
  exact (Hn z _ _ (nth_error_In _ _ Ez) Hx).
Qed.
(** Without failures every hypothesis survives the compaction, unchanged but for its indices. *)
Lemma correct_full c t meas s s' : murty_ok (v_murty E) -> (forall z f x, In z meas -> v_corr E t z f x <> None) -> correct E c t meas s = Ok s' ->
  exists hs, Forall2 (fun h h' => h_p h' = h_p h /\ length (h_ts h') = length (h_ts h)) hs (g_hyps s') /\ (hs <> [] -> prob_dist hs) /\ g_card s' = calc_card hs.
Proof.
  intros Hm Hn H. destruct (correct_inv _ _ _ _ _ _ H) as [hs [Eg [Et [Eh [Ec _]]]]]. exists hs. rewrite Eh.
  set (tab := fst (gen_cor_tab E c t meas (g_tab s))) in *.
  split; [|split; [intros Hne; exact (cor_hyps_dist E _ _ _ _ _ _ Eg Hne)|exact Ec]].
  assert (Hall : forall h, In h hs -> exists h', reindex (nnz_inds tab hs) h = [h']).
  { intros h Hh. apply reindex_all; [exact Hh|]. intros i Hi.
    destruct (cor_hyps_in E _ _ _ _ _ _ _ Hm Eg Hh) as [h0 [row [_ [Hr [[Hl [Hv _]] Hs]]]]]. rewrite Hs in Hi. unfold shifted in Hi.
    apply in_map_iff in Hi as [[k a] [<- Hka]]. cbn [fst snd]. pose proof (Hr k (in_combine_l _ _ _ _ Hka)) as Hk. pose proof (Hv a (in_combine_r _ _ _ _ Hka)) as Ha.
    destruct (nth_error (g_tab s) k) as [e|] eqn:Ee; [|apply nth_error_None in Ee; lia].
    destruct (upd_some c t meas e a Hn Ha) as [e' He']. exists e'. unfold tab. rewrite (cor_tab_nth E c t meas _ _ _ _ Ee Ha), He'. reflexivity. }
  clear Eg Ec Et Eh. set (nnz := nnz_inds tab hs) in *. clearbody nnz. induction hs as [|h hs IH]; [constructor|].
  cbn [flat_map]. destruct (Hall h (or_introl eq_refl)) as [h' Eh']. rewrite Eh'. cbn [app]. constructor; [|apply IH; intros x Hx; apply Hall; right; exact Hx].
  assert (Hi : In h' (reindex nnz h)) by (rewrite Eh'; left; reflexivity). apply reindex_in in Hi as [Hp Hts]. split; [exact Hp|].
  apply (f_equal (@length _)) in Hts. rewrite !map_length in Hts. exact Hts.
Qed.
Lemma F2_dist hs hs' : Forall2 (fun h h' => h_p h' = h_p h /\ length (h_ts h') = length (h_ts h)) hs hs' ->
  map h_p hs' = map h_p hs /\ (forall n, mass (fun h => (length (h_ts h) =? n)%nat) hs' = mass (fun h => (length (h_ts h) =? n)%nat) hs).
Proof.
  induction 1 as [|h h' hs hs' [Hp Hl] _ [IH1 IH2]]; [split; reflexivity|]. split; [cbn; congruence|]. intros n. specialize (IH2 n). unfold mass in *. cbn [filter]. rewrite Hl.
  destruct (_ =? n)%nat; [cbn [map]; rewrite !rsum_cons, IH2, Hp; reflexivity|exact IH2].
Qed.
Lemma correct_dist c t meas s s' : murty_ok (v_murty E) -> (forall z f x, In z meas -> v_corr E t z f x <> None) -> correct E c t meas s = Ok s' ->
  g_hyps s' <> [] -> prob_dist (g_hyps s') /\ card_matches (g_card s') (g_hyps s').
Proof.
  intros Hm Hn H Hne. destruct (correct_full _ _ _ _ _ Hm Hn H) as [hs [HF [HD HC]]].
  assert (Hh : hs <> []) by (intros ->; inversion HF; congruence). destruct (HD Hh) as [Hp Hs]. destruct (F2_dist _ _ HF) as [M1 M2]. split.
  - split; [|rewrite M1; exact Hs]. intros h' Hh'. apply In_nth_error in Hh' as [k Hk]. destruct (F2_nth_r _ _ _ _ _ HF Hk) as [h [Hh1 [-> _]]]. apply Hp. eapply nth_error_In; eauto.
  - intros n. rewrite HC, (calc_card_matches hs Hh n). symmetry. apply M2.
Qed.
Lemma prune_dist c s : (forall h, In h (g_hyps s) -> 0 < h_p h) -> g_hyps (prune c s) <> [] -> prob_dist (g_hyps (prune c s)).
Proof.
  intros Hp Hne. cbn [prune with_hyps g_hyps] in *. apply rescale_dist; [intros E0; apply Hne; rewrite E0; reflexivity|].
  intros h Hh. apply filter_In in Hh as [Hh _]. auto.
Qed.
Lemma cap_dist c s : rsorts (v_argsort E) -> prob_dist (g_hyps s) -> g_hyps (cap E c s) <> [] -> prob_dist (g_hyps (cap E c s)).
Proof.
  intros Hs HD Hne. destruct HD as [Hp Hsum]. unfold cap in *. destruct (_ <? _)%nat; [|split; assumption].
  cbn [with_hyps g_hyps] in *. apply rescale_dist.
  - intros E0. apply Hne. rewrite E0. reflexivity.
  - intros h Hh. apply in_map_iff in Hh as [i [<- Hi]]. apply Hp, nth_In. exact (keep_range E c s i Hs Hi).
Qed.
Lemma exec_dist c o s s' : murty_ok (v_murty E) -> rsorts (v_argsort E) -> never_fails E [o] -> exec E c o s = Ok s' ->
  (g_hyps s <> [] -> prob_dist (g_hyps s)) -> g_hyps s' <> [] -> prob_dist (g_hyps s').
Proof.
  intros Hm Hs Hn H HI Hne. destruct o as [t|t meas|pr ca ex|u k]; cbn [exec] in H.
  - exact (predict_dist E _ _ _ _ H Hne).
  - apply (correct_dist _ _ _ _ _ Hm (Hn t meas (or_introl eq_refl)) H Hne).
  - destruct (cleanup_inv _ _ _ _ _ _ _ H) as [_ [_ [_ [Eh _]]]]. rewrite Eh in *. unfold cleaned in *. cbn zeta in *.
    set (s2 := if pr then prune c (bump s) else bump s) in *.
    assert (H2 : g_hyps s2 <> [] -> prob_dist (g_hyps s2)).
    { unfold s2. destruct pr; [|exact HI]. intros H2. apply prune_dist; [|exact H2]. intros h Hh. apply (HI ltac:(intros E0; cbn in Hh; rewrite E0 in Hh; destruct Hh)). exact Hh. }
    destruct ca; [|auto]. apply cap_dist; [exact Hs| |exact Hne]. apply H2. intros E0. apply Hne. unfold cap. rewrite E0. cbn [length].
    destruct (c_maxh c <? 0)%nat eqn:El; [apply Nat.ltb_lt in El; lia|exact E0].
  - apply bind_ok in H as [[o s2] [H1 H2]]. inversion H2; subst s2. destruct (extract_tab _ _ _ _ _ _ H1) as [_ [B _]]. rewrite B in *. auto.
Qed.
End L.

(** * C46: after any history of public operations in which the inner filter did not
    fail, the hypotheses (if any are left) are a probability distribution. *)
Theorem C46_glmb_distribution : forall {FS ST CV MS} (E : genv FS ST CV MS) c os s,
  murty_ok (v_murty E) -> rsorts (v_argsort E) -> never_fails E os -> run E c os glmb_new = Ok s ->
  g_hyps s <> [] -> prob_dist (g_hyps s).
Proof.
  intros FS ST CV MS E c os s Hm Hs Hn H.
  assert (G : forall os s0, never_fails E os -> run E c os s0 = Ok s -> (g_hyps s0 <> [] -> prob_dist (g_hyps s0)) -> g_hyps s <> [] -> prob_dist (g_hyps s)).
  { clear os Hn H. induction os as [|o os IH]; intros s0 Hn H HI; cbn [run] in H; [inversion H; subst; exact HI|].
    apply bind_ok in H as [s1 [H1 H]]. apply (IH s1); [intros t m Hi; apply Hn; right; exact Hi|exact H|].
    apply (exec_dist E c o s0 s1 Hm Hs); [|exact H1|exact HI]. intros t m [->|[]]. apply Hn. left. reflexivity. }
  apply (G os glmb_new Hn H). intros _. split; [intros h [<-|[]]; cbn; lra|cbn; lra].
Qed.
Print Assumptions C46_glmb_distribution.
(** Predict restores a distribution from any state, failures or not. *)
Theorem C46_predict_distribution : forall {FS ST CV MS} (E : genv FS ST CV MS) c t s s',
  predict E c t s = Ok s' -> g_hyps s' <> [] -> prob_dist (g_hyps s').
Proof. intros. eapply predict_dist; eauto. Qed.
Print Assumptions C46_predict_distribution.
(** Whatever the filter does, what correct keeps and what it drops add up to 1;
    it drops exactly the hypotheses that use a failed update. *)
Theorem C46_correct_mass : forall {FS ST CV MS} (E : genv FS ST CV MS) c t meas s s',
  correct E c t meas s = Ok s' ->
  exists kept dropped, Forall2 (fun h h' => h_p h' = h_p h /\ length (h_ts h') = length (h_ts h)) kept (g_hyps s') /\
    (forall h, In h (kept ++ dropped) -> 0 < h_p h) /\ (kept ++ dropped <> [] -> rsum (map h_p (g_hyps s')) + rsum (map h_p dropped) = 1) /\
    (forall h, In h dropped -> exists i, In i (h_ts h) /\ nth i (fst (gen_cor_tab E c t meas (g_tab s))) None = None).
Proof.
  intros FS ST CV MS E c t meas s s' H. destruct (correct_inv _ _ _ _ _ _ H) as [hs [Eg [_ [Eh _]]]]. rewrite Eh.
  set (tab := fst (gen_cor_tab E c t meas (g_tab s))) in *. set (nnz := nnz_inds tab hs).
  set (ok := fun h => match reindex nnz h with [] => false | _ => true end).
  assert (HR : forall h, reindex nnz h = [] \/ exists h', reindex nnz h = [h'] /\ h_p h' = h_p h /\ length (h_ts h') = length (h_ts h)).
  { intros h. unfold reindex. destruct (all_some _) as [ts|] eqn:Ea; [right|left; reflexivity]. eexists; split; [reflexivity|]. split; [reflexivity|].
    apply all_some_ok in Ea. apply (f_equal (@length _)) in Ea. rewrite !map_length in Ea. cbn. auto. }
  assert (HF : Forall2 (fun h h' => h_p h' = h_p h /\ length (h_ts h') = length (h_ts h)) (filter ok hs) (flat_map (reindex nnz) hs)).
  { clear Eg Eh. generalize hs as l. intros l. clearbody nnz. induction l as [|h l IH]; [constructor|]. cbn [filter flat_map]. unfold ok at 1.
    destruct (HR h) as [->|[h' [-> Hh']]]; [exact IH|]. cbn [app]. constructor; [exact Hh'|exact IH]. }
  exists (filter ok hs), (filter (fun h => negb (ok h)) hs). split; [exact HF|].
  assert (HD : hs <> [] -> prob_dist hs) by (intros Hne; exact (cor_hyps_dist E _ _ _ _ _ _ Eg Hne)). split; [|split].
  - intros h Hh. assert (Hi : In h hs) by (apply in_app_or in Hh as [Hh|Hh]; apply filter_In in Hh as [Hh _]; exact Hh).
    apply HD; [intros ->; destruct Hi|exact Hi].
  - intros Hne. destruct (F2_dist _ _ HF) as [M1 _]. rewrite M1, <- rsum_app, <- map_app.
    assert (Hh : hs <> []) by (intros ->; apply Hne; reflexivity). destruct (HD Hh) as [_ Hs]. rewrite <- Hs. apply rsum_perm, Permutation_map.
    exact (filter_partition_perm ok hs).
  - intros h Hh. apply filter_In in Hh as [Hh Hf]. unfold ok, reindex in Hf. destruct (all_some _) as [ts|] eqn:Ea; [discriminate|].
    apply all_some_none, in_map_iff in Ea as [i [Hi1 Hi2]]. exists i. split; [exact Hi2|]. apply index_of_none in Hi1.
    destruct (nth i tab None) as [e|] eqn:En; [|reflexivity]. exfalso. apply Hi1. apply nnz_in. split; [|eauto].
    exists e. destruct (nth_error tab i) as [o|] eqn:Eo; [rewrite (nth_error_nth _ _ _ Eo) in En; congruence|].
    apply nth_error_None in Eo. rewrite nth_overflow in En by exact Eo. discriminate.
Qed.
Print Assumptions C46_correct_mass.

(** * C47: the cardinality distribution after correct (no failure), prune and cap. *)
Theorem C47_glmb_cardinality_partial : forall {FS ST CV MS} (E : genv FS ST CV MS) c t meas s,
  (forall s', murty_ok (v_murty E) -> (forall z f x, In z meas -> v_corr E t z f x <> None) -> correct E c t meas s = Ok s' ->
     g_hyps s' <> [] -> card_matches (g_card s') (g_hyps s')) /\
  (g_hyps (prune c s) <> [] -> card_matches (g_card (prune c s)) (g_hyps (prune c s))) /\
  (card_matches (g_card s) (g_hyps s) -> g_hyps (cap E c s) <> [] -> card_matches (g_card (cap E c s)) (g_hyps (cap E c s))).
Proof.
  intros FS ST CV MS E c t meas s. split; [|split].
  - intros s' Hm Hn H Hne. apply (correct_dist E _ _ _ _ _ Hm Hn H Hne).
  - intros Hne. apply calc_card_matches, Hne.
  - intros H. unfold cap. destruct (_ <? _)%nat; [|intros _; exact H]. intros Hne. apply calc_card_matches, Hne.
Qed.
Print Assumptions C47_glmb_cardinality_partial.
(** Hence after every predict, correct, cleanup cycle with pruning. *)
Theorem C47_after_pruning_cleanup : forall {FS ST CV MS} (E : genv FS ST CV MS) c ca ex s s',
  cleanup E c true ca ex s = Ok s' -> g_hyps s' <> [] -> card_matches (g_card s') (g_hyps s').
Proof.
  intros FS ST CV MS E c ca ex s s' H Hne. destruct (cleanup_inv _ _ _ _ _ _ _ H) as [_ [_ [_ [Eh [Ec _]]]]]. rewrite Eh, Ec in *.
  unfold cleaned in *. cbn zeta in *. destruct ca; [|apply calc_card_matches, Hne].
  apply (C47_glmb_cardinality_partial E c 0 [] (prune c (bump s))); [|exact Hne].
  cbn [prune with_hyps g_card g_hyps]. apply calc_card_matches. intros E0. apply Hne. unfold cap. cbn [prune with_hyps g_card g_hyps].
  rewrite E0. cbn [length]. destruct (c_maxh c <? 0)%nat eqn:El; [apply Nat.ltb_lt in El; lia|exact E0].
Qed.
Print Assumptions C47_after_pruning_cleanup.

(** * C48: every index of every hypothesis refers to a track, in every history. *)
Theorem C48_glmb_references : forall {FS ST CV MS} (E : genv FS ST CV MS) c os s,
  kshort_ok (v_kshort E) -> murty_ok (v_murty E) -> run E c os glmb_new = Ok s -> refs_ok (g_tab s) (g_hyps s).
Proof. intros. eapply hinv_refs, hinv_run; eauto. apply hinv_new. Qed.
Print Assumptions C48_glmb_references.

(** * C49: in every history whose predict times are different after rounding, no
    hypothesis contains two tracks with one label ... *)
Lemma hinv_tracks {FS ST CV} (D : entry FS ST CV -> entry FS ST CV -> Prop) tab hs h : HInv D tab hs -> In h hs -> pairs D (tracks tab h).
Proof. intros H Hh. destruct (H h Hh) as [es [HF HP]]. rewrite (tracks_view _ _ _ HF). exact HP. Qed.
Theorem C49_glmb_labels : forall {FS ST CV MS} (E : genv FS ST CV MS) c os s,
  kshort_ok (v_kshort E) -> murty_ok (v_murty E) -> NoDup (map (v_rnd E) (predict_times os)) -> run E c os glmb_new = Ok s ->
  forall h, In h (g_hyps s) -> NoDup (map e_label (tracks (g_tab s) h)).
Proof.
  intros FS ST CV MS E c os s Hk Hm Hd H h Hh. destruct (linv_run E c os _ _ [] Hk Hm H Hd) as [used [_ HI]].
  - intros z [].
  - split; [intros e []|apply hinv_new].
  - apply pairs_nodup. exact (hinv_tracks _ _ _ _ HI Hh).
Qed.
Print Assumptions C49_glmb_labels.
(** ... and a track keeps its label, birth time and earlier associations for life:
    after an operation every track of the table is new-born with the (rounded)
    current time in its label, or continues a track of the table before. *)
Theorem C49_labels_persist : forall {FS ST CV MS} (E : genv FS ST CV MS) c o s s', exec E c o s = Ok s' ->
  forall e', In e' (g_tab s') ->
    (exists t, o = OpPredict t /\ fst (e_label e') = v_rnd E t /\ (snd (e_label e') < length (c_births c))%nat /\ e_time e' = g_cnt s /\ e_assoc e' = []) \/
    (exists e, In e (g_tab s) /\ e_label e' = e_label e /\ e_time e' = e_time e /\ exists l, e_assoc e' = e_assoc e ++ l).
Proof.
  intros FS ST CV MS E c o s s' H e' He'. destruct o as [t|t meas|pr ca ex|u k]; cbn [exec] in H.
  - destruct (predict_tab_in _ _ _ _ _ _ H He') as [[i [b [Hi [_ ->]]]]|[e [He ->]]].
    + left. exists t. cbn. auto.
    + right. exists e. cbn. repeat split; auto. exists []. symmetry. apply app_nil_r.
  - destruct (correct_tab_in _ _ _ _ _ _ _ H He') as [e [a [He Hu]]]. destruct (upd_label _ _ _ _ _ _ _ Hu) as [L1 [L2 [x [L3 _]]]].
    right. exists e. repeat split; eauto.
  - destruct (cleanup_inv _ _ _ _ _ _ _ H) as [A _]. rewrite A in He'. right. exists e'. repeat split; auto. exists []. symmetry. apply app_nil_r.
  - apply bind_ok in H as [[o s2] [H1 H2]]. inversion H2; subst s2. destruct (extract_tab _ _ _ _ _ _ H1) as [A _]. rewrite A in He'.
    right. exists e'. repeat split; auto. exists []. symmetry. apply app_nil_r.
Qed.
Print Assumptions C49_labels_persist.

(** * C50: in every predict / correct / cleanup history no hypothesis gives one
    measurement to two of its tracks. *)
Theorem C50_glmb_exclusive : forall {FS ST CV MS} (E : genv FS ST CV MS) c os ph s,
  kshort_ok (v_kshort E) -> murty_ok (v_murty E) -> protocol 0 os = Some ph -> run E c os glmb_new = Ok s ->
  forall h i j e1 e2, In h (g_hyps s) -> i <> j -> nth_error (tracks (g_tab s) h) i = Some e1 -> nth_error (tracks (g_tab s) h) j = Some e2 ->
    ~ share_meas e1 e2.
Proof.
  intros FS ST CV MS E c os ph s Hk Hm Hp H h i j e1 e2 Hh Hij H1 H2.
  destruct (pinv_run E c os 0 ph _ _ Hk Hm H Hp) as [_ HI]; [split; [intros e []|apply hinv_new]|].
  exact (hinv_tracks _ _ _ _ HI Hh i j e1 e2 Hij H1 H2).
Qed.
Print Assumptions C50_glmb_exclusive.

(** * C61: in such histories every track's four histories have one entry per time
    step from its birth to now (after correct: the current step included). *)
Theorem C61_glmb_history_length : forall {FS ST CV MS} (E : genv FS ST CV MS) c os s ph,
  kshort_ok (v_kshort E) -> murty_ok (v_murty E) -> protocol 0 os = Some ph -> ph <> 1%nat -> run E c os glmb_new = Ok s ->
  forall e, In e (g_tab s) -> exists n, (1 <= n)%nat /\ hist_len n e /\ (e_time e + n = g_cnt s + (if ph =? 0 then 0 else 1))%nat.
Proof.
  intros FS ST CV MS E c os s ph Hk Hm Hp Hph H e He.
  destruct (pinv_run E c os 0 ph _ _ Hk Hm H Hp) as [HL _]; [split; [intros x []|apply hinv_new]|].
  destruct (HL e He) as [n [H1 [H2 [H3 [H4 [H5 H6]]]]]]. exists n. split; [exact H1|].
  destruct (ph =? 1)%nat eqn:E1; [apply Nat.eqb_eq in E1; contradiction|]. split; [repeat split; assumption|].
  destruct (ph =? 0)%nat; lia.
Qed.
Print Assumptions C61_glmb_history_length.

(** * C51: after predict no two hypotheses have the same set of tracks ... *)
Theorem C51_glmb_no_duplicates : forall {FS ST CV MS} (E : genv FS ST CV MS) c t s s', hash_ok (v_hash E) -> predict E c t s = Ok s' ->
  forall i j h1 h2, nth_error (g_hyps s') i = Some h1 -> nth_error (g_hyps s') j = Some h2 -> Permutation (h_ts h1) (h_ts h2) -> i = j.
Proof.
  intros FS ST CV MS E c t s s' Hh H i j h1 h2 H1 H2 HP. destruct (predict_inv _ _ _ _ _ H) as [btab [lc [paths [costs [bh [sh [_ [_ [_ [_ [_ [Eh _]]]]]]]]]]]].
  rewrite Eh in *. unfold clean_predictions in *. set (hs := set_pred_hyps _ _ _) in *. fold (fold_add E hs []) in H1, H2.
  rewrite nth_error_map in H1, H2. destruct (nth_error (fold_add E hs []) i) as [x|] eqn:Ex; [|discriminate]. destruct (nth_error (fold_add E hs []) j) as [y|] eqn:Ey; [|discriminate].
  cbn in H1, H2. inversion H1; inversion H2; subst h1 h2.
  assert (K : forall x, In x (fold_add E hs []) -> fst x = v_hash E (sort_nat (h_ts (snd x)))) by (apply fold_add_key; intros z []).
  assert (Hf : fst x = fst y) by (rewrite (K x (nth_error_In _ _ Ex)), (K y (nth_error_In _ _ Ey)); f_equal; apply sort_eq_perm, HP).
  pose proof (fold_add_nodup E hs [] (NoDup_nil _)) as N. rewrite NoDup_nth_error in N. apply N.
  - rewrite map_length. apply nth_error_Some. congruence.
  - rewrite !nth_error_map, Ex, Ey. cbn. congruence.
Qed.
Print Assumptions C51_glmb_no_duplicates.
(** ... and merging moves no probability between track sets: every predicate that
    ignores the order of the tracks has the same probability before and after. *)
Theorem C51_merge_preserves_mass : forall {FS ST CV MS} (E : genv FS ST CV MS) (f : list nat -> bool) hs, hash_ok (v_hash E) ->
  (forall a b, Permutation a b -> f a = f b) -> mass (fun h => f (h_ts h)) (clean_predictions E hs) = mass (fun h => f (h_ts h)) hs.
Proof.
  intros FS ST CV MS E f hs Hh Hf. unfold clean_predictions. fold (fold_add E hs []).
  set (m := fun u : list (Z * hyp) => mass (fun h => f (h_ts h)) (map snd u)).
  assert (A : forall h u, (forall x, In x u -> fst x = v_hash E (sort_nat (h_ts (snd x)))) ->
            m (add_hyp (v_hash E (sort_nat (h_ts h))) h u) = m u + (if f (h_ts h) then h_p h else 0)).
  { intros h u. unfold m, mass. induction u as [|[k h'] u IH]; intros K.
    - cbn [add_hyp map snd filter]. destruct (f (h_ts h)); cbn [map]; rewrite ?rsum_cons; change (rsum []) with 0; lra.
    - cbn [add_hyp]. destruct (Z.eqb_spec (v_hash E (sort_nat (h_ts h))) k) as [Ek|_].
      + assert (Hp : Permutation (h_ts h) (h_ts h')).
        { apply sort_eq_perm, Hh. rewrite Ek. exact (K _ (or_introl eq_refl)). }
        cbn [map snd filter h_ts]. rewrite <- (Hf _ _ Hp). destruct (f (h_ts h)); cbn [map h_p]; rewrite ?rsum_cons; lra.
      + specialize (IH (fun x Hx => K x (or_intror Hx))). cbn [map snd filter]. destruct (f (h_ts h')); cbn [map]; rewrite ?rsum_cons; lra. }
  assert (B : forall hs u, (forall x, In x u -> fst x = v_hash E (sort_nat (h_ts (snd x)))) -> m (fold_add E hs u) = m u + mass (fun h => f (h_ts h)) hs).
  { clear hs. induction hs as [|h hs IH]; intros u K; [unfold mass; cbn [filter map]; change (rsum []) with 0; cbn [fold_add fold_left]; unfold fold_add; cbn [fold_left]; lra|].
    change (fold_add E (h :: hs) u) with (fold_add E hs (add_hyp (v_hash E (sort_nat (h_ts h))) h u)). rewrite IH.
    - rewrite A by exact K. unfold mass. cbn [filter]. destruct (f (h_ts h)); cbn [map]; rewrite ?rsum_cons; lra.
    - exact (fold_add_key E [h] u K). }
  rewrite <- (Rplus_0_l (mass _ hs)). change 0 with (m []). apply B. intros x [].
Qed.
Print Assumptions C51_merge_preserves_mass.

(** * C52: compaction after correct. *)
Theorem C52_glmb_compaction : forall {FS ST CV} (tab : list (option (entry FS ST CV))) hs tab' hs', clean_updates tab hs = (tab', hs') ->
  (** exactly the tracks that exist and are used by some hypothesis, in their order *)
  (exists idx, StronglySorted lt idx /\
     (forall i, In i idx <-> (exists e, nth_error tab i = Some (Some e)) /\ exists h, In h hs /\ In i (h_ts h)) /\
     Forall2 (fun i e => nth_error tab i = Some (Some e)) idx tab') /\
  (** exactly the hypotheses all of whose tracks exist, in their order, with the same probability and the same tracks *)
  Forall2 (fun h h' => h_p h' = h_p h /\
             Forall2 (fun i k => exists e, nth_error tab i = Some (Some e) /\ nth_error tab' k = Some e) (h_ts h) (h_ts h'))
          (filter (usable tab) hs) hs'.
Proof.
  intros FS ST CV tab hs tab' hs' H. rewrite clean_updates_eq in H. injection H as <- <-. split.
  - exists (nnz_inds tab hs). split; [|split].
    + unfold nnz_inds. generalize (fun i => match nth i tab None with Some _ => used_in hs i | None => false end) as f. intros f. generalize 0%nat as st.
      generalize (length tab) as n. induction n as [|n IH]; intros st; [constructor|]. cbn [seq filter]. destruct (f st); [|apply IH]. constructor; [apply IH|].
      apply Forall_forall. intros x Hx. apply filter_In in Hx as [Hx _]. apply in_seq in Hx. lia.
    + intros i. apply nnz_in.
    + assert (HS : forall i, In i (nnz_inds tab hs) -> exists e, nth_error tab i = Some (Some e)) by (intros i Hi; apply nnz_in in Hi as [Hi _]; exact Hi).
      revert HS. generalize (nnz_inds tab hs) as l. induction l as [|i l IH]; intros HS; [constructor|].
      destruct (HS i (or_introl eq_refl)) as [e He]. unfold pick. cbn [flat_map]. rewrite (nth_error_nth _ _ _ He). cbn [app]. constructor; [exact He|].
      apply IH. intros j Hj. apply HS. right. exact Hj.
  - assert (HU : forall h, In h hs -> if usable tab h then exists h', reindex (nnz_inds tab hs) h = [h'] else reindex (nnz_inds tab hs) h = []).
    { intros h Hh. destruct (usable tab h) eqn:Eu.
      - apply reindex_all; [exact Hh|]. intros i Hi. unfold usable in Eu. rewrite forallb_forall in Eu. specialize (Eu i Hi).
        destruct (nth_error tab i) as [[e|]|] eqn:En; [eauto| |].
        + rewrite (nth_error_nth _ _ _ En) in Eu. discriminate.
        + apply nth_error_None in En. rewrite nth_overflow in Eu by exact En. discriminate.
      - unfold reindex. destruct (all_some _) as [ts|] eqn:Ea; [|reflexivity]. exfalso. apply all_some_ok in Ea.
        assert (usable tab h = true); [|congruence]. apply forallb_forall. intros i Hi.
        assert (Hin : In (index_of i (nnz_inds tab hs)) (map Some ts)) by (rewrite <- Ea; apply in_map_iff; eauto).
        apply in_map_iff in Hin as [k [Hk _]]. symmetry in Hk. apply index_of_some, nth_error_In, nnz_some in Hk as [e He]. rewrite He. reflexivity. }
    assert (G : forall l, (forall h, In h l -> In h hs) -> Forall2 (fun h h' => h_p h' = h_p h /\
        Forall2 (fun i k => exists e, nth_error tab i = Some (Some e) /\ nth_error (pick tab (nnz_inds tab hs)) k = Some e) (h_ts h) (h_ts h'))
       (filter (usable tab) l) (flat_map (reindex (nnz_inds tab hs)) l)).
    { induction l as [|h l IH]; intros Hl; [constructor|]. cbn [filter flat_map]. pose proof (HU h (Hl h (or_introl eq_refl))) as Hh. destruct (usable tab h).
      - destruct Hh as [h' Eh']. rewrite Eh'. cbn [app].
        assert (Hi : In h' (reindex (nnz_inds tab hs) h)) by (rewrite Eh'; left; reflexivity).
        constructor; [|apply IH; intros x Hx; apply Hl; right; exact Hx]. split; [apply (reindex_in _ _ _ Hi)|].
        exact (reindex_view tab hs h h' (Hl h (or_introl eq_refl)) Hi).
      - rewrite Hh. apply IH. intros x Hx. apply Hl. right. exact Hx. }
    apply G. auto.
Qed.
Print Assumptions C52_glmb_compaction.

(** * C53: pruning. *)
Theorem C53_glmb_prune : forall {FS ST CV MS} c (s : glmb FS ST CV MS), (forall h, In h (g_hyps s) -> 0 < h_p h) ->
  let above := filter (fun h => if Rlt_dec (c_prune c) (h_p h) then true else false) (g_hyps s) in
  exists k, Forall2 (fun h h' => h_ts h' = h_ts h /\ h_p h' = k * h_p h) above (g_hyps (prune c s)) /\
    (above <> [] -> 0 < k /\ rsum (map h_p (g_hyps (prune c s))) = 1) /\
    g_tab (prune c s) = g_tab s /\ g_ext (prune c s) = g_ext s /\ g_cnt (prune c s) = g_cnt s.
Proof.
  intros FS ST CV MS c s Hp above. exists (/ rsum (map h_p above)).
  assert (Hpa : forall h, In h above -> 0 < h_p h) by (intros h Hh; apply filter_In in Hh as [Hh _]; auto). split; [|split].
  - cbn [prune with_hyps g_hyps]. fold above. unfold rescale. generalize (rsum (map h_p above)) as t. intros t.
    clear. induction above as [|h l IH]; [constructor|]. cbn [map]. constructor; [|exact IH]. cbn. split; [reflexivity|unfold Rdiv; ring].
  - intros Hne. split; [apply Rinv_0_lt_compat, rsum_allpos; assumption|]. cbn [prune with_hyps g_hyps]. fold above. apply rescale_dist; assumption.
  - repeat split.
Qed.
Print Assumptions C53_glmb_prune.

(** * C54: capping. *)
Lemma nodup_firstn {A} n (l : list A) : NoDup l -> NoDup (firstn n l).
Proof.
  intros H. revert n. induction H as [|x l Hx _ IH]; intros [|n]; cbn [firstn]; constructor; [|apply IH].
  intros Hi. apply Hx. rewrite <- (firstn_skipn n l). apply in_or_app. left. exact Hi.
Qed.
Theorem C54_glmb_cap : forall {FS ST CV MS} (E : genv FS ST CV MS) c s, rsorts (v_argsort E) -> (forall h, In h (g_hyps s) -> 0 < h_p h) ->
  ((length (g_hyps s) <= c_maxh c)%nat -> cap E c s = s) /\
  ((c_maxh c < length (g_hyps s))%nat ->
     exists kept k, length kept = c_maxh c /\ NoDup kept /\ (forall i, In i kept -> (i < length (g_hyps s))%nat) /\
       (** a kept hypothesis is at least as probable as a dropped one *)
       (forall i j hi hj, In i kept -> ~ In j kept -> nth_error (g_hyps s) i = Some hi -> nth_error (g_hyps s) j = Some hj -> h_p hj <= h_p hi) /\
       (** the result: the kept ones, rescaled by one factor, most probable first *)
       Forall2 (fun i h' => exists h, nth_error (g_hyps s) i = Some h /\ h_ts h' = h_ts h /\ h_p h' = k * h_p h) kept (g_hyps (cap E c s)) /\
       ((0 < c_maxh c)%nat -> 0 < k /\ rsum (map h_p (g_hyps (cap E c s))) = 1) /\
       g_tab (cap E c s) = g_tab s /\ g_ext (cap E c s) = g_ext s /\ g_cnt (cap E c s) = g_cnt s).
Proof.
  intros FS ST CV MS E c s Hs Hp. split.
  - intros Hl. unfold cap. destruct (_ <? _)%nat eqn:El; [apply Nat.ltb_lt in El; lia|reflexivity].
  - intros Hl. set (hs := g_hyps s) in *. set (ws := map h_p hs). destruct (Hs ws) as [P So]. set (o := v_argsort E ws) in *.
    assert (Lw : length ws = length hs) by apply map_length. assert (Lo : length o = length hs) by (rewrite (Permutation_length P), seq_length; exact Lw).
    set (kept := firstn (c_maxh c) (rev o)). exists kept.
    set (dd := {| h_p := 0; h_ts := [] |}). set (sel := map (fun i => nth i hs dd) kept). exists (/ rsum (map h_p sel)).
    assert (Hno : NoDup (rev o)) by (apply NoDup_rev; eapply Permutation_NoDup; [apply Permutation_sym, P|apply seq_NoDup]).
    assert (Hin : forall i, In i (rev o) <-> (i < length hs)%nat).
    { intros i. rewrite <- in_rev. split; [intros Hi; apply (Permutation_in _ P), in_seq in Hi; lia|intros Hi; apply (Permutation_in _ (Permutation_sym P)), in_seq; lia]. }
    assert (Hk : forall i, In i kept -> (i < length hs)%nat).
    { intros i Hi. apply Hin. rewrite <- (firstn_skipn (c_maxh c)). apply in_or_app. left. exact Hi. }
    assert (Hcap : g_hyps (cap E c s) = rescale sel).
    { unfold cap. fold hs. destruct (_ <? _)%nat eqn:El; [reflexivity|apply Nat.ltb_ge in El; lia]. }
    assert (Lk : length kept = c_maxh c) by (unfold kept; rewrite firstn_length, rev_length; lia).
    split; [exact Lk|]. split; [|split; [exact Hk|split; [|split; [|split]]]].
    + exact (nodup_firstn _ _ Hno).
    + intros i j hi hj Hi Hj Ni Nj.
      assert (Hjl : (j < length hs)%nat) by (apply nth_error_Some; congruence).
      assert (Hjs : In j (skipn (c_maxh c) (rev o))).
      { assert (Hjo : In j (rev o)) by (apply Hin, Hjl). rewrite <- (firstn_skipn (c_maxh c)) in Hjo. apply in_app_or in Hjo as [Hjo|Hjo]; [contradiction|exact Hjo]. }
      apply (In_nth _ _ 0%nat) in Hi as [a [Ha Ea]]. apply (In_nth _ _ 0%nat) in Hjs as [b [Hb Eb]]. unfold kept in Ha, Ea.
      rewrite firstn_length, rev_length in Ha. rewrite skipn_length, rev_length in Hb. rewrite nth_firstn' in Ea by lia. rewrite nth_skipn' in Eb.
      rewrite rev_nth in Ea by lia. rewrite rev_nth in Eb by lia. specialize (So (length o - S (c_maxh c + b))%nat (length o - S a)%nat ltac:(lia)). rewrite Ea, Eb in So.
      unfold ws in So. rewrite (nth_error_nth (map h_p hs) j 0 (map_nth_error h_p j hs Nj)), (nth_error_nth (map h_p hs) i 0 (map_nth_error h_p i hs Ni)) in So. exact So.
    + rewrite Hcap. unfold rescale. generalize (rsum (map h_p sel)) as t. intros t. unfold sel. clear -Hk. induction kept as [|i l IH]; [constructor|]. cbn [map]. constructor.
      * destruct (nth_error hs i) as [h|] eqn:En; [|apply nth_error_None in En; specialize (Hk i (or_introl eq_refl)); lia].
        exists h. split; [reflexivity|]. rewrite (nth_error_nth _ _ dd En). cbn. split; [reflexivity|unfold Rdiv; ring].
      * apply IH. intros j Hj. apply Hk. right. exact Hj.
    + intros Hm. assert (Hsel : sel <> []) by (intros E0; apply (f_equal (@length _)) in E0; unfold sel in E0; rewrite map_length, Lk in E0; cbn in E0; lia).
      assert (Hps : forall h, In h sel -> 0 < h_p h) by (intros h Hh; apply in_map_iff in Hh as [i [<- Hi]]; apply Hp, nth_In, Hk, Hi).
      split; [apply Rinv_0_lt_compat, rsum_allpos; assumption|]. rewrite Hcap. apply rescale_dist; assumption.
    + unfold cap. destruct (_ <? _)%nat; repeat split.
Qed.
Print Assumptions C54_glmb_cap.
