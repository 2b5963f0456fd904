(** GLMB: the standard cycle never raises; pruning and capping. *)
From Verif Require Import Base Lists.
From Coq Require Import Reals Permutation Lra.
From Verif Require Import OspaModel CphdModel OspaProofs CphdSpec CphdProofs GlmbModel GlmbSpec GlmbProofs GlmbInv GlmbExtract GlmbMost.
Open Scope R_scope.

Lemma lnp_ok x : 0 < x -> lnp x = Ok (ln x).
Proof. intros H. unfold lnp. destruct (Rlt_dec 0 x); [reflexivity|contradiction]. Qed.
Lemma forallb_lt n l : (forall i, In i l -> (i < n)%nat) -> forallb (fun i => (i <? n)%nat) l = true.
Proof. intros H. apply forallb_forall. intros i Hi. apply Nat.ltb_lt. auto. Qed.
Lemma rescale_pos hs : (forall h, In h hs -> 0 < h_p h) -> forall h, In h (rescale hs) -> 0 < h_p h.
Proof.
  intros H h Hh. apply (rescale_dist hs); [|exact H|exact Hh]. intros E0. rewrite E0 in Hh. destruct Hh.
Qed.

Section T.
Context {FS ST CV MS : Type}.
Variable E : genv FS ST CV MS.
Notation entry := (entry FS ST CV).
Notation gcfg := (gcfg ST CV).
Notation glmb := (glmb FS ST CV MS).
Implicit Types (c : gcfg) (s : glmb).

(** ** prune and cap *)
Lemma prune_pos c s : (forall h, In h (g_hyps s) -> 0 < h_p h) -> forall h, In h (g_hyps (prune c s)) -> 0 < h_p h.
Proof. intros H. cbn [prune with_hyps g_hyps]. apply rescale_pos. intros h Hh. apply filter_In in Hh as [Hh _]. auto. Qed.
Definition keep_idx c s := firstn (c_maxh c) (rev (v_argsort E (map h_p (g_hyps s)))).
Lemma keep_range c s i : rsorts (v_argsort E) -> In i (keep_idx c s) -> (i < length (g_hyps s))%nat.
Proof.
  intros Hs Hi. unfold keep_idx in Hi. rewrite <- (firstn_skipn (c_maxh c) (rev (v_argsort E (map h_p (g_hyps s))))) in *.
  assert (H : In i (rev (v_argsort E (map h_p (g_hyps s))))).
  { rewrite firstn_skipn in Hi. rewrite <- (firstn_skipn (c_maxh c)). apply in_or_app. left. exact Hi. }
  apply in_rev in H. destruct (Hs (map h_p (g_hyps s))) as [P _]. apply (Permutation_in _ P), in_seq in H. rewrite map_length in H. lia.
Qed.
Lemma cap_pos c s : rsorts (v_argsort E) -> (forall h, In h (g_hyps s) -> 0 < h_p h) -> forall h, In h (g_hyps (cap E c s)) -> 0 < h_p h.
Proof.
  intros Hs H. unfold cap. destruct (_ <? _)%nat; [|exact H]. cbn [with_hyps g_hyps]. apply rescale_pos. intros h Hh.
  apply in_map_iff in Hh as [i [<- Hi]]. apply H, nth_In. apply (keep_range c s i Hs Hi).
Qed.
Lemma cleaned_pos c pr ca s : rsorts (v_argsort E) -> (forall h, In h (g_hyps s) -> 0 < h_p h) -> forall h, In h (g_hyps (cleaned E c pr ca s)) -> 0 < h_p h.
Proof.
  intros Hs H. unfold cleaned. cbn zeta.
  assert (H2 : forall h, In h (g_hyps (if pr then prune c (bump s) else bump s)) -> 0 < h_p h) by (destruct pr; [apply prune_pos; exact H|exact H]).
  destruct ca; [apply cap_pos; assumption|exact H2].
Qed.

(** ** totality *)
Lemma normalise_total hs : v_lse0 E = Ok tt -> exists r, normalise_log E hs = Ok r.
Proof. intros H. destruct hs; cbn; [rewrite H|]; eexists; reflexivity. Qed.
Lemma normalise_total' hs : hs <> [] -> exists r, normalise_log E hs = Ok r.
Proof. intros H. destruct hs; [congruence|]. cbn. eexists; reflexivity. Qed.
Lemma birth_cost_ok p : 0 < p < 1 -> exists x, birth_cost p = Ok x.
Proof.
  intros H. unfold birth_cost. destruct (Req_EM_T p 1); [lra|]. rewrite lnp_ok; [eexists; reflexivity|].
  apply Rdiv_lt_0_compat; lra.
Qed.
Lemma birth_tab_ok c t n : cfg_ok c -> exists r, gen_birth_tab E c t n = Ok r.
Proof.
  intros [H _]. unfold gen_birth_tab. destruct (mapM_all_ok (fun b => birth_cost (snd b)) (c_births c)) as [ys Ey].
  - intros [b p] Hb. apply birth_cost_ok. eapply H; eauto.
  - rewrite Ey. cbn [bind]. eexists; reflexivity.
Qed.
Lemma birth_hyps_ok c paths costs : cfg_ok c -> v_lse0 E = Ok tt -> exists r, gen_birth_hyps E c paths costs = Ok r.
Proof.
  intros [H _] Hl. unfold gen_birth_hyps. destruct (mapM_all_ok (fun b => lnp (1 - snd b)) (c_births c)) as [ys Ey].
  - intros [b p] Hb. cbn. rewrite lnp_ok; [eexists; reflexivity|]. specialize (H _ _ Hb). lra.
  - rewrite Ey. cbn [bind]. apply normalise_total, Hl.
Qed.
Lemma surv_hyp_ok c n ss h : cfg_ok c -> kshort_total (v_kshort E) -> kshort_ok (v_kshort E) -> 0 < h_p h -> (forall i, In i (h_ts h) -> (i < n)%nat) ->
  exists r, surv_hyp E c n ss h = Ok r.
Proof.
  intros [_ [Hps _]] Hk Ho Hp Hr. unfold surv_hyp. rewrite (lnp_ok (h_p h) Hp). destruct (h_ts h) as [|a ts] eqn:Et; [cbn [bind]; eexists; reflexivity|].
  rewrite forallb_lt by exact Hr. cbn [negb]. rewrite rdiv_val by lra. cbn [bind]. rewrite lnp_ok by (apply Rdiv_lt_0_compat; lra). cbn [bind].
  match goal with |- context[v_kshort E ?lc ?k] => destruct (Hk lc k) as [[paths costs] Ek]; rewrite Ek; destruct (Ho _ _ _ _ Ek) as [_ Hpt] end.
  cbn [bind]. rewrite lnp_ok by lra. cbn [bind].
  apply mapM_all_ok. intros [p x] Hpx. cbn [fst snd]. apply in_combine_l in Hpx. destruct (Hpt p Hpx) as [_ Hb].
  destruct (mapM_all_ok (geti (a :: ts)) p) as [ys Ey].
  - intros i Hi. specialize (Hb i Hi). rewrite map_length in Hb. destruct (nth_error (a :: ts) i) as [y|] eqn:En; [exists y; apply geti_ok, En|].
    apply nth_error_None in En. lia.
  - rewrite Ey. cbn [bind]. eexists; reflexivity.
Qed.
Lemma predict_total c t s : cfg_ok c -> kshort_total (v_kshort E) -> kshort_ok (v_kshort E) -> v_lse0 E = Ok tt -> (forall h, In h (g_hyps s) -> 0 < h_p h) ->
  refs_ok (g_tab s) (g_hyps s) -> exists s', predict E c t s = Ok s'.
Proof.
  intros Hc Hk Ho Hl Hp Hr. unfold predict. destruct (birth_tab_ok c t (g_cnt s) Hc) as [[btab lcost] Eb]. rewrite Eb. cbn [bind].
  destruct (Hk lcost (c_reqb c)) as [[paths costs] Ek]. rewrite Ek. cbn [bind].
  destruct (birth_hyps_ok c paths costs Hc Hl) as [bh Eh]. rewrite Eh. cbn [bind].
  assert (Hsv : exists sh, gen_surv_hyps E c (length (g_tab s)) (g_hyps s) = Ok sh).
  { unfold gen_surv_hyps. match goal with |- context[surv_hyp E c ?n ?ss] => destruct (mapM_all_ok (surv_hyp E c n ss) (g_hyps s)) as [ys Ey] end.
    - intros h Hh. apply surv_hyp_ok; auto. intros i Hi. exact (Hr h i Hh Hi).
    - rewrite Ey. cbn [bind]. apply normalise_total, Hl. }
  destruct Hsv as [sh Es]. rewrite Es. cbn [bind]. eexists; reflexivity.
Qed.
Lemma correct_total c t meas s : cfg_ok c -> murty_total (v_murty E) -> v_lse0 E = Ok tt -> (forall h, In h (g_hyps s) -> 0 < h_p h) ->
  refs_ok (g_tab s) (g_hyps s) -> exists s', correct E c t meas s = Ok s'.
Proof.
  intros [_ [_ [Hpd [Hcr Hcd]]]] Hm Hl Hp Hr. unfold correct. destruct (gen_cor_tab E c t meas (g_tab s)) as [tab ac].
  assert (Hg : exists hs, gen_cor_hyps E c (length meas) (length (g_tab s)) ac (g_hyps s) = Ok hs).
  { unfold gen_cor_hyps. destruct (length meas) as [|nm] eqn:En.
    - destruct (mapM_all_ok (miss_hyp c (length (g_tab s))) (g_hyps s)) as [ys Ey].
      + intros h Hh. unfold miss_hyp. rewrite forallb_lt by (intros i Hi; exact (Hr h i Hh Hi)). cbn [negb].
        destruct (mapM_all_ok (fun _ : nat => lnp (1 - c_pd c)) (h_ts h)) as [zs Ez]; [intros x _; rewrite lnp_ok by lra; eexists; reflexivity|].
        rewrite Ez. cbn [bind]. rewrite lnp_ok by auto. cbn [bind]. eexists; reflexivity.
      + rewrite Ey. cbn [bind]. apply normalise_total, Hl.
    - match goal with |- context[mapM ?f (g_hyps s)] => destruct (mapM_all_ok f (g_hyps s)) as [ys Ey] end.
      + intros h Hh. unfold cor_hyp. assert (Hcl : 0 < c_crate c * c_cden c) by (apply Rmult_lt_0_compat; assumption).
        rewrite (lnp_ok (c_crate c * c_cden c)) by exact Hcl. rewrite (lnp_ok (h_p h)) by auto. rewrite rdiv_val by lra. rewrite (lnp_ok (1 - c_pd c)) by lra.
        destruct (h_ts h) as [|a ts] eqn:Et; [cbn [bind]; eexists; reflexivity|].
        rewrite forallb_lt by (intros i Hi; apply (Hr h i Hh); rewrite Et; exact Hi). cbn [negb bind].
        match goal with |- context[v_murty E ?a ?b ?d ?e] => destruct (Hm a b d e) as [[rows costs] Em]; [cbn; lia|lia|rewrite Em] end.
        cbn [bind]. eexists; reflexivity.
      + rewrite Ey. cbn [bind]. apply normalise_total, Hl. }
  destruct Hg as [hs Eg]. rewrite Eg. cbn [bind]. destruct (clean_updates tab hs). eexists; reflexivity.
Qed.
Lemma predict_pos c t s s' : predict E c t s = Ok s' -> forall h, In h (g_hyps s') -> 0 < h_p h.
Proof.
  intros H h Hh. apply (predict_dist E _ _ _ _ H); [|exact Hh]. intros E0. rewrite E0 in Hh. destruct Hh.
Qed.
Lemma correct_pos c t meas s s' : correct E c t meas s = Ok s' -> forall h, In h (g_hyps s') -> 0 < h_p h.
Proof.
  intros H h Hh. destruct (correct_inv _ _ _ _ _ _ H) as [hs [Eg [_ [Eh _]]]]. rewrite Eh in Hh. apply in_flat_map in Hh as [h0 [H0 H1]].
  apply reindex_in in H1 as [-> _]. apply (cor_hyps_dist E _ _ _ _ _ _ Eg); [|exact H0]. intros E0. rewrite E0 in H0. destruct H0.
Qed.

Definition RInv c s : Prop := CInv c 0 s /\ (forall h, In h (g_hyps s) -> 0 < h_p h).
Lemma extract_none c u k s : g_card s <> [] -> g_hyps s = [] -> exists s', extract_states c u k s = Ok (None, s').
Proof.
  intros Hc Hh. unfold extract_states. destruct (argmax_ok (g_card s) Hc) as [m Em]. rewrite Em, Hh. cbn [bind]. eexists; reflexivity.
Qed.
Lemma run_app c os1 os2 s : run E c (os1 ++ os2) s = (do s1 <- run E c os1 s; run E c os2 s1).
Proof.
  revert s. induction os1 as [|o os1 IH]; intros s; [reflexivity|]. cbn [run app]. destruct (exec E c o s) as [s1|e]; cbn [bind]; [apply IH|reflexivity].
Qed.
Lemma cycle_total c x s : cfg_ok c -> births_ok c -> kshort_total (v_kshort E) -> murty_total (v_murty E) -> kshort_ok (v_kshort E) -> murty_ok (v_murty E) ->
  v_lse0 E = Ok tt -> rsorts (v_argsort E) -> RInv c s -> exists s', run E c (cycle x) s = Ok s' /\ RInv c s'.
Proof.
  destruct x as [[t meas] [[pr ca] ex]]. intros Hc Hb Hkt Hmt Hk Hm Hl Hs [HC HP].
  destruct (predict_total c t s Hc Hkt Hk Hl HP) as [s1 E1]; [destruct HC as [[_ HI] _]; eapply hinv_refs; exact HI|].
  assert (R1 : run E c [OpPredict t] s = Ok s1) by (cbn [run exec]; rewrite E1; reflexivity).
  pose proof (cinv_run E c _ 0 1 _ _ Hk Hm Hb R1 eq_refl HC) as HC1. pose proof (predict_pos _ _ _ _ E1) as HP1.
  destruct (correct_total c t meas s1 Hc Hmt Hl HP1) as [s2 E2]; [destruct HC1 as [[_ HI] _]; eapply hinv_refs; exact HI|].
  assert (R2 : run E c [OpCorrect t meas] s1 = Ok s2) by (cbn [run exec]; rewrite E2; reflexivity).
  pose proof (cinv_run E c _ 1 2 _ _ Hk Hm Hb R2 eq_refl HC1) as HC2. pose proof (correct_pos _ _ _ _ _ E2) as HP2.
  assert (H3 : exists s3, cleanup E c pr ca ex s2 = Ok s3).
  { change (cleanup E c pr ca ex s2) with (if ex then do (_, s4) <- extract_states c true true (cleaned E c pr ca s2); Ok s4 else Ok (cleaned E c pr ca s2)).
    destruct ex; [|eexists; reflexivity]. set (s3 := cleaned E c pr ca s2).
    assert (HC3 : CInv c 0 s3).
    { assert (R3 : run E c [OpCleanup pr ca false] s2 = Ok s3) by reflexivity. exact (cinv_run E c _ 2 0 _ _ Hk Hm Hb R3 eq_refl HC2). }
    assert (Hcard : g_card s3 <> []).
    { apply (card_exec E c (OpCleanup pr ca false) s2 s3 eq_refl). right. destruct (correct_inv _ _ _ _ _ _ E2) as [hs [_ [_ [_ [Ec _]]]]]. rewrite Ec. apply calc_card_ne. }
    destruct (g_hyps s3) as [|h0 hs0] eqn:Eh.
    - destruct (extract_none c true true s3 Hcard Eh) as [s4 E4]. rewrite E4. cbn [bind]. eexists; reflexivity.
    - assert (HE : Extractable c s3).
      { destruct HC3 as [[HL HI] [HS HX]]. split; [exact Hcard|]. split; [congruence|]. split; [eapply hinv_refs; exact HI|]. split; [intros e He; split; auto|exact HX]. }
      destruct (extract_ok c true true s3 HE) as [i [s4 E4]]. rewrite E4. cbn [bind]. eexists; reflexivity. }
  destruct H3 as [s3 E3]. exists s3. split.
  - cbn [cycle run exec]. rewrite E1. cbn [bind]. rewrite E2. cbn [bind]. rewrite E3. reflexivity.
  - split.
    + assert (R3 : run E c [OpCleanup pr ca ex] s2 = Ok s3) by (cbn [run exec]; rewrite E3; reflexivity). exact (cinv_run E c _ 2 0 _ _ Hk Hm Hb R3 eq_refl HC2).
    + destruct (cleanup_inv _ _ _ _ _ _ _ E3) as [_ [_ [_ [Eh _]]]]. rewrite Eh. apply cleaned_pos; assumption.
Qed.
Lemma cycles_total c xs : cfg_ok c -> births_ok c -> kshort_total (v_kshort E) -> murty_total (v_murty E) -> kshort_ok (v_kshort E) -> murty_ok (v_murty E) ->
  v_lse0 E = Ok tt -> rsorts (v_argsort E) -> exists s', run E c (flat_map cycle xs) glmb_new = Ok s'.
Proof.
  intros Hc Hb Hkt Hmt Hk Hm Hl Hs.
  assert (H : forall xs s, RInv c s -> exists s', run E c (flat_map cycle xs) s = Ok s').
  { induction xs0 as [|x xs0 IH]; intros s HR; [eexists; reflexivity|]. cbn [flat_map]. rewrite run_app.
    destruct (cycle_total c x s Hc Hb Hkt Hmt Hk Hm Hl Hs HR) as [s1 [E1 HR1]]. rewrite E1. cbn [bind]. apply IH, HR1. }
  apply H. split; [apply cinv_new|]. intros h [<-|[]]. cbn. lra.
Qed.
End T.
