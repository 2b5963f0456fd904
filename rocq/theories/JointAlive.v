(** The joint classes keep for every hypothesis the outcome "all births appear, all
    tracks survive, nothing is detected" (C191), when a cleanup leaves a hypothesis,
    and what happens to a joint filter without hypotheses (C192). *)
From Verif Require Import Base Lists.
From Coq Require Import Reals Permutation Lra Lia.
From Verif Require Import OspaModel CphdModel OspaProofs CphdSpec CphdProofs CphdProps OspaMetric GlmbModel GlmbSpec GlmbProofs GlmbInv GlmbExtract GlmbMost GlmbTotal GlmbProps GlmbProps2 GlmbProps4 GlmbDemo GlmbProps3 GlmbMost2 LibPositive.
From Verif Require Import JglmbModel JglmbSpec JglmbProofs JglmbInv GibbsReal JglmbGibbs JglmbProps JglmbTotal JglmbBayes JglmbDemo.
From Verif Require Import SmcModel SmcSpec SmcProofs SmcBayes SmcUpd SmcTotal SmcProps SmcDemo SmcDemo2 SmcJModel SmcJProofs SmcJProps SmcJDemo NewestAll NewestDemo.
Open Scope R_scope.

(** ** specification *)
(** Some hypothesis of the corrected filter has the tracks [es] (in any order),
    each with "no measurement" as its last association. *)
Definition all_missed_kept {FS ST CV MS} (es : list (GlmbModel.entry FS ST CV)) (s' : jst FS ST CV MS) : Prop :=
  exists h', In h' (g_hyps (y_g s')) /\ Permutation (tracks (g_tab (y_g s')) h') (map (add_assoc None) es).

(** ** proofs *)
Lemma decode_start n tind : decode n tind (seq (length tind) (length tind)) = tind.
Proof.
  unfold decode. cbv zeta. set (nt := length tind).
  assert (H : forall l a, (a + length l <= 2 * nt)%nat -> (nt <= a)%nat ->
    flat_map (fun iv : nat * nat => let '(i, v) := iv in if (v <? nt)%nat then [] else if (v <? 2 * nt)%nat then [i] else [(n * (v - 2 * nt + 1) + i)%nat]) (combine l (seq a (length l))) = l).
  { induction l as [|i l IH]; intros a Ha Hn; [reflexivity|]. cbn [length] in Ha. cbn [length seq combine flat_map].
    destruct (a <? nt)%nat eqn:E1; [apply Nat.ltb_lt in E1; lia|]. destruct (a <? 2 * nt)%nat eqn:E2; [|apply Nat.ltb_ge in E2; lia].
    cbn [app]. f_equal. apply IH; lia. }
  apply H; unfold nt; lia.
Qed.
Lemma jcor_missed {FS ST CV MS} (E : genv FS ST CV MS) G c k n m ac call hs r h : gibbs_ok G -> gibbs_start G ->
  jcor_hyps E G c k n m ac call hs = Ok r -> In h hs -> (forall i, In i (tindices c h) -> (i < n)%nat) /\ exists h', In h' r /\ h_ts h' = tindices c h.
Proof.
  intros Hg Hs H Hh. unfold jcor_hyps in H. cbv zeta in H. apply bind_ok in H as [ll [E1 H]]. set (ssum := rsum _) in *.
  destruct (In_nth_error _ _ Hh) as [p Hp].
  assert (Hc : In ((call + p)%nat, h) (combine (seq call (length hs)) hs)).
  { apply (nth_error_In _ p). clear -Hp. revert call p Hp. induction hs as [|x hs IH]; intros call p Hp; [destruct p; discriminate|]. cbn [length seq combine].
    destruct p as [|p]; [cbn in Hp |- *; injection Hp as ->; rewrite Nat.add_0_r; reflexivity|]. cbn [nth_error] in *. replace (call + S p)%nat with (S call + p)%nat by lia. apply IH, Hp. }
  assert (Hl : exists l, In l ll /\ jcor_hyp G c k n m ac ssum (call + p) h = Ok l).
  { clear -E1 Hc. revert ll E1. induction (combine _ _) as [|x xs IH]; intros ll E1; [destruct Hc|]. cbn [mapM] in E1. apply bind_ok in E1 as [y [Ey E1]]. apply bind_ok in E1 as [ys [Eys E1]].
    injection E1 as <-. destruct Hc as [->|Hc]; [exists y; split; [left; reflexivity|exact Ey]|]. destruct (IH Hc ys Eys) as [l [Hl1 Hl2]]. exists l. split; [right; exact Hl1|exact Hl2]. }
  destruct Hl as [l [Hl Ej]]. unfold jcor_hyp in Ej. cbv zeta in Ej. destruct (forallb _ _) eqn:Ef; cbn [negb] in Ej; [|discriminate].
  split.
  { intros i Hi. rewrite forallb_forall in Ef. specialize (Ef i Hi). apply andb_prop in Ef as [Ef _]. apply Nat.ltb_lt, Ef. }
  apply bind_ok in Ej as [[rows costs] [G1 Ej]]. apply bind_ok in Ej as [l1 [_ Ej]]. apply bind_ok in Ej as [l2 [_ Ej]]. injection Ej as <-.
  set (nt := length (tindices c h)) in *.
  assert (L2 : (2 * nt <= 2 * nt + (if (nt =? 0)%nat then 0 else m))%nat) by lia.
  match type of G1 with G _ _ _ _ ?it = _ => assert (Li : (1 <= it)%nat) by lia end.
  destruct (Hg _ _ _ _ _ _ _ L2 Li G1) as [Lr _]. pose proof (Hs _ _ _ _ _ _ _ L2 Li G1) as Hin.
  destruct (in_combine_ex rows costs _ Lr Hin) as [x Hx].
  assert (Hts : In (tindices c h) (map h_ts (concat ll))).
  { apply in_map_iff. eexists. split; [|apply in_concat; eexists; split; [exact Hl|apply in_map_iff; exists (seq nt nt, x); split; [reflexivity|exact Hx]]].
    cbn [h_ts fst]. apply decode_start. }
  rewrite <- (normalise_ts E _ _ H) in Hts. apply in_map_iff in Hts as [h' [A B]]. exists h'. split; [exact B|exact A].
Qed.
Lemma keep_missed {FS ST CV MS} (E : genv FS ST CV MS) cor hs h1 es : hash_ok (v_hash E) -> In h1 hs -> Forall2 (fun i (e : GlmbModel.entry FS ST CV) => nth_error cor i = Some (Some e)) (h_ts h1) es ->
  let cp := clean_predictions E hs in exists h', In h' (flat_map (reindex (nnz_inds cor cp)) cp) /\ Permutation (tracks (GlmbProofs.pick cor (nnz_inds cor cp)) h') es.
Proof.
  intros HH Hh HF. cbv zeta. destruct (clean_keeps E hs h1 HH Hh) as [h2 [H2 Hp]]. set (cp := clean_predictions E hs) in *.
  assert (Hall : forall i, In i (h_ts h2) -> In i (nnz_inds cor cp)).
  { intros i Hi. apply nnz_in. split; [|exists h2; split; assumption]. pose proof (Permutation_in _ Hp Hi) as Hi1.
    destruct (In_nth_error _ _ Hi1) as [q Hq]. destruct (F2_nth_l _ _ _ _ _ HF Hq) as [e [_ He]]. exists e. exact He. }
  assert (Hr : exists h', In h' (reindex (nnz_inds cor cp) h2)).
  { unfold reindex. destruct (all_some (map (fun i => index_of i (nnz_inds cor cp)) (h_ts h2))) as [ts|] eqn:Ea; [eexists; left; reflexivity|exfalso].
    revert Ea Hall. clear. induction (h_ts h2) as [|i l IH]; cbn [map all_some]; [discriminate|]. intros Ea Hall.
    destruct (index_of i (nnz_inds cor cp)) as [q|] eqn:Ei; [|apply index_of_none in Ei; apply Ei, Hall; left; reflexivity].
    destruct (all_some (map _ l)) eqn:El; [discriminate|]. apply IH; [reflexivity|]. intros j Hj. apply Hall. right. exact Hj. }
  destruct Hr as [h' Hr]. exists h'. split; [apply in_flat_map; exists h2; split; assumption|].
  pose proof (reindex_view cor cp h2 h' H2 Hr) as HV.
  (* entries in the order of h2 *)
  assert (Hes : exists es2, Permutation es2 es /\ Forall2 (fun i e => nth_error cor i = Some (Some e)) (h_ts h2) es2).
  { clear -Hp HF. apply Permutation_sym in Hp. revert Hp es HF. generalize (h_ts h1) as a, (h_ts h2) as b. intros a b Hp. induction Hp as [|x a b Hp IH|x y a|a b d H1 IH1 H2 IH2]; intros es HF.
    - inversion HF; subst. exists []. split; constructor.
    - inversion HF as [|? e ? es' He HF']; subst. destruct (IH es' HF') as [es2 [P F]]. exists (e :: es2). split; [constructor; exact P|constructor; assumption].
    - inversion HF as [|? e ? es' He HF']; subst. inversion HF' as [|? e' ? es'' He' HF'']; subst. exists (e' :: e :: es''). split; [constructor|]. repeat constructor; assumption.
    - destruct (IH1 es HF) as [es2 [P F]]. destruct (IH2 es2 F) as [es3 [P3 F3]]. exists es3. split; [etransitivity; eassumption|exact F3]. }
  destruct Hes as [es2 [P F]]. rewrite <- P. assert (Heq : tracks (GlmbProofs.pick cor (nnz_inds cor cp)) h' = es2); [|rewrite Heq; reflexivity].
  apply tracks_view. clear -HV F. revert es2 F. induction HV as [|i q a b [e [H1 H2]] HV IH]; intros es2 F; inversion F as [|? e' ? es' He F']; subst; constructor; [|apply IH; assumption].
  rewrite H2. congruence.
Qed.
Lemma missed_row {FS ST CV} (tab : list (GlmbModel.entry FS ST CV)) rest l es : Forall2 (fun i e => nth_error tab i = Some e) l es ->
  Forall2 (fun i e => nth_error (map (fun e => Some (add_assoc None e)) tab ++ rest) i = Some (Some e)) l (map (add_assoc None) es).
Proof.
  intros H. induction H as [|i e l es He H IH]; cbn [map]; constructor; [|exact IH].
  rewrite nth_error_app1 by (rewrite map_length; apply nth_error_Some; congruence). rewrite nth_error_map, He. reflexivity.
Qed.

(** * C191 *)
Theorem C191_jglmb_all_missed_kept : forall {FS ST CV MS} (E : genv FS ST CV MS) rnd gt c t meas s s' h,
  uniform rnd -> hash_ok (v_hash E) -> jcorrect E (sampler_of rnd) gt c t meas s = Ok s' -> In h (g_hyps (y_g s)) ->
  all_missed_kept (jtracks (length (c_births c)) (g_tab (y_g s)) h) s'.
Proof.
  intros FS ST CV MS E rnd gt c t meas s s' h Hr HH H Hh.
  destruct (jcorrect_inv _ _ _ _ _ _ _ _ H) as [hs X0]. cbn zeta in X0. destruct X0 as [_ [_ [E1 [Et [Eh _]]]]].
  destruct (jcor_missed _ _ _ _ _ _ _ _ _ _ h (uniform_ok _ Hr) (sampler_start _ Hr) E1 Hh) as [Hlt [h1 [H1 Hts]]].
  unfold all_missed_kept. rewrite Et, Eh. apply (keep_missed E _ hs h1); [exact HH|exact H1|]. rewrite Hts.
  unfold gen_cor_tab. cbv zeta. cbn [fst]. apply missed_row. exact (jtracks_view c (g_tab (y_g s)) h Hlt).
Qed.
Print Assumptions C191_jglmb_all_missed_kept.
Theorem C191_smc_jglmb_all_missed_kept : forall {P X ST CV MS} (Z : senv P X ST CV MS) rnd gt pdf c bs t meas s s' h,
  uniform rnd -> hash_ok (v_hash (z_g Z)) -> sjcorrect (sampler_of rnd) Z gt pdf c bs t meas s = Ok s' -> In h (g_hyps (y_g s)) ->
  all_missed_kept (jtracks (length bs) (g_tab (y_g s)) h) s'.
Proof.
  intros P X ST CV MS Z rnd gt pdf c bs t meas s s' h Hr HH H Hh.
  destruct (sjcorrect_inv _ _ _ _ _ _ _ _ _ _ H) as [rows [hs X0]]. cbn zeta in X0. destruct X0 as [_ [_ [E1 [Et [Eh _]]]]].
  destruct (jcor_missed _ _ _ _ _ _ _ _ _ _ h (uniform_ok _ Hr) (sampler_start _ Hr) E1 Hh) as [Hlt [h1 [H1 Hts]]].
  unfold all_missed_kept. rewrite Et, Eh. apply (keep_missed (z_g Z) _ hs h1); [exact HH|exact H1|]. rewrite Hts.
  unfold scor_tab. apply missed_row. replace (length bs) with (length (c_births (sjcfg c bs))) by (cbn; apply map_length). apply jtracks_view, Hlt.
Qed.
Print Assumptions C191_smc_jglmb_all_missed_kept.

(** * C192 *)
(** When a cleanup leaves a hypothesis (all GLMB classes share cleanup). *)
Theorem C192_cleanup_survivors : forall {FS ST CV MS} (E : genv FS ST CV MS) c pr ca ex (s s' : glmb FS ST CV MS),
  rsorts (v_argsort E) -> cleanup E c pr ca ex s = Ok s' ->
  (g_hyps s' <> [] <-> (exists h, In h (g_hyps s) /\ (pr = true -> c_prune c < h_p h)) /\ (ca = true -> (1 <= c_maxh c)%nat)).
Proof.
  intros FS ST CV MS E c pr ca ex s s' Hs H. destruct (cleanup_inv _ _ _ _ _ _ _ H) as [_ [_ [_ [-> _]]]].
  unfold cleaned. cbv zeta. set (s1 := if pr then prune c (bump s) else bump s).
  assert (H1 : g_hyps s1 <> [] <-> exists h, In h (g_hyps s) /\ (pr = true -> c_prune c < h_p h)).
  { unfold s1. destruct pr.
    - cbn [prune with_hyps g_hyps bump]. unfold rescale. destruct (filter _ _) as [|x l] eqn:Ef.
      + split; [intros Hn; exfalso; apply Hn; reflexivity|]. intros [h [A B]]. exfalso. assert (Hi : In h (filter (fun h => if Rlt_dec (c_prune c) (h_p h) then true else false) (g_hyps s))).
        { apply filter_In. split; [exact A|]. destruct (Rlt_dec _ _) as [|Hn]; [reflexivity|]. exfalso. apply Hn, B. reflexivity. }
        rewrite Ef in Hi. destruct Hi.
      + split; [|intros _; discriminate]. intros _. assert (Hi : In x (filter (fun h => if Rlt_dec (c_prune c) (h_p h) then true else false) (g_hyps s))) by (rewrite Ef; left; reflexivity).
        apply filter_In in Hi as [A B]. exists x. split; [exact A|]. intros _. destruct (Rlt_dec _ _); [assumption|discriminate].
    - cbn [bump g_hyps]. split; [intros Hn; destruct (g_hyps s) as [|x l]; [exfalso; apply Hn; reflexivity|]; exists x; split; [left; reflexivity|discriminate]|].
      intros [h [A _]] E0. rewrite E0 in A. destruct A. }
  destruct ca; [|rewrite H1; split; [intros A; split; [exact A|discriminate]|intros [A _]; exact A]].
  unfold cap. destruct (c_maxh c <? length (g_hyps s1))%nat eqn:El.
  - apply Nat.ltb_lt in El. cbn [with_hyps g_hyps]. unfold rescale.
    destruct (Hs (map h_p (g_hyps s1))) as [Hp _]. pose proof (Permutation_length Hp) as Lp. rewrite seq_length, map_length in Lp.
    destruct (c_maxh c) as [|mh] eqn:Em.
    + cbn [firstn map]. split; [intros Hn; exfalso; apply Hn; reflexivity|]. intros [_ A]. specialize (A eq_refl). lia.
    + split; [|intros _].
      * intros _. split; [apply H1|intros _; lia]. intros E0. rewrite E0 in El. cbn in El. lia.
      * destruct (rev (v_argsort E (map h_p (g_hyps s1)))) as [|q l] eqn:Er; [apply (f_equal (@length _)) in Er; rewrite rev_length, Lp in Er; cbn in Er; lia|].
        cbn [firstn map]. discriminate.
  - apply Nat.ltb_ge in El. rewrite H1. split; [|intros [A _]; exact A]. intros A. split; [exact A|]. intros _. apply H1 in A. destruct (g_hyps s1); [congruence|cbn in El; lia].
Qed.
Print Assumptions C192_cleanup_survivors.

(** ** whole histories *)
Lemma clean_pos {FS ST CV MS} (E : genv FS ST CV MS) c pr ca ex (s s' : glmb FS ST CV MS) : rsorts (v_argsort E) -> cleanup E c pr ca ex s = Ok s' ->
  (forall h, In h (g_hyps s) -> 0 < h_p h) -> forall h, In h (g_hyps s') -> 0 < h_p h.
Proof. intros Hs H Hp. destruct (cleanup_inv _ _ _ _ _ _ _ H) as [_ [_ [_ [-> _]]]]. apply cleaned_pos; assumption. Qed.
Lemma clean_alive {FS ST CV MS} (E : genv FS ST CV MS) c pr ca ex (s s' : glmb FS ST CV MS) : rsorts (v_argsort E) -> (1 <= c_maxh c)%nat -> pr = false \/ c_prune c <= 0 ->
  cleanup E c pr ca ex s = Ok s' -> g_hyps s <> [] -> (forall h, In h (g_hyps s) -> 0 < h_p h) -> g_hyps s' <> [].
Proof.
  intros Hs Hm Hpr H Hne Hp. apply (C192_cleanup_survivors E c pr ca ex s s' Hs H). split; [|intros _; exact Hm].
  destruct (g_hyps s) as [|h l]; [congruence|]. exists h. split; [left; reflexivity|]. intros ->. destruct Hpr as [Hpr|Hpr]; [discriminate|].
  specialize (Hp h (or_introl eq_refl)). lra.
Qed.
Lemma extract_hyps {FS ST CV MS} c u k (s : glmb FS ST CV MS) o s' : extract_states c u k s = Ok (o, s') -> g_hyps s' = g_hyps s.
Proof. intros H. destruct (extract_tab _ _ _ _ _ _ H) as [_ [-> _]]. reflexivity. Qed.

(** Without pruning (or with a threshold that is not positive) and with room for a
    hypothesis, the joint filters never lose all hypotheses, whatever fails. *)
Theorem C191_jglmb_never_empty : forall {FS ST CV MS} (E : genv FS ST CV MS) rnd gt c os s,
  uniform rnd -> hash_ok (v_hash E) -> rsorts (v_argsort E) -> (1 <= c_maxh c)%nat ->
  c_prune c <= 0 \/ (forall ca ex, ~ In (OpCleanup true ca ex) os) ->
  jrun E (sampler_of rnd) gt c os jst_new = Ok s -> g_hyps (y_g s) <> [].
Proof.
  intros FS ST CV MS E rnd gt c os s Hr HH Hs Hm Hpr H.
  assert (X : forall s0 : jst FS ST CV MS, g_hyps (y_g s0) <> [] -> (forall h, In h (g_hyps (y_g s0)) -> 0 < h_p h) ->
    jrun E (sampler_of rnd) gt c os s0 = Ok s -> g_hyps (y_g s) <> []).
  { clear H. induction os as [|o os IH]; intros s0 Hn Hp H; cbn [jrun] in H; [injection H as <-; exact Hn|]. apply bind_ok in H as [s1 [H1 H]].
    assert (Hpr' : c_prune c <= 0 \/ (forall ca ex, ~ In (OpCleanup true ca ex) os)).
    { destruct Hpr as [Hpr|Hpr]; [left; exact Hpr|right]. intros ca ex Hi. apply (Hpr ca ex). right. exact Hi. }
    assert (S1 : g_hyps (y_g s1) <> [] /\ forall h, In h (g_hyps (y_g s1)) -> 0 < h_p h).
    { destruct o as [t|t meas|pr ca ex|u k]; cbn [jexec] in H1.
      - destruct (jpredict_inv _ _ _ _ _ H1) as [_ [-> _]]. split; assumption.
      - split; [|exact (jcorrect_pos E _ _ _ _ _ _ _ H1)]. destruct (g_hyps (y_g s0)) as [|h l] eqn:Eh; [congruence|].
        destruct (C191_jglmb_all_missed_kept E rnd gt c t meas s0 s1 h Hr HH H1) as [h' [Hh' _]]; [rewrite Eh; left; reflexivity|]. intros E0. rewrite E0 in Hh'. destruct Hh'.
      - apply bind_ok in H1 as [g [H1 H2]]. injection H2 as <-. cbn [with_g y_g]. split; [|exact (clean_pos E c pr ca ex _ _ Hs H1 Hp)].
        apply (clean_alive E c pr ca ex (y_g s0) g Hs Hm); [|exact H1|exact Hn|exact Hp]. destruct Hpr as [Hpr|Hpr]; [right; exact Hpr|]. destruct pr; [|left; reflexivity].
        exfalso. apply (Hpr ca ex). left. reflexivity.
      - apply bind_ok in H1 as [[o g] [H1 H2]]. injection H2 as <-. cbn [with_g y_g]. rewrite (extract_hyps _ _ _ _ _ _ H1). split; assumption. }
    destruct S1 as [A B]. exact (IH Hpr' s1 A B H). }
  apply (X jst_new); [discriminate| |exact H]. intros h [<-|[]]. cbn. lra.
Qed.
Print Assumptions C191_jglmb_never_empty.
Theorem C191_smc_jglmb_never_empty : forall {P X ST CV MS} rnd gt (vs : list (sjcall P X ST CV MS)) s,
  uniform rnd -> (forall Z c bs o, In (Z, c, bs, o) vs -> hash_ok (v_hash (z_g Z)) /\ rsorts (v_argsort (z_g Z)) /\ (1 <= c_maxh c)%nat /\
    (c_prune c <= 0 \/ forall ca ex, o <> SCleanup true ca ex)) ->
  sjrun (sampler_of rnd) gt vs jst_new = Ok s -> g_hyps (y_g s) <> [].
Proof.
  intros P X ST CV MS rnd gt vs s Hr Hv H.
  assert (XX : forall s0 : jst (pfs P X) ST CV MS, g_hyps (y_g s0) <> [] -> (forall h, In h (g_hyps (y_g s0)) -> 0 < h_p h) ->
    sjrun (sampler_of rnd) gt vs s0 = Ok s -> g_hyps (y_g s) <> []).
  { clear H. induction vs as [|[[[Z c] bs] o] vs IH]; intros s0 Hn Hp H; cbn [sjrun] in H; [injection H as <-; exact Hn|]. apply bind_ok in H as [s1 [H1 H]].
    destruct (Hv Z c bs o (or_introl eq_refl)) as [HH [Hs [Hm Hpr]]].
    assert (S1 : g_hyps (y_g s1) <> [] /\ forall h, In h (g_hyps (y_g s1)) -> 0 < h_p h).
    { destruct o as [psf t|pdf t meas|pr ca ex|u k]; cbn [sjexec] in H1.
      - destruct (sjpredict_inv _ _ _ _ _ _ _ H1) as [st [_ [_ [-> _]]]]. split; assumption.
      - split; [|exact (sjcorrect_pos _ Z _ _ _ _ _ _ _ _ H1)]. destruct (g_hyps (y_g s0)) as [|h l] eqn:Eh; [congruence|].
        destruct (C191_smc_jglmb_all_missed_kept Z rnd gt pdf c bs t meas s0 s1 h Hr HH H1) as [h' [Hh' _]]; [rewrite Eh; left; reflexivity|]. intros E0. rewrite E0 in Hh'. destruct Hh'.
      - apply bind_ok in H1 as [g [H1 H2]]. injection H2 as <-. cbn [with_g y_g]. split; [|exact (clean_pos (z_g Z) c pr ca ex _ _ Hs H1 Hp)].
        apply (clean_alive (z_g Z) c pr ca ex (y_g s0) g Hs Hm); [|exact H1|exact Hn|exact Hp]. destruct Hpr as [Hpr|Hpr]; [right; exact Hpr|]. destruct pr; [|left; reflexivity].
        exfalso. apply (Hpr ca ex). reflexivity.
      - apply bind_ok in H1 as [[o g] [H1 H2]]. injection H2 as <-. cbn [with_g y_g]. rewrite (extract_hyps _ _ _ _ _ _ H1). split; assumption. }
    destruct S1 as [A B]. apply (IH (fun Z c bs o Hi => Hv Z c bs o (or_intror Hi)) s1 A B H). }
  apply (XX jst_new); [discriminate| |exact H]. intros h [<-|[]]. cbn. lra.
Qed.
Print Assumptions C191_smc_jglmb_never_empty.

(** A joint filter without hypotheses never gets one back. *)
Lemma jcor_none {FS ST CV MS} (E : genv FS ST CV MS) G c k n m ac call r : jcor_hyps E G c k n m ac call [] = Ok r -> r = [].
Proof. intros H. unfold jcor_hyps in H. cbv zeta in H. cbn [length seq combine mapM bind concat normalise_log] in H. apply bind_ok in H as [u [_ H]]. injection H as <-. reflexivity. Qed.
Lemma cleaned_none {FS ST CV MS} (E : genv FS ST CV MS) c pr ca ex (s s' : glmb FS ST CV MS) : cleanup E c pr ca ex s = Ok s' -> g_hyps s = [] -> g_hyps s' = [].
Proof.
  intros H Hn. destruct (cleanup_inv _ _ _ _ _ _ _ H) as [_ [_ [_ [-> _]]]]. unfold cleaned. cbv zeta. set (s1 := if pr then prune c (bump s) else bump s).
  assert (H1 : g_hyps s1 = []) by (unfold s1; destruct pr; cbn [prune with_hyps g_hyps bump]; rewrite Hn; reflexivity).
  destruct ca; [|exact H1]. unfold cap. rewrite H1. cbn [length]. destruct (c_maxh c <? 0)%nat eqn:El; [apply Nat.ltb_lt in El; lia|exact H1].
Qed.
Theorem C192_jglmb_extinction_permanent : forall {FS ST CV MS} (E : genv FS ST CV MS) G gt c os s s',
  g_hyps (y_g s) = [] -> jrun E G gt c os s = Ok s' -> g_hyps (y_g s') = [].
Proof.
  intros FS ST CV MS E G gt c os. induction os as [|o os IH]; intros s s' Hn H; cbn [jrun] in H; [injection H as <-; exact Hn|]. apply bind_ok in H as [s1 [H1 H]].
  apply (IH s1 s'); [|exact H]. destruct o as [t|t meas|pr ca ex|u k]; cbn [jexec] in H1.
  - destruct (jpredict_inv _ _ _ _ _ H1) as [_ [-> _]]. exact Hn.
  - destruct (jcorrect_inv _ _ _ _ _ _ _ _ H1) as [hs X0]. cbn zeta in X0. destruct X0 as [_ [_ [E1 [_ [-> _]]]]]. rewrite Hn in E1. apply jcor_none in E1. subst hs. rewrite clean_nil. reflexivity.
  - apply bind_ok in H1 as [g [H1 H2]]. injection H2 as <-. exact (cleaned_none E c pr ca ex _ _ H1 Hn).
  - apply bind_ok in H1 as [[o g] [H1 H2]]. injection H2 as <-. cbn [with_g y_g]. rewrite (extract_hyps _ _ _ _ _ _ H1). exact Hn.
Qed.
Print Assumptions C192_jglmb_extinction_permanent.
Theorem C192_smc_jglmb_extinction_permanent : forall {P X ST CV MS} G gt (vs : list (sjcall P X ST CV MS)) s s',
  g_hyps (y_g s) = [] -> sjrun G gt vs s = Ok s' -> g_hyps (y_g s') = [].
Proof.
  intros P X ST CV MS G gt vs. induction vs as [|[[[Z c] bs] o] vs IH]; intros s s' Hn H; cbn [sjrun] in H; [injection H as <-; exact Hn|]. apply bind_ok in H as [s1 [H1 H]].
  apply (IH s1 s'); [|exact H]. destruct o as [psf t|pdf t meas|pr ca ex|u k]; cbn [sjexec] in H1.
  - destruct (sjpredict_inv _ _ _ _ _ _ _ H1) as [st [_ [_ [-> _]]]]. exact Hn.
  - destruct (sjcorrect_inv _ _ _ _ _ _ _ _ _ _ H1) as [rows [hs X0]]. cbn zeta in X0. destruct X0 as [_ [_ [E1 [_ [-> _]]]]]. rewrite Hn in E1. apply jcor_none in E1. subst hs. rewrite clean_nil. reflexivity.
  - apply bind_ok in H1 as [g [H1 H2]]. injection H2 as <-. exact (cleaned_none (z_g Z) c pr ca ex _ _ H1 Hn).
  - apply bind_ok in H1 as [[o g] [H1 H2]]. injection H2 as <-. cbn [with_g y_g]. rewrite (extract_hyps _ _ _ _ _ _ H1). exact Hn.
Qed.
Print Assumptions C192_smc_jglmb_extinction_permanent.

(** ** concrete cases *)
(** One scan of the joint filters: a birth, no measurement. *)
Example C191_jglmb_hypotheses : exists (E : genv unit unit unit unit) c s1 s2 h, uniform j_rnd /\ hash_ok (v_hash E) /\ rsorts (v_argsort E) /\ (1 <= c_maxh c)%nat /\ c_prune c <= 0 /\
  jrun E (sampler_of j_rnd) false c [OpPredict 0] jst_new = Ok s1 /\ jcorrect E (sampler_of j_rnd) false c 0 [] s1 = Ok s2 /\ In h (g_hyps (y_g s1)) /\
  length (jtracks (length (c_births c)) (g_tab (y_g s1)) h) = 1%nat.
Proof.
  destruct n_joint as [s2 [_ [R2 _]]]. cbn [jrun jexec] in R2. apply bind_ok in R2 as [s1 [P1 R2]]. apply bind_ok in R2 as [s2' [P2 R2]]. injection R2 as ->.
  destruct (jpredict_inv _ _ _ _ _ P1) as [T1 [H1 _]].
  exists (d_env false), n_cfg, s1, s2, {| h_p := 1; h_ts := [] |}. split; [exact j_uniform|]. split; [apply d_hash_ok|]. split; [exact C44_ex|]. split; [cbn; lia|]. split; [cbn; lra|].
  split; [cbn [jrun jexec]; rewrite P1; reflexivity|]. split; [exact P2|]. split; [rewrite H1; left; reflexivity|]. rewrite T1. reflexivity.
Qed.
Example C191_smc_jglmb_hypotheses : exists s1 s2 h, let f := constf (1 / 2) in let Z := z_env (fun x => x) 1 in uniform j_rnd /\ hash_ok (v_hash (z_g Z)) /\ rsorts (v_argsort (z_g Z)) /\
  (1 <= c_maxh nz_cfg)%nat /\ c_prune nz_cfg <= 0 /\
  sjrun (sampler_of j_rnd) false [nz_call (SPredict f 0)] jst_new = Ok s1 /\ sjcorrect (sampler_of j_rnd) Z false f nz_cfg z_births 0 [] s1 = Ok s2 /\ In h (g_hyps (y_g s1)).
Proof.
  destruct n_sjoint as [s2 [_ [R2 _]]]. destruct (z_contracts (fun x => x) 1) as [_ [_ [_ [_ [_ [_ [_ [Hh [Hs _]]]]]]]]].
  unfold nz_call in *. cbn [sjrun sjexec] in R2. apply bind_ok in R2 as [s1 [P1 R2]]. apply bind_ok in R2 as [s2' [P2 R2]]. injection R2 as ->.
  destruct (sjpredict_inv _ _ _ _ _ _ _ P1) as [st [_ [_ [H1 _]]]].
  exists s1, s2, {| h_p := 1; h_ts := [] |}. cbv zeta. split; [exact j_uniform|]. split; [exact Hh|]. split; [exact Hs|]. split; [cbn; lia|]. split; [cbn; lra|].
  split; [cbn [sjrun sjexec]; rewrite P1; reflexivity|]. split; [exact P2|]. rewrite H1. left. reflexivity.
Qed.
(** Pruning with threshold 1 empties a new filter; without pruning it keeps its hypothesis. *)
Example C192_case : exists (E : genv unit unit unit unit) c s1 s2, rsorts (v_argsort E) /\ c_prune c = 1 /\
  cleanup E c true false false glmb_new = Ok s1 /\ g_hyps s1 = [] /\ cleanup E c false true false glmb_new = Ok s2 /\ g_hyps s2 <> [].
Proof.
  exists (d_env false), {| c_births := []; c_ps := 9 / 10; c_pd := 9 / 10; c_crate := 1; c_cden := 1; c_reqb := 1; c_reqs := 1; c_requ := 0;
     c_prune := 1; c_maxh := 10; c_savecov := false; c_savemeas := false |}. eexists. eexists. split; [exact C44_ex|]. split; [reflexivity|]. split; [reflexivity|]. split.
  - unfold prune, with_hyps, bump, glmb_new, rescale. cbn [g_hyps filter c_prune h_p]. destruct (Rlt_dec 1 1); [lra|reflexivity].
  - split; [reflexivity|]. discriminate.
Qed.
