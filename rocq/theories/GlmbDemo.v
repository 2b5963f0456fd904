(** Concrete GLMB surroundings: the contracts are satisfiable, counterexamples,
    and further consequences of the contracts. *)
From Verif Require Import Base Lists.
From Coq Require Import Reals Permutation Sorted Lra Cantor.
From Verif Require Import OspaModel CphdModel OspaProofs CphdSpec CphdProofs CphdProps GlmbModel GlmbSpec GlmbProofs GlmbInv GlmbExtract GlmbMost GlmbTotal GlmbProps GlmbProps2.
Open Scope R_scope.

(** * One world: everything is a unit value; k_shortest returns the one cheapest
    subset (all indices of negative cost; what the code returns for k = 1); murty
    gives row r column r; the inner filter fails iff [fail]. *)
Definition d_kshort (lc : list R) (k : nat) : result (list (list nat) * list R) :=
  match k with
  | O => Ok ([], [])
  | _ => Ok ([filter (fun i => if Rlt_dec (nth i lc 0) 0 then true else false) (seq 0 (length lc))], [0])
  end.
Definition d_murty (nr nc : nat) (M : nat -> nat -> R) (m : nat) : result (list (list nat) * list R) :=
  match m with
  | O => Ok ([], [])
  | _ => Ok ([map (fun r => if (r <? nc)%nat then S r else 0%nat) (seq 0 nr)], [0])
  end.
Fixpoint enc (l : list nat) : nat := match l with [] => 0%nat | x :: l' => S (to_nat (x, enc l')) end.
Definition d_env (fail : bool) : genv unit unit unit unit :=
  {| v_rnd := fun t => Int_part t; v_init := fun _ _ => tt; v_pred := fun _ _ _ => (tt, tt, tt);
     v_corr := fun _ _ _ _ => if fail then None else Some (tt, tt, tt, 1);
     v_kshort := d_kshort; v_murty := d_murty; v_lse0 := Ok tt; v_hash := fun l => Z.of_nat (enc l); v_argsort := sort_ref |}.
Definition d_birth : bdist unit unit := {| b_m := [tt]; b_c := [tt]; b_w := [1] |}.
Definition d_cfg (ps : R) : gcfg unit unit :=
  {| c_births := [(d_birth, 9 / 10)]; c_ps := ps; c_pd := 9 / 10; c_crate := 1; c_cden := 1; c_reqb := 1; c_reqs := 1; c_requ := 1;
     c_prune := 0; c_maxh := 10; c_savecov := false; c_savemeas := false |}.

Lemma d_kshort_ok : kshort_ok d_kshort.
Proof.
  intros lc k paths costs H. destruct k as [|k]; cbn in H; injection H as <- <-; split; try reflexivity; [intros p []|].
  intros p [<-|[]]. split; [apply NoDup_filter, seq_NoDup|]. intros i Hi. apply filter_In in Hi as [Hi _]. apply in_seq in Hi. lia.
Qed.
Lemma d_murty_ok : murty_ok d_murty.
Proof.
  intros nr nc M m rows costs H. destruct m as [|m]; cbn in H; injection H as <- <-; split; try reflexivity; [intros row []|].
  intros row [<-|[]]. split; [rewrite map_length, seq_length; reflexivity|].
  assert (Hn : forall r v, nth_error (map (fun r => if (r <? nc)%nat then S r else 0%nat) (seq 0 nr)) r = Some v -> v = if (r <? nc)%nat then S r else 0%nat).
  { intros r v Hr. assert (Hl : (r < nr)%nat) by (rewrite <- (seq_length nr 0), <- (map_length (fun r => if (r <? nc)%nat then S r else 0%nat)); apply nth_error_Some; congruence).
    apply (nth_error_nth _ _ 0%nat) in Hr. rewrite (nth_map_seq _ _ _ _ Hl) in Hr. auto. }
  split.
  - intros v Hv. apply In_nth_error in Hv as [r Hr]. apply Hn in Hr. subst v. destruct (Nat.ltb_spec r nc); lia.
  - intros r1 r2 v H1 H2. apply Hn in H1. apply Hn in H2. destruct (r1 <? nc)%nat; [|discriminate]. destruct (r2 <? nc)%nat; [|discriminate]. congruence.
Qed.
Lemma d_kshort_total : kshort_total d_kshort.
Proof. intros lc [|k]; eexists; reflexivity. Qed.
Lemma d_murty_total : murty_total d_murty.
Proof. intros nr nc M [|m] _ _; eexists; reflexivity. Qed.
Lemma d_kshort_zero : kshort_zero d_kshort.
Proof.
  intros lc k paths costs H p i Hp Hi. destruct k as [|k]; cbn in H; injection H as <- <-; [destruct Hp|]. destruct Hp as [<-|[]].
  apply filter_In in Hi as [_ Hi]. destruct (Rlt_dec (nth i lc 0) 0); [lra|discriminate].
Qed.
Lemma d_kshort_none : kshort_none d_kshort.
Proof. intros lc. reflexivity. Qed.
Lemma d_hash_ok fail : hash_ok (v_hash (d_env fail)).
Proof.
  intros a b H. cbn in H. apply Nat2Z.inj in H. revert b H. induction a as [|x a IH]; intros [|y b] H; try discriminate; [reflexivity|].
  change (S (to_nat (x, enc a)) = S (to_nat (y, enc b))) in H. apply eq_add_S, to_nat_inj in H. inversion H as [[H1 H2]]. f_equal. apply IH, H2.
Qed.
Lemma d_births ps : births_ok (d_cfg ps).
Proof. intros b p [H|[]]. inversion H; subst. cbn. lia. Qed.
Lemma d_cfg_ok ps : 0 < ps < 1 -> cfg_ok (d_cfg ps).
Proof. intros H. split; [intros b p [Hb|[]]; inversion Hb; lra|]. cbn. lra. Qed.
Lemma d_never_fails os : never_fails (d_env false) os.
Proof. intros t meas _ z f x _. discriminate. Qed.

(** The hypotheses of C46, C48, C50, C51, C54, C55, C58, C61, C88 hold together: *)
Example glmb_hypotheses_ex : exists s,
  let E := d_env false in let c := d_cfg (9 / 10) in
  let os := flat_map cycle [(0, [tt], (true, true, true)); (1, [tt; tt], (true, true, true))] in
  cfg_ok c /\ births_ok c /\ kshort_ok (v_kshort E) /\ murty_ok (v_murty E) /\ kshort_total (v_kshort E) /\ murty_total (v_murty E) /\
  hash_ok (v_hash E) /\ rsorts (v_argsort E) /\ never_fails E os /\ NoDup (map (v_rnd E) (predict_times os)) /\
  protocol 0 os = Some 0%nat /\ run E c os glmb_new = Ok s.
Proof.
  destruct (C88_glmb_cycle_total (d_env false) (d_cfg (9 / 10)) [(0, [tt], (true, true, true)); (1, [tt; tt], (true, true, true))]) as [s Hs];
    try exact d_kshort_ok; try exact d_murty_ok; try exact d_kshort_total; try exact d_murty_total; try exact C44_ex; [apply d_cfg_ok; lra|apply d_births|reflexivity|].
  exists s. split; [apply d_cfg_ok; lra|]. split; [apply d_births|]. split; [exact d_kshort_ok|]. split; [exact d_murty_ok|]. split; [exact d_kshort_total|].
  split; [exact d_murty_total|]. split; [apply d_hash_ok|]. split; [exact C44_ex|]. split; [apply d_never_fails|]. split; [|split; [reflexivity|exact Hs]].
  cbn. assert (H0 : Int_part 0 = 0%Z) by (destruct (base_Int_part 0) as [A B]; apply eq_IZR; assert (C : IZR (Int_part 0) < 1) by lra; assert (D : -1 < IZR (Int_part 0)) by lra; apply lt_IZR in C; apply lt_IZR in D; f_equal; lia).
  assert (H1 : Int_part 1 = 1%Z) by (destruct (base_Int_part 1) as [A B]; apply eq_IZR; assert (C : IZR (Int_part 1) < 2) by lra; assert (D : 0 < IZR (Int_part 1)) by lra; apply lt_IZR in C; apply lt_IZR in D; f_equal; lia).
  rewrite H0, H1. repeat constructor; cbn; intuition discriminate.
Qed.

(** * Runs with a single hypothesis of probability 1 *)
Lemma norm1 {FS ST CV MS} (E : genv FS ST CV MS) h : normalise_log E [h] = Ok [{| h_p := 1; h_ts := h_ts h |}].
Proof.
  cbn [normalise_log map]. unfold lse. cbn [map]. rewrite rsum_cons. change (rsum []) with 0. rewrite Rplus_0_r, ln_exp, Rminus_eq_0, exp_0. reflexivity.
Qed.
Lemma round_nat n : Z.to_nat (roundR (INR n)) = n.
Proof.
  destruct (roundR_spec (INR n)) as [[A B] _]. rewrite INR_IZR_INZ in *. assert (C : IZR (roundR (IZR (Z.of_nat n))) < IZR (Z.of_nat n + 1)) by (rewrite plus_IZR; lra).
  assert (D : IZR (Z.of_nat n - 1) < IZR (roundR (IZR (Z.of_nat n)))) by (rewrite minus_IZR; lra). apply lt_IZR in C. apply lt_IZR in D. lia.
Qed.
Lemma ssum1 ts : rsum (map (fun h => sqrt (h_p h)) [{| h_p := 1; h_ts := ts |}]) = 1.
Proof. cbn [map h_p]. rewrite rsum_cons, sqrt_1. change (rsum []) with 0. lra. Qed.
Lemma k_of_1 n : Z.to_nat (roundR (INR n * sqrt 1 / 1)) = n.
Proof. rewrite sqrt_1. replace (INR n * 1 / 1) with (INR n) by field. apply round_nat. Qed.
Definition one (ts : list nat) : list hyp := [{| h_p := 1; h_ts := ts |}].
Notation ds := (glmb unit unit unit unit).
Notation dent := (entry unit unit unit).
Definition b_ent (t : R) (cnt : nat) : dent := birth_entry (d_env false) (d_cfg 0) t cnt 0 d_birth.
Lemma ln_neg_9 : - ln (9 / 10 / (1 - 9 / 10)) < 0.
Proof. assert (H : 1 < 9 / 10 / (1 - 9 / 10)) by lra. apply ln_increasing in H; [|lra]. rewrite ln_1 in H. lra. Qed.
Lemma d_birth_cost : birth_cost (9 / 10) = Ok (- ln (9 / 10 / (1 - 9 / 10))).
Proof. unfold birth_cost. destruct (Req_EM_T (9 / 10) 1); [lra|]. rewrite lnp_ok by lra. reflexivity. Qed.
(** predict on a single hypothesis: the new track joins; the others stay when
    ps > 1/2 and die when ps < 1/2 *)
Lemma d_predict fail ps t (s : ds) ts : 0 < ps < 1 -> g_hyps s = one ts -> (forall i, In i ts -> (i < length (g_tab s))%nat) ->
  let sub := if Rlt_dec (- ln (ps / (1 - ps))) 0 then ts else [] in
  predict (d_env fail) (d_cfg ps) t s =
  Ok {| g_tab := b_ent t (g_cnt s) :: map (pred_entry (d_env fail) (d_cfg ps) t) (g_tab s); g_hyps := one (0%nat :: map (fun x => (x + 1)%nat) sub);
        g_card := calc_card (one sub); g_cnt := g_cnt s; g_meas := g_meas s; g_ext := g_ext s; g_states := g_states s; g_labels := g_labels s; g_covs := g_covs s |}.
Proof.
  intros Hps Hh Hr sub. unfold predict.
  assert (H1 : gen_birth_tab (d_env fail) (d_cfg ps) t (g_cnt s) = Ok ([b_ent t (g_cnt s)], [- ln (9 / 10 / (1 - 9 / 10))])).
  { unfold gen_birth_tab. cbn [d_cfg c_births mapM snd]. rewrite d_birth_cost. reflexivity. }
  rewrite H1. cbn [bind d_env v_kshort d_kshort d_cfg c_reqb length seq]. cbn [filter nth].
  pose proof ln_neg_9. destruct (Rlt_dec (- ln (9 / 10 / (1 - 9 / 10))) 0) as [_|?]; [|lra].
  assert (H2 : gen_birth_hyps (d_env fail) (d_cfg ps) [[0%nat]] [0] = Ok (one [0%nat])).
  { unfold gen_birth_hyps. cbn [d_cfg c_births mapM snd]. rewrite lnp_ok by lra. cbn [bind combine map]. rewrite norm1. reflexivity. }
  cbn [bind]. fold (d_env fail). rewrite H2. cbn [bind].
  assert (H3 : gen_surv_hyps (d_env fail) (d_cfg ps) (length (g_tab s)) (g_hyps s) = Ok (one sub)).
  { unfold gen_surv_hyps. rewrite Hh. unfold one at 1 2. rewrite ssum1. cbn [mapM]. unfold surv_hyp. cbn [h_ts h_p].
    destruct ts as [|a ts'] eqn:Et.
    - rewrite lnp_ok by lra. cbn [bind concat app]. rewrite norm1. unfold sub. destruct (Rlt_dec _ _); reflexivity.
    - rewrite forallb_lt by exact Hr. cbn [negb]. cbn [d_cfg c_ps c_reqs]. rewrite rdiv_val by lra. cbn [bind]. rewrite lnp_ok by (apply Rdiv_lt_0_compat; lra). cbn [bind].
      change (Z.to_nat (roundR (INR 1 * sqrt 1 / 1))) with (Z.to_nat (roundR (INR 1%nat * sqrt 1 / 1))). rewrite k_of_1.
      cbn [v_kshort d_env d_kshort bind]. rewrite lnp_ok by lra. cbn [bind]. rewrite lnp_ok by lra. cbn [bind combine mapM fst snd].
      set (v := - ln (ps / (1 - ps))) in *. rewrite map_length.
      assert (Hnth : forall i, In i (seq 0 (length (a :: ts'))) -> nth i (map (fun _ : nat => v) (a :: ts')) 0 = v).
      { intros i Hi. apply in_seq in Hi. clear -Hi. rewrite (nth_indep _ 0 v) by (rewrite map_length; lia). rewrite (map_nth (fun _ : nat => v) (a :: ts') 0%nat i). reflexivity. }
      assert (Hf : filter (fun i => if Rlt_dec (nth i (map (fun _ : nat => v) (a :: ts')) 0) 0 then true else false) (seq 0 (length (a :: ts'))) =
                   if Rlt_dec v 0 then seq 0 (length (a :: ts')) else []).
      { revert Hnth. generalize (seq 0 (length (a :: ts'))) as l. induction l as [|i l IH]; intros Hnth; [destruct (Rlt_dec v 0); reflexivity|].
        cbn [filter]. rewrite (Hnth i (or_introl eq_refl)), IH by (intros j Hj; apply Hnth; right; exact Hj). destruct (Rlt_dec v 0); reflexivity. }
      rewrite Hf.
      assert (Hg : mapM (geti (a :: ts')) (if Rlt_dec v 0 then seq 0 (length (a :: ts')) else []) = Ok sub).
      { unfold sub. destruct (Rlt_dec v 0); [|reflexivity]. apply mapM_ok. clear.
        assert (G : forall pre l : list nat, Forall2 (fun x y => geti (pre ++ l) x = Ok y) (seq (length pre) (length l)) l).
        { intros pre l. revert pre. induction l as [|x l IH]; intros pre; [constructor|]. cbn [length seq]. constructor.
          - apply geti_ok. rewrite nth_error_app2 by lia. rewrite Nat.sub_diag. reflexivity.
          - specialize (IH (pre ++ [x])). rewrite app_length in IH. cbn [length] in IH. rewrite Nat.add_1_r in IH. rewrite <- app_assoc in IH. exact IH. }
        exact (G [] (a :: ts')). }
      rewrite Hg. cbn [bind concat app]. rewrite norm1. reflexivity. }
  rewrite H3. cbn [bind]. f_equal. f_equal.
  unfold set_pred_hyps, one. cbn [flat_map map app length h_p h_ts]. rewrite rsum_cons. change (rsum []) with 0.
  unfold clean_predictions. cbn [fold_left add_hyp map snd]. replace (1 * 1 / (1 * 1 + 0)) with 1 by field. reflexivity.
Qed.
(** correct on a single hypothesis with tracks and one measurement *)
Definition c_ent (t : R) (e : dent) : dent :=
  match upd_entry (d_env false) (d_cfg 0) t [tt] e 1 with Some e' => e' | None => e end.
Lemma d_cor_hyps fail ps t (s : ds) ts : g_hyps s = one ts -> ts <> [] -> (forall i, In i ts -> (i < length (g_tab s))%nat) ->
  gen_cor_hyps (d_env fail) (d_cfg ps) 1 (length (g_tab s)) (snd (gen_cor_tab (d_env fail) (d_cfg ps) t [tt] (g_tab s))) (g_hyps s) =
  Ok (one (shifted (length (g_tab s)) ts (map (fun r => if (r <? 1)%nat then S r else 0%nat) (seq 0 (length ts))))).
Proof.
  intros Hh Hne Hr. unfold gen_cor_hyps. rewrite Hh. unfold one at 1 2. rewrite ssum1. cbn [mapM]. unfold cor_hyp. cbn [h_ts h_p].
  destruct ts as [|a ts']; [congruence|]. rewrite forallb_lt by exact Hr. cbn [negb]. cbn [d_cfg c_pd c_crate c_cden c_requ].
  rewrite rdiv_val by lra. cbn [bind]. rewrite lnp_ok by lra. cbn [bind]. rewrite k_of_1.
  cbn [v_murty d_env d_murty bind]. rewrite lnp_ok by lra. cbn [bind]. rewrite lnp_ok by lra. cbn [bind combine map fst snd concat app]. rewrite norm1. reflexivity.
Qed.

(** * Counterexamples *)
Definition wS1 : ds := {| g_tab := [b_ent 0 0]; g_hyps := one [0%nat]; g_card := calc_card (one []); g_cnt := 0; g_meas := []; g_ext := []; g_states := []; g_labels := []; g_covs := [] |}.
Lemma w_predict fail ps : 0 < ps < 1 -> run (d_env fail) (d_cfg ps) [OpPredict 0] glmb_new = Ok wS1.
Proof.
  intros H. cbn [run exec]. rewrite (d_predict fail ps 0 glmb_new [] H eq_refl) by (intros i []). cbn [bind].
  unfold wS1. destruct (Rlt_dec _ _); reflexivity.
Qed.
(** C47: after predict the cardinality distribution is that of the survivors
    alone: with one certain new-born track it says "0 tracks, probability 1". *)
Theorem C47_after_predict_refuted : exists (E : genv unit unit unit unit) c t s,
  kshort_ok (v_kshort E) /\ murty_ok (v_murty E) /\ cfg_ok c /\ run E c [OpPredict t] glmb_new = Ok s /\ prob_dist (g_hyps s) /\
  nth 0 (g_card s) 0 = 1 /\ mass (fun h => (length (h_ts h) =? 0)%nat) (g_hyps s) = 0 /\ ~ card_matches (g_card s) (g_hyps s).
Proof.
  exists (d_env false), (d_cfg (9 / 10)), 0, wS1. split; [exact d_kshort_ok|]. split; [exact d_murty_ok|]. split; [apply d_cfg_ok; lra|].
  split; [apply w_predict; lra|]. split; [split; [intros h [<-|[]]; cbn; lra|cbn; lra]|].
  assert (A : nth 0 (g_card wS1) 0 = 1) by (cbn; lra). assert (B : mass (fun h => (length (h_ts h) =? 0)%nat) (g_hyps wS1) = 0) by reflexivity.
  split; [exact A|]. split; [exact B|]. intros H. specialize (H 0%nat). rewrite A, B in H. lra.
Qed.
Print Assumptions C47_after_predict_refuted.
(** C46, C47: one failure of the inner filter can remove every hypothesis. *)
Theorem C46_after_failure_refuted : exists (E : genv unit unit unit unit) c t meas s,
  kshort_ok (v_kshort E) /\ murty_ok (v_murty E) /\ cfg_ok c /\ run E c [OpPredict t; OpCorrect t meas] glmb_new = Ok s /\ g_hyps s = [] /\
  rsum (map h_p (g_hyps s)) <> 1 /\ nth 1 (g_card s) 0 = 1.
Proof.
  exists (d_env true), (d_cfg (9 / 10)), 0, [tt]. eexists. split; [exact d_kshort_ok|]. split; [exact d_murty_ok|]. split; [apply d_cfg_ok; lra|].
  split; [|split].
  - change [OpPredict 0; OpCorrect 0 [tt]] with ([OpPredict 0] ++ [OpCorrect (MS := unit) 0 [tt]]). rewrite run_app, w_predict by lra. cbn [bind run exec]. unfold correct.
    rewrite (surjective_pairing (gen_cor_tab (d_env true) (d_cfg (9 / 10)) 0 [tt] (g_tab wS1))). cbn [length].
    rewrite (d_cor_hyps true (9 / 10) 0 wS1 [0%nat] eq_refl) by (discriminate || (intros i [<-|[]]; cbn; lia)). cbn [bind]. reflexivity.
  - reflexivity.
  - split; [cbn; lra|]. cbn. lra.
Qed.
Print Assumptions C46_after_failure_refuted.
(** C49: two predictions whose times round to the same value give a hypothesis
    with two tracks of one label. *)
Theorem C49_same_time_refuted : exists (E : genv unit unit unit unit) c t s h e1 e2,
  kshort_ok (v_kshort E) /\ murty_ok (v_murty E) /\ cfg_ok c /\ run E c [OpPredict t; OpPredict t] glmb_new = Ok s /\ In h (g_hyps s) /\
  tracks (g_tab s) h = [e1; e2] /\ e_label e1 = e_label e2.
Proof.
  exists (d_env false), (d_cfg (9 / 10)), 0. eexists. exists {| h_p := 1; h_ts := [0%nat; 1%nat] |}. eexists. eexists.
  split; [exact d_kshort_ok|]. split; [exact d_murty_ok|]. split; [apply d_cfg_ok; lra|]. split; [|split; [|split]].
  - change [OpPredict 0; OpPredict 0] with ([OpPredict 0] ++ [OpPredict (MS := unit) 0]). rewrite run_app, w_predict by lra. cbn [bind run exec].
    rewrite (d_predict false (9 / 10) 0 wS1 [0%nat]) by (lra || reflexivity || (intros i [<-|[]]; cbn; lia)). cbn [bind]. reflexivity.
  - pose proof ln_neg_9. destruct (Rlt_dec (- ln (9 / 10 / (1 - 9 / 10))) 0); [left; reflexivity|contradiction].
  - reflexivity.
  - reflexivity.
Qed.
Print Assumptions C49_same_time_refuted.

(** C56: a dead track extracted earlier is lost although none of its (time,
    measurement) pairs is claimed by the new tracks: only the index of the
    measurement coincides, at another time. *)
Definition w_prog : list (gop unit) := [OpPredict 0; OpCorrect 0 [tt]; OpCleanup false false true; OpPredict 1; OpCorrect 1 [tt]; OpCleanup false false false].
Lemma w_cor (s : ds) e rest t : g_hyps s = one [0%nat] -> g_tab s = e :: rest -> (length rest <= 1)%nat ->
  exists s' e', correct (d_env false) (d_cfg (1 / 10)) t [tt] s = Ok s' /\ g_hyps s' = one [0%nat] /\ g_tab s' = [e'] /\ g_cnt s' = g_cnt s /\ g_ext s' = g_ext s /\
    e_label e' = e_label e /\ e_time e' = e_time e /\ e_assoc e' = e_assoc e ++ [Some 0%nat].
Proof.
  intros Hh Ht Hl. destruct (upd_some (d_env false) (d_cfg (1 / 10)) t [tt] e 1) as [e' He']; [intros; discriminate|cbn; lia|].
  unfold correct. rewrite (surjective_pairing (gen_cor_tab (d_env false) (d_cfg (1 / 10)) t [tt] (g_tab s))). cbn [length].
  rewrite (d_cor_hyps false (1 / 10) t s [0%nat] Hh) by (discriminate || (intros i [<-|[]]; rewrite Ht; cbn; lia)). cbn [bind].
  destruct (upd_label _ _ _ _ _ _ _ He') as [L1 [L2 _]].
  assert (L3 : e_assoc e' = e_assoc e ++ [Some 0%nat]).
  { cbn [upd_entry nth_error] in He'. unfold cor_entry in He'. destruct (all_some _); [|discriminate]. inversion He'. reflexivity. }
  cbn [upd_entry nth_error] in He'. destruct (cor_entry (d_env false) (d_cfg (1 / 10)) t tt e) as [[e0 q]|] eqn:Ec; [|discriminate]. inversion He'; subst e'. clear He'.
  rewrite Ht. destruct rest as [|e2 [|? ?]]; [| |cbn in Hl; lia].
  - cbn [gen_cor_tab fst snd length seq combine map concat app]. rewrite Ec. do 2 eexists. split; [reflexivity|]. cbn. repeat split; auto.
  - cbn [gen_cor_tab fst snd length seq combine map concat app]. rewrite Ec. destruct (cor_entry (d_env false) (d_cfg (1 / 10)) t tt e2) as [[e3 q3]|]; do 2 eexists; (split; [reflexivity|]); cbn; repeat split; auto.
Qed.
Theorem C56_glmb_keeps_old_tracks_refuted : exists (E : genv unit unit unit unit) c os s i h x s',
  kshort_ok (v_kshort E) /\ murty_ok (v_murty E) /\ cfg_ok c /\ births_ok c /\ protocol 0 os = Some 0%nat /\ run E c os glmb_new = Ok s /\
  extract_states c true true s = Ok (Some i, s') /\ nth_error (g_hyps s) i = Some h /\
  In x (g_ext s) /\ ~ In (x_label x) (map e_label (tracks (g_tab s) h)) /\
  (forall e tt m, In e (tracks (g_tab s) h) -> xclaims x tt m -> ~ claims e tt m) /\
  ~ In x (g_ext s').
Proof.
  set (E := d_env false). set (c := d_cfg (1 / 10)).
  assert (Hc : cfg_ok c) by (apply d_cfg_ok; lra). assert (Hb : births_ok c) by apply d_births.
  assert (Hk : kshort_ok (v_kshort E)) by exact d_kshort_ok. assert (Hm : murty_ok (v_murty E)) by exact d_murty_ok.
  (* first cycle *)
  assert (R1 : run E c [OpPredict 0] glmb_new = Ok wS1) by (apply w_predict; lra).
  destruct (w_cor wS1 (b_ent 0 0) [] 0 eq_refl eq_refl ltac:(cbn; lia)) as [s2 [e2 [C2 [H2 [T2 [N2 [X2 [L2 [M2 A2]]]]]]]]]. fold E c in C2.
  assert (R2 : run E c [OpPredict 0; OpCorrect 0 [tt]] glmb_new = Ok s2).
  { change [OpPredict 0; OpCorrect 0 [tt]] with ([OpPredict 0] ++ [OpCorrect (MS := unit) 0 [tt]]). rewrite run_app, R1. cbn [bind run exec]. rewrite C2. reflexivity. }
  assert (R3 : run E c [OpPredict 0; OpCorrect 0 [tt]; OpCleanup false false false] glmb_new = Ok (bump s2)).
  { change [OpPredict 0; OpCorrect 0 [tt]; OpCleanup false false false] with ([OpPredict 0; OpCorrect 0 [tt]] ++ [OpCleanup (MS := unit) false false false]). rewrite run_app, R2. reflexivity. }
  assert (HE3 : Extractable c (bump s2)).
  { apply (reach_extractable E c _ (bump s2) Hk Hm Hb R3 eq_refl); [exists 0; left; reflexivity|]. cbn. rewrite H2. discriminate. }
  destruct (extract_ok c true true (bump s2) HE3) as [i3 [s3 X3]].
  destruct (extract_tab _ _ _ _ _ _ X3) as [T3 [H3 [N3 _]]]. cbn [bump g_tab g_hyps g_cnt] in T3, H3, N3. rewrite T2 in T3. rewrite H2 in H3. rewrite N2 in N3. cbn [wS1 g_cnt] in N3.
  assert (R3' : run E c [OpPredict 0; OpCorrect 0 [tt]; OpCleanup false false true] glmb_new = Ok s3).
  { change [OpPredict 0; OpCorrect 0 [tt]; OpCleanup false false true] with ([OpPredict 0; OpCorrect 0 [tt]] ++ [OpCleanup (MS := unit) false false true]). rewrite run_app, R2. cbn [bind run exec].
    unfold cleanup. cbn zeta. rewrite X3. reflexivity. }
  (* second cycle *)
  set (s4 := {| g_tab := b_ent 1 1 :: map (pred_entry E c 1) [e2]; g_hyps := one [0%nat]; g_card := calc_card (one []); g_cnt := 1; g_meas := g_meas s3; g_ext := g_ext s3;
                g_states := g_states s3; g_labels := g_labels s3; g_covs := g_covs s3 |} : ds).
  assert (P4 : predict E c 1 s3 = Ok s4).
  { unfold E, c. rewrite (d_predict false (1 / 10) 1 s3 [0%nat]) by (lra || exact H3 || (intros i [<-|[]]; rewrite T3; cbn; lia)). rewrite N3, T3. unfold s4.
    destruct (Rlt_dec (- ln (1 / 10 / (1 - 1 / 10))) 0) as [Hn|_]; [|reflexivity]. exfalso.
    assert (Hl : ln (1 / 10 / (1 - 1 / 10)) < ln 1) by (apply ln_increasing; lra). rewrite ln_1 in Hl. lra. }
  destruct (w_cor s4 (b_ent 1 1) (map (pred_entry E c 1) [e2]) 1 eq_refl eq_refl ltac:(cbn; lia)) as [s5 [e5 [C5 [H5 [T5 [N5 [X5 [L5 [M5 A5]]]]]]]]]. fold E c in C5.
  assert (R5 : run E c w_prog glmb_new = Ok (bump s5)).
  { change w_prog with ([OpPredict 0; OpCorrect 0 [tt]; OpCleanup false false true] ++ [OpPredict (MS := unit) 1; OpCorrect 1 [tt]; OpCleanup false false false]).
    rewrite run_app, R3'. cbn [bind run exec]. rewrite P4. cbn [bind]. rewrite C5. reflexivity. }
  assert (HE5 : Extractable c (bump s5)).
  { apply (reach_extractable E c _ (bump s5) Hk Hm Hb R5 eq_refl); [exists 0; left; reflexivity|]. cbn. rewrite H5. discriminate. }
  destruct (extract_ok c true true (bump s5) HE5) as [i5 [s6 X6]].
  (* the first extraction stored the first track *)
  destruct (extract_inv _ _ _ _ _ _ X3) as [[Hx _]|[idx [xs [oo [_ [Ei [_ [Hu [Ex _]]]]]]]]]; [cbn in Hx; rewrite H2 in Hx; discriminate|]. subst xs.
  destruct (update_hist_inv _ _ _ _ Hu) as [h3 [es [news [l [Eh [F1 [F2 [_ [_ [_ Hex]]]]]]]]]]. cbn [bump g_hyps g_tab] in Eh, F1. rewrite H2 in Eh. rewrite T2 in F1.
  destruct idx as [|idx]; [|destruct idx; discriminate]. inversion Eh; subst h3. clear Eh. cbn [h_ts] in F1. inversion F1 as [|? e ? es' He F1']; subst. inversion F1'; subst. inversion He; subst e. clear He F1 F1'.
  inversion F2 as [|? x ? xs' [st [cv [_ Hx]]] F2']; subst. inversion F2'; subst. clear F2 F2'.
  set (x := hist_of e2 st cv) in *.
  assert (Hx5 : In x (g_ext (bump s5))) by (cbn [bump g_ext]; rewrite X5; cbn [s4 g_ext]; rewrite Hex; apply in_or_app; right; left; reflexivity).
  destruct (C56_glmb_keeps_exactly_partial E c w_prog (bump s5) true i5 s6 Hk Hm Hb R5 eq_refl X6) as [h [Hh Hall]].
  assert (Hh0 : h = {| h_p := 1; h_ts := [0%nat] |}).
  { cbn [bump g_hyps] in Hh. rewrite H5 in Hh. destruct i5 as [|i5]; [inversion Hh; reflexivity|destruct i5; discriminate]. }
  assert (Htr : tracks (g_tab (bump s5)) h = [e5]) by (rewrite Hh0; cbn [bump g_tab]; rewrite T5; reflexivity).
  assert (Hlab : ~ In (x_label x) (map e_label (tracks (g_tab (bump s5)) h))).
  { rewrite Htr. cbn [map]. intros [Hl|[]]. unfold x in Hl. cbn [hist_of x_label] in Hl. rewrite L5, L2 in Hl. cbn in Hl. inversion Hl as [[Hl1]].
    destruct (base_Int_part 0) as [A B]. destruct (base_Int_part 1) as [A' B']. rewrite Hl1 in *. lra. }
  exists E, c, w_prog, (bump s5), i5, h, x, s6. repeat (split; [assumption || reflexivity|]). split; [|].
  - intros e tm m He [a [Ha1 Ha2]] [b [Hb1 Hb2]]. rewrite Htr in He. destruct He as [<-|[]]. unfold x in Ha1, Ha2. cbn [hist_of x_meas x_time] in Ha1, Ha2.
    rewrite A2 in Ha1. cbn in Ha1. rewrite M2 in Ha2. cbn in Ha2. rewrite A5 in Hb1. cbn in Hb1. rewrite M5 in Hb2. cbn in Hb2.
    destruct a as [|[|a]]; try discriminate. destruct b as [|[|b]]; try discriminate. lia.
  - intros Hin. apply (Hall x Hx5 Hlab) with (m := 0%nat) (e := e5) in Hin.
    + apply Hin. rewrite A5. apply in_or_app. right. left. reflexivity.
    + unfold x. cbn [hist_of x_meas]. rewrite A2. apply in_or_app. right. left. reflexivity.
    + rewrite Htr. left. reflexivity.
Qed.
Print Assumptions C56_glmb_keeps_old_tracks_refuted.
