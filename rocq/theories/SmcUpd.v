(** The SMC-GLMB filter: the probabilities after correct. *)
From Verif Require Import Base Lists.
From Coq Require Import Reals Permutation Lra.
From Verif Require Import OspaModel CphdModel OspaProofs CphdSpec CphdProofs GlmbModel GlmbSpec GlmbProofs GlmbInv GlmbTotal GlmbProps GlmbBayes SmcModel SmcSpec SmcProofs SmcBayes.
Open Scope R_scope.

Section B.
Context {P X ST CV MS : Type}.
Variable Z : senv P X ST CV MS.
Notation pfs := (pfs P X).
Notation E := (z_g Z).
Notation entry := (entry pfs ST CV).
Notation gcfg := (gcfg ST CV).
Notation glmb := (glmb pfs ST CV MS).
Notation sop := (sop P MS).
Notation birth := (pfs * ST * CV * R)%type.
Implicit Types (c : gcfg) (bs : list birth) (e : entry).

(** never failing: every corrected entry is there *)
Lemma scor_loop_some pdf t z (l : list (pfs * ST)) r : (forall s, z_corr Z t z s <> None) -> scor_loop Z pdf t z l = Ok r -> r <> None.
Proof.
  intros Hf. revert r. induction l as [|[s x] l IH]; intros r H; cbn [scor_loop] in H; [injection H as <-; discriminate|].
  apply bind_ok in H as [y [Hy H]]. destruct y as [y|].
  - apply bind_ok in H as [r' [Hr H]]. injection H as <-. specialize (IH r' Hr). destruct r'; [discriminate|contradiction].
  - exfalso. unfold sinner_corr in Hy. destruct (p_parts s); [discriminate|]. destruct (z_corr Z t z s) as [[[s1 x1] lk]|] eqn:Ez; [|exact (Hf s Ez)].
    cbn zeta in Hy. destruct (negb _); [discriminate|]. apply bind_ok in Hy as [w [_ Hy]]. apply bind_ok in Hy as [nw [_ Hy]]. discriminate.
Qed.
Lemma scor_entry_some pdf c t z e o : (forall s, z_corr Z t z s <> None) -> scor_entry Z pdf c t z e = Ok o -> exists e' cost, o = Some (e', cost).
Proof.
  intros Hf H. unfold scor_entry in H. apply bind_ok in H as [r [Hr H]]. apply (scor_loop_some _ _ _ _ _ Hf) in Hr. destruct r as [rs|]; [|contradiction].
  cbn zeta in H. apply bind_ok in H as [w [_ H]]. injection H as <-. eauto.
Qed.
Lemma scor_rows_nth pdf c t meas (tab : list entry) rows i j e z : scor_rows Z pdf c t meas tab = Ok rows -> nth_error tab i = Some e -> nth_error meas j = Some z ->
  exists o, scor_entry Z pdf c t z e = Ok o /\ nth i (nth j rows []) None = o.
Proof.
  intros Hrow Hi Hz. unfold scor_rows in Hrow. destruct (mapM_nth_l _ _ _ _ _ Hrow Hz) as [row [Hr Hrz]]. destruct (mapM_nth_l _ _ _ _ _ Hrz Hi) as [o [Ho Hoe]].
  exists o. split; [exact Hoe|]. rewrite (nth_error_nth _ _ _ Hr). apply nth_error_nth. exact Ho.
Qed.
Lemma scor_tab_some pdf c t meas (tab : list entry) rows i a e : scor_rows Z pdf c t meas tab = Ok rows -> (forall z s, In z meas -> z_corr Z t z s <> None) ->
  nth_error tab i = Some e -> (a <= length meas)%nat -> exists e', nth_error (scor_tab rows tab) (i + length tab * a) = Some (Some e').
Proof.
  intros Hrow Hf Hi Ha. assert (Hl : (i < length tab)%nat) by (apply nth_error_Some; congruence). unfold scor_tab. destruct a as [|j].
  - exists (add_assoc None e). rewrite Nat.mul_0_r, Nat.add_0_r, nth_error_app1 by (rewrite map_length; lia). exact (map_nth_error (fun e => Some (add_assoc None e)) i tab Hi).
  - unfold scor_rows in Hrow. destruct (nth_error meas j) as [z|] eqn:Ez; [|apply nth_error_None in Ez; lia].
    destruct (mapM_nth_l _ _ _ _ _ Hrow Ez) as [row [Hr Hrz]]. destruct (mapM_nth_l _ _ _ _ _ Hrz Hi) as [o [Ho Hoe]].
    destruct (scor_entry_some _ _ _ _ _ _ (fun s => Hf z s (nth_error_In _ _ Ez)) Hoe) as [e' [cost ->]].
    exists (add_assoc (Some j) e').
    rewrite nth_error_app2 by (rewrite map_length; nia). rewrite map_length. replace (i + length tab * S j - length tab)%nat with (i + length tab * j)%nat by nia.
    apply (concat_uniform _ (length tab)) with (l := map (fun o => option_map (fun ec => add_assoc (Some j) (fst ec)) o) row).
    + intros l Hin. apply in_map_iff in Hin as [[k r] [<- Hkr]]. cbn [snd fst]. rewrite map_length. apply in_combine_r in Hkr.
      destruct (mapM_in _ _ _ _ Hrow Hkr) as [z' [_ Hz']]. exact (mapM_length _ _ _ Hz').
    + rewrite nth_error_map, (nth_error_combine_seq _ 0 _ _ Hr). reflexivity.
    + exact (map_nth_error _ _ _ Ho).
Qed.

(** every hypothesis of the update is kept *)
Lemma scorrect_full pdf c t meas (s s' : glmb) : murty_ok (v_murty E) -> (forall z s, In z meas -> z_corr Z t z s <> None) -> scorrect Z pdf c t meas s = Ok s' ->
  exists rows av hs, scor_rows Z pdf c t meas (g_tab s) = Ok rows /\ mapM (avg_prob pdf) (g_tab s) = Ok av /\
    scor_hyps Z c (length meas) (length (g_tab s)) av (scor_cost rows) (g_hyps s) = Ok hs /\ g_card s' = calc_card hs /\
    Forall2 (fun x h' => h_p h' = h_p x /\ Forall2 (fun i k => exists e, nth_error (scor_tab rows (g_tab s)) i = Some (Some e) /\ nth_error (g_tab s') k = Some e) (h_ts x) (h_ts h')) hs (g_hyps s').
Proof.
  intros Hm Hf H. destruct (scorrect_inv _ _ _ _ _ _ _ H) as [rows [av [hs [E1 [E2 [E3 [Et [Eh [Ec _]]]]]]]]]. exists rows, av, hs. do 4 (split; [assumption|]).
  set (tab := scor_tab rows (g_tab s)) in *. set (nnz := nnz_inds tab hs) in *. rewrite Eh, Et.
  assert (Hall : forall x, In x hs -> exists h', reindex nnz x = [h']).
  { intros x Hx. apply reindex_all; [exact Hx|]. intros i Hi. destruct (scor_hyps_in _ _ _ _ _ _ _ _ _ Hm E3 Hx) as [h [row [_ [Hr [[Hl [Hle _]] Ets]]]]].
    rewrite (mapM_length _ _ _ E2) in Hr. rewrite Ets in Hi. unfold shifted in Hi. apply in_map_iff in Hi as [[k a] [<- Hka]]. cbn [fst snd].
    specialize (Hr k (in_combine_l _ _ _ _ Hka)). specialize (Hle a (in_combine_r _ _ _ _ Hka)). destruct (nth_error (g_tab s) k) as [e|] eqn:Ee; [|apply nth_error_None in Ee; lia].
    exact (scor_tab_some _ _ _ _ _ _ _ _ _ E1 Hf Ee Hle). }
  assert (Hgo : forall l, (forall x, In x l -> In x hs) -> Forall2 (fun x h' => h_p h' = h_p x /\ Forall2 (fun i k => exists e, nth_error tab i = Some (Some e) /\ nth_error (pick tab nnz) k = Some e) (h_ts x) (h_ts h')) l (flat_map (reindex nnz) l)).
  { induction l as [|x l IH]; intros Hs; [constructor|]. cbn [flat_map]. destruct (Hall x (Hs x (or_introl eq_refl))) as [h' Eh'].
    rewrite Eh'. cbn [app]. constructor; [|apply IH; intros y Hy; apply Hs; right; exact Hy]. assert (Hin : In h' (reindex nnz x)) by (rewrite Eh'; left; reflexivity).
    split; [apply (reindex_in _ _ _ Hin)|exact (reindex_view tab hs x h' (Hs x (or_introl eq_refl)) Hin)]. }
  exact (Hgo hs (fun _ H => H)).
Qed.
Lemma scorrect_dist pdf c t meas (s s' : glmb) : murty_ok (v_murty E) -> (forall z s, In z meas -> z_corr Z t z s <> None) -> scorrect Z pdf c t meas s = Ok s' ->
  g_hyps s' <> [] -> prob_dist (g_hyps s') /\ card_matches (g_card s') (g_hyps s').
Proof.
  intros Hm Hf H Hne. destruct (scorrect_full _ _ _ _ _ _ Hm Hf H) as [rows [av [hs [_ [_ [E3 [Ec HF]]]]]]].
  assert (HF' : Forall2 (fun h h' => h_p h' = h_p h /\ length (h_ts h') = length (h_ts h)) hs (g_hyps s')).
  { eapply F2_impl; [|exact HF]. intros x h' _ [A B]. split; [exact A|]. symmetry. exact (F2_len _ _ _ B). }
  assert (Hh : hs <> []) by (intros E0; rewrite E0 in HF'; inversion HF'; congruence). destruct (scor_hyps_dist _ _ _ _ _ _ _ _ E3 Hh) as [Hp Hs]. destruct (F2_dist _ _ HF') as [M1 M2]. split.
  - split; [|rewrite M1; exact Hs]. intros h' Hh'. apply In_nth_error in Hh' as [k Hk]. destruct (F2_nth_r _ _ _ _ _ HF' Hk) as [h [Hh1 [-> _]]]. apply Hp. eapply nth_error_In; eauto.
  - intros n. rewrite Ec, (calc_card_matches hs Hh n). symmetry. apply M2.
Qed.
Lemma sexec_dist c bs o (s s' : glmb) : murty_ok (v_murty E) -> rsorts (v_argsort E) -> snever_fails Z [o] -> sexec Z c bs o s = Ok s' ->
  (g_hyps s <> [] -> prob_dist (g_hyps s)) -> g_hyps s' <> [] -> prob_dist (g_hyps s').
Proof.
  intros Hm Hs Hn H HI Hne. destruct o as [psf t|pdf t meas|pr ca ex|u k].
  - exact (spredict_dist _ _ _ _ _ _ _ H Hne).
  - apply (scorrect_dist pdf c t meas s s' Hm); [intros z s0 Hz; exact (Hn pdf t meas (or_introl eq_refl) z s0 Hz)|exact H|exact Hne].
  - apply (exec_dist (z_g Z) c (OpCleanup pr ca ex) s s' Hm Hs); [intros t m [Q|[]]; discriminate|exact H|exact HI|exact Hne].
  - apply (exec_dist (z_g Z) c (OpExtract u k) s s' Hm Hs); [intros t m [Q|[]]; discriminate|exact H|exact HI|exact Hne].
Qed.
Lemma srun_dist c bs os : forall (s s' : glmb), murty_ok (v_murty E) -> rsorts (v_argsort E) -> snever_fails Z os -> srun Z c bs os s = Ok s' ->
  (g_hyps s <> [] -> prob_dist (g_hyps s)) -> g_hyps s' <> [] -> prob_dist (g_hyps s').
Proof.
  induction os as [|o os IH]; intros s s' Hm Hs Hn H HI; cbn [srun] in H; [injection H as <-; exact HI|].
  apply bind_ok in H as [s1 [H1 H]]. apply (IH s1 s' Hm Hs); [intros pdf t m Hi; apply (Hn pdf t m); right; exact Hi|exact H|].
  apply (sexec_dist c bs o s s1 Hm Hs); [|exact H1|exact HI]. intros pdf t m [->|[]]. apply (Hn pdf t m). left. reflexivity.
Qed.

(** ** exact weights *)
Lemma sassoc_exp pdf c t meas h es row M : 0 < c_crate c -> 0 < c_cden c -> 0 < h_p h -> (forall e, In e es -> 0 < cloud_avg pdf e < 1) ->
  (forall e z, In e es -> In z meas -> 0 < cloud_lik Z pdf t z e) ->
  length row = length es -> (forall v, In v row -> (v <= length meas)%nat) ->
  (forall r j e z, nth_error es r = Some e -> nth_error meas j = Some z -> M r j = - ln (cloud_avg pdf e * cloud_lik Z pdf t z e / (c_crate c * c_cden c) / (1 - cloud_avg pdf e))) ->
  exp (- c_crate c + INR (length meas) * ln (c_crate c * c_cden c) + rsum (map (fun e => ln (1 - cloud_avg pdf e)) es) + ln (h_p h) - row_total (length es) M row) =
  const c (length meas) * (h_p h * sassoc_weight Z pdf c t meas es row).
Proof.
  intros Hcr Hcd Hp Hav Hl HL Hv HM.
  assert (Hcl : 0 < c_crate c * c_cden c) by (apply Rmult_lt_0_compat; assumption).
  unfold row_total.
  set (F := fun ra : nat * nat => match snd ra with O => 0 | S j => M (fst ra) j end).
  replace (- c_crate c + INR (length meas) * ln (c_crate c * c_cden c) + rsum (map (fun e => ln (1 - cloud_avg pdf e)) es) + ln (h_p h) - rsum (map F (combine (seq 0 (length es)) row)))
    with (- c_crate c + INR (length meas) * ln (c_crate c * c_cden c) + ln (h_p h) + (rsum (map (fun e => ln (1 - cloud_avg pdf e)) es) + rsum (map (fun ra => -1 * F ra) (combine (seq 0 (length es)) row)))) by (rewrite rsum_scale; ring).
  rewrite (map_combine_seq es row 0 (fun ra => -1 * F ra) (fun ea => match snd ea with O => 0 | S j => match nth_error meas j with Some z => ln (cloud_avg pdf (fst ea) * cloud_lik Z pdf t z (fst ea) / (c_crate c * c_cden c)) - ln (1 - cloud_avg pdf (fst ea)) | None => 0 end end)).
  2:{ exact HL. }
  2:{ intros r e a He Ha. unfold F. cbn [fst snd plus]. destruct a as [|j]; [ring|].
      assert (Hj : (j < length meas)%nat) by (specialize (Hv (S j) (nth_error_In _ _ Ha)); lia). destruct (nth_error meas j) as [z|] eqn:Ez; [|apply nth_error_None in Ez; lia].
      rewrite (HM r j e z He Ez). assert (Hlk : 0 < cloud_lik Z pdf t z e) by (apply Hl; [exact (nth_error_In _ _ He)|exact (nth_error_In _ _ Ez)]).
      pose proof (Hav e (nth_error_In _ _ He)) as Ha1.
      assert (Hq : 0 < cloud_avg pdf e * cloud_lik Z pdf t z e / (c_crate c * c_cden c)) by (apply Rdiv_lt_0_compat; [apply Rmult_lt_0_compat; lra|exact Hcl]).
      rewrite ln_div' by lra. ring. }
  rewrite !exp_plus, exp_INR by exact Hcl. rewrite exp_ln by exact Hp. rewrite !exp_rsum. unfold const, sassoc_weight.
  assert (HR : rprod (map (fun e => exp (ln (1 - cloud_avg pdf e))) es) * rprod (map (fun ea : entry * nat => exp (match snd ea with O => 0 | S j => match nth_error meas j with Some z => ln (cloud_avg pdf (fst ea) * cloud_lik Z pdf t z (fst ea) / (c_crate c * c_cden c)) - ln (1 - cloud_avg pdf (fst ea)) | None => 0 end end)) (combine es row)) =
     rprod (map (fun ea => match snd ea with O => 1 - cloud_avg pdf (fst ea) | S j => match nth_error meas j with Some z => cloud_avg pdf (fst ea) * cloud_lik Z pdf t z (fst ea) / (c_crate c * c_cden c) | None => 0 end end) (combine es row))).
  { clear HM F M. revert row HL Hv. induction es as [|e es IH]; intros [|a row] HL Hv; try discriminate; [cbn; ring|]. cbn [combine map fst snd]. rewrite !rprod_cons.
    rewrite <- (IH (fun x Hx => Hav x (in_cons e x es Hx)) (fun x z Hx Hz => Hl x z (in_cons e x es Hx) Hz) row (eq_add_S _ _ HL) (fun v Hv0 => Hv v (in_cons a v row Hv0))).
    pose proof (Hav e (or_introl eq_refl)) as Ha1. rewrite exp_ln by lra. cbn [snd fst]. destruct a as [|j]; [rewrite exp_0; ring|].
    assert (Hj : (j < length meas)%nat) by (specialize (Hv (S j) (or_introl eq_refl)); lia). destruct (nth_error meas j) as [z|] eqn:Ez; [|apply nth_error_None in Ez; lia].
    assert (Hlk : 0 < cloud_lik Z pdf t z e) by (apply Hl; [left; reflexivity|exact (nth_error_In _ _ Ez)]).
    assert (Hq : 0 < cloud_avg pdf e * cloud_lik Z pdf t z e / (c_crate c * c_cden c)) by (apply Rdiv_lt_0_compat; [apply Rmult_lt_0_compat; lra|exact Hcl]).
    unfold Rminus at 3. rewrite exp_plus, exp_ln by exact Hq. rewrite exp_Ropp, exp_ln by lra. field. repeat split; lra. }
  rewrite HR. ring.
Qed.
Lemma scost_spec pdf c t meas (tab : list entry) rows i j e z : (forall e, In e tab -> one_cloud e) -> (forall z s, In z meas -> z_corr Z t z s <> None) ->
  scor_rows Z pdf c t meas tab = Ok rows -> nth_error tab i = Some e -> nth_error meas j = Some z -> scor_cost rows i j = cloud_lik Z pdf t z e.
Proof.
  intros HO Hf Hr Hi Hz. destruct (scor_rows_nth _ _ _ _ _ _ _ _ _ _ Hr Hi Hz) as [o [Ho En]]. unfold scor_cost. rewrite En.
  pose proof (HO e (nth_error_In _ _ Hi)) as HO1. pose proof (one_last e HO1) as Hl. destruct HO1 as [_ [[s Es] [[x Ex] _]]].
  destruct (scor_entry_some _ _ _ _ _ _ (fun s => Hf z s (nth_error_In _ _ Hz)) Ho) as [e' [cost ->]].
  exact (proj1 (scor_spec Z pdf c t z e s x _ Es Ex Hl Ho)).
Qed.
Lemma scor_hyp_form pdf c t meas (tab : list entry) rows0 hs h l : murty_ok (v_murty E) -> murty_cost (v_murty E) -> 0 < c_crate c -> 0 < c_cden c -> meas <> [] ->
  (forall e, In e tab -> one_cloud e) -> (forall z s, In z meas -> z_corr Z t z s <> None) ->
  (forall e, In e tab -> 0 < cloud_avg pdf e < 1) -> (forall e z, In e tab -> In z meas -> 0 < cloud_lik Z pdf t z e) ->
  scor_rows Z pdf c t meas tab = Ok rows0 ->
  scor_hyp Z c (length meas) (length tab) (map (cloud_avg pdf) tab) (scor_cost rows0) (rsum (map (fun h => sqrt (h_p h)) hs)) h = Ok l ->
  exists rows, sconsidered Z pdf c t meas hs h (tracks tab h) rows /\ (forall i, In i (h_ts h) -> (i < length tab)%nat) /\
    Forall (valid_row (length (h_ts h)) (length meas)) rows /\
    map (fun x => (exp (h_p x), h_ts x)) l = map (fun row => (const c (length meas) * (h_p h * sassoc_weight Z pdf c t meas (tracks tab h) row), shifted (length tab) (h_ts h) row)) rows.
Proof.
  intros Hm Hmc Hcr Hcd Hne HO Hf Hav Hl Hrw H. unfold scor_hyp in H. cbv zeta in H. destruct (h_ts h) as [|a0 ts0] eqn:Et.
  - apply bind_ok in H as [lcl [Hlc H]]. apply bind_ok in H as [lw [Hlw H]]. injection H as <-. apply lnp_inv in Hlc as [Hcl ->]. apply lnp_inv in Hlw as [Hp ->].
    exists [[]]. assert (Htr : tracks tab h = []) by (unfold tracks; rewrite Et; reflexivity). rewrite Htr. split; [reflexivity|]. split; [intros i []|].
    split; [constructor; [|constructor]; split; [reflexivity|]; split; [intros v []|intros [|r1] r2 v Hv; discriminate]|].
    cbn [map h_p h_ts]. f_equal. f_equal. rewrite !exp_plus, exp_INR by exact Hcl. rewrite exp_ln by exact Hp. unfold const, sassoc_weight. cbn [combine map rprod fold_right]. ring.
  - apply bind_ok in H as [pds [Ep H]]. destruct (avg_tracks _ _ _ _ Ep) as [Hr Hps]. set (ts := a0 :: ts0) in *.
    assert (Htr : tracks tab h = flat_map (fun i => match nth_error tab i with Some e => [e] | None => [] end) ts) by (unfold tracks; rewrite Et; reflexivity).
    destruct (tracks_nth tab ts Hr) as [T1 T2]. rewrite <- Htr in T1, T2, Hps. subst pds.
    assert (Htin : forall e, In e (tracks tab h) -> In e tab).
    { intros e He. rewrite Htr in He. apply in_flat_map in He as [i [_ He]]. destruct (nth_error tab i) eqn:Ei; [|destruct He]. destruct He as [<-|[]]. exact (nth_error_In _ _ Ei). }
    apply bind_ok in H as [ratio [Er H]].
    assert (Hra : ratio = map (fun e => cloud_avg pdf e / (1 - cloud_avg pdf e)) (tracks tab h)).
    { apply mapM_ok in Er. clear -Er. revert Er. generalize (tracks tab h) as es. intros es Er. remember (map (cloud_avg pdf) es) as q eqn:Eq. revert es Eq.
      induction Er as [|p x ps r Hx _ IH]; intros [|e es] Eq; try discriminate; [reflexivity|]. cbn [map] in *. injection Eq as -> Eq. rewrite (IH es Eq). apply rdiv_ok in Hx as [_ ->]. reflexivity. }
    apply bind_ok in H as [lcl [Hlc H]]. apply lnp_inv in Hlc as [Hcl ->].
    apply bind_ok in H as [[rows costs] [Em H]]. apply bind_ok in H as [lmd [Hmd H]]. apply mapM_lnp in Hmd. subst lmd.
    apply bind_ok in H as [lw [Hlw H]]. apply lnp_inv in Hlw as [Hp ->]. injection H as <-.
    change (Z.to_nat _) with (share_of (c_requ c) hs h) in Em. set (M := fun r j : nat => _) in Em.
    assert (HM : forall r j e z, nth_error (tracks tab h) r = Some e -> nth_error meas j = Some z -> M r j = - ln (cloud_avg pdf e * cloud_lik Z pdf t z e / (c_crate c * c_cden c) / (1 - cloud_avg pdf e))).
    { intros r j e z He Hz. pose proof He as He0. rewrite T2 in He0. destruct (nth_error ts r) as [i|] eqn:Ei; [|discriminate]. unfold M. rewrite (nth_error_nth _ _ _ Ei).
      rewrite (scost_spec pdf c t meas tab rows0 i j e z HO Hf Hrw He0 Hz).
      assert (Hrr : nth r ratio 0 = cloud_avg pdf e / (1 - cloud_avg pdf e)) by (rewrite Hra; apply nth_error_nth; exact (map_nth_error (fun e => cloud_avg pdf e / (1 - cloud_avg pdf e)) r _ He)).
      rewrite Hrr. assert (Hlk : 0 < cloud_lik Z pdf t z e) by (apply Hl; [exact (nth_error_In _ _ He0)|exact (nth_error_In _ _ Hz)]). pose proof (Hav e (nth_error_In _ _ He0)) as Ha1.
      assert (Hq : 0 < cloud_avg pdf e / (1 - cloud_avg pdf e) * cloud_lik Z pdf t z e / (c_crate c * c_cden c)) by (apply Rdiv_lt_0_compat; [apply Rmult_lt_0_compat; [apply Rdiv_lt_0_compat; lra|exact Hlk]|exact Hcl]).
      destruct (Rle_dec (cloud_avg pdf e / (1 - cloud_avg pdf e) * cloud_lik Z pdf t z e / (c_crate c * c_cden c)) 0) as [?|_]; [lra|]. f_equal. f_equal. field. repeat split; lra. }
    exists rows. specialize (Hmc _ _ _ _ _ _ Em). destruct (Hm _ _ _ _ _ _ Em) as [_ Hrow].
    assert (Hconsid : sconsidered Z pdf c t meas hs h (tracks tab h) rows).
    { unfold sconsidered. destruct (tracks tab h) as [|e0 es0] eqn:Ee; [discriminate|]. destruct meas as [|z0 meas0] eqn:Eme; [contradiction|].
      exists M, costs. rewrite T1. split; [exact Em|exact HM]. }
    split; [exact Hconsid|]. split; [exact Hr|]. split; [apply Forall_forall; intros row Hi; exact (Hrow row Hi)|].
    rewrite map_map. cbn [h_p h_ts]. rewrite map_map.
    apply (combine_F2 (fun row x => (exp (- c_crate c + INR (length meas) * ln (c_crate c * c_cden c) + rsum (map (fun e => ln (1 - cloud_avg pdf e)) (tracks tab h)) + ln (h_p h) - x), shifted (length tab) ts row))).
    eapply F2_impl; [|exact Hmc]. intros row x Hin ->. destruct (Hrow row Hin) as [R1 [R2 _]]. f_equal. rewrite <- T1. apply sassoc_exp; auto. rewrite T1. exact R1.
Qed.
Lemma smiss_hyp_form pdf c t (tab : list entry) hs h x : (forall e, In e tab -> 0 < cloud_avg pdf e < 1) -> smiss_hyp c (map (cloud_avg pdf) tab) h = Ok x ->
  sconsidered Z pdf c t [] hs h (tracks tab h) [repeat 0%nat (length (h_ts h))] /\ (forall i, In i (h_ts h) -> (i < length tab)%nat) /\
  (exp (h_p x), h_ts x) = (const c 0 * (h_p h * sassoc_weight Z pdf c t [] (tracks tab h) (repeat 0%nat (length (h_ts h)))), shifted (length tab) (h_ts h) (repeat 0%nat (length (h_ts h)))).
Proof.
  intros Hav H. unfold smiss_hyp in H. apply bind_ok in H as [pds [Ep H]]. destruct (avg_tracks _ _ _ _ Ep) as [Hr Hps]. change (flat_map _ (h_ts h)) with (tracks tab h) in Hps. subst pds. apply bind_ok in H as [ls [El H]].
  apply mapM_lnp in El. subst ls. apply bind_ok in H as [lw [Hlw H]]. apply lnp_inv in Hlw as [Hp ->]. injection H as <-.
  destruct (tracks_nth tab (h_ts h) Hr) as [T1 _]. change (flat_map _ (h_ts h)) with (tracks tab h) in T1. split; [|split; [exact Hr|]].
  - unfold sconsidered. rewrite <- T1. destruct (tracks tab h); reflexivity.
  - cbn [h_p h_ts]. rewrite shifted0. f_equal. rewrite !exp_plus, exp_ln by exact Hp. unfold const. cbn [pow]. rewrite Rmult_1_r.
    assert (Htin : forall e, In e (tracks tab h) -> 0 < cloud_avg pdf e < 1).
    { intros e He. unfold tracks in He. apply in_flat_map in He as [i [_ He]]. destruct (nth_error tab i) eqn:Ei; [|destruct He]. destruct He as [<-|[]]. exact (Hav _ (nth_error_In _ _ Ei)). }
    assert (Hw : exp (rsum (map (fun p => ln (1 - p)) (map (cloud_avg pdf) (tracks tab h)))) = sassoc_weight Z pdf c t [] (tracks tab h) (repeat 0%nat (length (h_ts h)))).
    { rewrite map_map, exp_rsum. unfold sassoc_weight. revert T1 Htin. generalize (tracks tab h) as es. generalize (h_ts h) as ts. clear. induction ts as [|i ts IH]; intros [|e es] HL Hav; try discriminate; [reflexivity|].
      cbn [length repeat map combine snd fst]. rewrite !rprod_cons. rewrite (IH es (eq_add_S _ _ HL) (fun x Hx => Hav x (in_cons e x es Hx))). f_equal. cbn [snd fst]. apply exp_ln. specialize (Hav e (or_introl eq_refl)). lra. }
    rewrite Hw. ring.
Qed.
Lemma scor_hyps_form pdf c t meas (tab : list entry) rows0 hs r : murty_ok (v_murty E) -> murty_cost (v_murty E) -> 0 < c_crate c -> 0 < c_cden c ->
  (forall e, In e tab -> one_cloud e) -> (forall z s, In z meas -> z_corr Z t z s <> None) ->
  (forall e, In e tab -> 0 < cloud_avg pdf e < 1) -> (forall e z, In e tab -> In z meas -> 0 < cloud_lik Z pdf t z e) ->
  scor_rows Z pdf c t meas tab = Ok rows0 ->
  scor_hyps Z c (length meas) (length tab) (map (cloud_avg pdf) tab) (scor_cost rows0) hs = Ok r ->
  exists K rr, 0 < K /\ Forall2 (fun h rows => sconsidered Z pdf c t meas hs h (tracks tab h) rows /\ (forall i, In i (h_ts h) -> (i < length tab)%nat) /\
      Forall (valid_row (length (h_ts h)) (length meas)) rows) hs rr /\
    map (fun x => (h_p x, h_ts x)) r =
      map (fun hr => (K * (h_p (fst hr) * sassoc_weight Z pdf c t meas (tracks tab (fst hr)) (snd hr)), shifted (length tab) (h_ts (fst hr)) (snd hr)))
          (flat_map (fun hr => map (pair (fst hr)) (snd hr)) (combine hs rr)).
Proof.
  intros Hm Hmc Hcr Hcd HO Hf Hav Hl Hrw H.
  pose (Q := fun h rows => sconsidered Z pdf c t meas hs h (tracks tab h) rows /\ (forall i, In i (h_ts h) -> (i < length tab)%nat) /\ Forall (valid_row (length (h_ts h)) (length meas)) rows).
  assert (HX : exists raw rr, normalise_log E raw = Ok r /\ Forall2 Q hs rr /\
      map (fun x => (exp (h_p x), h_ts x)) raw =
      map (fun hr => (const c (length meas) * (h_p (fst hr) * sassoc_weight Z pdf c t meas (tracks tab (fst hr)) (snd hr)), shifted (length tab) (h_ts (fst hr)) (snd hr)))
          (flat_map (fun hr => map (pair (fst hr)) (snd hr)) (combine hs rr))).
  { unfold scor_hyps in H. destruct (length meas) as [|nm] eqn:En.
    - apply length_zero_iff_nil in En. subst meas. apply bind_ok in H as [raw [Er H]]. apply mapM_ok in Er. exists raw, (map (fun h => [repeat 0%nat (length (h_ts h))]) hs).
      split; [exact H|]. clear H.
      assert (Hst : forall h x, smiss_hyp c (map (cloud_avg pdf) tab) h = Ok x -> Q h [repeat 0%nat (length (h_ts h))] /\ (exp (h_p x), h_ts x) = (const c 0 * (h_p h * sassoc_weight Z pdf c t [] (tracks tab h) (repeat 0%nat (length (h_ts h)))), shifted (length tab) (h_ts h) (repeat 0%nat (length (h_ts h))))).
      { intros h x Hx. destruct (smiss_hyp_form pdf c t tab hs h x Hav Hx) as [A [B C]]. split; [|exact C]. split; [exact A|]. split; [exact B|]. constructor; [apply row0_ok|constructor]. }
      clearbody Q. clear -Er Hst. revert Er. generalize hs. intros l Er. induction Er as [|h x l raw Hx _ IH]; [split; [constructor|reflexivity]|].
      destruct (Hst h x Hx) as [A C]. destruct IH as [IH1 IH2]. split.
      + cbn [map]. constructor; [exact A|exact IH1].
      + cbn [map combine flat_map app fst snd]. rewrite C, IH2. reflexivity.
    - rewrite <- En in *. cbv zeta in H. apply bind_ok in H as [ll [El H]]. apply mapM_ok in El. 
      assert (Hne : meas <> []) by (intros ->; discriminate). set (ss := rsum _) in El.
      assert (HG : exists rr, Forall2 Q hs rr /\
         map (fun x => (exp (h_p x), h_ts x)) (concat ll) = map (fun hr => (const c (length meas) * (h_p (fst hr) * sassoc_weight Z pdf c t meas (tracks tab (fst hr)) (snd hr)), shifted (length tab) (h_ts (fst hr)) (snd hr)))
          (flat_map (fun hr => map (pair (fst hr)) (snd hr)) (combine hs rr))).
      { assert (Hst : forall h l, scor_hyp Z c (length meas) (length tab) (map (cloud_avg pdf) tab) (scor_cost rows0) ss h = Ok l -> exists rows, Q h rows /\
          map (fun x => (exp (h_p x), h_ts x)) l = map (fun row => (const c (length meas) * (h_p h * sassoc_weight Z pdf c t meas (tracks tab h) row), shifted (length tab) (h_ts h) row)) rows).
        { unfold Q. intros h l Hh. destruct (scor_hyp_form pdf c t meas tab rows0 hs h l Hm Hmc Hcr Hcd Hne HO Hf Hav Hl Hrw Hh) as [rows [A [B [C D]]]]. exists rows. rewrite <- En. split; [split; [exact A|split; [exact B|exact C]]|exact D]. }
        clearbody Q ss.
        clear -El Hst. revert El. generalize hs. intros l El. induction El as [|h x l ll Hh _ IH]; [exists []; split; [constructor|reflexivity]|].
        destruct IH as [rr [I1 I2]]. destruct (Hst h x Hh) as [rows [R1 R2]]. exists (rows :: rr). split; [constructor; assumption|].
        cbn [concat combine flat_map fst snd]. rewrite !map_app, I2, R2, map_map. reflexivity. }
      destruct HG as [rr [G1 G2]]. exists (concat ll), rr. auto. }
  destruct HX as [raw [rr [HN [HF HE]]]]. destruct (normalise_scale _ _ _ HN) as [K [HK ->]]. exists (K * const c (length meas)), rr.
  assert (0 < const c (length meas)).
  { unfold const. apply Rmult_lt_0_compat; [apply exp_pos|]. apply pow_lt, Rmult_lt_0_compat; assumption. }
  split; [apply Rmult_lt_0_compat; assumption|]. split; [exact HF|]. rewrite map_map. cbn [h_p h_ts].
  transitivity (map (fun x : R * list nat => (K * fst x, snd x)) (map (fun x => (exp (h_p x), h_ts x)) raw)); [rewrite map_map; reflexivity|].
  rewrite HE, map_map. apply map_ext. intros hr. cbn [fst snd]. f_equal. ring.
Qed.
Lemma scorrect_form pdf c t meas (s s' : glmb) : murty_ok (v_murty E) -> murty_cost (v_murty E) -> 0 < c_crate c -> 0 < c_cden c ->
  (forall e, In e (g_tab s) -> one_cloud e) -> (forall z s, In z meas -> z_corr Z t z s <> None) ->
  (forall e, In e (g_tab s) -> 0 < cloud_avg pdf e < 1) -> (forall e z, In e (g_tab s) -> In z meas -> 0 < cloud_lik Z pdf t z e) ->
  scorrect Z pdf c t meas s = Ok s' ->
  exists K rr, 0 < K /\ Forall2 (fun h rows => sconsidered Z pdf c t meas (g_hyps s) h (tracks (g_tab s) h) rows /\ Forall (valid_row (length (h_ts h)) (length meas)) rows) (g_hyps s) rr /\
    Forall2 (fun hr h' => h_p h' = K * (h_p (fst hr) * sassoc_weight Z pdf c t meas (tracks (g_tab s) (fst hr)) (snd hr)) /\
                          Forall2 (fun ea e' => ssuccessor Z pdf c t meas (fst ea) (snd ea) e') (combine (tracks (g_tab s) (fst hr)) (snd hr)) (tracks (g_tab s') h'))
      (flat_map (fun hr => map (pair (fst hr)) (snd hr)) (combine (g_hyps s) rr)) (g_hyps s').
Proof.
  intros Hm Hmc Hcr Hcd HO Hf Hav Hl H. destruct (scorrect_full _ _ _ _ _ _ Hm Hf H) as [rows [av [hs [E1 [E2 [E3 [_ Hre]]]]]]]. apply avgs_spec in E2. subst av.
  destruct (scor_hyps_form pdf c t meas (g_tab s) rows (g_hyps s) hs Hm Hmc Hcr Hcd HO Hf Hav Hl E1 E3) as [K [rr [HK [HF HE]]]]. exists K, rr. split; [exact HK|].
  split; [eapply F2_impl; [|exact HF]; intros h rws _ [A [_ B]]; split; assumption|].
  set (tab := scor_tab rows (g_tab s)) in *. set (combos := flat_map _ _) in HE |- *.
  assert (Hcomb : forall h row, In (h, row) combos -> (forall i, In i (h_ts h) -> (i < length (g_tab s))%nat) /\ valid_row (length (h_ts h)) (length meas) row).
  { intros h row Hin. unfold combos in Hin. apply in_flat_map in Hin as [[h0 rws] [Hin Hr]]. apply in_map_iff in Hr as [row0 [Er Hr]]. inversion Er; subst. cbn [fst snd] in *.
    assert (HP : sconsidered Z pdf c t meas (g_hyps s) h (tracks (g_tab s) h) rws /\ (forall i, In i (h_ts h) -> (i < length (g_tab s))%nat) /\ Forall (valid_row (length (h_ts h)) (length meas)) rws).
    { revert Hin. generalize HF. generalize (g_hyps s) at 2 3 as l. clear. intros l HF. induction HF as [|h0 r0 l rr Hh _ IH]; intros Hin; [destruct Hin|]. destruct Hin as [Eq|Hin]; [inversion Eq; subst; exact Hh|exact (IH Hin)]. }
    destruct HP as [_ [A B]]. split; [exact A|]. rewrite Forall_forall in B. apply B, Hr. }
  assert (HEl : Forall2 (fun hr x => h_p x = K * (h_p (fst hr) * sassoc_weight Z pdf c t meas (tracks (g_tab s) (fst hr)) (snd hr)) /\ h_ts x = shifted (length (g_tab s)) (h_ts (fst hr)) (snd hr)) combos hs).
  { clear -HE. clearbody combos. revert hs HE. induction combos as [|hr l IH]; intros [|x hs] HE; try discriminate; constructor; cbn [map] in HE; inversion HE; auto. }
  clear -HEl Hre Hcomb E1 HO.
  assert (Hgo : forall l hs0 hs', Forall2 (fun hr x => h_p x = K * (h_p (fst hr) * sassoc_weight Z pdf c t meas (tracks (g_tab s) (fst hr)) (snd hr)) /\ h_ts x = shifted (length (g_tab s)) (h_ts (fst hr)) (snd hr)) l hs0 ->
     Forall2 (fun x h' => h_p h' = h_p x /\ Forall2 (fun i k => exists e, nth_error tab i = Some (Some e) /\ nth_error (g_tab s') k = Some e) (h_ts x) (h_ts h')) hs0 hs' -> (forall hr, In hr l -> In hr combos) ->
     Forall2 (fun hr h' => h_p h' = K * (h_p (fst hr) * sassoc_weight Z pdf c t meas (tracks (g_tab s) (fst hr)) (snd hr)) /\
                          Forall2 (fun ea e' => ssuccessor Z pdf c t meas (fst ea) (snd ea) e') (combine (tracks (g_tab s) (fst hr)) (snd hr)) (tracks (g_tab s') h')) l hs').
  { intros l hs0 hs' F1. revert hs'. induction F1 as [|[h row] x l hs0 [P1 P2] _ IH]; intros hs' F2 Hsub; inversion F2 as [|x0 h' hs1 hs2 [Q1 Q2] F2' Q3 Q4]; subst; constructor.
    2:{ apply IH; [exact F2'|intros hr Hhr; apply Hsub; right; exact Hhr]. }
    cbn [fst snd] in *. split; [rewrite Q1; exact P1|]. destruct (Hcomb h row (Hsub _ (or_introl eq_refl))) as [A [B1 [B2 _]]]. rewrite P2 in Q2.
    unfold tracks. clear -Q2 A B1 B2 E1 HO. unfold shifted in Q2. revert row B1 B2 Q2. generalize (h_ts h') as ks. revert A. induction (h_ts h) as [|i ts IH]; intros A ks [|a row] B1 B2 Q2; try discriminate; cbn [combine map] in Q2.
    - inversion Q2; subst. constructor.
    - inversion Q2 as [|y k ys ks' [e' [N1 N2]] Q2' Q3 Q4]; subst. cbn [flat_map]. rewrite N2. specialize (A i (or_introl eq_refl)) as Ai.
      destruct (nth_error (g_tab s) i) as [e|] eqn:Ee; [|apply nth_error_None in Ee; lia]. cbn [app combine]. constructor.
      + cbn [fst snd] in N1 |- *. destruct (scor_tab_nth Z pdf c t meas (g_tab s) rows i a e E1 Ee (B2 a (or_introl eq_refl))) as [o [No Hs]]. fold tab in No. rewrite No in N1. injection N1 as N1.
        apply supd_successor; [exact (HO e (nth_error_In _ _ Ee))|]. exact (Hs e' N1).
      + apply IH; [intros j Hj; apply A; right; exact Hj|injection B1; auto|intros v Hv; apply B2; right; exact Hv|exact Q2']. }
  exact (Hgo combos hs (g_hyps s') HEl Hre (fun _ H => H)).
Qed.
End B.
