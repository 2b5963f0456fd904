(** Concrete SMC-GLMB surroundings: the contracts can be met, counterexamples. *)
From Verif Require Import Base Lists.
From Coq Require Import Reals Permutation Sorted Lra Lia.
From Verif Require Import OspaModel CphdModel OspaProofs CphdSpec CphdProofs CphdProps GlmbModel GlmbSpec GlmbProofs GlmbInv GlmbBayes GlmbTotal GlmbProps GlmbDemo GlmbProps4 SmcModel SmcSpec SmcProofs SmcBayes SmcUpd SmcTotal SmcProps.
Open Scope R_scope.

(** One world: particles are numbers moved by [mv]; the estimate is the weighted
    mean of the cloud; correct leaves the cloud and returns the likelihood [g]
    for every particle. *)
Definition wmean (s : pfs R unit) : R := rsum (map (fun x => fst x * snd x) (combine (p_w s) (p_parts s))).
Definition moved (mv : R -> R) (s : pfs R unit) : pfs R unit := {| p_parts := map mv (p_parts s); p_w := p_w s; p_rest := tt |}.
Definition z_env (mv : R -> R) (g : R) : senv R unit R unit unit :=
  {| z_g := {| v_rnd := fun t => Int_part t; v_init := fun _ _ => {| p_parts := []; p_w := []; p_rest := tt |}; v_pred := fun _ s x => (s, x, tt);
               v_corr := fun _ _ _ _ => None; v_kshort := m_kshort; v_murty := m_murty; v_lse0 := Ok tt; v_hash := fun l => Z.of_nat (enc l); v_argsort := sort_ref |};
     z_pred := fun _ s => (moved mv s, wmean (moved mv s));
     z_corr := fun _ _ s => Some (s, wmean s, constf g (p_parts s));
     z_cov := fun _ => tt |}.
Definition z_cfg : gcfg R unit :=
  {| c_births := []; c_ps := 1 / 2; c_pd := 1 / 2; c_crate := 1; c_cden := 1; c_reqb := 1; c_reqs := 1; c_requ := 2;
     c_prune := 0; c_maxh := 10; c_savecov := false; c_savemeas := false |}.
(** Two particles, 0 and 1, with the same weight. *)
Definition z_cloud : pfs R unit := {| p_parts := [0; 1]; p_w := [1 / 2; 1 / 2]; p_rest := tt |}.
Definition z_births : list (pfs R unit * R * unit * R) := [(z_cloud, 1 / 2, tt, 9 / 10)].

Lemma const_prob q : 0 < q < 1 -> prob_fun (constf q : list R -> list R).
Proof. intros H l. split; [apply map_length|]. intros p Hp. apply in_map_iff in Hp as [x [<- _]]. exact H. Qed.
Lemma z_works mv g : 0 <= g -> pf_works (z_env mv g).
Proof.
  intros Hg. split.
  - intros t s [[H1 [H2 H3]] H4]. split; [|exact H4]. split; [destruct (p_parts s) eqn:Ep; [congruence|cbn; rewrite Ep; discriminate]|]. split; [cbn; rewrite map_length; exact H2|exact H3].
  - intros t z s [H1 H4]. cbn. split; [exact H1|]. split; [apply map_length|]. intros q Hq. apply in_map_iff in Hq as [x [<- _]]. exact Hg.
Qed.
Lemma z_births_ok : sbirths_ok z_births.
Proof.
  intros s m cv p [H|[]]. injection H as <- <- <- <-. split; [|split; [cbn [z_cloud p_w]; rewrite !rsum_cons; change (rsum []) with 0; lra|lra]].
  split; [discriminate|]. split; [reflexivity|]. intros w [<-|[<-|[]]]; lra.
Qed.
Lemma z_contracts mv g : let E := z_g (z_env mv g) in kshort_ok (v_kshort E) /\ kshort_cost 0 (v_kshort E) /\ kshort_total (v_kshort E) /\
  murty_ok (v_murty E) /\ murty_cost (v_murty E) /\ murty_best (v_murty E) /\ murty_total (v_murty E) /\ hash_ok (v_hash E) /\ rsorts (v_argsort E) /\ v_lse0 E = Ok tt.
Proof.
  split; [exact m_kshort_ok|]. split; [exact m_kshort_cost|]. split; [intros lc [|k]; eexists; reflexivity|]. split; [exact m_murty_ok|]. split; [exact m_murty_cost|].
  split; [exact m_murty_best|]. split; [intros nr nc M m _ _; eexists; reflexivity|]. split; [exact (d_hash_ok false)|]. split; [exact C44_ex|reflexivity].
Qed.
(** The first predict. *)
Lemma z_first mv g psf t : spredict (z_env mv g) psf z_cfg z_births t glmb_new =
  Ok {| g_tab := [sbirth_entry (z_env mv g) z_cfg t 0 0 (z_cloud, 1 / 2, tt, 9 / 10)]; g_hyps := one [0%nat]; g_card := calc_card (one []); g_cnt := 0; g_meas := []; g_ext := [];
        g_states := []; g_labels := []; g_covs := [] |}.
Proof.
  unfold spredict. cbn [z_births mapM bprob snd]. rewrite d_birth_cost. cbn [bind z_g z_env v_kshort z_cfg c_reqb m_kshort length seq filter nth].
  pose proof ln_neg_9. destruct (Rlt_dec (- ln (9 / 10 / (1 - 9 / 10))) 0) as [_|?]; [|lra]. cbn [bind]. fold (z_env mv g). fold z_cfg.
  set (cs := [rsum _]). assert (H2 : sbirth_hyps (z_env mv g) z_births [[0%nat]] cs = Ok (one [0%nat])).
  { unfold sbirth_hyps. cbn [z_births mapM bprob snd]. rewrite lnp_ok by lra. unfold cs. cbn [bind combine map]. rewrite norm1. reflexivity. }
  rewrite H2. cbn [bind glmb_new g_tab g_hyps mapM].
  assert (H3 : ssurv_hyps (z_env mv g) z_cfg [] (one []) = Ok (one [])).
  { unfold ssurv_hyps, one. rewrite ssum1. cbn [mapM]. unfold ssurv_hyp. cbn [h_ts h_p]. rewrite lnp_ok by lra. cbn [bind concat app]. rewrite norm1. reflexivity. }
  unfold one at 1 in H3. rewrite H3. cbn [bind]. f_equal. f_equal. unfold set_pred_hyps, one. cbn [flat_map map app length h_p h_ts]. rewrite rsum_cons. change (rsum []) with 0.
  unfold clean_predictions. cbn [fold_left add_hyp map snd]. replace (1 * 1 / (1 * 1 + 0)) with 1 by field. reflexivity.
Qed.
Lemma z_share ts : share_of 2 (one ts) {| h_p := 1; h_ts := ts |} = 2%nat.
Proof. unfold share_of, one. rewrite ssum1. cbn [h_p]. apply k_of_1. Qed.
Lemma z_two (M : nat -> nat -> R) rows costs : m_murty 1 1 M 2 = Ok (rows, costs) -> rows = [[0%nat]; [1%nat]] \/ rows = [[1%nat]; [0%nat]].
Proof.
  unfold m_murty. intros H. injection H as H _. rewrite <- H. change (all_rows 1 1) with [[0%nat]; [1%nat]]. cbn [isort fold_right insk]. destruct (Rle_dec _ _); [left|right]; reflexivity.
Qed.

(** A history (two scans, the second with two measurements) that meets the
    hypotheses of C110-C114 and C116. *)
Definition z_scans : list ((list R -> list R) * (list R -> list R) * R * list unit * (bool * bool * bool)) :=
  [(constf (1 / 2), constf (1 / 2), 0, [tt], (true, true, true)); (constf (1 / 2), constf (1 / 2), 1, [tt; tt], (true, true, true))].
Example smc_hypotheses_ex : exists s, let Z := z_env (fun x => x + 1) 1 in let os := flat_map scycle z_scans in
  pf_works Z /\ pf_ok Z /\ (forall psf pdf t meas fl, In (psf, pdf, t, meas, fl) z_scans -> prob_fun psf /\ prob_fun pdf) /\ sbirths_ok z_births /\
  (forall b m cv p, In (b, m, cv, p) z_births -> p_parts b <> [] /\ normalised b) /\ nonneg_ops os /\ snever_fails Z os /\
  NoDup (map (v_rnd (z_g Z)) (spredict_times os)) /\ sprotocol 0 os = Some 0%nat /\ srun Z z_cfg z_births os glmb_new = Ok s.
Proof.
  assert (Hc : forall psf pdf t meas fl, In (psf, pdf, t, meas, fl) z_scans -> prob_fun psf /\ prob_fun pdf).
  { intros psf pdf t meas fl [H|[H|[]]]; injection H as <- <- _ _ _; split; apply const_prob; lra. }
  destruct (z_contracts (fun x => x + 1) 1) as [K1 [K2 [K3 [K4 [K5 [_ [K6 [K7 [K8 K9]]]]]]]]].
  pose proof (z_works (fun x => x + 1) 1 ltac:(lra)) as Hw.
  destruct (C116_smc_cycle_total (z_env (fun x => x + 1) 1) z_cfg z_births z_scans Hw Hc z_births_ok ltac:(cbn; lra) ltac:(cbn; lra) K3 K6 K1 K4 K9 K8) as [s [Hs _]].
  exists s. cbv zeta. split; [exact Hw|]. split.
  { split; [intros t s0 [H1 [H2 H3]]|intros t z s0 s1 x1 l H H1; injection H1 as <- _ _; exact H].
    split; [destruct (p_parts s0) eqn:Ep; [congruence|cbn; rewrite Ep; discriminate]|]. split; [cbn; rewrite map_length; exact H2|exact H3]. }
  split; [exact Hc|]. split; [exact z_births_ok|]. split.
  { intros b m cv p Hb. destruct (z_births_ok b m cv p Hb) as [H1 [H2 _]]. exact (counted_norm b H1 H2). }
  split.
  { intros o Ho. cbn in Ho. repeat destruct Ho as [<-|Ho]; try exact I; try (intros l p Hp; apply in_map_iff in Hp as [x [<- _]]; lra). destruct Ho. }
  split; [intros pdf t meas _ z s0 _; discriminate|]. split; [|split; [reflexivity|exact Hs]].
  cbn. assert (H0 : Int_part 0 = 0%Z) by (destruct (base_Int_part 0) as [A B]; apply eq_IZR; assert (C : IZR (Int_part 0) < 1) by lra; assert (D : -1 < IZR (Int_part 0)) by lra; apply lt_IZR in C; apply lt_IZR in D; f_equal; lia).
  assert (H1 : Int_part 1 = 1%Z) by (destruct (base_Int_part 1) as [A B]; apply eq_IZR; assert (C : IZR (Int_part 1) < 2) by lra; assert (D : 0 < IZR (Int_part 1)) by lra; apply lt_IZR in C; apply lt_IZR in D; f_equal; lia).
  rewrite H0, H1. repeat constructor; cbn; intuition discriminate.
Qed.

(** * C115: the update is not Bayes': one scan, one track of detection probability
    1/2, likelihood 1 and clutter intensity 1: detected and missed must be equally
    likely, the filter makes missed more likely. *)
Theorem C115_smc_update_bayes_refuted : exists (Z : senv R unit R unit unit) c bs t z s1 s e hd hm,
  (let E := z_g Z in kshort_ok (v_kshort E) /\ kshort_cost 0 (v_kshort E) /\ murty_ok (v_murty E) /\ murty_cost (v_murty E) /\ murty_best (v_murty E)) /\ pf_works Z /\
  srun Z c bs [SPredict (constf (1 / 2)) t] glmb_new = Ok s1 /\ scorrect Z (constf (1 / 2)) c t [z] s1 = Ok s /\
  (* one track, of which the particle filter says: likelihood 1 *)
  (exists h b, g_hyps s1 = [h] /\ tracks (g_tab s1) h = [e] /\ e_fs e = [b] /\ p_parts b <> [] /\ normalised b /\ z_corr Z t z b = Some (b, wmean b, constf 1 (p_parts b))) /\
  c_crate c * c_cden c = 1 /\ In hd (g_hyps s) /\ In hm (g_hyps s) /\ map e_assoc (tracks (g_tab s) hd) = [[Some 0%nat]] /\ map e_assoc (tracks (g_tab s) hm) = [[None]] /\
  h_p hd < h_p hm.
Proof.
  pose (Z := z_env (fun x => x) 1). destruct (z_contracts (fun x => x) 1) as [K1 [K2 [K3 [K4 [K5 [K5' [K6 [K7 [K8 K9]]]]]]]]]. pose proof (z_works (fun x => x) 1 ltac:(lra)) as Hw.
  pose (e := sbirth_entry Z z_cfg 0 0 0 (z_cloud, 1 / 2, tt, 9 / 10)).
  pose proof (z_first (fun x => x) 1 (constf (1 / 2)) 0) as H1. set (s1 := {| g_tab := _ |}) in H1. fold Z in H1, K1, K2, K3, K4, K5, K5', K6, K7, K8, K9, Hw.
  assert (HN : counted z_cloud /\ rsum (p_w z_cloud) = 1) by (destruct (z_births_ok _ _ _ _ (or_introl eq_refl)) as [A [B _]]; auto).
  destruct (counted_norm z_cloud (proj1 HN) (proj2 HN)) as [Hne Hnorm].
  assert (Hcl : cloud_ok e).
  { split; [|exists z_cloud; split; [reflexivity|split; assumption]]. split; [discriminate|]. split; [eexists; reflexivity|]. split; [eexists; reflexivity|]. intros w [<-|[]]. reflexivity. }
  assert (Htab : forall e0, In e0 (g_tab s1) -> e0 = e) by (intros e0 [<-|[]]; reflexivity).
  destruct (scorrect_total Z (constf (1 / 2)) z_cfg 0 [tt] s1 Hw (const_prob (1 / 2) ltac:(lra)) ltac:(cbn; lra) ltac:(cbn; lra) K6 K9) as [s Hs].
  { intros h [<-|[]]. cbn. lra. }
  { intros h i [<-|[]] [<-|[]]. cbn. lia. }
  { intros e0 He. rewrite (Htab e0 He). exact Hcl. }
  destruct (C115_smc_update_exact_partial Z (constf (1 / 2)) z_cfg 0 [tt] s1 s K4 K5 ltac:(cbn; lra) ltac:(cbn; lra)) as [K [rr [HK [F1 F2]]]].
  { intros e0 He. rewrite (Htab e0 He). exact (proj1 Hcl). }
  { intros z0 s0 _. discriminate. }
  { intros e0 He. rewrite (Htab e0 He). exact (avg_unit _ _ (const_prob (1 / 2) ltac:(lra)) Hcl). }
  { intros e0 z0 He _. rewrite (Htab e0 He). apply cloud_lik_pos; [exact Hw|apply const_prob; lra|exact Hcl|discriminate]. }
  { exact Hs. }
  change (g_hyps s1) with (one [0%nat]) in F1, F2. unfold one at 2 in F1. inversion F1 as [|h0 rows x1 l1 [Hco Hval] Hnil]; subst. inversion Hnil; subst.
  change (tracks (g_tab s1) {| h_p := 1; h_ts := [0%nat] |}) with [e] in Hco. cbn [sconsidered] in Hco. destruct Hco as [M [costs [HM _]]].
  change (c_requ z_cfg) with 2%nat in HM. rewrite z_share in HM. apply z_two in HM.
  destruct (C115_detection_counted_twice Z (1 / 2) 1 z_cfg 0 tt e z_cloud z_cloud (wmean z_cloud) eq_refl Hne Hnorm eq_refl Hnorm) as [W0 W1].
  assert (Hfe : 0 < feps < 1 / 8). { unfold feps. split; [apply Rinv_0_lt_compat, pow_lt; lra|]. replace (1 / 8) with (/ 2 ^ 3) by field. apply Rinv_lt_contravar; [apply Rmult_lt_0_compat; apply pow_lt; lra|]. apply Rlt_pow; [lra|lia]. }
  assert (W2 : sassoc_weight Z (constf (1 / 2)) z_cfg 0 [tt] [e] [1%nat] < 1 / 2).
  { rewrite W1. cbn [z_cloud p_parts length z_cfg c_crate c_cden]. change (INR 2) with 2. replace (1 * 1) with 1 by ring. unfold Rdiv. rewrite Rinv_1. lra. }
  assert (Hfin : forall hd hm, h_p hd = K * (1 * sassoc_weight Z (constf (1 / 2)) z_cfg 0 [tt] [e] [1%nat]) -> h_p hm = K * (1 * sassoc_weight Z (constf (1 / 2)) z_cfg 0 [tt] [e] [0%nat]) -> h_p hd < h_p hm).
  { intros hd hm A B. rewrite A, B, W0. apply Rmult_lt_compat_l; [exact HK|]. rewrite !Rmult_1_l. eapply Rlt_le_trans; [exact W2|]. lra. }
  assert (Hass : forall h' a, Forall2 (fun ea e' => ssuccessor Z (constf (1 / 2)) z_cfg 0 [tt] (fst ea) (snd ea) e') (combine [e] [a]) (tracks (g_tab s) h') ->
     map e_assoc (tracks (g_tab s) h') = [[match a with O => None | S j => Some j end]]).
  { intros h' a F. cbn [combine] in F. inversion F as [|x y l l' Hsu Hr]; subst. inversion Hr; subst. cbn [fst snd] in Hsu. cbn [map]. destruct Hsu as [_ [_ Hsu]]. destruct a; destruct Hsu as [-> _]; reflexivity. }
  assert (Hex : exists hd hm, In hd (g_hyps s) /\ In hm (g_hyps s) /\ map e_assoc (tracks (g_tab s) hd) = [[Some 0%nat]] /\ map e_assoc (tracks (g_tab s) hm) = [[None]] /\ h_p hd < h_p hm).
  { destruct HM as [-> | ->]; cbn [one combine flat_map map app fst snd] in F2; inversion F2 as [|x y l l' [P1 T1] F2' Ea Eb]; subst; inversion F2' as [|x2 y2 l2 l2' [P2 T2] F3 Ec Ed]; subst; inversion F3; subst;
      cbn [fst snd h_p] in P1, P2, T1, T2; change (tracks (g_tab s1) {| h_p := 1; h_ts := [0%nat] |}) with [e] in P1, P2, T1, T2; apply Hass in T1; apply Hass in T2.
    - exists y2, y. split; [right; left; reflexivity|]. split; [left; reflexivity|]. split; [exact T2|]. split; [exact T1|]. exact (Hfin _ _ P2 P1).
    - exists y, y2. split; [left; reflexivity|]. split; [right; left; reflexivity|]. split; [exact T1|]. split; [exact T2|]. exact (Hfin _ _ P1 P2). }
  destruct Hex as [hd [hm [A [B [C [D F]]]]]]. exists Z, z_cfg, z_births, 0, tt, s1, s, e, hd, hm.
  split; [exact (conj K1 (conj K2 (conj K4 (conj K5 K5'))))|]. split; [exact Hw|]. split; [cbn [srun sexec]; rewrite H1; reflexivity|]. split; [exact Hs|]. split.
  { exists {| h_p := 1; h_ts := [0%nat] |}, z_cloud. split; [reflexivity|]. split; [reflexivity|]. split; [reflexivity|]. split; [exact Hne|]. split; [exact Hnorm|]. reflexivity. }
  split; [cbn; ring|]. split; [exact A|]. split; [exact B|]. split; [exact C|]. split; [exact D|exact F].
Qed.
Print Assumptions C115_smc_update_bayes_refuted.
