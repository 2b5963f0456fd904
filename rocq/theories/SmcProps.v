(** Properties of the SMC-GLMB filter (particle filters inside). *)
From Verif Require Import Base Lists.
From Coq Require Import Reals Permutation Lra.
From Verif Require Import OspaModel CphdModel OspaProofs CphdSpec CphdProofs CphdProps GlmbModel GlmbSpec GlmbProofs GlmbInv GlmbExtract GlmbMost GlmbTotal GlmbProps GlmbProps2 GlmbDemo GlmbBayes GlmbProps4 JglmbTotal
  SmcModel SmcSpec SmcProofs SmcBayes SmcUpd SmcTotal.
Open Scope R_scope.

(** * C110: in every history in which the particle filter did not fail the
    hypotheses left are a probability distribution, and after correct the
    cardinality distribution is theirs. *)
Theorem C110_smc_distribution : forall {P X ST CV MS} (Z : senv P X ST CV MS) c bs os s,
  murty_ok (v_murty (z_g Z)) -> rsorts (v_argsort (z_g Z)) -> snever_fails Z os -> srun Z c bs os glmb_new = Ok s ->
  g_hyps s <> [] -> prob_dist (g_hyps s).
Proof.
  intros P X ST CV MS Z c bs os s Hm Hs Hn H. apply (srun_dist Z c bs os glmb_new s Hm Hs Hn H).
  intros _. split; [intros h [<-|[]]; cbn; lra|]. cbn [g_hyps glmb_new map]. rewrite rsum_cons. change (rsum []) with 0. cbn [h_p]. lra.
Qed.
Print Assumptions C110_smc_distribution.
Theorem C110_smc_cardinality : forall {P X ST CV MS} (Z : senv P X ST CV MS) pdf c bs t meas s s',
  murty_ok (v_murty (z_g Z)) -> snever_fails Z [SCorrect pdf t meas] -> sexec Z c bs (SCorrect pdf t meas) s = Ok s' ->
  g_hyps s' <> [] -> prob_dist (g_hyps s') /\ card_matches (g_card s') (g_hyps s').
Proof.
  intros P X ST CV MS Z pdf c bs t meas s s' Hm Hn H. apply (scorrect_dist Z pdf c t meas s s' Hm); [|exact H]. intros z s0 Hz. exact (Hn pdf t meas (or_introl eq_refl) z s0 Hz).
Qed.
Print Assumptions C110_smc_cardinality.

(** * C111: in every history the track sets refer to tracks; with predict times
    that are different after rounding no hypothesis contains one label twice; in
    the order predict, correct, cleanup no two tracks of a hypothesis share a
    measurement of one scan. *)
Theorem C111_smc_references : forall {P X ST CV MS} (Z : senv P X ST CV MS) c bs os s,
  kshort_ok (v_kshort (z_g Z)) -> murty_ok (v_murty (z_g Z)) -> srun Z c bs os glmb_new = Ok s -> refs_ok (g_tab s) (g_hyps s).
Proof. intros P X ST CV MS Z c bs os s Hk Hm H. eapply hinv_refs, (srefs_run Z c bs os _ _ Hk Hm H). apply hinv_new. Qed.
Print Assumptions C111_smc_references.
Theorem C111_smc_labels : forall {P X ST CV MS} (Z : senv P X ST CV MS) c bs os s,
  kshort_ok (v_kshort (z_g Z)) -> murty_ok (v_murty (z_g Z)) -> NoDup (map (v_rnd (z_g Z)) (spredict_times os)) -> srun Z c bs os glmb_new = Ok s ->
  forall h, In h (g_hyps s) -> NoDup (map e_label (tracks (g_tab s) h)).
Proof.
  intros P X ST CV MS Z c bs os s Hk Hm Hd H h Hh. destruct (slabel_run Z c bs os _ _ [] Hk Hm H Hd) as [used [_ HI]].
  - intros z [].
  - split; [intros e []|apply hinv_new].
  - apply pairs_nodup. exact (hinv_tracks _ _ _ _ HI Hh).
Qed.
Print Assumptions C111_smc_labels.
Theorem C111_smc_exclusive : forall {P X ST CV MS} (Z : senv P X ST CV MS) c bs os ph s,
  kshort_ok (v_kshort (z_g Z)) -> murty_ok (v_murty (z_g Z)) -> sprotocol 0 os = Some ph -> srun Z c bs os glmb_new = Ok s ->
  forall h i j e1 e2, In h (g_hyps s) -> i <> j -> nth_error (tracks (g_tab s) h) i = Some e1 -> nth_error (tracks (g_tab s) h) j = Some e2 ->
    ~ share_meas e1 e2.
Proof.
  intros P X ST CV MS Z c bs os ph s Hk Hm Hp H h i j e1 e2 Hh Hij H1 H2.
  destruct (spinv_run Z c bs os 0 ph _ _ Hk Hm H Hp) as [_ HI]; [split; [intros e []|apply hinv_new]|].
  exact (hinv_tracks _ _ _ _ HI Hh i j e1 e2 Hij H1 H2).
Qed.
Print Assumptions C111_smc_exclusive.

(** * C112: in every history every track has exactly one particle cloud, one
    current state and component weight 1 at every time. *)
Theorem C112_smc_one_cloud : forall {P X ST CV MS} (Z : senv P X ST CV MS) c bs os s, srun Z c bs os glmb_new = Ok s ->
  forall e, In e (g_tab s) -> one_cloud e.
Proof. intros P X ST CV MS Z c bs os s H. apply (oinv_run Z c bs os _ _ H). intros e []. Qed.
Print Assumptions C112_smc_one_cloud.

(** * C113: in every history the particle weights of every track are not negative
    and sum to 1, one per particle, whatever the probability functions return
    (not negative), if the birth clouds are such. *)
Theorem C113_smc_weights_normalised : forall {P X ST CV MS} (Z : senv P X ST CV MS) c bs os s,
  pf_ok Z -> (forall b m cv p, In (b, m, cv, p) bs -> p_parts b <> [] /\ normalised b) -> nonneg_ops os -> srun Z c bs os glmb_new = Ok s ->
  forall e, In e (g_tab s) -> exists b, e_fs e = [b] /\ p_parts b <> [] /\ normalised b.
Proof.
  intros P X ST CV MS Z c bs os s Hp Hb Hn H e He. destruct (cloud_run Z c bs os glmb_new s Hp Hb Hn H (fun e0 (F : In e0 []) => match F with end) e He) as [_ H1]. exact H1.
Qed.
Print Assumptions C113_smc_weights_normalised.

(** * C114: after predict every track is new-born with its birth cloud, or the
    prediction of an old track, its particles weighted by the survival
    probability of the predicted particles; ... *)
Theorem C114_smc_predicted_tracks : forall {P X ST CV MS} (Z : senv P X ST CV MS) psf c bs t s s',
  (forall e, In e (g_tab s) -> one_cloud e) -> spredict Z psf c bs t s = Ok s' ->
  length (g_tab s') = (length bs + length (g_tab s))%nat /\
  (forall i b, nth_error bs i = Some b -> exists e, nth_error (g_tab s') i = Some e /\ e_label e = (v_rnd (z_g Z) t, i) /\ e_time e = g_cnt s /\ e_assoc e = [] /\ e_w e = [[1]] /\
      e_fs e = [fst (fst (fst b))] /\ e_st e = [[snd (fst (fst b))]]) /\
  (forall i e s0 x0, nth_error (g_tab s) i = Some e -> e_fs e = [s0] -> last (e_st e) [] = [x0] ->
     exists e' s1 x1, nth_error (g_tab s') (length bs + i) = Some e' /\ e_label e' = e_label e /\ e_time e' = e_time e /\ e_assoc e' = e_assoc e /\
       e_w e' = e_w e ++ [[1]] /\ e_fs e' = [s1] /\ e_st e' = e_st e ++ [[x1]] /\
       (p_parts s0 = [] -> s1 = s0 /\ x1 = x0) /\
       (p_parts s0 <> [] -> let s2 := fst (z_pred Z t s0) in p_parts s1 = p_parts s2 /\ p_rest s1 = p_rest s2 /\ x1 = snd (z_pred Z t s0) /\
          let u := map (fun wp => fst wp * snd wp) (combine (p_w s2) (psf (p_parts s2))) in p_w s1 = map (fun w => w / rsum u) u)).
Proof.
  intros P X ST CV MS Z psf c bs t s s' HO H. destruct (spredict_inv _ _ _ _ _ _ _ H) as [lc [paths [costs [bh [stab [av [sh [E1 [Ek [Ebh [Est [Eav [Es [Et _]]]]]]]]]]]]]].
  rewrite Et. split; [rewrite app_length, sbirth_len, (mapM_length _ _ _ Est); reflexivity|]. split.
  - intros i b Hb. assert (Hi : (i < length bs)%nat) by (apply nth_error_Some; congruence). exists (sbirth_entry Z c t (g_cnt s) i b). split.
    + rewrite nth_error_app1 by (rewrite sbirth_len; exact Hi). destruct (nth_error (sbirth_tab Z c bs t (g_cnt s)) i) as [e|] eqn:Ee; [|apply nth_error_None in Ee; rewrite sbirth_len in Ee; lia].
      destruct (sbirth_nth Z c bs t (g_cnt s) i e Ee) as [b' [Hb' ->]]. congruence.
    + destruct b as [[[b m] cv] p]. cbn. repeat split.
  - intros i e s0 x0 Hi Hf Hx. destruct (mapM_nth_l _ _ _ _ _ Est Hi) as [e' [He' Hs]]. pose proof (one_last e (HO e (nth_error_In _ _ Hi))) as Hl.
    destruct (spred_spec Z psf c t e e' s0 x0 Hf Hx Hs) as [s1 [x1 [A [B [C [D [F [G [_ J]]]]]]]]]. exists e', s1, x1. rewrite nth_error_app2 by (rewrite sbirth_len; lia). rewrite sbirth_len.
    replace (length bs + i - length bs)%nat with i by lia. split; [exact He'|]. split; [exact A|]. split; [exact B|]. split; [exact C|]. split; [rewrite D, Hl; reflexivity|]. split; [exact F|]. split; [exact G|].
    split; [intros Hp; rewrite Hp in J; exact J|intros Hp; destruct (p_parts s0); [congruence|]; destruct J as [J1 [J2 [J3 [_ [J4 _]]]]]; auto].
Qed.
Print Assumptions C114_smc_predicted_tracks.
(** ... and the probability of any set of track sets is the GLMB prediction's with
    one survival probability per track, the weighted average over its particles,
    normalised over the combinations considered (and with the bias [d] of
    k_shortest's costs, C92). *)
Theorem C114_smc_predict_bayes_partial : forall {P X ST CV MS} (Z : senv P X ST CV MS) psf c bs t s s' d,
  kshort_ok (v_kshort (z_g Z)) -> kshort_cost d (v_kshort (z_g Z)) -> hash_ok (v_hash (z_g Z)) ->
  (forall b, In b bs -> 0 < bprob b < 1) -> (forall e, In e (g_tab s) -> 0 < cloud_avg psf e < 1) -> spredict Z psf c bs t s = Ok s' -> g_hyps s' <> [] ->
  0 < spredicted_total Z d c bs psf (g_tab s) (g_hyps s) (fun _ => true) /\
  forall f, (forall a b, Permutation a b -> f a = f b) ->
    mass (fun h => f (h_ts h)) (g_hyps s') = spredicted_total Z d c bs psf (g_tab s) (g_hyps s) f / spredicted_total Z d c bs psf (g_tab s) (g_hyps s) (fun _ => true).
Proof.
  intros P X ST CV MS Z psf c bs t s s' d Hk Hd Hh Hb Ha H Hne. destruct (spredict_mass Z psf c bs t s s' d Hk Hd Hh Hb Ha H Hne) as [K [HK HM]].
  pose proof (HM (fun _ => true) (fun _ _ _ => eq_refl)) as H1. destruct (spredict_dist Z psf c bs t s s' H Hne) as [_ Hs].
  unfold mass in H1. rewrite (filter_all_true (g_hyps s')), Hs in H1.
  assert (Hp : 0 < spredicted_total Z d c bs psf (g_tab s) (g_hyps s) (fun _ => true)).
  { apply (Rmult_lt_reg_l K); [exact HK|]. rewrite Rmult_0_r, <- H1. lra. }
  split; [exact Hp|]. intros f Hf. rewrite (HM f Hf). set (T := spredicted_total Z d c bs psf (g_tab s) (g_hyps s) (fun _ => true)) in *.
  replace K with (/ T); [field; lra|]. apply (Rmult_eq_reg_r T); [|lra]. rewrite <- H1. field. lra.
Qed.
Print Assumptions C114_smc_predict_bayes_partial.
(** A constant function [p] gives every track with weights of sum 1 the survival
    (or detection) probability [p]. *)
Theorem C114_constant_probability : forall {P X ST CV} (e : entry (pfs P X) ST CV) b p, e_fs e = [b] -> normalised b -> cloud_avg (constf p) e = p.
Proof.
  intros P X ST CV e b p Es [Hl [_ Hs]]. unfold cloud_avg. rewrite Es. unfold constf.
  assert (Hr : forall (A : Type) (l : list A), map (fun _ => p) l = repeat p (length l)) by (intros A l; induction l as [|x l IH]; [reflexivity|cbn; rewrite IH; reflexivity]).
  rewrite Hr, <- Hl, wavg_const, Hs. ring.
Qed.
Print Assumptions C114_constant_probability.

(** * C115: after correct there is one hypothesis per parent and association
    considered; its probability is the parent's times the association's weight, up
    to one common factor; its tracks are the successors of the parent's tracks. *)
Theorem C115_smc_update_exact_partial : forall {P X ST CV MS} (Z : senv P X ST CV MS) pdf c t meas s s',
  murty_ok (v_murty (z_g Z)) -> murty_cost (v_murty (z_g Z)) -> 0 < c_crate c -> 0 < c_cden c ->
  (forall e, In e (g_tab s) -> one_cloud e) -> (forall z s, In z meas -> z_corr Z t z s <> None) ->
  (forall e, In e (g_tab s) -> 0 < cloud_avg pdf e < 1) -> (forall e z, In e (g_tab s) -> In z meas -> 0 < cloud_lik Z pdf t z e) ->
  scorrect Z pdf c t meas s = Ok s' ->
  exists K rr, 0 < K /\
    Forall2 (fun h rows => sconsidered Z pdf c t meas (g_hyps s) h (tracks (g_tab s) h) rows /\ Forall (valid_row (length (h_ts h)) (length meas)) rows) (g_hyps s) rr /\
    Forall2 (fun hr h' => h_p h' = K * (h_p (fst hr) * sassoc_weight Z pdf c t meas (tracks (g_tab s) (fst hr)) (snd hr)) /\
                          Forall2 (fun ea e' => ssuccessor Z pdf c t meas (fst ea) (snd ea) e') (combine (tracks (g_tab s) (fst hr)) (snd hr)) (tracks (g_tab s') h'))
      (flat_map (fun hr => map (pair (fst hr)) (snd hr)) (combine (g_hyps s) rr)) (g_hyps s').
Proof. intros P X ST CV MS Z pdf c t meas s s'. apply scorrect_form. Qed.
Print Assumptions C115_smc_update_exact_partial.
(** That weight is not Bayes': the detection probability enters twice, once as the
    average over the track's particles, once inside the likelihood.  With constant
    detection probability [q] and likelihood [g] the odds of detected to missed
    are q ((q + n eps) g + eps) / (clutter (1 - q)) instead of q g / (clutter (1 - q)). *)
Theorem C115_detection_counted_twice : forall {P X ST CV MS} (Z : senv P X ST CV MS) q g c t z (e : entry (pfs P X) ST CV) b b1 x1,
  e_fs e = [b] -> p_parts b <> [] -> normalised b -> z_corr Z t z b = Some (b1, x1, constf g (p_parts b1)) -> normalised b1 ->
  sassoc_weight Z (constf q) c t [z] [e] [0%nat] = 1 - q /\
  sassoc_weight Z (constf q) c t [z] [e] [1%nat] = q * ((q + INR (length (p_parts b1)) * feps) * g + feps) / (c_crate c * c_cden c).
Proof.
  intros P X ST CV MS Z q g c t z e b b1 x1 Es Hn HN Ez [L1 [_ S1]]. unfold sassoc_weight. cbn [combine map snd fst nth_error]. unfold rprod. cbn [fold_right].
  rewrite (C114_constant_probability e b q Es HN). split; [ring|]. rewrite Rmult_1_r. f_equal. f_equal. unfold cloud_lik. rewrite Es. destruct (p_parts b) as [|p0 ps] eqn:Ep; [congruence|]. rewrite Ez. f_equal.
  assert (Hr : forall (A : Type) (v : R) (l : list A), map (fun _ => v) l = repeat v (length l)) by (intros A v l; induction l as [|x l IH]; [reflexivity|cbn; rewrite IH; reflexivity]).
  unfold constf. rewrite !Hr, <- L1. transitivity (g * (q * rsum (p_w b1) + INR (length (p_w b1)) * feps)); [|rewrite S1; ring].
  generalize (p_w b1) as w. clear. induction w as [|x w IH]; [change (rsum []) with 0; cbn [length INR repeat combine map]; change (rsum []) with 0; ring|].
  cbn [length repeat combine map fst snd]. rewrite rsum_cons, IH, rsum_cons, S_INR. cbn [fst snd]. ring.
Qed.
Print Assumptions C115_detection_counted_twice.

(** * C116: the intended cycle never raises: particle filters that work, birth
    probabilities and survival and detection probabilities strictly between 0 and
    1, positive clutter; for all times, measurements, flags and failures of the
    particle filter's correct. *)
Theorem C116_smc_cycle_total : forall {P X ST CV MS} (Z : senv P X ST CV MS) c bs xs,
  pf_works Z -> (forall psf pdf t meas fl, In (psf, pdf, t, meas, fl) xs -> prob_fun psf /\ prob_fun pdf) -> sbirths_ok bs -> 0 < c_crate c -> 0 < c_cden c ->
  kshort_total (v_kshort (z_g Z)) -> murty_total (v_murty (z_g Z)) -> kshort_ok (v_kshort (z_g Z)) -> murty_ok (v_murty (z_g Z)) ->
  v_lse0 (z_g Z) = Ok tt -> rsorts (v_argsort (z_g Z)) ->
  exists s, srun Z c bs (flat_map scycle xs) glmb_new = Ok s /\ (xs <> [] -> forall u k, exists s', sexec Z c bs (SExtract u k) s = Ok s').
Proof.
  intros P X ST CV MS Z c bs xs Hw Hx Hb Hcr Hcd Hkt Hmt Hk Hm Hl Hs.
  destruct (scycles_total Z c bs xs Hw) as [s [E1 [HR Hcd1]]]; auto; [intros [[[[psf pdf] t] meas] fl] Hi; exact (Hx psf pdf t meas fl Hi)|].
  exists s. split; [exact E1|]. intros Hn u k. specialize (Hcd1 Hn). pose proof (srinv_c c s HR) as [[HL HI] [HS HX]]. cbn [sexec].
  destruct (g_hyps s) as [|h0 hs0] eqn:Eh.
  - destruct (extract_none c u k s Hcd1 Eh) as [s4 E4]. rewrite E4. cbn [bind]. eauto.
  - assert (HE : Extractable c s).
    { split; [exact Hcd1|]. split; [congruence|]. split; [rewrite Eh; eapply hinv_refs; exact HI|]. split; [intros e He; split; auto|exact HX]. }
    destruct (extract_ok c u k s HE) as [i [s4 E4]]. rewrite E4. cbn [bind]. eauto.
Qed.
Print Assumptions C116_smc_cycle_total.
