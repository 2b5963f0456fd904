(** Counterexamples about predicted clouds and recorded estimates of the SMC-GLMB filter. *)
From Verif Require Import Base Lists.
From Coq Require Import Reals Permutation Sorted Lra Lia.
From Verif Require Import OspaModel CphdModel OspaProofs CphdSpec CphdProofs CphdProps GlmbModel GlmbSpec GlmbProofs GlmbInv GlmbBayes GlmbTotal GlmbProps GlmbDemo GlmbProps4 SmcModel SmcSpec SmcProofs SmcBayes SmcUpd SmcTotal SmcProps SmcDemo.
Open Scope R_scope.

Definition z_ent (mv : R -> R) (g : R) : entry (pfs R unit) R unit := add_assoc None (sbirth_entry (z_env mv g) z_cfg 0 0 0 (z_cloud, 1 / 2, tt, 9 / 10)).
Definition z_ops : list (sop R unit) := [SPredict (constf (1 / 2)) 0; SCorrect (constf (1 / 2)) 0 []; SCleanup false false false].
Lemma z_cloud_norm : p_parts z_cloud <> [] /\ normalised z_cloud.
Proof. destruct (z_births_ok _ _ _ _ (or_introl eq_refl)) as [A [B _]]. exact (counted_norm _ A B). Qed.
(** After one scan without measurements: one track. *)
Lemma z_ready mv g : exists s, srun (z_env mv g) z_cfg z_births z_ops glmb_new = Ok s /\ g_tab s = [z_ent mv g] /\ g_hyps s = one [0%nat].
Proof.
  unfold z_ops. cbn [srun sexec]. rewrite z_first. cbn [bind]. unfold scorrect. cbn [scor_rows mapM bind g_tab g_hyps length].
  set (e := sbirth_entry _ _ _ _ _ _). assert (Ha : avg_prob (constf (1 / 2)) e = Ok (1 / 2)).
  { unfold e, sbirth_entry, avg_prob. cbn [e_fs z_cloud p_w p_parts constf map]. unfold wsum. cbn [length Nat.eqb combine map fst snd]. rewrite !rsum_cons. change (rsum []) with 0. f_equal. lra. }
  rewrite Ha. cbn [bind]. assert (Hh : forall co, scor_hyps (z_env mv g) z_cfg 0 1 [1 / 2] co (one [0%nat]) = Ok (one [0%nat])).
  { intros co. unfold scor_hyps, one. cbn [mapM]. unfold smiss_hyp. cbn [h_ts h_p mapM geti nth_error bind]. rewrite !lnp_ok by lra. cbn [bind]. rewrite norm1. reflexivity. }
  rewrite Hh. cbn [bind]. unfold cleanup. cbn. eexists. split; [reflexivity|]. split; reflexivity.
Qed.

(** The survival probability of a particle: 1/4 left of 1/2, 3/4 from there on. *)
Definition z_psf (l : list R) : list R := map (fun x => if Rlt_dec x (1 / 2) then 1 / 4 else 3 / 4) l.
Lemma z_psf_prob : prob_fun z_psf.
Proof. intros l. split; [apply map_length|]. intros p Hp. apply in_map_iff in Hp as [x [<- _]]. destruct (Rlt_dec _ _); lra. Qed.
Lemma z_psf01 : z_psf [0; 1] = [1 / 4; 3 / 4] /\ z_psf [1; 1] = [3 / 4; 3 / 4].
Proof. unfold z_psf. cbn [map]. destruct (Rlt_dec 0 (1 / 2)); [|lra]. destruct (Rlt_dec 1 (1 / 2)); [lra|]. auto. Qed.
(** The next predict succeeds and predicts the track. *)
Lemma z_next mv g : exists s s' b1 e1, srun (z_env mv g) z_cfg z_births z_ops glmb_new = Ok s /\ g_tab s = [z_ent mv g] /\ spredict (z_env mv g) z_psf z_cfg z_births 1 s = Ok s' /\
  nth_error (g_tab s') 1 = Some e1 /\ e_label e1 = e_label (z_ent mv g) /\ e_fs e1 = [b1] /\ e_st e1 = e_st (z_ent mv g) ++ [[wmean (moved mv z_cloud)]] /\ p_parts b1 = map mv [0; 1] /\
  let u := map (fun wp => fst wp * snd wp) (combine [1 / 2; 1 / 2] (z_psf (map mv [0; 1]))) in p_w b1 = map (fun w => w / rsum u) u.
Proof.
  destruct (z_ready mv g) as [s [Hs [Ht Hh]]]. destruct z_cloud_norm as [Hne Hnorm].
  assert (Hcl : cloud_ok (z_ent mv g)).
  { split; [|exists z_cloud; split; [reflexivity|split; assumption]]. split; [discriminate|]. split; [eexists; reflexivity|]. split; [eexists; reflexivity|]. intros w [<-|[]]. reflexivity. }
  destruct (z_contracts mv g) as [K1 [_ [K3 [_ [_ [_ [_ [_ [_ K9]]]]]]]]].
  assert (Hw : pf_works (z_env mv 0)) by (apply z_works; lra).
  assert (Hw' : exists s', spredict (z_env mv 0) z_psf z_cfg z_births 1 s = Ok s').
  { destruct (z_contracts mv 0) as [J1 [_ [J3 [_ [_ [_ [_ [_ [_ J9]]]]]]]]]. apply spredict_total; [exact Hw|exact z_psf_prob|exact z_births_ok|exact J3|exact J1|exact J9| | |].
    - rewrite Hh. intros h [<-|[]]. cbn. lra.
    - rewrite Hh, Ht. intros h i [<-|[]] [<-|[]]. cbn. lia.
    - rewrite Ht. intros e [<-|[]]. exact Hcl. }
  destruct Hw' as [s' Hp]. change (spredict (z_env mv 0) z_psf z_cfg z_births 1 s) with (spredict (z_env mv g) z_psf z_cfg z_births 1 s) in Hp.
  destruct (C114_smc_predicted_tracks (z_env mv g) z_psf z_cfg z_births 1 s s') as [_ [_ Ho]]; [rewrite Ht; intros e [<-|[]]; exact (proj1 Hcl)|exact Hp|].
  destruct (Ho 0%nat (z_ent mv g) z_cloud (1 / 2)) as [e1 [b1 [x1 [A [B [_ [_ [_ [C [D [_ F]]]]]]]]]]]; [rewrite Ht; reflexivity|reflexivity|reflexivity|].
  destruct (F Hne) as [F1 [_ [F2 F3]]]. exists s, s', b1, e1. rewrite F2 in D. split; [exact Hs|]. split; [exact Ht|]. split; [exact Hp|]. split; [exact A|]. split; [exact B|]. split; [exact C|].
  split; [exact D|]. split; [exact F1|exact F3].
Qed.

(** * C117: the weight of a predicted particle does not take the survival
    probability of the particle it came from. *)
Theorem C117_survival_of_old_particles_refuted : exists (Z : senv R unit R unit unit) c bs os psf t s s' e b e' b',
  pf_works Z /\ sbirths_ok bs /\ prob_fun psf /\ sprotocol 0 os = Some 0%nat /\ srun Z c bs os glmb_new = Ok s /\ spredict Z psf c bs t s = Ok s' /\
  In e (g_tab s) /\ In e' (g_tab s') /\ e_label e = e_label e' /\ e_fs e = [b] /\ e_fs e' = [b'] /\
  (* the particle filter moves every particle and leaves the weights *)
  (exists mv, fst (z_pred Z t b) = {| p_parts := map mv (p_parts b); p_w := p_w b; p_rest := p_rest b |}) /\ p_parts b' = p_parts (fst (z_pred Z t b)) /\
  let u := map (fun wp => fst wp * snd wp) (combine (p_w b) (psf (p_parts b))) in p_w b' <> map (fun w => w / rsum u) u.
Proof.
  destruct (z_next (fun _ => 1) 1) as [s [s' [b1 [e1 [A [B [C [D [E [F [_ [H I]]]]]]]]]]]]. exists (z_env (fun _ => 1) 1), z_cfg, z_births, z_ops, z_psf, 1, s, s', (z_ent (fun _ => 1) 1), z_cloud, e1, b1.
  split; [apply z_works; lra|]. split; [exact z_births_ok|]. split; [exact z_psf_prob|]. split; [reflexivity|]. split; [exact A|]. split; [exact C|]. split; [rewrite B; left; reflexivity|].
  split; [exact (nth_error_In _ _ D)|]. split; [symmetry; exact E|]. split; [reflexivity|]. split; [exact F|]. split; [exists (fun _ => 1); reflexivity|]. split; [exact H|]. cbv zeta. rewrite I. clear.
  cbn [z_cloud p_w p_parts map]. destruct z_psf01 as [-> ->]. cbn [combine map fst snd]. rewrite !rsum_cons. change (rsum []) with 0. intros H. injection H as H _.
  assert (H1 : 1 / 2 * (3 / 4) / (1 / 2 * (3 / 4) + (1 / 2 * (3 / 4) + 0)) = 1 / 2) by field. assert (H2 : 1 / 2 * (1 / 4) / (1 / 2 * (1 / 4) + (1 / 2 * (3 / 4) + 0)) = 1 / 4) by field. lra.
Qed.
Print Assumptions C117_survival_of_old_particles_refuted.
(** It takes that of the moved particle; where the two agree the weights are right. *)
Theorem C117_survival_weights_partial : forall {P X ST CV MS} (Z : senv P X ST CV MS) psf c bs t s s' i e b x,
  (forall e, In e (g_tab s) -> one_cloud e) -> spredict Z psf c bs t s = Ok s' -> nth_error (g_tab s) i = Some e -> e_fs e = [b] -> last (e_st e) [] = [x] -> p_parts b <> [] ->
  p_w (fst (z_pred Z t b)) = p_w b -> psf (p_parts (fst (z_pred Z t b))) = psf (p_parts b) ->
  exists e' b', nth_error (g_tab s') (length bs + i) = Some e' /\ e_fs e' = [b'] /\ p_parts b' = p_parts (fst (z_pred Z t b)) /\
    let u := map (fun wp => fst wp * snd wp) (combine (p_w b) (psf (p_parts b))) in p_w b' = map (fun w => w / rsum u) u.
Proof.
  intros P X ST CV MS Z psf c bs t s s' i e b x HO H Hi Hf Hx Hn Hw Hp. destruct (C114_smc_predicted_tracks Z psf c bs t s s' HO H) as [_ [_ Ho]].
  destruct (Ho i e b x Hi Hf Hx) as [e1 [b1 [x1 [A [_ [_ [_ [_ [C [_ [_ F]]]]]]]]]]]. destruct (F Hn) as [F1 [_ [_ F3]]]. exists e1, b1. rewrite Hw, Hp in F3. auto.
Qed.
Print Assumptions C117_survival_weights_partial.

(** * C118: the state recorded for a track is not the estimate of the cloud stored
    for it: the estimate is taken before the weights are changed. *)
Theorem C118_estimate_of_stored_cloud_refuted : exists (Z : senv R unit R unit unit) c bs os psf t s s' e b x,
  pf_works Z /\ sbirths_ok bs /\ prob_fun psf /\ sprotocol 0 os = Some 0%nat /\ srun Z c bs os glmb_new = Ok s /\ spredict Z psf c bs t s = Ok s' /\
  (* the particle filter's estimate is the weighted mean *)
  (forall t b, snd (z_pred Z t b) = wmean (fst (z_pred Z t b))) /\
  In e (g_tab s') /\ e_fs e = [b] /\ last (e_st e) [] = [x] /\ x <> wmean b.
Proof.
  destruct (z_next (fun x => x) 1) as [s [s' [b1 [e1 [A [B [C [D [E [F [G [H I]]]]]]]]]]]]. exists (z_env (fun x => x) 1), z_cfg, z_births, z_ops, z_psf, 1, s, s', e1, b1, (wmean (moved (fun x => x) z_cloud)).
  split; [apply z_works; lra|]. split; [exact z_births_ok|]. split; [exact z_psf_prob|]. split; [reflexivity|]. split; [exact A|]. split; [exact C|]. split; [reflexivity|].
  split; [exact (nth_error_In _ _ D)|]. split; [exact F|]. split; [rewrite G, last_last; reflexivity|]. unfold wmean. rewrite H. cbv zeta in I. rewrite I. clear.
  cbn [moved z_cloud p_w p_parts map]. destruct z_psf01 as [-> _]. cbn [combine map fst snd]. rewrite !rsum_cons. change (rsum []) with 0.
  assert (H1 : 1 / 2 * (1 / 4) / (1 / 2 * (1 / 4) + (1 / 2 * (3 / 4) + 0)) = 1 / 4) by field. assert (H2 : 1 / 2 * (3 / 4) / (1 / 2 * (1 / 4) + (1 / 2 * (3 / 4) + 0)) = 3 / 4) by field. rewrite H1, H2. lra.
Qed.
Print Assumptions C118_estimate_of_stored_cloud_refuted.
(** With a constant survival probability (not 0) the predicted cloud is stored with
    the particle filter's weights, so the recorded estimate is that cloud's. *)
Theorem C118_constant_survival_partial : forall {P X ST CV MS} (Z : senv P X ST CV MS) p c bs t s s' i e b x,
  (forall e, In e (g_tab s) -> one_cloud e) -> spredict Z (constf p) c bs t s = Ok s' -> p <> 0 -> nth_error (g_tab s) i = Some e -> e_fs e = [b] -> last (e_st e) [] = [x] -> p_parts b <> [] ->
  normalised (fst (z_pred Z t b)) ->
  exists e', nth_error (g_tab s') (length bs + i) = Some e' /\ e_fs e' = [fst (z_pred Z t b)] /\ last (e_st e') [] = [snd (z_pred Z t b)].
Proof.
  intros P X ST CV MS Z p c bs t s s' i e b x HO H Hp0 Hi Hf Hx Hn [Hl [_ Hs]]. destruct (C114_smc_predicted_tracks Z (constf p) c bs t s s' HO H) as [_ [_ Ho]].
  destruct (Ho i e b x Hi Hf Hx) as [e1 [b1 [x1 [A [_ [_ [_ [_ [C [D [_ F]]]]]]]]]]]. destruct (F Hn) as [F1 [F2 [F4 F3]]]. exists e1. split; [exact A|]. split; [|rewrite D, last_last, F4; reflexivity].
  rewrite C. f_equal. destruct (fst (z_pred Z t b)) as [pa w re] eqn:E2. cbn [p_parts p_w p_rest] in *. destruct b1 as [pa1 w1 re1]. cbn [p_parts p_w p_rest] in *. subst. f_equal.
  assert (Hu : map (fun wp : R * R => fst wp * snd wp) (combine w (constf p pa)) = map (fun y => y * p) w).
  { clear -Hl. revert pa Hl. induction w as [|y w IH]; intros [|q pa] Hl; try discriminate; [reflexivity|]. cbn. f_equal. apply IH. cbn in Hl. lia. }
  assert (Hr : rsum (map (fun y => y * p) w) = p).
  { transitivity (p * rsum w); [|rewrite Hs; ring]. clear. induction w as [|y w IH]; [cbn; ring|]. cbn [map]. rewrite !rsum_cons, IH. ring. }
  rewrite Hu, Hr, map_map. transitivity (map (fun y => y) w); [|apply map_id]. apply map_ext. intros y. field. exact Hp0.
Qed.
Print Assumptions C118_constant_survival_partial.

Lemma clean_cons_ne {FS ST CV MS} (E : genv FS ST CV MS) hs : hs <> [] -> clean_predictions E hs <> [].
Proof.
  destruct hs as [|h hs]; [congruence|]. intros _. unfold clean_predictions. cbn [fold_left add_hyp]. set (u := [_]). assert (Hu : u <> []) by discriminate. clearbody u. revert u Hu.
  induction hs as [|h' hs IH]; intros u Hu; [destruct u; [congruence|discriminate]|]. cbn [fold_left]. apply IH. destruct u as [|[k x] u]; [congruence|]. cbn [add_hyp]. destruct (_ =? _)%Z; discriminate.
Qed.
(** The hypotheses of C114_smc_predict_bayes_partial hold of a history with a
    predicted track: *)
Example C114_ex : exists s s', let Z := z_env (fun x => x) 1 in
  srun Z z_cfg z_births z_ops glmb_new = Ok s /\ g_tab s <> [] /\ kshort_ok (v_kshort (z_g Z)) /\ kshort_cost 0 (v_kshort (z_g Z)) /\ hash_ok (v_hash (z_g Z)) /\
  (forall b, In b z_births -> 0 < bprob b < 1) /\ (forall e, In e (g_tab s) -> 0 < cloud_avg z_psf e < 1) /\ spredict Z z_psf z_cfg z_births 1 s = Ok s' /\ g_hyps s' <> [].
Proof.
  destruct (z_ready (fun x => x) 1) as [s [Hs [Ht Hh]]]. destruct (z_next (fun x => x) 1) as [s0 [s' [b1 [e1 [A [_ [C _]]]]]]]. assert (s0 = s) by congruence. subst s0.
  destruct (z_contracts (fun x => x) 1) as [K1 [K2 [K3 [_ [_ [_ [_ [K7 [_ K9]]]]]]]]]. destruct z_cloud_norm as [Hne Hnorm].
  assert (Ha : forall e, In e (g_tab s) -> 0 < cloud_avg z_psf e < 1).
  { rewrite Ht. intros e [<-|[]]. apply avg_unit; [exact z_psf_prob|]. split; [|exists z_cloud; split; [reflexivity|split; assumption]]. split; [discriminate|]. split; [eexists; reflexivity|]. split; [eexists; reflexivity|]. intros w [<-|[]]. reflexivity. }
  exists s, s'. cbv zeta. split; [exact Hs|]. split; [rewrite Ht; discriminate|]. split; [exact K1|]. split; [exact K2|]. split; [exact K7|]. split; [intros b [<-|[]]; cbn; lra|]. split; [exact Ha|]. split; [exact C|].
  destruct (spredict_inv _ _ _ _ _ _ _ C) as [lc [paths [costs [bh [stab [av [sh [E1 [Ek [Ebh [Est [Eav [Es [Et [Eh _]]]]]]]]]]]]]]]. rewrite Eh.
  assert (Hb : bh <> []).
  { cbn [z_g z_env v_kshort z_cfg c_reqb m_kshort] in Ek. injection Ek as <- <-. unfold sbirth_hyps in Ebh. apply bind_ok in Ebh as [ls [_ Ebh]]. cbn [combine map] in Ebh. rewrite norm1 in Ebh. injection Ebh as <-. discriminate. }
  assert (Hsh : sh <> []).
  { rewrite Hh in Es. unfold ssurv_hyps, one in Es. rewrite ssum1 in Es. apply bind_ok in Es as [ll [Ell Es]]. cbn [mapM] in Ell. apply bind_ok in Ell as [l1 [El1 Ell]]. cbn [bind] in Ell. injection Ell as <-.
    unfold ssurv_hyp in El1. cbn [h_ts h_p] in El1. apply bind_ok in El1 as [ps [_ El1]]. apply bind_ok in El1 as [lcs [_ El1]]. cbv zeta in El1. change (c_reqs z_cfg) with 1%nat in El1. rewrite k_of_1 in El1.
    cbn [z_g z_env v_kshort m_kshort bind] in El1. apply bind_ok in El1 as [ld [_ El1]]. apply bind_ok in El1 as [lw [_ El1]]. cbn [combine mapM fst snd] in El1.
    apply bind_ok in El1 as [h1 [_ El1]]. cbn [bind] in El1. injection El1 as <-. cbn [concat app] in Es. rewrite norm1 in Es. injection Es as <-. discriminate. }
  destruct bh as [|h1 bh]; [congruence|]. destruct sh as [|h2 sh]; [congruence|]. apply clean_cons_ne. discriminate.
Qed.
