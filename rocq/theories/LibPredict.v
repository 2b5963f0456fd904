(** GLMB prediction with the library's own k_shortest. *)
From Verif Require Import Base Lists.
From Coq Require Import Reals Qreals Permutation Lra Lia Classical.
From Verif Require Import OspaModel CphdModel OspaProofs CphdSpec CphdProofs CphdProps GlmbModel GlmbSpec GlmbProofs GlmbInv GlmbExtract GlmbMost GlmbTotal GlmbBayes GlmbProps GlmbProps2 GlmbProps4 GlmbDemo LibAlgs LibProps LibTrans.
From Verif Require RBase RBfmModel RKShortModel RKShortSpec RKShortProofs KShortModel KShortProps.
Open Scope R_scope.

(** The first answer is a cheapest subset, its cost the sum plus eps. *)
Lemma l_kshort_first si lc k : sorts_down si -> scaled_vec lc -> (1 <= k)%nat ->
  exists p ps cs, l_kshort si lc k = Ok (p :: ps, (rsum (map (fun i => nth i lc 0) p) + feps) :: cs) /\ NoDup p /\ (forall i, In i p -> (i < length lc)%nat) /\
    forall q, NoDup q -> (forall i, In i q -> (i < length lc)%nat) -> rsum (map (fun i => nth i lc 0) p) <= rsum (map (fun i => nth i lc 0) q).
Proof.
  intros Hsi Hsc Hk. pose proof (proj1 (Hsi lc)) as HP. set (c := map RBase.Fin lc). assert (Lc : length c = length lc) by apply map_length. rewrite <- Lc in HP.
  destruct (RKShortProofs.k_shortest_ok c (si lc) (proj1 (l_scaled lc) Hsc) HP k Hk) as [path [q [paths [costs [E [_ [H1 [H2 [H3 [H4 _]]]]]]]]]].
  destruct (RKShortProofs.path_read c (si lc) HP path q H1 H2 H3) as [[R1a R1b] [R2 R3]].
  assert (HT : forall l, RKShortSpec.total c l = rsum (map (fun i => nth i lc 0) l)).
  { intros l. unfold RKShortSpec.total. f_equal. apply map_ext. intros i. unfold RKShortSpec.entry, c. rewrite (map_nth RBase.Fin lc 0). reflexivity. }
  exists (RKShortProofs.post c (si lc) path), (map (RKShortProofs.post c (si lc)) paths), (map RBase.fin_val costs). unfold l_kshort. fold c. rewrite E. cbn [bind map RBase.fin_val].
  assert (He : RBfmModel.eps = feps) by (unfold RBfmModel.eps, feps; f_equal; lra). rewrite He in *.
  split; [rewrite R3, HT; reflexivity|].
  split; [exact R1a|]. split; [intros i Hi; rewrite Forall_forall in R1b; rewrite <- Lc; exact (R1b i Hi)|].
  intros s Hs Hr. destruct (RKShortProofs.mid_of_path c (si lc) HP s) as [M1 M2].
  - apply Forall_forall. intros i Hi. exists (nth i lc 0). unfold RKShortSpec.entry, c. apply (map_nth RBase.Fin lc 0).
  - split; [exact Hs|]. apply Forall_forall. intros i Hi. rewrite Lc. exact (Hr i Hi).
  - specialize (H4 _ M1). rewrite <- !HT. lra.
Qed.

(** * C123: what predict makes of the births.  The most probable set of births is
    always considered, first (and likewise the most probable set of survivors of
    a hypothesis with a share). *)
Theorem C123_best_births_considered_partial : forall {FS ST CV MS} (E : genv FS ST CV MS) si c,
  sorts_down si -> cfg_ok c -> scaled_cfg c -> (1 <= c_reqb c)%nat ->
  exists B0 rest, birth_choices (with_lib si E) c = B0 :: rest /\
    (forall B, In B (B0 :: rest) -> NoDup B /\ forall i, In i B -> (i < length (c_births c))%nat) /\
    forall B, NoDup B -> (forall i, In i B -> (i < length (c_births c))%nat) -> birth_weight c B <= birth_weight c B0.
Proof.
  intros FS ST CV MS E si c Hsi Hc [Hb _] Hk. set (lc := map (fun b => - ln (snd b / (1 - snd b))) (c_births c)).
  assert (HV : scaled_vec lc) by (intros x Hx; apply in_map_iff in Hx; destruct Hx as [[b p] [<- Hx]]; exact (odds_neg p (Hb b p Hx))).
  assert (Ll : length lc = length (c_births c)) by apply map_length.
  destruct (l_kshort_first si lc (c_reqb c) Hsi HV Hk) as [B0 [rest [cs [Ek [N0 [R0 Hmin]]]]]]. exists B0, rest.
  split; [unfold birth_choices; cbn [v_kshort with_lib]; fold lc; rewrite Ek; reflexivity|].
  split; [intros B HB; destruct (l_kshort_ok si Hsi _ _ _ _ Ek) as [_ H]; rewrite <- Ll; exact (H B HB)|].
  intros B NB RB. rewrite <- Ll in RB. pose proof (Hmin B NB RB) as L. rewrite Ll in R0, RB.
  pose proof (birth_weight_exp c B0 0 (proj1 Hc) N0 R0) as W0. pose proof (birth_weight_exp c B 0 (proj1 Hc) NB RB) as W. fold lc in W0, W. rewrite Ropp_0, exp_0, Rmult_1_l in W0, W. rewrite <- W0, <- W.
  set (a := rsum (map _ B)) in *. set (b := rsum (map _ B0)) in *. destruct (Req_dec a b) as [->|]; [lra|]. left. apply exp_increasing. lra.
Qed.
Print Assumptions C123_best_births_considered_partial.
Theorem C123_best_survivors_considered_partial : forall {FS ST CV MS} (E : genv FS ST CV MS) si c hs h,
  sorts_down si -> cfg_ok c -> scaled_cfg c -> 0 < h_p h -> (h_ts h <> [] -> (1 <= share_of (c_reqs c) hs h)%nat) ->
  exists S0 rest, surv_choices (with_lib si E) c hs h = S0 :: rest /\
    (forall S, In S (S0 :: rest) -> NoDup S /\ forall i, In i S -> (i < length (h_ts h))%nat) /\
    forall S, NoDup S -> (forall i, In i S -> (i < length (h_ts h))%nat) -> surv_weight c h S <= surv_weight c h S0.
Proof.
  intros FS ST CV MS E si c hs h Hsi Hc [_ Hs] Hp Hk. unfold surv_choices. destruct (h_ts h) as [|a0 ts0] eqn:Et.
  - exists [], []. split; [reflexivity|]. split; [intros S [<-|[]]; split; [constructor|intros i []]|]. intros [|i S] _ HS; [lra|]. specialize (HS i (or_introl eq_refl)). cbn in HS. lia.
  - rewrite <- Et in *. assert (Hn : h_ts h <> []) by (rewrite Et; discriminate). specialize (Hk Hn). set (lc := map (fun _ => - ln (c_ps c / (1 - c_ps c))) (h_ts h)). clear Et a0 ts0.
    assert (HV : scaled_vec lc) by (intros x Hx; apply in_map_iff in Hx; destruct Hx as [i [<- Hx]]; exact (odds_neg _ Hs)).
    assert (Ll : length lc = length (h_ts h)) by apply map_length.
    destruct (l_kshort_first si lc (share_of (c_reqs c) hs h) Hsi HV Hk) as [B0 [rest [cs [Ek [N0 [R0 Hmin]]]]]]. exists B0, rest.
    split; [cbn [v_kshort with_lib]; fold lc; rewrite Ek; reflexivity|].
    split; [intros B HB; destruct (l_kshort_ok si Hsi _ _ _ _ Ek) as [_ H]; rewrite <- Ll; exact (H B HB)|].
    intros B NB RB. rewrite <- Ll in RB. pose proof (Hmin B NB RB) as L. rewrite Ll in R0, RB.
    pose proof (surv_weight_exp c h B0 0 (proj1 (proj2 Hc)) Hp N0 R0) as W0. pose proof (surv_weight_exp c h B 0 (proj1 (proj2 Hc)) Hp NB RB) as W. fold lc in W0, W. rewrite Ropp_0, exp_0, Rmult_1_l in W0, W. rewrite <- W0, <- W.
    set (a := rsum (map _ B)) in *. set (b := rsum (map _ B0)) in *. destruct (Req_dec a b) as [->|]; [lra|]. left. apply exp_increasing. lra.
Qed.
Print Assumptions C123_best_survivors_considered_partial.

(** The probabilities are wrong, though: two birth terms, of probability 1/(1+e)
    and 1/(1+e^2), and all four sets of births requested.  Fresh filter, any inner
    filter.  After predict the set of both births has probability 0 and what
    belongs to it has been given to the first birth alone. *)
Lemma lib_12 si : sorts_down si -> l_kshort si [1; 2] 4 = Ok ([[]; [0%nat]; [1%nat]; [0%nat]], [feps; 1 + feps; 2 + feps; 3 + feps]).
Proof.
  intros Hs. assert (H1 : si [1; 2] = [1%nat; 0%nat]).
  { destruct (Hs [1; 2]) as [P O]. cbn [length seq] in P. revert P O. generalize (si [1; 2]) as l. intros l P O. pose proof (Permutation_length P) as L. destruct l as [|a [|b [|x l]]]; try discriminate L.
    assert (Ha : In a [0%nat; 1%nat]) by (apply (Permutation_in _ P); left; reflexivity). assert (Hb : In b [0%nat; 1%nat]) by (apply (Permutation_in _ P); right; left; reflexivity).
    assert (ND : NoDup [a; b]) by (apply (Permutation_NoDup (Permutation_sym P)); repeat constructor; cbn; intuition lia).
    inversion ND as [|? ? N1 _]; subst. inversion O as [|? ? O1 _]; subst. inversion O1 as [|? ? O2 _]; subst.
    destruct Ha as [<-|[<-|[]]], Hb as [<-|[<-|[]]]; try reflexivity; try (exfalso; apply N1; left; reflexivity). exfalso. cbn in O2. lra. }
  unfold l_kshort. rewrite H1. replace (map RBase.Fin [1; 2]) with (map inj [KShortProps.fz 1; KShortProps.fz 2]).
  2:{ cbn [map inj KShortProps.fz]. unfold Q2R. cbn [Qnum Qden inject_Z]. repeat f_equal; lra. }
  rewrite t_kshortest. match goal with |- context [KShortModel.k_shortest ?a ?b ?d] => let r := eval vm_compute in (KShortModel.k_shortest a b d) in replace (KShortModel.k_shortest a b d) with r by (vm_compute; reflexivity) end.
  cbn [injr bind fst snd map inj RBase.fin_val]. f_equal. f_equal. unfold Q2R, feps. cbn [Qnum Qden]. repeat (f_equal; try lra).
Qed.
(** The track set is exactly [l] (in any order). *)
Definition exactly (l ts : list nat) : bool := if list_eq_dec Nat.eq_dec (sort_nat ts) (sort_nat l) then true else false.
Lemma exactly_spec l ts : exactly l ts = true <-> Permutation ts l.
Proof. unfold exactly. destruct (list_eq_dec Nat.eq_dec (sort_nat ts) (sort_nat l)) as [H|H]; rewrite <- sort_eq_perm; split; congruence. Qed.
Lemma exactly_perm l a b : Permutation a b -> exactly l a = exactly l b.
Proof. intros H. apply eq_true_iff_eq. rewrite !exactly_spec. split; intros K; [rewrite <- H|rewrite H]; exact K. Qed.
Definition pe (x : R) : R := / (1 + exp x).
Lemma pe_unit x : 0 < pe x < 1.
Proof. unfold pe. pose proof (exp_pos x). split; [apply Rinv_0_lt_compat; lra|]. rewrite <- Rinv_1. apply Rinv_lt_contravar; lra. Qed.
Lemma pe_odds x : - ln (pe x / (1 - pe x)) = x.
Proof.
  pose proof (exp_pos x). replace (pe x / (1 - pe x)) with (exp (- x)); [rewrite ln_exp; ring|]. rewrite exp_Ropp. unfold pe. field. split; lra.
Qed.
Theorem C123_library_births_refuted : forall {FS ST CV MS} (E : genv FS ST CV MS) si c b1 b2 t,
  sorts_down si -> hash_ok (v_hash E) -> c_births c = [(b1, pe 1); (b2, pe 2)] -> c_reqb c = 4%nat ->
  exists s, predict (with_lib si E) c t glmb_new = Ok s /\
    mass (fun h => exactly [0%nat; 1%nat] (h_ts h)) (g_hyps s) = 0 /\
    mass (fun h => exactly [0%nat] (h_ts h)) (g_hyps s) = pe 1 * (1 - pe 2) + pe 1 * pe 2.
Proof.
  intros FS ST CV MS E si c b1 b2 t Hsi Hh Hb Hk. pose proof (pe_unit 1) as P1. pose proof (pe_unit 2) as P2.
  unfold predict, gen_birth_tab. rewrite Hb. cbn [mapM snd]. unfold birth_cost. destruct (Req_EM_T (pe 1) 1) as [|_]; [lra|]. destruct (Req_EM_T (pe 2) 1) as [|_]; [lra|].
  rewrite !lnp_ok by (apply Rdiv_lt_0_compat; lra). cbn [bind]. rewrite !pe_odds, Hk. cbn [v_kshort with_lib]. rewrite (lib_12 si Hsi). cbn [bind].
  unfold gen_birth_hyps. rewrite Hb. cbn [mapM snd]. rewrite !lnp_ok by lra. cbn [bind combine map fst snd normalise_log].
  set (T := rsum [ln (1 - pe 1); ln (1 - pe 2)]). cbn [h_p h_ts]. set (z := lse _).
  unfold gen_surv_hyps. cbn [g_hyps glmb_new g_tab length map mapM surv_hyp h_ts h_p]. rewrite (lnp_ok 1) by lra. cbn [bind concat app normalise_log map h_p h_ts].
  assert (Z1 : exp (ln 1 - lse [ln 1]) = 1).
  { unfold lse. cbn [map]. rewrite rsum_cons. change (rsum []) with 0. rewrite ln_1, exp_0, Rplus_0_r, ln_1, Rminus_0_r, exp_0. reflexivity. }
  rewrite Z1. eexists. split; [reflexivity|]. cbn [g_hyps].
  match goal with |- context [clean_predictions ?e ?l] => pose proof (C51_merge_preserves_mass e (exactly [0%nat; 1%nat]) l Hh (exactly_perm _)) as M1; pose proof (C51_merge_preserves_mass e (exactly [0%nat]) l Hh (exactly_perm _)) as M2 end.
  rewrite M1, M2. clear M1 M2. unfold set_pred_hyps. cbn [flat_map map app h_p h_ts]. unfold mass. cbn [filter map h_ts].
  change (exactly [0%nat; 1%nat] []) with false. change (exactly [0%nat; 1%nat] [0%nat]) with false. change (exactly [0%nat; 1%nat] [1%nat]) with false.
  change (exactly [0%nat] []) with false. change (exactly [0%nat] [0%nat]) with true. change (exactly [0%nat] [1%nat]) with false. cbv iota.
  cbn [map h_p]. rewrite !rsum_cons. change (rsum []) with 0. split; [reflexivity|].
  assert (X : forall x, exp (T - (x + feps) - z) = exp (- x) * exp (T - feps - z)) by (intros x; rewrite <- exp_plus; f_equal; ring).
  rewrite !X. set (K := exp (T - feps - z)). assert (HK : 0 < K) by apply exp_pos. rewrite !Rmult_1_r, !Rplus_0_r.
  pose proof (exp_pos 1) as X1. assert (E2 : exp 2 = exp 1 * exp 1) by (rewrite <- exp_plus; f_equal; ring). assert (E3 : exp 3 = exp 1 * exp 1 * exp 1) by (rewrite <- !exp_plus; f_equal; ring).
  rewrite !exp_Ropp, E2, E3. unfold pe. rewrite E2. set (e := exp 1) in *. assert (0 < e * e) by (apply Rmult_lt_0_compat; assumption). assert (0 < e * e * e) by (apply Rmult_lt_0_compat; assumption).
  assert (0 < K * (e * e * e)) by (apply Rmult_lt_0_compat; assumption).
  field. repeat split; try lra. assert (0 < K * (e * e)) by (apply Rmult_lt_0_compat; assumption). assert (0 < K * e) by (apply Rmult_lt_0_compat; assumption). lra.
Qed.
Print Assumptions C123_library_births_refuted.

(** * The hypotheses can be met *)
(** np.argsort, reversed. *)
Lemma sorts_down_rev a : rsorts a -> sorts_down (fun lc => rev (a lc)).
Proof.
  intros Ha lc. destruct (Ha lc) as [P O]. split; [rewrite <- Permutation_rev; exact P|]. pose proof (Permutation_length P) as L. rewrite seq_length in L.
  assert (H : forall l, (forall i j, (i < j < length l)%nat -> nth (nth i l 0%nat) lc 0 <= nth (nth j l 0%nat) lc 0) -> ForallOrdPairs (fun i j => nth j lc 0 <= nth i lc 0) (rev l)).
  { induction l as [|x l IH] using rev_ind; intros H; [constructor|]. rewrite rev_app_distr. cbn [rev app]. constructor.
    - apply Forall_forall. intros y Hy. apply in_rev in Hy. apply (In_nth _ _ 0%nat) in Hy. destruct Hy as [i [Hi <-]]. specialize (H i (length l)). rewrite app_length in H. cbn [length] in H. specialize (H ltac:(lia)).
      rewrite app_nth1, (app_nth2 _ _ 0%nat (n := length l)), Nat.sub_diag in H by lia. exact H.
    - apply IH. intros i j Hij. specialize (H i j). rewrite app_length in H. cbn [length] in H. specialize (H ltac:(lia)). rewrite !app_nth1 in H by lia. exact H. }
  apply H. intros i j Hij. apply O. lia.
Qed.
Definition lib_si (lc : list R) : list nat := rev (sort_ref lc).
Lemma lib_si_ok : sorts_down lib_si. Proof. exact (sorts_down_rev sort_ref C44_ex). Qed.
Lemma odds_9 : odds_ok (9 / 10).
Proof.
  right. assert (H : 1 < ln (9 / 10 / (1 - 9 / 10))).
  { rewrite <- (ln_exp 1) at 1. apply ln_increasing; [apply exp_pos|]. pose proof exp_le_3. lra. }
  rewrite Rabs_right by lra. assert (/ 2 ^ 52 < 1); [|lra]. rewrite <- Rinv_1. apply Rinv_lt_contravar; lra.
Qed.
Example C119_ex : exists s,
  let E := d_env false in let c := d_cfg (9 / 10) in
  let os := flat_map cycle [(0, [tt], (true, true, true)); (1, [tt; tt], (true, true, true))] in
  sorts_down lib_si /\ cfg_ok c /\ births_ok c /\ scaled_cfg c /\ (1 <= c_reqb c)%nat /\ hash_ok (v_hash E) /\ rsorts (v_argsort E) /\ v_lse0 E = Ok tt /\ never_fails (with_lib lib_si E) os /\
  protocol 0 os = Some 0%nat /\ run (with_lib lib_si E) c os glmb_new = Ok s.
Proof.
  assert (Hsc : scaled_cfg (d_cfg (9 / 10))) by (split; [intros b p [H|[]]; injection H as _ <-|]; exact odds_9).
  assert (Hc : cfg_ok (d_cfg (9 / 10))) by (apply d_cfg_ok; lra).
  destruct (proj1 (C120_library_cycle_total_partial (d_env false) lib_si (d_cfg (9 / 10)) [(0, [tt], (true, true, true)); (1, [tt; tt], (true, true, true))] lib_si_ok Hc (d_births _) eq_refl C44_ex) Hsc) as [s Hs].
  exists s. split; [exact lib_si_ok|]. split; [exact Hc|]. split; [apply d_births|]. split; [exact Hsc|]. split; [cbn; lia|]. split; [apply d_hash_ok|]. split; [exact C44_ex|]. split; [reflexivity|]. split; [apply d_never_fails|]. split; [reflexivity|exact Hs].
Qed.
