(** The SMC-GLMB filter with the library's k_shortest: which cycles raise (C122)
    and the prediction when at most two sets are asked for at a time (C114). *)
From Verif Require Import Base Lists.
From Coq Require Import Reals Permutation Lra Lia Classical.
From Verif Require Import OspaModel CphdModel OspaProofs CphdSpec CphdProofs CphdProps GlmbModel GlmbSpec GlmbProofs GlmbInv GlmbExtract GlmbMost GlmbTotal GlmbBayes GlmbProps GlmbProps2 GlmbProps4 GlmbDemo LibAlgs LibProps
  SmcModel SmcSpec SmcProofs SmcBayes SmcUpd SmcTotal SmcProps SmcDemo SmcDemo2 LibPredict LibSmc LibPositive LibBelow LibSecond.
Open Scope R_scope.

(** * Specification: probabilities whose log-odds k_shortest can handle are
    [odds_ok] (LibProps.v).  A survival function all of whose averages are so: *)
Definition avg_odds {P} (psf : list P -> list R) : Prop :=
  forall (parts : list P) (w : list R), parts <> [] -> length w = length parts -> (forall x, In x w -> 0 <= x) -> rsum w = 1 ->
    odds_ok (rsum (map (fun x => fst x * snd x) (combine w (psf parts)))).

Section S.
Context {P X ST CV MS : Type}.
Variables (Z : senv P X ST CV MS) (f g : list R -> nat -> result (list (list nat) * list R)).
Notation Zf := (swith (with_ks f (z_g Z)) Z).
Notation Zg := (swith (with_ks g (z_g Z)) Z).
(** predict depends on k_shortest only through its answers on the log-odds. *)
Lemma spredict_ext psf c bs t s :
  (forall lc, mapM (fun b : pfs P X * ST * CV * R => birth_cost (bprob b)) bs = Ok lc -> f lc (c_reqb c) = g lc (c_reqb c)) ->
  (forall av h lc, mapM (avg_prob psf) (g_tab s) = Ok av -> In h (g_hyps s) -> h_ts h <> [] ->
     (forall x, In x lc -> exists p, In p av /\ x = log_odds p) -> f lc (share_of (c_reqs c) (g_hyps s) h) = g lc (share_of (c_reqs c) (g_hyps s) h)) ->
  spredict Zf psf c bs t s = spredict Zg psf c bs t s.
Proof.
  intros Hb Hs. unfold spredict. destruct (mapM _ bs) as [lc|] eqn:El; [|reflexivity]. cbn [bind].
  change (v_kshort (z_g Zf) lc (c_reqb c)) with (f lc (c_reqb c)). change (v_kshort (z_g Zg) lc (c_reqb c)) with (g lc (c_reqb c)). rewrite (Hb lc eq_refl).
  destruct (g lc (c_reqb c)) as [[ps cs]|]; [|reflexivity]. cbn [bind].
  change (sbirth_hyps Zg bs ps cs) with (sbirth_hyps Zf bs ps cs). destruct (sbirth_hyps Zf bs ps cs) as [bh|]; [|reflexivity]. cbn [bind].
  change (spred_entry Zg psf c t) with (spred_entry Zf psf c t). destruct (mapM (spred_entry Zf psf c t) (g_tab s)) as [st|]; [|reflexivity]. cbn [bind].
  destruct (mapM (avg_prob psf) (g_tab s)) as [av|] eqn:Ea; [|reflexivity]. cbn [bind].
  assert (HS : ssurv_hyps Zf c av (g_hyps s) = ssurv_hyps Zg c av (g_hyps s)).
  { unfold ssurv_hyps. cbv zeta. match goal with |- bind (mapM ?u ?l) _ = bind (mapM ?v _) _ => assert (EM : mapM u l = mapM v l); [|rewrite EM; reflexivity] end.
    apply mapM_ext_in. intros h Hh. unfold ssurv_hyp. destruct (h_ts h) as [|a ts] eqn:Et; [reflexivity|]. destruct (mapM (geti av) (a :: ts)) as [qs|] eqn:Eq; [|reflexivity]. cbn [bind].
    destruct (mapM _ qs) as [lh|] eqn:Eh; [|reflexivity]. cbn [bind]. cbn [z_g swith v_kshort with_ks].
    assert (Hk : f lh (share_of (c_reqs c) (g_hyps s) h) = g lh (share_of (c_reqs c) (g_hyps s) h)).
    { apply (Hs av h lh eq_refl Hh); [rewrite Et; discriminate|]. intros x Hx. apply mapM_ok in Eh. apply mapM_ok in Eq. clear -Hx Eh Eq.
      assert (Hq : exists q, In q qs /\ x = log_odds q).
      { clear Eq. induction Eh as [|q y qs' lh' Hqy _ IH]; [destruct Hx|]. destruct Hx as [<-|Hx]; [|destruct (IH Hx) as [q' [A B]]; exists q'; split; [right; exact A|exact B]].
        exists q. split; [left; reflexivity|]. unfold rdiv in Hqy. destruct (Req_EM_T (1 - q) 0); [discriminate|]. cbn [bind] in Hqy. unfold lnp in Hqy. destruct (Rlt_dec _ _); [|discriminate]. cbn [bind] in Hqy. injection Hqy as <-. reflexivity. }
      destruct Hq as [q [Hq ->]]. exists q. split; [|reflexivity]. clear -Hq Eq. induction Eq as [|i y is qs' Hiy _ IH]; [destruct Hq|]. destruct Hq as [<-|Hq]; [|exact (IH Hq)].
      unfold geti in Hiy. destruct (nth_error av i) as [z|] eqn:En; [|discriminate]. injection Hiy as <-. exact (nth_error_In _ _ En). }
    unfold share_of in Hk. rewrite Hk. reflexivity. }
  rewrite HS. reflexivity.
Qed.
End S.
Lemma scaled_log_odds lc : (forall x, In x lc -> exists p, odds_ok p /\ x = log_odds p) -> scaled_vec lc.
Proof. intros H x Hx. destruct (H x Hx) as [p [Hp ->]]. exact (odds_neg p Hp). Qed.
Section T.
Context {P X ST CV MS : Type}.
Variables (Z : senv P X ST CV MS) (si : list R -> list nat).
Hypothesis Hsi : sorts_down si.
Let Zl := swith_lib si Z.
Let Zt := swith (with_ks (tot_ks si) (with_lib si (z_g Z))) Z.
Lemma tot_scaled lc k : scaled_vec lc -> l_kshort si lc k = tot_ks si lc k.
Proof. intros Hv. destruct (tot_or si lc k Hsi) as [H|[_ H]]; [exact H|contradiction]. Qed.
Lemma slib_exec_eq c bs o s : (forall b, In b bs -> odds_ok (bprob b)) -> (forall psf t, o = SPredict psf t -> avg_odds psf) ->
  (forall e, In e (g_tab s) -> cloud_ok e) -> sexec Zl c bs o s = sexec Zt c bs o s.
Proof.
  intros Hb Hf HC. destruct o as [psf t|pdf t meas|pr ca ex|u k]; try reflexivity. cbn [sexec]. specialize (Hf psf t eq_refl).
  apply (spredict_ext Zl (l_kshort si) (tot_ks si) psf c bs t s).
  - intros lc El. apply tot_scaled, scaled_log_odds. apply birth_costs in El. subst lc. intros x Hx. apply in_map_iff in Hx as [b [<- Hb']]. exists (bprob b). split; [exact (Hb b Hb')|reflexivity].
  - intros av h lc Ea _ _ Hx. apply tot_scaled, scaled_log_odds. intros x Hi. destruct (Hx x Hi) as [p [Hp ->]]. exists p. split; [|reflexivity].
    apply avgs_spec in Ea. subst av. apply in_map_iff in Hp as [e [<- He]]. destruct (HC e He) as [_ [b [Eb [Hne [N1 [N2 N3]]]]]]. unfold cloud_avg. rewrite Eb. exact (Hf _ _ Hne N1 N2 N3).
Qed.
Lemma cycles_total c bs xs : pf_works Z -> (forall psf pdf t meas fl, In (psf, pdf, t, meas, fl) xs -> prob_fun psf /\ prob_fun pdf /\ avg_odds psf) -> sbirths_ok bs -> (forall b, In b bs -> odds_ok (bprob b)) ->
  0 < c_crate c -> 0 < c_cden c -> v_lse0 (z_g Z) = Ok tt -> rsorts (v_argsort (z_g Z)) ->
  forall s, SRInv c s -> exists s', srun Zl c bs (flat_map scycle xs) s = Ok s' /\ SRInv c s' /\ (xs <> [] \/ g_card s <> [] -> g_card s' <> []).
Proof.
  intros Hw Hx Hb Hbo Hcr Hcd Hl Hs. induction xs as [|x xs IH]; intros s HR; [exists s; split; [reflexivity|]; split; [exact HR|intros [?|?]; [congruence|assumption]]|].
  cbn [flat_map]. rewrite srun_app. destruct x as [[[[psf pdf] t] meas] [[pr ca] ex]]. destruct (Hx _ _ _ _ _ (or_introl eq_refl)) as [F1 [F2 F3]].
  destruct (scycle_total Zt c bs (psf, pdf, t, meas, (pr, ca, ex)) s Hw F1 F2 Hb Hcr Hcd (tot_total si) l_murty_total (tot_ok si Hsi) l_murty_ok Hl Hs HR) as [s1 [E1 [HR1 Hc1]]].
  assert (E : srun Zl c bs (scycle (psf, pdf, t, meas, (pr, ca, ex))) s = Ok s1).
  { rewrite <- E1. cbn [scycle srun]. rewrite (slib_exec_eq c bs (SPredict psf t) s Hbo); [reflexivity| |apply HR]. intros psf' t' H. injection H as <- _. exact F3. }
  rewrite E. cbn [bind]. destruct (IH (fun a b u v w H => Hx a b u v w (or_intror H)) s1 HR1) as [s' [A [B C]]]. exists s'. split; [exact A|]. split; [exact B|]. intros _. apply C. right. exact Hc1.
Qed.
End T.

(** * C122: a birth probability with tiny log-odds makes predict raise. *)
Theorem C122_tiny_log_odds_refuted : forall {P X ST CV MS} (Z : senv P X ST CV MS) si psf c bs t s b,
  sorts_down si -> sbirths_ok bs -> (1 <= c_reqb c)%nat -> In b bs -> ~ odds_ok (bprob b) ->
  spredict (swith_lib si Z) psf c bs t s = Err IndexErr.
Proof.
  intros P X ST CV MS Z si psf c bs t s b Hsi Hb Hk Hin Hp. unfold spredict.
  assert (HB : exists lc, mapM (fun b : pfs P X * ST * CV * R => birth_cost (bprob b)) bs = Ok lc).
  { apply mapM_all_ok. intros [[[u m] cv] p] Hi. destruct (Hb u m cv p Hi) as [_ [_ Hp1]]. unfold bprob, birth_cost. cbn [snd]. destruct (Req_EM_T p 1); [lra|]. rewrite lnp_ok; [cbn [bind]; eauto|]. apply Rdiv_lt_0_compat; lra. }
  destruct HB as [lc El]. rewrite El. cbn [bind]. change (v_kshort (z_g (swith_lib si Z)) lc (c_reqb c)) with (l_kshort si lc (c_reqb c)).
  rewrite l_kshort_overrun; [reflexivity|exact Hsi| |exact Hk]. intros Hv. apply Hp. apply birth_costs in El. subst lc.
  destruct (Hv (log_odds (bprob b)) ltac:(apply in_map_iff; exists b; split; [reflexivity|exact Hin])) as [H|H]; unfold log_odds in H; [left; lra|right; rewrite Rabs_Ropp in H; exact H].
Qed.
Print Assumptions C122_tiny_log_odds_refuted.

(** Otherwise no cycle raises, nor does an extraction after it. *)
Theorem C122_smc_cycle_total_partial : forall {P X ST CV MS} (Z : senv P X ST CV MS) si c bs xs,
  sorts_down si -> pf_works Z -> (forall psf pdf t meas fl, In (psf, pdf, t, meas, fl) xs -> prob_fun psf /\ prob_fun pdf /\ avg_odds psf) ->
  sbirths_ok bs -> (forall b, In b bs -> odds_ok (bprob b)) -> 0 < c_crate c -> 0 < c_cden c -> v_lse0 (z_g Z) = Ok tt -> rsorts (v_argsort (z_g Z)) ->
  exists s, srun (swith_lib si Z) c bs (flat_map scycle xs) glmb_new = Ok s /\ (xs <> [] -> forall u k, exists s', sexec (swith_lib si Z) c bs (SExtract u k) s = Ok s').
Proof.
  intros P X ST CV MS Z si c bs xs Hsi Hw Hx Hb Hbo Hcr Hcd Hl Hs.
  destruct (cycles_total Z si Hsi c bs xs Hw Hx Hb Hbo Hcr Hcd Hl Hs glmb_new (srinv_new c)) as [s [E1 [HR Hcd1]]].
  exists s. split; [exact E1|]. intros Hn u k. specialize (Hcd1 (or_introl Hn)). pose proof (srinv_c c s HR) as [[HL HI] [HS HX]]. cbn [sexec].
  destruct (g_hyps s) as [|h0 hs0] eqn:Eh.
  - destruct (extract_none c u k s Hcd1 Eh) as [s4 E4]. rewrite E4. cbn [bind]. eauto.
  - assert (HE : Extractable c s).
    { split; [exact Hcd1|]. split; [congruence|]. split; [rewrite Eh; eapply hinv_refs; exact HI|]. split; [intros e He; split; auto|exact HX]. }
    destruct (extract_ok c u k s HE) as [i [s4 E4]]. rewrite E4. cbn [bind]. eauto.
Qed.
Print Assumptions C122_smc_cycle_total_partial.

(** Survival functions that meet [avg_odds]: constants with such odds, and
    functions that stay on one side of one half, away from it. *)
Lemma wavg_bounds (w : list R) a b : forall p, length p = length w -> (forall x, In x w -> 0 <= x) -> (forall q, In q p -> a <= q <= b) ->
  a * rsum w <= rsum (map (fun x => fst x * snd x) (combine w p)) <= b * rsum w.
Proof.
  induction w as [|x w IH]; intros [|q p] Hl Hw Hq; try discriminate; [change (rsum []) with 0; cbn [combine map]; change (rsum []) with 0; lra|].
  cbn [combine map fst snd]. rewrite !rsum_cons. pose proof (Hw x (or_introl eq_refl)). destruct (Hq q (or_introl eq_refl)) as [Q1 Q2].
  specialize (IH p ltac:(injection Hl; auto) (fun y Hy => Hw y (or_intror Hy)) (fun y Hy => Hq y (or_intror Hy))).
  pose proof (Rmult_le_compat_l x a q ltac:(assumption) Q1). pose proof (Rmult_le_compat_l x q b ltac:(assumption) Q2). lra.
Qed.
Lemma odds_mono p q : 0 < p -> p <= q -> q < 1 -> ln (p / (1 - p)) <= ln (q / (1 - q)).
Proof.
  intros Hp Hq H1. assert (H : p / (1 - p) <= q / (1 - q)).
  { apply (Rmult_le_reg_r ((1 - p) * (1 - q))); [apply Rmult_lt_0_compat; lra|].
    replace (p / (1 - p) * ((1 - p) * (1 - q))) with (p * (1 - q)) by (field; lra). replace (q / (1 - q) * ((1 - p) * (1 - q))) with (q * (1 - p)) by (field; lra). lra. }
  destruct H as [H|H]; [left; apply ln_increasing; [apply Rdiv_lt_0_compat; lra|exact H]|right; rewrite H; reflexivity].
Qed.
Lemma odds_half p : 0 < p < 1 -> (0 < ln (p / (1 - p)) <-> 1 / 2 < p).
Proof.
  intros Hp. assert (H1 : ln (1 / 2 / (1 - 1 / 2)) = 0) by (replace (1 / 2 / (1 - 1 / 2)) with 1 by field; apply ln_1). split; intros H.
  - destruct (Rle_lt_dec p (1 / 2)) as [L|L]; [|exact L]. pose proof (odds_mono p (1 / 2) ltac:(lra) L ltac:(lra)). lra.
  - rewrite <- H1. apply ln_increasing; [lra|]. replace (1 / 2 / (1 - 1 / 2)) with 1 by field. apply (Rmult_lt_reg_r (1 - p)); [lra|]. replace (p / (1 - p) * (1 - p)) with p by (field; lra). lra.
Qed.
Theorem C122_admissible_functions : forall {P} (psf : list P -> list R), prob_fun psf ->
  (exists p, odds_ok p /\ forall l, psf l = constf p l) \/
  (exists p, odds_ok p /\ 1 / 2 < p < 1 /\ forall l q, In q (psf l) -> p <= q) \/
  (exists p, odds_ok p /\ 0 < p < 1 / 2 /\ forall l q, In q (psf l) -> q <= p) ->
  avg_odds psf.
Proof.
  intros P psf Hf H parts w Hne Hl Hw Hs. destruct (Hf parts) as [F1 F2].
  assert (HU : 0 < rsum (map (fun x => fst x * snd x) (combine w (psf parts))) < 1) by (apply wavg_unit; [congruence|exact Hw|exact Hs|exact F2]).
  destruct H as [[p [Hp E]]|[[p [Hp [H1 H2]]]|[p [Hp [H1 H2]]]]].
  - rewrite (E parts). unfold constf. assert (Hr : map (fun _ : P => p) parts = repeat p (length w)).
    { rewrite Hl. clear. induction parts as [|x l IH]; [reflexivity|cbn [map length repeat]; f_equal; exact IH]. }
    rewrite Hr, wavg_const, Hs, Rmult_1_r. exact Hp.
  - pose proof (wavg_bounds w p 1 (psf parts) ltac:(congruence) Hw (fun q Hq => conj (H2 parts q Hq) (Rlt_le _ _ (proj2 (F2 q Hq))))) as [B _]. rewrite Hs, Rmult_1_r in B.
    set (a := rsum (map _ (combine w (psf parts)))) in *. pose proof (odds_mono p a ltac:(lra) B ltac:(lra)) as M. pose proof (proj2 (odds_half p ltac:(lra)) ltac:(lra)) as Po. right.
    destruct Hp as [Hp|Hp]; [lra|]. rewrite Rabs_right in Hp by lra. rewrite Rabs_right by lra. lra.
  - pose proof (wavg_bounds w 0 p (psf parts) ltac:(congruence) Hw (fun q Hq => conj (Rlt_le _ _ (proj1 (F2 q Hq))) (H2 parts q Hq))) as [_ B]. rewrite Hs, Rmult_1_r in B.
    set (a := rsum (map _ (combine w (psf parts)))) in *. pose proof (odds_mono a p ltac:(lra) B ltac:(lra)) as M.
    assert (Po : ln (p / (1 - p)) < 0).
    { replace (p / (1 - p)) with (/ ((1 - p) / (1 - (1 - p)))) by (field; lra). rewrite ln_Rinv by (apply Rdiv_lt_0_compat; lra). pose proof (proj2 (odds_half (1 - p) ltac:(lra)) ltac:(lra)). lra. }
    right. destruct Hp as [Hp|Hp]; [lra|]. rewrite Rabs_left in Hp by lra. rewrite Rabs_left by lra. lra.
Qed.
Print Assumptions C122_admissible_functions.

(** * C114 with the library's k_shortest, at most two sets asked for at a time *)
Theorem C114_library_two_requests_partial : forall {P X ST CV MS} (Z : senv P X ST CV MS) si psf c bs t s s',
  sorts_down si -> hash_ok (v_hash (z_g Z)) -> (c_reqb c <= 2)%nat ->
  (forall h, In h (g_hyps s) -> h_ts h <> [] -> (share_of (c_reqs c) (g_hyps s) h <= 2)%nat) ->
  (forall b, In b bs -> 0 < bprob b < 1) -> (forall e, In e (g_tab s) -> 0 < cloud_avg psf e < 1) ->
  spredict (swith_lib si Z) psf c bs t s = Ok s' -> g_hyps s' <> [] ->
  0 < spredicted_total (swith_lib si Z) feps c bs psf (g_tab s) (g_hyps s) (fun _ => true) /\
  forall f, (forall a b, Permutation a b -> f a = f b) ->
    mass (fun h => f (h_ts h)) (g_hyps s') =
      spredicted_total (swith_lib si Z) feps c bs psf (g_tab s) (g_hyps s) f / spredicted_total (swith_lib si Z) feps c bs psf (g_tab s) (g_hyps s) (fun _ => true).
Proof.
  intros P X ST CV MS Z si psf c bs t s s' Hsi Hh Hb Hs Hp Ha H Hne. set (Z2 := swith (with_ks (two_ks si) (with_lib si (z_g Z))) Z).
  assert (HT : forall lc k, (k <= 2)%nat -> l_kshort si lc k = two_ks si lc k) by (intros lc k Hk; unfold two_ks; destruct (Nat.leb_spec k 2); [reflexivity|lia]).
  assert (E : spredict (swith_lib si Z) psf c bs t s = spredict Z2 psf c bs t s).
  { apply (spredict_ext (swith_lib si Z) (l_kshort si) (two_ks si) psf c bs t s); [intros lc _; apply HT, Hb|intros av h lc _ Hi Hn _; apply HT, (Hs h Hi Hn)]. }
  assert (ET : forall f, spredicted_total Z2 feps c bs psf (g_tab s) (g_hyps s) f = spredicted_total (swith_lib si Z) feps c bs psf (g_tab s) (g_hyps s) f).
  { intros f. unfold spredicted_total.
    assert (EB : sbirth_choices Z2 c bs = sbirth_choices (swith_lib si Z) c bs).
    { unfold sbirth_choices. change (v_kshort (z_g Z2)) with (two_ks si). change (v_kshort (z_g (swith_lib si Z))) with (l_kshort si). rewrite HT by exact Hb. reflexivity. }
    rewrite EB. f_equal. apply map_ext. intros B. f_equal. apply map_ext_in. intros h Hi.
    assert (ES : ssurv_choices Z2 c psf (g_tab s) (g_hyps s) h = ssurv_choices (swith_lib si Z) c psf (g_tab s) (g_hyps s) h).
    { unfold ssurv_choices. destruct (h_ts h) as [|a ts] eqn:Et; [reflexivity|]. change (v_kshort (z_g Z2)) with (two_ks si). change (v_kshort (z_g (swith_lib si Z))) with (l_kshort si).
      rewrite HT by (apply (Hs h Hi); rewrite Et; discriminate). reflexivity. }
    rewrite ES. reflexivity. }
  rewrite E in H. destruct (C114_smc_predict_bayes_partial Z2 psf c bs t s s' feps (two_ok si Hsi) (two_cost si Hsi) Hh Hp Ha H Hne) as [A B].
  rewrite ET in A, B. split; [exact A|]. intros f Hf. rewrite (B f Hf), ET. reflexivity.
Qed.
Print Assumptions C114_library_two_requests_partial.

(** * C183: extinction of the SMC-GLMB filter *)
(** A filter without hypotheses never gets one again, whatever is called. *)
Theorem C183_smc_extinction_permanent : forall {P X ST CV MS} (Z : senv P X ST CV MS) c bs os s s',
  g_hyps s = [] -> srun Z c bs os s = Ok s' -> g_hyps s' = [].
Proof.
  intros P X ST CV MS Z c bs. induction os as [|o os IH]; intros s s' Hh H; cbn [srun] in H; [inversion H; subst; exact Hh|].
  apply bind_ok in H as [s1 [H1 H]]. apply (IH s1 s'); [|exact H]. clear IH H. destruct o as [psf t|pdf t meas|pr ca ex|u k]; cbn [sexec] in H1.
  - destruct (spredict_inv _ _ _ _ _ _ _ H1) as [lc [pa [co [bh [st [av [sh [_ [_ [_ [_ [_ [Es [_ [Eh _]]]]]]]]]]]]]]]. rewrite Eh.
    unfold ssurv_hyps in Es. rewrite Hh in Es. cbn [mapM map bind concat] in Es. cbn [normalise_log] in Es. apply bind_ok in Es as [_ [_ Es]]. inversion Es; subst sh.
    unfold set_pred_hyps. replace (flat_map _ bh) with (@nil hyp); [reflexivity|]. clear. induction bh as [|b bh IH]; [reflexivity|exact IH].
  - destruct (scorrect_inv _ _ _ _ _ _ _ H1) as [rows [av [hs [_ [_ [Eg [_ [Eh _]]]]]]]]. rewrite Eh. rewrite Hh in Eg. unfold scor_hyps in Eg.
    assert (hs = []) as ->; [|reflexivity]. destruct (length meas); cbn [mapM map bind concat] in Eg; cbn [normalise_log] in Eg; apply bind_ok in Eg as [_ [_ Eg]]; inversion Eg; reflexivity.
  - destruct (cleanup_inv _ _ _ _ _ _ _ H1) as [_ [_ [Hsub [Eh _]]]]. rewrite Eh. unfold cleaned. cbn zeta.
    assert (H2 : g_hyps (if pr then prune c (bump s) else bump s) = []) by (destruct pr; cbn; rewrite Hh; reflexivity).
    destruct ca; [|exact H2]. unfold cap. rewrite H2. cbn [length]. destruct (c_maxh c <? 0)%nat eqn:El; [apply Nat.ltb_lt in El; lia|exact H2].
  - apply bind_ok in H1 as [[o s2] [H1 H2]]. inversion H2; subst s2. destruct (extract_tab _ _ _ _ _ _ H1) as [_ [B _]]. congruence.
Qed.
Print Assumptions C183_smc_extinction_permanent.
(** Two equally probable hypotheses with tracks and one requested: round(1/2) = 0
    sets are asked of both. *)
Theorem C183_smc_rounding_refuted : forall {P X ST CV MS} (Z : senv P X ST CV MS) psf c bs t s p ts1 ts2,
  kshort_none (v_kshort (z_g Z)) -> g_hyps s = [{| h_p := p; h_ts := ts1 |}; {| h_p := p; h_ts := ts2 |}] -> 0 < p -> ts1 <> [] -> ts2 <> [] -> c_reqs c = 1%nat ->
  (forall s', spredict Z psf c bs t s = Ok s' -> g_hyps s' = []) /\
  (pf_works Z -> prob_fun psf -> sbirths_ok bs -> kshort_total (v_kshort (z_g Z)) -> kshort_ok (v_kshort (z_g Z)) -> v_lse0 (z_g Z) = Ok tt -> refs_ok (g_tab s) (g_hyps s) ->
     (forall e, In e (g_tab s) -> cloud_ok e) -> exists s', spredict Z psf c bs t s = Ok s').
Proof.
  intros P X ST CV MS Z psf c bs t s p ts1 ts2 Hk Hh Hp H1 H2 Hr. split.
  - intros s' H. destruct (spredict_inv _ _ _ _ _ _ _ H) as [lc [pa [co [bh [st [av [sh [_ [_ [_ [_ [_ [Es [_ [Eh _]]]]]]]]]]]]]]]. rewrite Eh.
    assert (Hz : Z.to_nat (roundR (INR (c_reqs c) * sqrt p / rsum (map (fun h => sqrt (h_p h)) (g_hyps s)))) = 0%nat).
    { rewrite Hh, Hr. cbn [map h_p]. rewrite !rsum_cons. change (rsum []) with 0. assert (Hs : 0 < sqrt p) by (apply sqrt_lt_R0, Hp).
      replace (INR 1 * sqrt p / (sqrt p + (sqrt p + 0))) with (1 / 2) by (cbn [INR]; field; lra).
      destruct (roundR_spec (1 / 2)) as [[A B] C]. assert (D : roundR (1 / 2) = 0%Z \/ roundR (1 / 2) = 1%Z).
      { assert (L : IZR (roundR (1 / 2)) < 2) by lra. assert (G : -1 < IZR (roundR (1 / 2))) by lra. apply lt_IZR in L. apply lt_IZR in G. lia. }
      destruct D as [->|D]; [reflexivity|]. rewrite D in C. specialize (C ltac:(left; lra)). discriminate. }
    unfold ssurv_hyps in Es. set (ss := rsum _) in *. apply bind_ok in Es as [ll [El Es]].
    assert (Hll : concat ll = []).
    { apply mapM_ok in El. rewrite Hh in El. inversion El as [|? y1 ? ? A1 B1]; subst. inversion B1 as [|? y2 ? ? A2 B2]; subst. inversion B2; subst.
      assert (Hy : forall ts y, ts <> [] -> ssurv_hyp Z c av ss {| h_p := p; h_ts := ts |} = Ok y -> y = []).
      { intros ts y Hts Hy. unfold ssurv_hyp in Hy. cbn [h_ts h_p] in Hy. destruct ts as [|a ts]; [congruence|].
        apply bind_ok in Hy as [r [_ Hy]]. apply bind_ok in Hy as [l0 [_ Hy]]. rewrite Hz, Hk in Hy. cbn [bind] in Hy.
        apply bind_ok in Hy as [ld [_ Hy]]. apply bind_ok in Hy as [lw [_ Hy]]. cbn in Hy. inversion Hy. reflexivity. }
      rewrite (Hy _ _ H1 A1), (Hy _ _ H2 A2). reflexivity. }
    rewrite Hll in Es. cbn [normalise_log] in Es. apply bind_ok in Es as [[] [El0 Es]]. inversion Es; subst sh.
    unfold set_pred_hyps. replace (flat_map _ bh) with (@nil hyp); [reflexivity|]. clear. induction bh as [|b bh IH]; [reflexivity|exact IH].
  - intros Hw Hf Hb Hkt Hko Hl Hrf HC. apply spredict_total; auto. rewrite Hh. intros h [<-|[<-|[]]]; exact Hp.
Qed.
Print Assumptions C183_smc_rounding_refuted.
Lemma normalise_ne {FS ST CV MS} (E : genv FS ST CV MS) l r : normalise_log E l = Ok r -> l <> [] -> r <> [].
Proof. destruct l; [congruence|]. cbn [normalise_log]. intros H _ ->. discriminate. Qed.
Lemma kshort_ne si lc k ps cs : sorts_down si -> (1 <= k)%nat -> l_kshort si lc k = Ok (ps, cs) -> combine ps cs <> [].
Proof.
  intros Hsi Hk E. destruct (classic (scaled_vec lc)) as [Hv|Hv]; [|rewrite (l_kshort_overrun si Hsi lc k Hv Hk) in E; discriminate].
  destruct (l_kshort_first si lc k Hsi Hv Hk) as [p [ps' [cs' [E' _]]]]. rewrite E in E'. injection E' as -> ->. discriminate.
Qed.
(** As many hypotheses requested as there are: with the library's k_shortest the
    filter stays alive. *)
Theorem C183_smc_enough_requested : forall {P X ST CV MS} (Z : senv P X ST CV MS) si psf c bs t s s',
  sorts_down si -> (1 <= c_reqb c)%nat -> (forall h, In h (g_hyps s) -> 0 < h_p h) -> (1 <= length (g_hyps s) <= c_reqs c)%nat ->
  spredict (swith_lib si Z) psf c bs t s = Ok s' -> (1 <= length (g_hyps s'))%nat.
Proof.
  intros P X ST CV MS Z si psf c bs t s s' Hsi Hb Hp Hn H. destruct (spredict_inv _ _ _ _ _ _ _ H) as [lc [pa [co [bh [st [av [sh [_ [Ek [Ebh [_ [_ [Es [_ [Eh _]]]]]]]]]]]]]]].
  assert (Hbh : bh <> []).
  { change (v_kshort (z_g (swith_lib si Z))) with (l_kshort si) in Ek. pose proof (kshort_ne si lc _ pa co Hsi Hb Ek) as Hc. unfold sbirth_hyps in Ebh. apply bind_ok in Ebh as [ls [_ Ebh]].
    apply (normalise_ne _ _ _ Ebh). destruct (combine pa co); [congruence|discriminate]. }
  assert (Hsh : sh <> []).
  { destruct (share_total _ _ Hn Hp) as [h [Hh Hk]]. unfold ssurv_hyps in Es. cbv zeta in Es. apply bind_ok in Es as [ll [El Es]]. apply (normalise_ne _ _ _ Es).
    apply mapM_ok in El. assert (HL : exists l, In l ll /\ ssurv_hyp (swith_lib si Z) c av (rsum (map (fun h => sqrt (h_p h)) (g_hyps s))) h = Ok l).
    { clear -El Hh. set (ss := rsum _) in *. clearbody ss. induction El as [|x y l l' Hxy _ IH]; [destruct Hh|]. destruct Hh as [-> |Hh]; [exists y; split; [left; reflexivity|exact Hxy]|]. destruct (IH Hh) as [z [A B]]. exists z. split; [right; exact A|exact B]. }
    destruct HL as [l [Hl Hs]]. assert (Hl0 : l <> []).
    { unfold ssurv_hyp in Hs. destruct (h_ts h) as [|a ts]; [apply bind_ok in Hs as [lw [_ Hs]]; injection Hs as <-; discriminate|].
      apply bind_ok in Hs as [qs [_ Hs]]. apply bind_ok in Hs as [l0 [_ Hs]]. apply bind_ok in Hs as [[ps cs] [Eks Hs]].
      change (v_kshort (z_g (swith_lib si Z))) with (l_kshort si) in Eks. unfold share_of in Hk. pose proof (kshort_ne si l0 _ ps cs Hsi Hk Eks) as Hc.
      apply bind_ok in Hs as [ld [_ Hs]]. apply bind_ok in Hs as [lw [_ Hs]]. apply mapM_ok in Hs. destruct Hs; [congruence|discriminate]. }
    clear -Hl Hl0. intros E0. destruct l as [|y l]; [congruence|]. assert (I : In y (concat ll)) by (apply in_concat; exists (y :: l); split; [exact Hl|left; reflexivity]). rewrite E0 in I. destruct I. }
  assert (Hne : g_hyps s' <> []).
  { rewrite Eh. apply clean_nonempty. unfold set_pred_hyps. destruct bh as [|b bh]; [congruence|]. destruct sh as [|h sh]; [congruence|]. cbn [flat_map map app]. discriminate. }
  destruct (g_hyps s'); [congruence|cbn; lia].
Qed.
Print Assumptions C183_smc_enough_requested.

(** * Concrete cases *)
Definition z_cfg2 : gcfg R unit :=
  {| c_births := []; c_ps := 1 / 2; c_pd := 1 / 2; c_crate := 1; c_cden := 1; c_reqb := 2; c_reqs := 2; c_requ := 2;
     c_prune := 0; c_maxh := 10; c_savecov := false; c_savemeas := false |}.
(** Survival 9/10 for negative particles, 19/20 for the others. *)
Definition z_psf (l : list R) : list R := map (fun x => if Rlt_dec x 0 then 9 / 10 else 19 / 20) l.
Lemma z_psf_ok : prob_fun z_psf /\ avg_odds z_psf.
Proof.
  assert (H : prob_fun z_psf). { intros l. split; [apply map_length|]. intros p Hp. apply in_map_iff in Hp as [x [<- _]]. destruct (Rlt_dec x 0); lra. }
  split; [exact H|]. apply C122_admissible_functions; [exact H|]. right; left. exists (9 / 10). split; [exact odds_9|]. split; [lra|]. intros l q Hq. apply in_map_iff in Hq as [x [<- _]]. destruct (Rlt_dec x 0); lra.
Qed.
Example C122_total_ex : let Z := z_env (fun x => x + 1) 1 in
  sorts_down lib_si /\ pf_works Z /\ prob_fun z_psf /\ avg_odds z_psf /\ sbirths_ok z_births /\ (forall b, In b z_births -> odds_ok (bprob b)) /\ 0 < c_crate z_cfg2 /\ 0 < c_cden z_cfg2 /\
  rsorts (v_argsort (z_g Z)) /\ v_lse0 (z_g Z) = Ok tt.
Proof.
  intros Z. split; [exact lib_si_ok|]. split; [apply z_works; lra|]. split; [apply z_psf_ok|]. split; [apply z_psf_ok|]. split; [exact z_births_ok|].
  split; [intros b [<-|[]]; exact odds_9|]. split; [cbn; lra|]. split; [cbn; lra|]. split; [exact C44_ex|reflexivity].
Qed.
Example C122_tiny_ex : let p := / (1 + exp (- / 2 ^ 53)) in let bs := [(z_cloud, 1 / 2, tt, p)] in
  sbirths_ok bs /\ (1 <= c_reqb z_cfg2)%nat /\ exists b, In b bs /\ ~ odds_ok (bprob b).
Proof.
  intros p bs. destruct C120_ex as [A B]. fold p in A, B. split; [|split; [cbn; lia|exists (z_cloud, 1 / 2, tt, p); split; [left; reflexivity|exact B]]].
  intros s m cv q [H|[]]. injection H as <- <- <- <-. destruct (z_births_ok z_cloud (1 / 2) tt (9 / 10) (or_introl eq_refl)) as [C [D _]]. split; [exact C|]. split; [exact D|exact A].
Qed.
(** One track, one birth term, two sets asked of each. *)
Example C114_library_ex : exists s s', let Z := z_env (fun x => x + 1) 1 in let c := z_cfg2 in
  sorts_down lib_si /\ hash_ok (v_hash (z_g Z)) /\ (c_reqb c <= 2)%nat /\
  (forall h, In h (g_hyps s) -> h_ts h <> [] -> (share_of (c_reqs c) (g_hyps s) h <= 2)%nat) /\ (exists h, In h (g_hyps s) /\ h_ts h <> []) /\
  (forall b, In b z_births -> 0 < bprob b < 1) /\ (forall e, In e (g_tab s) -> 0 < cloud_avg z_psf e < 1) /\
  spredict (swith_lib lib_si Z) z_psf c z_births 1 s = Ok s' /\ g_hyps s' <> [] /\
  (forall h, In h (g_hyps s) -> 0 < h_p h) /\ (1 <= length (g_hyps s) <= c_reqs c)%nat.
Proof.
  set (Z := z_env (fun x => x + 1) 1). set (e := sbirth_entry Z z_cfg2 0 0 0 (z_cloud, 1 / 2, tt, 9 / 10)). set (h := {| h_p := 1; h_ts := [0%nat] |}).
  set (s := {| g_tab := [e]; g_hyps := [h]; g_card := [0; 1]; g_cnt := 1%nat; g_meas := []; g_ext := []; g_states := []; g_labels := []; g_covs := [] |} : glmb (pfs R unit) R unit unit).
  assert (HC : forall e0, In e0 (g_tab s) -> cloud_ok e0).
  { intros e0 [<-|[]]. split; [apply one_birth|]. exists z_cloud. split; [reflexivity|]. destruct (z_births_ok z_cloud (1 / 2) tt (9 / 10) (or_introl eq_refl)) as [C [D _]]. apply counted_norm; assumption. }
  assert (Hp : forall h, In h (g_hyps s) -> 0 < h_p h) by (intros h0 [<-|[]]; cbn; lra).
  assert (Hbo : forall b, In b z_births -> odds_ok (bprob b)) by (intros b [<-|[]]; exact odds_9).
  assert (HP : exists s', spredict (swith_lib lib_si Z) z_psf z_cfg2 z_births 1 s = Ok s').
  { change (exists s', sexec (swith_lib lib_si Z) z_cfg2 z_births (SPredict z_psf 1) s = Ok s'). rewrite (slib_exec_eq Z lib_si lib_si_ok _ _ _ _ Hbo); [| |exact HC].
    - cbn [sexec]. apply spredict_total; [apply z_works; lra|apply z_psf_ok|exact z_births_ok|exact (tot_total lib_si)|exact (tot_ok lib_si lib_si_ok)|reflexivity|exact Hp| |exact HC]. intros h0 i0 [<-|[]] [<-|[]]. cbn. lia.
    - intros psf t E0. injection E0 as <- _. apply z_psf_ok. }
  destruct HP as [s' Hs']. exists s, s'. cbv zeta. split; [exact lib_si_ok|]. split; [exact (d_hash_ok false)|]. split; [cbn; lia|].
  assert (Es : share_of (c_reqs z_cfg2) (g_hyps s) h = 2%nat) by exact (z_share [0%nat]).
  split; [intros h0 [<-|[]] _; rewrite Es; lia|]. split; [exists h; split; [now left|discriminate]|]. split; [intros b [<-|[]]; cbn; lra|].
  split; [intros e0 He; apply avg_unit; [apply z_psf_ok|exact (HC e0 He)]|]. split; [exact Hs'|]. split; [|split; [exact Hp|cbn; lia]].
  assert (L := C183_smc_enough_requested Z lib_si z_psf z_cfg2 z_births 1 s s' lib_si_ok ltac:(cbn; lia) Hp ltac:(cbn; lia) Hs'). intros E0. rewrite E0 in L. cbn in L. lia.
Qed.
(** The hypotheses of the refutation. *)
Example C183_ex : let Z := z_env (fun x => x + 1) 1 in kshort_none (v_kshort (z_g (swith_lib lib_si Z))) /\ pf_works (swith_lib lib_si Z) /\ c_reqs z_cfg = 1%nat /\
  prob_dist [{| h_p := 1 / 2; h_ts := [0%nat] |}; {| h_p := 1 / 2; h_ts := [1%nat] |}].
Proof. intros Z. split; [exact (l_kshort_none lib_si)|]. split; [apply (z_works (fun x => x + 1) 1); lra|]. split; [reflexivity|]. split; [intros h [<-|[<-|[]]]; cbn; lra|cbn; lra]. Qed.

(** C114, refuted end to end when more sets are requested: two births of
    probabilities 1/(1+e) and 1/(1+e^2), four sets requested.  Both births together
    get probability 0, their share goes to the first birth alone. *)
Theorem C114_library_births_refuted : forall {P X ST CV MS} (Z : senv P X ST CV MS) si psf c b1 b2 t,
  sorts_down si -> hash_ok (v_hash (z_g Z)) -> bprob b1 = pe 1 -> bprob b2 = pe 2 -> c_reqb c = 4%nat ->
  exists s, spredict (swith_lib si Z) psf c [b1; b2] t glmb_new = Ok s /\
    mass (fun h => exactly [0%nat; 1%nat] (h_ts h)) (g_hyps s) = 0 /\
    mass (fun h => exactly [0%nat] (h_ts h)) (g_hyps s) = pe 1 * (1 - pe 2) + pe 1 * pe 2.
Proof.
  intros P X ST CV MS Z si psf c b1 b2 t Hsi Hh Hb1 Hb2 Hk. pose proof (pe_unit 1) as P1. pose proof (pe_unit 2) as P2.
  unfold spredict. cbn [mapM]. rewrite Hb1, Hb2. unfold birth_cost. destruct (Req_EM_T (pe 1) 1) as [|_]; [lra|]. destruct (Req_EM_T (pe 2) 1) as [|_]; [lra|].
  rewrite !lnp_ok by (apply Rdiv_lt_0_compat; lra). cbn [bind]. rewrite !pe_odds, Hk. cbn [swith_lib swith z_g v_kshort with_lib]. rewrite (lib_12 si Hsi). cbn [bind].
  unfold sbirth_hyps. cbn [mapM]. rewrite Hb1, Hb2, !lnp_ok by lra. cbn [bind combine map fst snd normalise_log swith_lib swith z_g].
  set (T := rsum [ln (1 - pe 1); ln (1 - pe 2)]). cbn [h_p h_ts]. set (z := lse _).
  unfold ssurv_hyps. cbn [g_hyps glmb_new g_tab length map mapM ssurv_hyp h_ts h_p bind]. rewrite (lnp_ok 1) by lra. cbn [bind concat app normalise_log map h_p h_ts].
  assert (Z1 : exp (ln 1 - lse [ln 1]) = 1).
  { unfold lse. cbn [map]. rewrite rsum_cons. change (rsum []) with 0. rewrite ln_1, exp_0, Rplus_0_r, ln_1, Rminus_0_r, exp_0. reflexivity. }
  rewrite Z1. eexists. split; [reflexivity|]. cbn [g_hyps].
  match goal with |- context [clean_predictions ?e ?l] => pose proof (C51_merge_preserves_mass e (exactly [0%nat; 1%nat]) l Hh (exactly_perm _)) as M1; pose proof (C51_merge_preserves_mass e (exactly [0%nat]) l Hh (exactly_perm _)) as M2 end.
  rewrite M1, M2. clear M1 M2. unfold set_pred_hyps. cbn [flat_map map app h_p h_ts]. unfold mass. cbn [filter map h_ts].
  change (exactly [0%nat; 1%nat] []) with false. change (exactly [0%nat; 1%nat] [0%nat]) with false. change (exactly [0%nat; 1%nat] [1%nat]) with false.
  change (exactly [0%nat] []) with false. change (exactly [0%nat] [0%nat]) with true. change (exactly [0%nat] [1%nat]) with false. cbv iota.
  cbn [map h_p]. rewrite !rsum_cons. change (rsum []) with 0. split; [reflexivity|].
  assert (XX : forall x, exp (T - (x + feps) - z) = exp (- x) * exp (T - feps - z)) by (intros x; rewrite <- exp_plus; f_equal; ring).
  rewrite !XX. set (K := exp (T - feps - z)). assert (HK : 0 < K) by apply exp_pos. rewrite !Rmult_1_r, !Rplus_0_r.
  pose proof (exp_pos 1) as X1. assert (E2 : exp 2 = exp 1 * exp 1) by (rewrite <- exp_plus; f_equal; ring). assert (E3 : exp 3 = exp 1 * exp 1 * exp 1) by (rewrite <- !exp_plus; f_equal; ring).
  rewrite !exp_Ropp, E2, E3. unfold pe. rewrite E2. set (e := exp 1) in *. assert (0 < e * e) by (apply Rmult_lt_0_compat; assumption). assert (0 < e * e * e) by (apply Rmult_lt_0_compat; assumption).
  assert (0 < K * (e * e * e)) by (apply Rmult_lt_0_compat; assumption).
  field. repeat split; try lra. assert (0 < K * (e * e)) by (apply Rmult_lt_0_compat; assumption). assert (0 < K * e) by (apply Rmult_lt_0_compat; assumption). lra.
Qed.
Print Assumptions C114_library_births_refuted.
