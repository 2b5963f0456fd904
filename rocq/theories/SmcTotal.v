(** The SMC-GLMB filter: particle weights, and no operation of the intended cycle raises. *)
From Verif Require Import Base Lists.
From Coq Require Import Reals Permutation Lra.
From Verif Require Import OspaModel CphdModel OspaProofs CphdSpec CphdProofs GlmbModel GlmbSpec GlmbProofs GlmbInv GlmbExtract GlmbMost GlmbTotal GlmbProps GlmbBayes JglmbTotal SmcModel SmcSpec SmcProofs SmcBayes SmcUpd.
Open Scope R_scope.

(** ** weighted sums *)
Lemma wsum_ok w p : length w = length p -> wsum w p = Ok (rsum (map (fun x => fst x * snd x) (combine w p))).
Proof. intros H. unfold wsum. rewrite H, Nat.eqb_refl. reflexivity. Qed.
Lemma wavg_pos w : forall p, length p = length w -> (forall x, In x w -> 0 <= x) -> 0 < rsum w -> (forall q, In q p -> 0 < q) -> 0 < rsum (map (fun x => fst x * snd x) (combine w p)).
Proof.
  induction w as [|x w IH]; intros [|q p] Hl Hw Hs Hq; try discriminate; [change (rsum []) with 0 in Hs; lra|]. cbn [combine map fst snd]. rewrite rsum_cons in *.
  pose proof (Hw x (or_introl eq_refl)) as Hx. pose proof (Hq q (or_introl eq_refl)) as Hq0.
  assert (Hn : 0 <= rsum (map (fun x => fst x * snd x) (combine w p))).
  { apply rsum_nonneg. intros y Hy. apply in_map_iff in Hy as [[a b] [<- Hab]]. cbn [fst snd]. apply Rmult_le_pos; [apply Hw; right; exact (in_combine_l _ _ _ _ Hab)|]. specialize (Hq b (or_intror (in_combine_r _ _ _ _ Hab))). lra. }
  destruct Hx as [Hx|Hx].
  - pose proof (Rmult_lt_0_compat _ _ Hx Hq0). lra.
  - subst x. rewrite Rmult_0_l. assert (0 < rsum w) by lra. specialize (IH p ltac:(injection Hl; auto) (fun y Hy => Hw y (or_intror Hy)) H (fun y Hy => Hq y (or_intror Hy))). lra.
Qed.
Lemma wavg_compl w : forall p, length p = length w -> rsum (map (fun x => fst x * snd x) (combine w p)) + rsum (map (fun x => fst x * snd x) (combine w (map (fun q => 1 - q) p))) = rsum w.
Proof.
  induction w as [|x w IH]; intros [|q p] Hl; try discriminate; [cbn; lra|]. cbn [combine map fst snd]. rewrite !rsum_cons. specialize (IH p ltac:(injection Hl; auto)). cbn [fst snd]. lra.
Qed.
Lemma wavg_unit w p : length p = length w -> (forall x, In x w -> 0 <= x) -> rsum w = 1 -> (forall q, In q p -> 0 < q < 1) -> 0 < rsum (map (fun x => fst x * snd x) (combine w p)) < 1.
Proof.
  intros Hl Hw Hs Hq. split; [apply wavg_pos; auto; [lra|intros q Hi; apply Hq, Hi]|]. pose proof (wavg_compl w p Hl) as Hc.
  assert (0 < rsum (map (fun x => fst x * snd x) (combine w (map (fun q => 1 - q) p)))); [|lra].
  apply wavg_pos; [rewrite map_length; exact Hl|exact Hw|lra|]. intros q Hi. apply in_map_iff in Hi as [q0 [<- Hi]]. specialize (Hq q0 Hi). lra.
Qed.
Lemma wavg_const w p : rsum (map (fun x => fst x * snd x) (combine w (repeat p (length w)))) = p * rsum w.
Proof. induction w as [|x w IH]; [cbn; ring|]. cbn [length repeat combine map fst snd]. rewrite !rsum_cons, IH. cbn [fst snd]. ring. Qed.

Section B.
Context {P X ST CV MS : Type}.
Variable Z : senv P X ST CV MS.
Notation pfs := (pfs P X).
Notation E := (z_g Z).
Notation entry := (entry pfs ST CV).
Notation gcfg := (gcfg ST CV).
Notation glmb := (glmb pfs ST CV MS).
Notation sop := (sop P MS).
Notation birth := (pfs * ST * CV * R)%type.
Implicit Types (c : gcfg) (bs : list birth) (e : entry).

(** ** particle weights *)
Definition cloud_ok e : Prop := one_cloud e /\ exists s, e_fs e = [s] /\ p_parts s <> [] /\ normalised s.
Lemma counted_norm (s : pfs) : counted s -> rsum (p_w s) = 1 -> p_parts s <> [] /\ normalised s.
Proof. intros [A [B C]] H. split; [exact A|]. split; [exact B|]. split; [exact C|exact H]. Qed.
Lemma norm_counted (s : pfs) : p_parts s <> [] -> normalised s -> counted s.
Proof. intros A [B [C D]]. split; [exact A|]. split; [exact B|exact C]. Qed.
Lemma reweight (u : list R) : u <> [] -> (forall x, In x u -> 0 <= x) -> rsum u <> 0 ->
  (forall w, In w (map (fun w => w / rsum u) u) -> 0 <= w) /\ rsum (map (fun w => w / rsum u) u) = 1.
Proof.
  intros Hn Hp H0. split; [|apply rsum_one, H0]. intros w Hw. apply in_map_iff in Hw as [x [<- Hx]].
  assert (0 < rsum u) by (pose proof (rsum_nonneg u Hp); lra). apply Rmult_le_pos; [apply Hp, Hx|]. left. apply Rinv_0_lt_compat, H.
Qed.
Lemma cloud_pred psf c t e e' : (forall t s, counted s -> counted (fst (z_pred Z t s))) -> nonneg psf -> cloud_ok e -> spred_entry Z psf c t e = Ok e' -> cloud_ok e'.
Proof.
  intros Hpf Hps [HO [s [Es [Hne Hno]]]] H. split; [exact (one_pred _ _ _ _ _ _ HO H)|]. pose proof HO as [_ [_ [[x Ex] _]]].
  destruct (spred_spec Z psf c t e e' s x Es Ex H) as [s' [x' [_ [_ [_ [_ [Ef [_ [_ Hc]]]]]]]]]. exists s'. split; [exact Ef|].
  destruct (p_parts s) as [|q0 qs] eqn:Ep; [congruence|]. destruct Hc as [P1 [_ [_ [L1 [W1 N1]]]]].
  destruct (Hpf t s ltac:(apply norm_counted; [congruence|exact Hno])) as [A [B C]]. set (s1 := fst (z_pred Z t s)) in *. set (u := map (fun wp => fst wp * snd wp) _) in *.
  assert (Hu : length u = length (p_parts s1)) by (unfold u; rewrite map_length, combine_length, <- L1, Nat.min_id; exact B).
  assert (Hu0 : u <> []) by (intros E0; rewrite E0 in Hu; destruct (p_parts s1); [congruence|discriminate]).
  destruct (reweight u Hu0) as [R1 R2]; [|apply N1, Hu0|].
  { intros y Hy. unfold u in Hy. apply in_map_iff in Hy as [[a b] [<- Hab]]. cbn [fst snd]. apply Rmult_le_pos; [exact (C a (in_combine_l _ _ _ _ Hab))|exact (Hps _ b (in_combine_r _ _ _ _ Hab))]. }
  rewrite P1. split; [exact A|]. unfold normalised. rewrite P1, W1. split; [rewrite map_length; exact Hu|]. split; [exact R1|exact R2].
Qed.
Lemma cloud_upd pdf c t meas e a e' : (forall t z s s1 x1 l, counted s -> z_corr Z t z s = Some (s1, x1, l) -> counted s1) -> nonneg pdf -> cloud_ok e -> supd Z pdf c t meas e a e' -> cloud_ok e'.
Proof.
  intros Hpf Hpd [HO [s [Es [Hne Hno]]]] H. split; [exact (one_upd _ _ _ _ _ _ _ _ HO H)|]. pose proof (one_last e HO) as Hl. pose proof HO as [_ [_ [[x Ex] _]]].
  destruct a as [|j]; cbn [supd] in H; [subst e'; exists s; cbn; auto|]. destruct H as [z [e1 [w [Hz [Hc ->]]]]].
  pose proof (scor_spec Z pdf c t z e s x _ Es Ex Hl Hc) as [_ [_ [_ [_ [_ [_ [s' [x' [F [_ [_ J]]]]]]]]]]]. exists s'. split; [exact F|].
  destruct (p_parts s) as [|q0 qs] eqn:Ep; [congruence|]. destruct J as [s1 [lk [Ez [P1 [_ [W1 [L1 [_ N1]]]]]]]].
  destruct (Hpf t z s s1 x' lk ltac:(apply norm_counted; [congruence|exact Hno]) Ez) as [A [B C]]. set (u := map (fun pq => fst pq * snd pq + feps) _) in *.
  assert (Hu : length u = length (p_parts s1)) by (unfold u; rewrite map_length, combine_length, L1, Nat.min_id; exact B).
  assert (Hu0 : u <> []) by (intros E0; rewrite E0 in Hu; destruct (p_parts s1); [congruence|discriminate]).
  destruct (reweight u Hu0) as [R1 R2]; [|apply N1, Hu0|].
  { intros y Hy. unfold u in Hy. apply in_map_iff in Hy as [[p q] [<- Hab]]. cbn [fst snd]. pose proof feps_pos'. assert (0 <= p * q); [|lra].
    apply Rmult_le_pos; [exact (Hpd _ p (in_combine_l _ _ _ _ Hab))|exact (C q (in_combine_r _ _ _ _ Hab))]. }
  rewrite P1. split; [exact A|]. unfold normalised. rewrite P1, W1. split; [rewrite map_length; exact Hu|]. split; [exact R1|exact R2].
Qed.
Lemma cloud_exec c bs o (s s' : glmb) : pf_ok Z -> (forall b m cv p, In (b, m, cv, p) bs -> p_parts b <> [] /\ normalised b) ->
  match o with SPredict f _ | SCorrect f _ _ => nonneg f | _ => True end -> sexec Z c bs o s = Ok s' ->
  (forall e, In e (g_tab s) -> cloud_ok e) -> forall e, In e (g_tab s') -> cloud_ok e.
Proof.
  intros [Hp1 Hp2] Hb Ho H HI e' He'. destruct o as [psf t|pdf t meas|pr ca ex|u k]; cbn [sexec] in H.
  - destruct (spredict_tab_in _ _ _ _ _ _ _ _ H He') as [[i [b [Hbi ->]]]|[e [He Hs]]]; [|exact (cloud_pred _ _ _ _ _ Hp1 Ho (HI e He) Hs)].
    split; [apply one_birth|]. destruct b as [[[b m] cv] p]. exists b. split; [reflexivity|]. apply nth_error_In in Hbi. exact (Hb _ _ _ _ Hbi).
  - destruct (scorrect_tab_in _ _ _ _ _ _ _ _ H He') as [e [a [He Hu]]]. exact (cloud_upd _ _ _ _ _ _ _ Hp2 Ho (HI e He) Hu).
  - destruct (cleanup_inv _ _ _ _ _ _ _ H) as [A _]. rewrite A in He'. exact (HI e' He').
  - apply bind_ok in H as [[o s1] [H1 H]]. injection H as <-. destruct (extract_tab _ _ _ _ _ _ H1) as [A _]. rewrite A in He'. exact (HI e' He').
Qed.
Lemma cloud_run c bs os : forall (s s' : glmb), pf_ok Z -> (forall b m cv p, In (b, m, cv, p) bs -> p_parts b <> [] /\ normalised b) -> nonneg_ops os ->
  srun Z c bs os s = Ok s' -> (forall e, In e (g_tab s) -> cloud_ok e) -> forall e, In e (g_tab s') -> cloud_ok e.
Proof.
  induction os as [|o os IH]; intros s s' Hp Hb Hn H HI; cbn [srun] in H; [injection H as <-; exact HI|].
  apply bind_ok in H as [s1 [H1 H]]. apply (IH s1 s' Hp Hb (fun o Ho => Hn o (or_intror Ho)) H). exact (cloud_exec _ _ _ _ _ Hp Hb (Hn o (or_introl eq_refl)) H1 HI).
Qed.

(** ** totality *)
Lemma works_ok : pf_works Z -> forall t z s s1 x1 l, live s -> z_corr Z t z s = Some (s1, x1, l) -> counted s1 /\ length l = length (p_parts s1) /\ forall q, In q l -> 0 <= q.
Proof. intros [_ H] t z s s1 x1 l Hc Ez. specialize (H t z s Hc). rewrite Ez in H. exact H. Qed.
Lemma cloud_live e s : cloud_ok e -> e_fs e = [s] -> live s /\ p_parts s <> [].
Proof.
  intros [_ [s' [Es [Hn HN]]]] E0. rewrite Es in E0. injection E0 as ->. split; [|exact Hn]. split; [apply norm_counted; assumption|]. destruct HN as [_ [_ HN]]. lra.
Qed.
Lemma spred_total psf c t e : pf_works Z -> prob_fun psf -> cloud_ok e -> exists e', spred_entry Z psf c t e = Ok e'.
Proof.
  intros [Hp _] Hf HC. pose proof HC as [HO [s [Es [Hne HN]]]]. pose proof HO as [_ [_ [[x Ex] _]]]. destruct (cloud_live e s HC Es) as [Hl _]. unfold spred_entry. rewrite Es, Ex. cbn [combine mapM fst snd].
  unfold sinner_pred. destruct (p_parts s) as [|q0 qs] eqn:Ep; [congruence|]. specialize (Hp t s Hl). destruct (z_pred Z t s) as [s1 x1]. cbn [fst] in Hp. destruct Hp as [[A [B C]] D].
  destruct (Hf (p_parts s1)) as [F1 F2]. rewrite F1, B, Nat.eqb_refl. cbn [negb]. 
  assert (Hs : 0 < rsum (map (fun wp => fst wp * snd wp) (combine (p_w s1) (psf (p_parts s1))))) by (apply wavg_pos; [rewrite F1, B; reflexivity|exact C|exact D|intros q Hq; apply F2, Hq]).
  match goal with |- context[mapM ?f ?l] => destruct (mapM_all_ok f l) as [w Ew] end; [intros y _; rewrite rdiv_val by lra; eauto|].
  rewrite Ew. cbn [bind]. eauto.
Qed.
Lemma scor_total pdf c t z e : pf_works Z -> prob_fun pdf -> cloud_ok e -> exists o, scor_entry Z pdf c t z e = Ok o /\ forall e' q, o = Some (e', q) -> 0 < q.
Proof.
  intros Hw Hf HC. pose proof HC as [HO [s [Es [Hne HN]]]]. pose proof (one_last e HO) as Hlw. pose proof HO as [_ [_ [[x Ex] _]]]. destruct (cloud_live e s HC Es) as [Hl _]. unfold scor_entry. rewrite Es, Ex, Hlw. cbn [combine map fst scor_loop].
  unfold sinner_corr. destruct (p_parts s) as [|q0 qs] eqn:Ep; [congruence|]. destruct (z_corr Z t z s) as [[[s1 x1] lk]|] eqn:Ez; [|cbn [bind]; eexists; split; [reflexivity|discriminate]].
  destruct (works_ok Hw _ _ _ _ _ _ Hl Ez) as [[A [B C]] [L1 L2]]. destruct (Hf (p_parts s1)) as [F1 F2]. rewrite F1, B, Nat.eqb_refl. cbn [negb]. cbn zeta. set (pw := map (fun pq => fst pq * snd pq + feps) _).
  assert (Hlp : length pw = length (p_parts s1)) by (unfold pw; rewrite map_length, combine_length, F1, B; apply Nat.min_id).
  assert (Hp0 : forall y, In y pw -> 0 < y).
  { intros y Hy. unfold pw in Hy. apply in_map_iff in Hy as [[p q] [<- Hab]]. cbn [fst snd]. pose proof feps_pos'. assert (0 <= p * q); [|lra].
    apply Rmult_le_pos; [|exact (C q (in_combine_r _ _ _ _ Hab))]. specialize (F2 p (in_combine_l _ _ _ _ Hab)). lra. }
  assert (Hs : 0 < rsum pw). { rewrite <- (map_id pw). apply rsum_allpos; [|exact Hp0]. intros E0. rewrite E0 in Hlp. destruct (p_parts s1); [congruence|discriminate]. }
  match goal with |- context[mapM ?f pw] => destruct (mapM_all_ok f pw) as [w Ew] end; [intros y _; rewrite rdiv_val by lra; eauto|].
  rewrite Ew. cbn [bind]. rewrite wsum_ok by (rewrite L1, Hlp; reflexivity). cbn [bind option_map map snd].
  set (nw := rsum (map (fun x0 => fst x0 * snd x0) (combine lk pw))).
  assert (Hnw : 0 <= nw). { apply rsum_nonneg. intros y Hy. apply in_map_iff in Hy as [[p q] [<- Hab]]. cbn [fst snd]. apply Rmult_le_pos; [exact (L2 p (in_combine_l _ _ _ _ Hab))|]. left. exact (Hp0 q (in_combine_r _ _ _ _ Hab)). }
  pose proof feps_pos' as Hf0. assert (Hsn : rsum [nw + feps] = nw + feps) by (rewrite rsum_cons; change (rsum []) with 0; ring).
  cbn [mapM]. rewrite rdiv_val by (rewrite Hsn; lra). cbn [bind]. eexists. split; [reflexivity|]. intros e' q H. assert (Hq : q = rsum [nw + feps]) by congruence. rewrite Hq, Hsn. lra.
Qed.
Lemma cloud_lik_pos pdf t z e : pf_works Z -> prob_fun pdf -> cloud_ok e -> (forall s, z_corr Z t z s <> None) -> 0 < cloud_lik Z pdf t z e.
Proof.
  intros Hw Hf HC Hn. destruct (scor_total pdf {| c_births := []; c_ps := 0; c_pd := 0; c_crate := 0; c_cden := 0; c_reqb := 0; c_reqs := 0; c_requ := 0; c_prune := 0; c_maxh := 0; c_savecov := false; c_savemeas := false |} t z e Hw Hf HC) as [o [Ho Hp]].
  destruct (scor_entry_some _ _ _ _ _ _ _ Hn Ho) as [e' [q ->]]. destruct HC as [HO [s [Es _]]]. pose proof (one_last e HO) as Hl. destruct HO as [_ [_ [[x Ex] _]]].
  pose proof (scor_spec Z pdf _ t z e s x _ Es Ex Hl Ho) as [Hq _]. rewrite <- Hq. exact (Hp e' q eq_refl).
Qed.
Lemma avg_unit f e : prob_fun f -> cloud_ok e -> 0 < cloud_avg f e < 1.
Proof.
  intros Hf [_ [s [Es [_ [A [B C]]]]]]. unfold cloud_avg. rewrite Es. destruct (Hf (p_parts s)) as [F1 F2]. apply wavg_unit; [congruence|exact B|exact C|exact F2].
Qed.
Lemma avg_total f e : prob_fun f -> cloud_ok e -> avg_prob f e = Ok (cloud_avg f e).
Proof.
  intros Hf [_ [s [Es [_ [A _]]]]]. unfold avg_prob, cloud_avg. rewrite Es. destruct (Hf (p_parts s)) as [F1 _]. apply wsum_ok. congruence.
Qed.
Lemma avgs_total f (tab : list entry) : prob_fun f -> (forall e, In e tab -> cloud_ok e) -> mapM (avg_prob f) tab = Ok (map (cloud_avg f) tab).
Proof.
  intros Hf. induction tab as [|e tab IH]; intros H; [reflexivity|]. cbn [mapM map]. rewrite (avg_total f e Hf (H e (or_introl eq_refl))). cbn [bind]. rewrite IH by (intros x Hx; apply H; right; exact Hx). reflexivity.
Qed.
Lemma geti_total (av : list R) ts : (forall i, In i ts -> (i < length av)%nat) -> mapM (geti av) ts = Ok (map (fun i => nth i av 0) ts).
Proof.
  induction ts as [|i ts IH]; intros H; [reflexivity|]. cbn [mapM map]. unfold geti at 1. destruct (nth_error av i) as [a|] eqn:Ei; [|apply nth_error_None in Ei; specialize (H i (or_introl eq_refl)); lia].
  cbn [bind]. rewrite (nth_error_nth _ _ 0 Ei), IH by (intros j Hj; apply H; right; exact Hj). reflexivity.
Qed.
Lemma ssurv_total c av ss h : kshort_total (v_kshort E) -> kshort_ok (v_kshort E) -> 0 < h_p h -> (forall i, In i (h_ts h) -> (i < length av)%nat) -> (forall p, In p av -> 0 < p < 1) ->
  exists r, ssurv_hyp Z c av ss h = Ok r.
Proof.
  intros Hk Ho Hp Hr Hav. unfold ssurv_hyp. rewrite (lnp_ok (h_p h) Hp). destruct (h_ts h) as [|a ts] eqn:Et; [cbn [bind]; eexists; reflexivity|]. rewrite <- Et in *.
  rewrite (geti_total av (h_ts h) Hr). cbn [bind]. set (ps := map _ (h_ts h)).
  assert (Hps : forall p, In p ps -> 0 < p < 1) by (intros p Hi; unfold ps in Hi; apply in_map_iff in Hi as [i [<- Hi]]; apply Hav, nth_In, Hr, Hi).
  match goal with |- context[mapM ?f ps] => destruct (mapM_all_ok f ps) as [lc El] end.
  { intros p Hi. specialize (Hps p Hi). rewrite rdiv_val by lra. cbn [bind]. rewrite lnp_ok by (apply Rdiv_lt_0_compat; lra). cbn [bind]. eauto. }
  rewrite El. cbn [bind]. pose proof (mapM_length _ _ _ El) as Ll. unfold ps in Ll. rewrite map_length in Ll.
  match goal with |- context[v_kshort E lc ?k] => destruct (Hk lc k) as [[paths costs] Ek]; rewrite Ek; destruct (Ho _ _ _ _ Ek) as [_ Hpt] end. cbn [bind].
  destruct (mapM_all_ok (fun p => lnp (1 - p)) ps) as [ld Eld]; [intros p Hi; specialize (Hps p Hi); rewrite lnp_ok by lra; eauto|]. rewrite Eld. cbn [bind].
  apply mapM_all_ok. intros [p x] Hi. cbn [fst snd]. destruct (mapM_all_ok (geti (h_ts h)) p) as [ys Ey].
  - intros i Hii. destruct (Hpt p (in_combine_l _ _ _ _ Hi)) as [_ Hlt]. specialize (Hlt i Hii). rewrite Ll in Hlt. unfold geti. destruct (nth_error (h_ts h) i) eqn:En; [eauto|apply nth_error_None in En; lia].
  - rewrite Ey. cbn [bind]. eauto.
Qed.
Lemma spredict_total psf c bs t (s : glmb) : pf_works Z -> prob_fun psf -> sbirths_ok bs -> kshort_total (v_kshort E) -> kshort_ok (v_kshort E) -> v_lse0 E = Ok tt ->
  (forall h, In h (g_hyps s) -> 0 < h_p h) -> refs_ok (g_tab s) (g_hyps s) -> (forall e, In e (g_tab s) -> cloud_ok e) -> exists s', spredict Z psf c bs t s = Ok s'.
Proof.
  intros Hw Hf Hb Hk Ho Hl Hp Hr HC. unfold spredict.
  assert (Hb1 : forall b, In b bs -> 0 < bprob b < 1) by (intros [[[b m] cv] p] Hi; destruct (Hb _ _ _ _ Hi) as [_ [_ H]]; exact H).
  destruct (mapM_all_ok (fun b => birth_cost (bprob b)) bs) as [lc El]; [intros b Hi; apply birth_cost_ok, Hb1, Hi|]. rewrite El. cbn [bind].
  destruct (Hk lc (c_reqb c)) as [[paths costs] Ek]. rewrite Ek. cbn [bind]. unfold sbirth_hyps.
  destruct (mapM_all_ok (fun b => lnp (1 - bprob b)) bs) as [ls Els]; [intros b Hi; specialize (Hb1 b Hi); rewrite lnp_ok by lra; eauto|]. rewrite Els. cbn [bind].
  match goal with |- context[normalise_log E ?l] => destruct (normalise_total E l Hl) as [bh Eb]; rewrite Eb end. cbn [bind].
  destruct (mapM_all_ok (spred_entry Z psf c t) (g_tab s)) as [st Est]; [intros e He; exact (spred_total _ _ _ _ Hw Hf (HC e He))|]. rewrite Est. cbn [bind].
  rewrite (avgs_total psf (g_tab s) Hf HC). cbn [bind]. unfold ssurv_hyps.
  match goal with |- context[mapM ?f (g_hyps s)] => destruct (mapM_all_ok f (g_hyps s)) as [ll Ell] end.
  { intros h Hh. apply ssurv_total; [exact Hk|exact Ho|apply Hp, Hh|intros i Hi; rewrite map_length; exact (Hr h i Hh Hi)|]. intros p Hi. apply in_map_iff in Hi as [e [<- He]]. apply avg_unit; [exact Hf|exact (HC e He)]. }
  rewrite Ell. cbn [bind]. match goal with |- context[normalise_log E ?l] => destruct (normalise_total E l Hl) as [sh Esh]; rewrite Esh end. cbn [bind]. eauto.
Qed.
Lemma scorrect_total pdf c t meas (s : glmb) : pf_works Z -> prob_fun pdf -> 0 < c_crate c -> 0 < c_cden c -> murty_total (v_murty E) -> v_lse0 E = Ok tt ->
  (forall h, In h (g_hyps s) -> 0 < h_p h) -> refs_ok (g_tab s) (g_hyps s) -> (forall e, In e (g_tab s) -> cloud_ok e) -> exists s', scorrect Z pdf c t meas s = Ok s'.
Proof.
  intros Hw Hf Hcr Hcd Hm Hl Hp Hr HC. unfold scorrect.
  assert (Hrows : exists rows, scor_rows Z pdf c t meas (g_tab s) = Ok rows).
  { unfold scor_rows. apply mapM_all_ok. intros z _. apply mapM_all_ok. intros e He. destruct (scor_total pdf c t z e Hw Hf (HC e He)) as [o [Ho _]]. eauto. }
  destruct Hrows as [rows Er]. rewrite Er. cbn [bind]. rewrite (avgs_total pdf (g_tab s) Hf HC). cbn [bind]. set (av := map (cloud_avg pdf) (g_tab s)).
  assert (Hav : forall p, In p av -> 0 < p < 1) by (intros p Hi; apply in_map_iff in Hi as [e [<- He]]; apply avg_unit; [exact Hf|exact (HC e He)]).
  assert (Hr' : forall h, In h (g_hyps s) -> forall i, In i (h_ts h) -> (i < length av)%nat) by (intros h Hh i Hi; unfold av; rewrite map_length; exact (Hr h i Hh Hi)).
  assert (Hps : forall h, In h (g_hyps s) -> forall p, In p (map (fun i => nth i av 0) (h_ts h)) -> 0 < p < 1) by (intros h Hh p Hi; apply in_map_iff in Hi as [i [<- Hi]]; apply Hav, nth_In, (Hr' h Hh i Hi)).
  assert (Hg : exists hs, scor_hyps Z c (length meas) (length (g_tab s)) av (scor_cost rows) (g_hyps s) = Ok hs).
  { unfold scor_hyps. destruct (length meas) as [|nm] eqn:En.
    - destruct (mapM_all_ok (smiss_hyp c av) (g_hyps s)) as [ys Ey].
      + intros h Hh. unfold smiss_hyp. rewrite (geti_total av (h_ts h) (Hr' h Hh)). cbn [bind].
        destruct (mapM_all_ok (fun p => lnp (1 - p)) (map (fun i => nth i av 0) (h_ts h))) as [zs Ez]; [intros p Hi; specialize (Hps h Hh p Hi); rewrite lnp_ok by lra; eauto|].
        rewrite Ez. cbn [bind]. rewrite lnp_ok by auto. cbn [bind]. eauto.
      + rewrite Ey. cbn [bind]. apply normalise_total, Hl.
    - match goal with |- context[mapM ?f (g_hyps s)] => destruct (mapM_all_ok f (g_hyps s)) as [ys Ey] end.
      + intros h Hh. unfold scor_hyp. assert (Hcl : 0 < c_crate c * c_cden c) by (apply Rmult_lt_0_compat; assumption).
        rewrite (lnp_ok (c_crate c * c_cden c)) by exact Hcl. rewrite (lnp_ok (h_p h)) by auto. cbn zeta.
        destruct (h_ts h) as [|a ts] eqn:Et; [cbn [bind]; eauto|]. rewrite <- Et. rewrite (geti_total av (h_ts h) (Hr' h Hh)). cbn [bind].
        destruct (mapM_all_ok (fun p => rdiv p (1 - p)) (map (fun i => nth i av 0) (h_ts h))) as [ra Era]; [intros p Hi; specialize (Hps h Hh p Hi); rewrite rdiv_val by lra; eauto|]. rewrite Era. cbn [bind].
        match goal with |- context[v_murty E ?a ?b ?d ?e] => destruct (Hm a b d e) as [[rws costs] Em]; [rewrite Et; cbn; lia|lia|rewrite Em] end. cbn [bind].
        destruct (mapM_all_ok (fun p => lnp (1 - p)) (map (fun i => nth i av 0) (h_ts h))) as [zs Ez]; [intros p Hi; specialize (Hps h Hh p Hi); rewrite lnp_ok by lra; eauto|].
        rewrite Ez. cbn [bind]. eauto.
      + rewrite Ey. cbn [bind]. apply normalise_total, Hl. }
  destruct Hg as [hs Eg]. rewrite Eg. cbn [bind]. destruct (clean_updates _ hs). eauto.
Qed.

(** ** the cycle *)
Definition SShape c e : Prop := (forall l, In l (e_st e) -> length l = 1%nat) /\ (c_savecov c = true -> forall l, In l (e_cov e) -> length l = 1%nat).
Lemma sshape c e : one_cloud e -> SShape c e -> shape c e.
Proof. intros [_ [[s Es] [_ Hw]]] [H1 H2]. exists 1%nat. split; [lia|]. split; [rewrite Es; reflexivity|]. split; [exact H1|]. split; [|exact H2]. intros l Hl. rewrite (Hw l Hl). reflexivity. Qed.
Lemma sshape_exec c bs o (s s' : glmb) : sexec Z c bs o s = Ok s' -> OInv s -> (forall e, In e (g_tab s) -> SShape c e) -> forall e, In e (g_tab s') -> SShape c e.
Proof.
  intros H HO HI e' He'. destruct o as [psf t|pdf t meas|pr ca ex|u k]; cbn [sexec] in H.
  - destruct (spredict_tab_in _ _ _ _ _ _ _ _ H He') as [[i [b [_ ->]]]|[e [He Hs]]].
    + destruct b as [[[b m] cv] p]. split; [intros l [<-|[]]; reflexivity|]. intros Hc l Hl. cbn [sbirth_entry e_cov] in Hl. rewrite Hc in Hl. destruct Hl as [<-|[]]. reflexivity.
    + destruct (HO e He) as [_ [[p Es] [[x Ex] _]]]. destruct (HI e He) as [S1 S2]. destruct (spred_spec Z psf c t e e' p x Es Ex Hs) as [s1 [x1 [_ [_ [_ [_ [_ [A [B _]]]]]]]]]. split.
      * intros l Hl. rewrite A in Hl. apply in_app_or in Hl as [Hl|[<-|[]]]; [exact (S1 l Hl)|reflexivity].
      * intros Hc l Hl. rewrite B in Hl. apply in_app_or in Hl as [Hl|[<-|[]]]; [exact (S2 Hc l Hl)|reflexivity].
  - destruct (scorrect_tab_in _ _ _ _ _ _ _ _ H He') as [e [a [He Hu]]]. destruct (HI e He) as [S1 S2]. apply supd_successor in Hu; [|exact (HO e He)]. destruct Hu as [_ [_ Hu]]. destruct a as [|j].
    + destruct Hu as [_ [_ [_ [A B]]]]. split; [rewrite A; exact S1|rewrite B; exact S2].
    + destruct Hu as [_ [_ [z [p [x [p' [x' [_ [_ [_ [_ [A [B _]]]]]]]]]]]]]. split.
      * intros l Hl. rewrite A in Hl. apply in_app_or in Hl as [Hl|[<-|[]]]; [exact (S1 l (removelast_in _ _ Hl))|reflexivity].
      * intros Hc l Hl. rewrite B in Hl. apply in_app_or in Hl as [Hl|[<-|[]]]; [exact (S2 Hc l (removelast_in _ _ Hl))|reflexivity].
  - destruct (cleanup_inv _ _ _ _ _ _ _ H) as [A _]. rewrite A in He'. exact (HI e' He').
  - apply bind_ok in H as [[o s1] [H1 H]]. injection H as <-. destruct (extract_tab _ _ _ _ _ _ H1) as [A _]. rewrite A in He'. exact (HI e' He').
Qed.
Definition SRInv c (s : glmb) : Prop := PInv 0 s /\ (forall x, In x (g_ext s) -> xlen 0 (g_cnt s) x) /\ (forall e, In e (g_tab s) -> cloud_ok e) /\ (forall e, In e (g_tab s) -> SShape c e) /\ (forall h, In h (g_hyps s) -> 0 < h_p h).
Lemma srinv_c c s : SRInv c s -> CInv c 0 s.
Proof. intros [A [B [C [D _]]]]. split; [exact A|]. split; [|exact B]. intros e He. apply sshape; [apply C, He|exact (D e He)]. Qed.
Lemma works_pf bs psf c t (s s' : glmb) : pf_works Z -> prob_fun psf -> sbirths_ok bs -> (forall e, In e (g_tab s) -> cloud_ok e) -> spredict Z psf c bs t s = Ok s' -> forall e, In e (g_tab s') -> cloud_ok e.
Proof.
  intros [Hp1 _] Hf Hb HI H e' He'. destruct (spredict_tab_in _ _ _ _ _ _ _ _ H He') as [[i [b [Hbi ->]]]|[e [He Hs]]].
  - split; [apply one_birth|]. destruct b as [[[b m] cv] p]. exists b. split; [reflexivity|]. apply nth_error_In in Hbi. destruct (Hb _ _ _ _ Hbi) as [A [B _]]. apply counted_norm; assumption.
  - pose proof (HI e He) as HC. pose proof HC as [HO [p [Es [Hne Hno]]]]. split; [exact (one_pred _ _ _ _ _ _ HO Hs)|]. pose proof HO as [_ [_ [[x Ex] _]]].
    destruct (spred_spec Z psf c t e e' p x Es Ex Hs) as [p' [x' [_ [_ [_ [_ [Ef [_ [_ Hc]]]]]]]]]. exists p'. split; [exact Ef|].
    destruct (cloud_live e p HC Es) as [Hl _].
    destruct (p_parts p) as [|q0 qs] eqn:Ep; [congruence|]. destruct Hc as [P1 [_ [_ [L1 [W1 N1]]]]].
    destruct (Hp1 t p Hl) as [[A [B C]] _]. set (s1 := fst (z_pred Z t p)) in *. set (u := map (fun wp => fst wp * snd wp) _) in *.
    assert (Hu : length u = length (p_parts s1)) by (unfold u; rewrite map_length, combine_length, <- L1, Nat.min_id; exact B).
    assert (Hu0 : u <> []) by (intros E0; rewrite E0 in Hu; destruct (p_parts s1); [congruence|discriminate]).
    destruct (reweight u Hu0) as [R1 R2]; [|apply N1, Hu0|].
    { intros y Hy. unfold u in Hy. apply in_map_iff in Hy as [[a b] [<- Hab]]. cbn [fst snd]. apply Rmult_le_pos; [exact (C a (in_combine_l _ _ _ _ Hab))|]. destruct (Hf (p_parts s1)) as [_ F2]. specialize (F2 b (in_combine_r _ _ _ _ Hab)). lra. }
    rewrite P1. split; [exact A|]. unfold normalised. rewrite P1, W1. split; [rewrite map_length; exact Hu|]. split; [exact R1|exact R2].
Qed.
Lemma works_upd pdf c t meas e a e' : pf_works Z -> prob_fun pdf -> cloud_ok e -> supd Z pdf c t meas e a e' -> cloud_ok e'.
Proof.
  intros Hw Hf HC H. pose proof HC as [HO [s [Es [Hne Hno]]]]. split; [exact (one_upd _ _ _ _ _ _ _ _ HO H)|]. pose proof (one_last e HO) as Hl. pose proof HO as [_ [_ [[x Ex] _]]].
  destruct a as [|j]; cbn [supd] in H; [subst e'; exists s; cbn; auto|]. destruct H as [z [e1 [w [Hz [Hc ->]]]]]. destruct (cloud_live e s HC Es) as [Hlv _].
  pose proof (scor_spec Z pdf c t z e s x _ Es Ex Hl Hc) as [_ [_ [_ [_ [_ [_ [s' [x' [F [_ [_ J]]]]]]]]]]]. exists s'. split; [exact F|].
  destruct (p_parts s) as [|q0 qs] eqn:Ep; [congruence|]. destruct J as [s1 [lk [Ez [P1 [_ [W1 [L1 [_ N1]]]]]]]].
  destruct (works_ok Hw _ _ _ _ _ _ Hlv Ez) as [[A [B C]] _]. set (u := map (fun pq => fst pq * snd pq + feps) _) in *.
  assert (Hu : length u = length (p_parts s1)) by (unfold u; rewrite map_length, combine_length, L1, Nat.min_id; exact B).
  assert (Hu0 : u <> []) by (intros E0; rewrite E0 in Hu; destruct (p_parts s1); [congruence|discriminate]).
  destruct (reweight u Hu0) as [R1 R2]; [|apply N1, Hu0|].
  { intros y Hy. unfold u in Hy. apply in_map_iff in Hy as [[p q] [<- Hab]]. cbn [fst snd]. pose proof feps_pos'. assert (0 <= p * q); [|lra].
    apply Rmult_le_pos; [|exact (C q (in_combine_r _ _ _ _ Hab))]. destruct (Hf (p_parts s1)) as [_ F2]. specialize (F2 p (in_combine_l _ _ _ _ Hab)). lra. }
  rewrite P1. split; [exact A|]. unfold normalised. rewrite P1, W1. split; [rewrite map_length; exact Hu|]. split; [exact R1|exact R2].
Qed.
Lemma scycle_total c bs x (s : glmb) : pf_works Z -> prob_fun (fst (fst (fst (fst x)))) -> prob_fun (snd (fst (fst (fst x)))) -> sbirths_ok bs -> 0 < c_crate c -> 0 < c_cden c ->
  kshort_total (v_kshort E) -> murty_total (v_murty E) -> kshort_ok (v_kshort E) -> murty_ok (v_murty E) -> v_lse0 E = Ok tt -> rsorts (v_argsort E) ->
  SRInv c s -> exists s', srun Z c bs (scycle x) s = Ok s' /\ SRInv c s' /\ g_card s' <> [].
Proof.
  destruct x as [[[[psf pdf] t] meas] [[pr ca] ex]]. cbn [fst snd]. intros Hw Hf Hg Hb Hcr Hcd Hkt Hmt Hk Hm Hl Hs HR. pose proof (srinv_c c s HR) as HC0. destruct HR as [HP [HX [HC [HS Hp]]]].
  assert (Hrf : refs_ok (g_tab s) (g_hyps s)) by (destruct HP as [_ HI]; eapply hinv_refs; exact HI).
  destruct (spredict_total psf c bs t s Hw Hf Hb Hkt Hk Hl Hp Hrf HC) as [s1 E1].
  assert (R1 : srun Z c bs [SPredict psf t] s = Ok s1) by (cbn [srun sexec]; rewrite E1; reflexivity).
  pose proof (spinv_run Z c bs _ 0 1 _ _ Hk Hm R1 eq_refl HP) as HP1. pose proof (works_pf bs psf c t s s1 Hw Hf Hb HC E1) as HC1.
  pose proof (sshape_exec c bs (SPredict psf t) s s1 E1 (fun e He => proj1 (HC e He)) HS) as HS1.
  assert (Hp1 : forall h, In h (g_hyps s1) -> 0 < h_p h) by (intros h Hh; apply (spredict_dist _ _ _ _ _ _ _ E1); [intros E0; rewrite E0 in Hh; destruct Hh|exact Hh]).
  assert (HX1 : forall y, In y (g_ext s1) -> xlen 2 (g_cnt s1) y).
  { destruct (spredict_inv _ _ _ _ _ _ _ E1) as [lc [pa [co [bh [st [av [sh [_ [_ [_ [_ [_ [_ [_ [_ [_ [Ec [Ee _]]]]]]]]]]]]]]]]]]. rewrite Ee, Ec. intros y Hy. destruct (HX y Hy) as [X1 [X2 X3]]. repeat split; auto. cbn in *. lia. }
  assert (Hrf1 : refs_ok (g_tab s1) (g_hyps s1)) by (destruct HP1 as [_ HI]; eapply hinv_refs; exact HI).
  destruct (scorrect_total pdf c t meas s1 Hw Hg Hcr Hcd Hmt Hl Hp1 Hrf1 HC1) as [s2 E2].
  assert (R2 : srun Z c bs [SCorrect pdf t meas] s1 = Ok s2) by (cbn [srun sexec]; rewrite E2; reflexivity).
  pose proof (spinv_run Z c bs _ 1 2 _ _ Hk Hm R2 eq_refl HP1) as HP2.
  assert (HC2 : forall e, In e (g_tab s2) -> cloud_ok e) by (intros e' He'; destruct (scorrect_tab_in _ _ _ _ _ _ _ _ E2 He') as [e [a [He Hu]]]; exact (works_upd _ _ _ _ _ _ _ Hw Hg (HC1 e He) Hu)).
  pose proof (sshape_exec c bs (SCorrect pdf t meas) s1 s2 E2 (fun e He => proj1 (HC1 e He)) HS1) as HS2.
  destruct (scorrect_inv _ _ _ _ _ _ _ E2) as [rows [av [hs [_ [_ [Eg [_ [Eh [Ecd [Ecn [Eex _]]]]]]]]]]].
  assert (Hp2 : forall h, In h (g_hyps s2) -> 0 < h_p h).
  { intros h Hh. rewrite Eh in Hh. apply in_flat_map in Hh as [h0 [H0 H1]]. apply reindex_in in H1 as [-> _]. apply (scor_hyps_dist _ _ _ _ _ _ _ _ Eg); [intros E0; rewrite E0 in H0; destruct H0|exact H0]. }
  assert (HC2' : CInv c 2 s2).
  { split; [exact HP2|]. split; [intros e He; apply sshape; [apply HC2, He|exact (HS2 e He)]|]. rewrite Eex, Ecn. exact HX1. }
  assert (Hcard : g_card s2 <> []) by (rewrite Ecd; apply calc_card_ne).
  destruct (cleanup_total E c pr ca ex s2 HC2' Hcard) as [s3 [E3 HC3]]. exists s3. split; [|split].
  - cbn [scycle srun sexec]. rewrite E1. cbn [bind]. rewrite E2. cbn [bind]. rewrite E3. reflexivity.
  - destruct (cleanup_inv _ _ _ _ _ _ _ E3) as [T3 [_ [_ [Eh3 _]]]]. destruct HC3 as [HP3 [_ HX3]]. split; [exact HP3|]. split; [exact HX3|]. rewrite T3. split; [exact HC2|]. split; [exact HS2|]. rewrite Eh3. apply cleaned_pos; assumption.
  - apply (card_exec E c (OpCleanup pr ca ex) s2 s3); [cbn [exec]; exact E3|right; exact Hcard].
Qed.
Lemma srun_app c bs os1 os2 (s : glmb) : srun Z c bs (os1 ++ os2) s = (do s1 <- srun Z c bs os1 s; srun Z c bs os2 s1).
Proof. revert s. induction os1 as [|o os1 IH]; intros s; [reflexivity|]. cbn [srun app]. destruct (sexec Z c bs o s) as [s1|e]; cbn [bind]; [apply IH|reflexivity]. Qed.
Lemma srinv_new c : SRInv c glmb_new.
Proof. split; [split; [intros e []|apply hinv_new]|]. split; [intros x []|]. split; [intros e []|]. split; [intros e []|]. intros h [<-|[]]. cbn. lra. Qed.
Lemma scycles_total c bs xs : pf_works Z -> (forall x, In x xs -> prob_fun (fst (fst (fst (fst x)))) /\ prob_fun (snd (fst (fst (fst x))))) -> sbirths_ok bs -> 0 < c_crate c -> 0 < c_cden c ->
  kshort_total (v_kshort E) -> murty_total (v_murty E) -> kshort_ok (v_kshort E) -> murty_ok (v_murty E) -> v_lse0 E = Ok tt -> rsorts (v_argsort E) ->
  exists s', srun Z c bs (flat_map scycle xs) glmb_new = Ok s' /\ SRInv c s' /\ (xs <> [] -> g_card s' <> []).
Proof.
  intros Hw Hx Hb Hcr Hcd Hkt Hmt Hk Hm Hl Hs.
  assert (H : forall xs s, (forall x, In x xs -> prob_fun (fst (fst (fst (fst x)))) /\ prob_fun (snd (fst (fst (fst x))))) -> SRInv c s -> exists s', srun Z c bs (flat_map scycle xs) s = Ok s' /\ SRInv c s' /\ (xs <> [] \/ g_card s <> [] -> g_card s' <> [])).
  { clear xs Hx. induction xs as [|x xs IH]; intros s Hx HR; [exists s; split; [reflexivity|]; split; [exact HR|intros [?|?]; [congruence|assumption]]|]. cbn [flat_map]. rewrite srun_app.
    destruct (Hx x (or_introl eq_refl)) as [F1 F2]. destruct (scycle_total c bs x s Hw F1 F2 Hb Hcr Hcd Hkt Hmt Hk Hm Hl Hs HR) as [s1 [E1 [HR1 Hc1]]]. rewrite E1. cbn [bind].
    destruct (IH s1 (fun y Hy => Hx y (or_intror Hy)) HR1) as [s' [A [B C]]]. exists s'. split; [exact A|]. split; [exact B|]. intros _. apply C. right. exact Hc1. }
  destruct (H xs glmb_new Hx (srinv_new c)) as [s' [A [B C]]]. exists s'. split; [exact A|]. split; [exact B|]. intros Hn. apply C. left. exact Hn.
Qed.
End B.
