(** True parts of C90 and C91 for probabilities below 1/2, with the library's
    own k_shortest: two requested hypotheses are enough. *)
From Verif Require Import Base Lists.
From Coq Require Import Reals Permutation Lra Lia.
From Verif Require Import OspaModel CphdModel OspaProofs CphdSpec CphdProofs CphdProps GlmbModel GlmbSpec GlmbProofs GlmbInv GlmbExtract GlmbMost GlmbTotal GlmbBayes GlmbProps GlmbProps2 GlmbProps3 GlmbProps4 GlmbDemo LibAlgs LibProps LibTrans LibPredict LibPositive.
From Verif Require RBase RBfmModel RKShortModel RKShortSpec RKShortProofs RKShortProps2.
Open Scope R_scope.

(** The second answer to a vector of positive costs: the first is the empty
    set, the second the cheapest state alone. *)
Lemma l_kshort_second si lc k : sorts_down si -> scaled_vec lc -> (2 <= k)%nat -> (forall x, In x lc -> 0 < x) -> lc <> [] ->
  exists j ps cs, l_kshort si lc k = Ok ([] :: [j] :: ps, cs) /\ (j < length lc)%nat /\ forall i, (i < length lc)%nat -> nth j lc 0 <= nth i lc 0.
Proof.
  intros Hsi Hsc Hk Hpos Hne.
  destruct (l_kshort_first si lc k Hsi Hsc ltac:(lia)) as [p [ps [cs [E [N1 [R1 M1]]]]]].
  assert (Hn : forall i, (i < length lc)%nat -> 0 < nth i lc 0) by (intros i Hi; apply Hpos, nth_In, Hi).
  assert (Hsum : forall l, (forall i, In i l -> (i < length lc)%nat) -> 0 <= rsum (map (fun i => nth i lc 0) l)).
  { intros l Hl. apply rsum_nonneg. intros x Hx. apply in_map_iff in Hx as [i [<- Hi]]. apply Rlt_le, Hn, Hl, Hi. }
  assert (Hp : p = []).
  { destruct p as [|i p]; [reflexivity|]. exfalso. specialize (M1 [] ltac:(constructor) ltac:(intros i0 [])). cbn [map] in M1. rewrite rsum_cons in M1.
    pose proof (Hn i (R1 i (or_introl eq_refl))). pose proof (Hsum p ltac:(intros; apply R1; now right)). change (rsum []) with 0 in M1. lra. }
  subst p. set (c := map RBase.Fin lc) in *. assert (Lc : length c = length lc) by apply map_length.
  assert (He : forall i, RKShortSpec.entry c i = RBase.Fin (nth i lc 0)) by (intro i; unfold RKShortSpec.entry, c; apply (map_nth RBase.Fin lc 0)).
  assert (HT : forall l, RKShortSpec.total c l = rsum (map (fun i => nth i lc 0) l)).
  { intros l. unfold RKShortSpec.total. f_equal. apply map_ext. intros i. rewrite He. reflexivity. }
  assert (HS : RKShortSpec.sorts_desc c (si lc)).
  { destruct (Hsi lc) as [A B]. split; [rewrite Lc; exact A|]. clear - B He. induction B as [|a l F _ IH]; constructor; [|exact IH].
    eapply Forall_impl; [|exact F]. intros j Hj. cbn beta. rewrite !He. exact Hj. }
  destruct (RKShortProps2.C14_k_shortest_second_partial_real c (si lc) k (proj1 (l_scaled lc) Hsc) HS Hk) as [p' [cost [ps' [costs [E2 K]]]]].
  unfold l_kshort in E |- *. fold c in E |- *. rewrite E2 in E |- *. cbn [bind] in E |- *. injection E as Ep Eps _ Ec. subst p' ps'. clear Ec cs.
  assert (Hnz : forall s, RKShortSpec.subset c s -> RKShortProps2.nonzero c s).
  { intros s [_ Hs]. unfold RKShortProps2.nonzero. eapply Forall_impl; [|exact Hs]. cbn beta. intros i Hi. rewrite Lc in Hi. exists (nth i lc 0). split; [apply He|]. pose proof (Hn i Hi). lra. }
  assert (Hone : forall i, (i < length lc)%nat -> RKShortSpec.subset c [i]).
  { intros i Hi. split; [constructor; [intros []|constructor]|]. constructor; [rewrite Lc; exact Hi|constructor]. }
  assert (Hno : forall i, ~ Permutation [i] (@nil nat)) by (intros i HP; apply Permutation_length in HP; discriminate).
  assert (H0 : (0 < length lc)%nat) by (destruct lc; [now elim Hne|cbn; lia]).
  destruct costs as [|e costs].
  - exfalso. apply (Hno 0%nat). apply K; [apply Hone, H0|apply Hnz, Hone, H0].
  - destruct K as [q [s [-> [S1 [S2 [S3 [S4 [S5 [p2 [ps2 [-> S6]]]]]]]]]]].
    assert (Hle : forall i, (i < length lc)%nat -> rsum (map (fun i => nth i lc 0) s) <= nth i lc 0).
    { intros i Hi. specialize (S5 [i] (Hone i Hi) (Hnz _ (Hone i Hi)) (Hno i)). rewrite S4, !HT in S5. cbn [map] in S5. rewrite rsum_cons in S5. change (rsum []) with 0 in S5. lra. }
    assert (Hrs : forall i, In i s -> (i < length lc)%nat) by (destruct S1 as [_ S1]; rewrite Forall_forall in S1; intros i Hi; specialize (S1 i Hi); rewrite Lc in S1; exact S1).
    destruct s as [|j s]; [exfalso; now apply S3|].
    cbn [map] in Hle. assert (Hj : (j < length lc)%nat) by (apply Hrs; now left).
    assert (s = []) as ->.
    { destruct s as [|j' s]; [reflexivity|]. exfalso. specialize (Hle j Hj). cbn [map] in Hle. rewrite !rsum_cons in Hle.
      pose proof (Hn j' (Hrs j' (or_intror (or_introl eq_refl)))). pose proof (Hsum s ltac:(intros; apply Hrs; right; now right)). lra. }
    destruct S6 as [<-|[x [[] _]]].
    exists j, ps2. eexists. split; [reflexivity|]. split; [exact Hj|]. intros i Hi. specialize (Hle i Hi). rewrite rsum_cons in Hle. cbn [map] in Hle. change (rsum []) with 0 in Hle. lra.
Qed.
Lemma odds_below p : 0 < p < 1 / 2 -> 0 < - ln (p / (1 - p)).
Proof.
  intro H. assert (ln (p / (1 - p)) < 0); [|lra]. rewrite <- ln_1. apply ln_increasing; [apply Rdiv_lt_0_compat; lra|].
  apply Rmult_lt_reg_r with (1 - p); [lra|]. unfold Rdiv. rewrite Rmult_assoc, Rinv_l by lra. lra.
Qed.
Lemma odds_mono p q : 0 < p < 1 -> 0 < q < 1 -> - ln (p / (1 - p)) <= - ln (q / (1 - q)) -> q <= p.
Proof.
  intros Hp Hq H. destruct (Rle_lt_dec q p) as [L|L]; [exact L|]. exfalso.
  assert (ln (p / (1 - p)) < ln (q / (1 - q))); [|lra]. apply ln_increasing; [apply Rdiv_lt_0_compat; lra|].
  apply Rmult_lt_reg_r with (1 - p); [lra|]. apply Rmult_lt_reg_r with (1 - q); [lra|]. unfold Rdiv.
  replace (p * / (1 - p) * (1 - p) * (1 - q)) with (p * (1 - q)) by (field; lra). replace (q * / (1 - q) * (1 - p) * (1 - q)) with (q * (1 - p)) by (field; lra). lra.
Qed.

(** * C90: all birth probabilities below 1/2 and two birth hypotheses requested:
    a likeliest birth term takes part in some predicted hypothesis *)
Theorem C90_likeliest_birth_born_partial : forall {FS ST CV MS} (E : genv FS ST CV MS) si c t s s' h,
  sorts_down si -> cfg_ok c -> scaled_cfg c -> (2 <= c_reqb c)%nat -> hash_ok (v_hash E) ->
  In h (g_hyps s) -> 0 < h_p h -> (1 <= share_of (c_reqs c) (g_hyps s) h)%nat ->
  c_births c <> [] -> (forall b p, In (b, p) (c_births c) -> p < 1 / 2) ->
  predict (with_lib si E) c t s = Ok s' ->
  exists i b p h' e, nth_error (c_births c) i = Some (b, p) /\ (forall b' p', In (b', p') (c_births c) -> p' <= p) /\
    In h' (g_hyps s') /\ In i (h_ts h') /\ nth_error (g_tab s') i = Some e /\ e_label e = (v_rnd E t, i).
Proof.
  intros FS ST CV MS E si c t s s' h Hsi Hc Hsc Hb Hk Hh Hp Hs Hne Hhalf H.
  destruct (C123_best_survivors_considered_partial E si c (g_hyps s) h Hsi Hc Hsc Hp (fun _ => Hs)) as [S0 [rs [ES _]]].
  set (lc := map (fun b => - ln (snd b / (1 - snd b))) (c_births c)).
  assert (HV : scaled_vec lc) by (intros x Hx; apply in_map_iff in Hx; destruct Hx as [[b' p'] [<- Hx]]; exact (odds_neg p' (proj1 Hsc b' p' Hx))).
  assert (Ll : length lc = length (c_births c)) by apply map_length.
  assert (HP : forall x, In x lc -> 0 < x).
  { intros x Hx. apply in_map_iff in Hx as [[b' p'] [<- Hx]]. cbn [snd]. apply odds_below. split; [apply (proj1 Hc b' p' Hx)|apply (Hhalf b' p' Hx)]. }
  assert (Hln : lc <> []) by (intro Z; apply Hne; destruct (c_births c); [reflexivity|discriminate]).
  destruct (l_kshort_second si lc (c_reqb c) Hsi HV Hb HP Hln) as [i [rest [cs [Ek [Hi Hmin]]]]].
  assert (EB : In [i] (birth_choices (with_lib si E) c)) by (unfold birth_choices; cbn [v_kshort with_lib]; fold lc; rewrite Ek; right; now left).
  assert (Hil : (i < length (c_births c))%nat) by lia.
  destruct (nth_error (c_births c) i) as [[b p]|] eqn:Eb; [|apply nth_error_None in Eb; lia].
  destruct (predict_has (with_lib si E) c t s s' [i] h S0 Hc (l_kshort_ok si Hsi) Hk H EB Hh) as [h' [H1 H2]]; [rewrite ES; now left|].
  destruct (predict_inv _ _ _ _ _ H) as [btab [lc' [paths [costs [bh [sh [Eb' [_ [_ [_ [Et _]]]]]]]]]]].
  unfold gen_birth_tab in Eb'. apply bind_ok in Eb' as [cs' [_ Eb']]. injection Eb' as <- _.
  exists i, b, p, h', (birth_entry (with_lib si E) c t (g_cnt s) i b). split; [exact Eb|]. split; [|split; [exact H1|split]].
  - intros b' p' Hb'. apply In_nth_error in Hb' as [i' Hi']. assert (Hil' : (i' < length lc)%nat) by (rewrite Ll; apply nth_error_Some; congruence).
    specialize (Hmin i' Hil'). unfold lc in Hmin. rewrite nth_error_nth with (x := - ln (p / (1 - p))) in Hmin by (rewrite nth_error_map, Eb; reflexivity).
    rewrite nth_error_nth with (x := - ln (p' / (1 - p'))) in Hmin by (rewrite nth_error_map, Hi'; reflexivity).
    apply odds_mono; [exact (proj1 Hc b p (nth_error_In _ _ Eb))|exact (proj1 Hc b' p' (nth_error_In _ _ Hi'))|exact Hmin].
  - apply (Permutation_in _ (Permutation_sym H2)). now left.
  - split; [|reflexivity]. rewrite Et, nth_error_app1 by (rewrite map_length, combine_length, seq_length, Nat.min_id; exact Hil).
    rewrite nth_error_map, (nth_error_combine_seq _ _ _ _ Eb). reflexivity.
Qed.
(** * C91: survival probability below 1/2 and a share of two: some track of the
    hypothesis survives in some predicted hypothesis *)
Theorem C91_some_survivor_kept_partial : forall {FS ST CV MS} (E : genv FS ST CV MS) si c t s s' h,
  sorts_down si -> cfg_ok c -> scaled_cfg c -> (1 <= c_reqb c)%nat -> hash_ok (v_hash E) -> c_ps c < 1 / 2 ->
  In h (g_hyps s) -> 0 < h_p h -> (2 <= share_of (c_reqs c) (g_hyps s) h)%nat ->
  h_ts h <> [] -> (forall i, In i (h_ts h) -> (i < length (g_tab s))%nat) ->
  predict (with_lib si E) c t s = Ok s' ->
  exists i e h' i' e', In i (h_ts h) /\ nth_error (g_tab s) i = Some e /\
    In h' (g_hyps s') /\ In i' (h_ts h') /\ nth_error (g_tab s') i' = Some e' /\ e_label e' = e_label e /\ e_assoc e' = e_assoc e.
Proof.
  intros FS ST CV MS E si c t s s' h Hsi Hc Hsc Hb Hk Hhalf Hh Hp Hs Hne Href H.
  destruct (C123_best_births_considered_partial E si c Hsi Hc Hsc Hb) as [B0 [rest [EB _]]].
  assert (Hps : 0 < c_ps c < 1) by apply Hc.
  set (lc := map (fun _ => - ln (c_ps c / (1 - c_ps c))) (h_ts h)).
  assert (HV : scaled_vec lc) by (intros x Hx; apply in_map_iff in Hx; destruct Hx as [j [<- Hx]]; exact (odds_neg _ (proj2 Hsc))).
  assert (Ll : length lc = length (h_ts h)) by apply map_length.
  assert (HP : forall x, In x lc -> 0 < x) by (intros x Hx; apply in_map_iff in Hx as [j [<- _]]; apply odds_below; lra).
  assert (Hln : lc <> []) by (intro Z; apply Hne; destruct (h_ts h); [reflexivity|discriminate]).
  destruct (l_kshort_second si lc (share_of (c_reqs c) (g_hyps s) h) Hsi HV Hs HP Hln) as [n [rs [cs [Ek [Hn _]]]]].
  assert (ES : In [n] (surv_choices (with_lib si E) c (g_hyps s) h)).
  { unfold surv_choices. cbn [v_kshort with_lib]. fold lc. rewrite Ek. destruct (h_ts h); [now elim Hne|right; now left]. }
  rewrite Ll in Hn. set (i := nth n (h_ts h) 0%nat). assert (Hi : In i (h_ts h)) by (apply nth_In, Hn).
  destruct (nth_error (g_tab s) i) as [e|] eqn:He; [|apply nth_error_None in He; specialize (Href i Hi); lia].
  destruct (predict_has (with_lib si E) c t s s' B0 h [n] Hc (l_kshort_ok si Hsi) Hk H) as [h' [H1 H2]]; [rewrite EB; now left|exact Hh|exact ES|].
  destruct (predict_inv _ _ _ _ _ H) as [btab [lc' [paths [costs [bh [sh [Eb [_ [_ [_ [Et _]]]]]]]]]]].
  unfold gen_birth_tab in Eb. apply bind_ok in Eb as [cs' [_ Eb]].
  assert (Lb : length btab = length (c_births c)) by (injection Eb as <- _; rewrite map_length, combine_length, seq_length; apply Nat.min_id).
  exists i, e, h', (i + length (c_births c))%nat, (pred_entry (with_lib si E) c t e). split; [exact Hi|]. split; [exact He|]. split; [exact H1|]. split; [|split; [|split; reflexivity]].
  - apply (Permutation_in _ (Permutation_sym H2)). apply in_app_iff. right. apply in_map_iff. exists i. split; [reflexivity|]. now left.
  - rewrite Et, nth_error_app2 by lia. replace (i + length (c_births c) - length btab)%nat with i by lia. rewrite nth_error_map, He. reflexivity.
Qed.
Lemma odds_1 : odds_ok (1 / 10).
Proof.
  assert (E : ln (1 / 10 / (1 - 1 / 10)) = - ln (9 / 10 / (1 - 9 / 10))).
  { rewrite <- ln_Rinv by lra. f_equal. field. }
  destruct odds_9 as [H|H]; [left; lra|right]. rewrite E, Rabs_Ropp. exact H.
Qed.
(** One birth term and one track, both of probability 1/10, two hypotheses
    requested: all hypotheses of the two theorems hold. *)
Definition b_cfg : gcfg unit unit :=
  {| c_births := [(d_birth, 1 / 10)]; c_ps := 1 / 10; c_pd := 9 / 10; c_crate := 1; c_cden := 1; c_reqb := 2; c_reqs := 2; c_requ := 1;
     c_prune := 0; c_maxh := 10; c_savecov := false; c_savemeas := false |}.
Example C90_C91_below_ex : exists s s' h,
  let E := d_env false in let c := b_cfg in
  sorts_down lib_si /\ cfg_ok c /\ scaled_cfg c /\ (2 <= c_reqb c)%nat /\ hash_ok (v_hash E) /\ c_ps c < 1 / 2 /\
  (forall b p, In (b, p) (c_births c) -> p < 1 / 2) /\ c_births c <> [] /\
  In h (g_hyps s) /\ 0 < h_p h /\ (2 <= share_of (c_reqs c) (g_hyps s) h)%nat /\ h_ts h <> [] /\
  (forall i, In i (h_ts h) -> (i < length (g_tab s))%nat) /\ predict (with_lib lib_si E) c 1 s = Ok s'.
Proof.
  assert (Hsc : scaled_cfg b_cfg) by (split; [intros b p [H|[]]; injection H as _ <-|]; exact odds_1).
  assert (Hc : cfg_ok b_cfg) by (split; [intros b p [Hb|[]]; inversion Hb; lra|]; cbn; lra).
  set (e := birth_entry (with_lib lib_si (d_env false)) b_cfg 0 0 0 d_birth).
  set (h := {| h_p := 1; h_ts := [0%nat] |}).
  set (s := {| g_tab := [e]; g_hyps := [h]; g_card := [0; 1]; g_cnt := 1%nat; g_meas := []; g_ext := []; g_states := []; g_labels := []; g_covs := [] |} : glmb unit unit unit unit).
  assert (Hp : forall h, In h (g_hyps s) -> 0 < h_p h) by (intros h0 [<-|[]]; cbn; lra).
  assert (HP : exists s', predict (with_lib lib_si (d_env false)) b_cfg 1 s = Ok s').
  { change (exists s', exec (with_lib lib_si (d_env false)) b_cfg (OpPredict 1) s = Ok s'). rewrite (lib_exec_eq (d_env false) lib_si lib_si_ok _ _ _ Hsc). cbn [exec].
    apply predict_total; [exact Hc|exact (tot_total lib_si)|exact (tot_ok lib_si lib_si_ok)|reflexivity|exact Hp|]. intros h0 i0 [<-|[]] [<-|[]]. cbn. lia. }
  destruct HP as [s' Hs']. exists s, s', h. split; [exact lib_si_ok|]. split; [exact Hc|]. split; [exact Hsc|]. split; [cbn; lia|]. split; [apply d_hash_ok|]. split; [cbn; lra|].
  split; [intros b p [Hb|[]]; inversion Hb; lra|]. split; [discriminate|]. split; [now left|]. split; [cbn; lra|]. split.
  { assert (Es : share_of (c_reqs b_cfg) (g_hyps s) h = 2%nat); [|rewrite Es; lia]. unfold share_of, s, h, b_cfg. cbn [g_hyps map h_p c_reqs]. rewrite rsum_cons. change (rsum []) with 0. rewrite sqrt_1.
    replace (INR 2 * 1 / (1 + 0)) with (IZR 2) by (cbn [INR]; field). assert (Er : roundR (IZR 2) = 2%Z); [|rewrite Er; reflexivity].
    destruct (roundR_spec (IZR 2)) as [[A B] _]. assert (1 < roundR (IZR 2))%Z by (apply lt_IZR; lra). assert (roundR (IZR 2) < 3)%Z by (apply lt_IZR; lra). lia. }
  split; [discriminate|]. split; [intros i [<-|[]]; cbn; lia|exact Hs'].
Qed.
Print Assumptions C90_likeliest_birth_born_partial.
Print Assumptions C91_some_survivor_kept_partial.
