(** The newest time step of the extracted lists (C186), and extraction before
    cleanup (C187). *)
From Verif Require Import Base Lists.
From Coq Require Import Reals Permutation Lra Lia.
From Verif Require Import OspaModel CphdModel OspaProofs CphdSpec CphdProofs CphdProps GlmbModel GlmbSpec GlmbProofs GlmbInv GlmbExtract GlmbMost GlmbTotal GlmbProps GlmbProps2 GlmbProps4 GlmbDemo GlmbProps3 GlmbMost2.
Open Scope R_scope.

(** ** model *)
(** Property cardinality, tracker.py:2020-2023. *)
Definition gcardinality {FS ST CV MS} (s : glmb FS ST CV MS) : result nat := argmaxR (g_card s).

(** ** specification *)
(** [st] is the state of a heaviest component of the track at the newest time. *)
Definition newest_state {FS ST CV} (e : GlmbModel.entry FS ST CV) (st : ST) : Prop :=
  exists m, is_mode (last (e_w e) []) m /\ nth_error (last (e_st e) []) m = Some st.

(** ** proofs *)
Section P.
Context {FS ST CV MS : Type} (E : genv FS ST CV MS).
Implicit Types (c : gcfg ST CV) (s : glmb FS ST CV MS).
Lemma map_index_card s i : map_index s = Ok i -> g_hyps s <> [] -> (forall h, In h (g_hyps s) -> 0 < h_p h) -> card_matches (g_card s) (g_hyps s) ->
  exists h, nth_error (g_hyps s) i = Some h /\ gcardinality s = Ok (length (h_ts h)).
Proof.
  intros Hi Hne Hp Hc. unfold gcardinality. destruct (argmaxR (g_card s)) as [n|] eqn:Hn; [|unfold map_index in Hi; rewrite Hn in Hi; discriminate].
  destruct (pick (g_hyps s) n Hp s [] i Hn) as [_ [[[h [Hh L]] _]|[C _]]].
  - split; [reflexivity|]. intros j h Hj. exists h. auto.
  - exact Hi.
  - exists h. split; [exact Hh|]. rewrite L. reflexivity.
  - exfalso. destruct (map_index_spec s i Hi Hne Hp Hc) as [h [Hh [M _]]]. pose proof (argmaxR_spec _ _ Hn) as [_ [M2 _]].
    assert (Pm : 0 < mass (fun x => (length (h_ts x) =? length (h_ts h))%nat) (g_hyps s)).
    { unfold mass. apply rsum_allpos; [|intros h' Hh'; apply filter_In in Hh' as [Hh' _]; exact (Hp h' Hh')].
      intros E0. assert (I : In h (filter (fun x => (length (h_ts x) =? length (h_ts h))%nat) (g_hyps s))) by (apply filter_In; split; [exact (nth_error_In _ _ Hh)|apply Nat.eqb_refl]). rewrite E0 in I. destruct I. }
    rewrite <- (Hc (length (h_ts h))) in Pm.
    assert (Pn : 0 < nth n (g_card s) 0). { destruct (Nat.ltb_spec (length (h_ts h)) (length (g_card s))) as [L|L]; [specialize (M2 _ L); lra|rewrite nth_overflow in Pm by exact L; lra]. }
    rewrite (Hc n) in Pn. unfold mass in Pn. destruct (filter (fun x => (length (h_ts x) =? n)%nat) (g_hyps s)) as [|h' l] eqn:Ef; [change (rsum (map h_p [])) with 0 in Pn; lra|].
    assert (I : In h' (filter (fun x => (length (h_ts x) =? n)%nat) (g_hyps s))) by (rewrite Ef; left; reflexivity). apply filter_In in I as [I1 I2]. apply Nat.eqb_eq in I2. apply In_nth_error in I1 as [j Hj].
    apply (C j). exists h'. auto.
Qed.
Lemma last_nth {A} (l : list A) d : last l d = nth (length l - 1) l d.
Proof.
  induction l as [|x l IH]; [reflexivity|]. destruct l as [|y l]; [reflexivity|]. change (last (x :: y :: l) d) with (last (y :: l) d). rewrite IH. cbn [length Nat.sub].
  rewrite Nat.sub_0_r. reflexivity.
Qed.
(** The column of the newest time: only the tracks of the hypothesis. *)
Lemma newest_column n (old news : list (ehist ST CV)) : (forall x, In x old -> (x_time x + length (x_st x) <= n)%nat) ->
  column (old ++ news) n = column news n.
Proof.
  intros H. unfold column. rewrite flat_map_app. replace (flat_map _ old) with (@nil (ST * label * option CV)%type); [reflexivity|]. symmetry.
  induction old as [|x old IH]; [reflexivity|]. cbn [flat_map]. rewrite IH by (intros y Hy; apply H; right; exact Hy). rewrite app_nil_r. unfold contrib.
  destruct (Nat.leb_spec (x_time x) n) as [L|L]; [|reflexivity]. specialize (H x (or_introl eq_refl)).
  assert (N : nth_error (combine (x_st x) (x_cov x)) (n - x_time x) = None) by (apply nth_error_None; rewrite combine_length; lia). rewrite N. reflexivity.
Qed.
Lemma news_column c n es news : Forall2 (fun (e : GlmbModel.entry FS ST CV) x => exists st cv, extract_helper c e = Ok (st, cv) /\ x = hist_of e st cv) es news ->
  (forall e, In e es -> exists m, (1 <= m)%nat /\ hist_len m e /\ (e_time e + m = S n)%nat) ->
  map (fun x => snd (fst x)) (column news n) = map e_label es /\ Forall2 newest_state es (map (fun x => fst (fst x)) (column news n)).
Proof.
  intros F. induction F as [|e x es news [st [cv [Ee ->]]] F IH]; intros H; [split; [reflexivity|constructor]|].
  destruct IH as [A B]; [intros e' He'; apply H; right; exact He'|]. destruct (H e (or_introl eq_refl)) as [m [M1 [[M2 [M3 [M4 M5]]] M6]]].
  destruct (extract_helper_len c e m st cv M2 M3 M4 Ee) as [L1 L2].
  assert (C : exists x9 y9, contrib (e_label e) (e_time e) (combine st cv) n = [(x9, e_label e, y9)] /\ nth_error st (m - 1) = Some x9).
  { unfold contrib. destruct (Nat.leb_spec (e_time e) n) as [L|L]; [|lia]. replace (n - e_time e)%nat with (m - 1)%nat by lia.
    destruct (nth_error (combine st cv) (m - 1)) as [[x9 y9]|] eqn:En; [|apply nth_error_None in En; rewrite combine_length in En; lia].
    exists x9, y9. split; [reflexivity|]. apply combine_nth_error in En as [En _]. exact En. }
  destruct C as [x9 [y9 [C1 C2]]]. unfold column in *. cbn [flat_map hist_of x_label x_time x_st x_cov]. rewrite C1. cbn [app map fst snd]. split; [f_equal; exact A|].
  constructor; [|exact B]. unfold newest_state. rewrite (last_nth (e_w e)), (last_nth (e_st e)), M2, M3.
  unfold extract_helper in Ee. apply bind_ok in Ee as [r [Er Ee]]. injection Ee as <- <-. apply mapM_ok in Er.
  destruct (nth_error (e_w e) (m - 1)) as [w|] eqn:Ew; [|apply nth_error_None in Ew; lia]. destruct (nth_error (e_st e) (m - 1)) as [sl|] eqn:Es; [|apply nth_error_None in Es; lia].
  destruct (nth_error (e_cov e) (m - 1)) as [cl|] eqn:Ec; [|apply nth_error_None in Ec; lia].
  rewrite (nth_error_nth _ _ _ Ew), (nth_error_nth _ _ _ Es).
  assert (Ha : nth_error (combine (combine (e_w e) (e_st e)) (e_cov e)) (m - 1) = Some (w, sl, cl)) by (apply combine_nth_error; split; [apply combine_nth_error; split; assumption|exact Ec]).
  destruct (F2_nth_l _ _ _ _ _ Er Ha) as [[x0 y0] [Hr Hp]]. apply bind_ok in Hp as [k [Em Hp]]. apply bind_ok in Hp as [x1 [E1 Hp]]. apply bind_ok in Hp as [y1 [E2 Hp]]. injection Hp as <- <-.
  exists k. split; [apply argmaxR_spec, Em|]. rewrite nth_error_map, Hr in C2. cbn [option_map fst] in C2. injection C2 as <-. apply geti_ok in E1. exact E1.
Qed.
End P.

(** * C186 *)
Theorem C186_glmb_newest_step : forall {FS ST CV MS} (E : genv FS ST CV MS) c os t t' meas pr ca s,
  kshort_ok (v_kshort E) -> murty_ok (v_murty E) -> rsorts (v_argsort E) -> births_ok c -> protocol 0 os = Some 0%nat ->
  pr = true \/ (forall z f x, In z meas -> v_corr E t' z f x <> None) ->
  run E c (os ++ [OpPredict t; OpCorrect t' meas; OpCleanup pr ca true]) glmb_new = Ok s -> g_hyps s <> [] ->
  exists h, is_map (g_hyps s) h /\ gcardinality s = Ok (length (h_ts h)) /\
    last (g_labels s) [] = map e_label (tracks (g_tab s) h) /\ length (tracks (g_tab s) h) = length (h_ts h) /\
    Forall2 newest_state (tracks (g_tab s) h) (last (g_states s) []).
Proof.
  intros FS ST CV MS E c os t t' meas pr ca s Hk Hm Hs Hb Hp Hf H Hne.
  pose proof H as H'. rewrite run_app in H. apply bind_ok in H as [s0 [R0 H]]. cbn [run exec] in H. apply bind_ok in H as [s1 [P1 H]]. apply bind_ok in H as [s2 [P2 H]]. apply bind_ok in H as [s3 [P3 H]]. assert (s3 = s) by congruence. subst s3. clear H.
  destruct (cinv_run E c os 0 0 _ _ Hk Hm Hb R0 Hp (cinv_new c)) as [_ [_ HX]].
  destruct (predict_inv _ _ _ _ _ P1) as [_ [_ [_ [_ [_ [_ [_ [_ [_ [_ [_ [_ [_ [N1 X1]]]]]]]]]]]]]].
  destruct (correct_inv _ _ _ _ _ _ P2) as [_ [_ [_ [_ [_ [N2 X2]]]]]].
  destruct (cleanup_inv _ _ _ _ _ _ _ P3) as [T3 [N3 [_ [Eh [Ec [[? _]|[_ [o Hx]]]]]]]]; [discriminate|].
  destruct (cleaned_inv E c pr ca s2) as [T4 [N4 [X4 _]]]. set (s4 := cleaned E c pr ca s2) in *.
  assert (Hne4 : g_hyps s4 <> []) by (rewrite <- Eh; exact Hne).
  assert (Hpos2 : forall h, In h (g_hyps s2) -> 0 < h_p h).
  { destruct (C46_correct_mass E c t' meas s1 s2 P2) as [kept [dropped [F [Q _]]]]. intros h Hh. apply In_nth_error in Hh as [j Hj].
    destruct (F2_nth_r _ _ _ _ _ F Hj) as [h0 [Hj0 [-> _]]]. apply Q. apply in_or_app. left. exact (nth_error_In _ _ Hj0). }
  assert (Hpos : forall h, In h (g_hyps s4) -> 0 < h_p h) by (apply cleaned_pos; assumption).
  assert (Hc : pr = true \/ card_matches (g_card s2) (g_hyps s2)).
  { destruct Hf as [Hf|Hf]; [left; exact Hf|right]. apply (correct_dist E c t' meas s1 s2 Hm Hf P2). intros E0. apply Hne4.
    unfold s4, cleaned. cbn zeta. set (s5 := if pr then prune c (bump s2) else bump s2).
    assert (E5 : g_hyps s5 = []) by (unfold s5; destruct pr; [cbn [prune with_hyps g_hyps bump]; rewrite E0; reflexivity|exact E0]).
    destruct ca; [|exact E5]. unfold cap. rewrite E5. cbn [length]. destruct (c_maxh c <? 0)%nat eqn:El; [apply Nat.ltb_lt in El; lia|exact E5]. }
  assert (Hcm : card_matches (g_card s4) (g_hyps s4)).
  { unfold s4, cleaned in *. cbn zeta in *. set (s5 := if pr then prune c (bump s2) else bump s2) in *.
    assert (H2 : g_hyps s5 <> [] -> card_matches (g_card s5) (g_hyps s5)).
    { unfold s5. destruct pr; [intros H2; apply calc_card_matches, H2|]. destruct Hc as [?|Hc]; [discriminate|]. intros _. exact Hc. }
    destruct ca; [|auto]. unfold cap in *. destruct (_ <? _)%nat; [|auto]. cbn [with_hyps g_hyps g_card] in *. apply calc_card_matches, Hne4. }
  destruct (extract_inv _ _ _ _ _ _ Hx) as [[E0 _]|[idx [xs [oo [_ [Eo [Hmi [Hu [Ex [Hpa [Q1 [Q2 _]]]]]]]]]]]]; [congruence|]. subst xs.
  destruct (map_index_card s4 idx Hmi Hne4 Hpos Hcm) as [h [Hh Hcard]].
  destruct (update_hist_inv _ _ _ _ Hu) as [h' [es [news [l [Eh' [F1 [F2 [_ [_ [_ Hex]]]]]]]]]]. assert (h' = h) by congruence. subst h'.
  destruct (map_index_spec s4 idx Hmi Hne4 Hpos Hcm) as [h' [Hh' [M1 M2]]]. assert (h' = h) by congruence. subst h'.
  exists h. rewrite Eh. split; [split; [exact (nth_error_In _ _ Hh)|split; assumption]|]. split; [unfold gcardinality in *; rewrite Ec; exact Hcard|].
  rewrite T3, <- T4, (tracks_view _ _ _ F1). clear Eh' Hh'.
  assert (Hlen : forall e, In e es -> exists m, (1 <= m)%nat /\ hist_len m e /\ (e_time e + m = S (g_cnt s0))%nat).
  { intros e He. apply In_nth_error in He as [j Hj]. destruct (F2_nth_r _ _ _ _ _ F1 Hj) as [i [_ Hi]]. rewrite T4, <- T3 in Hi.
    destruct (C61_glmb_history_length E c (os ++ [OpPredict t; OpCorrect t' meas; OpCleanup pr ca true]) s 0 Hk Hm) with (e := e) as [m [A1 [A2 A3]]].
    - clear -Hp. revert Hp. generalize 0%nat at 1 3. induction os as [|o os IH]; intros p Hp; [cbn in Hp; injection Hp as ->; reflexivity|]. destruct o, p as [|[|[|p]]]; cbn [protocol app] in *; try discriminate; apply IH, Hp.
    - discriminate.
    - exact H'.
    - exact (nth_error_In _ _ Hi).
    - exists m. split; [exact A1|]. split; [exact A2|]. cbn in A3. rewrite N3, N2, N1 in A3. lia. }
  destruct (put_all_out _ _ _ Hpa) as [V1 [V2 _]]. rewrite Q1, Q2, V1, V2, N4, N2, N1.
  assert (Ls : forall {A} (f : nat -> list A), last (map f (seq 0 (S (g_cnt s0)))) [] = f (g_cnt s0)).
  { intros A f. rewrite seq_S, map_app. cbn [map]. rewrite last_last. reflexivity. }
  rewrite !Ls, Hex, X4, X2, X1, newest_column.
  - destruct (news_column c (g_cnt s0) es news F2 Hlen) as [A B]. split; [exact A|]. split; [|exact B]. clear -F1. induction F1; cbn [length]; congruence.
  - intros x Hi. apply filter_In in Hi as [Hi _]. destruct (HX x Hi) as [_ [_ L]]. exact L.
Qed.
Print Assumptions C186_glmb_newest_step.
(** Hypotheses of C186: the demo filter, one cycle. *)
Lemma demo_cycle : exists s2 s, run (d_env false) (d_cfg (1 / 10)) [OpPredict 0; OpCorrect 0 [tt]] glmb_new = Ok s2 /\ g_hyps s2 = one [0%nat] /\
  run (d_env false) (d_cfg (1 / 10)) [OpPredict 0; OpCorrect 0 [tt]; OpCleanup false false true] glmb_new = Ok s /\ g_hyps s = one [0%nat].
Proof.
  set (E := d_env false). set (c := d_cfg (1 / 10)).
  assert (R1 : run E c [OpPredict 0] glmb_new = Ok wS1) by (apply w_predict; lra).
  destruct (w_cor wS1 (b_ent 0 0) [] 0 eq_refl eq_refl ltac:(cbn; lia)) as [s2 [e2 [C2 [H2 _]]]]. fold E c in C2.
  assert (R2 : run E c [OpPredict 0; OpCorrect 0 [tt]] glmb_new = Ok s2).
  { change [OpPredict 0; OpCorrect 0 [tt]] with ([OpPredict 0] ++ [OpCorrect (MS := unit) 0 [tt]]). rewrite run_app, R1. cbn [bind run exec]. rewrite C2. reflexivity. }
  assert (R3 : run E c [OpPredict 0; OpCorrect 0 [tt]; OpCleanup false false false] glmb_new = Ok (bump s2)).
  { change [OpPredict 0; OpCorrect 0 [tt]; OpCleanup false false false] with ([OpPredict 0; OpCorrect 0 [tt]] ++ [OpCleanup (MS := unit) false false false]). rewrite run_app, R2. reflexivity. }
  assert (HE3 : Extractable c (bump s2)).
  { apply (reach_extractable E c _ (bump s2) d_kshort_ok d_murty_ok (d_births _) R3 eq_refl); [exists 0; left; reflexivity|]. cbn [bump g_hyps]. rewrite H2. discriminate. }
  destruct (extract_ok c true true (bump s2) HE3) as [i3 [s3 X3]]. destruct (extract_tab _ _ _ _ _ _ X3) as [_ [H3 _]].
  exists s2, s3. split; [exact R2|]. split; [exact H2|]. split; [|rewrite H3; exact H2].
  change [OpPredict 0; OpCorrect 0 [tt]; OpCleanup false false true] with ([OpPredict 0; OpCorrect 0 [tt]] ++ [OpCleanup (MS := unit) false false true]). rewrite run_app, R2. cbn [bind run exec].
  unfold cleanup. cbn zeta. rewrite X3. reflexivity.
Qed.
Example C186_hypotheses : exists (E : genv unit unit unit unit) c s, kshort_ok (v_kshort E) /\ murty_ok (v_murty E) /\ rsorts (v_argsort E) /\ births_ok c /\
  (forall z f x, In z [tt] -> v_corr E 0 z f x <> None) /\ run E c ([] ++ [OpPredict 0; OpCorrect 0 [tt]; OpCleanup false false true]) glmb_new = Ok s /\ g_hyps s <> [].
Proof.
  destruct demo_cycle as [_ [s [_ [_ [R H]]]]]. exists (d_env false), (d_cfg (1 / 10)), s. split; [exact d_kshort_ok|]. split; [exact d_murty_ok|]. split; [exact C44_ex|]. split; [apply d_births|].
  split; [intros; discriminate|]. split; [exact R|]. rewrite H. discriminate.
Qed.

(** * C187 *)
(** Refuted: extraction right after correct raises whenever the hypothesis it
    picks has a track. *)
Theorem C187_extract_before_cleanup_refuted : forall {FS ST CV MS} (E : genv FS ST CV MS) c os s i h,
  kshort_ok (v_kshort E) -> murty_ok (v_murty E) -> run E c os glmb_new = Ok s -> protocol 0 os = Some 2%nat ->
  map_index s = Ok i -> nth_error (g_hyps s) i = Some h -> h_ts h <> [] ->
  exists e, extract_states c true true s = Err e.
Proof.
  intros FS ST CV MS E c os s i h Hk Hm H Hp Hi Hh Hn. destruct (extract_states c true true s) as [[o s']|e] eqn:Hx; [exfalso|exists e; reflexivity].
  destruct (pinv_run E c os 0 2 _ _ Hk Hm H Hp) as [HL _]; [split; [intros x []|apply hinv_new]|].
  destruct (extract_inv _ _ _ _ _ _ Hx) as [[E0 _]|[idx [xs [oo [_ [Eo [Hmi [Hu [Ex [Hpa _]]]]]]]]]]; [rewrite E0 in Hh; destruct i; discriminate|].
  assert (idx = i) by congruence. subst idx xs.
  destruct (update_hist_inv _ _ _ _ Hu) as [h' [es [news [l [Eh [F1 [F2 [_ [_ [_ Hex]]]]]]]]]]. assert (h' = h) by congruence. subst h'.
  destruct (h_ts h) as [|j ts]; [congruence|]. inversion F1 as [|? e ? es' Hj F1']; subst. inversion F2 as [|? x ? news' [st [cv [Ee ->]]] F2']; subst.
  destruct (HL e (nth_error_In _ _ Hj)) as [n [A1 [A2 [A3 [A4 [_ A6]]]]]]. cbn in A6. destruct (extract_helper_len c e n st cv A2 A3 A4 Ee) as [L1 L2].
  rewrite outs_new in Hpa. pose proof (put_all_range _ _ _ Hpa (hist_of e st cv) ltac:(rewrite Hex; apply in_or_app; right; left; reflexivity)) as Hr.
  rewrite repeat_length in Hr. unfold in_range in Hr. cbn [hist_of x_st x_cov x_time] in Hr. rewrite combine_length, L1, L2, Nat.min_id in Hr.
  destruct Hr as [Hr|Hr]; [|lia]. apply (f_equal (@length _)) in Hr. rewrite combine_length, L1, L2, Nat.min_id in Hr. cbn [length] in Hr. lia.
Qed.
Print Assumptions C187_extract_before_cleanup_refuted.
(** A reachable case. *)
Example C187_witness : exists (E : genv unit unit unit unit) c s h e,
  kshort_ok (v_kshort E) /\ murty_ok (v_murty E) /\ births_ok c /\ run E c [OpPredict 0; OpCorrect 0 [tt]] glmb_new = Ok s /\ map_index s = Ok 0%nat /\
  nth_error (g_hyps s) 0 = Some h /\ h_ts h = [0%nat] /\ extract_states c true true s = Err e.
Proof.
  destruct demo_cycle as [s [_ [R [H _]]]]. exists (d_env false), (d_cfg (1 / 10)), s, {| h_p := 1; h_ts := [0%nat] |}.
  destruct (map_index_ok s) as [i Hi].
  - apply (card_run (d_env false) (d_cfg (1 / 10)) [OpPredict 0; OpCorrect 0 [tt]] glmb_new s R). left. exists 0. left. reflexivity.
  - rewrite H. discriminate.
  - destruct (map_index_lt _ _ Hi) as [h Hh]. rewrite H in Hh. assert (i = 0%nat) by (destruct i as [|[|i]]; [reflexivity|discriminate|discriminate]). subst i.
    destruct (C187_extract_before_cleanup_refuted (d_env false) (d_cfg (1 / 10)) _ s 0 {| h_p := 1; h_ts := [0%nat] |} d_kshort_ok d_murty_ok R eq_refl Hi) as [e He]; [rewrite H; reflexivity|discriminate|].
    exists e. split; [exact d_kshort_ok|]. split; [exact d_murty_ok|]. split; [apply d_births|]. split; [exact R|]. split; [exact Hi|]. split; [rewrite H; reflexivity|]. split; [reflexivity|exact He].
Qed.
