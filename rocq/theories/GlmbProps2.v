(** Properties C55-C58 of the GLMB filter (extraction) and C88 (the cycle never raises). *)
From Verif Require Import Base Lists.
From Coq Require Import Reals Permutation Sorted Lra.
From Verif Require Import OspaModel CphdModel OspaProofs CphdSpec CphdProofs GlmbModel GlmbSpec GlmbProofs GlmbInv GlmbExtract GlmbMost GlmbTotal.
Open Scope R_scope.

Lemma extract_aligned {FS ST CV MS} c u k (s : glmb FS ST CV MS) o s' : extract_states c u k s = Ok (o, s') -> NoDup (map x_label (g_ext s')) ->
  length (g_states s') = g_cnt s /\ length (g_labels s') = g_cnt s /\ length (g_covs s') = g_cnt s /\
  forall tt, length (nth tt (g_states s') []) = length (nth tt (g_labels s') []) /\
             length (nth tt (g_covs s') []) = length (nth tt (g_labels s') []) /\ NoDup (nth tt (g_labels s') []).
Proof.
  intros Hx Hlab.
  assert (Hemp : forall A m tt, nth tt (repeat (@nil A) m) [] = []) by (intros; apply nth_repeat_nil).
  destruct (extract_inv _ _ _ _ _ _ Hx) as [[_ [_ [_ [E1 [E2 E3]]]]]|[idx [xs [oo [_ [_ [_ [_ [Ex [Hp [E1 [E2 E3]]]]]]]]]]]].
  - rewrite E1, E2, E3, !repeat_length. repeat (split; [reflexivity|]). intros tt. rewrite !Hemp. repeat split; constructor.
  - destruct k.
    + destruct (put_all_out _ _ _ Hp) as [P1 [P2 P3]]. rewrite E1, E2, E3, P1, P2, P3, !map_length, seq_length. repeat (split; [reflexivity|]).
      intros tt. destruct (Nat.lt_ge_cases tt (g_cnt s)) as [Ht|Ht].
      * rewrite !(nth_map_seq _ _ _ _ Ht), !map_length. repeat (split; [reflexivity|]). destruct (column_labels xs tt) as [f ->]. subst xs. apply filter_map_nodup, Hlab.
      * rewrite !nth_overflow by (rewrite map_length, seq_length; exact Ht). repeat split; constructor.
    + subst oo. cbn [o_st o_lb o_cv] in *. unfold slot_read, slots_new in *. cbn [fst snd] in *.
      assert (HR : forall A m, map (fun o : option (list A) => match o with Some l => l | None => [] end) (repeat None m) = repeat [] m).
      { intros A m. induction m as [|m IH]; [reflexivity|]. cbn [repeat map]. rewrite IH. reflexivity. }
      rewrite !HR in *. rewrite E1, E2, E3, !repeat_length. repeat (split; [reflexivity|]). intros tt. rewrite !Hemp. repeat split; constructor.
Qed.
(** * C55: after any history with different (rounded) predict times an extraction
    yields one list per completed time step for states, labels and covariances;
    at every step the three have equal length and no label occurs twice. *)
Theorem C55_glmb_outputs_aligned : forall {FS ST CV MS} (E : genv FS ST CV MS) c os s u k o s',
  kshort_ok (v_kshort E) -> murty_ok (v_murty E) -> NoDup (map (v_rnd E) (predict_times os)) ->
  run E c os glmb_new = Ok s -> extract_states c u k s = Ok (o, s') ->
  let n := length (filter (fun o => match o with OpCleanup _ _ _ => true | _ => false end) os) in
  length (g_states s') = n /\ length (g_labels s') = n /\ length (g_covs s') = n /\
  forall tt, length (nth tt (g_states s') []) = length (nth tt (g_labels s') []) /\
             length (nth tt (g_covs s') []) = length (nth tt (g_labels s') []) /\ NoDup (nth tt (g_labels s') []).
Proof.
  intros FS ST CV MS E c os s u k o s' Hk Hm Hd H Hx n.
  assert (Hn : g_cnt s = n) by (rewrite (cnt_run E c os _ _ H); reflexivity).
  assert (HL0 : LInv (FS:=FS) (ST:=ST) (CV:=CV) (MS:=MS) [] glmb_new) by (split; [intros e []|apply hinv_new]).
  assert (Hlab : NoDup (map x_label (g_ext s'))).
  { destruct (linv_run E c os _ _ [] Hk Hm H Hd (fun z f => match f with end) HL0) as [used [_ HI]].
    eapply ext_labels_extract; [exact Hx|exact HI|].
    apply (ext_labels_run E c os _ _ [] Hk Hm H Hd (fun z f => match f with end) HL0). constructor. }
  rewrite <- Hn. exact (extract_aligned c u k s o s' Hx Hlab).
Qed.
Print Assumptions C55_glmb_outputs_aligned.
(** The entries of time step tt are exactly those of the extracted histories. *)
Theorem C55_glmb_outputs_exact : forall {FS ST CV MS} c (s : glmb FS ST CV MS) u i s', extract_states c u true s = Ok (Some i, s') ->
  forall tt st lab cv, (tt < g_cnt s)%nat ->
  (exists j, nth_error (nth tt (g_states s') []) j = Some st /\ nth_error (nth tt (g_labels s') []) j = Some lab /\ nth_error (nth tt (g_covs s') []) j = Some cv) <->
  (exists x a, In x (g_ext s') /\ x_label x = lab /\ (x_time x + a = tt)%nat /\ nth_error (x_st x) a = Some st /\ nth_error (x_cov x) a = Some cv).
Proof.
  intros FS ST CV MS c s u i s' H tt st lab cv Ht.
  destruct (extract_inv _ _ _ _ _ _ H) as [[_ [E0 _]]|[idx [xs [oo [_ [_ [_ [_ [Ex [Hp [E1 [E2 E3]]]]]]]]]]]]; [discriminate|]. subst xs.
  destruct (put_all_out _ _ _ Hp) as [P1 [P2 P3]]. rewrite E1, E2, E3, P1, P2, P3, !(nth_map_seq _ _ _ _ Ht). clear -ST CV.
  assert (HI : (exists j, nth_error (map (fun x => fst (fst x)) (column (g_ext s') tt)) j = Some st /\ nth_error (map (fun x => snd (fst x)) (column (g_ext s') tt)) j = Some lab /\
                 nth_error (map snd (column (g_ext s') tt)) j = Some cv) <-> In (st, lab, cv) (column (g_ext s') tt)).
  { split.
    - intros [j [H1 [H2 H3]]]. rewrite nth_error_map in H1, H2, H3. destruct (nth_error (column (g_ext s') tt) j) as [[[a b] d]|] eqn:Ej; [|discriminate].
      cbn in *. inversion H1; inversion H2; inversion H3; subst. exact (nth_error_In _ _ Ej).
    - intros Hi. apply In_nth_error in Hi as [j Hj]. exists j. rewrite !nth_error_map, Hj. auto. }
  rewrite HI. unfold column. rewrite in_flat_map. unfold contrib. split.
  - intros [x [Hx Hc]]. destruct (x_time x <=? tt)%nat eqn:El; [|destruct Hc]. apply Nat.leb_le in El.
    destruct (nth_error (combine (x_st x) (x_cov x)) (tt - x_time x)) as [[a b]|] eqn:En; [|destruct Hc]. destruct Hc as [Hc|[]]. inversion Hc; subst.
    apply combine_nth_error in En as [N1 N2]. exists x, (tt - x_time x)%nat. repeat split; auto. lia.
  - intros [x [a [Hx [<- [Ha [N1 N2]]]]]]. exists x. split; [exact Hx|]. destruct (Nat.leb_spec (x_time x) tt) as [_|Hl]; [|lia].
    replace (tt - x_time x)%nat with a by lia. rewrite (proj2 (combine_nth_error _ _ _ _ _) (conj N1 N2)). left. reflexivity.
Qed.
Print Assumptions C55_glmb_outputs_exact.
(** Between cycles, once predict was called, extraction always succeeds. *)
Theorem C55_glmb_extract_total : forall {FS ST CV MS} (E : genv FS ST CV MS) c os s u k,
  kshort_ok (v_kshort E) -> murty_ok (v_murty E) -> births_ok c -> run E c os glmb_new = Ok s ->
  protocol 0 os = Some 0%nat -> (exists t, In (OpPredict t) os) -> exists o s', extract_states c u k s = Ok (o, s').
Proof.
  intros FS ST CV MS E c os s u k Hk Hm Hb H Hp Ht. destruct (g_hyps s) as [|h hs] eqn:Eh.
  - destruct (extract_none c u k s) as [s' Es]; [eapply card_run; eauto|exact Eh|]. eauto.
  - destruct (extract_ok c u k s) as [i [s' Es]]; [|eauto]. eapply reach_extractable; eauto. congruence.
Qed.
Print Assumptions C55_glmb_extract_total.
(** Before the first predict it raises (argmax of an empty list). *)
Theorem C55_glmb_extract_fresh_raises : forall {FS ST CV MS} c u k, extract_states c u k (@glmb_new FS ST CV MS) = Err ValueErr.
Proof. reflexivity. Qed.
Print Assumptions C55_glmb_extract_fresh_raises.

(** * C56 (the part that holds): which earlier tracks survive an extraction.  The
    code compares measurement indices without their time. *)
Theorem C56_glmb_keeps_exactly_partial : forall {FS ST CV MS} (E : genv FS ST CV MS) c os s k i s',
  kshort_ok (v_kshort E) -> murty_ok (v_murty E) -> births_ok c -> run E c os glmb_new = Ok s -> protocol 0 os = Some 0%nat ->
  extract_states c true k s = Ok (Some i, s') ->
  exists h, nth_error (g_hyps s) i = Some h /\
    forall x, In x (g_ext s) -> ~ In (x_label x) (map e_label (tracks (g_tab s) h)) ->
      (In x (g_ext s') <-> forall m e, In (Some m) (x_meas x) -> In e (tracks (g_tab s) h) -> ~ In (Some m) (e_assoc e)).
Proof.
  intros FS ST CV MS E c os s k i s' Hk Hm Hb H Hp Hx.
  destruct (cinv_run E c os 0 0 _ _ Hk Hm Hb H Hp (cinv_new c)) as [_ [_ HX]].
  destruct (extract_inv _ _ _ _ _ _ Hx) as [[_ [E0 _]]|[idx [xs [oo [_ [Ei [_ [Hu [Ex _]]]]]]]]]; [discriminate|]. inversion Ei; subst idx. subst xs.
  destruct (update_hist_inv _ _ _ _ Hu) as [h [es [news [l [Eh [F1 [F2 [_ [Hl [Hkeep Hex]]]]]]]]]]. exists h. split; [exact Eh|].
  rewrite (tracks_view _ _ _ F1). intros x Hi Hlab. rewrite Hex, in_app_iff.
  assert (HK := keep_hists_exact _ _ _ _ _ Hkeep (fun x Hx => xlen_fits _ _ (HX x Hx)) x). rewrite HK. split.
  - intros [[_ [_ Hm1]]|Hn].
    + intros m e Hm2 He Hme. apply (Hm1 m Hm2). apply Hl. exists e. split; [exact He|exact Hme].
    + exfalso. apply Hlab. rewrite <- (news_labels _ _ _ F2). apply in_map, Hn.
  - intros Hm1. left. split; [exact Hi|]. split; [exact Hlab|]. intros m Hm2 Hin. apply Hl in Hin as [e [He Hme]]. exact (Hm1 m e Hm2 He Hme).
Qed.
Print Assumptions C56_glmb_keeps_exactly_partial.

(** * C57: extraction uses the MAP hypothesis of the MAP cardinality. *)
Definition is_map (hs : list hyp) (h : hyp) : Prop :=
  In h hs /\
  (forall n, mass (fun x => (length (h_ts x) =? n)%nat) hs <= mass (fun x => (length (h_ts x) =? length (h_ts h))%nat) hs) /\
  (forall h', In h' hs -> length (h_ts h') = length (h_ts h) -> h_p h' <= h_p h).
Theorem C57_glmb_extracts_map : forall {FS ST CV MS} c k (s : glmb FS ST CV MS) i s',
  (forall h, In h (g_hyps s) -> 0 < h_p h) -> card_matches (g_card s) (g_hyps s) -> extract_states c true k s = Ok (Some i, s') ->
  exists h, nth_error (g_hyps s) i = Some h /\ is_map (g_hyps s) h /\
    forall e, In e (tracks (g_tab s) h) -> exists x, In x (g_ext s') /\ x_label x = e_label e /\ x_time x = e_time e /\ x_meas x = e_assoc e.
Proof.
  intros FS ST CV MS c k s i s' Hp Hc Hx.
  destruct (extract_inv _ _ _ _ _ _ Hx) as [[_ [E0 _]]|[idx [xs [oo [Hne [Ei [Hmi [Hu [Ex _]]]]]]]]]; [discriminate|]. inversion Ei; subst idx. subst xs.
  destruct (map_index_spec s i Hmi Hne Hp Hc) as [h [Hh [H1 H2]]]. exists h. split; [exact Hh|]. split; [split; [exact (nth_error_In _ _ Hh)|split; assumption]|].
  destruct (update_hist_inv _ _ _ _ Hu) as [h' [es [news [l [Eh [F1 [F2 [_ [_ [_ Hex]]]]]]]]]]. assert (h' = h) by congruence. subst h'.
  rewrite (tracks_view _ _ _ F1). intros e He. apply In_nth_error in He as [j Hj]. destruct (F2_nth_l _ _ _ _ _ F2 Hj) as [x [Hxj [st [cv [_ ->]]]]].
  exists (hist_of e st cv). split; [rewrite Hex; apply in_or_app; right; exact (nth_error_In _ _ Hxj)|]. repeat split.
Qed.
Print Assumptions C57_glmb_extracts_map.
(** In particular in every cleanup that prunes and extracts, and in every
    cleanup after a correction in which the inner filter did not fail. *)
Theorem C57_cleanup_extracts_map : forall {FS ST CV MS} (E : genv FS ST CV MS) c pr ca s s' hs0,
  rsorts (v_argsort E) -> (forall h, In h (g_hyps s) -> 0 < h_p h) -> (pr = true \/ card_matches (g_card s) (g_hyps s)) ->
  cleanup E c pr ca true s = Ok s' -> g_hyps s' = hs0 -> hs0 <> [] ->
  exists h, is_map hs0 h /\ forall e, In e (tracks (g_tab s') h) -> exists x, In x (g_ext s') /\ x_label x = e_label e /\ x_time x = e_time e /\ x_meas x = e_assoc e.
Proof.
  intros FS ST CV MS E c pr ca s s' hs0 Hs Hp Hc H <- Hne. destruct (cleanup_inv _ _ _ _ _ _ _ H) as [_ [_ [_ [Eh [Ec [[? _]|[_ [o Hx]]]]]]]]; [discriminate|].
  destruct (extract_tab _ _ _ _ _ _ Hx) as [T1 [T2 [T3 T4]]]. set (s1 := cleaned E c pr ca s) in *.
  assert (Hne1 : g_hyps s1 <> []) by (rewrite <- Eh; exact Hne).
  assert (Hpos : forall h, In h (g_hyps s1) -> 0 < h_p h) by (apply cleaned_pos; assumption).
  assert (Hcm : card_matches (g_card s1) (g_hyps s1)).
  { unfold s1, cleaned in *. cbn zeta in *. set (s2 := if pr then prune c (bump s) else bump s) in *.
    assert (H2 : g_hyps s2 <> [] -> card_matches (g_card s2) (g_hyps s2)).
    { unfold s2. destruct pr; [intros H2; apply calc_card_matches, H2|]. destruct Hc as [?|Hc]; [discriminate|]. intros _. exact Hc. }
    destruct ca; [|auto]. unfold cap in *. destruct (_ <? _)%nat; [|auto]. cbn [with_hyps g_hyps g_card] in *. apply calc_card_matches, Hne1. }
  destruct o as [i|]; [|destruct (extract_inv _ _ _ _ _ _ Hx) as [[E0 _]|[idx [xs [oo [_ [E0 _]]]]]]; [congruence|discriminate]].
  destruct (C57_glmb_extracts_map c true s1 i s' Hpos Hcm Hx) as [h [_ [Hm Hall]]]. exists h. rewrite T2, T1. split; assumption.
Qed.
Print Assumptions C57_cleanup_extracts_map.

Lemma most_prob_ends {FS ST CV MS} c (s : glmb FS ST CV MS) th : Extractable c s -> 0 < th ->
  exists first rest is, NoDup is /\
    Forall2 (fun i o => exists h, nth_error (g_hyps s) i = Some h /\ h_p h = snd o) is (first :: rest) /\
    (forall o, In o rest -> th <= snd o) /\
    forall fuel, (length (g_hyps s) <= fuel)%nat -> most_prob fuel c th s = Ok (first :: rest).
Proof.
  intros HE Hth.
  destruct (map_index_ok s) as [i Hi]; [apply HE|apply HE|]. destruct (map_index_lt _ _ Hi) as [h Hh].
  destruct (extract_step c s i HE Hi) as [s1 [X1 [Xh [Xc [HE1 HE2]]]]].
  assert (Hcnt : forall hs, (count_ge th hs <= length hs)%nat) by (intros hs; apply filter_len_le).
  assert (Lz : forall k hs, length (set_prob0 k hs) = length hs) by (intros k hs; rewrite <- (map_length h_ts (set_prob0 k hs)), set_prob0_ts, map_length; reflexivity).
  set (s2 := zero_hyp i s1) in *.
  destruct (most_loop_ok c th Hth (length (g_hyps s)) s2 HE2) as [r [is [Er [Hn [HF HL]]]]].
  { eapply Nat.le_trans; [apply Hcnt|]. unfold s2. cbn [zero_hyp g_hyps]. rewrite Lz, Xh. lia. }
  assert (Hj : forall j h', nth_error (g_hyps s2) j = Some h' -> th <= h_p h' -> j <> i /\ nth_error (g_hyps s) j = Some h').
  { intros j h' Hj Hle. unfold s2 in Hj. cbn [zero_hyp g_hyps] in Hj. rewrite set_prob0_nth, Xh in Hj. destruct (Nat.eqb_spec j i) as [->|Hji]; [|auto].
    rewrite Hh in Hj. cbn in Hj. inversion Hj; subst h'. cbn in Hle. lra. }
  exists (g_states s1, g_labels s1, g_covs s1, h_p h), r, (i :: is).
  assert (Hin : forall j, In j is -> exists h' (q : R), nth_error (g_hyps s2) j = Some h' /\ h_p h' = q /\ th <= q).
  { intros j Hj1. apply In_nth_error in Hj1 as [k Hk1]. destruct (F2_nth_l _ _ _ _ _ HF Hk1) as [o [Ho [h' [A B]]]]. exists h', (snd o). repeat split; auto. apply HL. exact (nth_error_In _ _ Ho). }
  split; [|split; [|split]].
  - constructor; [|exact Hn]. intros Hi1. destruct (Hin i Hi1) as [h' [o [A [B C]]]]. destruct (Hj i h' A ltac:(lra)) as [? _]. congruence.
  - constructor; [exists h; auto|]. eapply F2_impl; [|exact HF]. intros j o Hj1 [h' [A B]]. exists h'. split; [|exact B].
    destruct (Hin j Hj1) as [h2 [o2 [A2 [B2 C2]]]]. assert (h2 = h') by congruence. subst h2. apply (Hj j h' A). lra.
  - exact HL.
  - intros fuel Hf. unfold most_prob. rewrite X1. cbn [bind]. unfold geti. rewrite Xh, Hh. cbn [bind]. fold s2.
    assert (Hmono : forall f1 f2 (s0 : glmb FS ST CV MS) r0, (f1 <= f2)%nat -> most_loop f1 c th s0 = Ok r0 -> most_loop f2 c th s0 = Ok r0).
    { clear. induction f1 as [|f1 IH]; intros f2 s0 r0 Hle H0; destruct f2 as [|f2]; [exact H0| |lia|]; cbn [most_loop] in *;
        apply bind_ok in H0 as [[oi s1] [A H0]]; rewrite A; cbn [bind]; destruct oi as [i|]; [|exact H0| |exact H0];
        apply bind_ok in H0 as [h [B H0]]; rewrite B; cbn [bind]; destruct (Rle_dec th (h_p h)); try discriminate; try exact H0.
      apply bind_ok in H0 as [r1 [D H0]]. rewrite (IH f2 _ _ ltac:(lia) D). exact H0. }
    rewrite (Hmono _ fuel _ _ Hf Er). reflexivity.
Qed.
(** * C58 (the part that holds): for a positive threshold extract_most_prob_states
    terminates; it returns hypotheses of the filter, each at most once, all but
    the first with probability at least the threshold. *)
Theorem C58_most_prob_terminates_partial : forall {FS ST CV MS} (E : genv FS ST CV MS) c os s th,
  kshort_ok (v_kshort E) -> murty_ok (v_murty E) -> births_ok c -> run E c os glmb_new = Ok s ->
  protocol 0 os = Some 0%nat -> (exists t, In (OpPredict t) os) -> g_hyps s <> [] -> 0 < th ->
  exists first rest is, NoDup is /\
    Forall2 (fun i o => exists h, nth_error (g_hyps s) i = Some h /\ h_p h = snd o) is (first :: rest) /\
    (forall o, In o rest -> th <= snd o) /\
    forall fuel, (length (g_hyps s) <= fuel)%nat -> most_prob fuel c th s = Ok (first :: rest).
Proof.
  intros FS ST CV MS E c os s th Hk Hm Hb H Hp Ht Hne Hth. apply most_prob_ends; [eapply reach_extractable; eauto|exact Hth].
Qed.
Print Assumptions C58_most_prob_terminates_partial.
Lemma most_prob_diverges {FS ST CV MS} c (s : glmb FS ST CV MS) th fuel : Extractable c s -> (forall h, In h (g_hyps s) -> 0 <= h_p h) -> th <= 0 -> most_prob fuel c th s = Err OutOfFuel.
Proof.
  intros HE Hpos Hth.
  destruct (map_index_ok s) as [i Hi]; [apply HE|apply HE|]. destruct (map_index_lt _ _ Hi) as [h Hh].
  destruct (most_prob_step c th fuel s i h HE Hi Hh) as [s1 [o [A [B [C [D G]]]]]]. rewrite G.
  rewrite (most_loop_diverges c th Hth fuel s1 C); [reflexivity|]. rewrite A. apply set_prob0_nonneg, Hpos.
Qed.
(** For a threshold of 0 (or less) it never terminates: whatever the number of
    iterations allowed, they are used up. *)
Theorem C58_most_prob_terminates_refuted : forall {FS ST CV MS} (E : genv FS ST CV MS) c os s th fuel,
  kshort_ok (v_kshort E) -> murty_ok (v_murty E) -> births_ok c -> run E c os glmb_new = Ok s ->
  protocol 0 os = Some 0%nat -> (exists t, In (OpPredict t) os) -> g_hyps s <> [] -> (forall h, In h (g_hyps s) -> 0 <= h_p h) ->
  th <= 0 -> most_prob fuel c th s = Err OutOfFuel.
Proof.
  intros FS ST CV MS E c os s th fuel Hk Hm Hb H Hp Ht Hne Hpos Hth. apply most_prob_diverges; [eapply reach_extractable; eauto|exact Hpos|exact Hth].
Qed.
Print Assumptions C58_most_prob_terminates_refuted.

(** * C88: with probabilities strictly between 0 and 1, positive clutter and
    well-formed birth terms the predict / correct / cleanup cycle never raises,
    whatever the times, measurements and flags - provided log_sum_exp([]) does not
    raise. *)
Theorem C88_glmb_cycle_total : forall {FS ST CV MS} (E : genv FS ST CV MS) c xs,
  cfg_ok c -> births_ok c -> kshort_total (v_kshort E) -> murty_total (v_murty E) -> kshort_ok (v_kshort E) -> murty_ok (v_murty E) ->
  v_lse0 E = Ok tt -> rsorts (v_argsort E) -> exists s', run E c (flat_map cycle xs) glmb_new = Ok s'.
Proof. intros. apply cycles_total; assumption. Qed.
Print Assumptions C88_glmb_cycle_total.
