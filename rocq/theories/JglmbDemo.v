(** The joint GLMB filter: failures of the inner filter (C62), and concrete cases
    that meet the hypotheses of C62, C63, C98-C100 and C104-C106. *)
From Verif Require Import Base Lists.
From Coq Require Import Reals Permutation Lra.
From Verif Require Import OspaModel CphdModel OspaProofs CphdSpec CphdProofs CphdProps GlmbModel GlmbSpec GlmbProofs GlmbInv GlmbTotal GlmbProps GlmbDemo GlmbBayes GlmbProps4.
From Verif Require Import GibbsModel JglmbModel JglmbSpec JglmbProofs JglmbInv GibbsReal JglmbGibbs JglmbProps JglmbTotal JglmbBayes JglmbProps2.
Open Scope R_scope.

(** * C62: whatever the inner filter does, what correct keeps and what it drops add
    up to 1; it drops the hypotheses that use a failed update. *)
Theorem C62_jglmb_mass : forall {FS ST CV MS} (E : genv FS ST CV MS) G gt c t meas s s',
  jcorrect E G gt c t meas s = Ok s' ->
  exists kept dropped, Forall2 (fun h h' => h_p h' = h_p h /\ length (h_ts h') = length (h_ts h)) kept (g_hyps (y_g s')) /\
    (forall h, In h (kept ++ dropped) -> 0 < h_p h) /\ (kept ++ dropped <> [] -> rsum (map h_p (g_hyps (y_g s'))) + rsum (map h_p dropped) = 1) /\
    (forall h, In h dropped -> exists i, In i (h_ts h) /\ nth i (fst (gen_cor_tab E c t meas (g_tab (y_g s)))) None = None).
Proof.
  intros FS ST CV MS E G gt c t meas s s' H. destruct (jcorrect_inv _ _ _ _ _ _ _ _ H) as [hs0 X]. cbn zeta in X. destruct X as [_ [_ [Eg [_ [Eh _]]]]]. rewrite Eh.
  set (tab := fst (gen_cor_tab E c t meas (g_tab (y_g s)))) in *. set (hs := clean_predictions E hs0) in *. set (nnz := nnz_inds tab hs).
  set (ok := fun h => match reindex nnz h with [] => false | _ => true end).
  assert (HR : forall h, reindex nnz h = [] \/ exists h', reindex nnz h = [h'] /\ h_p h' = h_p h /\ length (h_ts h') = length (h_ts h)).
  { intros h. unfold reindex. destruct (all_some _) as [ts|] eqn:Ea; [right|left; reflexivity]. eexists; split; [reflexivity|]. split; [reflexivity|].
    apply all_some_ok in Ea. apply (f_equal (@length _)) in Ea. rewrite !map_length in Ea. cbn. auto. }
  assert (HF : Forall2 (fun h h' => h_p h' = h_p h /\ length (h_ts h') = length (h_ts h)) (filter ok hs) (flat_map (reindex nnz) hs)).
  { clear Eg Eh. generalize hs as l. intros l. clearbody nnz. induction l as [|h l IH]; [constructor|]. cbn [filter flat_map]. unfold ok at 1.
    destruct (HR h) as [->|[h' [-> Hh']]]; [exact IH|]. cbn [app]. constructor; [exact Hh'|exact IH]. }
  exists (filter ok hs), (filter (fun h => negb (ok h)) hs). split; [exact HF|].
  assert (HD : hs <> [] -> prob_dist hs). { intros Hne. unfold hs in *. apply clean_pred_dist. apply (jcor_hyps_dist _ _ _ _ _ _ _ _ _ _ Eg). intros ->. apply Hne. reflexivity. }
  split; [|split].
  - intros h Hh. assert (Hi : In h hs) by (apply in_app_or in Hh as [Hh|Hh]; apply filter_In in Hh as [Hh _]; exact Hh).
    apply HD; [intros E0; rewrite E0 in Hi; destruct Hi|exact Hi].
  - intros Hne. destruct (F2_dist _ _ HF) as [M1 _]. rewrite M1, <- rsum_app, <- map_app.
    assert (Hh : hs <> []) by (intros E0; apply Hne; rewrite E0; reflexivity). destruct (HD Hh) as [_ Hs]. rewrite <- Hs. apply rsum_perm, Permutation_map.
    exact (filter_partition_perm ok hs).
  - intros h Hh. apply filter_In in Hh as [Hh Hf]. unfold ok, reindex in Hf. destruct (all_some _) as [ts|] eqn:Ea; [discriminate|].
    apply all_some_none, in_map_iff in Ea as [i [Hi1 Hi2]]. exists i. split; [exact Hi2|]. apply index_of_none in Hi1.
    destruct (nth i tab None) as [e|] eqn:En; [|reflexivity]. exfalso. apply Hi1. apply nnz_in. split; [|eauto].
    exists e. destruct (nth_error tab i) as [o|] eqn:Eo; [rewrite (nth_error_nth _ _ _ Eo) in En; congruence|].
    apply nth_error_None in Eo. rewrite nth_overflow in En by exact Eo. discriminate.
Qed.
Print Assumptions C62_jglmb_mass.

(** A concrete failure: one birth term, one measurement, the inner filter raises.
    The sampler visits "missed" and "measurement"; the second is dropped and the
    probabilities add up to 1/2. *)
Definition j_cfg : gcfg unit unit :=
  {| c_births := [(d_birth, 1 - feps)]; c_ps := 9 / 10; c_pd := 1; c_crate := 1; c_cden := 1; c_reqb := 1; c_reqs := 1; c_requ := 1;
     c_prune := 0; c_maxh := 10; c_savecov := false; c_savemeas := false |}.
Definition j_rnd : nat -> nat -> nat -> R := fun _ _ _ => 3 / 4.
Lemma j_uniform : uniform j_rnd.
Proof. intros a b d. unfold j_rnd. lra. Qed.
Lemma j_gibbs C x : (forall j, (j < 3)%nat -> C 0%nat j = x) -> rgibbs C 1 3 (fun _ _ => 3 / 4) 2 = Ok ([[1%nat]; [2%nat]], [x; x]).
Proof.
  intros HC. assert (Hex : exp (- x) > 0) by apply exp_pos.
  assert (Hd : rdraw C 3 [1%nat] 0 (3 / 4) = Ok 2%nat).
  { unfold rdraw. assert (Ho : rold_ind C 3 [1%nat] 0 = [0; 1; 2]%nat).
    { unfold rold_ind. cbn [seq filter]. unfold rweight. cbn [others firstn skipn app existsb]. rewrite !HC by lia. destruct (Rlt_dec 0 (exp (- x))); [reflexivity|lra]. }
    rewrite Ho. assert (Hw : map (rweight C [1%nat] 0) [0; 1; 2]%nat = [exp (- x); exp (- x); exp (- x)]).
    { cbn [map]. unfold rweight. cbn [others firstn skipn app existsb]. rewrite !HC by lia. reflexivity. }
    rewrite Hw. set (w := exp (- x)) in *. 
    assert (Hb : rdigitize (3 / 4) (rhist [w; w; w]) = 3%nat).
    { unfold rdigitize, rhist. cbn [rcumsum map]. rewrite !rsum_cons. change (rsum []) with 0.
      replace ((0 + w) / (w + (w + (w + 0)))) with (1 / 3) by (field; lra). replace ((0 + w + w) / (w + (w + (w + 0)))) with (2 / 3) by (field; lra).
      replace ((0 + w + w + w) / (w + (w + (w + 0)))) with 1 by (field; lra). cbn [filter].
      destruct (Rle_dec 0 (3 / 4)); [|lra]. destruct (Rle_dec (1 / 3) (3 / 4)); [|lra]. destruct (Rle_dec (2 / 3) (3 / 4)); [|lra]. destruct (Rle_dec 1 (3 / 4)); [lra|]. reflexivity. }
    rewrite Hb. reflexivity. }
  assert (Hc : forall j, (j < 3)%nat -> rrow_cost C 1 3 [j] = Ok x).
  { intros j Hj. unfold rrow_cost. cbn [forallb]. destruct (Nat.ltb_spec j 3); [|lia]. cbn [andb seq combine map fst snd]. rewrite rsum_cons, HC by exact Hj. change (rsum []) with 0. f_equal. ring. }
  unfold rgibbs. cbn [seq]. rewrite (Hc 1%nat) by lia. cbn [bind riterate seq rsweep]. rewrite Hd. cbn [bind GibbsModel.set_nth firstn skipn app]. 
  change (GibbsModel.set_nth [1%nat] 0 2) with [2%nat]. rewrite (Hc 2%nat) by lia. cbn [bind]. reflexivity.
Qed.
Theorem C62_jglmb_distribution_refuted : exists (E : genv unit unit unit unit) c rnd os (s : jst unit unit unit unit),
  uniform rnd /\ hash_ok (v_hash E) /\ protocol 0 os = Some 2%nat /\ jrun E (sampler_of rnd) false c os jst_new = Ok s /\
  rsum (map h_p (g_hyps (y_g s))) = 1 / 2.
Proof.
  assert (Hfe : 0 < feps < 1 / 2). { unfold feps. split; [apply Rinv_0_lt_compat, pow_lt; lra|]. rewrite <- Rinv_div. replace (2 / 1) with (2 ^ 1) by field. apply Rinv_lt_contravar; [apply Rmult_lt_0_compat; apply pow_lt; lra|]. apply Rlt_pow; [lra|lia]. }
  pose (E := d_env true). pose (e := birth_entry E j_cfg 0 0 0 d_birth). pose (s1 := with_g jst_new (set_tab glmb_new [e]) : jst unit unit unit unit).
  assert (H1 : jpredict E j_cfg 0 jst_new = Ok s1).
  { unfold jpredict. cbn [j_cfg c_births mapM snd]. destruct (Req_EM_T (1 - feps) 1); [lra|]. reflexivity. }
  assert (H2 : exists lw, jcor_hyp (sampler_of j_rnd) j_cfg 1 1 1 (snd (gen_cor_tab E j_cfg 0 [tt] [e])) 1 0 {| h_p := 1; h_ts := [] |} =
     Ok [{| h_p := lw; h_ts := [0%nat] |}; {| h_p := lw; h_ts := [1%nat] |}]).
  { unfold jcor_hyp. cbn [tindices j_cfg c_births length seq h_ts map app forallb negb andb Nat.ltb Nat.leb Nat.eqb Nat.mul Nat.add c_requ h_p].
    rewrite k_of_1. unfold sampler_of. unfold j_rnd at 1.
    rewrite (j_gibbs _ (- ln feps)).
    - cbn [bind j_cfg c_crate c_cden]. rewrite !lnp_ok by lra. cbn [bind combine map fst snd length]. exists (- 1 + INR 1 * ln (1 * 1) + ln 1 - - ln feps). reflexivity.
    - intros j Hj. f_equal. f_equal. assert (Hv : forall v, v <= 0 \/ v = feps -> (if Rle_dec v 0 then feps else v) = feps) by (intros v Hv; destruct (Rle_dec v 0); [reflexivity|destruct Hv; [lra|assumption]]).
      apply Hv. destruct j as [|[|[|j]]]; [| | |lia]; cbn.
      + right. lra.
      + left. lra.
      + left. unfold Rdiv. rewrite Rmult_0_r. lra. }
  destruct H2 as [lw H2].
  assert (H3 : jcor_hyps E (sampler_of j_rnd) j_cfg 1 1 1 (snd (gen_cor_tab E j_cfg 0 [tt] [e])) 0 [{| h_p := 1; h_ts := [] |}] =
     Ok [{| h_p := 1 / 2; h_ts := [0%nat] |}; {| h_p := 1 / 2; h_ts := [1%nat] |}]).
  { unfold jcor_hyps. cbv zeta. rewrite ssum1. cbn [length seq combine mapM fst snd]. rewrite H2. cbn [bind concat app]. unfold normalise_log. cbn [map h_p h_ts].
    unfold lse. cbn [map]. rewrite !rsum_cons. change (rsum []) with 0. assert (Hx : exp (lw - ln (exp lw + (exp lw + 0))) = 1 / 2); [|rewrite Hx; reflexivity].
    pose proof (exp_pos lw). unfold Rminus. rewrite exp_plus, exp_Ropp, exp_ln by lra. field. lra. }
  assert (H4 : exists s2, jcorrect E (sampler_of j_rnd) false j_cfg 0 [tt] s1 = Ok s2 /\ g_hyps (y_g s2) = [{| h_p := 1 / 2; h_ts := [0%nat] |}]).
  { unfold jcorrect. cbv zeta. change (g_tab (y_g s1)) with [e]. change (length [e]) with 1%nat. change (g_hyps (y_g s1)) with [{| h_p := 1; h_ts := [] |}]. change (y_calls s1) with 0%nat.
    change (length (c_births j_cfg) + y_old s1)%nat with 1%nat. cbn [Nat.eqb orb negb andb]. change (length [tt]) with 1%nat.
    destruct (gen_cor_tab E j_cfg 0 [tt] [e]) as [tab ac] eqn:Et. cbn [snd] in H3. rewrite H3. cbn [bind].
    assert (Htab : tab = [Some (add_assoc None e); None]) by (apply (f_equal fst) in Et; cbn in Et; congruence). rewrite Htab.
    assert (Hcl : clean_predictions E [{| h_p := 1 / 2; h_ts := [0%nat] |}; {| h_p := 1 / 2; h_ts := [1%nat] |}] = [{| h_p := 1 / 2; h_ts := [0%nat] |}; {| h_p := 1 / 2; h_ts := [1%nat] |}]) by reflexivity.
    rewrite Hcl. eexists. split; [reflexivity|]. reflexivity. }
  destruct H4 as [s2 [H4 H5]]. exists E, j_cfg, j_rnd, [OpPredict 0; OpCorrect 0 [tt]], s2.
  split; [exact j_uniform|]. split; [apply d_hash_ok|]. split; [reflexivity|]. split; [cbn [jrun jexec]; rewrite H1; cbn [bind]; rewrite H4; reflexivity|].
  rewrite H5. cbn [map h_p]. rewrite rsum_cons. change (rsum []) with 0. lra.
Qed.
Print Assumptions C62_jglmb_distribution_refuted.

(** * The hypotheses of C62 (partial), C63, C98 and C99 hold together *)
Example jglmb_hypotheses_ex : exists s s',
  let E := d_env false in let c := d_cfg (9 / 10) in
  let os := flat_map cycle [(0, [tt], (true, true, true))] ++ [OpPredict 1] in
  uniform j_rnd /\ rsorts (v_argsort E) /\ hash_ok (v_hash E) /\ never_fails E (os ++ [OpCorrect 1 [tt; tt]]) /\ 0 < c_crate c * c_cden c /\
  protocol 0 os = Some 1%nat /\ protocol 0 (os ++ [OpCorrect 1 [tt; tt]]) = Some 2%nat /\ NoDup (map (v_rnd E) (predict_times (os ++ [OpCorrect 1 [tt; tt]]))) /\
  jrun E (sampler_of j_rnd) false c os jst_new = Ok s /\ jexec E (sampler_of j_rnd) false c (OpCorrect 1 [tt; tt]) s = Ok s' /\
  g_hyps (y_g s) <> [] /\ jrun E (sampler_of j_rnd) false c (os ++ [OpCorrect 1 [tt; tt]]) jst_new = Ok s'.
Proof.
  pose (E := d_env false). pose (c := d_cfg (9 / 10)). pose (G := sampler_of j_rnd).
  destruct (C100_jglmb_cycle_total E j_rnd c (flat_map (fun x => [x]) [(0, [tt], (true, true, true)); (1, [tt; tt], (true, true, true))])) as [s3 [H _]];
    [apply d_cfg_ok; lra|apply d_births|exact j_uniform|reflexivity|exact C44_ex|].
  change (flat_map cycle (flat_map (fun x => [x]) [(0, [tt], (true, true, true)); (1, [tt; tt], (true, true, true))])) with
    (((flat_map cycle [(0, [tt], (true, true, true))] ++ [OpPredict 1]) ++ [OpCorrect 1 [tt; tt]]) ++ [OpCleanup true true true]) in H.
  set (os := flat_map cycle [(0, [tt], (true, true, true))] ++ [OpPredict 1]) in *. rewrite jrun_app in H. apply bind_ok in H as [s' [H' _]]. pose proof H' as H. rewrite jrun_app in H. apply bind_ok in H as [s [Hs H]].
  cbn [jrun] in H. apply bind_ok in H as [s2 [Hc H]]. injection H as ->. exists s, s'. cbv zeta. fold E c os.
  split; [exact j_uniform|]. split; [exact C44_ex|]. split; [apply d_hash_ok|]. split; [apply d_never_fails|]. split; [cbn; lra|]. split; [reflexivity|]. split; [reflexivity|].
  split. { cbn. assert (A : Int_part 0 = 0%Z). { exact (Int_part_INR 0). } assert (B : Int_part 1 = 1%Z). { exact (Int_part_INR 1). }
    rewrite A, B. constructor; [intros [X|[]]; discriminate|constructor; [intros []|constructor]]. }
  split; [exact Hs|]. split; [exact Hc|]. split; [|exact H'].
  (* some hypothesis is left after the first cycle *)
  unfold os in Hs. cbn [flat_map cycle app] in Hs. cbn [jrun jexec] in Hs. apply bind_ok in Hs as [a1 [P1 Hs]]. apply bind_ok in Hs as [a2 [C1 Hs]]. apply bind_ok in Hs as [a3 [L1 Hs]]. apply bind_ok in Hs as [a4 [P2 Hs]]. injection Hs as <-.
  destruct (jpredict_inv _ _ _ _ _ P2) as [_ [-> _]]. apply bind_ok in L1 as [g [L1 X]]. injection X as <-. cbn [with_g y_g].
  destruct (cleanup_inv _ _ _ _ _ _ _ L1) as [_ [_ [_ [-> _]]]].
  pose proof (jcorrect_pos E G _ _ _ _ _ _ C1) as Hpos. 
  assert (Hne : g_hyps (y_g a2) <> []).
  { destruct (jpredict_inv _ _ _ _ _ P1) as [_ [Hh1 _]].
    destruct (C105_jglmb_missed_successor E j_rnd false c [OpPredict 0] 0 [tt] a1 a2 {| h_p := 1; h_ts := [] |} j_uniform (d_hash_ok _)) as [h' [Hh' _]].
    - cbn. lra.
    - intros t m _ z f x _. discriminate.
    - reflexivity.
    - cbn [jrun jexec]. rewrite P1. reflexivity.
    - exact C1.
    - rewrite Hh1. left. reflexivity.
    - intros E0. rewrite E0 in Hh'. destruct Hh'. }
  unfold cleaned. cbv zeta.
  assert (Hpr : g_hyps (prune c (bump (y_g a2))) <> []).
  { cbn [prune with_hyps g_hyps bump]. destruct (g_hyps (y_g a2)) as [|h0 hs0] eqn:Eh; [congruence|]. unfold rescale. cbn [filter c c_prune d_cfg]. specialize (Hpos h0 (or_introl eq_refl)).
    destruct (Rlt_dec 0 (h_p h0)); [discriminate|lra]. }
  unfold cap. destruct (_ <? _)%nat eqn:El; [|exact Hpr]. cbn [with_hyps g_hyps]. unfold rescale. intros X. apply map_eq_nil in X. apply map_eq_nil in X.
  apply (f_equal (@length _)) in X. rewrite firstn_length, rev_length in X. destruct (C44_ex (map h_p (g_hyps (prune c (bump (y_g a2)))))) as [Pm _].
  assert (Ln : length (v_argsort E (map h_p (g_hyps (prune c (bump (y_g a2)))))) = length (g_hyps (prune c (bump (y_g a2))))).
  { change (v_argsort E) with sort_ref. rewrite (Permutation_length Pm), seq_length, map_length. reflexivity. }
  change (v_argsort (d_env false)) with (v_argsort E) in X. rewrite Ln in X. cbn [c d_cfg c_maxh] in X. destruct (g_hyps (prune c (bump (y_g a2)))); [congruence|]. cbn in X. lia.
Qed.
(** own_columns and positive factors (C104_weight_exact): two tracks, one missed, one detected. *)
Example C104_exact_ex : forall (e : GlmbModel.entry unit unit unit), e_w e = [[1]] -> e_fs e = [tt] -> e_st e = [[tt]] ->
  let E := d_env false in let c := d_cfg (9 / 10) in let es := [e; e] in let row := [2; 4]%nat in
  own_columns (length es) row /\ forall r e v, nth_error es r = Some e -> nth_error row r = Some v -> 0 < exact_factor E c 0 [tt] (length es) r e v.
Proof.
  intros e Hw Hfs Hst E c es row. split.
  - intros r v H. destruct r as [|[|[|r]]]; cbn in H; try discriminate; injection H as <-; cbn; lia.
  - intros r e1 v H H0. destruct r as [|[|[|r]]]; cbn in H, H0; try discriminate; injection H as <-; injection H0 as <-; unfold exact_factor; cbn [es row length Nat.ltb Nat.leb Nat.mul Nat.add nth_error Nat.sub].
    + unfold jsurv. cbn. lra.
    + assert (HL : 0 < track_lik E 0 tt e).
      { unfold track_lik. rewrite Hw, Hfs, Hst. cbn [last combine map fst snd E d_env v_corr]. rewrite rsum_cons. change (rsum []) with 0. pose proof feps_pos. lra. }
      unfold jsurv. cbn [c d_cfg c_births map snd nth c_ps c_pd c_crate c_cden]. apply Rmult_lt_0_compat; [lra|]. apply Rdiv_lt_0_compat; [apply Rmult_lt_0_compat; [lra|exact HL]|lra].
Qed.
