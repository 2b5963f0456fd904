(** C60: is a saved GLMB state a snapshot? *)
From Verif Require Import Base Lists.
From Coq Require Import Reals Permutation Lra.
From Verif Require Import OspaModel CphdModel OspaProofs CphdSpec CphdProofs CphdProps GlmbModel GlmbSpec GlmbProofs GlmbInv GlmbTotal GlmbDemo SnapModel SnapProofs.
Open Scope R_scope.

(** The heap of hypothesis objects is only a refinement: every sequence of
    operations does to the filter exactly what GlmbModel says. *)
Theorem C60_heap_refines_glmb : forall {FS ST CV MS} (E : genv FS ST CV MS) c os, rsorts (v_argsort E) ->
  match hrun E c os hst_new with
  | Ok x => run E c os glmb_new = Ok (habs x) /\ habs x = contents (save x) x
  | Err e => run E c os glmb_new = Err e
  end.
Proof.
  intros FS ST CV MS E c os Hs. pose proof (hrun_frame E Hs c os hst_new wf_new) as H. destruct (hrun E c os hst_new) as [x|e]; [|exact H].
  split; [apply H|]. unfold habs, contents, save, set_hyps. destruct (k_rest x); reflexivity.
Qed.
Print Assumptions C60_heap_refines_glmb.

(** After the save the filter is first moved on by predict or by correct with
    measurements; before that it is only looked at. *)
Fixpoint moves_on {MS} (os : list (gop MS)) : bool :=
  match os with
  | [] => true
  | OpExtract _ _ :: os' => moves_on os'
  | OpCleanup false false _ :: os' => moves_on os'
  | OpPredict _ :: _ => true
  | OpCorrect _ (_ :: _) :: _ => true
  | _ => false
  end.
Lemma moves_on_hyps {FS ST CV MS} (E : genv FS ST CV MS) c : rsorts (v_argsort E) -> forall os x x', WF x -> moves_on os = true -> hrun E c os x = Ok x' ->
  forall l, (l < length (k_heap x))%nat -> nth l (k_heap x') no_hyp = nth l (k_heap x) no_hyp.
Proof.
  intros Hs. assert (Hgo : forall x x1 x' os, WF x -> Frame x x1 -> (forall l, In l (k_locs x1) -> (length (k_heap x) <= l)%nat) ->
    (forall l, (l < length (k_heap x))%nat -> nth l (k_heap x1) no_hyp = nth l (k_heap x) no_hyp) -> hrun E c os x1 = Ok x' ->
    forall l, (l < length (k_heap x))%nat -> nth l (k_heap x') no_hyp = nth l (k_heap x) no_hyp).
  { intros x x1 x' os W F Hnew Hold R l Hl. pose proof (hrun_frame E Hs c os x1 (proj1 F)) as G. rewrite R in G. destruct G as [[_ [_ [G _]]] _].
    rewrite G; [apply Hold, Hl|destruct F as [_ [F _]]; lia|]. intros Hin. specialize (Hnew l Hin). lia. }
  induction os as [|o os IH]; intros x x' W M R l Hl; [injection R as <-; reflexivity|]. cbn [hrun] in R.
  destruct (hexec E c o x) as [x1|e] eqn:X; [|discriminate]. cbn [bind] in R.
  destruct o as [t|t meas|pr ca ex|u k]; cbn [hexec] in X.
  - destruct (predict E c t (habs x)) as [s|e]; [|discriminate]. injection X as <-. destruct (fresh_frame x s W) as [A [B [C D]]]. eapply Hgo; eassumption.
  - destruct meas as [|z meas]; [discriminate|]. pose proof (hcorrect_frame E c t (z :: meas) x W) as H. rewrite X in H.
    destruct H as [A [_ H]]. destruct (H ltac:(discriminate)) as [C D]. eapply Hgo; eassumption.
  - destruct pr; [discriminate|]. destruct ca; [discriminate|]. pose proof (hcleanup_frame E Hs c false false ex x W) as H. rewrite X in H.
    destruct H as [A [_ H]]. destruct (H eq_refl eq_refl) as [C D]. rewrite (IH x1 x' (proj1 A) M R l) by (rewrite C; exact Hl). rewrite C. reflexivity.
  - pose proof (hextract_frame c u k x W) as H. rewrite X in H. destruct H as [A [C _]]. rewrite (IH x1 x' (proj1 A) M R l) by (rewrite C; exact Hl). rewrite C. reflexivity.
Qed.
Lemma extract_meas {FS ST CV MS} c u k (s : glmb FS ST CV MS) o s' : extract_states c u k s = Ok (o, s') -> g_meas s' = g_meas s.
Proof.
  unfold extract_states. destruct (argmaxR (g_card s)); [|discriminate]. cbn [bind]. destruct (g_hyps s) as [|h0 hs0] eqn:Hh; [intros H; injection H as _ <-; reflexivity|].
  destruct (map_index s) as [idx|]; [|discriminate]. cbn [bind]. destruct (if u then update_hist c s idx else Ok (g_ext s)); [|discriminate]. cbn [bind].
  match goal with |- context [if k then ?a else ?b] => destruct (if k then a else b) as [oo|]; [|discriminate] end. cbn [bind]. intros H. injection H as _ <-. reflexivity.
Qed.
Lemma exec_meas {FS ST CV MS} (E : genv FS ST CV MS) c o s s' : c_savemeas c = false -> exec E c o s = Ok s' -> g_meas s' = g_meas s.
Proof.
  intros Hc. destruct o as [t|t meas|pr ca ex|u k]; cbn [exec].
  - unfold predict. destruct (gen_birth_tab E c t (g_cnt s)) as [[bt lc]|]; [|discriminate]. cbn [bind]. destruct (v_kshort E lc (c_reqb c)) as [[ps cs]|]; [|discriminate]. cbn [bind].
    destruct (gen_birth_hyps E c ps cs); [|discriminate]. cbn [bind]. destruct (gen_surv_hyps _ _ _ _); [|discriminate]. cbn [bind]. intros H. injection H as <-. reflexivity.
  - unfold correct. destruct (gen_cor_tab E c t meas (g_tab s)) as [tab ac]. destruct (gen_cor_hyps _ _ _ _ _ _) as [hs|]; [|discriminate]. cbn [bind].
    destruct (clean_updates tab hs). rewrite Hc. intros H. injection H as <-. reflexivity.
  - unfold cleanup. cbv zeta.
    assert (Hm : forall s, @g_meas FS ST CV MS (if ca then cap E c s else s) = g_meas s) by (intros s0; destruct ca; [unfold cap; destruct (_ <? _)%nat|]; reflexivity).
    assert (Hm2 : @g_meas FS ST CV MS (if pr then prune c (bump s) else bump s) = g_meas s) by (destruct pr; reflexivity).
    destruct ex; [|intros H; injection H as <-; rewrite Hm, Hm2; reflexivity].
    destruct (extract_states c true true _) as [[o s4]|] eqn:X2; [|discriminate]. cbn [bind]. intros H. injection H as <-. rewrite (extract_meas _ _ _ _ _ _ X2), Hm, Hm2. reflexivity.
  - destruct (extract_states c u k s) as [[o s4]|] eqn:X2; [|discriminate]. cbn [bind]. intros H. injection H as <-. exact (extract_meas _ _ _ _ _ _ X2).
Qed.
Lemma hrun_meas {FS ST CV MS} (E : genv FS ST CV MS) c os : rsorts (v_argsort E) -> c_savemeas c = false -> forall x x', WF x -> hrun E c os x = Ok x' -> g_meas (k_rest x') = g_meas (k_rest x).
Proof.
  intros Hs Hc. induction os as [|o os IH]; intros x x' W R; [injection R as <-; reflexivity|]. cbn [hrun] in R.
  destruct (hexec E c o x) as [x1|e] eqn:X; [|discriminate]. cbn [bind] in R. pose proof (hexec_frame E Hs c o x W) as H. rewrite X in H. destruct H as [F H].
  rewrite (IH x1 x' (proj1 F) R). exact (exec_meas E c o (habs x) (habs x1) Hc H).
Qed.
(** C60, the part that holds: a state saved at any point of any run keeps all its
    hypotheses and other values whatever is done to the filter later, provided
    the next call that changes the filter is predict or correct with at least
    one measurement; the measurement table keeps its contents only when
    measurements are not saved. *)
Theorem C60_saved_state_partial : forall {FS ST CV MS} (E : genv FS ST CV MS) c os1 os2 x x', rsorts (v_argsort E) ->
  hrun E c os1 hst_new = Ok x -> hrun E c os2 x = Ok x' -> moves_on os2 = true ->
  g_hyps (contents (save x) x') = g_hyps (habs x) /\ g_tab (contents (save x) x') = g_tab (habs x) /\
  (c_savemeas c = false -> contents (save x) x' = habs x).
Proof.
  intros FS ST CV MS E c os1 os2 x x' Hs R1 R2 M.
  pose proof (hrun_frame E Hs c os1 hst_new wf_new) as H. rewrite R1 in H. destruct H as [[W _] _].
  assert (Hd : deref (k_heap x') (k_locs x) = deref (k_heap x) (k_locs x)).
  { apply map_ext_in. intros l Hl. apply (moves_on_hyps E c Hs os2 x x' W M R2). apply W, Hl. }
  split; [exact Hd|]. split; [reflexivity|]. intros Hc. unfold contents, save, habs, set_hyps. cbn [z_locs z_rest]. rewrite Hd, (hrun_meas E c os2 Hs Hc x x' W R2). reflexivity.
Qed.
Print Assumptions C60_saved_state_partial.
(** C60 is false for cleanup: whenever pruning drops part of the hypotheses of a
    filter whose state was saved, the saved probabilities change and add up to
    more than 1 (1 plus the dropped mass). *)
Theorem C60_prune_refuted : forall {FS ST CV MS} (E : genv FS ST CV MS) c os (x : hst FS ST CV MS) x' ex, rsorts (v_argsort E) ->
  hrun E c os hst_new = Ok x -> prob_dist (g_hyps (habs x)) ->
  (exists h, In h (g_hyps (habs x)) /\ h_p h <= c_prune c) -> (exists h, In h (g_hyps (habs x)) /\ c_prune c < h_p h) ->
  hexec E c (OpCleanup true false ex) x = Ok x' ->
  rsum (map h_p (g_hyps (contents (save x) x'))) = 1 + mass (fun h => if Rle_dec (h_p h) (c_prune c) then true else false) (g_hyps (habs x)) /\
  1 < rsum (map h_p (g_hyps (contents (save x) x'))) /\ contents (save x) x' <> habs x.
Proof.
  intros FS ST CV MS E c os x x' ex Hs R1 Hd [hl [Hl1 Hl2]] [hk [Hk1 Hk2]] X.
  pose proof (hrun_frame E Hs c os hst_new wf_new) as H. rewrite R1 in H. destruct H as [[[W1 W2] _] _]. clear R1.
  assert (Eh : k_heap x' = k_heap (hprune c x)).
  { cbn [hexec] in X. unfold hcleanup in X. cbv zeta in X. destruct ex; [|injection X as <-; reflexivity]. unfold hextract in X.
    destruct (extract_states c true true (habs (hprune c (hset x (bump (k_rest x)))))) as [[o s]|]; [|discriminate]. injection X as <-. reflexivity. }
  set (big := fun l => if Rlt_dec (c_prune c) (h_p (nth l (k_heap x) no_hyp)) then true else false).
  set (keep := filter big (k_locs x)). set (tot := rsum (map h_p (deref (k_heap x) keep))).
  set (p0 := fun l => h_p (nth l (k_heap x) no_hyp)).
  assert (Hp : forall l, In l (k_locs x) -> h_p (nth l (k_heap x') no_hyp) = if big l then p0 l / tot else p0 l).
  { intros l Hl. rewrite Eh. cbn [hprune hkeep k_heap]. fold big. fold keep.
    assert (Hkl : forall j, In j keep -> (j < length (k_heap x))%nat) by (intros j Hj; apply filter_In in Hj; apply W2, Hj).
    destruct (big l) eqn:B.
    - assert (Hin : In l keep) by (apply filter_In; auto).
      assert (Hde : deref (write_all (k_heap x) keep (rescale (deref (k_heap x) keep))) keep = rescale (deref (k_heap x) keep)).
      { apply deref_write; [apply NoDup_filter, W1|exact Hkl|]. rewrite rescale_len. apply deref_len. }
      apply In_nth_error in Hin as [n Hn].
      assert (H1 : nth_error (deref (write_all (k_heap x) keep (rescale (deref (k_heap x) keep))) keep) n = Some (nth l (write_all (k_heap x) keep (rescale (deref (k_heap x) keep))) no_hyp)).
      { exact (map_nth_error (fun l => nth l (write_all (k_heap x) keep (rescale (deref (k_heap x) keep))) no_hyp) _ _ Hn). }
      rewrite Hde in H1. unfold rescale in H1 at 1. fold tot in H1.
      rewrite (map_nth_error (fun h => {| h_p := h_p h / tot; h_ts := h_ts h |}) n (deref (k_heap x) keep) (d := nth l (k_heap x) no_hyp)) in H1 by (unfold deref; exact (map_nth_error _ _ _ Hn)).
      injection H1 as H1. rewrite <- H1. reflexivity.
    - rewrite write_other; [reflexivity|exact Hkl|]. intros Hin. apply filter_In in Hin as [_ Hin]. congruence. }
  assert (Htot : 0 < tot).
  { unfold tot, keep. rewrite (deref_filter (fun h => if Rlt_dec (c_prune c) (h_p h) then true else false)).
    apply rsum_allpos.
    - cbn [habs set_hyps g_hyps] in Hk1. intros E0. assert (Hin : In hk (filter (fun h => if Rlt_dec (c_prune c) (h_p h) then true else false) (deref (k_heap x) (k_locs x)))).
      { apply filter_In. split; [exact Hk1|]. destruct (Rlt_dec (c_prune c) (h_p hk)); [reflexivity|contradiction]. } rewrite E0 in Hin. destruct Hin.
    - intros h Hh. apply filter_In in Hh as [Hh _]. apply Hd, Hh. }
  assert (Hsum : rsum (map h_p (g_hyps (contents (save x) x'))) = 1 + mass (fun h => if Rle_dec (h_p h) (c_prune c) then true else false) (g_hyps (habs x))).
  { cbn [contents save z_locs g_hyps habs set_hyps]. unfold mass, deref. rewrite map_map.
    assert (Hgo : forall ls, (forall l, In l ls -> In l (k_locs x)) -> rsum (map (fun l => h_p (nth l (k_heap x') no_hyp)) ls) =
      rsum (map p0 (filter big ls)) / tot + rsum (map h_p (filter (fun h => if Rle_dec (h_p h) (c_prune c) then true else false) (map (fun l => nth l (k_heap x) no_hyp) ls)))).
    { induction ls as [|l ls IH]; intros Hin; cbn [map filter]; [change (rsum []) with 0; lra|]. rewrite rsum_cons, IH by (intros j Hj; apply Hin; right; exact Hj). rewrite Hp by (apply Hin; left; reflexivity).
      fold (p0 l). assert (HB : big l = if Rlt_dec (c_prune c) (p0 l) then true else false) by reflexivity. rewrite HB.
      destruct (Rlt_dec (c_prune c) (p0 l)); destruct (Rle_dec (p0 l) (c_prune c)); try lra; cbn [map]; rewrite rsum_cons; [|fold (p0 l); lra].
      set (A := rsum (map p0 (filter big ls))). unfold Rdiv. rewrite Rmult_plus_distr_r. lra. }
    rewrite Hgo by auto. f_equal. fold keep. assert (Ht : rsum (map p0 keep) = tot) by (unfold tot, deref; rewrite map_map; reflexivity). rewrite Ht. apply Rinv_r. lra. }
  assert (Hmass : 0 < mass (fun h => if Rle_dec (h_p h) (c_prune c) then true else false) (g_hyps (habs x))).
  { unfold mass. apply rsum_allpos.
    - intros E0. assert (Hin : In hl (filter (fun h => if Rle_dec (h_p h) (c_prune c) then true else false) (g_hyps (habs x)))).
      { apply filter_In. split; [exact Hl1|]. destruct (Rle_dec (h_p hl) (c_prune c)); [reflexivity|contradiction]. } rewrite E0 in Hin. destruct Hin.
    - intros h Hh. apply filter_In in Hh as [Hh _]. apply Hd, Hh. }
  split; [exact Hsum|]. split; [lra|]. intros He. rewrite He in Hsum. rewrite (proj2 Hd) in Hsum. lra.
Qed.
Print Assumptions C60_prune_refuted.

(** * Concrete runs *)
Definition sn_cfg (bs : list R) : gcfg unit unit :=
  {| c_births := map (fun p => (d_birth, p)) bs; c_ps := 9 / 10; c_pd := 9 / 10; c_crate := 1; c_cden := 1; c_reqb := 1; c_reqs := 1; c_requ := 1;
     c_prune := 1 / 2; c_maxh := 10; c_savecov := false; c_savemeas := true |}.
Definition sn_ent (ii : nat) : dent := birth_entry (d_env false) (d_cfg 0) 0 0 ii d_birth.
(** C60 is false for correct without measurements, already in the first step:
    the saved hypothesis consists of the track born from term 1; after correct
    the same dictionary says: the track born from term 0. *)
Theorem C60_correct_refuted : exists (E : genv unit unit unit unit) c t x x',
  cfg_ok c /\ kshort_ok (v_kshort E) /\ rsorts (v_argsort E) /\ hrun E c [OpPredict t] hst_new = Ok x /\ hexec E c (OpCorrect t []) x = Ok x' /\
  map (fun h => map e_label (tracks (g_tab (habs x)) h)) (g_hyps (habs x)) = [[(v_rnd E t, 1%nat)]] /\
  let z := contents (save x) x' in
  map (fun h => map e_label (tracks (g_tab z) h)) (g_hyps z) = [[(v_rnd E t, 0%nat)]] /\
  g_meas (habs x) = [] /\ g_meas z = [[]].
Proof.
  set (E := d_env false). set (c := sn_cfg [1 / 10; 9 / 10]).
  assert (Hn1 : - ln (9 / 10 / (1 - 9 / 10)) < 0) by exact ln_neg_9.
  assert (Hn2 : 0 < - ln (1 / 10 / (1 - 1 / 10))).
  { assert (H : ln (1 / 10 / (1 - 1 / 10)) < ln 1) by (apply ln_increasing; lra). rewrite ln_1 in H. lra. }
  set (S1 := {| g_tab := [sn_ent 0; sn_ent 1]; g_hyps := one [1%nat]; g_card := calc_card (one []); g_cnt := 0; g_meas := []; g_ext := []; g_states := []; g_labels := []; g_covs := [] |} : ds).
  assert (P : predict E c 0 glmb_new = Ok S1).
  { unfold predict.
    assert (H1 : gen_birth_tab E c 0 0 = Ok ([sn_ent 0; sn_ent 1], [- ln (1 / 10 / (1 - 1 / 10)); - ln (9 / 10 / (1 - 9 / 10))])).
    { unfold gen_birth_tab, c. cbn [sn_cfg c_births map mapM snd]. rewrite d_birth_cost. unfold birth_cost at 1. destruct (Req_EM_T (1 / 10) 1); [lra|]. rewrite lnp_ok by lra. reflexivity. }
    cbn [glmb_new g_cnt]. rewrite H1. cbn [bind]. unfold E at 1, c at 1. cbn [d_env v_kshort d_kshort sn_cfg c_reqb length seq filter nth].
    destruct (Rlt_dec (- ln (1 / 10 / (1 - 1 / 10))) 0) as [?|_]; [lra|]. destruct (Rlt_dec (- ln (9 / 10 / (1 - 9 / 10))) 0) as [_|?]; [|lra]. cbn [bind].
    assert (H2 : gen_birth_hyps E c [[1%nat]] [0] = Ok (one [1%nat])).
    { unfold gen_birth_hyps, c. cbn [sn_cfg c_births map mapM snd]. rewrite !lnp_ok by lra. cbn [bind combine map]. rewrite norm1. reflexivity. }
    rewrite H2. cbn [bind g_hyps g_tab glmb_new length map].
    assert (H3 : gen_surv_hyps E c 0 [{| h_p := 1; h_ts := [] |}] = Ok (one [])).
    { unfold gen_surv_hyps. rewrite ssum1. cbn [mapM]. unfold surv_hyp. cbn [h_ts h_p]. rewrite lnp_ok by lra. cbn [bind concat app]. rewrite norm1. reflexivity. }
    rewrite H3. cbn [bind app]. unfold S1. f_equal. f_equal.
    unfold set_pred_hyps, one. cbn [flat_map map app length h_p h_ts]. rewrite rsum_cons. change (rsum []) with 0.
    unfold clean_predictions. cbn [fold_left add_hyp map snd]. replace (1 * 1 / (1 * 1 + 0)) with 1 by field. reflexivity. }
  exists E, c, 0. set (x := fresh hst_new S1). exists x. eexists.
  split; [split; [intros b p [H|[H|[]]]; inversion H; lra|cbn; lra]|]. split; [exact d_kshort_ok|]. split; [exact C44_ex|].
  split; [|split; [|split; [reflexivity|]]].
  - cbn [hrun hexec]. change (habs hst_new) with (glmb_new : ds). rewrite P. reflexivity.
  - cbn [hexec]. unfold hcorrect, hcorrect0. unfold x at 1. cbn [fresh k_rest S1 g_tab]. cbn [gen_cor_tab length seq combine map concat app].
    change (deref (k_heap x) (k_locs x)) with (one [1%nat]).
    assert (Hm : mapM (miss_hyp c 2) (one [1%nat]) = Ok [{| h_p := - 1 + rsum [ln (1 - 9 / 10)] + ln 1; h_ts := [1%nat] |}]).
    { cbn [mapM one]. unfold miss_hyp. change (forallb (fun i => (i <? 2)%nat) (h_ts {| h_p := 1; h_ts := [1%nat] |})) with true. cbn [negb h_ts h_p mapM]. unfold c. cbn [sn_cfg c_pd c_crate].
      rewrite !lnp_ok by lra. reflexivity. }
    change (length (g_tab (k_rest x))) with 2%nat. rewrite Hm. cbn [bind]. rewrite norm1. cbn [bind h_ts]. reflexivity.
  - cbv zeta. split; [reflexivity|]. split; reflexivity.
Qed.
Print Assumptions C60_correct_refuted.
(** A run that meets the hypotheses of [C60_prune_refuted]: two hypotheses with
    probabilities 3/4 and 1/4, pruning threshold 1/2. *)
Definition sn_env : genv unit unit unit unit :=
  {| v_rnd := fun t => Int_part t; v_init := fun _ _ => tt; v_pred := fun _ _ _ => (tt, tt, tt); v_corr := fun _ _ _ _ => Some (tt, tt, tt, 1);
     v_kshort := fun _ _ => Ok ([[0%nat]; []], [ln (1 - 9 / 10) + 0 - ln (3 / 4); ln (1 - 9 / 10) + 0 - ln (1 / 4)]); v_murty := d_murty; v_lse0 := Ok tt;
     v_hash := fun l => Z.of_nat (enc l); v_argsort := sort_ref |}.
Example C60_prune_ex : exists x x', let c := sn_cfg [9 / 10] in rsorts (v_argsort sn_env) /\ hrun sn_env c [OpPredict 0] hst_new = Ok x /\
  prob_dist (g_hyps (habs x)) /\ g_hyps (habs x) = [{| h_p := 3 / 4; h_ts := [0%nat] |}; {| h_p := 1 / 4; h_ts := [] |}] /\
  hexec sn_env c (OpCleanup true false false) x = Ok x' /\ rsum (map h_p (g_hyps (contents (save x) x'))) = 5 / 4.
Proof.
  set (c := sn_cfg [9 / 10]).
  set (hs := [{| h_p := 3 / 4; h_ts := [0%nat] |}; {| h_p := 1 / 4; h_ts := [] |}]).
  assert (P : exists s : ds, predict sn_env c 0 glmb_new = Ok s /\ g_hyps s = hs).
  { unfold predict.
    assert (H1 : gen_birth_tab sn_env c 0 0 = Ok ([sn_ent 0], [- ln (9 / 10 / (1 - 9 / 10))])).
    { unfold gen_birth_tab, c. cbn [sn_cfg c_births map mapM snd]. rewrite d_birth_cost. reflexivity. }
    cbn [glmb_new g_cnt]. rewrite H1. cbn [bind sn_env v_kshort]. fold sn_env.
    assert (H2 : gen_birth_hyps sn_env c [[0%nat]; []] [ln (1 - 9 / 10) + 0 - ln (3 / 4); ln (1 - 9 / 10) + 0 - ln (1 / 4)] = Ok hs).
    { unfold gen_birth_hyps, c. cbn [sn_cfg c_births map mapM snd]. rewrite !lnp_ok by lra. cbn [bind combine map fst snd]. rewrite rsum_cons. change (rsum []) with 0.
      replace (ln (1 - 9 / 10) + 0 - (ln (1 - 9 / 10) + 0 - ln (3 / 4))) with (ln (3 / 4)) by ring. replace (ln (1 - 9 / 10) + 0 - (ln (1 - 9 / 10) + 0 - ln (1 / 4))) with (ln (1 / 4)) by ring.
      cbn [normalise_log map h_p h_ts]. unfold lse. cbn [map]. rewrite !exp_ln by lra. rewrite !rsum_cons. change (rsum []) with 0. replace (3 / 4 + (1 / 4 + 0)) with 1 by lra.
      rewrite ln_1, !Rminus_0_r, !exp_ln by lra. reflexivity. }
    rewrite H2. cbn [bind g_hyps g_tab glmb_new length map].
    assert (H3 : gen_surv_hyps sn_env c 0 [{| h_p := 1; h_ts := [] |}] = Ok (one [])).
    { unfold gen_surv_hyps. rewrite ssum1. cbn [mapM]. unfold surv_hyp. cbn [h_ts h_p]. rewrite lnp_ok by lra. cbn [bind concat app]. rewrite norm1. reflexivity. }
    rewrite H3. cbn [bind app]. eexists. split; [reflexivity|]. cbn [g_hyps].
    unfold set_pred_hyps, one, hs. cbn [flat_map map app length h_p h_ts]. rewrite !rsum_cons. change (rsum []) with 0.
    replace (3 / 4 * 1 / (3 / 4 * 1 + (1 / 4 * 1 + 0))) with (3 / 4) by field. replace (1 / 4 * 1 / (3 / 4 * 1 + (1 / 4 * 1 + 0))) with (1 / 4) by field. reflexivity. }
  destruct P as [s [P Hs]].
  assert (R : hrun sn_env c [OpPredict 0] hst_new = Ok (fresh hst_new s)) by (cbn [hrun hexec]; change (habs hst_new) with (glmb_new : ds); rewrite P; reflexivity).
  assert (Hh : g_hyps (habs (fresh hst_new s)) = hs) by (destruct (fresh_frame (hst_new : hst unit unit unit unit) s wf_new) as [_ [-> _]]; exact Hs).
  assert (D : prob_dist hs) by (split; [intros h [<-|[<-|[]]]; cbn; lra|cbn [hs map h_p]; rewrite !rsum_cons; change (rsum []) with 0; lra]).
  exists (fresh hst_new s), (hprune c (hset (fresh hst_new s) (bump s))).
  split; [exact C44_ex|]. split; [exact R|]. rewrite Hh. split; [exact D|]. split; [reflexivity|]. split; [reflexivity|].
  destruct (C60_prune_refuted sn_env c [OpPredict 0] (fresh hst_new s) (hprune c (hset (fresh hst_new s) (bump s))) false C44_ex R) as [A _].
  - rewrite Hh. exact D.
  - rewrite Hh. exists {| h_p := 1 / 4; h_ts := [] |}. split; [right; left; reflexivity|cbn; lra].
  - rewrite Hh. exists {| h_p := 3 / 4; h_ts := [0%nat] |}. split; [left; reflexivity|cbn; lra].
  - reflexivity.
  - rewrite A, Hh. unfold mass, hs. cbn [filter h_p c sn_cfg c_prune]. destruct (Rle_dec (3 / 4) (1 / 2)); [lra|]. destruct (Rle_dec (1 / 4) (1 / 2)); [|lra].
    cbn [map h_p]. rewrite rsum_cons. change (rsum []) with 0. lra.
Qed.
