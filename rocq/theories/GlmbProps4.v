(** The GLMB recursion: probabilities and tracks after predict and correct. *)
From Verif Require Import Base Lists.
From Coq Require Import Reals Permutation Sorted Lra.
From Verif Require Import OspaModel CphdModel OspaProofs CphdSpec CphdProofs CphdProps GlmbModel GlmbSpec GlmbProofs GlmbInv GlmbTotal GlmbProps GlmbProps2 GlmbDemo GlmbBayes.
Open Scope R_scope.

Lemma filter_all_true {A} (l : list A) : filter (fun _ => true) l = l.
Proof. induction l as [|x l IH]; [reflexivity|]. cbn. rewrite IH. reflexivity. Qed.
(** * C92: after predict the probability of any set of track sets is the GLMB
    prediction's, normalised over the combinations considered. *)
Theorem C92_glmb_predict_bayes_partial : forall {FS ST CV MS} (E : genv FS ST CV MS) c t s s' d,
  kshort_ok (v_kshort E) -> kshort_cost d (v_kshort E) -> hash_ok (v_hash E) -> cfg_ok c -> predict E c t s = Ok s' -> g_hyps s' <> [] ->
  0 < predicted_total E d c (g_hyps s) (fun _ => true) /\
  forall f, (forall a b, Permutation a b -> f a = f b) ->
    mass (fun h => f (h_ts h)) (g_hyps s') = predicted_total E d c (g_hyps s) f / predicted_total E d c (g_hyps s) (fun _ => true).
Proof.
  intros FS ST CV MS E c t s s' d Hk Hd Hh Hc H Hne. destruct (predict_mass E c t s s' d Hk Hd Hh Hc H Hne) as [K [HK HM]].
  pose proof (HM (fun _ => true) (fun _ _ _ => eq_refl)) as H1. destruct (predict_dist E c t s s' H Hne) as [_ Hs].
  unfold mass in H1. rewrite (filter_all_true (g_hyps s')), Hs in H1.
  assert (Hp : 0 < predicted_total E d c (g_hyps s) (fun _ => true)).
  { apply (Rmult_lt_reg_l K); [exact HK|]. rewrite Rmult_0_r, <- H1. lra. }
  split; [exact Hp|]. intros f Hf. rewrite (HM f Hf). set (T := predicted_total E d c (g_hyps s) (fun _ => true)) in *.
  replace K with (/ T); [field; lra|]. apply (Rmult_eq_reg_r T); [|lra]. rewrite <- H1. field. lra.
Qed.
Print Assumptions C92_glmb_predict_bayes_partial.

(** * C93: after correct there is one hypothesis per parent and association
    considered, in order; its probability is the parent's times the association's
    weight, up to one common factor, and its tracks are the successors of the
    parent's tracks. *)
Theorem C93_glmb_update_bayes : forall {FS ST CV MS} (E : genv FS ST CV MS) c t meas s s',
  murty_ok (v_murty E) -> murty_cost (v_murty E) -> cfg_ok c ->
  (forall z f x, In z meas -> v_corr E t z f x <> None) -> (forall e z, In e (g_tab s) -> In z meas -> 0 < track_lik E t z e) ->
  correct E c t meas s = Ok s' ->
  exists K rr, 0 < K /\
    Forall2 (fun h rows => considered E c t meas (g_hyps s) h (tracks (g_tab s) h) rows /\ Forall (valid_row (length (h_ts h)) (length meas)) rows) (g_hyps s) rr /\
    Forall2 (fun hr h' => h_p h' = K * (h_p (fst hr) * assoc_weight E c t meas (tracks (g_tab s) (fst hr)) (snd hr)) /\
                          Forall2 (fun ea e' => successor E c t meas (fst ea) (snd ea) e') (combine (tracks (g_tab s) (fst hr)) (snd hr)) (tracks (g_tab s') h'))
      (flat_map (fun hr => map (pair (fst hr)) (snd hr)) (combine (g_hyps s) rr)) (g_hyps s').
Proof. intros FS ST CV MS E c t meas s s'. apply correct_form. Qed.
Print Assumptions C93_glmb_update_bayes.

(** * C94: for every hypothesis the associations considered are the most probable
    ones, at most its share, and all of them when they are fewer. *)
Theorem C94_glmb_update_keeps_best : forall {FS ST CV MS} (E : genv FS ST CV MS) c t meas hs h es rows,
  murty_ok (v_murty E) -> murty_best (v_murty E) -> cfg_ok c -> (forall e z, In e es -> In z meas -> 0 < track_lik E t z e) ->
  es <> [] -> meas <> [] -> considered E c t meas hs h es rows ->
  (length rows <= share_of (c_requ c) hs h)%nat /\ NoDup rows /\
  (forall row row', In row rows -> valid_row (length es) (length meas) row' -> ~ In row' rows -> assoc_weight E c t meas es row' <= assoc_weight E c t meas es row) /\
  ((length rows < share_of (c_requ c) hs h)%nat -> forall row, valid_row (length es) (length meas) row -> In row rows).
Proof.
  intros FS ST CV MS E c t meas hs h es rows Hmk Hm Hc Hl He Hz H. unfold considered in H. destruct es as [|e0 es0]; [contradiction|]. destruct meas as [|z0 meas0]; [contradiction|].
  set (es := e0 :: es0) in *. set (meas := z0 :: meas0) in *. destruct H as [M [costs [Em HM]]]. destruct (Hm _ _ _ _ _ _ Em) as [H1 [H2 [H3 H4]]].
  split; [exact H1|]. split; [exact H2|]. split; [|exact H4]. intros row row' Hr Hv Hn. specialize (H3 row row' Hr Hv Hn).
  assert (Hv0 : valid_row (length es) (length meas) row) by exact (proj2 (Hmk _ _ _ _ _ _ Em) row Hr).
  pose (h1 := {| h_p := 1; h_ts := [] |}).
  assert (W : forall r, valid_row (length es) (length meas) r -> const c (length meas) * (1 * assoc_weight E c t meas es r) =
     exp (- c_crate c + INR (length meas) * ln (c_crate c * c_cden c) + INR (length es) * ln (1 - c_pd c) + ln 1 - row_total (length es) M r)).
  { intros r [R1 [R2 _]]. symmetry. apply (assoc_weight_exp E c t meas h1 es r M Hc); auto. cbn. lra. }
  pose proof (W row Hv0) as W1. pose proof (W row' Hv) as W2.
  assert (HC : 0 < const c (length meas)) by (unfold const; apply Rmult_lt_0_compat; [apply exp_pos|]; apply pow_lt, Rmult_lt_0_compat; apply Hc).
  apply (Rmult_le_reg_l (const c (length meas))); [exact HC|]. rewrite !Rmult_1_l in W1, W2. rewrite W1, W2.
  destruct H3 as [H3|H3]; [left; apply exp_increasing; lra|right; rewrite H3; reflexivity].
Qed.
Print Assumptions C94_glmb_update_keeps_best.

(** * C95: the predicted track table: first the births in order, then the old
    tracks in order, each moved one step by the inner filter. *)
Theorem C95_glmb_predicted_tracks : forall {FS ST CV MS} (E : genv FS ST CV MS) c t s s', predict E c t s = Ok s' ->
  length (g_tab s') = (length (c_births c) + length (g_tab s))%nat /\
  (forall i b p, nth_error (c_births c) i = Some (b, p) -> exists e, nth_error (g_tab s') i = Some e /\
     e_label e = (v_rnd E t, i) /\ e_time e = g_cnt s /\ e_assoc e = [] /\ e_w e = [b_w b] /\ e_st e = [b_m b] /\
     e_fs e = map (fun mc => v_init E (fst mc) (snd mc)) (combine (b_m b) (b_c b)) /\ e_cov e = [if c_savecov c then map Some (b_c b) else []]) /\
  (forall i e, nth_error (g_tab s) i = Some e -> exists e', nth_error (g_tab s') (length (c_births c) + i) = Some e' /\
     e_label e' = e_label e /\ e_time e' = e_time e /\ e_assoc e' = e_assoc e /\ e_w e' = e_w e ++ [last (e_w e) []] /\
     exists sts cvs, e_st e' = e_st e ++ [sts] /\ e_cov e' = e_cov e ++ [cvs] /\ length (e_fs e') = length sts /\ length cvs = length sts /\
       length sts = Nat.min (length (e_fs e)) (length (last (e_st e) [])) /\
       forall k f x, nth_error (e_fs e) k = Some f -> nth_error (last (e_st e) []) k = Some x ->
         let '(f', x', cv) := v_pred E t f x in
         nth_error (e_fs e') k = Some f' /\ nth_error sts k = Some x' /\ nth_error cvs k = Some (if c_savecov c then Some cv else None)).
Proof.
  intros FS ST CV MS E c t s s' H. destruct (predict_inv _ _ _ _ _ H) as [btab [lc [paths [costs [bh [sh [Eb [_ [_ [_ [Et _]]]]]]]]]]].
  unfold gen_birth_tab in Eb. apply bind_ok in Eb as [cs [_ Eb]]. injection Eb as Eb _.
  assert (Lb : length btab = length (c_births c)) by (rewrite <- Eb, map_length, combine_length, seq_length; apply Nat.min_id).
  split; [rewrite Et, app_length, map_length, Lb; reflexivity|]. split.
  - intros i b p Hi. assert (Hl : (i < length (c_births c))%nat) by (apply nth_error_Some; congruence). exists (birth_entry E c t (g_cnt s) i b).
    split; [|cbn; auto 10]. rewrite Et, nth_error_app1 by lia. rewrite <- Eb, nth_error_map, (nth_error_combine_seq _ 0 _ _ Hi). reflexivity.
  - intros i e Hi. exists (pred_entry E c t e). split; [rewrite Et, nth_error_app2 by lia; replace (length (c_births c) + i - length btab)%nat with i by lia; rewrite nth_error_map, Hi; reflexivity|].
    unfold pred_entry. cbn [e_label e_time e_assoc e_w e_st e_cov e_fs]. do 4 (split; [reflexivity|]). eexists _, _. split; [reflexivity|]. split; [reflexivity|].
    rewrite !map_length. split; [reflexivity|]. split; [reflexivity|]. split; [apply combine_length|]. intros k f x Hf Hx.
    destruct (v_pred E t f x) as [[f' x'] cv] eqn:Ep. rewrite !nth_error_map, (proj2 (combine_nth_error _ _ k f x) (conj Hf Hx)). cbn [option_map fst snd]. rewrite Ep. auto.
Qed.
Print Assumptions C95_glmb_predicted_tracks.

(** * The contracts can be met: reference implementations *)
Definition m_kshort (lc : list R) (k : nat) : result (list (list nat) * list R) :=
  match k with
  | O => Ok ([], [])
  | _ => let p := filter (fun i => if Rlt_dec (nth i lc 0) 0 then true else false) (seq 0 (length lc)) in Ok ([p], [rsum (map (fun i => nth i lc 0) p)])
  end.
Definition validb (nr nc : nat) (row : list nat) : bool :=
  (length row =? nr)%nat && forallb (fun v => (v <=? nc)%nat) row &&
  forallb (fun r1 => forallb (fun r2 => (nth r1 row 0 =? 0)%nat || negb (nth r1 row 0 =? nth r2 row 0)%nat || (r1 =? r2)%nat) (seq 0 nr)) (seq 0 nr).
Lemma validb_spec nr nc row : validb nr nc row = true <-> valid_row nr nc row.
Proof.
  unfold validb, valid_row. rewrite !andb_true_iff, Nat.eqb_eq, forallb_forall. split.
  - intros [[H1 H2] H3]. split; [exact H1|]. split; [intros v Hv; apply Nat.leb_le, H2, Hv|]. intros r1 r2 v E1 E2.
    assert (L1 : (r1 < nr)%nat) by (rewrite <- H1; apply nth_error_Some; congruence). assert (L2 : (r2 < nr)%nat) by (rewrite <- H1; apply nth_error_Some; congruence).
    rewrite forallb_forall in H3. specialize (H3 r1 ltac:(apply in_seq; lia)). rewrite forallb_forall in H3. specialize (H3 r2 ltac:(apply in_seq; lia)).
    rewrite (nth_error_nth _ _ 0%nat E1), (nth_error_nth _ _ 0%nat E2), Nat.eqb_refl in H3. cbn in H3. apply Nat.eqb_eq, H3.
  - intros [H1 [H2 H3]]. split; [split; [exact H1|intros v Hv; apply Nat.leb_le, H2, Hv]|]. apply forallb_forall. intros r1 L1. apply forallb_forall. intros r2 L2. apply in_seq in L1, L2.
    destruct (nth r1 row 0%nat) as [|v] eqn:E1; [reflexivity|]. destruct (Nat.eqb_spec (S v) (nth r2 row 0%nat)) as [E2|]; [|reflexivity]. cbn. apply Nat.eqb_eq. apply (H3 r1 r2 v).
    + rewrite <- E1. apply nth_error_nth'. lia.
    + rewrite E2. apply nth_error_nth'. lia.
Qed.
Fixpoint insk {A} (key : A -> R) (x : A) (l : list A) : list A :=
  match l with [] => [x] | y :: l' => if Rle_dec (key x) (key y) then x :: y :: l' else y :: insk key x l' end.
Definition isort {A} (key : A -> R) (l : list A) : list A := fold_right (insk key) [] l.
Lemma insk_perm {A} (key : A -> R) x l : Permutation (insk key x l) (x :: l).
Proof. induction l as [|y l IH]; [apply Permutation_refl|]. cbn. destruct (Rle_dec _ _); [apply Permutation_refl|]. eapply perm_trans; [apply perm_skip, IH|apply perm_swap]. Qed.
Lemma isort_perm {A} (key : A -> R) l : Permutation (isort key l) l.
Proof. induction l as [|x l IH]; [apply Permutation_refl|]. cbn. eapply perm_trans; [apply insk_perm|apply perm_skip, IH]. Qed.
Lemma isort_sorted {A} (key : A -> R) l : StronglySorted (fun a b => key a <= key b) (isort key l).
Proof.
  induction l as [|x l IH]; [constructor|]. cbn [isort fold_right]. change (fold_right (insk key) [] l) with (isort key l). revert IH. generalize (isort key l). clear. intros l H.
  induction H as [|y l Hl IH Hy]; [repeat constructor|]. cbn. destruct (Rle_dec _ _) as [Hle|Hle].
  - constructor; [constructor; assumption|]. constructor; [exact Hle|]. eapply Forall_impl; [|exact Hy]. cbn. intros a Ha. lra.
  - constructor; [exact IH|]. eapply Permutation_Forall; [symmetry; apply insk_perm|]. constructor; [lra|exact Hy].
Qed.
Definition all_rows (nr nc : nat) : list (list nat) := nodup (list_eq_dec Nat.eq_dec) (filter (validb nr nc) (all_lists nr (seq 0 (S nc)))).
Lemma all_rows_spec nr nc row : In row (all_rows nr nc) <-> valid_row nr nc row.
Proof.
  unfold all_rows. rewrite nodup_In, filter_In, validb_spec. split; [tauto|]. intros H. split; [|exact H]. destruct H as [H1 [H2 _]].
  apply all_lists_spec; [exact H1|]. intros v Hv. apply in_seq. specialize (H2 v Hv). lia.
Qed.
Definition m_murty (nr nc : nat) (M : nat -> nat -> R) (m : nat) : result (list (list nat) * list R) :=
  let rows := firstn m (isort (row_total nr M) (all_rows nr nc)) in Ok (rows, map (row_total nr M) rows).
Lemma m_kshort_ok : kshort_ok m_kshort.
Proof.
  intros lc k paths costs H. destruct k as [|k]; cbn in H; injection H as <- <-; split; try reflexivity; [intros p []|].
  intros p [<-|[]]. split; [apply NoDup_filter, seq_NoDup|]. intros i Hi. apply filter_In in Hi as [Hi _]. apply in_seq in Hi. lia.
Qed.
Lemma m_kshort_cost : kshort_cost 0 m_kshort.
Proof. intros lc k paths costs H. destruct k as [|k]; cbn [m_kshort] in H; injection H as <- <-; [constructor|]. constructor; [ring|constructor]. Qed.
Lemma m_murty_in nr nc M m row : In row (firstn m (isort (row_total nr M) (all_rows nr nc))) -> valid_row nr nc row.
Proof.
  intros H. apply all_rows_spec. apply (Permutation_in _ (isort_perm (row_total nr M) _)). rewrite <- (firstn_skipn m). apply in_or_app. left. exact H.
Qed.
Lemma m_murty_ok : murty_ok m_murty.
Proof.
  intros nr nc M m rows costs H. unfold m_murty in H. injection H as <- <-. split; [rewrite map_length; reflexivity|]. intros row Hr. exact (m_murty_in nr nc M m row Hr).
Qed.
Lemma m_murty_cost : murty_cost m_murty.
Proof.
  intros nr nc M m rows costs H. unfold m_murty in H. injection H as <- <-. generalize (firstn m (isort (row_total nr M) (all_rows nr nc))). intros l.
  induction l as [|x l IH]; constructor; [reflexivity|exact IH].
Qed.
Lemma m_murty_best : murty_best m_murty.
Proof.
  intros nr nc M m rows costs H. unfold m_murty in H. injection H as <- _. set (L := isort (row_total nr M) (all_rows nr nc)).
  assert (HN : NoDup L) by (apply (Permutation_NoDup (Permutation_sym (isort_perm (row_total nr M) (all_rows nr nc)))), NoDup_nodup).
  assert (HI : forall row, valid_row nr nc row -> In row L) by (intros row Hv; apply (Permutation_in _ (Permutation_sym (isort_perm (row_total nr M) _))), all_rows_spec, Hv).
  pose proof (isort_sorted (row_total nr M) (all_rows nr nc)) as HS. fold L in HS. split; [rewrite firstn_length; lia|]. split.
  { rewrite <- (firstn_skipn m L) in HN. revert HN. generalize (firstn m L) as a. induction a as [|x a IH]; intros HN; [constructor|]. inversion HN as [|? ? Hx HN']; subst.
    constructor; [intros Hi; apply Hx, in_or_app; left; exact Hi|apply IH, HN']. }
  split.
  - intros row row' Hr Hv Hn. apply HI in Hv. rewrite <- (firstn_skipn m L) in Hv. apply in_app_or in Hv as [Hv|Hv]; [contradiction|].
    rewrite <- (firstn_skipn m L) in HS. revert HS Hr. generalize (firstn m L). induction l as [|x l IH]; intros HS Hr; [destruct Hr|]. inversion HS as [|? ? HS' HF]; subst.
    destruct Hr as [<-|Hr]; [|apply IH; assumption]. rewrite Forall_forall in HF. apply HF, in_or_app. right. exact Hv.
  - intros Hlt row Hv. apply HI in Hv. rewrite firstn_length in Hlt. rewrite firstn_all2 by lia. exact Hv.
Qed.
(** A run that meets all hypotheses of C92-C94. *)
Definition m_env : genv unit unit unit unit :=
  {| v_rnd := fun t => Int_part t; v_init := fun _ _ => tt; v_pred := fun _ _ _ => (tt, tt, tt); v_corr := fun _ _ _ _ => Some (tt, tt, tt, 1);
     v_kshort := m_kshort; v_murty := m_murty; v_lse0 := Ok tt; v_hash := fun l => Z.of_nat (enc l); v_argsort := sort_ref |}.
Example C93_ex : exists s1 s2,
  kshort_ok (v_kshort m_env) /\ kshort_cost 0 (v_kshort m_env) /\ hash_ok (v_hash m_env) /\ murty_ok (v_murty m_env) /\ murty_cost (v_murty m_env) /\ murty_best (v_murty m_env) /\
  cfg_ok (d_cfg (9 / 10)) /\ (forall z f x, In z [tt; tt] -> v_corr m_env 0 z f x <> None) /\
  predict m_env (d_cfg (9 / 10)) 0 glmb_new = Ok s1 /\ g_hyps s1 <> [] /\ (forall e z, In e (g_tab s1) -> In z [tt; tt] -> 0 < track_lik m_env 0 z e) /\
  correct m_env (d_cfg (9 / 10)) 0 [tt; tt] s1 = Ok s2.
Proof.
  assert (Hc : cfg_ok (d_cfg (9 / 10))) by (apply d_cfg_ok; lra).
  assert (Hkt : kshort_total m_kshort) by (intros lc [|k]; eexists; reflexivity).
  assert (Hmt : murty_total m_murty) by (intros nr nc M m _ _; eexists; reflexivity).
  destruct (predict_total m_env (d_cfg (9 / 10)) 0 glmb_new Hc Hkt m_kshort_ok eq_refl) as [s1 H1]; [intros h [<-|[]]; cbn; lra|intros h i [<-|[]] []|].
  pose proof (hinv_predict m_env _ _ _ _ m_kshort_ok H1) as HI. apply hinv_refs in HI.
  destruct (correct_total m_env (d_cfg (9 / 10)) 0 [tt; tt] s1 Hc Hmt eq_refl) as [s2 H2]; [intros h Hh; exact (predict_pos m_env _ _ _ _ H1 h Hh)|exact HI|].
  exists s1, s2. split; [exact m_kshort_ok|]. split; [exact m_kshort_cost|]. split; [exact (d_hash_ok false)|]. split; [exact m_murty_ok|]. split; [exact m_murty_cost|]. split; [exact m_murty_best|].
  split; [exact Hc|]. split; [intros z f x _; discriminate|]. split; [exact H1|]. destruct (predict_inv _ _ _ _ _ H1) as [btab [lc [paths [costs [bh [sh [Eb [Ek [Ebh [Es [Et [Eh _]]]]]]]]]]]].
  split; [|split; [|exact H2]].
  - rewrite Eh. intros E0. 
    unfold gen_birth_tab in Eb. cbn [c_births d_cfg mapM] in Eb. apply bind_ok in Eb as [cs [Ec Eb]]. injection Eb as <- <-.
    cbn [v_kshort m_env m_kshort c_reqb d_cfg] in Ek. injection Ek as <- <-. unfold gen_birth_hyps in Ebh. apply bind_ok in Ebh as [ls [_ Ebh]]. cbn [combine map] in Ebh. rewrite norm1 in Ebh. injection Ebh as <-.
    unfold gen_surv_hyps in Es. cbn [g_hyps glmb_new mapM] in Es. unfold surv_hyp in Es. cbn [h_ts h_p] in Es. rewrite lnp_ok in Es by lra. cbn [bind concat app] in Es. rewrite norm1 in Es. injection Es as <-.
    discriminate.
  - intros e z He _. rewrite Et in He. unfold gen_birth_tab in Eb. apply bind_ok in Eb as [cs [_ Eb]]. injection Eb as <- _. cbn in He. destruct He as [<-|[]]. unfold track_lik. cbn. unfold feps. 
    assert (0 < / 2 ^ 52) by (apply Rinv_0_lt_compat, pow_lt; lra). cbn in H. lra.
Qed.

(** * C96: the extracted state of a track at a time is the state of its heaviest
    component at that time. *)
From Verif Require Import GlmbExtract.
Theorem C96_glmb_extracts_heaviest : forall {FS ST CV MS} c k (s : glmb FS ST CV MS) i s', extract_states c true k s = Ok (Some i, s') ->
  exists h, nth_error (g_hyps s) i = Some h /\
    forall e, In e (tracks (g_tab s) h) -> exists x, In x (g_ext s') /\ x_label x = e_label e /\ x_time x = e_time e /\
      length (x_st x) = Nat.min (Nat.min (length (e_w e)) (length (e_st e))) (length (e_cov e)) /\ length (x_cov x) = length (x_st x) /\
      forall a w sts cvs, nth_error (e_w e) a = Some w -> nth_error (e_st e) a = Some sts -> nth_error (e_cov e) a = Some cvs ->
        exists m, is_mode w m /\ nth_error (x_st x) a = nth_error sts m /\
          nth_error (x_cov x) a = (if c_savecov c then nth_error cvs m else Some None).
Proof.
  intros FS ST CV MS c k s i s' Hx.
  destruct (extract_inv _ _ _ _ _ _ Hx) as [[_ [E0 _]]|[idx [xs [oo [Hne [Ei [Hmi [Hu [Ex _]]]]]]]]]; [discriminate|]. inversion Ei; subst idx. subst xs.
  destruct (update_hist_inv _ _ _ _ Hu) as [h [es [news [l [Eh [F1 [F2 [_ [_ [_ Hex]]]]]]]]]]. exists h. split; [exact Eh|].
  rewrite (tracks_view _ _ _ F1). intros e He. apply In_nth_error in He as [j Hj]. destruct (F2_nth_l _ _ _ _ _ F2 Hj) as [x [Hxj [st [cv [Eh2 ->]]]]].
  exists (hist_of e st cv). split; [rewrite Hex; apply in_or_app; right; exact (nth_error_In _ _ Hxj)|]. split; [reflexivity|]. split; [reflexivity|]. cbn [hist_of x_st x_cov].
  unfold extract_helper in Eh2. apply bind_ok in Eh2 as [r [Er Eh2]]. injection Eh2 as <- <-. apply mapM_ok in Er.
  split; [rewrite map_length, <- (F2_len _ _ _ Er), !combine_length; reflexivity|]. split; [rewrite !map_length; reflexivity|].
  intros a w sts cvs Ew Est Ecv.
  assert (Ha : nth_error (combine (combine (e_w e) (e_st e)) (e_cov e)) a = Some (w, sts, cvs)) by (apply combine_nth_error; split; [apply combine_nth_error; split; assumption|exact Ecv]).
  destruct (F2_nth_l _ _ _ _ _ Er Ha) as [[x0 y0] [Hr Hp]]. apply bind_ok in Hp as [m [Em Hp]]. apply bind_ok in Hp as [x1 [E1 Hp]]. apply bind_ok in Hp as [y1 [E2 Hp]]. injection Hp as <- <-.
  exists m. split; [apply argmaxR_spec, Em|]. rewrite !nth_error_map, Hr. cbn [option_map fst snd]. apply geti_ok in E1. split; [symmetry; exact E1|].
  destruct (c_savecov c); [apply geti_ok in E2; symmetry; exact E2|injection E2 as <-; reflexivity].
Qed.
Print Assumptions C96_glmb_extracts_heaviest.
