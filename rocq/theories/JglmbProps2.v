(** The joint GLMB filter: probabilities after correct (C62, C104-C107). *)
From Verif Require Import Base Lists.
From Coq Require Import Reals Permutation Lra.
From Verif Require Import OspaModel CphdModel OspaProofs CphdSpec CphdProofs GlmbModel GlmbSpec GlmbProofs GlmbInv GlmbTotal GlmbProps GlmbDemo GlmbBayes GlmbProps4.
From Verif Require Import JglmbModel JglmbSpec JglmbProofs JglmbInv GibbsReal JglmbGibbs JglmbProps JglmbTotal JglmbBayes.
Open Scope R_scope.

(** In the intended order of calls the table after predict is the births and the
    tracks the last correct left. *)
Lemma jphase {FS ST CV MS} (E : genv FS ST CV MS) G gt c os : forall ph ph' s s', jrun E G gt c os s = Ok s' -> protocol ph os = Some ph' ->
  length (g_tab (y_g s)) = ((if (ph =? 1)%nat then length (c_births c) else 0) + y_old s)%nat ->
  length (g_tab (y_g s')) = ((if (ph' =? 1)%nat then length (c_births c) else 0) + y_old s')%nat.
Proof.
  induction os as [|o os IH]; intros ph ph' s s' H Hpr HI; cbn [jrun] in H; [injection H as <-; cbn in Hpr; injection Hpr as <-; exact HI|].
  apply bind_ok in H as [s1 [H1 H]]. apply jrest in H1. destruct o as [t|t meas|pr ca ex|u k]; cbn [protocol] in Hpr.
  - destruct ph as [|ph]; [|discriminate]. apply (IH _ _ _ _ H Hpr). destruct (jpredict_inv _ _ _ _ _ H1) as [T1 [_ [_ [_ [_ [_ [O1 _]]]]]]].
    rewrite T1, O1, app_length, jbirth_len, map_length, HI. reflexivity.
  - destruct ph as [|[|ph]]; try discriminate. apply (IH _ _ _ _ H Hpr). destruct (jcorrect_inv _ _ _ _ _ _ _ _ H1) as [hs X]. cbn zeta in X.
    destruct X as [_ [_ [_ [_ [_ [_ [_ [_ [_ [Eo _]]]]]]]]]]. rewrite Eo. reflexivity.
  - destruct ph as [|[|[|ph]]]; try discriminate. apply (IH _ _ _ _ H Hpr). destruct H1 as [g' [-> [A _]]]. cbn [with_g y_g y_old]. rewrite A. exact HI.
  - apply (IH ph ph' s1 s' H). { destruct ph; exact Hpr. } destruct H1 as [g' [-> [A _]]]. cbn [with_g y_g y_old]. rewrite A. exact HI.
Qed.
Lemma jcorrect_reached {FS ST CV MS} (E : genv FS ST CV MS) rnd gt c os t meas s s' :
  uniform rnd -> hash_ok (v_hash E) -> 0 < c_crate c * c_cden c -> never_fails E [OpCorrect t meas] ->
  protocol 0 os = Some 1%nat -> jrun E (sampler_of rnd) gt c os jst_new = Ok s -> jexec E (sampler_of rnd) gt c (OpCorrect t meas) s = Ok s' ->
  exists K rr, 0 < K /\ Forall2 (rows_ok c (length meas) (g_tab (y_g s)) (g_hyps (y_g s))) (g_hyps (y_g s)) rr /\
    (forall h, In h (g_hyps (y_g s)) -> 0 < h_p h) /\ (length (g_hyps (y_g s')) <= list_sum (map (@length _) rr))%nat /\
    forall f, (forall a b, Permutation a b -> f a = f b) ->
      mass (fun h => f (said (g_tab (y_g s')) h)) (g_hyps (y_g s')) = K * sampled_total E c t meas (g_tab (y_g s)) (g_hyps (y_g s)) rr f.
Proof.
  intros Hr Hh Hcl Hn Hp Hs H. cbn [jexec] in H.
  apply (jcorrect_mass E _ gt c t meas s s' (uniform_ok _ Hr) (sampler_cost _ Hr) (sampler_start _ Hr) Hh Hcl); [| | |exact H].
  - intros z f x Hz. apply (Hn t meas (or_introl eq_refl) z f x Hz).
  - exact (nd_run E _ _ _ _ _ _ (uniform_ok _ Hr) Hs nd_new).
  - exact (jphase E _ _ _ _ 0%nat 1%nat _ _ Hs Hp eq_refl).
Qed.
Lemma joint_factor_pos {FS ST CV MS} (E : genv FS ST CV MS) c t meas nt r e v : (v < 2 * nt + length meas)%nat -> 0 < joint_factor E c t meas nt r e v.
Proof.
  intros Hv. unfold joint_factor. destruct (Nat.ltb_spec v nt) as [H|H]; [destruct (v =? r)%nat; [apply floor_pos|apply feps_pos]|].
  destruct (Nat.ltb_spec v (2 * nt)) as [H1|H1]; [destruct (v =? nt + r)%nat; [apply floor_pos|apply feps_pos]|].
  destruct (nth_error meas (v - 2 * nt)) as [z|] eqn:Ez; [apply floor_pos|]. apply nth_error_None in Ez. lia.
Qed.
Lemma joint_weight_pos {FS ST CV MS} (E : genv FS ST CV MS) c t meas es row : row_ok (length es) (length meas) row -> 0 < joint_weight E c t meas es row.
Proof.
  intros [_ [Hv _]]. unfold joint_weight. apply rprod_pos. intros [r [e v]] Hi. cbn [fst snd]. apply joint_factor_pos, Hv. apply in_combine_r in Hi. apply in_combine_r in Hi. exact Hi.
Qed.
(** a sample that satisfies [f] makes the total positive *)
Lemma sampled_pos {FS ST CV MS} (E : genv FS ST CV MS) c t meas tab hs rr f h row :
  Forall2 (rows_ok c (length meas) tab hs) hs rr -> (forall h, In h hs -> 0 < h_p h) -> In h hs ->
  (forall rows, rows_ok c (length meas) tab hs h rows -> In row rows) -> f (joint_outcome (jtracks (length (c_births c)) tab h) row) = true ->
  0 < sampled_total E c t meas tab hs rr f.
Proof.
  intros HF Hp Hin Hrow Hf. unfold sampled_total. cbv zeta.
  assert (HP : forall hs1 rr1, Forall2 (rows_ok c (length meas) tab hs) hs1 rr1 -> (forall h, In h hs1 -> 0 < h_p h) -> 
     (forall hr row, In hr (combine hs1 rr1) -> In row (snd hr) -> 0 < h_p (fst hr) * joint_weight E c t meas (jtracks (length (c_births c)) tab (fst hr)) row)).
  { intros hs1 rr1 HF1 Hp1 [h1 rows1] row1 Hi1 Hr1. cbn [fst snd] in *. apply Rmult_lt_0_compat; [apply Hp1, (in_combine_l _ _ _ _ Hi1)|]. apply joint_weight_pos.
    assert (HR : rows_ok c (length meas) tab hs h1 rows1). { clear -HF1 Hi1. induction HF1 as [|a b l l' H1 _ IH]; [destruct Hi1|]. destruct Hi1 as [E0|Hi1]; [injection E0 as <- <-; exact H1|exact (IH Hi1)]. }
    destruct HR as [_ [_ [_ HR]]]. rewrite Forall_forall in HR. exact (HR _ Hr1). }
  specialize (HP hs rr HF Hp).
  assert (Hh : exists rows, In (h, rows) (combine hs rr) /\ In row rows).
  { clear -HF Hin Hrow. revert HF Hin Hrow. generalize (rows_ok c (length meas) tab hs) as Q. intros Q HF Hin Hrow. induction HF as [|a b l l' H1 _ IH]; [destruct Hin|]. destruct Hin as [->|Hin]; [exists b; split; [left; reflexivity|apply Hrow, H1]|].
    destruct (IH Hin) as [rows [A B]]. exists rows. split; [right; exact A|exact B]. }
  destruct Hh as [rows [Hi1 Hi2]]. revert HP Hi1. generalize (combine hs rr) as l. induction l as [|hr l IH]; intros HP Hi1; [destruct Hi1|].
  cbn [map]. rewrite rsum_cons.
  assert (H0 : forall hr, (forall row, In row (snd hr) -> 0 < h_p (fst hr) * joint_weight E c t meas (jtracks (length (c_births c)) tab (fst hr)) row) ->
    0 <= rsum (map (fun row => if f (joint_outcome (jtracks (length (c_births c)) tab (fst hr)) row) then h_p (fst hr) * joint_weight E c t meas (jtracks (length (c_births c)) tab (fst hr)) row else 0) (snd hr))).
  { intros hr1 H1. apply rsum_nonneg. intros x Hx. apply in_map_iff in Hx as [row1 [<- Hr1]]. match goal with |- 0 <= if ?b then _ else _ => destruct b end; [left; apply H1, Hr1|lra]. }
  assert (H1 : 0 <= rsum (map (fun hr => rsum (map (fun row => if f (joint_outcome (jtracks (length (c_births c)) tab (fst hr)) row) then h_p (fst hr) * joint_weight E c t meas (jtracks (length (c_births c)) tab (fst hr)) row else 0) (snd hr))) l)).
  { apply rsum_nonneg. intros x Hx. apply in_map_iff in Hx as [hr1 [<- Hr1]]. apply H0. intros row1 Hr2. apply HP; [right; exact Hr1|exact Hr2]. }
  destruct Hi1 as [->|Hi1].
  - apply Rplus_lt_le_0_compat; [|exact H1]. cbn [fst snd].
    assert (HP1 : forall row, In row rows -> 0 < h_p h * joint_weight E c t meas (jtracks (length (c_births c)) tab h) row) by (intros row1 Hr1; apply (HP (h, rows) row1 (or_introl eq_refl) Hr1)).
    clear -HP1 Hi2 Hf. induction rows as [|r rows IH]; [destruct Hi2|]. cbn [map]. rewrite rsum_cons.
    assert (H1 : 0 <= rsum (map (fun row => if f (joint_outcome (jtracks (length (c_births c)) tab h) row) then h_p h * joint_weight E c t meas (jtracks (length (c_births c)) tab h) row else 0) rows)).
    { apply rsum_nonneg. intros x Hx. apply in_map_iff in Hx as [row1 [<- Hr1]]. match goal with |- 0 <= if ?b then _ else _ => destruct b end; [left; apply HP1; right; exact Hr1|lra]. }
    destruct Hi2 as [->|Hi2]; [rewrite Hf; specialize (HP1 row (or_introl eq_refl)); lra|].
    specialize (IH Hi2 (fun x Hx => HP1 x (or_intror Hx))). specialize (HP1 r (or_introl eq_refl)). destruct (f (joint_outcome _ r)); lra.
  - apply Rplus_le_lt_0_compat; [apply H0; intros row1 Hr1; apply (HP hr row1 (or_introl eq_refl) Hr1)|]. apply IH; [intros hr1 row1 Hr1; apply HP; right; exact Hr1|exact Hi1].
Qed.

(** * C104: after correct (intended order of calls, no failure of the inner filter)
    there are samples for every hypothesis, among them "everything born or
    surviving and missed", such that the probability of any statement about the
    labels and their last associations is its share of the total weight of the
    samples. *)
Theorem C104_jglmb_update_bayes : forall {FS ST CV MS} (E : genv FS ST CV MS) rnd gt c os t meas s s',
  uniform rnd -> hash_ok (v_hash E) -> 0 < c_crate c * c_cden c -> never_fails E [OpCorrect t meas] ->
  protocol 0 os = Some 1%nat -> jrun E (sampler_of rnd) gt c os jst_new = Ok s -> jexec E (sampler_of rnd) gt c (OpCorrect t meas) s = Ok s' ->
  g_hyps (y_g s) <> [] ->
  exists rr, Forall2 (rows_ok c (length meas) (g_tab (y_g s)) (g_hyps (y_g s))) (g_hyps (y_g s)) rr /\
    0 < sampled_total E c t meas (g_tab (y_g s)) (g_hyps (y_g s)) rr (fun _ => true) /\
    forall f, (forall a b, Permutation a b -> f a = f b) ->
      mass (fun h => f (said (g_tab (y_g s')) h)) (g_hyps (y_g s')) =
      sampled_total E c t meas (g_tab (y_g s)) (g_hyps (y_g s)) rr f / sampled_total E c t meas (g_tab (y_g s)) (g_hyps (y_g s)) rr (fun _ => true).
Proof.
  intros FS ST CV MS E rnd gt c os t meas s s' Hr Hh Hcl Hn Hp Hs H Hne.
  destruct (jcorrect_reached E rnd gt c os t meas s s' Hr Hh Hcl Hn Hp Hs H) as [K [rr [HK [HF [Hpos [_ HM]]]]]]. exists rr. split; [exact HF|].
  assert (HT : 0 < sampled_total E c t meas (g_tab (y_g s)) (g_hyps (y_g s)) rr (fun _ => true)).
  { destruct (g_hyps (y_g s)) as [|h0 hs0] eqn:Eh; [congruence|]. eapply (sampled_pos E c t meas _ _ rr (fun _ => true) h0); [exact HF|exact Hpos|left; reflexivity| |reflexivity].
    intros rows HR. exact (proj1 HR). }
  split; [exact HT|]. intros f Hf. rewrite (HM f Hf). pose proof (HM (fun _ => true) (fun _ _ _ => eq_refl)) as H1. set (T := sampled_total _ _ _ _ _ _ _ (fun _ => true)) in *.
  assert (Hne' : g_hyps (y_g s') <> []). { intros E0. rewrite E0 in H1. unfold mass in H1. cbn [filter map] in H1. change (rsum []) with 0 in H1. assert (0 < K * T) by (apply Rmult_lt_0_compat; assumption). lra. }
  cbn [jexec] in H. destruct (jcorrect_dist E _ _ _ _ _ _ _ (uniform_ok _ Hr) (fun z f x Hz => Hn t meas (or_introl eq_refl) z f x Hz) H Hne') as [[_ HS] _].
  unfold mass in H1. rewrite (filter_all_true (g_hyps (y_g s'))), HS in H1. 
  replace K with (/ T); [field; lra|]. apply (Rmult_eq_reg_r T); [|lra]. rewrite <- H1. field. lra.
Qed.
Print Assumptions C104_jglmb_update_bayes.
(** When every track takes its own column or a measurement, and no factor is 0, the
    weight is the product of the birth or survival, detection and likelihood
    factors, exactly. *)
Theorem C104_weight_exact : forall {FS ST CV MS} (E : genv FS ST CV MS) c t meas es row,
  own_columns (length es) row -> 
  (forall r e v, nth_error es r = Some e -> nth_error row r = Some v -> 0 < exact_factor E c t meas (length es) r e v) ->
  joint_weight E c t meas es row = exact_weight E c t meas es row.
Proof.
  intros FS ST CV MS E c t meas es row Ho Hp. unfold joint_weight, exact_weight. apply rprod_ext. intros [r [e v]] Hi. cbn [fst snd].
  apply In_nth_error in Hi as [k Hk]. apply combine_nth_error in Hk as [Hk Hev]. apply combine_nth_error in Hev as [He Hv].
  assert (Hkl : (k < length es)%nat) by (apply nth_error_Some; congruence).
  assert (Hrk : r = k). { apply (nth_error_nth _ _ 0%nat) in Hk. rewrite seq_nth in Hk by exact Hkl. cbn [plus] in Hk. congruence. } subst k.
  specialize (Ho r v Hv). specialize (Hp r e v He Hv). unfold joint_factor, exact_factor in *. 
  assert (Hfl : forall x, 0 < x -> floor_eps x = x) by (intros x Hx; unfold floor_eps; destruct (Rle_dec x 0); [lra|reflexivity]).
  destruct (Nat.ltb_spec v (length es)) as [H1|H1].
  - destruct (Nat.eqb_spec v r); [apply Hfl, Hp|lia].
  - destruct (Nat.ltb_spec v (2 * length es)) as [H2|H2].
    + destruct (Nat.eqb_spec v (length es + r)); [apply Hfl, Hp|lia].
    + destruct (nth_error meas (v - 2 * length es)) as [z|]; [|lra].
      replace (jsurv c r * c_pd c * track_lik E t z e / (c_crate c * c_cden c)) with (jsurv c r * (c_pd c * track_lik E t z e / (c_crate c * c_cden c))) by (unfold Rdiv; ring).
      apply Hfl, Hp.
Qed.
Print Assumptions C104_weight_exact.

(** * C105: every hypothesis has the successor in which every birth and every one of
    its tracks is alive and undetected, however many measurements there are and
    however small its probability. *)
Definition same_said (a b : list (label * option nat)) : bool :=
  let dec := (fun x y : label * option nat => ltac:(decide equality; [decide equality; apply Nat.eq_dec|decide equality; [apply Nat.eq_dec|apply Z.eq_dec]]) : {x = y} + {x <> y}) in
  forallb (fun x => (count_occ dec a x =? count_occ dec b x)%nat) (a ++ b).
Lemma same_said_spec a b : same_said a b = true <-> Permutation a b.
Proof.
  unfold same_said. match goal with |- forallb (fun x => (count_occ ?d _ _ =? _)%nat) _ = true <-> _ => set (dec := d) end. rewrite forallb_forall. split.
  - intros H. apply (Permutation_count_occ dec). intros x. destruct (in_dec dec x (a ++ b)) as [Hi|Hi]; [apply Nat.eqb_eq, H, Hi|].
    rewrite !(proj1 (count_occ_not_In dec _ x)); [reflexivity| |]; intros Hx; apply Hi, in_or_app; auto.
  - intros H x _. apply Nat.eqb_eq, (Permutation_count_occ dec), H.
Qed.
Lemma outcome_start {FS ST CV} (es : list (entry FS ST CV)) : joint_outcome es (seq (length es) (length es)) = map (fun e => (e_label e, None)) es.
Proof.
  unfold joint_outcome. set (n := length es).
  assert (Hgo : forall l st, (n <= st)%nat -> (st + length l <= 2 * n)%nat -> flat_map (fun ev : entry FS ST CV * nat => let '(e, v) := ev in if (v <? n)%nat then [] else if (v <? 2 * n)%nat then [(e_label e, None)] else [(e_label e, Some (v - 2 * n)%nat)]) (combine l (seq st (length l))) = map (fun e => (e_label e, None)) l).
  { induction l as [|e l IH]; intros st H1 H2; [reflexivity|]. cbn [length seq combine flat_map map] in *. rewrite (IH (S st)) by lia. 
    destruct (Nat.ltb_spec st n); [lia|]. destruct (Nat.ltb_spec st (2 * n)); [reflexivity|lia]. }
  unfold n at 5. apply (Hgo es n); unfold n; lia.
Qed.
Theorem C105_jglmb_missed_successor : forall {FS ST CV MS} (E : genv FS ST CV MS) rnd gt c os t meas s s' h,
  uniform rnd -> hash_ok (v_hash E) -> 0 < c_crate c * c_cden c -> never_fails E [OpCorrect t meas] ->
  protocol 0 os = Some 1%nat -> jrun E (sampler_of rnd) gt c os jst_new = Ok s -> jexec E (sampler_of rnd) gt c (OpCorrect t meas) s = Ok s' ->
  In h (g_hyps (y_g s)) ->
  exists h', In h' (g_hyps (y_g s')) /\ 0 < h_p h' /\
    Permutation (said (g_tab (y_g s')) h') (map (fun e => (e_label e, None)) (jtracks (length (c_births c)) (g_tab (y_g s)) h)).
Proof.
  intros FS ST CV MS E rnd gt c os t meas s s' h Hr Hh Hcl Hn Hp Hs H Hin.
  destruct (jcorrect_reached E rnd gt c os t meas s s' Hr Hh Hcl Hn Hp Hs H) as [K [rr [HK [HF [Hpos [_ HM]]]]]].
  set (es := jtracks (length (c_births c)) (g_tab (y_g s)) h). set (want := map (fun e => (e_label e, @None nat)) es).
  specialize (HM (fun l => same_said l want)).
  assert (Hinv : forall a b, Permutation a b -> same_said a want = same_said b want).
  { intros a b Hab. destruct (same_said b want) eqn:E1; [apply same_said_spec; apply same_said_spec in E1; exact (perm_trans Hab E1)|].
    destruct (same_said a want) eqn:E2; [|reflexivity]. apply same_said_spec in E2. rewrite <- E1. symmetry. apply same_said_spec. exact (perm_trans (Permutation_sym Hab) E2). }
  specialize (HM Hinv).
  assert (HT : 0 < sampled_total E c t meas (g_tab (y_g s)) (g_hyps (y_g s)) rr (fun l => same_said l want)).
  { apply (sampled_pos E c t meas _ _ rr _ h (seq (length es) (length es)) HF Hpos Hin); [intros rows HR; exact (proj1 HR)|]. fold es. rewrite outcome_start. apply same_said_spec, Permutation_refl. }
  assert (HP : 0 < mass (fun h => same_said (said (g_tab (y_g s')) h) want) (g_hyps (y_g s'))) by (rewrite HM; apply Rmult_lt_0_compat; assumption).
  unfold mass in HP. destruct (filter _ (g_hyps (y_g s'))) as [|h' l] eqn:Ef; [cbn [map] in HP; change (rsum []) with 0 in HP; lra|].
  assert (Hi : In h' (filter (fun h => same_said (said (g_tab (y_g s')) h) want) (g_hyps (y_g s')))) by (rewrite Ef; left; reflexivity).
  apply filter_In in Hi as [Hi1 Hi2]. exists h'. split; [exact Hi1|]. split; [cbn [jexec] in H; exact (jcorrect_pos E _ _ _ _ _ _ _ H h' Hi1)|]. apply same_said_spec, Hi2.
Qed.
Print Assumptions C105_jglmb_missed_successor.

(** * C106: the number of hypotheses after correct is at most, summed over the old
    ones, one more than the share of each of the requested update components. *)
Theorem C106_jglmb_hypothesis_count : forall {FS ST CV MS} (E : genv FS ST CV MS) rnd gt c os t meas s s',
  uniform rnd -> hash_ok (v_hash E) -> 0 < c_crate c * c_cden c -> never_fails E [OpCorrect t meas] ->
  protocol 0 os = Some 1%nat -> jrun E (sampler_of rnd) gt c os jst_new = Ok s -> jexec E (sampler_of rnd) gt c (OpCorrect t meas) s = Ok s' ->
  (length (g_hyps (y_g s')) <= list_sum (map (fun h => S (share_of (c_requ c) (g_hyps (y_g s)) h)) (g_hyps (y_g s))))%nat.
Proof.
  intros FS ST CV MS E rnd gt c os t meas s s' Hr Hh Hcl Hn Hp Hs H.
  destruct (jcorrect_reached E rnd gt c os t meas s s' Hr Hh Hcl Hn Hp Hs H) as [K [rr [_ [HF [_ [HL _]]]]]]. etransitivity; [exact HL|]. clear HL.
  revert HF. generalize (g_hyps (y_g s)) at 2 4 as l. intros l HF. induction HF as [|h rows hl rl HR _ IH]; [cbn; lia|]. cbn [map list_sum fold_right]. unfold list_sum in IH.
  destruct HR as [_ [_ [HR _]]]. lia.
Qed.
Print Assumptions C106_jglmb_hypothesis_count.
