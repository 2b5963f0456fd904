(** C220: plot_card_dist of the GLMB filter. *)
From Verif Require Import Base Lists.
From Coq Require Import Reals Permutation Sorted Lra Lia.
From Verif Require Import OspaModel CphdModel OspaProofs CphdSpec CphdProofs GlmbModel GlmbSpec GlmbProofs GlmbInv GlmbBayes GlmbExtract GlmbMost GlmbTotal GlmbProps GlmbProps2 GlmbDemo GlmbProps3 GlmbMost2 PlotModel CphdProps.
Open Scope R_scope.

(** ** specification *)
(** The probability that exactly [n] objects exist. *)
Definition pcard (n : nat) (hs : list hyp) : R := mass (fun h => (length (h_ts h) =? n)%nat) hs.
(** The chart shows the distribution of the number of objects under [hs]: one bar per
    count from 0 on, of the height of its probability, and no bar missing. *)
Definition shows_card (bars : list (R * R)) (hs : list hyp) : Prop :=
  (forall n, (n < length bars)%nat -> nth_error bars n = Some (INR n, pcard n hs)) /\
  (forall n, (length bars <= n)%nat -> pcard n hs = 0) /\
  (forall x p, In (x, p) bars -> 0 <= p) /\ rsum (map snd bars) = 1.
(** Calls after which the stored distribution is up to date. *)
Definition refreshes {MS} (o : @gop MS) : Prop :=
  match o with OpCorrect _ _ => True | OpCleanup pr _ _ => pr = true | _ => False end.

(** ** proofs *)
Lemma in_pcard h hs : (forall x, In x hs -> 0 < h_p x) -> In h hs -> 0 < pcard (length (h_ts h)) hs.
Proof.
  intros Hp Hi. unfold pcard, mass.
  assert (Hf : In h (filter (fun x => (length (h_ts x) =? length (h_ts h))%nat) hs)) by (apply filter_In; split; [exact Hi|apply Nat.eqb_refl]).
  apply in_split in Hf as [l1 [l2 Hf]].
  assert (Q : forall x, In x (l1 ++ h :: l2) -> 0 < h_p x) by (intros x Hx; rewrite <- Hf in Hx; apply filter_In in Hx as [Hx _]; auto).
  rewrite Hf, map_app, rsum_app. cbn [map]. rewrite rsum_cons.
  assert (A : 0 <= rsum (map h_p l1)) by (apply rsum_nonneg; intros x Hx; apply in_map_iff in Hx as [y [<- Hy]]; left; apply Q, in_or_app; left; exact Hy).
  assert (B : 0 <= rsum (map h_p l2)) by (apply rsum_nonneg; intros x Hx; apply in_map_iff in Hx as [y [<- Hy]]; left; apply Q, in_or_app; right; right; exact Hy).
  pose proof (Q h (in_elt _ _ _)). lra.
Qed.
Lemma pcard_nonneg n hs : (forall x, In x hs -> 0 < h_p x) -> 0 <= pcard n hs.
Proof. intros Hp. apply rsum_nonneg. intros x Hx. apply in_map_iff in Hx as [y [<- Hy]]. apply filter_In in Hy as [Hy _]. left. auto. Qed.
Lemma one_bar m p : forall k a, rsum (map (fun n => if (m =? n)%nat then p else 0) (seq a k)) = if ((a <=? m)%nat && (m <? a + k)%nat)%bool then p else 0.
Proof.
  induction k as [|k IH]; intros a; cbn [seq map].
  - destruct (a <=? m)%nat eqn:E1; [|reflexivity]. destruct (m <? a + 0)%nat eqn:E2; [|reflexivity]. apply Nat.leb_le in E1. apply Nat.ltb_lt in E2. lia.
  - rewrite rsum_cons, IH. destruct (m =? a)%nat eqn:E0; destruct (S a <=? m)%nat eqn:E1; destruct (m <? S a + k)%nat eqn:E2; destruct (a <=? m)%nat eqn:E3; destruct (m <? a + S k)%nat eqn:E4; cbn [andb]; try lra; exfalso;
    rewrite ?Nat.eqb_eq, ?Nat.eqb_neq, ?Nat.leb_le, ?Nat.leb_gt, ?Nat.ltb_lt, ?Nat.ltb_ge in *; lia.
Qed.
Lemma pcard_sum k hs : (forall h, In h hs -> (length (h_ts h) < k)%nat) -> rsum (map (fun n => pcard n hs) (seq 0 k)) = rsum (map h_p hs).
Proof.
  induction hs as [|h hs IH]; intros Hk.
  - unfold pcard, mass. cbn. rewrite rsum_const. lra.
  - rewrite (rsum_ext _ (fun n => (if (length (h_ts h) =? n)%nat then h_p h else 0) + pcard n hs)).
    + rewrite rsum_plus, one_bar, IH by (intros x Hx; apply Hk; right; exact Hx). cbn [map]. rewrite rsum_cons. cbn [Nat.leb andb].
      pose proof (Hk h (or_introl eq_refl)) as L. apply Nat.ltb_lt in L. cbn [Nat.add]. rewrite L. reflexivity.
    + intros n _. unfold pcard, mass. cbn [filter]. destruct (_ =? n)%nat; cbn [map]; rewrite ?rsum_cons; lra.
Qed.
Lemma nth_seq_map (l : list R) : map (fun n => nth n l 0) (seq 0 (length l)) = l.
Proof.
  apply (nth_ext _ _ 0 0); [rewrite map_length, seq_length; reflexivity|]. intros n Hn. rewrite map_length, seq_length in Hn.
  rewrite (nth_indep _ 0 (nth 0%nat l 0)) by (rewrite map_length, seq_length; exact Hn). rewrite (map_nth (fun n => nth n l 0)), seq_nth by exact Hn. reflexivity.
Qed.
Lemma card_plot_shows card hs : prob_dist hs -> card_matches card hs -> exists bars, plot_card_dist card = Ok bars /\ shows_card bars hs.
Proof.
  intros [Hp Ht] Hc.
  assert (Hl : forall h, In h hs -> (length (h_ts h) < length card)%nat).
  { intros h Hh. destruct (lt_dec (length (h_ts h)) (length card)) as [L|L]; [exact L|]. exfalso. pose proof (in_pcard h hs Hp Hh) as P.
    unfold pcard in P. rewrite <- Hc, nth_overflow in P by lia. lra. }
  assert (Hne : card <> []). { intros ->. destruct hs as [|h hs]; [cbn in Ht; lra|]. specialize (Hl h (or_introl eq_refl)). cbn in Hl. lia. }
  assert (Lx : length (map INR (seq 0 (length card))) = length card) by (rewrite map_length, seq_length; reflexivity).
  exists (combine (map INR (seq 0 (length card))) card). split; [|split; [|split; [|split]]].
  - unfold plot_card_dist, draw. rewrite Lx, Nat.eqb_refl. destruct card; [congruence|reflexivity].
  - intros n Hn. rewrite combine_length, Lx, Nat.min_id in Hn. rewrite (nth_error_nth' _ (INR 0, 0)) by (rewrite combine_length, Lx; lia). rewrite combine_nth by exact Lx.
    rewrite map_nth, seq_nth by lia. rewrite Hc. reflexivity.
  - intros n Hn. rewrite combine_length, Lx, Nat.min_id in Hn. unfold pcard. rewrite <- Hc. apply nth_overflow, Hn.
  - intros x p Hx. apply in_combine_r in Hx. apply (In_nth _ _ 0) in Hx as [n [_ <-]]. rewrite Hc. apply pcard_nonneg, Hp.
  - assert (F : map snd (combine (map INR (seq 0 (length card))) card) = card).
    { revert Lx. generalize (map INR (seq 0 (length card))) as xs. clear. induction card as [|y ys IH]; intros [|x xs] H; try discriminate H; [reflexivity|]. cbn. f_equal. apply IH. cbn in H. lia. }
    rewrite F, <- Ht, <- (pcard_sum (length card) hs Hl). transitivity (rsum (map (fun n => nth n card 0) (seq 0 (length card)))); [rewrite nth_seq_map; reflexivity|].
    apply rsum_ext. intros n _. apply Hc.
Qed.

(** ** theorems *)
(** C220: after a correction, or a cleanup that prunes, of any history without a
    failing update, the chart is the distribution of the number of objects. *)
Theorem C220_glmb_card_plot_partial : forall {FS ST CV MS} (E : genv FS ST CV MS) c os o s,
  murty_ok (v_murty E) -> rsorts (v_argsort E) -> never_fails E (os ++ [o]) -> run E c (os ++ [o]) glmb_new = Ok s -> refreshes o ->
  g_hyps s <> [] -> exists bars, plot_card_dist (g_card s) = Ok bars /\ shows_card bars (g_hyps s).
Proof.
  intros FS ST CV MS E c os o s Hm Hs Hn H Ho Hne. apply card_plot_shows; [exact (C46_glmb_distribution E c _ s Hm Hs Hn H Hne)|].
  rewrite run_app in H. apply bind_ok in H as [s0 [_ H]]. cbn [run] in H. apply bind_ok in H as [s1 [H E1]]. injection E1 as ->.
  destruct o as [t|t meas|pr ca ex|u k]; cbn [refreshes] in Ho; try contradiction; cbn [exec] in H; [|subst pr].
  - apply (correct_dist E c t meas s0 s Hm); [|exact H|exact Hne]. apply (Hn t meas), in_or_app. right. left. reflexivity.
  - exact (C47_after_pruning_cleanup E c ca ex s0 s H Hne).
Qed.
Print Assumptions C220_glmb_card_plot_partial.
(** Refuted otherwise: nothing is drawn before the first step although the filter
    holds a hypothesis, and after a prediction the chart is that of the survivors:
    a bar of height 1 at 0 objects where an object exists for certain. *)
Theorem C220_stale_card_plot_refuted : exists (E : genv unit unit unit unit) c t s,
  kshort_ok (v_kshort E) /\ murty_ok (v_murty E) /\ cfg_ok c /\
  prob_dist (g_hyps (@glmb_new unit unit unit unit)) /\ plot_card_dist (g_card (@glmb_new unit unit unit unit)) = Err RuntimeErr /\
  run E c [OpPredict t] glmb_new = Ok s /\ prob_dist (g_hyps s) /\ pcard 0 (g_hyps s) = 0 /\
  exists bars, plot_card_dist (g_card s) = Ok bars /\ nth_error bars 0 = Some (0, 1) /\ ~ shows_card bars (g_hyps s).
Proof.
  destruct C47_after_predict_refuted as [E [c [t [s [H1 [H2 [H3 [H4 [H5 [H6 [H7 H8]]]]]]]]]]].
  exists E, c, t, s. split; [exact H1|]. split; [exact H2|]. split; [exact H3|]. split; [split; [intros h [<-|[]]; cbn; lra|cbn; lra]|]. split; [reflexivity|].
  split; [exact H4|]. split; [exact H5|]. split; [exact H7|].
  unfold plot_card_dist, draw. rewrite map_length, seq_length, Nat.eqb_refl. destruct (g_card s) as [|x r] eqn:Ec; [cbn in H6; lra|].
  eexists. split; [reflexivity|]. cbn in H6. subst x. split; [reflexivity|]. intros [A _]. specialize (A 0%nat). cbn [length seq map combine nth_error] in A.
  specialize (A ltac:(lia)). injection A as A. unfold pcard in A. rewrite H7 in A. lra.
Qed.
Print Assumptions C220_stale_card_plot_refuted.

(** An instance of the hypotheses: predict, correct with one measurement. *)
Example C220_ex : exists (E : genv unit unit unit unit) c os o s, murty_ok (v_murty E) /\ rsorts (v_argsort E) /\ never_fails E (os ++ [o]) /\
  run E c (os ++ [o]) glmb_new = Ok s /\ refreshes o /\ g_hyps s <> [] /\ pcard 1 (g_hyps s) = 1.
Proof.
  set (E := d_env false). set (c := d_cfg (1 / 10)).
  assert (R1 : run E c [OpPredict 0] glmb_new = Ok wS1) by (apply w_predict; lra).
  destruct (w_cor wS1 (b_ent 0 0) [] 0 eq_refl eq_refl ltac:(cbn; lia)) as [s2 [e2 [C2 [H2 _]]]]. fold E c in C2.
  assert (Hs : rsorts (v_argsort E)) by exact C44_ex.
  exists E, c, [OpPredict 0], (OpCorrect 0 [tt]), s2. split; [exact d_murty_ok|]. split; [exact Hs|]. split; [apply d_never_fails|].
  split; [rewrite run_app, R1; cbn [bind run exec]; rewrite C2; reflexivity|]. split; [exact I|]. rewrite H2. split; [discriminate|]. unfold pcard, mass, one. cbn. lra.
Qed.
