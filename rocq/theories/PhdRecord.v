(** What a PHD filter records and what its read-only properties return, over
    whole histories with attributes free to change between calls (C181, C182). *)
From Verif Require Import Base Lists PhdModel PhdSpec PhdProofs PhdProps PhdHist.
From Coq Require Import Lqa.

(** ** model *)
(** Property states, tracker.py:608-619: the last list of extracted states. *)
Definition states_of {Meas} (s : phd Meas) : list vec := last (ph_states s) [].
(** Property covariances, tracker.py:621-641 (the warning is not modelled). *)
Definition covariances_of {Meas} (c : cfg Meas) (s : phd Meas) : list mat :=
  if c_save_covs c then last (ph_covs s) [] else [].
(** Property cardinality, tracker.py:643-649. *)
Definition cardinality_of {Meas} (s : phd Meas) : nat :=
  match ph_states s with [] => 0 | _ => length (last (ph_states s) []) end.

(** ** specification *)
(** The correct calls of a history, and the attributes at its extractions. *)
Definition corrections {Meas} (l : list (cfg Meas * op Meas)) : list (cfg Meas * list Meas) :=
  flat_map (fun co => match snd co with Correct z => [(fst co, z)] | _ => [] end) l.
Definition extractions {Meas} (l : list (cfg Meas * op Meas)) : list (cfg Meas) :=
  flat_map (fun co => match snd co with Extract => [fst co] | Cleanup _ _ _ true => [fst co] | _ => [] end) l.
(** The measurements a correct call used: all, or those that passed the gate. *)
Definition used_by {Meas} (cz : cfg Meas * list Meas) (used : list Meas) : Prop :=
  if c_gating (fst cz) then exists g, c_gate (fst cz) (snd cz) g = Ok used else used = snd cz.
(** The report of a mixture: every component with weight at least the threshold,
    in order, as many copies as its rounded weight. *)
Definition report {Meas A} (c : cfg Meas) (g : gmix) (x : nat -> A) (l : list A) : Prop :=
  exists r, (forall i, nearest_even (W g i) (r i)) /\
    l = flat_map (fun i => repeat (x i) (Z.to_nat (r i))) (filter (fun i => Qle_bool (c_extract c) (W g i)) (seq 0 (length (gm_w g)))).

(** ** proofs *)
Section R.
Context {Meas : Type} (argsort : list Q -> list nat).
Lemma extract_rec (c : cfg Meas) s s' : do_extract c s = Ok s' -> ph_mix s' = ph_mix s /\ ph_meas s' = ph_meas s /\
  exists x y, ph_states s' = ph_states s ++ [x] /\ ph_covs s' = (if c_save_covs c then ph_covs s ++ [y] else ph_covs s) /\
    report c (ph_mix s') (Mn (ph_mix s')) x /\ (c_save_covs c = true -> report c (ph_mix s') (P (ph_mix s')) y).
Proof.
  unfold do_extract. intros E. apply bind_ok in E as [[sl cl] [E1 E]]. injection E as <-. cbn [ph_mix ph_meas ph_states ph_covs].
  split; [reflexivity|]. split; [reflexivity|]. exists sl, cl. split; [reflexivity|]. split; [reflexivity|].
  unfold extract in E1. destruct (_ && _)%bool; [|discriminate]. injection E1 as <- <-.
  split; [|intros ->]; exists (fun i => py_round (W (ph_mix s) i)); (split; [intros i; apply py_round_spec|reflexivity]).
Qed.
(** One call. *)
Lemma step_rec (c : cfg Meas) o s s' : step c argsort o s = Ok s' ->
  (exists m, ph_meas s' = ph_meas s ++ m /\ Forall2 used_by (corrections [(c, o)]) m) /\
  match extractions [(c, o)] with
  | [] => ph_states s' = ph_states s /\ ph_covs s' = ph_covs s
  | _ => extractions [(c, o)] = [c] /\ exists x y, ph_states s' = ph_states s ++ [x] /\ ph_covs s' = (if c_save_covs c then ph_covs s ++ [y] else ph_covs s) /\
           report c (ph_mix s') (Mn (ph_mix s')) x /\ (c_save_covs c = true -> report c (ph_mix s') (P (ph_mix s')) y)
  end.
Proof.
  destruct o as [|z| |pr ca me ex]; cbn [step corrections extractions flat_map fst snd app]; intros E.
  - injection E as <-. cbn [with_mix ph_meas ph_states ph_covs]. split; [|auto]. exists []. rewrite app_nil_r. split; [reflexivity|constructor].
  - apply bind_ok in E as [[ms g] [E1 E]]. injection E as <-. cbn [ph_meas ph_states ph_covs]. split; [|auto]. exists [ms]. split; [reflexivity|].
    constructor; [|constructor]. unfold correct in E1. apply bind_ok in E1 as [ms' [Em E1]]. apply bind_ok in E1 as [gm [_ E1]]. injection E1 as -> _.
    unfold used_by. cbn [fst snd]. destruct (c_gating c); [eauto|]. injection Em as ->. reflexivity.
  - apply extract_rec in E as [_ [Em H]]. split; [exists []; rewrite app_nil_r; split; [exact Em|constructor]|]. split; [reflexivity|exact H].
  - unfold cleanup in E. apply bind_ok in E as [g1 [_ E]]. apply bind_ok in E as [g2 [_ E]]. apply bind_ok in E as [g3 [_ E]]. destruct ex.
    + apply extract_rec in E as [_ [Em H]]. cbn [with_mix ph_meas ph_states ph_covs ph_mix] in *. split; [exists []; rewrite app_nil_r; split; [exact Em|constructor]|]. split; [reflexivity|exact H].
    + injection E as <-. cbn [with_mix ph_meas ph_states ph_covs app]. split; [|auto]. exists []. rewrite app_nil_r. split; [reflexivity|constructor].
Qed.
Lemma corrections_app (l l' : list (cfg Meas * op Meas)) : corrections (l ++ l') = corrections l ++ corrections l'.
Proof. apply flat_map_app. Qed.
Lemma extractions_app (l l' : list (cfg Meas * op Meas)) : extractions (l ++ l') = extractions l ++ extractions l'.
Proof. apply flat_map_app. Qed.
Lemma hrun_rec (l : list (cfg Meas * op Meas)) : forall s s', hrun argsort l s = Ok s' -> exists m x y,
  ph_meas s' = ph_meas s ++ m /\ ph_states s' = ph_states s ++ x /\ ph_covs s' = ph_covs s ++ y /\
  Forall2 used_by (corrections l) m /\ length x = length (extractions l) /\ length y = length (filter c_save_covs (extractions l)).
Proof.
  induction l as [|[c o] l IH]; intros s s' E; cbn [hrun] in E.
  - injection E as <-. exists [], [], []. rewrite !app_nil_r. repeat split. constructor.
  - apply bind_ok in E as [s1 [E1 E]]. destruct (IH s1 s' E) as [m [x [y [A1 [A2 [A3 [A4 [A5 A6]]]]]]]].
    apply step_rec in E1 as [[m1 [B1 B2]] B3].
    change ((c, o) :: l) with ([(c, o)] ++ l). rewrite corrections_app, extractions_app, filter_app, !app_length.
    destruct (extractions [(c, o)]) as [|e es] eqn:Ee.
    + destruct B3 as [B3 B4]. exists (m1 ++ m), x, y. rewrite A1, A2, A3, B1, B3, B4, app_assoc. cbn [filter length Nat.add]. repeat (split; [first [reflexivity|assumption|apply Forall2_app; assumption]|]). assumption.
    + destruct B3 as [Ec [x1 [y1 [B3 [B4 _]]]]]. injection Ec as -> ->. exists (m1 ++ m), (x1 :: x), (if c_save_covs c then y1 :: y else y).
      rewrite A1, A2, A3, B1, B3, B4, <- !app_assoc. cbn [filter length Nat.add app].
      destruct (c_save_covs c); cbn [length]; rewrite <- ?app_assoc; cbn [app Nat.add]; repeat (split; [first [reflexivity|assumption|apply Forall2_app; assumption|congruence]|]); congruence.
Qed.
End R.

(** * C181 *)
(** Along any history, whatever happened before: every correct call adds one
    entry, the measurements it used, to the measurement record, every extraction
    one entry to the record of states and, if covariances are saved at the time,
    one to that of covariances; what is recorded stays. *)
Theorem C181_phd_records : forall (Meas : Type) argsort (l : list (cfg Meas * op Meas)) s s', hrun argsort l s = Ok s' ->
  exists m x y, ph_meas s' = ph_meas s ++ m /\ ph_states s' = ph_states s ++ x /\ ph_covs s' = ph_covs s ++ y /\
    Forall2 used_by (corrections l) m /\ length x = length (extractions l) /\ length y = length (filter c_save_covs (extractions l)).
Proof. intros Meas argsort l s s'. apply hrun_rec. Qed.
(** A new filter has recorded nothing. *)
Theorem C181_phd_records_new : forall (Meas : Type) argsort (l : list (cfg Meas * op Meas)) s, hrun argsort l phd_init = Ok s ->
  Forall2 used_by (corrections l) (ph_meas s) /\ length (ph_states s) = length (extractions l) /\
  length (ph_covs s) = length (filter c_save_covs (extractions l)).
Proof.
  intros Meas argsort l s E. destruct (hrun_rec argsort l _ _ E) as [m [x [y [A1 [A2 [A3 [A4 [A5 A6]]]]]]]]. cbn [phd_init ph_meas ph_states ph_covs app] in *.
  rewrite A1, A2, A3. auto.
Qed.
(** * C182 *)
(** The properties return the report of the mixture at the last extraction; the
    covariances too, if they are saved then and when they are read. *)
Theorem C182_phd_readouts : forall (Meas : Type) argsort (l1 l2 : list (cfg Meas * op Meas)) c o s, hrun argsort (l1 ++ (c, o) :: l2) phd_init = Ok s ->
  extractions [(c, o)] <> [] -> extractions l2 = [] ->
  exists s1, hrun argsort (l1 ++ [(c, o)]) phd_init = Ok s1 /\ report c (ph_mix s1) (Mn (ph_mix s1)) (states_of s) /\
    cardinality_of s = length (states_of s) /\
    forall c', c_save_covs c = true -> c_save_covs c' = true -> report c (ph_mix s1) (P (ph_mix s1)) (covariances_of c' s).
Proof.
  intros Meas argsort l1 l2 c o s E Ho H2. rewrite hrun_app in E. apply bind_ok in E as [s0 [E0 E]]. cbn [hrun] in E. apply bind_ok in E as [s1 [E1 E]].
  exists s1. split; [rewrite hrun_app, E0; cbn [bind hrun]; rewrite E1; reflexivity|].
  destruct (hrun_rec argsort l2 _ _ E) as [m [x [y [_ [A2 [A3 [_ [A5 A6]]]]]]]]. rewrite H2 in A5, A6. cbn [filter length] in A5, A6.
  destruct x; [|discriminate]. destruct y; [|discriminate]. rewrite app_nil_r in A2, A3.
  apply step_rec in E1 as [_ B]. destruct (extractions [(c, o)]) as [|e es]; [congruence|]. destruct B as [_ [x [y [B1 [B2 [B3 B4]]]]]].
  unfold states_of, cardinality_of, covariances_of. rewrite A2, A3, B1, B2, last_last. split; [exact B3|]. split.
  - destruct (ph_states s0 ++ [x]) eqn:En; [symmetry in En; apply app_cons_not_nil in En; destruct En|reflexivity].
  - intros c' H H'. rewrite H, H', last_last. apply B4. exact H.
Qed.
(** Before any extraction they are empty. *)
Theorem C182_phd_readouts_new : forall (Meas : Type) argsort (l : list (cfg Meas * op Meas)) c s, hrun argsort l phd_init = Ok s -> extractions l = [] ->
  states_of s = [] /\ cardinality_of s = 0 /\ covariances_of c s = [].
Proof.
  intros Meas argsort l c s E H. destruct (C181_phd_records_new _ _ _ _ E) as [_ [A B]]. rewrite H in A, B. cbn [filter length] in A, B.
  unfold states_of, cardinality_of, covariances_of. destruct (ph_states s); [|discriminate]. destruct (ph_covs s); [|discriminate]. destruct (c_save_covs c); auto.
Qed.
(** Refuted if save_covs is switched off for a while: the covariances read are
    those of an older extraction and do not match the states. *)
Definition quiet (c : cfg nat) : cfg nat :=
  {| c_filter := c_filter c; c_pd := c_pd c; c_ps := c_ps c; c_birth := c_birth c; c_kappa := c_kappa c; c_extract := c_extract c; c_prune := c_prune c;
     c_merge := c_merge c; c_max := c_max c; c_gating := c_gating c; c_save_covs := false; c_dim := c_dim c; c_inv := c_inv c; c_gate := c_gate c |}.
Definition off_ops : list (cfg nat * op nat) := [(h_cfg 1, Predict); (h_cfg 1, Extract); (h_cfg 1, Predict); (quiet (h_cfg 1), Extract)].
Theorem C182_covariances_stale_refuted : exists s, hrun q_argsort off_ops phd_init = Ok s /\
  length (states_of s) <> length (covariances_of (h_cfg 1) s) /\ (forall c o, In (c, o) off_ops -> phd_ok (pos_def 1) c /\ careful o).
Proof.
  eexists. split; [vm_compute; reflexivity|]. split; [vm_compute; discriminate|].
  assert (H1 := h_ok 1 ltac:(lra)).
  intros c o Hi. repeat (destruct Hi as [Hi|Hi]; [injection Hi as <- <-; split; [first [exact H1|destruct H1; constructor; assumption]|exact Logic.I]|]). destruct Hi.
Qed.
(** Hypotheses of C181 and C182. *)
Example C182_ex : exists s l1 c o, hrun q_argsort h_ops phd_init = Ok s /\ length (corrections h_ops) = 2 /\ length (extractions h_ops) = 2 /\
  h_ops = l1 ++ [(c, o)] /\ extractions [(c, o)] <> [] /\ c_save_covs c = true.
Proof.
  eexists _, (firstn 5 h_ops), _, _. split; [vm_compute; reflexivity|]. split; [reflexivity|]. split; [reflexivity|]. split; [reflexivity|]. split; [discriminate|reflexivity].
Qed.
Example C182_ex2 : exists s c, hrun q_argsort (firstn 2 h_ops ++ (c, Cleanup true true true true) :: [(c, Predict)]) phd_init = Ok s /\ cardinality_of s = 1.
Proof. eexists _, (h_cfg 1). split; [vm_compute; reflexivity|]. reflexivity. Qed.
Print Assumptions C181_phd_records.
Print Assumptions C181_phd_records_new.
Print Assumptions C182_phd_readouts.
Print Assumptions C182_phd_readouts_new.
Print Assumptions C182_covariances_stale_refuted.
