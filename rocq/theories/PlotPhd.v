(** C215: the states and error ellipses drawn by plot_states of the PHD filters. *)
From Verif Require Import Base Lists PhdModel PhdSpec PhdProofs PhdProps PhdHist PhdRecord.
From Coq Require Import Lqa.

(** ** model *)
(** The loop of plot_states, tracker.py:1052-1094, over (tt, states): the states
    scattered at a step and the (centre, covariance) pairs of its ellipses; empty
    steps are skipped.  [show] is show_sig (1025): a number of sigmas was given and
    save_covs holds at the call.  Colours, labels, the true states, the
    measurements and the computation of the axes are not modelled. *)
Fixpoint plot_steps (show : bool) (covs : list (list mat)) (tt : nat) (sts : list (list vec)) : result (list (list vec * list (vec * mat))) :=
  match sts with
  | [] => Ok []
  | [] :: r => plot_steps show covs (S tt) r
  | row :: r =>
      do es <- (if show then
                  match nth_error covs tt with
                  | None => Err IndexErr
                  | Some cl => if length cl <=? length row then Ok (combine row cl) else Err IndexErr
                  end
                else Ok []);
      do l <- plot_steps show covs (S tt) r;
      Ok ((row, es) :: l)
  end.
Definition plot_phd_states {Meas} (show : bool) (s : phd Meas) : result (list (list vec * list (vec * mat))) :=
  plot_steps show (ph_covs s) 0 (ph_states s).

(** ** specification *)
(** Nothing was reported. *)
Definition nonempty {A} (l : list A) : bool := match l with [] => false | _ => true end.
(** One entry per extraction: the reported (state, covariance) pairs are the mean
    and the covariance of the same component of the mixture at that extraction. *)
Definition reported_pairs {Meas} argsort (l : list (cfg Meas * op Meas)) (steps : list (list (vec * mat))) : Prop :=
  length steps = length (extractions l) /\
  forall l1 c o l2, l = l1 ++ (c, o) :: l2 -> extractions [(c, o)] <> [] ->
    exists s1 row, hrun argsort (l1 ++ [(c, o)]) phd_init = Ok s1 /\ nth_error steps (length (extractions l1)) = Some row /\
      report c (ph_mix s1) (fun i => (Mn (ph_mix s1) i, P (ph_mix s1) i)) row.

(** ** proofs *)
Lemma flat_map_map {A B C} (f : A -> list B) (g : B -> C) l : map g (flat_map f l) = flat_map (fun x => map g (f x)) l.
Proof. induction l as [|x l IH]; [reflexivity|]. cbn [flat_map]. rewrite map_app, IH. reflexivity. Qed.
Lemma map_repeat' {A B} (g : A -> B) x n : map g (repeat x n) = repeat (g x) n.
Proof. induction n as [|n IH]; [reflexivity|]. cbn. rewrite IH. reflexivity. Qed.
Lemma extract_pairs {Meas} (c : cfg Meas) s s' : c_save_covs c = true -> do_extract c s = Ok s' -> ph_mix s' = ph_mix s /\
  exists row, ph_states s' = ph_states s ++ [map fst row] /\ ph_covs s' = ph_covs s ++ [map snd row] /\
    report c (ph_mix s') (fun i => (Mn (ph_mix s') i, P (ph_mix s') i)) row.
Proof.
  intros Hs. unfold do_extract. intros E. apply bind_ok in E as [[sl cl] [E1 E]]. rewrite Hs in E. injection E as <-. cbn [ph_mix ph_states ph_covs].
  split; [reflexivity|]. unfold extract in E1. rewrite Hs in E1. destruct (_ && _)%bool; [|discriminate]. injection E1 as <- <-.
  exists (flat_map (fun i => repeat (Mn (ph_mix s) i, P (ph_mix s) i) (Z.to_nat (py_round (W (ph_mix s) i)))) (filter (fun i => Qle_bool (c_extract c) (W (ph_mix s) i)) (seq 0 (length (gm_w (ph_mix s)))))).
  split; [|split].
  - do 2 f_equal. rewrite flat_map_map. apply flat_map_ext. intros i. rewrite map_repeat'. reflexivity.
  - do 2 f_equal. rewrite flat_map_map. apply flat_map_ext. intros i. rewrite map_repeat'. reflexivity.
  - exists (fun i => py_round (W (ph_mix s) i)). split; [intros i; apply py_round_spec|reflexivity].
Qed.
Lemma step_pairs {Meas} argsort (c : cfg Meas) o s s' : step c argsort o s = Ok s' ->
  match extractions [(c, o)] with
  | [] => ph_states s' = ph_states s /\ ph_covs s' = ph_covs s
  | _ => extractions [(c, o)] = [c] /\ (c_save_covs c = true -> exists row, ph_states s' = ph_states s ++ [map fst row] /\ ph_covs s' = ph_covs s ++ [map snd row] /\
           report c (ph_mix s') (fun i => (Mn (ph_mix s') i, P (ph_mix s') i)) row)
  end.
Proof.
  destruct o as [|z| |pr ca me ex]; cbn [step extractions flat_map fst snd app]; intros E.
  - injection E as <-. split; reflexivity.
  - apply bind_ok in E as [[ms g] [E1 E]]. injection E as <-. split; reflexivity.
  - split; [reflexivity|]. intros Hs. apply (extract_pairs c s s' Hs E).
  - unfold cleanup in E. apply bind_ok in E as [g1 [_ E]]. apply bind_ok in E as [g2 [_ E]]. apply bind_ok in E as [g3 [_ E]]. destruct ex.
    + split; [reflexivity|]. intros Hs. apply (extract_pairs c _ s' Hs) in E. exact (proj2 E).
    + injection E as <-. split; reflexivity.
Qed.
Lemma hrun_app' {Meas} argsort (l1 l2 : list (cfg Meas * op Meas)) : forall s, hrun argsort (l1 ++ l2) s = bind (hrun argsort l1 s) (hrun argsort l2).
Proof.
  induction l1 as [|[c o] l1 IH]; intros s; [reflexivity|]. cbn [app hrun]. destruct (step c argsort o s); [|reflexivity]. cbn [bind]. apply IH.
Qed.
Lemma run_pairs {Meas} argsort (l : list (cfg Meas * op Meas)) : forall s, hrun argsort l phd_init = Ok s ->
  (forall c, In c (extractions l) -> c_save_covs c = true) ->
  exists steps, ph_states s = map (map fst) steps /\ ph_covs s = map (map snd) steps /\ reported_pairs argsort l steps.
Proof.
  induction l as [|[c o] l IH] using rev_ind; intros s H Hs.
  - cbn [hrun] in H. injection H as <-. exists []. split; [reflexivity|]. split; [reflexivity|]. split; [reflexivity|]. intros l1 c o l2 E. destruct l1; discriminate E.
  - pose proof H as HH. rewrite hrun_app' in H. apply bind_ok in H as [s0 [H0 H]]. cbn [hrun] in H. apply bind_ok in H as [s1 [H1 H]]. injection H as ->.
    rewrite extractions_app in Hs. destruct (IH s0 H0 ltac:(intros c' Hc; apply Hs, in_or_app; left; exact Hc)) as [steps [A [B [C D]]]].
    apply step_pairs in H1. pose proof (extractions_app l [(c, o)]) as Ea.
    assert (Old : forall steps', (length steps <= length steps')%nat -> (forall k, (k < length steps)%nat -> nth_error steps' k = nth_error steps k) ->
      forall l1 c0 o0 l2, l2 <> [] -> l ++ [(c, o)] = l1 ++ (c0, o0) :: l2 -> extractions [(c0, o0)] <> [] ->
      exists s1 row, hrun argsort (l1 ++ [(c0, o0)]) phd_init = Ok s1 /\ nth_error steps' (length (extractions l1)) = Some row /\
        report c0 (ph_mix s1) (fun i => (Mn (ph_mix s1) i, P (ph_mix s1) i)) row).
    { intros steps' Ls Ns l1 c0 o0 l2 Hn E Hx. destruct (exists_last Hn) as [l2' [co ->]].
      rewrite app_comm_cons, app_assoc in E. apply app_inj_tail in E as [E _]. destruct (D l1 c0 o0 l2' E Hx) as [s2 [row [F1 [F2 F3]]]].
      exists s2, row. split; [exact F1|]. split; [|exact F3]. rewrite Ns; [exact F2|]. apply nth_error_Some. rewrite F2. discriminate. }
    destruct (extractions [(c, o)]) as [|e es] eqn:Ee.
    + destruct H1 as [E1 E2]. exists steps. rewrite E1, E2. split; [exact A|]. split; [exact B|]. split; [rewrite Ea, app_nil_r; exact C|].
      intros l1 c0 o0 [|co l2] E Hx.
      * apply app_inj_tail in E as [<- E]. injection E as <- <-. rewrite Ee in Hx. contradiction.
      * apply (Old steps (le_n _) ltac:(auto) l1 c0 o0 (co :: l2)); [discriminate|exact E|exact Hx].
    + destruct H1 as [E1 E2]. injection E1 as -> ->. destruct E2 as [row [R1 [R2 R3]]]; [apply Hs, in_or_app; right; left; reflexivity|].
      exists (steps ++ [row]). rewrite R1, R2, A, B, !map_app. split; [reflexivity|]. split; [reflexivity|]. split; [rewrite Ea, !app_length, C; reflexivity|].
      intros l1 c0 o0 [|co l2] E Hx.
      * apply app_inj_tail in E as [<- E]. injection E as <- <-. exists s, row. split; [exact HH|]. split; [|exact R3].
        rewrite <- C, nth_error_app2, Nat.sub_diag by lia. reflexivity.
      * apply (Old (steps ++ [row])) with (l2 := co :: l2); [rewrite app_length; lia|intros k Hk; apply nth_error_app1, Hk|discriminate|exact E|exact Hx].
Qed.
Lemma plot_steps_pairs (steps : list (list (vec * mat))) : forall pre,
  plot_steps true (map (map snd) (pre ++ steps)) (length pre) (map (map fst) steps) = Ok (map (fun row => (map fst row, row)) (filter nonempty steps)).
Proof.
  induction steps as [|row steps IH]; intros pre; [reflexivity|].
  specialize (IH (pre ++ [row])). rewrite <- app_assoc, app_length, Nat.add_1_r in IH. cbn [app] in IH.
  destruct row as [|x row]; [exact IH|]. cbn [map plot_steps filter nonempty]. rewrite IH.
  rewrite map_app, nth_error_app2 by (rewrite map_length; lia). rewrite map_length, Nat.sub_diag. cbn [map nth_error length].
  rewrite !map_length, Nat.leb_refl. cbn [bind].
  assert (E : forall r : list (vec * mat), combine (map fst r) (map snd r) = r) by (induction r as [|[a b] r IHr]; [reflexivity|cbn; rewrite IHr; reflexivity]).
  pose proof (E (x :: row)) as E1. cbn [map] in E1. rewrite E1. reflexivity.
Qed.
Lemma plot_steps_plain covs sts : forall tt, plot_steps false covs tt sts = Ok (map (fun row => (row, [])) (filter nonempty sts)).
Proof. induction sts as [|[|x row] sts IH]; intros tt; [reflexivity|apply IH|]. cbn [plot_steps filter nonempty map]. rewrite IH. reflexivity. Qed.

(** ** theorems *)
(** Covariances saved at every extraction: every reported state with the ellipse of
    its own component. *)
Theorem C215_phd_ellipses_partial : forall {Meas} argsort (l : list (cfg Meas * op Meas)) s, hrun argsort l phd_init = Ok s ->
  (forall c, In c (extractions l) -> c_save_covs c = true) ->
  exists steps, reported_pairs argsort l steps /\
    plot_phd_states true s = Ok (map (fun row => (map fst row, row)) (filter nonempty steps)) /\
    plot_phd_states false s = Ok (map (fun row => (map fst row, [])) (filter nonempty steps)).
Proof.
  intros Meas argsort l s H Hs. destruct (run_pairs argsort l s H Hs) as [steps [A [B C]]]. exists steps. split; [exact C|].
  unfold plot_phd_states. rewrite A, B. split; [apply (plot_steps_pairs steps [])|]. rewrite plot_steps_plain. f_equal.
  clear. induction steps as [|[|x row] steps IH]; [reflexivity|exact IH|]. cbn [map filter nonempty]. f_equal. exact IH.
Qed.
Print Assumptions C215_phd_ellipses_partial.
(** Without ellipses it never fails. *)
Theorem C215_phd_states_plain : forall {Meas} (s : phd Meas), plot_phd_states false s = Ok (map (fun row => (row, [])) (filter nonempty (ph_states s))).
Proof. intros Meas s. apply plot_steps_plain. Qed.
Print Assumptions C215_phd_states_plain.
(** With save_covs off at one extraction and on again, the plot with ellipses
    raises IndexError, although every call of the history was well formed. *)
Theorem C215_phd_ellipses_refuted : exists s, hrun q_argsort off_ops phd_init = Ok s /\
  (forall c o, In (c, o) off_ops -> phd_ok (pos_def 1) c /\ careful o) /\ plot_phd_states true s = Err IndexErr.
Proof.
  destruct C182_covariances_stale_refuted as [s [H [_ Hc]]]. exists s. split; [exact H|]. split; [exact Hc|].
  vm_compute in H. injection H as <-. reflexivity.
Qed.
Print Assumptions C215_phd_ellipses_refuted.
(** Instances of the hypotheses: a history with two extractions that saves covariances. *)
Example C215_ex : exists s x l, hrun q_argsort h_ops phd_init = Ok s /\ (forall c, In c (extractions h_ops) -> c_save_covs c = true) /\
  length (extractions h_ops) = 2 /\ plot_phd_states true s = Ok (x :: l) /\ nonempty (snd x) = true.
Proof.
  eexists _, _, _. split; [vm_compute; reflexivity|]. split; [intros c Hc; cbn in Hc; repeat (destruct Hc as [<- |Hc]; [reflexivity|]); destruct Hc|].
  split; [reflexivity|]. split; reflexivity.
Qed.
