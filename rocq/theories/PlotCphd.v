(** C215 for the CPHD filter, which inherits plot_states. *)
From Verif Require Import RBase RLists RPhdModel RPhdSpec RPhdProofs RPhdProps RPhdHist.
From Coq Require Import Permutation Reals Lra Lia.
From Verif Require Import OspaModel OspaProofs CphdModel CphdSpec CphdProofs CphdProps CphdHist CphdBirth CphdRecord.
Open Scope R_scope.

(** ** model *)
(** The loop of plot_states, tracker.py:1052-1094, as in PlotPhd.v. *)
Fixpoint cplot_steps {V M} (show : bool) (covs : list (list M)) (tt : nat) (sts : list (list V)) : result (list (list V * list (V * M))) :=
  match sts with
  | [] => Ok []
  | [] :: r => cplot_steps show covs (S tt) r
  | row :: r =>
      do es <- (if show then
                  match nth_error covs tt with
                  | None => Err IndexErr
                  | Some cl => if (length cl <=? length row)%nat then Ok (combine row cl) else Err IndexErr
                  end
                else Ok []);
      do l <- cplot_steps show covs (S tt) r;
      Ok ((row, es) :: l)
  end.
Definition plot_cphd_states {V M Meas} (show : bool) (s : cphd V M Meas) : result (list (list V * list (V * M))) :=
  cplot_steps show (cp_covs s) 0 (cp_states s).

(** ** specification *)
Definition some_states {A} (l : list A) : bool := match l with [] => false | _ => true end.
(** Each pair is the mean and the covariance of a component, no component twice. *)
Definition from_components {V M} (g : rmix V M) (row : list (V * M)) : Prop :=
  exists idx, NoDup idx /\ Forall2 (fun i xp => nth_error (rm_m g) i = Some (fst xp) /\ nth_error (rm_p g) i = Some (snd xp)) idx row.
(** One entry per extraction: the reported (state, covariance) pairs are the mean
    and the covariance of one component each of the mixture at that extraction, no
    component twice. *)
Definition creported_pairs {Meas} argsort mx (l : list (cattr Meas * hop Meas)) (steps : list (list (vec * mat))) : Prop :=
  length steps = length (cextractions l) /\
  forall l1 a o l2, l = l1 ++ (a, o) :: l2 -> cextractions [(a, o)] <> [] ->
    exists s1 row, hruns argsort (l1 ++ [(a, o)]) (cphd_new mx) = Ok s1 /\ nth_error steps (length (cextractions l1)) = Some row /\
      from_components (cp_mix s1) row.

(** ** proofs *)
Lemma extract_loop_sub ws card : forall order tot, exists rest, order = map fst (extract_loop ws card order tot) ++ rest.
Proof.
  induction order as [|i order IH]; intros tot; [exists []; reflexivity|]. cbn [extract_loop]. cbv zeta.
  destruct (tot <? Z.of_nat card)%Z; [|exists (i :: order); reflexivity]. destruct (roundR (nth i ws 0%R) <=? 0)%Z; [exists (i :: order); reflexivity|].
  destruct (IH (tot + roundR (nth i ws 0%R))%Z) as [rest E]. exists rest. cbn [map fst app]. rewrite <- E. reflexivity.
Qed.
Lemma F2_zip {A B C} (f : A -> option B) (g : A -> option C) l xs ys : Forall2 (fun a x => f a = Some x) l xs -> Forall2 (fun a y => g a = Some y) l ys ->
  exists row, xs = map fst row /\ ys = map snd row /\ Forall2 (fun a xp => f a = Some (fst xp) /\ g a = Some (snd xp)) l row.
Proof.
  intros F. revert ys. induction F as [|a x l xs Fx F IH]; intros ys G; inversion G; subst; [exists []; repeat constructor|].
  destruct (IH _ H3) as [row [-> [-> R]]]. exists ((x, y) :: row). split; [reflexivity|]. split; [reflexivity|]. constructor; [split; assumption|exact R].
Qed.
Lemma F2_fst {A B C} (Q : A -> C -> Prop) (l : list (A * B)) ys : Forall2 (fun p y => Q (fst p) y) l ys -> Forall2 Q (map fst l) ys.
Proof. induction 1; constructor; assumption. Qed.
Lemma mapM_opt {A B} (f : A -> option B) l ys : mapM (fun p => match f p with Some x => Ok x | None => Err IndexErr end) l = Ok ys -> Forall2 (fun p y => f p = Some y) l ys.
Proof.
  intros H. apply mapM_ok in H. induction H as [|p y l ys E H IH]; constructor; [|exact IH]. destruct (f p); [injection E as ->; reflexivity|discriminate].
Qed.
Section R.
Context {Meas : Type} (argsort : list R -> list nat).
Hypothesis Hsort : rsorts argsort.
Notation st := (cphd vec mat Meas).
Lemma cextract_pairs (c : ccfg vec mat Meas) (s s' : st) : k_save_covs c = true -> cp_extract c argsort s = Ok s' ->
  cp_mix s' = cp_mix s /\ exists row, cp_states s' = cp_states s ++ [map fst row] /\ cp_covs s' = cp_covs s ++ [map snd row] /\ from_components (cp_mix s') row.
Proof.
  intros Hs. unfold cp_extract. rewrite Hs. intros E. apply bind_ok in E as [card [_ E]]. cbv zeta in E. apply bind_ok in E as [x [Ex E]]. apply bind_ok in E as [y [Ey E]].
  apply ok_inj in E. subst s'. cbn [cp_mix cp_states cp_covs]. split; [reflexivity|].
  set (l := extract_loop _ _ _ _) in *. apply (mapM_opt (fun p => nth_error (rm_m (cp_mix s)) (fst p))) in Ex. apply (mapM_opt (fun p => nth_error (rm_p (cp_mix s)) (fst p))) in Ey.
  destruct (F2_zip _ _ _ _ _ Ex Ey) as [row [-> [-> R]]]. exists row. split; [reflexivity|]. split; [reflexivity|].
  exists (map fst l). split; [|apply (F2_fst (fun i xp => nth_error (rm_m (cp_mix s)) i = Some (fst xp) /\ nth_error (rm_p (cp_mix s)) i = Some (snd xp))), R].
  destruct (extract_loop_sub (rm_w (cp_mix s)) card (rev (argsort (rm_w (cp_mix s)))) 0) as [rest Er]. fold l in Er.
  assert (N : NoDup (rev (argsort (rm_w (cp_mix s))))).
  { apply NoDup_rev. destruct (Hsort (rm_w (cp_mix s))) as [Pm _]. apply (Permutation_NoDup (Permutation_sym Pm)), seq_NoDup. }
  rewrite Er in N. clear - N. revert N. generalize (map fst l) as k. induction k as [|i k IH]; intros N; [constructor|]. cbn [app] in N. inversion N as [|i' k' H1 H2]; subst. constructor; [|apply IH, H2]. intros H. apply H1, in_or_app. left. exact H.
Qed.
Lemma step_pairs (a : cattr Meas) o (s s' : st) : hstep a argsort o s = Ok s' ->
  match cextractions [(a, o)] with
  | [] => cp_states s' = cp_states s /\ cp_covs s' = cp_covs s
  | _ => cextractions [(a, o)] = [a] /\ (k_save_covs (a_c a) = true -> exists row, cp_states s' = cp_states s ++ [map fst row] /\ cp_covs s' = cp_covs s ++ [map snd row] /\
           from_components (cp_mix s') row)
  end.
Proof.
  intros E. destruct (cstep_rec argsort a o s s' E) as [_ H]. destruct (cextractions [(a, o)]) as [|e es] eqn:Ee; [exact H|]. destruct H as [H _]. split; [exact H|]. intros Hs. clear H.
  destruct o as [|z| |x|pr ca me ex]; cbn [cextractions flat_map fst snd app] in Ee; try discriminate Ee; cbn [hstep] in E.
  - exact (proj2 (cextract_pairs _ s s' Hs E)).
  - apply bind_ok in E as [s1 [E1 E]]. cbn [cstep] in E1. apply bind_ok in E1 as [g [_ E1]]. apply ok_inj in E1. subst s1. destruct ex; [|discriminate Ee].
    exact (proj2 (cextract_pairs _ _ s' Hs E)).
Qed.
Lemma crun_pairs mx (l : list (cattr Meas * hop Meas)) : forall s, hruns argsort l (cphd_new mx) = Ok s ->
  (forall c, In c (cextractions l) -> k_save_covs (a_c c) = true) ->
  exists steps, cp_states s = map (map fst) steps /\ cp_covs s = map (map snd) steps /\ creported_pairs argsort mx l steps.
Proof.
  induction l as [|[c o] l IH] using rev_ind; intros s H Hs.
  - cbn [hruns] in H. injection H as <-. exists []. split; [reflexivity|]. split; [reflexivity|]. split; [reflexivity|]. intros l1 c o l2 E. destruct l1; discriminate E.
  - pose proof H as HH. rewrite hruns_app in H. apply bind_ok in H as [s0 [H0 H]]. cbn [hruns] in H. apply bind_ok in H as [s1 [H1 H]]. injection H as ->.
    rewrite cextractions_app in Hs. destruct (IH s0 H0 ltac:(intros c' Hc; apply Hs, in_or_app; left; exact Hc)) as [steps [A [B [C D]]]].
    apply step_pairs in H1. pose proof (cextractions_app l [(c, o)]) as Ea.
    assert (Old : forall steps', (length steps <= length steps')%nat -> (forall k, (k < length steps)%nat -> nth_error steps' k = nth_error steps k) ->
      forall l1 c0 o0 l2, l2 <> [] -> l ++ [(c, o)] = l1 ++ (c0, o0) :: l2 -> cextractions [(c0, o0)] <> [] ->
      exists s1 row, hruns argsort (l1 ++ [(c0, o0)]) (cphd_new mx) = Ok s1 /\ nth_error steps' (length (cextractions l1)) = Some row /\
        from_components (cp_mix s1) row).
    { intros steps' Ls Ns l1 c0 o0 l2 Hn E Hx. destruct (exists_last Hn) as [l2' [co ->]].
      rewrite app_comm_cons, app_assoc in E. apply app_inj_tail in E as [E _]. destruct (D l1 c0 o0 l2' E Hx) as [s2 [row [F1 [F2 F3]]]].
      exists s2, row. split; [exact F1|]. split; [|exact F3]. rewrite Ns; [exact F2|]. apply nth_error_Some. rewrite F2. discriminate. }
    destruct (cextractions [(c, o)]) as [|e es] eqn:Ee.
    + destruct H1 as [E1 E2]. exists steps. rewrite E1, E2. split; [exact A|]. split; [exact B|]. split; [rewrite Ea, app_nil_r; exact C|].
      intros l1 c0 o0 [|co l2] E Hx.
      * apply app_inj_tail in E as [<- E]. injection E as <- <-. rewrite Ee in Hx. contradiction.
      * apply (Old steps (le_n _) ltac:(auto) l1 c0 o0 (co :: l2)); [discriminate|exact E|exact Hx].
    + destruct H1 as [E1 E2]. injection E1 as -> ->. destruct E2 as [row [R1 [R2 R3]]]; [apply Hs, in_or_app; right; left; reflexivity|].
      exists (steps ++ [row]). rewrite R1, R2, A, B, !map_app. split; [reflexivity|]. split; [reflexivity|]. split; [rewrite Ea, !app_length, C; reflexivity|].
      intros l1 c0 o0 [|co l2] E Hx.
      * apply app_inj_tail in E as [<- E]. injection E as <- <-. exists s, row. split; [exact HH|]. split; [|exact R3].
        rewrite <- C, nth_error_app2, Nat.sub_diag by lia. reflexivity.
      * apply (Old (steps ++ [row])) with (l2 := co :: l2); [rewrite app_length; lia|intros k Hk; apply nth_error_app1, Hk|discriminate|exact E|exact Hx].
Qed.
End R.
Lemma cplot_steps_pairs {V M} (steps : list (list (V * M))) : forall pre,
  cplot_steps true (map (map snd) (pre ++ steps)) (length pre) (map (map fst) steps) = Ok (map (fun row => (map fst row, row)) (filter some_states steps)).
Proof.
  induction steps as [|row steps IH]; intros pre; [reflexivity|].
  specialize (IH (pre ++ [row])). rewrite <- app_assoc, app_length, Nat.add_1_r in IH. cbn [app] in IH.
  destruct row as [|x row]; [exact IH|]. cbn [map cplot_steps filter some_states]. rewrite IH.
  rewrite map_app, nth_error_app2 by (rewrite map_length; lia). rewrite map_length, Nat.sub_diag. cbn [map nth_error length].
  rewrite !map_length, Nat.leb_refl. cbn [bind].
  assert (E : forall r : list (V * M), combine (map fst r) (map snd r) = r) by (induction r as [|[a b] r IHr]; [reflexivity|cbn; rewrite IHr; reflexivity]).
  pose proof (E (x :: row)) as E1. cbn [map] in E1. rewrite E1. reflexivity.
Qed.
Lemma cplot_steps_plain {V M} (covs : list (list M)) (sts : list (list V)) : forall tt, cplot_steps false covs tt sts = Ok (map (fun row => (row, [])) (filter some_states sts)).
Proof. induction sts as [|[|x row] sts IH]; intros tt; [reflexivity|apply IH|]. cbn [cplot_steps filter some_states map]. rewrite IH. reflexivity. Qed.


(** ** theorems *)
(** Covariances saved at every extraction, any sorting order: every reported state
    with the ellipse of its own component. *)
Theorem C215_cphd_ellipses_partial : forall {Meas} argsort mx (l : list (cattr Meas * hop Meas)) s, rsorts argsort ->
  hruns argsort l (cphd_new mx) = Ok s -> (forall a, In a (cextractions l) -> k_save_covs (a_c a) = true) ->
  exists steps, creported_pairs argsort mx l steps /\
    plot_cphd_states true s = Ok (map (fun row => (map fst row, row)) (filter some_states steps)) /\
    plot_cphd_states false s = Ok (map (fun row => (map fst row, [])) (filter some_states steps)).
Proof.
  intros Meas argsort mx l s Ho H Hs. destruct (crun_pairs argsort Ho mx l s H Hs) as [steps [A [B C]]]. exists steps. split; [exact C|].
  unfold plot_cphd_states. rewrite A, B. split; [apply (cplot_steps_pairs steps [])|]. rewrite cplot_steps_plain. f_equal.
  clear. induction steps as [|[|x row] steps IH]; [reflexivity|exact IH|]. cbn [map filter some_states]. f_equal. exact IH.
Qed.
Print Assumptions C215_cphd_ellipses_partial.
(** Instances of the hypotheses: the history of C143 and C184, with two extractions. *)
Example C215_cphd_ex : exists s, rsorts sort_ref /\ hruns sort_ref g_hist (cphd_new 3) = Ok s /\
  (forall a, In a (cextractions g_hist) -> k_save_covs (a_c a) = true) /\ length (cextractions g_hist) = 2%nat.
Proof.
  destruct C143_hypotheses_ex as [_ [So [_ [_ [s [E _]]]]]]. exists s. split; [exact So|]. split; [exact E|]. split; [|reflexivity].
  intros a Ha. cbn in Ha. repeat (destruct Ha as [<- |Ha]; [reflexivity|]). destruct Ha.
Qed.
