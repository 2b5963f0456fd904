(** C216, C217: plot_number_states_per_time and plot_card_dist of the CPHD filter. *)
From Verif Require Import RBase RLists RPhdModel RPhdSpec RPhdProofs RPhdProps RPhdHist.
From Coq Require Import Permutation Reals Lra Lia.
From Verif Require Import OspaModel OspaProofs CphdModel CphdSpec CphdProofs CphdProps CphdHist CphdBirth CphdRecord PlotModel.
Open Scope R_scope.

(** ** model *)
(** The loop counter ii of extract_states when the loop ends, tracker.py:1569-1587:
    it is not increased by the iteration that breaks. *)
Fixpoint loop_count (ws : list R) (card : nat) (order : list nat) (tot : Z) : nat :=
  match order with
  | [] => 0%nat
  | idx :: order' =>
      if (tot <? Z.of_nat card)%Z then
        let n := roundR (nth idx ws 0) in
        if (n <=? 0)%Z then 0%nat else Datatypes.S (loop_count ws card order' (tot + n))
      else 0%nat
  end.
(** One call together with the list _n_states_per_time (1322, 1592-1593); the flag is
    debug_plots at the call.  Extraction changes neither the mixture nor the
    cardinality distribution, so the counter is computed from the state after it. *)
Definition dstep {Meas} argsort (debug : bool) (a : cattr Meas) (o : hop Meas) (sn : cphd vec mat Meas * list nat) : result (cphd vec mat Meas * list nat) :=
  do s1 <- CphdHist.hstep a argsort o (fst sn);
  let extracts := match o with HExtract => true | HCleanup _ _ _ ex => ex | _ => false end in
  if (extracts && debug)%bool then
    do card <- argmaxR (cp_card s1);
    Ok (s1, snd sn ++ [loop_count (rm_w (cp_mix s1)) card (rev (argsort (rm_w (cp_mix s1)))) 0])
  else Ok (s1, snd sn).
Fixpoint druns {Meas} argsort (l : list (bool * (cattr Meas * hop Meas))) (sn : cphd vec mat Meas * list nat) : result (cphd vec mat Meas * list nat) :=
  match l with [] => Ok sn | (b, (a, o)) :: l' => do sn1 <- dstep argsort b a o sn; druns argsort l' sn1 end.
(** plot_number_states_per_time, tracker.py:1725-1774: None when debug plots are off
    (a warning). *)
Definition plot_number_states (debug : bool) (ns : list nat) : result (option (list (R * R))) :=
  if debug then do l <- draw (map INR (seq 0 (length ns))) (map INR ns); Ok (Some l) else Ok None.

(** ** specification *)
(** debug_plots at the extractions of a history. *)
Definition dextractions {Meas} (l : list (bool * (cattr Meas * hop Meas))) : list bool :=
  flat_map (fun x => match snd (snd x) with HExtract => [fst x] | HCleanup _ _ _ true => [fst x] | _ => [] end) l.

(** ** proofs *)
Lemma loop_count_length ws card : forall order tot, loop_count ws card order tot = length (extract_loop ws card order tot).
Proof.
  induction order as [|i order IH]; intros tot; [reflexivity|]. cbn [loop_count extract_loop]. cbv zeta.
  destruct (tot <? Z.of_nat card)%Z; [|reflexivity]. destruct (roundR (nth i ws 0%R) <=? 0)%Z; [reflexivity|]. cbn [length]. f_equal. apply IH.
Qed.
Section R.
Context {Meas : Type} (argsort : list R -> list nat).
Notation st := (cphd vec mat Meas).
Lemma extract_count (c : ccfg vec mat Meas) (s s' : st) : cp_extract c argsort s = Ok s' ->
  exists card x, argmaxR (cp_card s') = Ok card /\ cp_states s' = cp_states s ++ [x] /\
    loop_count (rm_w (cp_mix s')) card (rev (argsort (rm_w (cp_mix s')))) 0 = length x.
Proof.
  unfold cp_extract. intros E. apply bind_ok in E as [card [Ec E]]. cbv zeta in E. apply bind_ok in E as [x [Ex E]]. apply bind_ok in E as [y [_ E]]. apply ok_inj in E. subst s'.
  cbn [cp_mix cp_states cp_card]. exists card, x. split; [exact Ec|]. split; [reflexivity|]. rewrite loop_count_length.
  apply mapM_ok in Ex. apply (F2_len _ _ _ Ex).
Qed.
Lemma dstep_spec b (a : cattr Meas) o (s : st) ns s' ns' : dstep argsort b a o (s, ns) = Ok (s', ns') ->
  CphdHist.hstep a argsort o s = Ok s' /\
  match dextractions [(b, (a, o))] with
  | [] => cp_states s' = cp_states s /\ ns' = ns
  | _ => dextractions [(b, (a, o))] = [b] /\ exists x, cp_states s' = cp_states s ++ [x] /\ ns' = ns ++ (if b then [length x] else [])
  end.
Proof.
  unfold dstep. cbn [fst snd]. intros E. apply bind_ok in E as [s1 [E1 E]]. destruct (cstep_rec argsort a o s s1 E1) as [_ H]. cbv zeta in E.
  assert (X : (match o with HExtract => true | HCleanup _ _ _ ex => ex | _ => false end) = true ->
    exists card x, argmaxR (cp_card s1) = Ok card /\ cp_states s1 = cp_states s ++ [x] /\
      loop_count (rm_w (cp_mix s1)) card (rev (argsort (rm_w (cp_mix s1)))) 0 = length x).
  { intros Hx. destruct o as [|z| |x|pr ca me ex]; try discriminate Hx; cbn [CphdHist.hstep] in E1.
    - apply (extract_count _ s s1 E1).
    - subst ex. apply bind_ok in E1 as [s2 [E2 E1]]. cbn [cstep] in E2. apply bind_ok in E2 as [g [_ E2]]. apply ok_inj in E2. subst s2. apply (extract_count _ _ s1 E1). }
  destruct o as [|z| |x|pr ca me ex]; try destruct ex; cbn [andb] in E; cbn [dextractions cextractions flat_map fst snd app] in H |- *;
    try (injection E as <- <-; split; [exact E1|]; split; [apply H|reflexivity]);
    (destruct (X eq_refl) as [card [y [Ec [Es El]]]]; destruct b;
     [rewrite Ec in E; cbn [bind] in E; rewrite El in E; injection E as <- <-; split; [exact E1|]; split; [reflexivity|]; exists y; split; [exact Es|reflexivity]
     |injection E as <- <-; split; [exact E1|]; split; [reflexivity|]; exists y; split; [exact Es|symmetry; apply app_nil_r]]).
Qed.
Lemma druns_spec (l : list (bool * (cattr Meas * hop Meas))) : forall (s : st) ns s' ns', druns argsort l (s, ns) = Ok (s', ns') ->
  hruns argsort (map snd l) s = Ok s' /\ exists sts, cp_states s' = cp_states s ++ sts /\ length sts = length (dextractions l) /\
    ns' = ns ++ map (fun x => length (snd x)) (filter fst (combine (dextractions l) sts)).
Proof.
  induction l as [|[b [a o]] l IH]; intros s ns s' ns' H; cbn [druns] in H.
  - injection H as <- <-. split; [reflexivity|]. exists []. rewrite !app_nil_r. repeat split.
  - apply bind_ok in H as [[s1 ns1] [E H]]. apply dstep_spec in E. destruct E as [E D]. apply IH in H. destruct H as [H [sts [A [L B]]]].
    cbn [map snd hruns]. rewrite E. cbn [bind]. split; [exact H|].
    replace (dextractions ((b, (a, o)) :: l)) with (dextractions [(b, (a, o))] ++ dextractions l) by (unfold dextractions; cbn [flat_map]; rewrite app_nil_r; reflexivity).
    + destruct (dextractions [(b, (a, o))]) as [|e es] eqn:Ee.
      * destruct D as [D1 ->]. exists sts. rewrite A, D1. cbn [app]. repeat split; assumption.
      * destruct D as [D1 [x [D2 ->]]]. injection D1 as -> ->. exists (x :: sts). rewrite A, D2, <- app_assoc. cbn [app length]. split; [reflexivity|]. split; [f_equal; exact L|].
        rewrite B, <- app_assoc. f_equal. cbn [combine filter fst]. destruct b; reflexivity.
Qed.
Lemma druns_total (l : list (bool * (cattr Meas * hop Meas))) : forall (s : st) ns s', hruns argsort (map snd l) s = Ok s' -> exists ns', druns argsort l (s, ns) = Ok (s', ns').
Proof.
  induction l as [|[b [a o]] l IH]; intros s ns s' H; cbn [map snd hruns] in H; [injection H as <-; exists ns; reflexivity|].
  apply bind_ok in H as [s1 [E H]]. cbn [druns]. unfold dstep. cbn [fst snd]. rewrite E. cbn [bind]. cbv zeta.
  destruct (_ && b)%bool eqn:X; [|cbn [bind]; apply IH, H].
  assert (C : exists card, argmaxR (cp_card s1) = Ok card).
  { destruct o as [|z| |x|pr ca me ex]; try discriminate X; cbn [CphdHist.hstep] in E.
    - apply extract_count in E as [card [_ [Ec _]]]. eauto.
    - destruct ex; [|discriminate X]. apply bind_ok in E as [s2 [_ E]]. apply extract_count in E as [card [_ [Ec _]]]. eauto. }
  destruct C as [card ->]. cbn [bind]. apply IH, H.
Qed.
End R.

(** ** theorems *)
(** C216: one point per extraction made with debug plots on, at the number of states
    of that extraction. *)
Theorem C216_states_per_time : forall {Meas} argsort mx (l : list (bool * (cattr Meas * hop Meas))) s,
  hruns argsort (map snd l) (cphd_new mx) = Ok s ->
  let shown := map (fun x => length (snd x)) (filter fst (combine (dextractions l) (cp_states s))) in
  exists ns, druns argsort l (cphd_new mx, []) = Ok (s, ns) /\ length (cp_states s) = length (dextractions l) /\
  plot_number_states true ns = Ok (Some (combine (map INR (seq 0 (length shown))) (map INR shown))) /\
  plot_number_states false ns = Ok None /\
  ((forall b, In b (dextractions l) -> b = true) -> shown = map (@length vec) (cp_states s)).
Proof.
  intros Meas argsort mx l s H0 shown. destruct (druns_total argsort l (cphd_new mx) [] s H0) as [ns H]. exists ns. split; [exact H|]. apply druns_spec in H. destruct H as [_ [sts [A [L B]]]]. cbn [cphd_new cp_states app] in A, B. subst sts. fold shown in B. subst ns.
  split; [exact L|]. split; [|split; [reflexivity|]].
  - unfold plot_number_states, draw. rewrite !map_length, seq_length, Nat.eqb_refl. reflexivity.
  - intros Hb. unfold shown. revert L Hb. clear. generalize (dextractions l) as bs. induction (cp_states s) as [|x r IH]; intros [|b bs] L Hb; try discriminate L; [reflexivity|].
    cbn [combine filter fst map]. rewrite (Hb b (or_introl eq_refl)). cbn [map snd]. f_equal. apply IH; [cbn in L; lia|intros b' Hb'; apply Hb; right; exact Hb'].
Qed.
Print Assumptions C216_states_per_time.

(** C217: after any well-formed history the bar chart is the bar chart of a
    probability distribution on 0..max_expected_card. *)
Theorem C217_card_dist_plot : forall (Meas : Type) good argsort mx (l : list (cattr Meas * hop Meas)),
  cov_class good -> rsorts argsort -> (0 < mx)%nat ->
  (forall a o, In (a, o) l -> cphd_ok good a /\ hcareful o) -> fed false (map snd l) ->
  exists s bars, hruns argsort l (cphd_new mx) = Ok s /\ plot_card_dist (cp_card s) = Ok bars /\
    map fst bars = map INR (seq 0 (Datatypes.S (cp_max s))) /\ (forall x p, In (x, p) bars -> 0 <= p) /\ rsum (map snd bars) = 1 /\
    forall n, (n <= cp_max s)%nat -> nth_error bars n = Some (INR n, nth n (cp_card s) 0).
Proof.
  intros Meas good argsort mx l Hg Hs Hm Hl Hf. destruct (C143_cphd_history_total Meas good argsort mx l Hg Hs Hm Hl Hf) as [s [E [[L [P T]] _]]].
  exists s, (combine (map INR (seq 0 (length (cp_card s)))) (cp_card s)). split; [exact E|].
  set (rho := cp_card s) in *. assert (Lx : length (map INR (seq 0 (length rho))) = length rho) by (rewrite map_length, seq_length; reflexivity).
  assert (F : forall (xs ys : list R), length xs = length ys -> map fst (combine xs ys) = xs /\ map snd (combine xs ys) = ys).
  { clear. induction xs as [|x xs IH]; intros [|y ys] H; try discriminate H; [split; reflexivity|]. destruct (IH ys ltac:(cbn in H; lia)) as [A B]. cbn [combine map fst snd]. rewrite A, B. split; reflexivity. }
  destruct (F _ _ Lx) as [F1 F2]. split; [|split; [|split; [|split]]].
  - unfold plot_card_dist, draw. rewrite Lx, Nat.eqb_refl. destruct rho; [discriminate L|reflexivity].
  - rewrite F1, L. reflexivity.
  - intros x p Hx. apply P. apply (in_combine_r _ _ _ _ Hx).
  - rewrite F2. exact T.
  - intros n Hn. rewrite (nth_error_nth' _ (INR 0, 0)) by (rewrite combine_length, Lx; lia). rewrite combine_nth by exact Lx.
    rewrite map_nth, seq_nth by lia. reflexivity.
Qed.
Print Assumptions C217_card_dist_plot.

(** Instances of the hypotheses: the history of C143 with debug plots off at the
    first of its two extractions. *)
Example C216_ex : exists s, let l := combine [true; true; false; true; true; true; true] g_hist in
  dextractions l = [false; true] /\ hruns sort_ref (map snd l) (cphd_new 3) = Ok s.
Proof.
  destruct C143_hypotheses_ex as [_ [_ [_ [_ [s [E _]]]]]]. exists s. split; [reflexivity|exact E].
Qed.
Example C217_ex : cov_class (pos_def 1) /\ rsorts sort_ref /\ (forall a o, In (a, o) g_hist -> cphd_ok (pos_def 1) a /\ hcareful o) /\ fed false (map snd g_hist).
Proof. destruct C143_hypotheses_ex as [A [B [C [D _]]]]. repeat (split; [assumption|]). exact D. Qed.
