(** C162: [gibbs] returns the states visited by the Gibbs chain. *)
From Verif Require Import Base GibbsModel GibbsSpec GibbsProofs GibbsProps GibbsChainSpec.

Section Chain.
Context (costs : list (list ext)) (M : nat) (expw : ext -> Q) (rnd : nat -> nat -> Q).
Notation N := (length costs).
Notation sweep' := (sweep costs M expw rnd).

(** The states, read off the model. *)
Fixpoint after (s : nat) : list nat :=
  match s with
  | 0 => seq N N
  | S s' => match sweep' (S s') (seq 0 N) (after s') with Ok c => c | Err _ => [] end
  end.
Definition state (s v : nat) : list nat :=
  match s with
  | 0 => seq N N
  | S s' => match sweep' (S s') (seq 0 v) (after s') with Ok c => c | Err _ => [] end
  end.
Lemma state_N s : state s N = after s.
Proof. destruct s; reflexivity. Qed.

Lemma sweep_app sol a b : forall cur,
  sweep' sol (a ++ b) cur = bind (sweep' sol a cur) (sweep' sol b).
Proof.
  induction a as [|v a IH]; intros cur; [reflexivity|]. cbn [app sweep].
  destruct (draw costs M expw cur v (rnd sol v)) as [j|e]; cbn [bind]; [apply IH|reflexivity].
Qed.
Lemma sweep_prefix sol n k cur c : k <= n -> sweep' sol (seq 0 n) cur = Ok c ->
  exists c', sweep' sol (seq 0 k) cur = Ok c'.
Proof.
  intros Hk E. replace n with (k + (n - k)) in E by lia. rewrite seq_app, sweep_app in E.
  apply bind_ok in E as [c' [E' _]]. exists c'. exact E'.
Qed.
Lemma replaced_set x v j : v < length x -> replaced x (set_nth x v j) v j.
Proof.
  intros H. split; [apply set_nth_length; exact H|]. split.
  - rewrite nth_set_nth by exact H. rewrite Nat.eqb_refl. reflexivity.
  - intros i Hi. rewrite nth_set_nth by exact H. destruct (Nat.eqb_spec i v); [contradiction|reflexivity].
Qed.

(** What [iterate] returns. *)
Lemma iterate_states k : forall s l, iterate costs M expw rnd k (S s) (after s) = Ok l ->
  map fst l = map after (seq (S s) k) /\
  forall t, s < t <= s + k -> exists c, sweep' t (seq 0 N) (after (t - 1)) = Ok c /\ after t = c.
Proof.
  induction k as [|k IH]; intros s l E; cbn [iterate] in E.
  { inversion E; subst l. split; [reflexivity|]. intros t Ht. lia. }
  apply bind_ok in E as [cur' [E1 E]]. apply bind_ok in E as [c [_ E]]. apply bind_ok in E as [rest [E2 E]].
  inversion E; subst l. clear E.
  assert (EA : after (S s) = cur') by (cbn [after]; rewrite E1; reflexivity).
  rewrite <- EA in E2. destruct (IH (S s) rest E2) as [A B]. split.
  - cbn [map fst seq]. rewrite A, EA. reflexivity.
  - intros t Ht. destruct (Nat.eq_dec t (S s)) as [->|Hn].
    + exists cur'. replace (S s - 1) with s by lia. split; [exact E1|exact EA].
    + apply B. lia.
Qed.
Lemma after_length k s l : iterate costs M expw rnd k 1 (after 0) = Ok l -> s <= k -> length (after s) = N.
Proof.
  intros E. apply iterate_states in E as [_ H]. induction s as [|s IH]; intros Hs; [apply seq_length|].
  destruct (H (S s)) as [c [E1 E2]]; [lia|]. replace (S s - 1) with s in E1 by lia. rewrite E2.
  rewrite <- (IH ltac:(lia)). eapply sweep_length; [|exact E1]. rewrite IH by lia. intros v Hv. apply in_seq in Hv. lia.
Qed.
End Chain.

(** C162: the rows returned are exactly the states after the iterations of a
    systematic-scan Gibbs chain started at N .. 2N-1, in which coordinate v is
    resampled by inverse transform from the weights of the columns not held by
    the other coordinates. *)
Theorem C162_gibbs_is_the_chain : forall costs M expw rnd num_iters rows cs,
  let N := length costs in
  let W i j := expw (nth j (nth i costs []) Inf) in
  (forall e, (0 <= expw e)%Q) -> (forall s v, (0 <= rnd s v < 1)%Q) ->
  gibbs costs M expw rnd num_iters = Ok (rows, cs) ->
  exists X, is_chain N (fun s x v j => selects M (column_weight W x v) (rnd s v) j) X num_iters /\
    forall a, In a rows <-> exists s, s < num_iters /\ a = X s N.
Proof.
  intros costs M expw rnd [|k] rows cs N W Hw Hr E; [discriminate|]. cbn [gibbs] in E.
  apply bind_ok in E as [c0 [E0 E]]. apply bind_ok in E as [l [El E]]. inversion E as [[E1 E2]]. clear E.
  change (seq (length costs) (length costs)) with (after costs M expw rnd 0) in El.
  pose proof (iterate_states costs M expw rnd k 0 l El) as [A B].
  exists (state costs M expw rnd). split; [split; [reflexivity|split]|].
  - intros s Hs. cbn [state seq sweep]. unfold N. rewrite state_N. reflexivity.
  - intros s v Hs Hv. destruct s as [|s]; [lia|]. cbn [state].
    destruct (B (S s)) as [c [Ec _]]; [lia|]. replace (S s - 1) with s in Ec by lia.
    assert (LA : length (after costs M expw rnd s) = N) by (eapply after_length; [exact El|lia]).
    destruct (sweep_prefix costs M expw rnd (S s) N v _ _ ltac:(lia) Ec) as [x Ex].
    destruct (sweep_prefix costs M expw rnd (S s) N (S v) _ _ ltac:(lia) Ec) as [y Ey].
    rewrite Ex, Ey.
    assert (LX : length x = N).
    { rewrite <- LA. eapply sweep_length; [|exact Ex]. intros i Hi. apply in_seq in Hi. lia. }
    replace (S v) with (v + 1) in Ey by lia. rewrite seq_app, sweep_app, Ex in Ey. cbn [bind seq sweep] in Ey.
    rewrite Nat.add_0_l in Ey. apply bind_ok in Ey as [j [Ej Ey]]. inversion Ey; subst y. clear Ey.
    exists j. split; [apply replaced_set; lia|]. split.
    + intros HH. destruct (C71_gibbs_inverse_transform costs M expw x v (rnd (S s) v) Hw (Hr (S s) v) HH)
        as [j' [E' [K1 [K2 [K3 K4]]]]]. rewrite Ej in E'. injection E' as <-. split; [exact K1|]. split; [exact K2|]. split; assumption.
    + intros HH. unfold draw in Ej.
      assert (EO : old_ind costs M expw x v = []).
      { destruct (old_ind costs M expw x v) as [|i t] eqn:EO; [reflexivity|]. exfalso. apply HH.
        assert (Hi : In i (old_ind costs M expw x v)) by (rewrite EO; left; reflexivity).
        apply old_ind_in in Hi as [I1 [I2 I3]]. exists i. split; [exact I1|]. unfold column_weight.
        destruct (in_dec Nat.eq_dec i (firstn v x ++ skipn (S v) x)); [contradiction|exact I3]. }
      rewrite EO in Ej. injection Ej as <-. unfold digitize, hist. cbn [map cumsum filter].
      destruct (Qle_bool 0 (rnd (S s) v)); reflexivity.
  - intros a. set (all := (seq (length costs) (length costs), c0) :: l) in *.
    assert (EA : map fst all = map (after costs M expw rnd) (seq 0 (S k))).
    { unfold all. cbn [map fst seq]. rewrite A. reflexivity. }
    change (ins (seq (length costs) (length costs), c0) (unique l)) with (unique all).
    split.
    + intros Ha. apply in_map_iff in Ha as [p [<- Hp]]. apply unique_in in Hp.
      apply (in_map fst) in Hp. rewrite EA in Hp. apply in_map_iff in Hp as [s [Es Hs]]. apply in_seq in Hs.
      exists s. split; [lia|]. unfold N. rewrite state_N. symmetry. exact Es.
    + intros [s [Hs ->]]. unfold N. rewrite state_N.
      assert (Hin : In (after costs M expw rnd s) (map fst all)).
      { rewrite EA. apply in_map. apply in_seq. lia. }
      apply in_map_iff in Hin as [p [Ep Hp]]. rewrite <- Ep. apply unique_keeps. exact Hp.
Qed.
Print Assumptions C162_gibbs_is_the_chain.

(** An instance: the run of C20's example. *)
Example C162_instance : exists X rows cs,
  gibbs ex_costs 5 ex_w ex_rnd 4 = Ok (rows, cs) /\ length rows = 3 /\
  is_chain 2 (fun s x v j => selects 5 (column_weight (fun i j => ex_w (nth j (nth i ex_costs []) Inf)) x v) (ex_rnd s v) j) X 4 /\
  forall a, In a rows <-> exists s, s < 4 /\ a = X s 2.
Proof.
  destruct (gibbs ex_costs 5 ex_w ex_rnd 4) as [[rows cs]|] eqn:E; [|vm_compute in E; discriminate].
  destruct (C162_gibbs_is_the_chain ex_costs 5 ex_w ex_rnd 4 rows cs) as [X H]; [| |exact E|].
  - intros [q|]; unfold ex_w; [|discriminate]. apply Qle_shift_div_l; [nra|nra].
  - intros s v. unfold ex_rnd. destruct (s + v) as [|[|[|[|[|[|n]]]]]]; cbn; split; try lra. destruct n; lra. destruct n; lra.
  - exists X, rows, cs. split; [reflexivity|]. split; [|exact H].
    vm_compute in E. injection E as <- <-. reflexivity.
Qed.
