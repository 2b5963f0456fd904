(** C218: the true trajectories drawn by plot_states and plot_states_labels. *)
From Verif Require Import Base Lists OspaModel OspaProofs CphdModel GlmbModel PlotModel PlotLabels.
From Coq Require Import Lia.

(** ** model *)
Section T.
Context {ST : Type}.
Variable dim : ST -> nat.
(** One line: the states at place [ii] of the steps; None is a column of NaN.  (A
    state of size 1 would be broadcast; not modelled.) *)
Definition truth_line (d : nat) (ts : list (list ST)) (ii : nat) : result (list (option ST)) :=
  mapM (fun row => match nth_error row ii with
                   | None => Ok None
                   | Some x => if dim x =? d then Ok (Some x) else Err ValueErr
                   end) ts.
(** plot_states of the PHD filters, tracker.py:1096-1122: the size comes from the
    estimates (1034-1038), else from the true states; max of no step is a
    ValueError, an unknown size a TypeError of np.ones. *)
Definition plot_truth (est ts : list (list ST)) : result (list (list (option ST))) :=
  let xd := match x_dim dim est with Some d => Some d | None => x_dim dim ts end in
  match ts with
  | [] => Err ValueErr
  | _ => match xd with
         | None => Err TypeErr
         | Some d => mapM (truth_line d ts) (seq 0 (list_max (map (@length ST) ts)))
         end
  end.
(** plot_states_labels, tracker.py:2972-2998: the same under a test that some true
    state is given. *)
Definition plot_truth_labels (est ts : list (list ST)) : result (list (list (option ST))) :=
  if existsb (fun row => negb (length row =? 0)) ts then plot_truth est ts else Ok [].

(** ** specification *)
(** As many lines as the fullest step has true states; line [ii] has one column per
    step, holding the true state at place [ii] or a gap. *)
Definition truth_drawn (ts : list (list ST)) (lines : list (list (option ST))) : Prop :=
  (forall tt ii x, nth_error (nth tt ts []) ii = Some x -> ii < length lines) /\
  forall ii, ii < length lines -> length (nth ii lines []) = length ts /\ (exists tt x, nth_error (nth tt ts []) ii = Some x) /\
    forall tt x, nth_error (nth ii lines []) tt = Some (Some x) <-> nth_error (nth tt ts []) ii = Some x.

(** ** proofs *)
Lemma truth_line_spec d (ts : list (list ST)) ii : (forall row x, In row ts -> In x row -> dim x = d) ->
  truth_line d ts ii = Ok (map (fun row => nth_error row ii) ts).
Proof.
  intros Hd. unfold truth_line. induction ts as [|row ts IH]; [reflexivity|]. cbn [mapM map].
  rewrite IH by (intros r x Hr; apply Hd; right; exact Hr). destruct (nth_error row ii) as [x|] eqn:E; [|reflexivity].
  rewrite (Hd row x); [rewrite Nat.eqb_refl; reflexivity|left; reflexivity|apply nth_error_In with ii, E].
Qed.
Lemma x_dim_of d (sts : list (list ST)) : (forall row x, In row sts -> In x row -> dim x = d) -> x_dim dim sts = Some d \/ x_dim dim sts = None /\ forall row, In row sts -> row = [].
Proof.
  induction sts as [|[|y row] sts IH]; intros Hd.
  - right. split; [reflexivity|intros row []].
  - destruct IH as [IH|[IH1 IH2]]; [intros r x Hr; apply Hd; right; exact Hr|left; exact IH|].
    right. split; [exact IH1|]. intros r [<- |Hr]; [reflexivity|apply IH2, Hr].
  - left. cbn [x_dim]. f_equal. apply (Hd (y :: row) y); left; reflexivity.
Qed.
Lemma list_max_spec (ns : list nat) : (forall n, In n ns -> n <= list_max ns) /\ (list_max ns = 0 \/ In (list_max ns) ns).
Proof.
  induction ns as [|n ns [A B]]; [split; [intros n []|left; reflexivity]|]. cbn [list_max fold_right]. change (fold_right Nat.max 0 ns) with (list_max ns). split.
  - intros k [<- |Hk]; [lia|]. specialize (A k Hk). lia.
  - destruct (Nat.max_spec n (list_max ns)) as [[_ ->]|[_ ->]]; [|right; left; reflexivity]. destruct B as [B|B]; [left; exact B|right; right; exact B].
Qed.
Lemma drawn d ts : (forall row x, In row ts -> In x row -> dim x = d) ->
  exists lines, mapM (truth_line d ts) (seq 0 (list_max (map (@length ST) ts))) = Ok lines /\ truth_drawn ts lines.
Proof.
  intros Hd. set (n := list_max (map (@length ST) ts)). destruct (list_max_spec (map (@length ST) ts)) as [A B]. fold n in A, B.
  exists (map (fun ii => map (fun row => nth_error row ii) ts) (seq 0 n)). split.
  - generalize (seq 0 n) as l. induction l as [|i l IH]; [reflexivity|]. cbn [mapM map]. rewrite truth_line_spec by exact Hd. cbn [bind]. rewrite IH. reflexivity.
  - unfold truth_drawn. rewrite map_length, seq_length. split.
    + intros tt ii x H. assert (Ht : tt < length ts) by (destruct (Nat.lt_ge_cases tt (length ts)) as [G|G]; [exact G|]; rewrite nth_overflow in H by exact G; destruct ii; discriminate H).
      assert (ii < length (nth tt ts [])) by (apply nth_error_Some; rewrite H; discriminate).
      specialize (A (length (nth tt ts []))). assert (In (length (nth tt ts [])) (map (@length ST) ts)) by (apply in_map, nth_In, Ht). specialize (A H1). lia.
    + intros ii Hi. rewrite nth_indep with (d' := map (fun row => nth_error row 0) ts) by (rewrite map_length, seq_length; exact Hi).
      rewrite (map_nth (fun ii => map (fun row => nth_error row ii) ts)), seq_nth by exact Hi. cbn [Nat.add]. split; [apply map_length|]. split.
      * destruct B as [B|B]; [lia|]. apply in_map_iff in B. destruct B as [row [L Hr]]. apply In_nth with (d := []) in Hr. destruct Hr as [tt [Ht E]].
        exists tt. rewrite E. destruct (nth_error row ii) as [x|] eqn:Ex; [exists x; reflexivity|]. apply nth_error_None in Ex. lia.
      * intros tt x. destruct (Nat.lt_ge_cases tt (length ts)) as [Ht|Ht].
        -- rewrite (map_nth_error _ _ _ (nth_error_nth' ts [] Ht)). split; [congruence|intros ->; reflexivity].
        -- rewrite (nth_overflow ts) by exact Ht. split; [|destruct ii; discriminate].
           intros H. exfalso. assert (tt < length (map (fun row => nth_error row ii) ts)) by (apply nth_error_Some; rewrite H; discriminate). rewrite map_length in H0. lia.
Qed.
End T.

(** ** theorems *)
(** Labelled filters: always. *)
Theorem C218_truth_labels : forall {ST} (dim : ST -> nat) d est ts,
  (forall row x, In row est \/ In row ts -> In x row -> dim x = d) ->
  exists lines, plot_truth_labels dim est ts = Ok lines /\ truth_drawn ts lines.
Proof.
  intros ST dim d est ts Hd. unfold plot_truth_labels. destruct (existsb _ ts) eqn:E.
  - apply existsb_exists in E. destruct E as [row [Hr Hn]]. unfold plot_truth.
    assert (X : match x_dim dim est with Some d0 => Some d0 | None => x_dim dim ts end = Some d).
    { destruct (x_dim_of dim d est) as [->|[-> _]]; [intros r x Hr'; apply Hd; left; exact Hr'|reflexivity|].
      destruct (x_dim_of dim d ts) as [->|[_ H]]; [intros r x Hr'; apply Hd; right; exact Hr'|reflexivity|]. rewrite (H row Hr) in Hn. discriminate Hn. }
    cbv zeta. rewrite X. destruct (drawn dim d ts) as [lines [A B]]; [intros r x Hr'; apply Hd; right; exact Hr'|]. exists lines. split; [|exact B].
    destruct ts; [destruct Hr|exact A].
  - exists []. split; [reflexivity|]. split; [|intros ii Hi; inversion Hi]. intros tt ii x H. exfalso.
    assert (Ht : tt < length ts) by (destruct (Nat.lt_ge_cases tt (length ts)) as [G|G]; [exact G|]; rewrite nth_overflow in H by exact G; destruct ii; discriminate H).
    assert (F : existsb (fun row => negb (length row =? 0)) ts = true).
    { apply existsb_exists. exists (nth tt ts []). split; [apply nth_In, Ht|]. destruct (nth tt ts []); [destruct ii; discriminate H|reflexivity]. }
    congruence.
Qed.
Print Assumptions C218_truth_labels.
(** PHD filters: if at least one step of truth is given and some state, estimated or
    true. *)
Theorem C218_truth_phd_partial : forall {ST} (dim : ST -> nat) d est ts,
  (forall row x, In row est \/ In row ts -> In x row -> dim x = d) -> ts <> [] ->
  (exists row, (In row est \/ In row ts) /\ row <> []) ->
  exists lines, plot_truth dim est ts = Ok lines /\ truth_drawn ts lines.
Proof.
  intros ST dim d est ts Hd Hts [row [Hr Hn]]. unfold plot_truth.
  assert (X : match x_dim dim est with Some d0 => Some d0 | None => x_dim dim ts end = Some d).
  { destruct (x_dim_of dim d est) as [->|[-> He]]; [intros r x Hr'; apply Hd; left; exact Hr'|reflexivity|].
    destruct Hr as [Hr|Hr]; [rewrite (He row Hr) in Hn; contradiction|].
    destruct (x_dim_of dim d ts) as [->|[_ H]]; [intros r x Hr'; apply Hd; right; exact Hr'|reflexivity|]. rewrite (H row Hr) in Hn. contradiction. }
  cbv zeta. rewrite X. destruct (drawn dim d ts) as [lines [A B]]; [intros r x Hr'; apply Hd; right; exact Hr'|]. exists lines. split; [|exact B].
  destruct ts; [contradiction|exact A].
Qed.
Print Assumptions C218_truth_phd_partial.
(** Otherwise it raises: no step of truth, or an empty scene in which nothing was
    reported (here: no objects at any of the [n] steps). *)
Theorem C218_truth_phd_refuted : forall {ST} (dim : ST -> nat) est n, (forall row, In row est -> row = []) ->
  plot_truth dim est [] = Err ValueErr /\ plot_truth dim est (repeat [] (S n)) = Err TypeErr /\
  plot_truth_labels dim est (repeat [] (S n)) = Ok [].
Proof.
  intros ST dim est n He. split; [reflexivity|].
  assert (X : forall l : list (list ST), (forall row, In row l -> row = []) -> x_dim dim l = None).
  { induction l as [|row l IH]; intros H; [reflexivity|]. rewrite (H row (or_introl eq_refl)). cbn [x_dim]. apply IH. intros r Hr. apply H. right. exact Hr. }
  split.
  - unfold plot_truth. rewrite (X est He), (X (repeat [] (S n))) by (intros row Hr; apply repeat_spec in Hr; exact Hr). reflexivity.
  - unfold plot_truth_labels. assert (E : existsb (fun row : list ST => negb (length row =? 0)) (repeat [] (S n)) = false).
    { induction (S n) as [|m IH]; [reflexivity|]. cbn [repeat existsb length]. exact IH. }
    rewrite E. reflexivity.
Qed.
Print Assumptions C218_truth_phd_refuted.

(** A concrete case: two steps, the second with two objects, nothing estimated. *)
Example C218_ex : plot_truth (fun _ : nat => 4) [[]; []] [[7]; [8; 9]] = Ok [[Some 7; Some 8]; [None; Some 9]].
Proof. reflexivity. Qed.
