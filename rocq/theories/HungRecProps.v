(** C179: [assign_opt] under Python's recursion limit. *)
From Coq Require Import FunctionalExtensionality.
From Verif Require Import Base HungModel HungSpec HungProofs HungRecModel HungRecProofs.

(** With n the smaller dimension, n^2 + 3n - 1 frames are enough: the answer is
    the one without a limit. *)
Theorem C179_recursion_bound : forall m frames, 0 < frames ->
  Nat.min (mr m) (mc m) * Nat.min (mr m) (mc m) + 3 * Nat.min (mr m) (mc m) <= frames + 1 ->
  assign_opt_rec frames m = assign_opt (Arr2 m).
Proof.
  intros m frames Hf Hd. unfold assign_opt, assign_opt2, assign_opt_rec. destruct frames as [|avail]; [lia|].
  match goal with |- context [if ?b then _ else _] => destruct b end; [reflexivity|].
  destruct (any_entry (mr m) (mc m) (me m) is_fin) eqn:Ef; [|reflexivity]. cbn [negb].
  apply any_entry_true in Ef as [r [c [Hr [Hc _]]]].
  assert (T : tri (Nat.min (mr m) (mc m)) - 4 + 2 <= avail).
  { unfold tri. assert (1 <= Nat.min (mr m) (mc m)) by lia.
    assert (1 * 1 <= Nat.min (mr m) (mc m) * Nat.min (mr m) (mc m)) by (apply Nat.mul_le_mono; lia). lia. }
  match goal with |- context [if ?b then _ else _] => destruct b end.
  - destruct (max_finite (mr m) (mc m) (me m)) as [mx|]; [|reflexivity].
    rewrite solver_ok by (lia || exact T). reflexivity.
  - rewrite solver_ok by (lia || exact T). reflexivity.
Qed.
(** Python's default limit is 1000 frames: up to 30 rows or columns are fine
    when [assign_opt] is called with at least 989 of them available. *)
Corollary C179_recursion_default_partial : forall m frames, 989 <= frames ->
  Nat.min (mr m) (mc m) <= 30 -> assign_opt_rec frames m = assign_opt (Arr2 m).
Proof.
  intros m frames H1 H2. apply C179_recursion_bound; [lia|].
  assert (Nat.min (mr m) (mc m) * Nat.min (mr m) (mc m) <= 30 * 30) by (apply Nat.mul_le_mono; lia). lia.
Qed.

(** For evaluation: the same run with the arrays stored as tables. *)
Definition tab {A} (n k : nat) (f : nat -> nat -> A) : nat -> nat -> A :=
  let t := map (fun r => map (f r) (seq 0 k)) (seq 0 n) in
  fun r c => match nth_error t r with
             | Some l => match nth_error l c with Some x => x | None => f r c end
             | None => f r c end.
Definition tab1 {A} (n : nat) (f : nat -> A) : nat -> A :=
  let t := map f (seq 0 n) in fun r => match nth_error t r with Some x => x | None => f r end.
Lemma nth_error_seq_map {A} (f : nat -> A) n r x : nth_error (map f (seq 0 n)) r = Some x -> x = f r.
Proof.
  intros E. assert (Hl : r < length (map f (seq 0 n))) by (apply nth_error_Some; rewrite E; discriminate).
  rewrite map_length, seq_length in Hl. rewrite (nth_error_map_seq f n r Hl) in E. congruence.
Qed.
Lemma tab1_eq {A} n (f : nat -> A) : tab1 n f = f.
Proof.
  apply functional_extensionality. intros r. unfold tab1. destruct (nth_error _ r) as [x|] eqn:E; [|reflexivity].
  exact (nth_error_seq_map _ _ _ _ E).
Qed.
Lemma tab_eq {A} n k (f : nat -> nat -> A) : tab n k f = f.
Proof.
  apply functional_extensionality. intros r. apply functional_extensionality. intros c.
  unfold tab. destruct (nth_error (map _ (seq 0 n)) r) as [l|] eqn:E; [|reflexivity].
  apply nth_error_seq_map in E. subst l. destruct (nth_error _ c) as [x|] eqn:E; [|reflexivity].
  exact (nth_error_seq_map _ _ _ _ E).
Qed.
Section Tab.
Variables nr nc : nat.
Definition tab_st (st : hst) : hst :=
  {| h_dist := tab nr nc (h_dist st); h_star := tab nr nc (h_star st); h_prime := tab nr nc (h_prime st);
     h_ccov := tab1 nc (h_ccov st); h_rcov := tab1 nr (h_rcov st) |}.
Lemma tab_st_eq st : tab_st st = st.
Proof. destruct st. unfold tab_st. cbn. rewrite !tab_eq, !tab1_eq. reflexivity. Qed.
Fixpoint step3t (min_dim fuel avail : nat) (st0 : hst) : result (nat -> nat -> bool) :=
  match fuel with
  | 0 => Err OutOfFuel
  | S fuel' =>
      let st := tab_st st0 in
      match sweep_cols nr nc (seq 0 nc) st false with
      | Goto4 st1 row col =>
          if avail <? 4 then Err RecursionErr else
          do st2 <- step4 nr nc st1 row col;
          let st3 := step2a nr st2 in
          if count_lt (h_ccov st3) nc =? min_dim then Ok (h_star st3)
          else step3t min_dim fuel' (avail - 4) st3
      | Done st1 true => step3t min_dim fuel' avail st1
      | Done st1 false =>
          if avail <? 2 then Err RecursionErr else
          do st2 <- step5 nr nc st1; step3t min_dim fuel' (avail - 2) st2
      end
  end.
Lemma step3t_eq min_dim fuel : forall avail st, step3t min_dim fuel avail st = step3r nr nc min_dim fuel avail st.
Proof.
  induction fuel as [|fuel IH]; intros avail st; cbn [step3t step3r]; [reflexivity|]. cbv zeta. rewrite tab_st_eq.
  destruct (sweep_cols nr nc (seq 0 nc) st false) as [st1 row col|st1 [|]].
  - destruct (avail <? 4); [reflexivity|]. destruct (step4 nr nc st1 row col) as [st2|e]; cbn [bind]; [|reflexivity].
    destruct (_ =? _); [reflexivity|apply IH].
  - apply IH.
  - destruct (avail <? 2); [reflexivity|]. destruct (step5 nr nc st1) as [st2|e]; cbn [bind]; [apply IH|reflexivity].
Qed.
End Tab.

(** Costs (i+1)(j+1), 31 rows and columns. *)
Definition deepC (r c : nat) : Q := inject_Z (Z.of_nat (S r) * Z.of_nat (S c)).
Definition deepM (n : nat) : mat := {| mr := n; mc := n; me := fun r c => Fin (deepC r c) |}.
Definition deep_start (n : nat) : hst :=
  let dist := tab n n (fun r col => (deepC r col - min_lt (deepC r) n)%Q) in
  let '(star, ccov) := star_rows n dist (seq 0 n) (fun _ _ => false) (fun _ => false) in
  {| h_dist := dist; h_star := star; h_prime := fun _ _ => false; h_ccov := ccov; h_rcov := fun _ => false |}.
Definition failed {A} (r : result A) : bool := match r with Err RecursionErr => true | _ => false end.


Lemma step3r_less nr nc min_dim fuel : forall a b st, b <= a ->
  step3r nr nc min_dim fuel a st = Err RecursionErr -> step3r nr nc min_dim fuel b st = Err RecursionErr.
Proof.
  induction fuel as [|fuel IH]; intros a b st Hab; cbn [step3r]; [discriminate|].
  destruct (sweep_cols nr nc (seq 0 nc) st false) as [st1 row col|st1 [|]].
  - destruct (Nat.ltb_spec b 4); [reflexivity|]. destruct (Nat.ltb_spec a 4); [lia|].
    destruct (step4 nr nc st1 row col) as [st2|e]; cbn [bind]; [|tauto].
    destruct (_ =? _); [discriminate|]. apply IH. lia.
  - apply IH, Hab.
  - destruct (Nat.ltb_spec b 2); [reflexivity|]. destruct (Nat.ltb_spec a 2); [lia|].
    destruct (step5 nr nc st1) as [st2|e]; cbn [bind]; [|tauto]. apply IH. lia.
Qed.
Lemma deep_run : failed (step3t 31 31 31 (hung_fuel 31 31) 1049 (deep_start 31)) = true.
Proof. vm_compute. reflexivity. Qed.
Lemma deep_count : (count_lt (h_ccov (deep_start 31)) 31 =? 31) = false.
Proof. vm_compute. reflexivity. Qed.
Lemma any_false nr nc (f : nat -> nat -> Q) (p : ext -> bool) : (forall q, p (Fin q) = false) ->
  any_entry nr nc (fun r c => Fin (f r c)) p = false.
Proof. intros H. apply any_entry_false. intros r c _ _. apply H. Qed.

(** C179 as stated is false: on the 31 x 31 matrix of costs (i+1)(j+1) Python's
    1000 frames do not suffice, nor do any up to 1052 (so the bound of
    [C179_recursion_bound], 1053, is sharp there). *)
Theorem C179_recursion_refuted :
  exists m, mr m = 31 /\ mc m = 31 /\
    (forall r c, me m r c = Fin (inject_Z (Z.of_nat (S r) * Z.of_nat (S c)))) /\
    (exists a cost, assign_opt (Arr2 m) = Ok (a, cost)) /\
    forall frames, frames <= 1052 -> assign_opt_rec frames m = Err RecursionErr.
Proof.
  exists (deepM 31). split; [reflexivity|]. split; [reflexivity|]. split; [intros r c; reflexivity|].
  assert (Hpos : forall r c, (0 <= deepC r c)%Q) by (intros r c; unfold deepC, Qle, inject_Z; cbn [Qnum Qden]; lia).
  split.
  { destruct (assign_opt2_spec (deepM 31)) as [a [cost [H _]]]; [|exists a, cost; exact H].
    intros r c q _ _ E. cbn in E. injection E as <-. apply Hpos. }
  intros frames Hf. unfold assign_opt_rec. destruct frames as [|avail]; [reflexivity|]. cbn [deepM mr mc me].
  assert (E1 : any_entry 31 31 (fun r c => Fin (deepC r c)) (fun e => match e with Fin q => Qltb q 0 | Inf => false end) = false).
  { apply any_entry_false. intros r c _ _. apply Qltb_ge. apply Hpos. }
  rewrite E1. assert (E2 : any_entry 31 31 (fun r c => Fin (deepC r c)) is_fin = true).
  { apply any_entry_true. exists 0, 0. split; [lia|]. split; [lia|reflexivity]. }
  rewrite E2. cbn [negb]. rewrite (any_false 31 31 deepC) by reflexivity.
  assert (E3 : solver 31 31 avail deepC = Err RecursionErr); [|change (fun r c => fin_val (Fin (deepC r c))) with deepC; rewrite E3; reflexivity].
  unfold solver. change (31 <=? 31) with true. cbv iota zeta.
  pose proof deep_run as R. pose proof deep_count as N. revert R N. unfold deep_start. rewrite tab_eq. cbv zeta.
  destruct (star_rows 31 _ _ _ _) as [star ccov]. intros R N.
  unfold step2br. destruct (avail <? 2); [reflexivity|]. rewrite N.
  rewrite step3t_eq in R.
  apply (step3r_less _ _ _ _ 1049); [lia|]. revert R. destruct (step3r _ _ _ _ _ _) as [x|e]; [discriminate|]. destruct e; try discriminate. reflexivity.
Qed.

(** The hypotheses of the bound are met, e.g. by a 3 x 4 matrix and 17 frames,
    and both dimensions may be large if one is small. *)
Example bound_example : assign_opt_rec 17 {| mr := 3; mc := 400; me := fun r c => Fin (deepC r c) |} =
  assign_opt (Arr2 {| mr := 3; mc := 400; me := fun r c => Fin (deepC r c) |}).
Proof. apply C179_recursion_bound; cbn [mr mc]; lia. Qed.

Print Assumptions C179_recursion_bound.
Print Assumptions C179_recursion_default_partial.
Print Assumptions C179_recursion_refuted.
