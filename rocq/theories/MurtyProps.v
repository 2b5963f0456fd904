(** Property theorems about murty_m_best (C04-C07). *)
From Verif Require Import Base HungModel HungSpec HungProofs MurtyModel MurtySpec MurtyProofs.

Lemma encode_inj a b : encode a = encode b -> a = b.
Proof.
  revert b. induction a as [|x a IH]; intros [|y b] H; simpl in H; try discriminate; [reflexivity|].
  inversion H as [[H1 H2]]. f_equal; [|apply IH, H2]. destruct x, y; congruence.
Qed.
Lemma encode_nth s : forall r0 r v, nth_error (encode s) r = Some (S v) -> In (r0 + r, v) (pairs_from r0 s).
Proof.
  induction s as [|o s IH]; intros r0 [|r] v; simpl; try discriminate.
  - destruct o as [c|]; [|discriminate]. intros E. inversion E; subst. rewrite Nat.add_0_r. left; reflexivity.
  - intros E. apply (IH (S r0)) in E. rewrite Nat.add_succ_r. simpl in E. destruct o; [right|]; exact E.
Qed.

(** C04: every row of the result has one value per row of the matrix, each
    between 0 (missed) and the number of columns, no column twice; the rows of
    the result are pairwise different. *)
Theorem C04_murty_valid : forall cost m, 0 < mr cost ->
  exists rows costs, murty_m_best (Arr2 cost) m = Ok (rows, costs) /\
    NoDup rows /\
    forall row, In row rows ->
      length row = mr cost /\
      (forall v, In v row -> v <= mc cost) /\
      (forall r1 r2 v, nth_error row r1 = Some (S v) -> nth_error row r2 = Some (S v) -> r1 = r2) /\
      (forall r v, nth_error row r = Some (S v) -> exists q, me cost r v = Fin q).
Proof.
  intros cost m Hr. destruct m as [|m].
  { exists [], []. split; [reflexivity|]. split; [constructor|]. intros row []. }
  destruct (murty2_spec cost (S m) Hr) as [sols [costs [E [F [N _]]]]]; [lia|].
  exists (map encode sols), costs. split; [exact E|]. split.
  - apply FinFun.Injective_map_NoDup; [|exact N]. intros a b. apply encode_inj.
  - intros row Hrow. apply in_map_iff in Hrow as [s [<- Hs]].
    rewrite Forall_forall in F. destruct (F s Hs) as [[L [C D]] I].
    split; [unfold encode; rewrite map_length; exact L|]. split; [|split].
    + intros v Hv. apply In_nth_error in Hv as [r Hv]. destruct v as [|v]; [lia|].
      apply (encode_nth s 0) in Hv. apply C in Hv. lia.
    + intros r1 r2 v H1 H2. apply (encode_nth s 0) in H1, H2. simpl in H1, H2.
      fold (pairs s) in H1, H2. clear - H1 H2 D.
      induction (pairs s) as [|[r c] l IH]; [destruct H1|]. simpl in D. inversion D as [|? ? D1 D2].
      destruct H1 as [H1|H1], H2 as [H2|H2].
      * congruence.
      * inversion H1; subst. exfalso. apply D1. apply (in_map snd) in H2. exact H2.
      * inversion H2; subst. exfalso. apply D1. apply (in_map snd) in H1. exact H1.
      * apply IH; assumption.
    + intros r v Hv. apply (encode_nth s 0) in Hv. exact (I _ _ Hv).
Qed.

(** Sum of the selected entries of an API row (0 = missed). *)
Fixpoint row_cost (M : nat -> nat -> ext) (r : nat) (row : list nat) : Q :=
  match row with
  | [] => 0
  | 0 :: row' => row_cost M (S r) row'
  | S c :: row' => (fin_val (M r c) + row_cost M (S r) row')%Q
  end.
Lemma row_cost_encode M s : forall r,
  (row_cost M r (encode s) == qsum (map (fun rc => fin_val (M (fst rc) (snd rc))) (pairs_from r s)))%Q.
Proof.
  induction s as [|[c|] s IH]; intros r; simpl; [reflexivity| |apply IH].
  rewrite IH. reflexivity.
Qed.

(** C05: as many costs as rows, the k-th cost is the sum of the entries of the
    original matrix selected by the k-th row. *)
Theorem C05_murty_costs : forall cost m, 0 < mr cost ->
  exists rows costs, murty_m_best (Arr2 cost) m = Ok (rows, costs) /\
    length rows = length costs /\
    forall k row c, nth_error rows k = Some row -> nth_error costs k = Some c ->
      (c == row_cost (me cost) 0 row)%Q.
Proof.
  intros cost m Hr. destruct m as [|m].
  { exists [], []. split; [reflexivity|]. split; [reflexivity|]. intros [|k]; discriminate. }
  destruct (murty2_spec cost (S m) Hr) as [sols [costs [E [_ [_ [F _]]]]]]; [lia|].
  exists (map encode sols), costs. split; [exact E|]. rewrite map_length. split.
  - clear E. induction F; simpl; congruence.
  - clear E. induction F as [|s c sols costs H F IH]; intros [|k] row c' H1 H2; simpl in *; try discriminate.
    + inversion H1; inversion H2; subst. rewrite row_cost_encode. exact H.
    + eapply IH; eassumption.
Qed.

(** C06: the result is the list of the m best feasible solutions ([m_best],
    [feasible] and [encode] are in MurtySpec.v), and it has
    min(m, number of feasible solutions) rows, whatever duplicate-free
    enumeration [L] of the feasible solutions is used to count them. *)
Theorem C06_murty_m_best : forall cost m, 0 < mr cost ->
  exists sols costs, murty_m_best (Arr2 cost) m = Ok (map encode sols, costs) /\
    m_best (mr cost) (mc cost) (me cost) m sols costs /\
    forall L, NoDup L -> (forall s, In s L <-> feasible (mr cost) (mc cost) (me cost) s) ->
      length sols = Nat.min m (length L).
Proof.
  intros cost m Hr. destruct m as [|m].
  { exists [], []. split; [reflexivity|]. split; [|reflexivity].
    split; [constructor|]. split; [constructor|]. split; [constructor|]. split; [constructor|].
    split; [intros c s []|]. split; [simpl; lia|]. simpl; intros; lia. }
  destruct (murty2_spec cost (S m) Hr) as [sols [costs [E M]]]; [lia|].
  exists sols, costs. split; [exact E|]. split; [exact M|].
  destruct M as [F [N [_ [_ [_ [Hle Hall]]]]]]. intros L NL HL.
  assert (H1 : length sols <= length L).
  { apply NoDup_incl_length; [exact N|]. intros s Hs. apply HL. rewrite Forall_forall in F. auto. }
  destruct (Nat.eq_dec (length sols) (S m)) as [He|Hn]; [rewrite He in *; symmetry; apply Nat.min_l; exact H1|].
  assert (H2 : length L <= length sols).
  { apply NoDup_incl_length; [exact NL|]. intros s Hs. apply Hall; [lia|]. apply HL, Hs. }
  lia.
Qed.

(** C07: degenerate inputs. *)
Theorem C07_murty_degenerate :
  (forall cost, murty_m_best (Arr2 cost) 0 = Ok ([], [])) /\
  (forall a m, (forall c, a <> Arr2 c) -> murty_m_best a m = Err RuntimeErr).
Proof.
  split; [reflexivity|]. intros [n f|c|] m H; try reflexivity. exfalso. apply (H c). reflexivity.
Qed.

Print Assumptions C04_murty_valid.
Print Assumptions C05_murty_costs.
Print Assumptions C06_murty_m_best.
Print Assumptions C07_murty_degenerate.

(** A 2x2 matrix with negative costs: all 7 solutions, ranked. *)
Example C06_ex :
  exists costs, murty_m_best (Arr2 (of_rows 2 [[Fin 4; Fin (-1)]; [Fin 2; Fin (-3)]])) 9 =
   Ok ([[0;2];[2;0];[0;0];[1;2];[2;1];[0;1];[1;0]], costs) /\
   map Qred costs = [-3; -1; 0; 1; 1; 2; 4]%Q.
Proof. eexists. split; vm_compute; reflexivity. Qed.
(** With a forbidden entry and a cap on the number. *)
Example C06_ex_inf :
  exists costs, murty_m_best (Arr2 (of_rows 2 [[Inf; Fin (-1)]; [Fin 2; Fin (-3)]])) 3 =
   Ok ([[0;2];[2;0];[0;0]], costs) /\ map Qred costs = [-3; -1; 0]%Q.
Proof. eexists. split; vm_compute; reflexivity. Qed.
