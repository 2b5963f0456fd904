(** Shared vocabulary of the models: Python exceptions as values, costs
    extended with +inf, first-match search loops, pointwise array update. *)
From Coq Require Export List Arith ZArith QArith Qabs Lia Lqa Bool.
Export ListNotations.
Open Scope nat_scope.

(** Python outcome: a value, or an exception.  [OutOfFuel] marks a loop that
    did not finish in the model's fuel; theorems show it does not occur. *)
Inductive err :=
| RuntimeErr | IndexErr | ValueErr | UnboundLocal | AttributeErr | KeyErr
| TypeErr | NanErr | RecursionErr | OutOfFuel.
Inductive result (A : Type) := Ok (a : A) | Err (e : err).
Arguments Ok {A} a.
Arguments Err {A} e.
Definition bind {A B} (r : result A) (f : A -> result B) : result B :=
  match r with Ok a => f a | Err e => Err e end.
Notation "'do' x <- r ; k" := (bind r (fun x => k))
  (at level 200, x pattern, r at level 100, k at level 200).

Lemma bind_ok {A B} (r : result A) (f : A -> result B) b :
  bind r f = Ok b -> exists a, r = Ok a /\ f a = Ok b.
Proof. destruct r as [a|e]; simpl; intros H; [eauto|discriminate]. Qed.

(** A cost: a finite number or +inf. *)
Inductive ext := Fin (q : Q) | Inf.
Definition is_fin (e : ext) : bool := match e with Fin _ => true | Inf => false end.
Definition fin_val (e : ext) : Q := match e with Fin q => q | Inf => 0%Q end.

(** Boolean comparisons on Q. *)
Definition Qltb (a b : Q) : bool := negb (Qle_bool b a).
Lemma Qltb_lt a b : Qltb a b = true <-> (a < b)%Q.
Proof.
  unfold Qltb. rewrite negb_true_iff. split; intros H.
  - apply Qnot_le_lt. intros H1. apply Qle_bool_iff in H1. congruence.
  - destruct (Qle_bool b a) eqn:E; [|reflexivity].
    apply Qle_bool_iff in E. exfalso; lra.
Qed.
Lemma Qltb_ge a b : Qltb a b = false <-> (b <= a)%Q.
Proof.
  unfold Qltb. rewrite negb_false_iff. apply Qle_bool_iff.
Qed.
Lemma Qleb_le a b : Qle_bool a b = true <-> (a <= b)%Q.
Proof. apply Qle_bool_iff. Qed.
Lemma Qleb_gt a b : Qle_bool a b = false <-> (b < a)%Q.
Proof.
  split; intros H.
  - apply Qnot_le_lt. intros H1. apply Qle_bool_iff in H1. congruence.
  - destruct (Qle_bool a b) eqn:E; [|reflexivity].
    apply Qle_bool_iff in E. exfalso; lra.
Qed.
Lemma Qeqb_eq a b : Qeq_bool a b = true <-> (a == b)%Q.
Proof. apply Qeq_bool_iff. Qed.
Lemma Qeqb_neq a b : Qeq_bool a b = false <-> ~ (a == b)%Q.
Proof.
  split; intros H.
  - intros H1. apply Qeq_bool_iff in H1. congruence.
  - destruct (Qeq_bool a b) eqn:E; [|reflexivity]. apply Qeq_bool_iff in E. tauto.
Qed.

(** [find_first f n]: the least [i < n] with [f i], and [n] if there is none.
    Shape of the Python idiom
    [x = 0; for ii in range(0,n): if f(ii): x = ii; break  else: x = ii+1]. *)
Fixpoint find_from (f : nat -> bool) (i n : nat) : nat :=
  match n with
  | 0 => i
  | S n' => if f i then i else find_from f (S i) n'
  end.
Definition find_first (f : nat -> bool) (n : nat) : nat := find_from f 0 n.

Lemma find_from_spec f n : forall i,
  i <= find_from f i n <= i + n /\
  (find_from f i n < i + n -> f (find_from f i n) = true) /\
  (forall j, i <= j < find_from f i n -> f j = false).
Proof.
  induction n as [|n IH]; intros i; simpl.
  - split; [lia|]. split; [lia|]. intros; lia.
  - destruct (f i) eqn:E.
    + split; [lia|]. split; [auto|]. intros; lia.
    + destruct (IH (S i)) as [H1 [H2 H3]]. split; [lia|]. split.
      * intros H. apply H2. lia.
      * intros j Hj. destruct (Nat.eq_dec j i) as [->|]; [assumption|]. apply H3; lia.
Qed.
Lemma find_first_le f n : find_first f n <= n.
Proof. destruct (find_from_spec f n 0) as [H _]. unfold find_first. lia. Qed.
Lemma find_first_true f n : find_first f n < n -> f (find_first f n) = true.
Proof. destruct (find_from_spec f n 0) as [_ [H _]]. exact H. Qed.
Lemma find_first_before f n j : j < find_first f n -> f j = false.
Proof. destruct (find_from_spec f n 0) as [_ [_ H]]. intros Hj. apply H; unfold find_first in *; lia. Qed.
Lemma find_first_none f n : find_first f n = n -> forall j, j < n -> f j = false.
Proof. intros H j Hj. apply (find_first_before f n). lia. Qed.
Lemma find_first_some f n j : j < n -> f j = true -> find_first f n < n /\ find_first f n <= j.
Proof.
  intros Hj Hf. destruct (Nat.le_gt_cases (find_first f n) j) as [H|H].
  - split; lia.
  - apply find_first_before in H. congruence.
Qed.

(** Pointwise updates of arrays represented as functions. *)
Definition upd {A} (f : nat -> A) (i : nat) (v : A) : nat -> A :=
  fun k => if k =? i then v else f k.
Definition upd2 {A} (f : nat -> nat -> A) (i j : nat) (v : A) : nat -> nat -> A :=
  fun k l => if (k =? i) && (l =? j) then v else f k l.
Lemma upd_same {A} (f : nat -> A) i v : upd f i v i = v.
Proof. unfold upd. now rewrite Nat.eqb_refl. Qed.
Lemma upd_other {A} (f : nat -> A) i j v : j <> i -> upd f i v j = f j.
Proof. unfold upd. intros H. apply Nat.eqb_neq in H. now rewrite H. Qed.
Lemma upd2_same {A} (f : nat -> nat -> A) i j v : upd2 f i j v i j = v.
Proof. unfold upd2. now rewrite !Nat.eqb_refl. Qed.
Lemma upd2_other {A} (f : nat -> nat -> A) i j k l v :
  (k <> i \/ l <> j) -> upd2 f i j v k l = f k l.
Proof.
  unfold upd2. destruct (Nat.eqb_spec k i), (Nat.eqb_spec l j); simpl; try reflexivity.
  intros [H|H]; congruence.
Qed.

(** Exists/forall over an index range, and counting. *)
Definition any_lt (f : nat -> bool) (n : nat) : bool := existsb f (seq 0 n).
Definition all_lt (f : nat -> bool) (n : nat) : bool := forallb f (seq 0 n).
Definition count_lt (f : nat -> bool) (n : nat) : nat := length (filter f (seq 0 n)).

Lemma any_lt_true f n : any_lt f n = true <-> exists i, i < n /\ f i = true.
Proof.
  unfold any_lt. rewrite existsb_exists. split.
  - intros [i [H1 H2]]. apply in_seq in H1. exists i; split; [lia|auto].
  - intros [i [H1 H2]]. exists i; split; [apply in_seq; lia|auto].
Qed.
Lemma any_lt_false f n : any_lt f n = false <-> forall i, i < n -> f i = false.
Proof.
  split.
  - intros H i Hi. destruct (f i) eqn:E; [|reflexivity].
    assert (any_lt f n = true) by (apply any_lt_true; eauto). congruence.
  - intros H. destruct (any_lt f n) eqn:E; [|reflexivity].
    apply any_lt_true in E as [i [H1 H2]]. rewrite H in H2; auto.
Qed.
Lemma all_lt_true f n : all_lt f n = true <-> forall i, i < n -> f i = true.
Proof.
  unfold all_lt. rewrite forallb_forall. split; intros H i Hi.
  - apply H. apply in_seq; lia.
  - apply H. apply in_seq in Hi; lia.
Qed.
Lemma all_lt_false f n : all_lt f n = false <-> exists i, i < n /\ f i = false.
Proof.
  split.
  - intros H. destruct (any_lt (fun i => negb (f i)) n) eqn:E.
    + apply any_lt_true in E as [i [H1 H2]]. apply negb_true_iff in H2. eauto.
    + assert (all_lt f n = true); [|congruence]. apply all_lt_true. intros i Hi.
      rewrite any_lt_false in E. apply E in Hi. now apply negb_false_iff in Hi.
  - intros [i [H1 H2]]. destruct (all_lt f n) eqn:E; [|reflexivity].
    rewrite all_lt_true in E. rewrite E in H2; auto.
Qed.

(** Sum of a list of rationals, and of a function over an index range. *)
Definition qsum (l : list Q) : Q := fold_right Qplus 0%Q l.
Definition qsumf {A} (f : A -> Q) (l : list A) : Q := qsum (map f l).
