(** What the theorems about OSPA in double precision assume. *)
From Coq Require Import Reals ZArith.
From Flocq Require Import Core.
From Verif Require Import Base RBase OspaModel OspaSpec FltIeee FltGibbs FltNear.
Local Open Scope R_scope.

(** The power function: 0 ** y = 0, and otherwise the correct value up to a
    relative error of 2 * 2^-53 (about one unit in the last place) wherever the
    result is not extreme.  (glibc's pow is better than this.) *)
Definition pow_ok (pw : R -> R -> R) : Prop :=
  (forall y, 0 < y -> pw 0 y = 0) /\
  (forall x y, rep64 x -> 0 < x -> 0 < y -> bpow radix2 (-1000) <= Rpower x y <= bpow radix2 1000 ->
     rep64 (pw x y) /\ Rabs (pw x y - Rpower x y) <= 2 * u64 * Rpower x y).
(** linear_sum_assignment returns an assignment whose cost is least up to the
    factor (1 + 2^-53)^kl; ValueError when an entry is nan. *)
Definition lsa64_ok (kl : nat) (lsa : nat -> nat -> (nat -> nat -> option R) -> result (list (nat * nat))) : Prop :=
  forall m n C,
    ((forall i j, (i < m)%nat -> (j < n)%nat -> exists v, C i j = Some v /\ 0 <= v) ->
       exists a, lsa m n C = Ok a /\ assignment m n a /\
         forall b, assignment m n b -> acost C a <= acost C b * (1 + u64) ^ kl) /\
    ((exists i j, (i < m)%nat /\ (j < n)%nat /\ C i j = None) -> lsa m n C = Err ValueErr).

(** The objects that occur in an array. *)
Definition occurs (a : arr) (x : obj) : Prop := exists l, In l a /\ In (Some x) l.
(** All coordinates are doubles. *)
Definition float_state (dim : nat) (x : obj) : Prop := forall i, (i < dim)%nat -> rep64 (st x i).
(** Neither overflow nor underflow occurs: coordinates of different objects
    differ by at most 2^400 and are equal or at least 2^-400 apart, and the p-th
    powers of the cut-off and of the nonzero distances are not extreme. *)
Definition moderate_pair (dim : nat) (d : R) (p : nat) (x y : obj) : Prop :=
  (forall i, (i < dim)%nat -> st x i = st y i \/ bpow radix2 (-400) <= Rabs (st x i - st y i) <= bpow radix2 400) /\
  (d = 0 \/ bpow radix2 (-900) <= d ^ p).
Definition moderate_cut (c : R) (p : nat) : Prop := rep64 c /\ 0 < c /\ bpow radix2 (-900) <= c ^ p <= bpow radix2 900.
(** Number of relative errors of 2^-53 in each component of the result, for at
    most [N] objects per time step. *)
Definition ospa_err (dim p N kl : nat) : nat := (2020 + 2 * N + p * (8 + 2 * dim) + kl)%nat.
