(** What "optimal assignment" means; independent of how it is computed.
    An assignment of rows to columns is a list with one entry per row: [Some c]
    (the row is given column c) or [None] (-1 in Python: no column). *)
From Verif Require Import Base.

(** The (row, column) pairs selected by an assignment whose first entry is row
    [r]. *)
Fixpoint pairs_from (r : nat) (a : list (option nat)) : list (nat * nat) :=
  match a with
  | [] => []
  | None :: a' => pairs_from (S r) a'
  | Some c :: a' => (r, c) :: pairs_from (S r) a'
  end.
Definition pairs (a : list (option nat)) : list (nat * nat) := pairs_from 0 a.

(** One entry per row, columns in range, no column used twice. *)
Definition is_assignment (nr nc : nat) (a : list (option nat)) : Prop :=
  length a = nr /\
  (forall r c, In (r, c) (pairs a) -> c < nc) /\
  NoDup (map snd (pairs a)).

(** Number of rows that get a column. *)
Definition assign_size (a : list (option nat)) : nat := length (pairs a).

(** Uses no forbidden (+inf) entry. *)
Definition inf_free (m : nat -> nat -> ext) (a : list (option nat)) : Prop :=
  forall r c, In (r, c) (pairs a) -> exists q, m r c = Fin q.

(** Sum of the selected (finite) entries. *)
Definition assign_cost (m : nat -> nat -> ext) (a : list (option nat)) : Q :=
  qsum (map (fun rc => fin_val (m (fst rc) (snd rc))) (pairs a)).
