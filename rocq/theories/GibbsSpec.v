(** Specification vocabulary for gibbs, independent of the model. *)
From Verif Require Import Base.

(** A one-to-one assignment of [n] variables to [m] columns. *)
Definition one_to_one (n m : nat) (a : list nat) : Prop :=
  length a = n /\ (forall j, In j a -> j < m) /\ NoDup a.

(** [c] is the sum of the entries selected by [a]: +inf when one of them is. *)
Definition selected_cost (costs : list (list ext)) (a : list nat) (c : ext) : Prop :=
  let sel := map (fun i => nth (nth i a 0) (nth i costs []) Inf) (seq 0 (length costs)) in
  match c with
  | Fin q => (forall e, In e sel -> e <> Inf) /\ (q == fold_right (fun e s => fin_val e + s) 0 sel)%Q
  | Inf => In Inf sel
  end.

(** Strict lexicographic order on rows. *)
Fixpoint lex_lt (a b : list nat) : Prop :=
  match a, b with
  | [], [] => False | [], _ => True | _, [] => False
  | x :: a', y :: b' => x < y \/ (x = y /\ lex_lt a' b')
  end.
Fixpoint strictly_sorted (l : list (list nat)) : Prop :=
  match l with
  | [] => True
  | a :: l' => (forall b, In b l' -> lex_lt a b) /\ strictly_sorted l'
  end.

(** Every row of the matrix has [m] entries. *)
Definition is_matrix (costs : list (list ext)) (m : nat) : Prop :=
  forall r, In r costs -> length r = m.
