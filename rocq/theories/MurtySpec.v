(** What murty_m_best must return.  A solution gives every row a column or
    nothing ([None] = missed, contributes cost 0). *)
From Verif Require Import Base HungSpec.

(** Feasible: columns in range and used once, no forbidden entry. *)
Definition feasible (nr nc : nat) (cost : nat -> nat -> ext) (s : list (option nat)) : Prop :=
  is_assignment nr nc s /\ inf_free cost s.

(** Encoding used by the API: 0 = missed, c+1 = column c. *)
Definition encode (s : list (option nat)) : list nat :=
  map (fun o => match o with None => 0 | Some c => S c end) s.

(** [sols] (with [costs]) are m cheapest feasible solutions, cheapest first:
    all feasible, no repetition, costs are the selected entries' sums,
    non-decreasing; nothing left out is cheaper than anything returned; at most
    m, and fewer than m only when nothing is left out. *)
Definition m_best (nr nc : nat) (M : nat -> nat -> ext) (m : nat)
    (sols : list (list (option nat))) (costs : list Q) : Prop :=
  Forall (feasible nr nc M) sols /\
  NoDup sols /\
  Forall2 (fun s c => (c == assign_cost M s)%Q) sols costs /\
  ForallOrdPairs (fun a b => (a <= b)%Q) costs /\
  (forall c s, In c costs -> feasible nr nc M s -> ~ In s sols -> (c <= assign_cost M s)%Q) /\
  length sols <= m /\
  (length sols < m -> forall s, feasible nr nc M s -> In s sols).
