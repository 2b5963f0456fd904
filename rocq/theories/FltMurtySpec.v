(** What [murty_m_best] returns in rounded arithmetic. *)
From Verif Require Import RBase RHungSpec RMurtySpec FltModel FltSpec.
Local Open Scope R_scope.

(** Operations with operands of either sign: the results are rounded with
    relative error [u] unless they overflow, and 0 - x is exact. *)
Definition rounds_signed (u fmax : R) (rep : R -> Prop) (A : farith) : Prop :=
  rounds u fmax rep A /\
  (forall x y, rep x -> rep y -> Rabs (x + y) <= fmax ->
     rep (fadd A x y) /\ Rabs (fadd A x y - (x + y)) <= u * Rabs (x + y)) /\
  (forall x y, rep x -> rep y -> y <= x -> x - y <= fmax ->
     rep (fsub A x y) /\ 0 <= fsub A x y /\ Rabs (fsub A x y - (x - y)) <= u * (x - y)) /\
  (forall x, rep x -> fsub A 0 x = - x) /\
  (forall x (n : nat), rep x -> rep (INR n) -> Rabs (x * INR n) <= fmax ->
     rep (fmul A x (INR n)) /\ Rabs (fmul A x (INR n) - x * INR n) <= u * Rabs (x * INR n)).

(** Tolerances for costs of magnitude up to [K] in an nr x nc matrix: of the
    reported costs, and of the ranking. *)
Definition acc_tol (u : R) (nr : nat) (K : R) : R := 15 * INR nr * INR nr * u * K.
Definition rank_tol (u : R) (nr nc : nat) (K : R) : R :=
  34 * K * INR nr * INR (nc + nr) * assign_tol u nr (nc + nr).

(** [sols] with [costs] are m nearly cheapest feasible solutions: all feasible,
    no repetition; reported costs are correct up to [e]; nothing later in the
    list, and nothing left out, is cheaper than a returned solution by more than
    [t]; at most m, and fewer than m only when nothing is left out. *)
Definition m_best_upto (e t : R) (nr nc : nat) (M : nat -> nat -> ext) (m : nat)
    (sols : list (list (option nat))) (costs : list R) : Prop :=
  Forall (feasible nr nc M) sols /\
  NoDup sols /\
  Forall2 (fun s c => Rabs (c - assign_cost M s) <= e) sols costs /\
  ForallOrdPairs (fun a b => assign_cost M a <= assign_cost M b + t) sols /\
  (forall s s', In s sols -> feasible nr nc M s' -> ~ In s' sols ->
     assign_cost M s <= assign_cost M s' + t) /\
  (length sols <= m)%nat /\
  ((length sols < m)%nat -> forall s, feasible nr nc M s -> In s sols).
