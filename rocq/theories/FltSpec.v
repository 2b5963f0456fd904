(** What the theorems assume about floating point operations.  [rep] is "is a
    finite float", [fmax] the largest one, [u] the unit roundoff.  FltIeee.v
    shows that IEEE binary64 with rounding to nearest has these properties. *)
From Verif Require Import RBase FltModel.
Local Open Scope R_scope.

(** Sums and differences of non-negative floats and products with an integer
    are floats again, up to a relative error [u]; adding to 0 is exact, and a
    sum is never below a summand. *)
Definition rounds (u fmax : R) (rep : R -> Prop) (A : farith) : Prop :=
  0 <= u /\ rep 0 /\
  (forall n : nat, INR n * u <= 1 -> rep (INR n)) /\
  (forall x y, rep x -> rep y -> 0 <= x -> 0 <= y -> x + y <= fmax ->
     rep (fadd A x y) /\ Rabs (fadd A x y - (x + y)) <= u * (x + y) /\
     (x = 0 -> fadd A x y = y) /\ y <= fadd A x y) /\
  (forall x y, rep x -> rep y -> 0 <= y -> y <= x ->
     rep (fsub A x y) /\ Rabs (fsub A x y - (x - y)) <= u * (x - y)) /\
  (forall x (n : nat), rep x -> rep (INR n) -> 0 <= x -> x * INR n <= fmax ->
     (rep (fmul A x (INR n)) /\ Rabs (fmul A x (INR n) - x * INR n) <= u * (x * INR n)) /\
     (rep (fmul A (INR n) x) /\ Rabs (fmul A (INR n) x - x * INR n) <= u * (x * INR n))).

(** Every finite entry of a cost matrix is a float. *)
Definition float_matrix (rep : R -> Prop) (nr nc : nat) (e : nat -> nat -> ext) : Prop :=
  forall r c q, (r < nr)%nat -> (c < nc)%nat -> e r c = Fin q -> rep q.

(** The relative tolerance of [assign_opt] in arithmetic with unit roundoff [u]:
    34 n (n+1) (2 rows + 4) u, where n is the smaller dimension. *)
Definition assign_tol (u : R) (nr nc : nat) : R :=
  34 * INR (Nat.min nr nc) * INR (S (Nat.min nr nc) * (2 * nr + 4)) * u.

(** The size of the numbers the algorithm works with: the largest cost, or the
    number substituted for infinite entries if there are any. *)
Definition cost_scale (nr nc : nat) (e : nat -> nat -> ext) (K s : R) : Prop :=
  ((forall r c, (r < nr)%nat -> (c < nc)%nat -> e r c <> Inf) /\ s = K) \/
  ((exists r c, (r < nr)%nat /\ (c < nc)%nat /\ e r c = Inf) /\ s = 11 * K * INR nr * INR nc).
