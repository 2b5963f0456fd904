(** Vocabulary for the claims about [assign_opt] in double precision. *)
From Coq Require Import Reals List ZArith.
From Flocq Require Import Core.
From Verif Require Import RBase RHungModel RHungSpec FltIeee FltGibbs.
Local Open Scope R_scope.

(** Costs are non-negative doubles up to 2^900, or inf. *)
Definition double_costs (m : mat) : Prop :=
  forall r c q, (r < mr m)%nat -> (c < mc m)%nat -> me m r c = Fin q -> rep64 q /\ 0 <= q <= bpow radix2 900.
Definition no_inf (m : mat) : Prop :=
  forall r c, (r < mr m)%nat -> (c < mc m)%nat -> me m r c <> Inf.
(** At most 2048 rows and columns, or 32768 if no entry is inf. *)
Definition moderate_size (m : mat) : Prop :=
  (INR (mr m) <= 2048 /\ INR (mc m) <= 2048) \/ (no_inf m /\ INR (mr m) <= 32768 /\ INR (mc m) <= 32768).
(** The selected costs, row by row, and their sum as the code forms it: from 0,
    left to right, rounded after every addition. *)
Definition selected (m : mat) (a : list (option nat)) : list R :=
  map (fun rc => fin_val (me m (fst rc) (snd rc))) (pairs a).
Definition total64 (m : mat) (a : list (option nat)) : R := fold_left add64 (selected m a) 0.
(** The relative excess over the optimum that rounding can cause. *)
Definition excess (m : mat) : R :=
  let n := INR (Nat.min (mr m) (mc m)) in 32 * u64 * (n * (n + 1) * (2 * INR (mr m) + 4)).
(** Costs are multiples of 2^e, at most [Z] times it, and small enough for
    the numbers met to be exact. *)
Definition exact_costs (e : Z) (Zmax : R) (m : mat) : Prop :=
  (forall r c q, (r < mr m)%nat -> (c < mc m)%nat -> me m r c = Fin q ->
     exists z, q = IZR z * bpow radix2 e /\ 0 <= IZR z <= Zmax) /\
  (-1074 <= e <= 900)%Z /\ 
  ((no_inf m /\ Zmax * (1 + INR (Nat.min (mr m) (mc m))) < bpow radix2 53) \/
   ((e <= 0)%Z /\ bpow radix2 (- e) <= Zmax /\
    10 * Zmax * INR (mr m) * INR (mc m) * (1 + INR (Nat.min (mr m) (mc m))) < bpow radix2 53)).
