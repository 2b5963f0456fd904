(** Specification vocabulary for the GLMB probabilities in double precision. *)
From Coq Require Import Reals ZArith.
From Flocq Require Import Core.
From Verif Require Import Base RBase GlmbModel GlmbSpec FltIeee.
Local Open Scope R_scope.

(** The same track set, and a nonnegative double probability within [K] relative
    errors of 2^-53 and 2^-500 of the exact one. *)
Definition close_hyp (K : nat) (a b : hyp) : Prop :=
  h_ts a = h_ts b /\ rep64 (h_p a) /\ 0 <= h_p a /\ Rabs (h_p a - h_p b) <= INR K * u64 * h_p b + bpow radix2 (-500).
(** Double probabilities in [0, 1]. *)
Definition probs64 (hs : list hyp) : Prop := forall h, In h hs -> rep64 (h_p h) /\ 0 <= h_p h <= 1.
(** A distribution up to rounding. *)
Definition nearly_dist (K : nat) (hs : list hyp) : Prop :=
  probs64 hs /\ Rabs (rsum (map h_p hs) - 1) <= INR K * u64.
(** The distribution of the number of tracks, up to rounding. *)
Definition card_near (K : nat) (card : list R) (hs : list hyp) : Prop :=
  forall n, Rabs (nth n card 0 - mass (fun h => (length (h_ts h) =? n)%nat) hs) <= INR K * u64 * mass (fun h => (length (h_ts h) =? n)%nat) hs.
