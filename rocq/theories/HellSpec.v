(** Linear algebra the HELLINGER core of calculate_ospa relies on (C138): positive
    definite covariances and the contracts of numpy's la.det and la.inv. *)
From Verif Require Import Base OspaModel OspaSpec.
From Coq Require Import Reals List Arith Lia.
Import ListNotations.
Local Open Scope R_scope.

(** The leading n x n block is symmetric and positive definite. *)
Definition positive_definite (n : nat) (A : rmat) : Prop :=
  (forall i j, (i < n)%nat -> (j < n)%nat -> A i j = A j i) /\
  forall x : rvec, (exists i, (i < n)%nat /\ x i <> 0) -> 0 < quad n A x.
(** Product of the first n numbers. *)
Fixpoint rprodn (n : nat) (f : nat -> R) : R :=
  match n with O => 1 | S n' => rprodn n' f * f n' end.
(** What is assumed of la.det: it looks at the n x n block only, is multiplicative,
    and is the product of the diagonal for triangular matrices. *)
Definition det_ok (n : nat) (det : rmat -> R) : Prop :=
  (forall A B, (forall i j, (i < n)%nat -> (j < n)%nat -> A i j = B i j) -> det A = det B) /\
  (forall A B, det (mprod n A B) = det A * det B) /\
  (forall A, (forall i j, (i < j < n)%nat -> A i j = 0) \/ (forall i j, (j < i < n)%nat -> A i j = 0) ->
     det A = rprodn n (fun i => A i i)).
(** What is assumed of la.inv: on positive definite matrices it is the inverse. *)
Definition inv_ok (n : nat) (inv : rmat -> rmat) : Prop :=
  forall A, positive_definite n A -> forall i j, (i < n)%nat -> (j < n)%nat ->
    mprod n A (inv A) i j = if (i =? j)%nat then 1 else 0.
(** Every object of the array has a positive definite covariance. *)
Definition gaussian_array (n : nat) (a : arr) : Prop :=
  forall l x, In l a -> In (Some x) l -> exists P, cv x = Some P /\ positive_definite n P.
(** The same distribution: same mean and covariance. *)
Definition same_gaussian (n : nat) (x y : obj) : Prop :=
  (forall i, (i < n)%nat -> st x i = st y i) /\
  forall P Q, cv x = Some P -> cv y = Some Q -> forall i j, (i < n)%nat -> (j < n)%nat -> P i j = Q i j.
