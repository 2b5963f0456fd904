(** Specification vocabulary for the guidance properties C64-C70, C79-C86. *)
From Verif Require Import Base.
From Coq Require Import Reals Permutation.
From Verif Require Import OspaModel GuidModel.
Open Scope R_scope.

(** The arithmetic mean of a list of vectors, component by component. *)
Definition mean_of (l : list vec) (i : nat) : R := rsum (map (fun m => m i) l) / INR (length l).
(** Euclidean distance in [dim] dimensions. *)
Definition edist (dim : nat) (x y : vec) : R := sqrt (rsumn dim (fun i => (x i - y i) ^ 2)).
(** [v] is the largest entry of [l]. *)
Definition greatest (l : list R) (v : R) : Prop := In v l /\ forall x, In x l -> x <= v.
(** A weighted Gaussian. *)
Record wg := { gw : R; gm : vec; gp : mat }.
Definition mix_of (l : list wg) : gmx := {| t_w := map gw l; t_m := map gm l; t_p := map gp l |}.
(** Sum over all pairs. *)
Definition pairsum {A B} (l : list A) (l' : list B) (f : A -> B -> R) : R :=
  rsum (map (fun a => rsum (map (fun b => f a b) l')) l).
(** All diagonal entries of all covariances. *)
Definition variances (dim : nat) (l : list wg) : list R :=
  flat_map (fun g => map (fun i => gp g i i) (seq 0 dim)) l.
(** The normal density for given determinant and inverse functions. *)
Definition gauss (dim : nat) (inv : mat -> mat) (det : mat -> R) (x m : vec) (P : mat) : R :=
  Rpower (2 * PI) (- (1 / 2) * INR dim) / sqrt (det P)
  * exp (- (1 / 2) * rsumn dim (fun i => rsumn dim (fun j => (x i - m i) * inv P i j * (x j - m j)))).
(** The documented cost (guidance.py:56-72) with the factor [kappa] (20 in the
    documentation) and N(a; b) the density of [a] under [b] and the summed
    covariance; [alpha] is the activation. *)
Definition doc_cost (kappa : R) (N : wg -> wg -> R) (objs tgts : list wg) (sg sd alpha : R) : R :=
  10 * INR (length objs) * sg * (pairsum objs objs (fun j i => gw j * gw i * N j i)
     - kappa * sd * INR (length tgts) * pairsum tgts objs (fun j i => gw j * gw i * N j i))
  + pairsum tgts tgts (fun j i => gw j * gw i * N j i)
  + alpha * pairsum tgts objs (fun j i => gw j * gw i * ln (N j i)).
(** The matrix is symmetric and positive semidefinite in [dim] dimensions. *)
Definition psd (dim : nat) (P : mat) : Prop :=
  (forall i j, (i < dim)%nat -> (j < dim)%nat -> P i j = P j i) /\
  forall x : vec, 0 <= rsumn dim (fun i => rsumn dim (fun j => x i * P i j * x j)).
(** Applying a matrix to a vector. *)
Definition mapply (dim : nat) (P : mat) (x : vec) : vec := fun i => rsumn dim (fun j => P i j * x j).
(** States of a trajectory: [step k] is applied k = 0, 1, ... *)
Fixpoint traj {A} (step : nat -> A -> A) (x : A) (k : nat) : A :=
  match k with O => x | S k' => step k' (traj step x k') end.
(** Greedy matching: [src] gives for each measurement the index of the old
    object it takes over; [fit i j] is the criterion of measurement i and old
    object j, objects are [0 .. n-1].  An object is available for measurement
    [i] if no earlier measurement took it. *)
Definition available (n : nat) (src : list (option nat)) (i j : nat) : Prop :=
  (j < n)%nat /\ forall k, (k < i)%nat -> nth k src None <> Some j.
Definition greedy (n : nat) (fit : nat -> nat -> R) (bound : R) (src : list (option nat)) : Prop :=
  forall i, (i < length src)%nat ->
    match nth i src None with
    | Some j => available n src i j /\ fit i j < bound /\ forall j', available n src i j' -> fit i j <= fit i j'
    | None => forall j', available n src i j' -> bound <= fit i j'
    end.
(** One time step of all objects: object [i] applies its policy at time [k] to
    its own state and then every dynamics function it has. *)
Definition joint_move (policy : nat -> nat -> vec -> vec) (dyn : nat -> list (vec -> vec -> R)) (k : nat) (xs : list vec) : list vec :=
  map (fun i => fun j => match nth_error (dyn i) j with
                         | Some f => f (nth i xs vzero) (policy i k (nth i xs vzero))
                         | None => nth i xs vzero j end) (seq 0 (length xs)).
(** Rows of [V] are orthonormal eigenvectors of [C] for non-increasing values. *)
Definition eigen_rows (dim : nat) (C V : mat) (lam : nat -> R) : Prop :=
  (forall r i, (r < dim)%nat -> (i < dim)%nat -> mapply dim C (V r) i = lam r * V r i) /\
  (forall r s, (r < dim)%nat -> (s < dim)%nat -> rsumn dim (fun k => V r k * V s k) = if (r =? s)%nat then 1 else 0) /\
  forall r s, (r <= s < dim)%nat -> lam s <= lam r.
Definition inverse_of (dim : nat) (V W : mat) : Prop :=
  forall i j, (i < dim)%nat -> (j < dim)%nat -> rsumn dim (fun k => V i k * W k j) = if (i =? j)%nat then 1 else 0.
(** Mahalanobis distance (squared) of a measurement to the second row of an
    object's trajectory. *)
Definition mahal (dim : nat) (inv : mat -> mat) (obs : vec) (g : gobj) : R :=
  let d := fun i => obs i - nth 1 (g_means g) vzero i in
  rsumn dim (fun i => rsumn dim (fun j => d i * inv (g_cov g) i j * d j)).
(** Default for reading lists of objects, never used within the length. *)
Definition g0 : gobj := fresh_obj 0 vzero (fun _ _ => 0) 0 0 [] [] vzero.
Definition takes (j : nat) (o : option nat) : bool := match o with Some x => (x =? j)%nat | None => false end.
