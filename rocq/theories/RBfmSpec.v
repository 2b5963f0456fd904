(** Generated by mk_real.py from BfmSpec.v: the same over the real numbers. *)
(** Weighted directed graphs given by a square matrix: entry 0 or +inf = no
    link. *)
From Verif Require Import RBase.

Definition link (G : nat -> nat -> ext) (u v : nat) : Prop :=
  exists w, G u v = Fin w /\ ~ (w = 0)%R.

(** Consecutive nodes of a node list are linked; sum of the link costs. *)
Fixpoint path_links (G : nat -> nat -> ext) (p : list nat) : Prop :=
  match p with
  | u :: ((v :: _) as t) => link G u v /\ path_links G t
  | _ => True
  end.
Fixpoint path_cost (G : nat -> nat -> ext) (p : list nat) : R :=
  match p with
  | u :: ((v :: _) as t) => (fin_val (G u v) + path_cost G t)%R
  | _ => 0%R
  end.

(** A path (nodes may repeat) from s to d in the graph on nodes 0..n-1. *)
Definition is_path (n : nat) (G : nat -> nat -> ext) (s d : nat) (p : list nat) : Prop :=
  Forall (fun v => v < n) p /\ path_links G p /\
  hd_error p = Some s /\ hd_error (rev p) = Some d.

Definition no_negative_cycle (n : nat) (G : nat -> nat -> ext) : Prop :=
  forall v p, is_path n G v v p -> (0 <= path_cost G p)%R.

(** No entry is nonzero but smaller in magnitude than double precision's
    machine epsilon 2^-52. *)
Definition well_scaled (n : nat) (G : nat -> nat -> ext) : Prop :=
  forall u v q, u < n -> v < n -> G u v = Fin q ->
    (q = 0)%R \/ (/ 4503599627370496 <= Rabs q)%R.
