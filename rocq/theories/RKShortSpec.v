(** Generated by mk_real.py from KShortSpec.v: the same over the real numbers. *)
(** Vocabulary for k_shortest: a cost vector (entry +inf = unavailable state),
    subsets of its indices and their total cost. *)
From Verif Require Import RBase.
From Coq Require Import Permutation.

Definition entry (c : list ext) (i : nat) : ext := nth i c (Fin 0).

(** A set of states, as a duplicate-free index list. *)
Definition subset (c : list ext) (s : list nat) : Prop :=
  NoDup s /\ Forall (fun i => i < length c) s.
Definition available (c : list ext) (s : list nat) : Prop :=
  Forall (fun i => exists q, entry c i = Fin q) s.
Definition total (c : list ext) (s : list nat) : R :=
  rsum (map (fun i => fin_val (entry c i)) s).

(** Double precision machine epsilon, and: no entry is nonzero but smaller
    than it. *)
Definition machine_eps : R := (/ 4503599627370496)%R.
Definition vec_scaled (c : list ext) : Prop :=
  forall i q, i < length c -> entry c i = Fin q -> (q = 0)%R \/ (machine_eps <= Rabs q)%R.

(** [si] lists the indices of c by decreasing cost (any order of ties). *)
Definition ext_le (a b : ext) : Prop :=
  match a, b with
  | _, Inf => True
  | Inf, Fin _ => False
  | Fin x, Fin y => (x <= y)%R
  end.
Definition sorts_desc (c : list ext) (si : list nat) : Prop :=
  Permutation si (seq 0 (length c)) /\
  ForallOrdPairs (fun i j => ext_le (entry c j) (entry c i)) si.
