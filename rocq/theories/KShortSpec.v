(** Vocabulary for k_shortest: a cost vector (entry +inf = unavailable state),
    subsets of its indices and their total cost. *)
From Verif Require Import Base.
From Coq Require Import Permutation.

Definition entry (c : list ext) (i : nat) : ext := nth i c (Fin 0).

(** A set of states, as a duplicate-free index list. *)
Definition subset (c : list ext) (s : list nat) : Prop :=
  NoDup s /\ Forall (fun i => i < length c) s.
Definition available (c : list ext) (s : list nat) : Prop :=
  Forall (fun i => exists q, entry c i = Fin q) s.
Definition total (c : list ext) (s : list nat) : Q :=
  qsum (map (fun i => fin_val (entry c i)) s).

(** Double precision machine epsilon, and: no entry is nonzero but smaller
    than it. *)
Definition machine_eps : Q := (1 # 4503599627370496)%Q.
Definition vec_scaled (c : list ext) : Prop :=
  forall i q, i < length c -> entry c i = Fin q -> (q == 0)%Q \/ (machine_eps <= Qabs q)%Q.

(** [si] lists the indices of c by decreasing cost (any order of ties). *)
Definition ext_le (a b : ext) : Prop :=
  match a, b with
  | _, Inf => True
  | Inf, Fin _ => False
  | Fin x, Fin y => (x <= y)%Q
  end.
Definition sorts_desc (c : list ext) (si : list nat) : Prop :=
  Permutation si (seq 0 (length c)) /\
  ForallOrdPairs (fun i j => ext_le (entry c j) (entry c i)) si.
