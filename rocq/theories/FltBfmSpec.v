(** Specification vocabulary for shortest paths in rounded arithmetic. *)
From Verif Require Import RBase RBfmSpec RKShortSpec FltGibbs.
Local Open Scope R_scope.

Section A.
Context (add : R -> R -> R).
(** The link costs of a node list added up one after the other, from [x]. *)
Fixpoint walk_sum (x : R) (G : nat -> nat -> ext) (p : list nat) : R :=
  match p with
  | u :: ((v :: _) as t) => walk_sum (add x (fin_val (G u v))) G t
  | _ => x
  end.
(** An addition of costs on the numbers [ok]: monotone in the accumulated cost.
    (Rounded addition is; see FltBfmProps.v.) *)
Definition cost_addition (ok : R -> Prop) : Prop :=
  ok 0 /\ (forall a w, ok a -> ok (add a w)) /\
  (forall a b w, ok a -> ok b -> a <= b -> add a w <= add b w).
(** Going round a closed walk never reduces the accumulated cost. *)
Definition no_shrinking_cycle (ok : R -> Prop) (n : nat) (G : nat -> nat -> ext) : Prop :=
  forall v p x, is_path n G v v p -> ok x -> x <= walk_sum x G p.
(** What is returned: a path of at most n nodes whose accumulated cost is exactly the reported
    distance, and no path has a smaller accumulated cost; nothing if there is no
    path. *)
Definition shortest_by_sums (n : nat) (G : nat -> nat -> ext) (s d : nat) (r : ext * list nat) : Prop :=
  match fst r with
  | Inf => snd r = [] /\ forall l, ~ is_path n G s d l
  | Fin q => is_path n G s d (snd r) /\ (length (snd r) <= n)%nat /\ walk_sum 0 G (snd r) = q /\
             forall l, is_path n G s d l -> q <= walk_sum 0 G l
  end.
End A.
(** No links between a node and an earlier one; no negative link costs. *)
Definition forward_links (n : nat) (G : nat -> nat -> ext) : Prop :=
  forall u v, (u < n)%nat -> (v < n)%nat -> link G u v -> (u < v)%nat.
Definition nonneg_links (n : nat) (G : nat -> nat -> ext) : Prop :=
  forall u v w, (u < n)%nat -> (v < n)%nat -> G u v = Fin w -> 0 <= w.
(** The sum of the magnitudes of the link costs. *)
Fixpoint path_abs (G : nat -> nat -> ext) (p : list nat) : R :=
  match p with
  | u :: ((v :: _) as t) => Rabs (fin_val (G u v)) + path_abs G t
  | _ => 0
  end.

(** ** k_shortest *)
(** The costs of the listed states added one after the other in double
    precision, in the order of the list, and then the smallest cost eps that
    the code adds to every path. *)
Definition listed_total64 (c : list ext) (s : list nat) : R :=
  add64 (fold_left add64 (map (fun i => fin_val (entry c i)) s) 0) machine_eps.
(** The sum of the magnitudes of all finite entries, plus eps. *)
Definition magnitude (c : list ext) : R := rsum (map (fun e => Rabs (fin_val e)) c) + machine_eps.
