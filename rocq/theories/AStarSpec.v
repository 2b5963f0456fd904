(** Walks in a maze with 8-neighbour moves.  A maze is given by its size and a
    wall test. *)
From Verif Require Import Base.

Definition neighbour (p q : Z * Z) : Prop :=
  p <> q /\ (Z.abs (fst p - fst q) <= 1)%Z /\ (Z.abs (snd p - snd q) <= 1)%Z.
Definition in_maze (rows cols : nat) (p : Z * Z) : Prop :=
  (0 <= fst p < Z.of_nat rows)%Z /\ (0 <= snd p < Z.of_nat cols)%Z.
Definition free (rows cols : nat) (wall : Z -> Z -> bool) (p : Z * Z) : Prop :=
  in_maze rows cols p /\ wall (fst p) (snd p) = false.

(** Each cell is followed by a free neighbour. *)
Fixpoint steps (rows cols : nat) (wall : Z -> Z -> bool) (p : list (Z * Z)) : Prop :=
  match p with
  | a :: ((b :: _) as t) => neighbour a b /\ free rows cols wall b /\ steps rows cols wall t
  | _ => True
  end.

(** A walk from s to e (e may be any cell for a partial path). *)
Definition is_walk (rows cols : nat) (wall : Z -> Z -> bool) (s e : Z * Z) (p : list (Z * Z)) : Prop :=
  steps rows cols wall p /\ hd_error p = Some s /\ hd_error (rev p) = Some e.

(** Number of moves of a path. *)
Definition n_moves (p : list (Z * Z)) : nat := length p - 1.
