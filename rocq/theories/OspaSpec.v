(** Specification vocabulary for the OSPA properties. *)
From Verif Require Import Base OspaModel.
From Coq Require Import Reals.
Open Scope R_scope.

(** An assignment between rows 0..m-1 and columns 0..n-1 of maximal size. *)
Definition assignment (m n : nat) (a : list (nat * nat)) : Prop :=
  NoDup (map fst a) /\ NoDup (map snd a) /\
  (forall i j, In (i, j) a -> (i < m /\ j < n)%nat) /\ length a = Nat.min m n.
Definition cost (C : nat -> nat -> R) (a : list (nat * nat)) : R :=
  rsum (map (fun ij => C (fst ij) (snd ij)) a).
(** [v] is the least cost of an assignment. *)
Definition least_cost (m n : nat) (C : nat -> nat -> R) (v : R) : Prop :=
  (exists a, assignment m n a /\ cost C a = v) /\ (forall b, assignment m n b -> v <= cost C b).

(** Documented behaviour of scipy.optimize.linear_sum_assignment: an optimal
    assignment, ValueError when an entry is nan. *)
Definition lsa_ok (lsa : nat -> nat -> (nat -> nat -> option R) -> result (list (nat * nat))) : Prop :=
  forall m n C,
    ((forall i j, (i < m)%nat -> (j < n)%nat -> C i j <> None) ->
       exists a, lsa m n C = Ok a /\ assignment m n a /\
         forall b, assignment m n b -> acost C a <= acost C b) /\
    ((exists i j, (i < m)%nat /\ (j < n)%nat /\ C i j = None) -> lsa m n C = Err ValueErr).

(** The OSPA components of two finite sets of objects (Schuhmacher 2008) with
    base distance [d], as the docstring describes them. *)
Definition ospa_of_sets (d : obj -> obj -> R) (c : R) (p : nat) (X Y : list obj) (loc card : R) : Prop :=
  match X, Y with
  | [], [] => loc = 0 /\ card = 0
  | [], _ | _, [] => loc = 0 /\ card = c
  | x0 :: _, y0 :: _ =>
      let m := length X in let n := length Y in
      exists v, least_cost m n (fun i j => Rmin (d (nth i X x0) (nth j Y y0)) c ^ p) v /\
        loc = root p (v / INR (Nat.max m n)) /\
        card = root p (c ^ p * INR (absdiff m n) / INR (Nat.max m n))
  end.

(** The states that exist at a time step. *)
Definition present (l : list slot) : list obj := somes l.
(** Objects occupy the first slots. *)
Definition prefix_slots (l : list slot) : Prop := exists X k, l = map Some X ++ repeat None k.

(** All slot lists of an array have length [n]. *)
Definition rect (n : nat) (a : arr) : Prop := forall l, In l a -> length l = n.
(** The tracks of an array that exist somewhere in a window of time steps. *)
Definition window_tracks (a : arr) (n : nat) (win : list nat) : list (list slot) :=
  filter (existsb is_some) (map (fun i => map (fun t => slot_at a t i) win) (seq 0 n)).
(** Base distance between two tracks over a window (Beard 2017): the mean, over
    the times when at least one of them exists, of the cut-off distance, with
    the cut-off itself when only one exists. *)
Definition track_dist (d : obj -> obj -> R) (c : R) (u v : list slot) : R :=
  let terms := flat_map (fun ab => match ab with
                 | (Some x, Some y) => [Rmin (d x y) c]
                 | (None, None) => []
                 | _ => [c] end) (combine u v) in
  rsum terms / INR (length terms).
(** OSPA of order [p] between two sets of tracks. *)
Definition ospa2_of_tracks (d : obj -> obj -> R) (c : R) (p : nat) (U V : list (list slot)) (loc card : R) : Prop :=
  (U = [] /\ V = [] -> loc = 0 /\ card = 0) /\
  (~ (U = [] /\ V = []) -> exists v,
     least_cost (length U) (length V) (fun i j => track_dist d c (nth i U []) (nth j V []) ^ p) v /\
     loc = root p (v / INR (Nat.max (length U) (length V))) /\
     card = root p (c ^ p * INR (absdiff (length U) (length V)) / INR (Nat.max (length U) (length V)))).
