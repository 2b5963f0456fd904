(** The Gibbs chain, independently of the model. *)
From Verif Require Import Base.

(** [y] is [x] with coordinate [v] replaced by [j]. *)
Definition replaced (x y : list nat) (v j : nat) : Prop :=
  length y = length x /\ nth v y 0 = j /\ forall i, i <> v -> nth i y 0 = nth i x 0.

(** A systematic-scan chain on [N] coordinates: [X s v] is the state in
    iteration [s] after [v] coordinates have been resampled; resampling
    coordinate [v] in state [x] may give [j] when [step s x v j]. *)
Definition is_chain (N : nat) (step : nat -> list nat -> nat -> nat -> Prop) (X : nat -> nat -> list nat) (T : nat) : Prop :=
  X 0 N = seq N N /\
  (forall s, S s < T -> X (S s) 0 = X s N) /\
  (forall s v, 1 <= s < T -> v < N ->
     exists j, replaced (X s v) (X s (S v)) v j /\ step s (X s v) v j).

(** Inverse transform sampling: [u] selects [j] among the weights
    [W 0 .. W (M-1)]; when all of them are 0, column 0 is taken. *)
Definition selects (M : nat) (W : nat -> Q) (u : Q) (j : nat) : Prop :=
  let total := qsum (map W (seq 0 M)) in
  ((exists i, i < M /\ (0 < W i)%Q) ->
     j < M /\ (0 < W j)%Q /\ (qsum (map W (seq 0 j)) <= u * total)%Q /\
     (u * total < qsum (map W (seq 0 (S j))))%Q) /\
  (~ (exists i, i < M /\ (0 < W i)%Q) -> j = 0).

(** The weight of column [j] for coordinate [v] in state [x]: 0 when another
    coordinate holds it. *)
Definition column_weight (W : nat -> nat -> Q) (x : list nat) (v j : nat) : Q :=
  if in_dec Nat.eq_dec j (firstn v x ++ skipn (S v) x) then 0%Q else W v j.
