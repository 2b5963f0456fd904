(** Model of [gibbs] (src/gasur/utilities/sampling.py:5-80).

    Numbers are exact rationals, costs may be +inf.  [np.exp(-c)] is the
    parameter [expw] (any function of the cost; the theorems ask only for its
    sign).  The random generator is the parameter [rnd]: [rnd sol var] is the
    number drawn by [rng.uniform] for iteration [sol], variable [var]. *)
From Verif Require Import Base.

(** Sum of costs, +inf absorbing (np.sum, sampling.py:50 and 75). *)
Definition eadd (a b : ext) : ext :=
  match a, b with Fin x, Fin y => Fin (x + y)%Q | _, _ => Inf end.
Definition esum (l : list ext) : ext := fold_right eadd (Fin 0%Q) l.

Section G.
Context (costs : list (list ext)) (M : nat) (expw : ext -> Q) (rnd : nat -> nat -> Q).
Notation N := (length costs).
Definition entry (i j : nat) : ext := nth j (nth i costs []) Inf.

(** temp_samp after zeroing the columns held by the other variables,
    sampling.py:55-58. *)
Definition others (cur : list nat) (var : nat) : list nat :=
  firstn var cur ++ skipn (S var) cur.
Definition weight (cur : list nat) (var j : nat) : Q :=
  if existsb (Nat.eqb j) (others cur var) then 0%Q else expw (entry var j).
(** old_ind, sampling.py:59-63: columns of positive weight. *)
Definition old_ind (cur : list nat) (var : nat) : list nat :=
  filter (fun j => Qltb 0 (weight cur var j)) (seq 0 M).

(** np.cumsum, sampling.py:67. *)
Fixpoint cumsum (acc : Q) (l : list Q) : list Q :=
  match l with [] => [] | x :: l' => (acc + x)%Q :: cumsum (acc + x)%Q l' end.
(** hist_in_array, sampling.py:65-67. *)
Definition hist (ws : list Q) : list Q :=
  0%Q :: map (fun x => (x / qsum ws)%Q) (cumsum 0%Q ws).
(** np.digitize for increasing bins: the number of bins <= u. *)
Definition digitize (u : Q) (bins : list Q) : nat :=
  length (filter (fun b => Qle_bool b u) bins).

(** One draw, sampling.py:69-72: the new value of cur_soln[var]. *)
Definition draw (cur : list nat) (var : nat) (u : Q) : result nat :=
  let oi := old_ind cur var in
  let pos := digitize u (hist (map (weight cur var) oi)) - 1 in
  match oi with
  | [] => Ok pos
  | _ => match nth_error oi pos with Some j => Ok j | None => Err IndexErr end
  end.

Definition set_nth (l : list nat) (i v : nat) : list nat :=
  firstn i l ++ v :: skipn (S i) l.

(** The loop over the variables, sampling.py:54-72. *)
Fixpoint sweep (sol : nat) (vars : list nat) (cur : list nat) : result (list nat) :=
  match vars with
  | [] => Ok cur
  | v :: vs => do j <- draw cur v (rnd sol v); sweep sol vs (set_nth cur v j)
  end.

(** np.ravel_multi_index raises ValueError for a column out of range,
    sampling.py:47-48 and 75-76; otherwise the cost of the row is summed. *)
Definition row_cost (cur : list nat) : result ext :=
  if forallb (fun j => j <? M) cur
  then Ok (esum (map (fun p => entry (fst p) (snd p)) (combine (seq 0 N) cur)))
  else Err ValueErr.

(** The loop over the iterations, sampling.py:53-77: [k] are left, the next
    one is number [sol]. *)
Fixpoint iterate (k sol : nat) (cur : list nat) : result (list (list nat * ext)) :=
  match k with
  | 0 => Ok []
  | S k' =>
      do cur' <- sweep sol (seq 0 N) cur;
      do c <- row_cost cur';
      do rest <- iterate k' (S sol) cur';
      Ok ((cur', c) :: rest)
  end.

(** np.unique(axis=0, return_index=True), sampling.py:79-80: rows sorted
    lexicographically, of equal rows the first is kept. *)
Fixpoint lex_cmp (a b : list nat) : comparison :=
  match a, b with
  | [], [] => Eq | [], _ => Lt | _, [] => Gt
  | x :: a', y :: b' => match Nat.compare x y with Eq => lex_cmp a' b' | c => c end
  end.
Fixpoint ins (x : list nat * ext) (l : list (list nat * ext)) : list (list nat * ext) :=
  match l with
  | [] => [x]
  | y :: l' => match lex_cmp (fst x) (fst y) with
               | Lt => x :: y :: l'
               | Eq => x :: l'       (* inserted from the back: x comes first *)
               | Gt => y :: ins x l'
               end
  end.
Definition unique (l : list (list nat * ext)) : list (list nat * ext) := fold_right ins [] l.

(** [gibbs], sampling.py:5-82.  [assignments[0, ]] raises IndexError when
    num_iters is 0 (line 46). *)
Definition gibbs (num_iters : nat) : result (list (list nat) * list ext) :=
  match num_iters with
  | 0 => Err IndexErr
  | S k =>
      let cur0 := seq N N in
      do c0 <- row_cost cur0;
      do rest <- iterate k 1 cur0;
      let u := unique ((cur0, c0) :: rest) in
      Ok (map fst u, map snd u)
  end.
End G.
