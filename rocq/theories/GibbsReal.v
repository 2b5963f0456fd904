(** The model of [gibbs] (src/gasur/utilities/sampling.py:5-82) again, over the
    real numbers with the real exponential, for its use in the joint GLMB filter
    (GibbsModel is the version over rationals with an abstract exponential).
    [rnd call] is the random stream of one call: [rnd call sol var] is the number
    drawn by [rng.uniform] for iteration [sol], variable [var].  All costs are
    finite. *)
From Verif Require Import Base.
From Coq Require Import Reals.
From Verif Require Import OspaModel GibbsModel.
Open Scope R_scope.

Section G.
Context (C : nat -> nat -> R) (N M : nat) (rnd : nat -> nat -> R).
(** temp_samp after zeroing the columns held by the other variables, sampling.py:55-58. *)
Definition rweight (cur : list nat) (var j : nat) : R :=
  if existsb (Nat.eqb j) (others cur var) then 0 else exp (- C var j).
(** old_ind, sampling.py:59-63. *)
Definition rold_ind (cur : list nat) (var : nat) : list nat :=
  filter (fun j => if Rlt_dec 0 (rweight cur var j) then true else false) (seq 0 M).
(** np.cumsum, hist_in_array and np.digitize, sampling.py:65-70. *)
Fixpoint rcumsum (acc : R) (l : list R) : list R :=
  match l with [] => [] | x :: l' => (acc + x) :: rcumsum (acc + x) l' end.
Definition rhist (ws : list R) : list R := 0 :: map (fun x => x / rsum ws) (rcumsum 0 ws).
Definition rdigitize (u : R) (bins : list R) : nat := length (filter (fun b => if Rle_dec b u then true else false) bins).
(** One draw, sampling.py:69-72. *)
Definition rdraw (cur : list nat) (var : nat) (u : R) : result nat :=
  let oi := rold_ind cur var in
  let pos := (rdigitize u (rhist (map (rweight cur var) oi)) - 1)%nat in
  match oi with
  | [] => Ok pos
  | _ => match nth_error oi pos with Some j => Ok j | None => Err IndexErr end
  end.
(** sampling.py:54-72 *)
Fixpoint rsweep (sol : nat) (vars : list nat) (cur : list nat) : result (list nat) :=
  match vars with
  | [] => Ok cur
  | v :: vs => do j <- rdraw cur v (rnd sol v); rsweep sol vs (GibbsModel.set_nth cur v j)
  end.
(** sampling.py:47-50 and 75-77 *)
Definition rrow_cost (cur : list nat) : result R :=
  if forallb (fun j => (j <? M)%nat) cur then Ok (rsum (map (fun p => C (fst p) (snd p)) (combine (seq 0 N) cur))) else Err ValueErr.
(** sampling.py:53-77 *)
Fixpoint riterate (k sol : nat) (cur : list nat) : result (list (list nat * R)) :=
  match k with
  | O => Ok []
  | S k' =>
      do cur' <- rsweep sol (seq 0 N) cur;
      do x <- rrow_cost cur';
      do rest <- riterate k' (S sol) cur';
      Ok ((cur', x) :: rest)
  end.
(** np.unique(axis=0, return_index=True), sampling.py:79-80. *)
Fixpoint rins (x : list nat * R) (l : list (list nat * R)) : list (list nat * R) :=
  match l with
  | [] => [x]
  | y :: l' => match lex_cmp (fst x) (fst y) with Lt => x :: y :: l' | Eq => x :: l' | Gt => y :: rins x l' end
  end.
Definition runique (l : list (list nat * R)) : list (list nat * R) := fold_right rins [] l.
(** [gibbs], sampling.py:5-82. *)
Definition rgibbs (num_iters : nat) : result (list (list nat) * list R) :=
  match num_iters with
  | O => Err IndexErr
  | S k =>
      let cur0 := seq N N in
      do c0 <- rrow_cost cur0;
      do rest <- riterate k 1 cur0;
      let u := runique ((cur0, c0) :: rest) in
      Ok (map fst u, map snd u)
  end.
End G.
(** The sampler as the filter calls it, tracker.py:3657: a new random stream for
    every call ([rng] is not passed, sampling.py:34-35). *)
Definition sampler_of (rnd : nat -> nat -> nat -> R) (call n m : nat) (C : nat -> nat -> R) (it : nat) : result (list (list nat) * list R) :=
  rgibbs C n m (rnd call) it.
