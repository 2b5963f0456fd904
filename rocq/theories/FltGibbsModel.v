(** [gibbs] (src/gasur/utilities/sampling.py:5-82) over any number system, with
    numpy's order of additions: np.cumsum adds from left to right, np.sum adds
    pairwise.  Instances: IEEE binary64 bit by bit (Coq's SpecFloat) and rounded
    reals (FltGibbsProps.v). *)
From Verif Require Import Base GibbsModel.

Section Sum.
Context {F : Type} (f0 : F) (fplus : F -> F -> F).

(** np.cumsum: the first element, then running sums. *)
Fixpoint fcum_from (acc : F) (l : list F) : list F :=
  match l with [] => [] | x :: l' => let a := fplus acc x in a :: fcum_from a l' end.
Definition fcumsum (l : list F) : list F :=
  match l with [] => [] | x :: l' => x :: fcum_from x l' end.

(** np.sum (numpy's pairwise_sum; an external routine): up to 7 elements from
    left to right; up to 128 with eight accumulators, combined pairwise, the
    rest from left to right; longer arrays are split in two. *)
Fixpoint sum8 (r0 r1 r2 r3 r4 r5 r6 r7 : F) (l : list F) : F :=
  match l with
  | a0 :: a1 :: a2 :: a3 :: a4 :: a5 :: a6 :: a7 :: l' =>
      sum8 (fplus r0 a0) (fplus r1 a1) (fplus r2 a2) (fplus r3 a3)
           (fplus r4 a4) (fplus r5 a5) (fplus r6 a6) (fplus r7 a7) l'
  | rest => fold_left fplus rest
      (fplus (fplus (fplus r0 r1) (fplus r2 r3)) (fplus (fplus r4 r5) (fplus r6 r7)))
  end.
Definition sum_block (l : list F) : F :=
  match l with
  | a0 :: a1 :: a2 :: a3 :: a4 :: a5 :: a6 :: a7 :: l' => sum8 a0 a1 a2 a3 a4 a5 a6 a7 l'
  | _ => fold_left fplus l f0
  end.
Fixpoint pairwise (fuel : nat) (l : list F) : F :=
  match fuel with
  | 0 => sum_block l
  | S fuel' =>
      if length l <=? 128 then sum_block l
      else let h := Nat.div (length l) 2 in
           let n2 := h - Nat.modulo h 8 in
           fplus (pairwise fuel' (firstn n2 l)) (pairwise fuel' (skipn n2 l))
  end.
Definition np_sum (l : list F) : F := pairwise (length l) l.
End Sum.

Section G.
Context {F : Type} (f0 : F) (fplus fdiv : F -> F -> F) (flt fle : F -> F -> bool).
Context {C : Type} (cd : C) (csum : list C -> C) (costs : list (list C)) (M : nat)
        (expw : C -> F) (rnd : nat -> nat -> F).
Notation N := (length costs).

(** temp_samp after zeroing, sampling.py:55-58. *)
Definition gweight (cur : list nat) (var j : nat) : F :=
  if existsb (Nat.eqb j) (others cur var) then f0 else expw (nth j (nth var costs []) cd).
(** old_ind, sampling.py:59-63. *)
Definition gold_ind (cur : list nat) (var : nat) : list nat :=
  filter (fun j => flt f0 (gweight cur var j)) (seq 0 M).
(** hist_in_array, sampling.py:66-67. *)
Definition ghist (ws : list F) : list F :=
  f0 :: map (fun x => fdiv x (np_sum f0 fplus ws)) (fcumsum fplus ws).
(** np.digitize raises ValueError when the bins are not monotonic (decreasing
    bins, which numpy also accepts, are not modelled: the first bin is 0). *)
Fixpoint nondecreasing (l : list F) : bool :=
  match l with
  | x :: ((y :: _) as l') => fle x y && nondecreasing l'
  | _ => true
  end.
Definition gdigitize (u : F) (bins : list F) : result nat :=
  if nondecreasing bins then Ok (length (filter (fun b => fle b u) bins)) else Err ValueErr.
(** One draw, sampling.py:69-72. *)
Definition gdraw (cur : list nat) (var : nat) (u : F) : result nat :=
  let oi := gold_ind cur var in
  do d <- gdigitize u (ghist (map (gweight cur var) oi));
  match oi with
  | [] => Ok (d - 1)
  | _ => match nth_error oi (d - 1) with Some j => Ok j | None => Err IndexErr end
  end.
(** The loop over the variables, sampling.py:54-72. *)
Fixpoint gsweep (sol : nat) (vars : list nat) (cur : list nat) : result (list nat) :=
  match vars with
  | [] => Ok cur
  | v :: vs => do j <- gdraw cur v (rnd sol v); gsweep sol vs (set_nth cur v j)
  end.
(** sampling.py:47-50 and 75-77. *)
Definition grow_cost (cur : list nat) : result C :=
  if forallb (fun j => j <? M) cur
  then Ok (csum (map (fun p => nth (snd p) (nth (fst p) costs []) cd) (combine (seq 0 N) cur)))
  else Err ValueErr.
(** The loop over the iterations, sampling.py:53-77. *)
Fixpoint giterate (k sol : nat) (cur : list nat) : result (list (list nat * C)) :=
  match k with
  | 0 => Ok []
  | S k' =>
      do cur' <- gsweep sol (seq 0 N) cur;
      do c <- grow_cost cur';
      do rest <- giterate k' (S sol) cur';
      Ok ((cur', c) :: rest)
  end.
(** np.unique(axis=0, return_index=True), sampling.py:79-80. *)
Fixpoint gins (x : list nat * C) (l : list (list nat * C)) : list (list nat * C) :=
  match l with
  | [] => [x]
  | y :: l' => match lex_cmp (fst x) (fst y) with Lt => x :: y :: l' | Eq => x :: l' | Gt => y :: gins x l' end
  end.
Definition gunique (l : list (list nat * C)) : list (list nat * C) := fold_right gins [] l.
(** [gibbs], sampling.py:5-82. *)
Definition ggibbs (num_iters : nat) : result (list (list nat) * list C) :=
  match num_iters with
  | 0 => Err IndexErr
  | S k =>
      let cur0 := seq N N in
      do c0 <- grow_cost cur0;
      do rest <- giterate k 1 cur0;
      let u := gunique ((cur0, c0) :: rest) in
      Ok (map fst u, map snd u)
  end.
End G.
