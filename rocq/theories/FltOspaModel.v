(** [calculate_ospa] (src/gasur/utilities/distributions.py:216-421) in IEEE
    double precision: every operation is followed by rounding to nearest even
    (rnd64).  The same structure and names as OspaModel.v; only the cores
    EUCLIDEAN and MANHATTAN are modelled (the others give [None]; every theorem
    excludes them).  External: [pw] is the power function behind numpy's and
    Python's [**] (the C library's pow), [asum] and [csum] numpy's reductions
    along an axis and over all elements (whose order of additions depends on the
    memory layout), [lsa] scipy's linear_sum_assignment.  Not modelled:
    overflow (the theorems bound the numbers) and warnings. *)
From Coq Require Import Reals.
From Verif Require Import Base RBase OspaModel FltIeee FltGibbs.
Local Open Scope R_scope.

Definition sub64 (x y : R) : R := rnd64 (x - y).
Definition mul64 (x y : R) : R := rnd64 (x * y).
Definition sqrt64 (x : R) : R := rnd64 (sqrt x).

Section Ospa64.
Variable dim : nat.
Variable pw : R -> R -> R.
Variable asum csum : list R -> R.
Variable lsa : nat -> nat -> (nat -> nat -> option R) -> result (list (nat * nat)).

(** The core distances, distributions.py:340-342 (EUCLIDEAN; numpy computes
    [**2] as a product) and 345-347 (MANHATTAN). *)
Definition core64 (me : method) (x y : obj) : option R :=
  let d := fun i => sub64 (st y i) (st x i) in
  match me with
  | Euclidean => Some (sqrt64 (asum (map (fun i => mul64 (d i) (d i)) (seq 0 dim))))
  | Manhattan => Some (asum (map (fun i => Rabs (d i)) (seq 0 dim)))
  | _ => None
  end.
(** One entry of [distances[:, :, tt]], distributions.py:338-393; comparisons and
    np.minimum are exact. *)
Definition dist_entry64 (me : method) (c : R) (use_empty : bool) (e t : slot) : option R :=
  nan_min (match e, t with
           | Some x, Some y => core64 me x y
           | Some _, None | None, Some _ => Some c
           | None, None => if use_empty then Some 0 else None
           end) c.
Definition dmat64 (me : method) (c : R) (use_empty : bool) (es ts : list slot) : nat -> nat -> option R :=
  fun i j => dist_entry64 me c use_empty (nth i es None) (nth j ts None).
(** The loop body, distributions.py:395-416. *)
Definition ospa_step64 (me : method) (c : R) (p : nat) (use_empty : bool) (es ts : list slot) : result (R * R) :=
  let m := count es in
  let n := count ts in
  if (Nat.eqb n 0 && Nat.eqb m 0)%bool then Ok (0, 0)
  else if (Nat.eqb n 0 || Nat.eqb m 0)%bool then Ok (0, c)
  else
    let cont_sub := fun i j => option_map (fun v => pw v (INR p)) (dmat64 me c use_empty es ts i j) in
    do a <- lsa m n cont_sub;
    let cost := csum (map (fun ij => val (cont_sub (fst ij) (snd ij))) a) in
    let inv_max_card := div64 1 (INR (Nat.max n m)) in
    let card_diff := INR (absdiff n m) in
    let inv_p := div64 1 (INR p) in
    let c_p := pw c (INR p) in
    Ok (pw (mul64 inv_max_card cost) inv_p, pw (mul64 (mul64 inv_max_card c_p) card_diff) inv_p).
(** [calculate_ospa], distributions.py:302-421. *)
Definition calculate_ospa64 (est tru : arr) (c : R) (p : nat) (use_empty : bool)
    (me : option method) (tcov ecov : bool) : result (list (R * R) * method * R) :=
  let me' := ospa_method me tcov ecov in
  let c' := ospa_cut me' c in
  do r <- mapM (fun et => ospa_step64 me' c' p use_empty (fst et) (snd et)) (combine est tru);
  if (length est <? length tru)%nat then Err IndexErr else Ok (r, me', c').
(** ospa = localization + cardinality, distributions.py:418. *)
Definition ospa_val64 (r : R * R) : R := add64 (fst r) (snd r).
End Ospa64.
