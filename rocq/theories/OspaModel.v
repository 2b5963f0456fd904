(** Model of calculate_ospa / calculate_ospa2 (utilities/distributions.py:216-555)
    and of the tracker's wrappers (swarm_estimator/tracker.py:274-422, 2789-2822)
    over the real numbers.

    Simplifications: exact reals instead of floats; an array slot
    [est_mat[:, t, i]] is [Some state] or, when it is nan in every component,
    [None] (the documented encoding); the covariance of a slot travels with its
    state; warnings are dropped; [p] is a positive integer (documented type);
    the enum value is one of the four methods (the "not implemented" branch
    377-380 needs a foreign value).  scipy's linear_sum_assignment, la.inv and
    la.det are parameters. *)
From Verif Require Import Base.
From Coq Require Import Reals.
Open Scope R_scope.

Definition rvec := nat -> R.
Definition rmat := nat -> nat -> R.

(** One object state: mean and covariance ([None] = nan covariance). *)
Record obj := { st : rvec; cv : option rmat }.
Notation slot := (option obj).
(** S x T x N array: a list over time of the N slots. *)
Notation arr := (list (list slot)).

(** distributions.py:167-208 *)
Inductive method := Manhattan | Euclidean | Hellinger | Mahalanobis.

(** np.sum over an axis of length [n]. *)
Fixpoint rsumn (n : nat) (f : nat -> R) : R :=
  match n with O => 0 | S n' => rsumn n' f + f n' end.
Definition rsum (l : list R) : R := fold_right Rplus 0 l.

(** [x ** (1. / p)] for x >= 0 (Python: 0. ** y = 0. for y > 0). *)
Definition root (p : nat) (x : R) : R :=
  if Req_EM_T x 0 then 0 else Rpower x (/ INR p).

Section Ospa.
(** State dimension S. *)
Variable dim : nat.
(** la.inv, la.det (numpy.linalg). *)
Variable inv : rmat -> rmat.
Variable det : rmat -> R.
(** scipy.optimize.linear_sum_assignment on an m x n matrix with entries that
    may be nan ([None]); returns the pairs zip(row_ind, col_ind). *)
Variable lsa : nat -> nat -> (nat -> nat -> option R) -> result (list (nat * nat)).

(** diff.T @ M @ diff for column vectors. *)
Definition quad (M : rmat) (d : rvec) : R :=
  rsumn dim (fun j => rsumn dim (fun i => d i * M i j) * d j).
Definition madd (A B : rmat) : rmat := fun i j => A i j + B i j.
Definition mscale (a : R) (A : rmat) : rmat := fun i j => a * A i j.
Definition mprod (A B : rmat) : rmat := fun i j => rsumn dim (fun k => A i k * B k j).

(** Core distance of two existing objects: EUCLIDEAN 340-342, MANHATTAN
    345-347, HELLINGER 354-365, MAHALANOBIS 371-375 of distributions.py.  A nan
    covariance gives nan. *)
Definition core (me : method) (x y : obj) : option R :=
  let d := fun i => st x i - st y i in
  match me with
  | Euclidean => Some (sqrt (rsumn dim (fun i => (st y i - st x i) ^ 2)))
  | Manhattan => Some (rsumn dim (fun i => Rabs (st y i - st x i)))
  | Hellinger =>
      match cv x, cv y with
      | Some cx, Some cy =>
          let cov := madd cx cy in
          let epsilon := - / 4 * quad (inv cov) d in
          Some (1 - sqrt (sqrt (det (mprod cx cy)) / det (mscale (/ 2) cov)) * exp epsilon)
      | _, _ => None
      end
  | Mahalanobis =>
      match cv x with Some cx => Some (sqrt (quad cx d)) | None => None end
  end.

(** np.minimum with a nan first argument. *)
Definition nan_min (x : option R) (c : R) : option R :=
  match x with Some v => Some (Rmin v c) | None => None end.

(** One entry of [distances[:, :, tt]] after distributions.py:338-393. *)
Definition dist_entry (me : method) (c : R) (use_empty : bool) (e t : slot) : option R :=
  nan_min (match e, t with
           | Some x, Some y => core me x y
           | Some _, None | None, Some _ => Some c
           | None, None => if use_empty then Some 0 else None
           end) c.

Definition is_some {A} (o : option A) : bool := match o with Some _ => true | None => false end.
(** np.sum(e_exists[:, tt]) (395-396) *)
Definition count (l : list slot) : nat := length (filter is_some l).
Definition val (o : option R) : R := match o with Some v => v | None => 0 end.
(** nan ** p = nan *)
Definition npow (o : option R) (p : nat) : option R := option_map (fun v => v ^ p) o.
(** cont_sub[row_ind, col_ind].sum() *)
Definition acost (C : nat -> nat -> option R) (a : list (nat * nat)) : R :=
  rsum (map (fun ij => val (C (fst ij) (snd ij))) a).
Definition absdiff (m n : nat) : nat := (m - n) + (n - m).

(** distances[:, :, tt] as a function of the two slot indices. *)
Definition dmat (me : method) (c : R) (use_empty : bool) (es ts : list slot) : nat -> nat -> option R :=
  fun i j => dist_entry me c use_empty (nth i es None) (nth j ts None).

(** Loop body 338-416: (localization[tt], cardinality[tt]).  Note the block
    [distances[0:m, 0:n]] of line 407. *)
Definition ospa_step (me : method) (c : R) (p : nat) (use_empty : bool) (es ts : list slot) : result (R * R) :=
  let m := count es in
  let n := count ts in
  if (Nat.eqb n 0 && Nat.eqb m 0)%bool then Ok (0, 0)
  else if (Nat.eqb n 0 || Nat.eqb m 0)%bool then Ok (0, c)
  else
    let cont_sub := fun i j => npow (dmat me c use_empty es ts i j) p in
    do a <- lsa m n cont_sub;
    let cost := acost cont_sub a in
    let inv_max_card := / INR (Nat.max n m) in
    let card_diff := INR (absdiff n m) in
    let c_p := c ^ p in
    Ok (root p (inv_max_card * cost), root p (inv_max_card * c_p * card_diff)).

Fixpoint mapM {A B} (f : A -> result B) (l : list A) : result (list B) :=
  match l with
  | [] => Ok []
  | x :: l' => do y <- f x; do ys <- mapM f l'; Ok (y :: ys)
  end.

(** distributions.py:303-314: replacement of the core method. *)
Definition ospa_method (me : option method) (tcov ecov : bool) : method :=
  match me with
  | None => Euclidean
  | Some Mahalanobis => if ecov then Mahalanobis else Euclidean
  | Some Hellinger => if tcov then Hellinger else Euclidean
  | Some m => m
  end.
(** 316-317 *)
Definition ospa_cut (me : method) (c : R) : R :=
  match me with Hellinger => Rmin 1 c | _ => c end.

(** calculate_ospa (216-421): localization and cardinality per time step
    (ospa is their sum), the method and the cut-off.  Fewer estimated than true
    time steps is an IndexError at est_mat[:, tt, ...]. *)
Definition calculate_ospa (est tru : arr) (c : R) (p : nat) (use_empty : bool)
    (me : option method) (tcov ecov : bool) : result (list (R * R) * method * R) :=
  let me' := ospa_method me tcov ecov in
  let c' := ospa_cut me' c in
  do r <- mapM (fun et => ospa_step me' c' p use_empty (fst et) (snd et)) (combine est tru);
  if (length est <? length tru)%nat then Err IndexErr else Ok (r, me', c').
Definition ospa_val (r : R * R) : R := fst r + snd r.

(** np.nanmean over the window, nan replaced by 0 (525-527). *)
Definition somes {A} (l : list (option A)) : list A :=
  flat_map (fun o => match o with Some v => [v] | None => [] end) l.
Definition nanmean0 (l : list (option R)) : R :=
  match somes l with
  | [] => 0
  | vs => rsum vs / INR (length vs)
  end.

(** win_idx = range(max(tt - win_len + 1, 0), tt + 1) (517-519) *)
Definition win_idx (tt win_len : nat) : list nat :=
  let s := (tt + 1 - win_len)%nat in seq s (tt + 1 - s).

Definition slot_at (a : arr) (t i : nat) : slot := nth i (nth t a []) None.
(** Loop body of calculate_ospa2 (516-551).  [distances] is recomputed from the
    slots; [ne]/[nt] are the numbers of slots. *)
Definition ospa2_step (me : method) (c : R) (p : nat) (est tru : arr) (ne nt : nat) (win : list nat) : result (R * R) :=
  let track_dist := fun i j =>
    nanmean0 (map (fun t => dist_entry me c false (slot_at est t i) (slot_at tru t j)) win) in
  let rows := filter (fun i => existsb (fun t => is_some (slot_at est t i)) win) (seq 0 ne) in
  let cols := filter (fun j => existsb (fun t => is_some (slot_at tru t j)) win) (seq 0 nt) in
  let m := length rows in
  let n := length cols in
  if (Nat.eqb n 0 && Nat.eqb m 0)%bool then Ok (0, 0)
  else
    do cost <- (if (Nat.eqb n 0 || Nat.eqb m 0)%bool then Ok 0
                else
                  let td := fun a b => Some (track_dist (nth a rows 0%nat) (nth b cols 0%nat) ^ p) in
                  do a <- lsa m n td;
                  Ok (acost td a));
    let max_nm := INR (Nat.max n m) in
    Ok (root p (cost / max_nm), root p (c ^ p * INR (absdiff m n) / max_nm)).

(** calculate_ospa2 (424-555): inner call with p = 1, use_empty=False, whose
    failure is propagated. *)
Definition calculate_ospa2 (est tru : arr) (ne nt : nat) (c : R) (p win_len : nat)
    (me : option method) (tcov ecov : bool) : result (list (R * R) * method * R) :=
  do (_, me', c') <- calculate_ospa est tru c 1 false me tcov ecov;
  do r <- mapM (fun tt => ospa2_step me' c' p est tru ne nt (win_idx tt win_len)) (seq 0 (length tru));
  Ok (r, me', c').
End Ospa.

(** _ospa_setup_tmat / _ospa_setup_emat (tracker.py:274-326): the array has as
    many slots as the largest number of non-None entries of a time step, and
    entry [obj_num] of a list is written to slot [obj_num]; a non-None entry at a
    position past the end is an IndexError. *)
Definition num_objs (ls : arr) : nat := fold_left (fun n l => Nat.max n (count l)) ls 0%nat.
Definition setup_row (n : nat) (l : list slot) : result (list slot) :=
  if existsb is_some (skipn n l) then Err IndexErr
  else Ok (firstn n l ++ repeat None (n - length l)).
Definition setup_mat (ls : arr) : result arr := mapM (setup_row (num_objs ls)) ls.

(** _ospa_input_check (tracker.py:328-342) *)
Definition input_check (me : option method) (save_covs tcov : bool) : method :=
  match me with
  | None => Euclidean
  | Some Mahalanobis => if save_covs then Mahalanobis else Euclidean
  | Some Hellinger => if tcov then Hellinger else Euclidean
  | Some m => m
  end.

(** RandomFiniteSetBase.calculate_ospa (tracker.py:365-422).  [states] is
    self._states (with self._covs), zero arrays when no state has a dimension
    (390-401); covariance arrays are always passed to the inner function. *)
Definition trk_calculate_ospa dim inv det lsa (truth states : arr) (c : R) (p : nat)
    (me : option method) (save_covs tcov : bool) : result (list (R * R) * method * R) :=
  let me' := input_check me save_covs tcov in
  if negb (existsb (existsb is_some) truth) && negb (existsb (existsb is_some) states) then
    Ok (map (fun _ => (0, 0)) states, me', c)
  else
    do tm <- setup_mat truth;
    do em <- setup_mat states;
    calculate_ospa dim inv det lsa em tm c p true (Some me') true true.

(** GeneralizedLabeledMultiBernoulli._ospa_setup_emat (tracker.py:2751-2787):
    one slot per distinct label in order of first appearance.  [key] stands for
    str(label); states and labels are zipped per time step. *)
Definition keys (labels : list (list (option nat))) : list nat :=
  fold_left (fun ks l => fold_left (fun ks o => match o with
                                               | Some k => if existsb (Nat.eqb k) ks then ks else ks ++ [k]
                                               | None => ks end) l ks) labels [].
Definition glmb_row (ks : list nat) (l : list (option nat)) (s : list obj) : list slot :=
  map (fun k => fold_left (fun acc os => match fst os with
                                       | Some k' => if Nat.eqb k' k then Some (snd os) else acc
                                       | None => acc end) (combine l s) None) ks.
Definition glmb_emat (labels : list (list (option nat))) (states : list (list obj)) : arr :=
  map (fun ls => glmb_row (keys labels) (fst ls) (snd ls)) (combine labels states).
(** calculate_ospa inherited by the GLMB class (tracker.py:365-422 with the
    override above), for a truth with at least one state (the early return
    390-401 is not repeated here). *)
Definition glmb_calculate_ospa dim inv det lsa (truth : arr) labels states (c : R) (p : nat)
    (me : option method) (save_covs tcov : bool) : result (list (R * R) * method * R) :=
  let me' := input_check me save_covs tcov in
  do tm <- setup_mat truth;
  calculate_ospa dim inv det lsa (glmb_emat labels states) tm c p true (Some me') true true.
