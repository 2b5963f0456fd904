(** Model of src/gasur/utilities/graphs_subroutines.py, [assign_opt] and its
    helpers (lines 9-255).  Exact arithmetic instead of floats. *)
From Verif Require Import Base.

(** A 2-D numpy array of costs: shape and entries (entries outside the shape
    are never read by the model). *)
Record mat := { mr : nat; mc : nat; me : nat -> nat -> ext }.
(** An array argument of any dimension (graphs_subroutines.py:27-31). *)
Inductive ndarray :=
| Arr1 (n : nat) (f : nat -> ext)
| Arr2 (m : mat)
| ArrMore.

(** Working state of the algorithm: the local arrays [dist_mat], [star_mat],
    [prime_mat], [covered_cols], [covered_rows] (graphs_subroutines.py:56-59). *)
Record hst := {
  h_dist : nat -> nat -> Q;
  h_star : nat -> nat -> bool;
  h_prime : nat -> nat -> bool;
  h_ccov : nat -> bool;
  h_rcov : nat -> bool }.

(** Assignment vector: graphs_subroutines.py:34 uses -1 for "no column"; here
    [None]. *)
Definition assign_vec := list (option nat).

Section Steps.
Variables nr nc : nat.

(** [__aop_build_assign], graphs_subroutines.py:237-242 (fresh vector of -1s,
    each row gets its first starred column). *)
Definition build_assign (star : nat -> nat -> bool) : assign_vec :=
  map (fun r => let c := find_first (star r) nc in
                if c <? nc then Some c else None) (seq 0 nr).

(** [__aop_comp_assign], graphs_subroutines.py:245-255: rows from [row] on;
    returns the vector with inf-selections reset to -1, and the cost. *)
Fixpoint comp_assign (orig : nat -> nat -> ext) (row : nat) (a : assign_vec)
    (cost : Q) : assign_vec * Q :=
  match a with
  | [] => ([], cost)
  | None :: a' => let '(v, k) := comp_assign orig (S row) a' cost in (None :: v, k)
  | Some col :: a' =>
      match orig row col with
      | Fin q => let '(v, k) := comp_assign orig (S row) a' (cost + q)%Q in (Some col :: v, k)
      | Inf => let '(v, k) := comp_assign orig (S row) a' cost in (None :: v, k)
      end
  end.

(** One [for col in range(0, n_cols)] sweep of [__aop_step3],
    graphs_subroutines.py:131-156.  [Goto4] is the call of step 4 at line 147
    (the sweep returns), [Done zf] the end of the sweep with z_found = zf. *)
Inductive sweep := Goto4 (st : hst) (row col : nat) | Done (st : hst) (zf : bool).
Fixpoint sweep_cols (cols : list nat) (st : hst) (zf : bool) : sweep :=
  match cols with
  | [] => Done st zf
  | col :: cols' =>
      if h_ccov st col then sweep_cols cols' st zf
      else
        let row := find_first (fun r => negb (h_rcov st r) &&
                                        Qeq_bool (h_dist st r col) 0) nr in
        if row <? nr then
          let st1 := {| h_dist := h_dist st; h_star := h_star st;
                        h_prime := upd2 (h_prime st) row col true;
                        h_ccov := h_ccov st; h_rcov := h_rcov st |} in
          let star_col := find_first (h_star st row) nc in
          if star_col =? nc then Goto4 st1 row col
          else sweep_cols cols'
                 {| h_dist := h_dist st1; h_star := h_star st1;
                    h_prime := h_prime st1;
                    h_ccov := upd (h_ccov st1) star_col false;
                    h_rcov := upd (h_rcov st1) row true |} true
        else sweep_cols cols' st zf
  end.

(** The [while star_row < n_rows] loop of [__aop_step4],
    graphs_subroutines.py:178-198.  [prime_col = n_cols] would be an IndexError
    at line 190. *)
Fixpoint step4_loop (fuel : nat) (star prime new : nat -> nat -> bool)
    (star_row star_col : nat) : result (nat -> nat -> bool) :=
  if star_row <? nr then
    match fuel with
    | 0 => Err OutOfFuel
    | S fuel' =>
        let new1 := upd2 new star_row star_col false in
        let prime_col := find_first (prime star_row) nc in
        if prime_col =? nc then Err IndexErr
        else
          let new2 := upd2 new1 star_row prime_col true in
          step4_loop fuel' star prime new2
            (find_first (fun ii => star ii prime_col) nr) prime_col
    end
  else Ok new.

(** [__aop_step4] up to its tail call, graphs_subroutines.py:163-206. *)
Definition step4 (st : hst) (row col : nat) : result hst :=
  do new <- step4_loop (S nr) (h_star st) (h_prime st)
              (upd2 (h_star st) row col true)
              (find_first (fun ii => h_star st ii col) nr) col;
  Ok {| h_dist := h_dist st; h_star := new;
        h_prime := fun _ _ => false;
        h_ccov := h_ccov st; h_rcov := fun _ => false |}.

(** [__aop_step2a] up to its tail call, graphs_subroutines.py:99-105. *)
Definition step2a (st : hst) : hst :=
  {| h_dist := h_dist st; h_star := h_star st; h_prime := h_prime st;
     h_ccov := fun c => h_ccov st c || any_lt (fun r => h_star st r c) nr;
     h_rcov := h_rcov st |}.

(** The minimum search of [__aop_step5], graphs_subroutines.py:214-221;
    [Inf] is the initial [h = np.inf]. *)
Definition step5_min (st : hst) : ext :=
  fold_left (fun h r =>
    if h_rcov st r then h else
    fold_left (fun h c =>
      if h_ccov st c then h else
      match h with
      | Inf => Fin (h_dist st r c)
      | Fin q => if Qltb (h_dist st r c) q then Fin (h_dist st r c) else h
      end) (seq 0 nc) h) (seq 0 nr) Inf.

(** [__aop_step5] up to its tail call, graphs_subroutines.py:212-231.  With
    [h = inf] the arrays would fill with infinities and nans; the model stops
    with [NanErr] (shown unreachable). *)
Definition step5 (st : hst) : result hst :=
  match step5_min st with
  | Inf => Err NanErr
  | Fin h =>
      Ok {| h_dist := fun r c =>
              let d1 := if h_rcov st r then (h_dist st r c + h)%Q else h_dist st r c in
              if h_ccov st c then d1 else (d1 - h)%Q;
            h_star := h_star st; h_prime := h_prime st;
            h_ccov := h_ccov st; h_rcov := h_rcov st |}
  end.

(** [__aop_step2b] / [__aop_step3] with their mutual tail calls,
    graphs_subroutines.py:111-160.  [fuel] counts sweeps; Python's recursion
    limit is not modelled. *)
Fixpoint step3 (min_dim fuel : nat) (st : hst) : result (nat -> nat -> bool) :=
  match fuel with
  | 0 => Err OutOfFuel
  | S fuel' =>
      match sweep_cols (seq 0 nc) st false with
      | Goto4 st1 row col =>
          do st2 <- step4 st1 row col;
          let st3 := step2a st2 in
          if count_lt (h_ccov st3) nc =? min_dim then Ok (h_star st3)
          else step3 min_dim fuel' st3
      | Done st1 true => step3 min_dim fuel' st1
      | Done st1 false => do st2 <- step5 st1; step3 min_dim fuel' st2
      end
  end.
Definition step2b (min_dim fuel : nat) (st : hst) : result (nat -> nat -> bool) :=
  if count_lt (h_ccov st) nc =? min_dim then Ok (h_star st)
  else step3 min_dim fuel st.

(** Steps 1 and 2a for [n_rows <= n_cols], graphs_subroutines.py:68-74: each
    row stars its first zero in a not yet covered column. *)
Fixpoint star_rows (dist : nat -> nat -> Q) (rows : list nat)
    (star : nat -> nat -> bool) (ccov : nat -> bool)
    : (nat -> nat -> bool) * (nat -> bool) :=
  match rows with
  | [] => (star, ccov)
  | r :: rows' =>
      let c := find_first (fun c => Qeq_bool (dist r c) 0 && negb (ccov c)) nc in
      if c <? nc then star_rows dist rows' (upd2 star r c true) (upd ccov c true)
      else star_rows dist rows' star ccov
  end.

(** Steps 1 and 2a for [n_rows > n_cols], graphs_subroutines.py:82-89. *)
Fixpoint star_cols (dist : nat -> nat -> Q) (cols : list nat)
    (star : nat -> nat -> bool) (ccov rcov : nat -> bool)
    : (nat -> nat -> bool) * (nat -> bool) * (nat -> bool) :=
  match cols with
  | [] => (star, ccov, rcov)
  | c :: cols' =>
      let r := find_first (fun r => Qeq_bool (dist r c) 0 && negb (rcov r)) nr in
      if r <? nr then star_cols dist cols' (upd2 star r c true) (upd ccov c true) (upd rcov r true)
      else star_cols dist cols' star ccov rcov
  end.

(** [dist_mat.min(axis=..)]: minimum of [f 0 .. f (n-1)], n > 0 (numpy raises
    on n = 0; that case returns earlier, graphs_subroutines.py:38). *)
Definition min_lt (f : nat -> Q) (n : nat) : Q :=
  fold_left (fun m i => if Qltb (f i) m then f i else m) (seq 1 (n - 1)) (f 0).

Definition any_entry (m : nat -> nat -> ext) (p : ext -> bool) : bool :=
  any_lt (fun r => any_lt (fun c => p (m r c)) nc) nr.

(** [max_finite], graphs_subroutines.py:43-47: [None] when there is no finite
    entry. *)
Definition max_finite (m : nat -> nat -> ext) : option Q :=
  fold_left (fun acc r => fold_left (fun acc c =>
    match m r c with
    | Inf => acc
    | Fin q => match acc with
               | None => Some q
               | Some x => if Qltb x q then Some q else acc
               end
    end) (seq 0 nc) acc) (seq 0 nr) None.

(** The value substituted for infinities, graphs_subroutines.py:47-52. *)
Definition inf_value (mx : Q) : Q :=
  if Qltb 0 mx then (10 * mx * inject_Z (Z.of_nat nr) * inject_Z (Z.of_nat nc))%Q
  else 10%Q.

(** Fuel sufficient for every run (proved in HungProofs.v). *)
Definition hung_fuel : nat := (S (Nat.min nr nc)) * (2 * nr + 4).

(** Lines 61-92: row/column reduction, initial stars, then step 2b. *)
Definition solve (c : nat -> nat -> Q) : result (nat -> nat -> bool) :=
  if nr <=? nc then
    let dist := fun r col => (c r col - min_lt (c r) nc)%Q in
    let '(star, ccov) := star_rows dist (seq 0 nr) (fun _ _ => false) (fun _ => false) in
    step2b nr hung_fuel {| h_dist := dist; h_star := star; h_prime := fun _ _ => false;
                           h_ccov := ccov; h_rcov := fun _ => false |}
  else
    let dist := fun r col => (c r col - min_lt (fun r' => c r' col) nr)%Q in
    let '(star, ccov, _) :=
       star_cols dist (seq 0 nc) (fun _ _ => false) (fun _ => false) (fun _ => false) in
    step2b nc hung_fuel {| h_dist := dist; h_star := star; h_prime := fun _ _ => false;
                           h_ccov := ccov; h_rcov := fun _ => false |}.
End Steps.

(** [assign_opt] on a 2-D array, graphs_subroutines.py:33-96. *)
Definition assign_opt2 (m : mat) : result (assign_vec * Q) :=
  let nr := mr m in let nc := mc m in
  if any_entry nr nc (me m) (fun e => match e with Fin q => Qltb q 0 | Inf => false end)
  then Err RuntimeErr
  else if negb (any_entry nr nc (me m) is_fin) then Ok (repeat None nr, 0%Q)
  else
    match
      (if any_entry nr nc (me m) (fun e => negb (is_fin e)) then
         match max_finite nr nc (me m) with
         | None => None
         | Some mx => Some (fun r c => match me m r c with
                                       | Fin q => q
                                       | Inf => inf_value nr nc mx end)
         end
       else Some (fun r c => fin_val (me m r c)))
    with
    | None => Ok (repeat None nr, 0%Q)
    | Some c =>
        do star <- solve nr nc c;
        Ok (comp_assign (me m) 0 (build_assign nr nc star) 0%Q)
    end.

(** [assign_opt], graphs_subroutines.py:9-96, including the treatment of 1-D
    and higher dimensional arguments (lines 27-31). *)
Definition assign_opt (a : ndarray) : result (assign_vec * Q) :=
  match a with
  | Arr1 n f => assign_opt2 {| mr := 1; mc := n; me := fun _ c => f c |}
  | Arr2 m => assign_opt2 m
  | ArrMore => Err RuntimeErr
  end.

(** A matrix given by its rows, for examples. *)
Definition of_rows (nc : nat) (rows : list (list ext)) : mat :=
  {| mr := length rows; mc := nc;
     me := fun r c => nth c (nth r rows []) Inf |}.
