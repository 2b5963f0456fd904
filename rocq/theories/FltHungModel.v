(** [assign_opt] (src/gasur/utilities/graphs_subroutines.py:9-255) in double
    precision.  Only the steps that do arithmetic on costs differ from
    RHungModel.v: the reduction of rows or columns (lines 66, 79), step 5 (lines
    223-231), the value put in place of inf (lines 49-50) and the sum of the
    selected costs (line 252).  Everything that only compares (the sweeps, step
    4, the searches for minima and maxima) is that of RHungModel.v.
    Overflow: where a result would leave the range of finite doubles the model
    stops with [NanErr] (numpy goes on with inf); the theorems show when this
    does not happen. *)
From Coq Require Import Reals List ZArith Lra Lia Bool.
From Flocq Require Import Core.
From Verif Require Import RBase RHungModel FltIeee FltGibbs.
Import ListNotations.
Local Open Scope R_scope.

(** Subtraction and multiplication of doubles. *)
Definition sub64 (x y : R) : R := rnd64 (x - y).
Definition mul64 (x y : R) : R := rnd64 (x * y).
(** Inside the range of finite doubles. *)
Definition fits (x : R) : bool := Rleb (Rabs x) fmax64.

Section Steps.
Variables nr nc : nat.

(** [__aop_step5], graphs_subroutines.py:212-231: first [+= h] on the covered
    rows, then [-= h] on the uncovered columns, each rounded. *)
Definition step5_add (st : hst) (h : R) (r c : nat) : R :=
  if h_rcov st r then add64 (h_dist st r c) h else h_dist st r c.
Definition step5_sub (st : hst) (h : R) (r c : nat) : R :=
  if h_ccov st c then step5_add st h r c else sub64 (step5_add st h r c) h.
Definition step5f (st : hst) : result hst :=
  match step5_min nr nc st with
  | Inf => Err NanErr
  | Fin h =>
      if all_lt (fun r => all_lt (fun c => fits (step5_add st h r c) && fits (step5_sub st h r c)) nc) nr
      then Ok {| h_dist := step5_sub st h;
                 h_star := h_star st; h_prime := h_prime st;
                 h_ccov := h_ccov st; h_rcov := h_rcov st |}
      else Err NanErr
  end.

(** Steps 2b and 3 with their mutual tail calls, graphs_subroutines.py:111-160
    (as in RHungModel.v). *)
Fixpoint step3f (min_dim fuel : nat) (st : hst) : result (nat -> nat -> bool) :=
  match fuel with
  | O => Err OutOfFuel
  | S fuel' =>
      match sweep_cols nr nc (seq 0 nc) st false with
      | Goto4 st1 row col =>
          do st2 <- step4 nr nc st1 row col;
          let st3 := step2a nr st2 in
          if (count_lt (h_ccov st3) nc =? min_dim)%nat then Ok (h_star st3)
          else step3f min_dim fuel' st3
      | Done st1 true => step3f min_dim fuel' st1
      | Done st1 false => do st2 <- step5f st1; step3f min_dim fuel' st2
      end
  end.
Definition step2bf (min_dim fuel : nat) (st : hst) : result (nat -> nat -> bool) :=
  if (count_lt (h_ccov st) nc =? min_dim)%nat then Ok (h_star st)
  else step3f min_dim fuel st.

(** Lines 61-92 (a cost minus a smaller cost cannot overflow). *)
Definition solvef (c : nat -> nat -> R) : result (nat -> nat -> bool) :=
  if (nr <=? nc)%nat then
    let dist := fun r col => sub64 (c r col) (min_lt (c r) nc) in
    let '(star, ccov) := star_rows nc dist (seq 0 nr) (fun _ _ => false) (fun _ => false) in
    step2bf nr (hung_fuel nr nc) {| h_dist := dist; h_star := star; h_prime := fun _ _ => false;
                           h_ccov := ccov; h_rcov := fun _ => false |}
  else
    let dist := fun r col => sub64 (c r col) (min_lt (fun r' => c r' col) nr) in
    let '(star, ccov, _) :=
       star_cols nr dist (seq 0 nc) (fun _ _ => false) (fun _ => false) (fun _ => false) in
    step2bf nc (hung_fuel nr nc) {| h_dist := dist; h_star := star; h_prime := fun _ _ => false;
                           h_ccov := ccov; h_rcov := fun _ => false |}.

(** [10 * max_finite * n_rows * n_cols], lines 47-52, left to right. *)
Definition inf_value64 (mx : R) : R :=
  if Rltb 0 mx then mul64 (mul64 (mul64 10 mx) (INR nr)) (INR nc) else 10.
End Steps.

(** [__aop_comp_assign], graphs_subroutines.py:245-255, with rounded additions. *)
Fixpoint comp_assignf (orig : nat -> nat -> ext) (row : nat) (a : assign_vec)
    (cost : R) : assign_vec * R :=
  match a with
  | [] => ([], cost)
  | None :: a' => let '(v, k) := comp_assignf orig (S row) a' cost in (None :: v, k)
  | Some col :: a' =>
      match orig row col with
      | Fin q => let '(v, k) := comp_assignf orig (S row) a' (add64 cost q) in (Some col :: v, k)
      | Inf => let '(v, k) := comp_assignf orig (S row) a' cost in (None :: v, k)
      end
  end.

(** [assign_opt] on a 2-D array, graphs_subroutines.py:33-96. *)
Definition assign_opt64 (m : mat) : result (assign_vec * R) :=
  let nr := mr m in let nc := mc m in
  if any_entry nr nc (me m) (fun e => match e with Fin q => Rltb q 0 | Inf => false end)
  then Err RuntimeErr
  else if negb (any_entry nr nc (me m) is_fin) then Ok (repeat None nr, 0)
  else
    match
      (if any_entry nr nc (me m) (fun e => negb (is_fin e)) then
         match max_finite nr nc (me m) with
         | None => None
         | Some mx => Some (inf_value64 nr nc mx, fun r c => match me m r c with
                                       | Fin q => q
                                       | Inf => inf_value64 nr nc mx end)
         end
       else Some (0, fun r c => fin_val (me m r c)))
    with
    | None => Ok (repeat None nr, 0)
    | Some (b, c) =>
        if fits b then
          do star <- solvef nr nc c;
          let '(a, cost) := comp_assignf (me m) 0 (build_assign nr nc star) 0 in
          if fits cost then Ok (a, cost) else Err NanErr
        else Err NanErr
    end.
