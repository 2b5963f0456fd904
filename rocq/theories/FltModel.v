(** [assign_opt] (src/gasur/utilities/graphs_subroutines.py:9-255) in rounded
    arithmetic.  The control flow (comparisons with 0, covers, stars, primes) is
    the one of RHungModel.v; every +, -, * of the Python code is an operation of
    a parameter [A], which the theorems instantiate with IEEE binary64
    (FltIeee.v).  Values stay real numbers: finite floats are reals, +inf is
    [Inf].  Overflow is excluded by the bounds in FltSpec.v; nan is not
    modelled. *)
From Verif Require Import RBase RHungModel.

(** The floating point operations the code uses. *)
Record farith := { fadd : R -> R -> R; fsub : R -> R -> R; fmul : R -> R -> R }.

(** Exact arithmetic, for comparison with RHungModel.v. *)
Definition exact_arith : farith := {| fadd := Rplus; fsub := Rminus; fmul := Rmult |}.

Section Rounded.
Variable A : farith.
Variables nr nc : nat.

(** [__aop_comp_assign], graphs_subroutines.py:245-255, with the accumulation
    [cost += v] (line 252) rounded. *)
Fixpoint fcomp_assign (orig : nat -> nat -> ext) (row : nat) (a : assign_vec)
    (cost : R) : assign_vec * R :=
  match a with
  | [] => ([], cost)
  | None :: a' => let '(v, k) := fcomp_assign orig (S row) a' cost in (None :: v, k)
  | Some col :: a' =>
      match orig row col with
      | Fin q => let '(v, k) := fcomp_assign orig (S row) a' (fadd A cost q) in (Some col :: v, k)
      | Inf => let '(v, k) := fcomp_assign orig (S row) a' cost in (None :: v, k)
      end
  end.

(** [__aop_step5], graphs_subroutines.py:212-231: covered rows get [+= h]
    (line 226), then uncovered columns [-= h] (line 231), each rounded. *)
Definition fstep5 (st : hst) : result hst :=
  match step5_min nr nc st with
  | Inf => Err NanErr
  | Fin h =>
      Ok {| h_dist := fun r c =>
              let d1 := if h_rcov st r then fadd A (h_dist st r c) h else h_dist st r c in
              if h_ccov st c then d1 else fsub A d1 h;
            h_star := h_star st; h_prime := h_prime st;
            h_ccov := h_ccov st; h_rcov := h_rcov st |}
  end.

(** [__aop_step2b] / [__aop_step3], graphs_subroutines.py:111-160 (as
    RHungModel.step3, with the rounded step 5). *)
Fixpoint fstep3 (min_dim fuel : nat) (st : hst) : result (nat -> nat -> bool) :=
  match fuel with
  | 0 => Err OutOfFuel
  | S fuel' =>
      match sweep_cols nr nc (seq 0 nc) st false with
      | Goto4 st1 row col =>
          do st2 <- step4 nr nc st1 row col;
          let st3 := step2a nr st2 in
          if count_lt (h_ccov st3) nc =? min_dim then Ok (h_star st3)
          else fstep3 min_dim fuel' st3
      | Done st1 true => fstep3 min_dim fuel' st1
      | Done st1 false => do st2 <- fstep5 st1; fstep3 min_dim fuel' st2
      end
  end.
Definition fstep2b (min_dim fuel : nat) (st : hst) : result (nat -> nat -> bool) :=
  if count_lt (h_ccov st) nc =? min_dim then Ok (h_star st)
  else fstep3 min_dim fuel st.

(** The value substituted for infinities, graphs_subroutines.py:47-52:
    [10 * max_finite * n_rows * n_cols], left to right, rounded. *)
Definition finf_value (mx : R) : R :=
  if Rltb 0 mx then fmul A (fmul A (fmul A 10 mx) (INR nr)) (INR nc) else 10%R.

(** Lines 61-92: the row/column reduction is one rounded subtraction per entry
    (lines 68, 82; the minimum itself is exact). *)
Definition fsolve (c : nat -> nat -> R) : result (nat -> nat -> bool) :=
  if nr <=? nc then
    let dist := fun r col => fsub A (c r col) (min_lt (c r) nc) in
    let '(star, ccov) := star_rows nc dist (seq 0 nr) (fun _ _ => false) (fun _ => false) in
    fstep2b nr (hung_fuel nr nc) {| h_dist := dist; h_star := star; h_prime := fun _ _ => false;
                           h_ccov := ccov; h_rcov := fun _ => false |}
  else
    let dist := fun r col => fsub A (c r col) (min_lt (fun r' => c r' col) nr) in
    let '(star, ccov, _) :=
       star_cols nr dist (seq 0 nc) (fun _ _ => false) (fun _ => false) (fun _ => false) in
    fstep2b nc (hung_fuel nr nc) {| h_dist := dist; h_star := star; h_prime := fun _ _ => false;
                           h_ccov := ccov; h_rcov := fun _ => false |}.
End Rounded.

(** [assign_opt] on a 2-D array, graphs_subroutines.py:33-96. *)
Definition fassign_opt2 (A : farith) (m : mat) : result (assign_vec * R) :=
  let nr := mr m in let nc := mc m in
  if any_entry nr nc (me m) (fun e => match e with Fin q => Rltb q 0 | Inf => false end)
  then Err RuntimeErr
  else if negb (any_entry nr nc (me m) is_fin) then Ok (repeat None nr, 0%R)
  else
    match
      (if any_entry nr nc (me m) (fun e => negb (is_fin e)) then
         match max_finite nr nc (me m) with
         | None => None
         | Some mx => Some (fun r c => match me m r c with
                                       | Fin q => q
                                       | Inf => finf_value A nr nc mx end)
         end
       else Some (fun r c => fin_val (me m r c)))
    with
    | None => Ok (repeat None nr, 0%R)
    | Some c =>
        do star <- fsolve A nr nc c;
        Ok (fcomp_assign A (me m) 0 (build_assign nr nc star) 0%R)
    end.

(** [assign_opt], graphs_subroutines.py:9-96. *)
Definition fassign_opt (A : farith) (a : ndarray) : result (assign_vec * R) :=
  match a with
  | Arr1 n f => fassign_opt2 A {| mr := 1; mc := n; me := fun _ c => f c |}
  | Arr2 m => fassign_opt2 A m
  | ArrMore => Err RuntimeErr
  end.
