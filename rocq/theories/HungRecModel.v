(** [assign_opt] (src/gasur/utilities/graphs_subroutines.py:9-255) under
    Python's recursion limit.  The steps call each other in tail position, and
    Python does not eliminate tail calls: every call of [__aop_step2a],
    [__aop_step2b], [__aop_step3], [__aop_step4], [__aop_step5],
    [__aop_build_assign] opens a frame that stays open until the end.  [avail] is
    the number of frames the interpreter still grants; a call without one raises
    RecursionError.  The frames numpy's own Python wrappers open for a moment
    are not counted. *)
From Verif Require Import Base HungModel.

Section Steps.
Variables nr nc : nat.

(** [__aop_step3], lines 125-160, entered with [avail] further frames available.
    Going on after step 4 opens step4, step2a, step2b (lines 147, 205, 105) and
    then step3 or build_assign (lines 122, 119); step 5 opens step5 and step3
    (lines 159, 233).  The [while z_found] loop opens none. *)
Fixpoint step3r (min_dim fuel avail : nat) (st : hst) : result (nat -> nat -> bool) :=
  match fuel with
  | 0 => Err OutOfFuel
  | S fuel' =>
      match sweep_cols nr nc (seq 0 nc) st false with
      | Goto4 st1 row col =>
          if avail <? 4 then Err RecursionErr else
          do st2 <- step4 nr nc st1 row col;
          let st3 := step2a nr st2 in
          if count_lt (h_ccov st3) nc =? min_dim then Ok (h_star st3)
          else step3r min_dim fuel' (avail - 4) st3
      | Done st1 true => step3r min_dim fuel' avail st1
      | Done st1 false =>
          if avail <? 2 then Err RecursionErr else
          do st2 <- step5 nr nc st1; step3r min_dim fuel' (avail - 2) st2
      end
  end.
(** [__aop_step2b], lines 110-122, then step3 or build_assign: two frames. *)
Definition step2br (min_dim fuel avail : nat) (st : hst) : result (nat -> nat -> bool) :=
  if avail <? 2 then Err RecursionErr else
  if count_lt (h_ccov st) nc =? min_dim then Ok (h_star st)
  else step3r min_dim fuel (avail - 2) st.

(** Lines 61-92. *)
Definition solver (avail : nat) (c : nat -> nat -> Q) : result (nat -> nat -> bool) :=
  if nr <=? nc then
    let dist := fun r col => (c r col - min_lt (c r) nc)%Q in
    let '(star, ccov) := star_rows nc dist (seq 0 nr) (fun _ _ => false) (fun _ => false) in
    step2br nr (hung_fuel nr nc) avail
      {| h_dist := dist; h_star := star; h_prime := fun _ _ => false;
         h_ccov := ccov; h_rcov := fun _ => false |}
  else
    let dist := fun r col => (c r col - min_lt (fun r' => c r' col) nr)%Q in
    let '(star, ccov, _) :=
       star_cols nr dist (seq 0 nc) (fun _ _ => false) (fun _ => false) (fun _ => false) in
    step2br nc (hung_fuel nr nc) avail
      {| h_dist := dist; h_star := star; h_prime := fun _ _ => false;
         h_ccov := ccov; h_rcov := fun _ => false |}.
End Steps.

(** [assign_opt] on a 2-D array, lines 33-96, called with [frames] frames
    available, its own included. *)
Definition assign_opt_rec (frames : nat) (m : mat) : result (assign_vec * Q) :=
  let nr := mr m in let nc := mc m in
  match frames with
  | 0 => Err RecursionErr
  | S avail =>
  if any_entry nr nc (me m) (fun e => match e with Fin q => Qltb q 0 | Inf => false end)
  then Err RuntimeErr
  else if negb (any_entry nr nc (me m) is_fin) then Ok (repeat None nr, 0%Q)
  else
    match
      (if any_entry nr nc (me m) (fun e => negb (is_fin e)) then
         match max_finite nr nc (me m) with
         | None => None
         | Some mx => Some (fun r c => match me m r c with
                                       | Fin q => q
                                       | Inf => inf_value nr nc mx end)
         end
       else Some (fun r c => fin_val (me m r c)))
    with
    | None => Ok (repeat None nr, 0%Q)
    | Some c =>
        do star <- solver nr nc avail c;
        Ok (comp_assign (me m) 0 (build_assign nr nc star) 0%Q)
    end
  end.
