(** [murty_m_best] (src/gasur/utilities/graphs.py:309-429) in rounded
    arithmetic: as RMurtyModel.v, with the rounded [assign_opt] of FltModel.v and
    the shift of the costs (line 342) and its undoing (line 347) rounded. *)
From Verif Require Import RBase RHungModel RMurtyModel FltModel.

Section Rounded.
Variable A : farith.
Variables nr ncp : nat.

(** The branching loop, graphs.py:395-427. *)
Fixpoint fbranch (aw : nat) (s : assign_vec) (P_now : nat -> nat -> ext)
    : result (list mnode) :=
  match s with
  | [] => Ok []
  | None :: s' => fbranch (S aw) s' P_now
  | Some aj :: s' =>
      let P_tmp := forbid nr ncp P_now aw aj in
      do (S_tmp, C_tmp) <- fassign_opt2 A {| mr := nr; mc := ncp; me := P_tmp |};
      if all_assigned S_tmp then
        do rest <- fbranch (S aw) s' (enforce P_now aw aj);
        Ok ({| nP := P_tmp; nS := S_tmp; nC := Some C_tmp |} :: rest)
      else fbranch (S aw) s' P_now
  end.

(** The main loop, graphs.py:377-427. *)
Fixpoint fmurty_loop (m : nat) (nodes : list mnode) (acc : list (assign_vec * R))
    : result (list (assign_vec * R)) :=
  match m with
  | 0 => Ok acc
  | S m' =>
      match nanargmin (map nC nodes) with
      | None => if length nodes <=? length acc then Ok (firstn (length nodes) acc)
                else Err NanErr
      | Some i =>
          match nth_error nodes i with
          | Some {| nP := P; nS := s; nC := Some c |} =>
              do kids <- fbranch 0 s P;
              fmurty_loop m' (close_at i nodes ++ kids) (acc ++ [(s, c)])
          | _ => Err IndexErr
          end
      end
  end.

(** [__murty_helper], graphs.py:355-429. *)
Definition fmurty_helper (p0 : nat -> nat -> ext) (m : nat)
    : result (list (assign_vec * R)) :=
  do (s0, c0) <- fassign_opt2 A {| mr := nr; mc := ncp; me := p0 |};
  if m =? 1 then Ok [(s0, c0)]
  else fmurty_loop m [{| nP := p0; nS := s0; nC := Some c0 |}] [].
End Rounded.

(** [cm - x], graphs.py:342. *)
Definition fesub (A : farith) (e : ext) (x : R) : ext :=
  match e with Fin q => Fin (fsub A q x) | Inf => Inf end.

(** [murty_m_best] on a 2-D array, graphs.py:331-352; line 347 is
    [costs[ii] += x * count] with the integer count converted to float. *)
Definition fmurty2 (A : farith) (cost : mat) (m : nat) : result (list (list nat) * list R) :=
  if m =? 0 then Ok ([], [])
  else
    let nr := mr cost in let nc := mc cost in
    let cm0 := fun r c => if c <? nc then me cost r c else Fin 0 in
    match min_entry nr (nc + nr) cm0 with
    | None => Err ValueErr
    | Some Inf => Err NanErr
    | Some (Fin x) =>
        let cm := fun r c => fesub A (cm0 r c) x in
        do ans <- fmurty_helper A nr (nc + nr) cm m;
        let fix_cost := fun sc : assign_vec * R =>
          fadd A (snd sc) (fmul A x (INR (length (filter
             (fun o => match o with Some _ => true | None => false end) (fst sc))))) in
        let fix_row := fun sc : assign_vec * R =>
          map (fun o => let a := match o with Some c => S c | None => 0 end in
                        if nc <? a then 0 else a) (firstn nr (fst sc)) in
        Ok (map fix_row ans, map fix_cost ans)
    end.

(** [murty_m_best] on any array, graphs.py:328-330. *)
Definition fmurty_m_best (A : farith) (a : ndarray) (m : nat) : result (list (list nat) * list R) :=
  match a with
  | Arr2 c => fmurty2 A c m
  | Arr1 _ _ | ArrMore => Err RuntimeErr
  end.
