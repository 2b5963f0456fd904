(** Generated by mk_real.py from KShortModel.v: the same over the real numbers. *)
(** Model of src/gasur/utilities/graphs.py, [k_shortest] and
    [__k_short_helper] (lines 11-165), on top of the bfm model. *)
From Verif Require Import RBase RBfmModel.

(** [np.argsort] of a cost vector: any permutation of the indices that sorts
    the entries (numpy's default sort is not stable, so ties may come in any
    order).  The model takes the reversed (descending) index list [si] as an
    argument; the theorems quantify over every admissible one.  [si_default] is
    one of them, for the examples. *)
Definition eleb (a b : ext) : bool :=
  match a, b with
  | _, Inf => true
  | Inf, Fin _ => false
  | Fin x, Fin y => Rleb x y
  end.
Definition vec (c : list ext) (i : nat) : ext := nth i c (Fin 0).
Fixpoint ins_desc (c : list ext) (i : nat) (l : list nat) : list nat :=
  match l with
  | [] => [i]
  | j :: l' => if eleb (vec c j) (vec c i) then i :: j :: l' else j :: ins_desc c i l'
  end.
Definition si_default (c : list ext) : list nat :=
  fold_right (ins_desc c) [] (seq 0 (length c)).

(** [cost_pad], graphs.py:55-71, with [log_cost] the sorted vector: node 0 is
    the source, nodes 1..n the states in sorted order, node n+1 the sink.
    [cost_mat[0:ii, ii] = log_cost[ii]] puts log_cost[j] in every entry above
    the diagonal of column j. *)
Definition cost_pad (n : nat) (lc : list ext) (u v : nat) : ext :=
  if (v =? S n) then (if u <=? n then Fin eps else Fin 0)
  else if (1 <=? v) && (v <=? n) && (u <? v) then vec lc (v - 1)
  else Fin 0.

(** [temp_cost_mat], graphs.py:121-138. *)
Definition block_nodes (G : nat -> nat -> ext) (vs : list nat) (u v : nat) : ext :=
  if existsb (Nat.eqb u) vs || existsb (Nat.eqb v) vs then Inf else G u v.
Definition block_links (G : nat -> nat -> ext) (v_ : nat) (nxts : list nat) (u v : nat) : ext :=
  if (u =? v_) && existsb (Nat.eqb v) nxts then Inf else G u v.

(** [np.array_equal] on index lists. *)
Fixpoint list_eqb (a b : list nat) : bool :=
  match a, b with
  | [], [] => true
  | x :: a', y :: b' => (x =? y) && list_eqb a' b'
  | _, _ => false
  end.

(** The next vertices that get blocked, graphs.py:127-138: those of P_ itself
    and of every accepted path that shares the prefix.  [sp[ind + 1]] raises
    IndexError if the path ends there. *)
Fixpoint blocked_next (P_ : list nat) (ind : nat) (sps : list (list nat)) : result (list nat) :=
  match sps with
  | [] => Ok []
  | sp :: sps' =>
      if (ind <? length sp) && list_eqb (firstn (S ind) P_) (firstn (S ind) sp) then
        match nth_error sp (S ind) with
        | None => Err IndexErr
        | Some x => do xs <- blocked_next P_ ind sps'; Ok (x :: xs)
        end
      else blocked_next P_ ind sps'
  end.

(** [cost_sub_P], graphs.py:140-143 (+inf if a link is +inf). *)
Fixpoint sub_cost (G : nat -> nat -> ext) (p : list nat) : ext :=
  match p with
  | u :: ((v :: _) as t) => eadd (G u v) (sub_cost G t)
  | _ => Fin 0
  end.

(** [l[0:-2]]. *)
Definition drop_last2 (l : list nat) : list nat := firstn (length l - 2) l.

(** Candidate store: P holds (path, cost), S the deviation vertices, X the
    indices (with costs) of the candidates not yet used, graphs.py:95-103. *)
Record kst := { kP : list (list nat * ext); kS : list nat; kX : list (nat * ext) }.

Section Helper.
Variables (n : nat) (G : nat -> nat -> ext) (dst : nat).

(** Body of [for ind_dev_vert in ...], graphs.py:120-151. *)
Definition deviate (P_ : list nat) (sps : list (list nat)) (st : kst) (ind : nat) : result kst :=
  let T1 := block_nodes G (firstn (ind - 1) P_) in
  match nth_error P_ ind with
  | None => Err IndexErr
  | Some v_ =>
      do nxts <- blocked_next P_ ind (P_ :: sps);
      let T2 := block_links T1 v_ nxts in
      let sub_P := firstn (S ind) P_ in
      do (c, dev_p) <- bfm n T2 v_ dst;
      match dev_p with
      | [] => Ok st
      | _ :: _ =>
          let cost := eadd (sub_cost G sub_P) c in
          Ok {| kP := kP st ++ [(drop_last2 sub_P ++ dev_p, cost)];
                kS := kS st ++ [v_];
                kX := kX st ++ [(length (kP st), cost)] |}
      end
  end.

Fixpoint deviate_all (P_ : list nat) (sps : list (list nat)) (st : kst) (inds : list nat) : result kst :=
  match inds with
  | [] => Ok st
  | i :: is_ => do st' <- deviate P_ sps st i; deviate_all P_ sps st' is_
  end.

(** [for ii in range(0, len(P_)): if w = P_[ii]: w_ind_in_path = ii],
    graphs.py:115-117: the last position of w.  (Were w not on the path, Python
    would use the value of an earlier round; shown not to happen.) *)
Definition last_pos (w : nat) (l : list nat) : option nat :=
  fold_left (fun acc i => if nth i l 0 =? w then Some i else acc) (seq 0 (length l)) None.

(** [for ii in range(0, len(X)): if X[ii][0] = cur_p: del X[ii]; break],
    graphs.py:107-110. *)
Fixpoint del_x (cur : nat) (X : list (nat * ext)) : list (nat * ext) :=
  match X with
  | [] => []
  | x :: X' => if fst x =? cur then X' else x :: del_x cur X'
  end.

(** The first cheapest entry of X, graphs.py:154-159. *)
Definition min_x (x0 : nat * ext) (X : list (nat * ext)) : nat * ext :=
  fold_left (fun best x => if egt (snd best) (snd x) then x else best) X x0.

(** The while loop, graphs.py:106-163.  Every iteration either appends one path
    or leaves X empty (loop exit), so k iterations are enough fuel. *)
Fixpoint k_loop (fuel k cur : nat) (st : kst) (sps : list (list nat)) (costs : list ext)
    : result (list (list nat) * list ext) :=
  if negb (length sps <? k) || (length (kX st) =? 0) then Ok (sps, costs)
  else match fuel with
  | 0 => Err OutOfFuel
  | S f =>
      let st1 := {| kP := kP st; kS := kS st; kX := del_x cur (kX st) |} in
      match nth_error (kP st1) cur, nth_error (kS st1) cur with
      | Some (P_, _), Some w =>
          match last_pos w P_ with
          | None => Err UnboundLocal
          | Some wi =>
              do st2 <- deviate_all P_ sps st1 (seq wi (length P_ - 1 - wi));
              match kX st2 with
              | [] => k_loop f k cur st2 sps costs
              | x0 :: X' =>
                  let cur' := fst (min_x x0 X') in
                  match nth_error (kP st2) cur' with
                  | None => Err IndexErr
                  | Some (p, c) => k_loop f k cur' st2 (sps ++ [p]) (costs ++ [c])
                  end
              end
          end
      | _, _ => Err IndexErr
      end
  end.

(** [__k_short_helper], graphs.py:85-165 (the source/destination range check,
    lines 86-89, cannot fire here). *)
Definition k_helper (src k : nat) : result (list (list nat) * list ext) :=
  do (cost, path) <- bfm n G src dst;
  match path with
  | [] => Ok ([], [])
  | v :: _ =>
      k_loop k k 0 {| kP := [(path, cost)]; kS := [v]; kX := [(0, cost)] |} [path] [cost]
  end.
End Helper.

(** [k_shortest] on a 1-D vector, graphs.py:42-82.  Negative k is not
    modelled.  Lines 74-81: a path is turned into the list of original state
    indices. *)
Definition k_shortest (si : list nat) (c : list ext) (k : nat)
    : result (list (list nat) * list ext) :=
  if k =? 0 then Ok ([], [])
  else
    let n := length c in
    let lc := map (vec c) si in
    do (paths, costs) <- k_helper (n + 2) (cost_pad n lc) (S n) 0 k;
    let post := fun p =>
      if list_eqb p [0; S n] then []
      else map (fun x => nth (x - 1) si 0) (removelast (tl p)) in
    Ok (map post paths, costs).
