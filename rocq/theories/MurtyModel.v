(** Model of src/gasur/utilities/graphs.py, [murty_m_best] and
    [__murty_helper] (lines 309-429), on top of the assign_opt model. *)
From Verif Require Import Base HungModel.

(** One entry of the answer list: [ans_lst_P[:,:,i]], [ans_lst_S[:,i]],
    [ans_lst_C[i]] (graphs.py:364-372).  [nC = None] is nan.  The blockwise
    preallocation (blk_sz, graphs.py:363 and 408-418) has no observable effect
    and is not modelled: the lists just grow. *)
Record mnode := { nP : nat -> nat -> ext; nS : assign_vec; nC : option Q }.

(** [np.nanargmin]: index of the first smallest non-nan entry. *)
Fixpoint nanargmin_from (i : nat) (l : list (option Q)) (best : option (nat * Q))
    : option nat :=
  match l with
  | [] => match best with Some (j, _) => Some j | None => None end
  | None :: l' => nanargmin_from (S i) l' best
  | Some q :: l' =>
      match best with
      | None => nanargmin_from (S i) l' (Some (i, q))
      | Some (j, b) => if Qltb q b then nanargmin_from (S i) l' (Some (i, q))
                       else nanargmin_from (S i) l' best
      end
  end.
Definition nanargmin (l : list (option Q)) : option nat := nanargmin_from 0 l None.

Section Helper.
Variables nr ncp : nat.   (* n_rows, n_cols of the padded matrix, graphs.py:361 *)

(** [P_tmp], graphs.py:398-402: forbid (aw, aj), or every dummy column of row
    aw when aj is a dummy column. *)
Definition forbid (P : nat -> nat -> ext) (aw aj : nat) : nat -> nat -> ext :=
  if aj <? ncp - nr then upd2 P aw aj Inf
  else fun r c => if (r =? aw) && (ncp - nr <=? c) then Inf else P r c.

(** graphs.py:424-427: force (aw, aj) in P_now. *)
Definition enforce (P : nat -> nat -> ext) (aw aj : nat) : nat -> nat -> ext :=
  let v := P aw aj in
  upd2 (fun r c => if (r =? aw) || (c =? aj) then Inf else P r c) aw aj v.

(** [(S_tmp >= 0).all()], graphs.py:407. *)
Definition all_assigned (s : assign_vec) : bool :=
  forallb (fun o => match o with Some _ => true | None => false end) s.

(** The branching loop [for (aw, aj) in enumerate(S_now)], graphs.py:395-427;
    returns the new nodes in order. *)
Fixpoint branch (aw : nat) (s : assign_vec) (P_now : nat -> nat -> ext)
    : result (list mnode) :=
  match s with
  | [] => Ok []
  | None :: s' => branch (S aw) s' P_now
  | Some aj :: s' =>
      let P_tmp := forbid P_now aw aj in
      do (S_tmp, C_tmp) <- assign_opt2 {| mr := nr; mc := ncp; me := P_tmp |};
      if all_assigned S_tmp then
        do rest <- branch (S aw) s' (enforce P_now aw aj);
        Ok ({| nP := P_tmp; nS := S_tmp; nC := Some C_tmp |} :: rest)
      else branch (S aw) s' P_now
  end.

Definition close (n : mnode) : mnode := {| nP := nP n; nS := nS n; nC := None |}.
Fixpoint close_at (i : nat) (l : list mnode) : list mnode :=
  match l, i with
  | [], _ => []
  | n :: l', 0 => close n :: l'
  | n :: l', S i' => n :: close_at i' l'
  end.

(** The main loop [for ii in range(0, m)], graphs.py:377-427.  [acc] holds the
    filled columns of [assigns] and [costs].  On a break (graphs.py:379-382) the
    arrays are cut to [ans_nxt_ind] columns: columns that were never filled
    would be nan, reported here as [NanErr] (shown not to happen). *)
Fixpoint murty_loop (m : nat) (nodes : list mnode) (acc : list (assign_vec * Q))
    : result (list (assign_vec * Q)) :=
  match m with
  | 0 => Ok acc
  | S m' =>
      match nanargmin (map nC nodes) with
      | None => if length nodes <=? length acc then Ok (firstn (length nodes) acc)
                else Err NanErr
      | Some i =>
          match nth_error nodes i with
          | Some {| nP := P; nS := s; nC := Some c |} =>
              do kids <- branch 0 s P;
              murty_loop m' (close_at i nodes ++ kids) (acc ++ [(s, c)])
          | _ => Err IndexErr
          end
      end
  end.

(** [__murty_helper], graphs.py:355-429. *)
Definition murty_helper (p0 : nat -> nat -> ext) (m : nat)
    : result (list (assign_vec * Q)) :=
  do (s0, c0) <- assign_opt2 {| mr := nr; mc := ncp; me := p0 |};
  if m =? 1 then Ok [(s0, c0)]
  else murty_loop m [{| nP := p0; nS := s0; nC := Some c0 |}] [].
End Helper.

(** [cm.min()], graphs.py:341; [None] on an empty array (numpy raises
    ValueError). *)
Definition min_ext (a b : ext) : ext :=
  match a, b with
  | Inf, _ => b
  | _, Inf => a
  | Fin x, Fin y => if Qltb y x then b else a
  end.
Definition min_entry (nr nc : nat) (m : nat -> nat -> ext) : option ext :=
  if (nr =? 0) || (nc =? 0) then None
  else Some (fold_left (fun acc r => fold_left (fun acc c => min_ext acc (m r c)) (seq 0 nc) acc)
               (seq 0 nr) Inf).

Definition esub (e : ext) (x : Q) : ext :=
  match e with Fin q => Fin (q - x)%Q | Inf => Inf end.

(** [murty_m_best] on a 2-D array, graphs.py:331-352.  The result lists one row
    per assignment: 0 = missed, c+1 = column c.  [-np.log(1)] is 0.
    Negative m is not modelled. *)
Definition murty2 (cost : mat) (m : nat) : result (list (list nat) * list Q) :=
  if m =? 0 then Ok ([], [])
  else
    let nr := mr cost in let nc := mc cost in
    let cm0 := fun r c => if c <? nc then me cost r c else Fin 0 in
    match min_entry nr (nc + nr) cm0 with
    | None => Err ValueErr
    | Some Inf => Err NanErr
    | Some (Fin x) =>
        let cm := fun r c => esub (cm0 r c) x in
        do ans <- murty_helper nr (nc + nr) cm m;
        let fix_cost := fun sc : assign_vec * Q =>
          (snd sc + x * inject_Z (Z.of_nat (length (filter
             (fun o => match o with Some _ => true | None => false end) (fst sc)))))%Q in
        let fix_row := fun sc : assign_vec * Q =>
          map (fun o => let a := match o with Some c => S c | None => 0 end in
                        if nc <? a then 0 else a) (firstn nr (fst sc)) in
        Ok (map fix_row ans, map fix_cost ans)
    end.

(** [murty_m_best] on any array, graphs.py:328-330. *)
Definition murty_m_best (a : ndarray) (m : nat) : result (list (list nat) * list Q) :=
  match a with
  | Arr2 c => murty2 c m
  | Arr1 _ _ | ArrMore => Err RuntimeErr
  end.
