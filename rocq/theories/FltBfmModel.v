(** [bfm_shortest_path] and [k_shortest] (src/gasur/utilities/graphs.py:11-306)
    with an arbitrary addition of costs, in particular the rounded one of double
    precision ([add64], FltGibbs.v).  Only the operations that add costs differ
    from RBfmModel.v and RKShortModel.v; arcs, comparisons, blocking, the
    candidate store and the reconstruction of the path are those of the exact
    models.  Not modelled: overflow. *)
From Verif Require Import RBase RBfmModel RKShortModel.

Section A.
Context (add : R -> R -> R).
(** [D[u] + duv], [cost_sub_P + c]; inf is absorbing. *)
Definition eaddf (a b : ext) : ext :=
  match a, b with Fin x, Fin y => Fin (add x y) | _, _ => Inf end.
(** Body of the arc loop, graphs.py:293-300. *)
Definition relaxf (st : bst) (a : nat * nat * ext) : bst :=
  let '(p, D, opt) := st in
  let '(u, v, w) := a in
  if egt (D v) (eaddf (D u) w) then (upd p v u, upd D v (eaddf (D u) w), false)
  else st.
(** The outer loop, graphs.py:291-304. *)
Fixpoint roundsf (k : nat) (as_ : list (nat * nat * ext)) (p : nat -> nat) (D : nat -> ext)
    : (nat -> nat) * (nat -> ext) :=
  match k with
  | 0 => (p, D)
  | S k' => let '(p', D', opt) := fold_left relaxf as_ (p, D, true) in
            if opt then (p', D') else roundsf k' as_ p' D'
  end.
(** [__bfm_helper], graphs.py:242-306 (errors as in RBfmModel.v). *)
Definition bfm_helperf (n : nat) (G : nat -> nat -> ext) (r : nat)
    : result ((nat -> nat) * (nat -> ext)) :=
  if n <=? r then Err IndexErr
  else if n =? 1 then Err UnboundLocal
  else if length (arcs n G) <? count_nonzero n G then Err IndexErr
  else Ok (roundsf (n - 1) (arcs n G) (fun _ => 0) (upd (fun _ => Inf) r (Fin 0))).
(** [bfm_shortest_path], graphs.py:229-239; [fuel] bounds the turns of the
    while loop. *)
Definition bfmf (fuel n : nat) (G : nat -> nat -> ext) (src dst : nat)
    : result (ext * list nat) :=
  do (pred, D) <- bfm_helperf n G src;
  if n <=? dst then Err IndexErr
  else match D dst with
       | Inf => Ok (Inf, [])
       | Fin d => do path <- trace fuel pred src dst []; Ok (Fin d, path)
       end.

(** [cost_sub_P], graphs.py:140-143: a running sum from 0. *)
Fixpoint sub_costf (acc : ext) (G : nat -> nat -> ext) (p : list nat) : ext :=
  match p with
  | u :: ((v :: _) as t) => sub_costf (eaddf acc (G u v)) G t
  | _ => acc
  end.
Section Helper.
Variables (n : nat) (G : nat -> nat -> ext) (dst : nat).
(** Body of [for ind_dev_vert in ...], graphs.py:120-151. *)
Definition deviatef (P_ : list nat) (sps : list (list nat)) (st : kst) (ind : nat) : result kst :=
  let T1 := block_nodes G (firstn (ind - 1) P_) in
  match nth_error P_ ind with
  | None => Err IndexErr
  | Some v_ =>
      do nxts <- blocked_next P_ ind (P_ :: sps);
      let T2 := block_links T1 v_ nxts in
      let sub_P := firstn (S ind) P_ in
      do (c, dev_p) <- bfmf n n T2 v_ dst;
      match dev_p with
      | [] => Ok st
      | _ :: _ =>
          let cost := eaddf (sub_costf (Fin 0) G sub_P) c in
          Ok {| kP := kP st ++ [(drop_last2 sub_P ++ dev_p, cost)];
                kS := kS st ++ [v_];
                kX := kX st ++ [(length (kP st), cost)] |}
      end
  end.
Fixpoint deviate_allf (P_ : list nat) (sps : list (list nat)) (st : kst) (inds : list nat) : result kst :=
  match inds with
  | [] => Ok st
  | i :: is_ => do st' <- deviatef P_ sps st i; deviate_allf P_ sps st' is_
  end.
(** The while loop, graphs.py:106-163. *)
Fixpoint k_loopf (fuel k cur : nat) (st : kst) (sps : list (list nat)) (costs : list ext)
    : result (list (list nat) * list ext) :=
  if negb (length sps <? k) || (length (kX st) =? 0) then Ok (sps, costs)
  else match fuel with
  | 0 => Err OutOfFuel
  | S f =>
      let st1 := {| kP := kP st; kS := kS st; kX := del_x cur (kX st) |} in
      match nth_error (kP st1) cur, nth_error (kS st1) cur with
      | Some (P_, _), Some w =>
          match last_pos w P_ with
          | None => Err UnboundLocal
          | Some wi =>
              do st2 <- deviate_allf P_ sps st1 (seq wi (length P_ - 1 - wi));
              match kX st2 with
              | [] => k_loopf f k cur st2 sps costs
              | x0 :: X' =>
                  let cur' := fst (min_x x0 X') in
                  match nth_error (kP st2) cur' with
                  | None => Err IndexErr
                  | Some (p, c) => k_loopf f k cur' st2 (sps ++ [p]) (costs ++ [c])
                  end
              end
          end
      | _, _ => Err IndexErr
      end
  end.
(** [__k_short_helper], graphs.py:85-165. *)
Definition k_helperf (src k : nat) : result (list (list nat) * list ext) :=
  do (cost, path) <- bfmf n n G src dst;
  match path with
  | [] => Ok ([], [])
  | v :: _ =>
      k_loopf k k 0 {| kP := [(path, cost)]; kS := [v]; kX := [(0, cost)] |} [path] [cost]
  end.
End Helper.
(** [k_shortest], graphs.py:42-82. *)
Definition k_shortestf (si : list nat) (c : list ext) (k : nat)
    : result (list (list nat) * list ext) :=
  if k =? 0 then Ok ([], [])
  else
    let n := length c in
    let lc := map (vec c) si in
    do (paths, costs) <- k_helperf (n + 2) (cost_pad n lc) (S n) 0 k;
    let post := fun p =>
      if list_eqb p [0; S n] then []
      else map (fun x => nth (x - 1) si 0) (removelast (tl p)) in
    Ok (map post paths, costs).
End A.
