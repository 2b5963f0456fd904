(** Model of src/gasur/utilities/graphs.py, [bfm_shortest_path] and
    [__bfm_helper] (lines 168-306). *)
From Verif Require Import Base.

(** [np.finfo(float).eps], graphs.py:275: 2^-52. *)
Definition eps : Q := (1 # 4503599627370496)%Q.

(** [np.abs(G.T) >= eps], graphs.py:275 (|+inf| >= eps holds). *)
Definition is_arc (e : ext) : bool :=
  match e with Fin q => Qle_bool eps (Qabs q) | Inf => true end.
(** [G != 0], used by np.count_nonzero, graphs.py:284. *)
Definition nonzero (e : ext) : bool :=
  match e with Fin q => negb (Qeq_bool q 0) | Inf => true end.

(** [init], graphs.py:270-287: the arcs (tail, head, weight), ordered by head,
    then tail (argwhere on G.T is row-major, so the lexsort is the identity).
    The matrix is square: n rows and columns; entries are finite or +inf. *)
Definition arcs (n : nat) (G : nat -> nat -> ext) : list (nat * nat * ext) :=
  flat_map (fun v => map (fun u => (u, v, G u v)) (filter (fun u => is_arc (G u v)) (seq 0 n)))
           (seq 0 n).
Definition count_nonzero (n : nat) (G : nat -> nat -> ext) : nat :=
  length (flat_map (fun v => filter (fun u => nonzero (G u v)) (seq 0 n)) (seq 0 n)).

(** [D[v] > D[u] + duv], graphs.py:297, with +inf arithmetic. *)
Definition eadd (a b : ext) : ext :=
  match a, b with Fin x, Fin y => Fin (x + y)%Q | _, _ => Inf end.
Definition egt (a b : ext) : bool :=
  match a, b with
  | Fin x, Fin y => Qltb y x
  | Inf, Fin _ => true
  | _, Inf => false
  end.

(** State of the loop: p, D, optimal. *)
Definition bst := ((nat -> nat) * (nat -> ext) * bool)%type.

(** Body of the arc loop, graphs.py:293-300. *)
Definition relax (st : bst) (a : nat * nat * ext) : bst :=
  let '(p, D, opt) := st in
  let '(u, v, w) := a in
  if egt (D v) (eadd (D u) w) then (upd p v u, upd D v (eadd (D u) w), false)
  else st.

(** The outer loop, graphs.py:291-304 (k rounds left). *)
Fixpoint rounds (k : nat) (as_ : list (nat * nat * ext)) (p : nat -> nat) (D : nat -> ext)
    : (nat -> nat) * (nat -> ext) :=
  match k with
  | 0 => (p, D)
  | S k' => let '(p', D', opt) := fold_left relax as_ (p, D, true) in
            if opt then (p', D') else rounds k' as_ p' D'
  end.

(** [__bfm_helper], graphs.py:242-306.  [p[r] = 0] raises IndexError when r is
    out of range; with n = 1 the loop body never runs and [n_iters] is unbound
    at the return; [range(0, m)] with m = count_nonzero overruns the arc list
    when a nonzero entry is smaller than eps.  Negative (wrapping) indices are
    not modelled. *)
Definition bfm_helper (n : nat) (G : nat -> nat -> ext) (r : nat)
    : result ((nat -> nat) * (nat -> ext)) :=
  if n <=? r then Err IndexErr
  else if n =? 1 then Err UnboundLocal
  else if length (arcs n G) <? count_nonzero n G then Err IndexErr
  else Ok (rounds (n - 1) (arcs n G) (fun _ => 0) (upd (fun _ => Inf) r (Fin 0))).

(** [while not(path[0] == src)], graphs.py:236-237. *)
Fixpoint trace (fuel : nat) (pred : nat -> nat) (src v : nat) (acc : list nat)
    : result (list nat) :=
  if v =? src then Ok (v :: acc)
  else match fuel with
       | 0 => Err OutOfFuel
       | S f => trace f pred src (pred v) (v :: acc)
       end.

(** [bfm_shortest_path], graphs.py:229-239 (the predecessor list, the third
    return value, is internal and dropped). *)
Definition bfm (n : nat) (G : nat -> nat -> ext) (src dst : nat)
    : result (ext * list nat) :=
  do (pred, D) <- bfm_helper n G src;
  if n <=? dst then Err IndexErr
  else match D dst with
       | Inf => Ok (Inf, [])
       | Fin d => do path <- trace n pred src dst []; Ok (Fin d, path)
       end.
