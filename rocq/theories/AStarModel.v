(** Model of [a_star_search] (src/gasur/utilities/graphs.py:432-581),
    [AStarNode] and [astar_return_path]
    (src/gasur/utilities/graphs_subroutines.py:258-311). *)
From Verif Require Import Base.

Definition cell := (Z * Z)%type.
Definition cell_eqb (a b : cell) : bool := (fst a =? fst b)%Z && (snd a =? snd b)%Z.

(** AStarNode, graphs_subroutines.py:258-281: [nd_chain] is the node's own
    (position, squared h) followed by those of its ancestors (the parent
    pointers), [nd_g] is g.  h is a Euclidean distance, so it is represented by
    its square; f = g + h is compared exactly ([f_lt]). *)
Record node := { nd_chain : list (cell * Z); nd_pos : cell; nd_g : Q; nd_h2 : Z }.

(** [item.f < current_node.f], graphs.py:507, i.e.
    g1 + sqrt a < g2 + sqrt b, decided without roots (AStarProofs.v shows that
    it is the comparison of the real numbers). *)
Definition sum_sqrt_lt (g1 : Q) (a : Z) (g2 : Q) (b : Z) : bool :=
  let d := (g2 - g1)%Q in
  let qa := inject_Z a in let qb := inject_Z b in
  if Qle_bool 0 d then
    (* sqrt a < d + sqrt b  <->  a - d^2 - b < 2 d sqrt b *)
    let e := (qa - d * d - qb)%Q in
    if Qltb e 0 then true else Qltb (e * e) (4 * d * d * qb)
  else
    (* sqrt a + |d| < sqrt b  <->  2 |d| sqrt a < b - a - d^2 *)
    let e := (qb - qa - d * d)%Q in
    if Qltb 0 e then Qltb (4 * d * d * qa) (e * e) else false.
Definition f_lt (x y : node) : bool := sum_sqrt_lt (nd_g x) (nd_h2 x) (nd_g y) (nd_h2 y).

(** Selection of the open node with the smallest f, first one on ties,
    graphs.py:503-509: (index, node). *)
Fixpoint select (i : nat) (best : nat * node) (l : list node) : nat * node :=
  match l with
  | [] => best
  | x :: l' => select (S i) (if f_lt x (snd best) then (i, x) else best) l'
  end.
(** [yet_to_visit_list.pop(current_index)], graphs.py:518. *)
Fixpoint remove_at {A} (i : nat) (l : list A) : list A :=
  match l, i with
  | [], _ => []
  | _ :: l', 0 => l'
  | x :: l', S i' => x :: remove_at i' l'
  end.

(** [move], graphs.py:464-472. *)
Definition moves : list cell :=
  [(-1, 0); (0, -1); (1, 0); (0, 1); (1, 1); (1, -1); (-1, 1); (-1, -1)]%Z.

(** Maze: size and wall test ([maze[r][c] != 0]). *)
Record maze := { mz_rows : nat; mz_cols : nat; mz_wall : Z -> Z -> bool }.

(** The boundary test of graphs.py:535-543; the and-clauses are implied by the
    simple ones but kept. *)
Definition out_of_range (m : maze) (p : cell) : bool :=
  let no_rows := Z.of_nat (mz_rows m) in let no_columns := Z.of_nat (mz_cols m) in
  let r := fst p in let c := snd p in
  (r >? no_rows - 1)%Z || (r <? 0)%Z || (c >? no_columns - 1)%Z || (c <? 0)%Z ||
  ((r <? 0)%Z && (c <? 0)%Z) || ((r >? no_rows - 1)%Z && (c <? 0)%Z) ||
  ((r <? 0)%Z && (c <? no_columns - 1)%Z) || ((r >? no_rows - 1)%Z && (c >? no_columns - 1)%Z).

(** Positions of the children, graphs.py:528-553. *)
Definition child_positions (m : maze) (p : cell) : list cell :=
  filter (fun q => negb (out_of_range m q) && negb (mz_wall m (fst q) (snd q)))
    (map (fun mv => (fst p + fst mv, snd p + snd mv)%Z) moves).

Definition dist2 (p q : cell) : Z :=
  ((fst p - fst q) * (fst p - fst q) + (snd p - snd q) * (snd p - snd q))%Z.

(** The loop over the children, graphs.py:556-581: [open] is
    yet_to_visit_list, [visited] the positions on visited_list. *)
Fixpoint add_children (end_ : cell) (cost : Q) (cur : node) (visited : list cell)
    (kids : list cell) (open : list node) : list node :=
  match kids with
  | [] => open
  | p :: kids' =>
      if existsb (cell_eqb p) visited then add_children end_ cost cur visited kids' open
      else
        let child := {| nd_chain := (p, dist2 p end_) :: nd_chain cur; nd_pos := p;
                        nd_g := (nd_g cur + cost)%Q; nd_h2 := dist2 p end_ |} in
        if existsb (fun i => cell_eqb p (nd_pos i) && Qltb (nd_g i) (nd_g child)) open
        then add_children end_ cost cur visited kids' open
        else add_children end_ cost cur visited kids' (open ++ [child])
  end.

(** [astar_return_path], graphs_subroutines.py:284-311.  The path is written
    into a grid as 0, 1, 2, ... (a cell visited twice keeps the later number)
    and read back: all cells with a number, in row-major order, then sorted by
    number. *)
Fixpoint write_path (p : list cell) (v : nat) (grid : list (cell * nat)) : list (cell * nat) :=
  match p with
  | [] => grid
  | x :: p' => write_path p' (S v)
                 ((x, v) :: filter (fun e => negb (cell_eqb x (fst e))) grid)
  end.
Definition grid_at (g : list (cell * nat)) (x : cell) : option nat :=
  match find (fun e => cell_eqb x (fst e)) g with Some e => Some (snd e) | None => None end.
Definition all_cells (m : maze) : list cell :=
  flat_map (fun r => map (fun c => (Z.of_nat r, Z.of_nat c)) (seq 0 (mz_cols m))) (seq 0 (mz_rows m)).
Fixpoint ins_val (x : cell * nat) (l : list (cell * nat)) : list (cell * nat) :=
  match l with
  | [] => [x]
  | y :: l' => if snd x <=? snd y then x :: y :: l' else y :: ins_val x l'
  end.
Definition read_grid (m : maze) (g : list (cell * nat)) : list cell :=
  let vals := flat_map (fun x => match grid_at g x with Some v => [(x, v)] | None => [] end) (all_cells m) in
  map fst (fold_right ins_val [] vals).
(** Result: the path and the square of [max(total_cost)], the largest h on the
    chain. *)
Definition return_path (m : maze) (nd : node) : list cell * Z :=
  let path := rev (map fst (nd_chain nd)) in
  (read_grid m (write_path path 0 []),
   fold_left Z.max (map snd (nd_chain nd)) 0%Z).

(** The outcome of the search: [None] when the open list is exhausted; else the
    path, the squared second value, and whether the search gave up at the
    iteration limit ("giving up on pathfinding" is printed). *)
Definition outcome := option (list cell * Z * bool).

(** The while loop, graphs.py:497-581; [fuel] is the number of iterations left
    before the limit (max_iterations = 100000, line 462). *)
Fixpoint search (fuel : nat) (m : maze) (end_ : cell) (cost : Q)
    (open : list node) (visited : list cell) : outcome :=
  match open with
  | [] => None
  | n0 :: _ =>
      let '(i, cur) := select 0 (0, n0) open in
      match fuel with
      | 0 => Some (return_path m cur, true)
      | S f =>
          let open1 := remove_at i open in
          let visited1 := visited ++ [nd_pos cur] in
          if cell_eqb (nd_pos cur) end_ then Some (return_path m cur, false)
          else search f m end_ cost
                 (add_children end_ cost cur visited1 (child_positions m (nd_pos cur)) open1)
                 visited1
      end
  end.

(** [a_star_search], graphs.py:432-581, with the iteration limit as a
    parameter; start must be a cell of the maze. *)
Definition a_star_lim (maxit : nat) (m : maze) (start end_ : cell) (cost : Q) : outcome :=
  search maxit m end_ cost
    [{| nd_chain := [(start, 0%Z)]; nd_pos := start; nd_g := 0%Q; nd_h2 := 0%Z |}] [].
Definition a_star (m : maze) (start end_ : cell) (cost : Q) : outcome :=
  a_star_lim (N.to_nat 100000) m start end_ cost.

(** A maze given by its rows (0 = free), for examples. *)
Definition maze_of (nc : nat) (rows : list (list Z)) : maze :=
  {| mz_rows := length rows; mz_cols := nc;
     mz_wall := fun r c => negb (nth (Z.to_nat c) (nth (Z.to_nat r) rows []) 1 =? 0)%Z |}.
