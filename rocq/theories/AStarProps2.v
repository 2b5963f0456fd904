(** How short the path of a_star_search is (C18). *)
From Verif Require Import Base AStarModel AStarSpec AStarProofs AStarReal AStarOpt AStarProps.
From Coq Require Import Reals Lra Qreals.
Open Scope R_scope.

(** C18, the quantitative part: with a non-negative cost per move the returned
    path (of a search that did not give up) has at most
    max(cost, sqrt 2)/cost times the moves of any walk from start to end.
    Missing from the full claim: the factor is not 1 when cost < sqrt 2
    (C18_a_star_shortest_refuted). *)
Theorem C18_a_star_suboptimal_partial : forall m start end_ cost path h2 l, (0 <= cost)%Q ->
  in_maze (mz_rows m) (mz_cols m) start ->
  a_star m start end_ cost = Some (path, h2, false) ->
  is_walk (mz_rows m) (mz_cols m) (mz_wall m) start end_ l ->
  Q2R cost * INR (n_moves path) <= Rmax (Q2R cost) (sqrt 2) * INR (n_moves l).
Proof.
  intros m start end_ cost path h2 l Hc Hs E Hl. apply Qle_Rle in Hc. rewrite RMicromega.Q2R_0 in Hc.
  exact (a_star_bound m start end_ cost Hc _ path h2 l Hs E Hl).
Qed.
(** With the default cost 1: the square of the number of moves is at most twice
    that of the shortest. *)
Theorem C18_a_star_unit_cost_partial : forall m start end_ path h2 l,
  in_maze (mz_rows m) (mz_cols m) start ->
  a_star m start end_ 1 = Some (path, h2, false) ->
  is_walk (mz_rows m) (mz_cols m) (mz_wall m) start end_ l ->
  (n_moves path * n_moves path <= 2 * (n_moves l * n_moves l))%nat.
Proof.
  intros m start end_ path h2 l Hs E Hl. pose proof (C18_a_star_suboptimal_partial m start end_ 1 path h2 l ltac:(discriminate) Hs E Hl) as H.
  rewrite RMicromega.Q2R_1, Rmult_1_l in H.
  assert (S2 : sqrt 2 * sqrt 2 = 2) by (apply sqrt_sqrt; lra). pose proof (sqrt_pos 2) as P2.
  assert (H1 : 1 <= sqrt 2) by (rewrite <- sqrt_1; apply sqrt_le_1_alt; lra). rewrite Rmax_right in H by exact H1.
  apply INR_le. rewrite !mult_INR. change (INR 2) with 2. pose proof (pos_INR (n_moves path)). pose proof (pos_INR (n_moves l)).
  pose proof (Rmult_le_compat _ _ _ _ H0 H0 H H) as Q. replace (sqrt 2 * INR (n_moves l) * (sqrt 2 * INR (n_moves l))) with (sqrt 2 * sqrt 2 * (INR (n_moves l) * INR (n_moves l))) in Q by ring.
  rewrite S2 in Q. exact Q.
Qed.
(** With a cost per move of at least sqrt 2 (the length of a diagonal move) the
    path is a shortest one. *)
Theorem C18_a_star_shortest_partial : forall m start end_ cost path h2 l, (0 <= cost)%Q -> (2 <= cost * cost)%Q ->
  in_maze (mz_rows m) (mz_cols m) start ->
  a_star m start end_ cost = Some (path, h2, false) ->
  is_walk (mz_rows m) (mz_cols m) (mz_wall m) start end_ l ->
  (n_moves path <= n_moves l)%nat.
Proof.
  intros m start end_ cost path h2 l Hc Hq Hs E Hl. pose proof (C18_a_star_suboptimal_partial m start end_ cost path h2 l Hc Hs E Hl) as H.
  apply Qle_Rle in Hc, Hq. rewrite RMicromega.Q2R_0 in Hc. rewrite Q2R_mult in Hq. replace (Q2R 2) with 2 in Hq by (unfold Q2R; cbn [Qnum Qden]; lra).
  assert (S2 : sqrt 2 <= Q2R cost).
  { rewrite <- (sqrt_square (Q2R cost)) by exact Hc. apply sqrt_le_1_alt. exact Hq. }
  rewrite Rmax_left in H by exact S2. apply INR_le. apply Rmult_le_reg_l with (Q2R cost); [|exact H].
  pose proof (Rlt_sqrt2_0). lra.
Qed.

Print Assumptions C18_a_star_suboptimal_partial.
Print Assumptions C18_a_star_unit_cost_partial.
Print Assumptions C18_a_star_shortest_partial.

(** Instances of the hypotheses: in the maze of the refutation the path has 5
    moves for the cost 1 (25 <= 2 * 16) and 4 for the cost 2. *)
Example C18_ex1 : in_maze 4 5 (2, 4)%Z /\
  a_star ex_maze (2, 4)%Z (0, 0)%Z 1 = Some ([(2,4);(1,4);(0,3);(0,2);(0,1);(0,0)]%Z, 17%Z, false).
Proof. exact C16_ex. Qed.
Example C18_ex2 : exists path h2, a_star ex_maze (2, 4)%Z (0, 0)%Z 2 = Some (path, h2, false) /\ n_moves path = 4%nat.
Proof. eexists. eexists. split; [vm_compute; reflexivity|reflexivity]. Qed.
