(** Property theorems about a_star_search (C16-C19). *)
From Verif Require Import Base AStarModel AStarSpec AStarProofs AStarReal.
From Coq Require Import Reals.

Open Scope nat_scope.
(** C16: any returned path is a walk from start over free cells inside the
    maze, repeats no cell and, unless the search gave up at the iteration limit
    (100000), ends at end. *)
Theorem C16_a_star_walkable : forall m start end_ cost path h2 gaveup,
  in_maze (mz_rows m) (mz_cols m) start ->
  a_star m start end_ cost = Some (path, h2, gaveup) ->
  (exists e, is_walk (mz_rows m) (mz_cols m) (mz_wall m) start e path /\ (gaveup = false -> e = end_)) /\
  NoDup path /\
  (forall p, In p path -> in_maze (mz_rows m) (mz_cols m) p) /\
  (forall p, In p (tl path) -> free (mz_rows m) (mz_cols m) (mz_wall m) p).
Proof.
  intros m start end_ cost path h2 gu Hs E.
  pose proof (a_star_spec (N.to_nat 100000) m start end_ cost Hs) as H.
  unfold a_star in E. rewrite E in H. destruct H as [[e [W He]] [N _]].
  split; [exists e; auto|]. split; [exact N|].
  assert (Hf : forall p, In p (tl path) -> free (mz_rows m) (mz_cols m) (mz_wall m) p).
  { destruct W as [W _]. destruct path as [|a l]; [intros p []|]. cbn [tl]. clear - W. revert a W.
    induction l as [|b l IH]; intros a W p Hp; [destruct Hp|]. destruct W as [_ [Hb W]].
    destruct Hp as [<-|Hp]; [exact Hb|]. apply (IH b W p Hp). }
  split; [|exact Hf]. intros p Hp. destruct W as [_ [W _]]. destruct path as [|a l]; [destruct Hp|].
  cbn in W. inversion W; subst a. destruct Hp as [<-|Hp]; [exact Hs|]. apply (Hf p Hp).
Qed.

(** C17: nothing is returned only when no walk exists; and when no walk exists,
    either nothing is returned or the iteration limit was hit. *)
Theorem C17_a_star_complete : forall m start end_ cost,
  in_maze (mz_rows m) (mz_cols m) start ->
  (a_star m start end_ cost = None ->
     forall l, ~ is_walk (mz_rows m) (mz_cols m) (mz_wall m) start end_ l) /\
  ((forall l, ~ is_walk (mz_rows m) (mz_cols m) (mz_wall m) start end_ l) ->
     a_star m start end_ cost = None \/ exists path h2, a_star m start end_ cost = Some (path, h2, true)).
Proof.
  intros m start end_ cost Hs.
  pose proof (a_star_spec (N.to_nat 100000) m start end_ cost Hs) as H.
  unfold a_star in *. split.
  - intros E. rewrite E in H. exact H.
  - intros Hno. destruct (a_star_lim (N.to_nat 100000) m start end_ cost) as [[[path h2] gu]|]; [|left; reflexivity].
    destruct gu; [right; eauto|]. destruct H as [[e [W He]] _]. rewrite (He eq_refl) in W. exfalso. exact (Hno _ W).
Qed.

(** The maze used below: a wall forces a choice; the Euclidean heuristic
    overestimates diagonal moves. *)
Definition ex_maze : maze := maze_of 5
  [[0; 0; 0; 0; 0]; [0; 0; 0; 1; 0]; [1; 1; 0; 1; 0]; [0; 1; 0; 0; 0]]%Z.

(** C18 is false: from (2,4) to (0,0) a path of 5 moves is returned although
    one of 4 moves exists. *)
Theorem C18_a_star_shortest_refuted : exists m start end_ cost path h2 l,
  free (mz_rows m) (mz_cols m) (mz_wall m) start /\
  a_star m start end_ cost = Some (path, h2, false) /\
  is_walk (mz_rows m) (mz_cols m) (mz_wall m) start end_ l /\
  n_moves l < n_moves path.
Proof.
  exists ex_maze, (2, 4)%Z, (0, 0)%Z, 1%Q, [(2,4);(1,4);(0,3);(0,2);(0,1);(0,0)]%Z. eexists.
  exists [(2,4);(3,3);(2,2);(1,1);(0,0)]%Z. split; [|split; [vm_compute; reflexivity|split]].
  - split; [split; cbn; lia|reflexivity].
  - split; [|split; reflexivity]. cbn [steps].
    repeat (split; [split; [intros X; inversion X|split; cbn; lia]|split; [split; [split; cbn; lia|reflexivity]|]]). exact I.
  - cbn. lia.
Qed.

(** C19 is false: the second value is not the cost of the path.  From (0,0) to
    (0,2) in an empty corridor the path costs 2, the reported value is 1. *)
Theorem C19_a_star_cost_refuted : exists m start end_ cost path h2,
  free (mz_rows m) (mz_cols m) (mz_wall m) start /\
  a_star m start end_ cost = Some (path, h2, false) /\
  ~ (inject_Z h2 == (cost * inject_Z (Z.of_nat (n_moves path))) * (cost * inject_Z (Z.of_nat (n_moves path))))%Q /\
  (sqrt (IZR h2) <> Q2R (cost * inject_Z (Z.of_nat (n_moves path))))%R.
Proof.
  exists (maze_of 3 [[0; 0; 0]])%Z, (0, 0)%Z, (0, 2)%Z, 1%Q, [(0,0);(0,1);(0,2)]%Z, 1%Z.
  split; [split; [split; cbn; lia|reflexivity]|]. split; [vm_compute; reflexivity|]. split; [vm_compute; discriminate|].
  rewrite sqrt_1. change (1 * inject_Z (Z.of_nat (n_moves [(0,0);(0,1);(0,2)]%Z)))%Q with (2 # 1)%Q.
  unfold Q2R. cbn [Qnum Qden]. intros H. rewrite Rinv_1, Rmult_1_r in H. apply eq_IZR in H. discriminate.
Qed.
(** What the second value really is: the largest distance to end of the cells
    after the start. *)
Theorem C19_a_star_reported : forall m start end_ cost path h2 gaveup,
  in_maze (mz_rows m) (mz_cols m) start ->
  a_star m start end_ cost = Some (path, h2, gaveup) ->
  (forall p, In p (tl path) ->
     ((fst p - fst end_) * (fst p - fst end_) + (snd p - snd end_) * (snd p - snd end_) <= h2)%Z) /\
  (h2 = 0%Z \/ exists p, In p (tl path) /\
     h2 = ((fst p - fst end_) * (fst p - fst end_) + (snd p - snd end_) * (snd p - snd end_))%Z).
Proof.
  intros m start end_ cost path h2 gu Hs E.
  pose proof (a_star_spec (N.to_nat 100000) m start end_ cost Hs) as H.
  unfold a_star in E. rewrite E in H. destruct H as [_ [_ ->]].
  assert (Hge : forall l a, (a <= fold_left Z.max l a)%Z).
  { induction l as [|x l IH]; intros a; cbn [fold_left]; [lia|]. specialize (IH (Z.max a x)). lia. }
  assert (Hin : forall l a, (forall x, In x l -> (x <= fold_left Z.max l a)%Z) /\
     (fold_left Z.max l a = a \/ In (fold_left Z.max l a) l)).
  { induction l as [|x l IH]; intros a; cbn [fold_left]; [split; [intros x []|auto]|].
    destruct (IH (Z.max a x)) as [A B]. split.
    - intros y [<-|Hy]; [specialize (Hge l (Z.max a x)); lia|auto].
    - destruct B as [B|B]; [|right; right; exact B]. rewrite B. destruct (Z.max_spec a x) as [[_ ->]|[_ ->]]; [right; left; reflexivity|left; reflexivity]. }
  destruct (Hin (map (fun p => dist2 p end_) (tl path)) 0%Z) as [A B]. split.
  - intros p Hp. apply (A (dist2 p end_)). apply in_map_iff. exists p. auto.
  - destruct B as [B|B]; [left; exact B|right]. apply in_map_iff in B as [p [Ep Hp]]. exists p. split; [exact Hp|].
    rewrite <- Ep. reflexivity.
Qed.

(** The comparison of f values in the model is that of the real numbers
    g + h (h = sqrt of the squared distance). *)
Theorem C16_f_comparison_exact : forall x y, (0 <= nd_h2 x)%Z -> (0 <= nd_h2 y)%Z ->
  f_lt x y = true <-> (Q2R (nd_g x) + sqrt (IZR (nd_h2 x)) < Q2R (nd_g y) + sqrt (IZR (nd_h2 y)))%R.
Proof. intros x y Hx Hy. apply sum_sqrt_lt_spec; assumption. Qed.

Print Assumptions C16_a_star_walkable.
Print Assumptions C17_a_star_complete.
Print Assumptions C18_a_star_shortest_refuted.
Print Assumptions C19_a_star_cost_refuted.
Print Assumptions C19_a_star_reported.
Print Assumptions C16_f_comparison_exact.

(** Instances of the hypotheses: a path is found; an unreachable end. *)
Example C16_ex : in_maze 4 5 (2, 4)%Z /\
  a_star ex_maze (2, 4)%Z (0, 0)%Z 1 = Some ([(2,4);(1,4);(0,3);(0,2);(0,1);(0,0)]%Z, 17%Z, false).
Proof. split; [split; cbn; lia|vm_compute; reflexivity]. Qed.
Example C17_ex : a_star (maze_of 3 [[0; 1; 0]])%Z (0, 0)%Z (0, 2)%Z 1 = None.
Proof. vm_compute. reflexivity. Qed.
