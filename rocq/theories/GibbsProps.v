(** Property theorems about gibbs (C20-C22, C71). *)
From Verif Require Import Base GibbsModel GibbsSpec GibbsProofs.

(** C20: with finite costs (hence positive weights) and at least twice as many
    columns as rows, gibbs returns normally for every random stream and every
    returned row is a one-to-one assignment. *)
Theorem C20_gibbs_one_to_one : forall costs M expw rnd num_iters,
  (forall r e, In r costs -> In e r -> e <> Inf) -> is_matrix costs M ->
  (forall q, (0 < expw (Fin q))%Q) -> (forall sol v, (0 <= rnd sol v < 1)%Q) ->
  2 * length costs <= M -> 1 <= num_iters ->
  exists rows cs, gibbs costs M expw rnd num_iters = Ok (rows, cs) /\
    forall a, In a rows -> one_to_one (length costs) M a.
Proof.
  intros costs M expw rnd [|k] Hfin Hm Hw Hr HM Hn; [lia|].
  destruct (gibbs_ok costs M expw rnd Hr (fun _ => True)) with (k := k) as [rows [cs [E H]]].
  - intros cur v L B ND _ Hv. destruct (pigeon M (others cur v)) as [j [Hj1 Hj2]].
    { rewrite others_length; lia. }
    exists j. split; [exact Hj1|]. split; [exact Hj2|].
    destruct (entry costs v j) as [q|] eqn:Ee; [apply Hw|]. exfalso.
    apply (Hfin (nth v costs []) Inf); [apply nth_In; exact Hv|rewrite <- Ee|reflexivity].
    apply nth_In. rewrite (Hm (nth v costs [])); [exact Hj1|apply nth_In; exact Hv].
  - auto.
  - exact HM.
  - exact I.
  - exists rows, cs. split; [exact E|]. intros a Ha. apply H. exact Ha.
Qed.

(** C20, for the matrices the JGLMB filter passes: entries may be +inf (weight
    0), but variable i has a private column N+i that nobody else can take. *)
Theorem C20_gibbs_private_columns : forall costs M expw rnd num_iters,
  let N := length costs in
  let entry i j := nth j (nth i costs []) Inf in
  (forall i, i < N -> (0 < expw (entry i (N + i)%nat))%Q) ->
  (forall i k, i < N -> k < N -> k <> i -> (expw (entry k (N + i)%nat) <= 0)%Q) ->
  (forall sol v, (0 <= rnd sol v < 1)%Q) -> 2 * N <= M -> 1 <= num_iters ->
  exists rows cs, gibbs costs M expw rnd num_iters = Ok (rows, cs) /\
    forall a, In a rows -> one_to_one N M a /\
      forall i k, i < N -> k < N -> k <> i -> nth k a 0 <> N + i.
Proof.
  intros costs M expw rnd [|k] N entry H1 H2 Hr HM Hn; [lia|].
  apply (gibbs_ok costs M expw rnd Hr (fun cur => forall i k, i < N -> k < N -> k <> i -> nth k cur 0 <> N + i)).
  - intros cur v L B ND HI Hv. exists (N + v). split; [unfold N in *; lia|]. split; [|apply H1; exact Hv].
    intros Hin. apply others_nth in Hin as [k' [A [B' C]]]; [|lia].
    apply (HI v k'); unfold N in *; auto. lia.
  - intros cur v j L HI Hv [J1 [J2 J3]] i k' Hi Hk Hki. rewrite nth_set_nth by lia.
    destruct (Nat.eqb_spec k' v) as [->|Hne]; [|apply HI; assumption].
    intros ->. pose proof (H2 i v Hi Hk Hki) as Hle. unfold GibbsModel.entry in J3. unfold entry in Hle. lra.
  - exact HM.
  - intros i k' Hi Hk Hki. rewrite seq_nth by exact Hk. fold N. lia.
Qed.

(** C21: whatever the costs and the random stream, a successful call returns
    strictly increasing (hence different) rows, at most num_iters of them, with
    one cost per row, which is the sum of the selected entries. *)
Theorem C21_gibbs_rows_and_costs : forall costs M expw rnd num_iters rows cs,
  gibbs costs M expw rnd num_iters = Ok (rows, cs) ->
  strictly_sorted rows /\ NoDup rows /\ length rows <= num_iters /\
  length cs = length rows /\
  (forall i, i < length rows ->
     length (nth i rows []) = length costs /\
     selected_cost costs (nth i rows []) (nth i cs Inf) /\
     forall j, In j (nth i rows []) -> j < M).
Proof.
  intros costs M expw rnd n rows cs E. apply gibbs_result in E as [l [Hl [L [H1 [H0 [-> ->]]]]]].
  pose proof (unique_sorted l) as S. split; [exact S|]. split; [apply sorted_nodup; exact S|].
  split; [rewrite map_length, <- L; apply unique_length|]. split; [rewrite !map_length; reflexivity|].
  intros i Hi. rewrite map_length in Hi.
  set (d := (@nil nat, Inf)). change (@nil nat) with (fst d). change Inf with (snd d). rewrite !map_nth.
  assert (Hin : In (nth i (unique l) d) l) by (apply unique_in, nth_In; exact Hi).
  destruct (Hl _ Hin) as [A B]. split; [exact A|]. destruct (row_cost_spec costs M _ _ A B) as [C D].
  split; [exact C|]. exact D.
Qed.

(** C22: the initial solution is among the rows. *)
Theorem C22_gibbs_initial : forall costs M expw rnd num_iters rows cs,
  gibbs costs M expw rnd num_iters = Ok (rows, cs) ->
  In (seq (length costs) (length costs)) rows.
Proof.
  intros costs M expw rnd n rows cs E. apply gibbs_result in E as [l [_ [_ [_ [H0 [-> _]]]]]].
  apply in_map_iff in H0 as [p [<- Hp]]. apply unique_keeps. exact Hp.
Qed.

(** C71: a draw picks a column by inverse transform: column j is chosen for
    exactly the u between the normalised sums of the weights of the columns
    before j and up to j, where a column held by another variable weighs 0. *)
Theorem C71_gibbs_inverse_transform : forall costs M expw cur v u,
  let W j := if in_dec Nat.eq_dec j (firstn v cur ++ skipn (S v) cur) then 0%Q
             else expw (nth j (nth v costs []) Inf) in
  (forall e, (0 <= expw e)%Q) -> (0 <= u < 1)%Q ->
  (exists j, j < M /\ (0 < W j)%Q) ->
  exists j, draw costs M expw cur v u = Ok j /\ j < M /\ (0 < W j)%Q /\
    (qsum (map W (seq 0 j)) <= u * qsum (map W (seq 0 M)))%Q /\
    (u * qsum (map W (seq 0 M)) < qsum (map W (seq 0 (S j))))%Q.
Proof.
  intros costs M expw cur v u W Hw [H0 H1] [j0 [Hj0 Wj0]].
  assert (EW : forall j, weight costs expw cur v j = W j).
  { intros j. unfold weight, W, others. destruct (in_dec Nat.eq_dec j (firstn v cur ++ skipn (S v) cur)) as [H|H].
    - assert (E : existsb (Nat.eqb j) (firstn v cur ++ skipn (S v) cur) = true).
      { apply existsb_exists. exists j. split; [exact H|apply Nat.eqb_refl]. } rewrite E. reflexivity.
    - destruct (existsb (Nat.eqb j) (firstn v cur ++ skipn (S v) cur)) eqn:E; [|reflexivity].
      apply existsb_exists in E as [x [Hx Ex]]. apply Nat.eqb_eq in Ex. subst x. contradiction. }
  assert (HW0 : forall j, Qltb 0 (weight costs expw cur v j) = false -> (W j == 0)%Q).
  { intros j Hj. apply Qltb_ge in Hj. rewrite EW in Hj. assert (0 <= W j)%Q; [|lra].
    unfold W. destruct (in_dec Nat.eq_dec j _); [apply Qle_refl|apply Hw]. }
  destruct (draw_spec costs M expw cur v u H0 H1) as [j [E [Hj [k [Ek [A B]]]]]].
  { intros E. assert (Hin : In j0 (old_ind costs M expw cur v)); [|rewrite E in Hin; destruct Hin].
    unfold old_ind. apply filter_In. split; [apply in_seq; lia|]. apply Qltb_lt. rewrite EW. exact Wj0. }
  exists j. split; [exact E|]. unfold old_ind in *. apply filter_In in Hj as [Hj1 Hj2]. apply in_seq in Hj1.
  split; [lia|]. split; [rewrite <- EW; apply Qltb_lt; exact Hj2|].
  assert (EM : forall l, map (weight costs expw cur v) l = map W l) by (intros l; apply map_ext; exact EW).
  rewrite !EM in A, B.
  destruct (filter_prefix_sum _ W M HW0 0 k j Ek) as [_ [P1 P2]]. rewrite !Nat.sub_0_r in *.
  rewrite P1 in A. rewrite P2 in B. rewrite (filter_full_sum _ W _ HW0) in A, B. split; assumption.
Qed.

Print Assumptions C20_gibbs_one_to_one.
Print Assumptions C20_gibbs_private_columns.
Print Assumptions C21_gibbs_rows_and_costs.
Print Assumptions C22_gibbs_initial.
Print Assumptions C71_gibbs_inverse_transform.

(** Instances of the hypotheses. *)
Definition ex_costs : list (list ext) := [[Fin 1; Fin 2; Fin 3; Fin 4; Fin 0]; [Fin 1; Fin 1; Fin 1; Fin 1; Fin 1]]%Q.
Definition ex_w (e : ext) : Q := match e with Fin q => (1 / (1 + q * q))%Q | Inf => 0%Q end.
Definition ex_rnd (s v : nat) : Q := nth (s + v) [1#2; 1#3; 9#10; 0; 3#4; 1#5]%Q 0%Q.
Example C20_ex : (forall q, (0 < ex_w (Fin q))%Q) /\ (forall s v, (0 <= ex_rnd s v < 1)%Q) /\
  gibbs ex_costs 5 ex_w ex_rnd 4 = Ok ([[1; 4]; [2; 0]; [2; 3]]%nat, [Fin 3; Fin 4; Fin 4]%Q).
Proof.
  split; [|split].
  - intros q. unfold ex_w. apply Qlt_shift_div_l; [|lra].
    assert (H : (0 <= q * q)%Q) by (destruct (Qlt_le_dec q 0); [setoid_replace (q * q)%Q with ((-q) * (-q))%Q by ring; apply Qmult_le_0_compat; lra|apply Qmult_le_0_compat; lra]). lra.
  - intros s v. unfold ex_rnd. destruct (s + v) as [|[|[|[|[|[|n]]]]]]; cbn; try lra. destruct n; lra.
  - vm_compute. reflexivity.
Qed.
Example C20_private_ex : gibbs [[Fin 1; Inf; Fin 2; Inf; Fin 0]; [Inf; Fin 1; Inf; Fin 1; Fin 0]]%Q 5 ex_w ex_rnd 4
  = Ok ([[0; 4]; [2; 1]; [2; 3]; [2; 4]]%nat, [Fin 1; Fin 3; Fin 3; Fin 2]%Q).
Proof. vm_compute. reflexivity. Qed.
(** The positivity hypotheses cannot be dropped: when every weight of a row is
    zero (costs of +inf, or so large that exp underflows) column 0 is taken,
    even by several variables. *)
Example C20_zero_weights : gibbs [[Inf; Inf; Inf; Inf]; [Inf; Inf; Inf; Inf]] 4 ex_w ex_rnd 4
  = Ok ([[0; 0]; [2; 3]], [Inf; Inf]).
Proof. vm_compute. reflexivity. Qed.
