(** True parts of the refuted guidance properties C82, C83 and C84. *)
From Verif Require Import Base Lists.
From Coq Require Import Reals Lra Lia.
From Verif Require Import OspaModel OspaProofs GuidModel GuidSpec GuidProofs GuidProps.
Open Scope R_scope.

(** The direction [u] is not zero in [dim] dimensions. *)
Definition nonzero (dim : nat) (u : vec) : Prop := exists i, (i < dim)%nat /\ u i <> 0.
(** Positive definite in [dim] dimensions. *)
Definition posdef (dim : nat) (P : mat) : Prop :=
  forall x, nonzero dim x -> 0 < rsumn dim (fun i => rsumn dim (fun j => x i * P i j * x j)).
(** The other centres: the remaining waypoints and the mean of all. *)
Definition others (wps : list vec) (k : nat) : list vec :=
  del_col k (wps ++ [fun i => mean_of wps i]).

Lemma combined_ext wps k : (forall e, In e (del_col k (combined_centers wps)) -> exists e', In e' (others wps k) /\ forall i, e i = e' i)
  /\ (forall e', In e' (others wps k) -> exists e, In e (del_col k (combined_centers wps)) /\ forall i, e i = e' i).
Proof.
  unfold others, combined_centers.
  set (a := fun i => fold_left vplus wps vzero i / INR (length wps)). set (b := fun i => mean_of wps i).
  assert (E : forall i, a i = b i).
  { intro i. unfold a, b, mean_of. rewrite fold_vplus. unfold vzero. f_equal. ring. }
  assert (K : forall x y : vec, (forall i, x i = y i) -> forall e, In e (del_col k (wps ++ [x])) -> exists e', In e' (del_col k (wps ++ [y])) /\ forall i, e i = e' i).
  { intros x y Exy e. unfold del_col. rewrite in_app_iff.
    assert (G : forall w1 : list vec, In e (w1 ++ [x]) -> exists e', In e' (w1 ++ [y]) /\ forall i, e i = e' i).
    { intros w1 H. apply in_app_iff in H as [H|[H|[]]]; [exists e; split; [apply in_app_iff; now left|reflexivity]|].
      subst e. exists y. split; [apply in_app_iff; right; now left|exact Exy]. }
    rewrite !firstn_app, !skipn_app. intros [H|H].
    - apply in_app_iff in H as [H|H].
      + exists e. split; [|reflexivity]. apply in_app_iff; left; apply in_app_iff; now left.
      + destruct (k - length wps)%nat as [|n] eqn:En; [easy|]. cbn [firstn] in H. rewrite firstn_nil in H. destruct H as [H|[]].
        subst e. exists y. split; [|exact Exy]. apply in_app_iff; left; apply in_app_iff; right. cbn [firstn]. now left.
    - apply in_app_iff in H as [H|H].
      + exists e. split; [|reflexivity]. apply in_app_iff; right; apply in_app_iff; now left.
      + destruct (S k - length wps)%nat as [|n] eqn:En; cbn [skipn] in H; [|rewrite skipn_nil in H; easy]. destruct H as [H|[]].
        subst e. exists y. split; [|exact Exy]. apply in_app_iff; right; apply in_app_iff; right. cbn [skipn]. now left. }
  split.
  - apply K, E.
  - intros e' H. destruct (K b a (fun i => eq_sym (E i)) e' H) as [e [H1 H2]]. exists e. split; [exact H1|]. intro i. now rewrite H2.
Qed.

Lemma proj_vals_pos dim C dirs i : 0 < proj_vals dim C dirs i <-> exists o, In o dirs /\ rsumn dim (fun k => C k i * o k) <> 0.
Proof.
  unfold proj_vals. set (f := fun o : vec => Rabs (rsumn dim (fun k => C k i * o k))).
  change (0 < fold_left rmaxf (map f dirs) 0 <-> exists o, In o dirs /\ rsumn dim (fun k => C k i * o k) <> 0).
  destruct (fold_rmaxf (map f dirs) 0) as [H1 H2]. split.
  - intro H. destruct H1 as [H1|H1]; [lra|]. apply in_map_iff in H1 as [o [E Ho]]. exists o. split; [exact Ho|].
    intro Z. unfold f in E. rewrite Z, Rabs_R0 in E. exfalso; apply (Rlt_irrefl 0); rewrite E at 2; exact H.
  - intros [o [Ho Hn]]. apply Rlt_le_trans with (f o); [now apply Rabs_pos_lt|]. apply H2. right. now apply in_map.
Qed.
Lemma del_col_map {A B} (f : A -> B) k l : del_col k (map f l) = map f (del_col k l).
Proof. unfold del_col. now rewrite map_app, firstn_map, skipn_map. Qed.

Section Way.
Variables (dim : nat) (inv : mat -> mat) (eig : mat -> mat).
Hypothesis Ho : forall C i j, (i < dim)%nat -> (j < dim)%nat -> rsumn dim (fun k => eig C k i * eig C k j) = if (i =? j)%nat then 1 else 0.
Hypothesis Hi : forall C, inverse_of dim (eig C) (inv (eig C)).

Lemma rows_orth C i j : (i < dim)%nat -> (j < dim)%nat -> rsumn dim (fun k => eig C i k * eig C j k) = if (i =? j)%nat then 1 else 0.
Proof.
  intros Hi' Hj. rewrite <- (Hi C i j) by assumption. apply rsumn_ext. intros k Hk. f_equal. symmetry.
  eapply inv_transpose; [apply Ho|apply Hi|assumption|assumption].
Qed.
Lemma coords C x : (forall k, (k < dim)%nat -> rsumn dim (fun i => x i * eig C i k) = 0) -> forall i, (i < dim)%nat -> x i = 0.
Proof.
  intros H i Hlt. transitivity (rsumn dim (fun j => x j * (if (j =? i)%nat then 1 else 0))); [symmetry; now apply rsumn_delta with (f := x)|].
  transitivity (rsumn dim (fun j => rsumn dim (fun k => (x j * eig C j k) * eig C i k))).
  { apply rsumn_ext. intros j Hj. rewrite <- (rows_orth C) by assumption. rewrite rsumn_mult_l. apply rsumn_ext. intros. ring. }
  rewrite rsumn_swap. apply rsumn_zero. intros k Hk. rewrite <- rsumn_mult_r. rewrite H by assumption. ring.
Qed.
Lemma cov_entries C v i j : (i < dim)%nat -> (j < dim)%nat ->
  mmulR dim (mmulR dim (eig C) (diagm v)) (inv (eig C)) i j = rsumn dim (fun k => eig C i k * v k * eig C j k).
Proof.
  intros H1 H2. rewrite mmul_diag. apply rsumn_ext. intros k Hk. f_equal. eapply inv_transpose; [apply Ho|apply Hi|assumption|assumption].
Qed.
Lemma cov_quad C v x : rsumn dim (fun i => rsumn dim (fun j => x i * mmulR dim (mmulR dim (eig C) (diagm v)) (inv (eig C)) i j * x j))
  = rsumn dim (fun k => v k * (rsumn dim (fun i => x i * eig C i k)) ^ 2).
Proof.
  rewrite <- congruence_quad. apply rsumn_ext. intros i H1. apply rsumn_ext. intros j H2. now rewrite cov_entries.
Qed.
Lemma rsumn_pos_one f k : (forall i, (i < dim)%nat -> 0 <= f i) -> (k < dim)%nat -> 0 < f k -> 0 < rsumn dim f.
Proof.
  clear. induction dim as [|n IH]; intros H Hk Hp; [lia|]. cbn [rsumn].
  assert (0 <= rsumn n f) by (apply rsumn_nonneg; intros; apply H; lia).
  destruct (Nat.eq_dec k n) as [->|Hn]; [lra|]. assert (0 < rsumn n f) by (apply IH; [intros; apply H; lia|lia|exact Hp]).
  specialize (H n ltac:(lia)). lra.
Qed.
Lemma exists_nonzero f : {k | (k < dim)%nat /\ f k <> 0} + {forall k, (k < dim)%nat -> f k = 0}.
Proof.
  clear. induction dim as [|n [[k [H1 H2]]|IH]].
  - right. intros; lia.
  - left. exists k. split; [lia|exact H2].
  - destruct (Req_EM_T (f n) 0) as [E|E].
    + right. intros k Hk. destruct (Nat.eq_dec k n) as [->|Hn]; [exact E|apply IH; lia].
    + left. exists n. split; [lia|exact E].
Qed.
Lemma posdef_iff C v : (forall k, (k < dim)%nat -> 0 <= v k) ->
  (posdef dim (mmulR dim (mmulR dim (eig C) (diagm v)) (inv (eig C))) <-> forall k, (k < dim)%nat -> 0 < v k).
Proof.
  intro Hv. split.
  - intros H k Hk. specialize (H (fun i => eig C i k)). rewrite cov_quad in H.
    assert (E : rsumn dim (fun k0 => v k0 * (rsumn dim (fun i => eig C i k * eig C i k0)) ^ 2) = v k).
    { transitivity (rsumn dim (fun k0 => v k0 * (if (k0 =? k)%nat then 1 else 0))); [|now apply rsumn_delta with (f := v)].
      apply rsumn_ext. intros k0 Hk0. rewrite Ho by assumption. rewrite (Nat.eqb_sym k k0). destruct (k0 =? k)%nat; ring. }
    rewrite E in H. apply H. destruct (exists_nonzero (fun i => eig C i k)) as [[i [H1 H2]]|Z]; [now exists i|].
    exfalso. assert (Q := Ho C k k Hk Hk). rewrite Nat.eqb_refl, rsumn_zero in Q; [lra|]. intros i Hlt. cbn in Z. rewrite Z by assumption. ring.
  - intros H x [i0 [Hi0 Hx]]. rewrite cov_quad.
    destruct (exists_nonzero (fun k => rsumn dim (fun i => x i * eig C i k))) as [[k [H1 H2]]|Z].
    + apply rsumn_pos_one with (k := k); [|exact H1|].
      * intros i Hlt. apply Rmult_le_pos; [now apply Hv|apply pow2_ge_0].
      * apply Rmult_lt_0_compat; [now apply H|]. rewrite <- Rsqr_pow2; now apply Rsqr_pos_lt.
    + exfalso. apply Hx. exact (coords C x Z i0 Hi0).
Qed.
Lemma wp_cov_posdef wps k : (k < length wps)%nat ->
  (posdef dim (wp_cov dim inv eig wps k) <->
   forall c, (c < dim)%nat -> exists e, In e (others wps k) /\
     rsumn dim (fun i => eig (data_cov (del_col k (combined_centers wps))) i c * (e i - nth k wps vzero i)) <> 0).
Proof.
  intro Hk. unfold wp_cov. rewrite posdef_iff by (intros; apply proj_vals_nonneg).
  set (V := eig _). assert (En : nth k (combined_centers wps) vzero = nth k wps vzero) by (unfold combined_centers; now rewrite app_nth1).
  rewrite En, del_col_map.
  assert (G : forall c, 0 < proj_vals dim V (map (fun e => vminus e (nth k wps vzero)) (del_col k (combined_centers wps))) c <->
    exists e, In e (others wps k) /\ rsumn dim (fun i => V i c * (e i - nth k wps vzero i)) <> 0).
  { intro c. rewrite proj_vals_pos. destruct (combined_ext wps k) as [K1 K2]. split.
    - intros [o [H1 H2]]. apply in_map_iff in H1 as [e [<- He]]. destruct (K1 e He) as [e' [He' Ee]]. exists e'. split; [exact He'|].
      intro Z. apply H2. rewrite <- Z. apply rsumn_ext. intros i _. unfold vminus. now rewrite Ee.
    - intros [e' [He' H2]]. destruct (K2 e' He') as [e [He Ee]]. exists (vminus e (nth k wps vzero)). split; [apply in_map_iff; now exists e|].
      intro Z. apply H2. rewrite <- Z. apply rsumn_ext. intros i _. unfold vminus. now rewrite Ee. }
  split; intros H c Hc; apply G; auto.
Qed.
End Way.

(** * C82: when the wayarea covariance is positive definite
    Exactly when, for every column of the matrix of eigenvectors, some other
    centre is displaced from the waypoint along it. *)
Theorem C82_positive_definite_iff dim inv eig wps g k P :
  (forall C i j, (i < dim)%nat -> (j < dim)%nat -> rsumn dim (fun l => eig C l i * eig C l j) = if (i =? j)%nat then 1 else 0) ->
  (forall C, inverse_of dim (eig C) (inv (eig C))) ->
  convert_waypoints dim inv eig wps = Ok g -> nth_error (t_p g) k = Some P ->
  (posdef dim P <->
   forall c, (c < dim)%nat -> exists e, In e (others wps k) /\
     rsumn dim (fun i => eig (data_cov (del_col k (combined_centers wps))) i c * (e i - nth k wps vzero i)) <> 0).
Proof.
  intros Ho Hi H HP. unfold convert_waypoints in H. destruct wps as [|w0 wps']; [easy|]. destruct (dim =? 1)%nat; [easy|].
  remember (w0 :: wps') as wps eqn:Ew. injection H as <-. cbn [t_p] in HP.
  assert (Hk : (k < length wps)%nat).
  { assert (Q : nth_error (map (wp_cov dim inv eig wps) (seq 0 (length wps))) k <> None) by congruence.
    apply nth_error_Some in Q. now rewrite map_length, seq_length in Q. }
  rewrite (map_nth_error (wp_cov dim inv eig wps) k (seq 0 (length wps)) (d := k)) in HP.
  - injection HP as <-. now apply wp_cov_posdef.
  - rewrite nth_error_nth' with (d := 0%nat) by now rewrite seq_length. now rewrite seq_nth.
Qed.
(** In particular whenever the displacements of the other centres span the
    state space: no direction is orthogonal to all of them. *)
Theorem C82_spanning_centres_posdef dim inv eig wps g k P :
  (forall C i j, (i < dim)%nat -> (j < dim)%nat -> rsumn dim (fun l => eig C l i * eig C l j) = if (i =? j)%nat then 1 else 0) ->
  (forall C, inverse_of dim (eig C) (inv (eig C))) ->
  convert_waypoints dim inv eig wps = Ok g -> nth_error (t_p g) k = Some P ->
  (forall u, nonzero dim u -> exists e, In e (others wps k) /\ rsumn dim (fun i => u i * (e i - nth k wps vzero i)) <> 0) ->
  posdef dim P.
Proof.
  intros Ho Hi H HP Hs. apply (C82_positive_definite_iff dim inv eig wps g k P Ho Hi H HP). intros c Hc. set (C := data_cov _).
  apply (Hs (fun i => eig C i c)). destruct (exists_nonzero dim (fun i => eig C i c)) as [[i [H1 H2]]|Z]; [now exists i|].
  exfalso. assert (Q := Ho C c c Hc Hc). rewrite Nat.eqb_refl, rsumn_zero in Q; [lra|]. intros i Hlt. cbn in Z. rewrite Z by assumption. ring.
Qed.

(** * C83: what the axes of the wayarea are
    The columns of the matrix of eigenvectors (its rows are the principal
    axes), each with the largest displacement along it as eigenvalue; the two
    agree when that matrix is symmetric, as for axis-aligned data. *)
Theorem C83_axes_are_columns_partial dim inv eig wps g k P :
  (forall C i j, (i < dim)%nat -> (j < dim)%nat -> rsumn dim (fun l => eig C l i * eig C l j) = if (i =? j)%nat then 1 else 0) ->
  (forall C, inverse_of dim (eig C) (inv (eig C))) ->
  convert_waypoints dim inv eig wps = Ok g -> nth_error (t_p g) k = Some P ->
  let V := eig (data_cov (del_col k (combined_centers wps))) in
  forall c, (c < dim)%nat -> exists mu,
    greatest (map (fun e => Rabs (rsumn dim (fun i => V i c * (e i - nth k wps vzero i)))) (others wps k)) mu /\
    (forall i, (i < dim)%nat -> mapply dim P (fun j => V j c) i = mu * V i c) /\
    ((forall i j, (i < dim)%nat -> (j < dim)%nat -> V i j = V j i) ->
     forall i, (i < dim)%nat -> mapply dim P (V c) i = mu * V c i).
Proof.
  intros Ho Hi H HP V c Hc. unfold convert_waypoints in H. destruct wps as [|w0 wps']; [easy|]. destruct (dim =? 1)%nat; [easy|].
  remember (w0 :: wps') as wps eqn:Ew. injection H as <-. cbn [t_p] in HP.
  assert (Hk : (k < length wps)%nat).
  { assert (Q : nth_error (map (wp_cov dim inv eig wps) (seq 0 (length wps))) k <> None) by congruence.
    apply nth_error_Some in Q. now rewrite map_length, seq_length in Q. }
  rewrite (map_nth_error (wp_cov dim inv eig wps) k (seq 0 (length wps)) (d := k)) in HP
    by (rewrite nth_error_nth' with (d := 0%nat) by (now rewrite seq_length); now rewrite seq_nth).
  injection HP as <-.
  set (mu := proj_vals dim V (map (fun e => vminus e (nth k wps vzero)) (del_col k (combined_centers wps))) c).
  assert (En : nth k (combined_centers wps) vzero = nth k wps vzero) by (unfold combined_centers; now rewrite app_nth1).
  assert (EP : forall i, (i < dim)%nat -> mapply dim (wp_cov dim inv eig wps k) (fun j => V j c) i = mu * V i c).
  { intros i Hlt. unfold mapply, wp_cov. rewrite En, del_col_map.
    transitivity (rsumn dim (fun j => rsumn dim (fun l => V i l * proj_vals dim V (map (fun e => vminus e (nth k wps vzero)) (del_col k (combined_centers wps))) l * (V j l * V j c)))).
    - apply rsumn_ext. intros j Hj. rewrite cov_entries by assumption. fold V. rewrite rsumn_mult_r. apply rsumn_ext. intros. ring.
    - rewrite rsumn_swap.
      transitivity (rsumn dim (fun l => (V i l * proj_vals dim V (map (fun e => vminus e (nth k wps vzero)) (del_col k (combined_centers wps))) l) * (if (l =? c)%nat then 1 else 0))).
      + apply rsumn_ext. intros l Hl. rewrite <- rsumn_mult_l. f_equal. now apply Ho.
      + rewrite rsumn_delta with (f := fun l => V i l * _ l) by assumption. fold mu. ring. }
  exists mu. split; [|split; [exact EP|]].
  - unfold mu, proj_vals.
    assert (N : map (fun e => Rabs (rsumn dim (fun i => V i c * (e i - nth k wps vzero i)))) (others wps k)
      = map (fun o : vec => Rabs (rsumn dim (fun l => V l c * o l))) (map (fun e => vminus e (nth k wps vzero)) (others wps k))).
    { rewrite map_map. apply map_ext. intro e. reflexivity. }
    rewrite N. set (f := fun o : vec => Rabs (rsumn dim (fun l => V l c * o l))).
    assert (S1 : forall x, In x (map f (map (fun e => vminus e (nth k wps vzero)) (del_col k (combined_centers wps)))) <-> In x (map f (map (fun e => vminus e (nth k wps vzero)) (others wps k)))).
    { destruct (combined_ext wps k) as [K1 K2]. intro x. rewrite !map_map, !in_map_iff. split.
      - intros [e [<- He]]. destruct (K1 e He) as [e' [He' Ee]]. exists e'. split; [|exact He']. unfold f. f_equal. apply rsumn_ext. intros. unfold vminus. now rewrite Ee.
      - intros [e' [<- He']]. destruct (K2 e' He') as [e [He Ee]]. exists e. split; [|exact He]. unfold f. f_equal. apply rsumn_ext. intros. unfold vminus. now rewrite Ee. }
    apply greatest_perm with (l := map f (map (fun e => vminus e (nth k wps vzero)) (del_col k (combined_centers wps)))); [exact S1|].
    change (fold_left _ _ 0) with (max_dist (map f (map (fun e => vminus e (nth k wps vzero)) (del_col k (combined_centers wps))))).
    apply max_dist_greatest.
    + apply map_nonnil, map_nonnil. unfold del_col. intro Z. apply (f_equal (@length _)) in Z. rewrite app_length, firstn_length, skipn_length in Z.
      unfold combined_centers in Z. rewrite app_length in Z. cbn [length] in Z. lia.
    + intros x Hx. apply in_map_iff in Hx as [o [<- _]]. apply Rabs_pos.
  - intros Hs i Hlt. transitivity (mapply dim (wp_cov dim inv eig wps k) (fun j => V j c) i).
    + unfold mapply. apply rsumn_ext. intros j Hj. now rewrite (Hs c j).
    + rewrite EP by assumption. now rewrite (Hs c i).
Qed.
(** Three waypoints in the plane at which the hypotheses hold with the
    identity as matrix of eigenvectors: the first wayarea is positive definite. *)
Definition wq (x y : R) : vec := fun i => match i with O => x | 1%nat => y | _ => 0 end.
Example C82_ex : exists g P, convert_waypoints 2 (fun M => M) (fun _ => idm) [wq 0 0; wq 4 0; wq 0 2] = Ok g /\ nth_error (t_p g) 0 = Some P /\
  (forall i j, (i < 2)%nat -> (j < 2)%nat -> rsumn 2 (fun l => idm l i * idm l j) = if (i =? j)%nat then 1 else 0) /\ inverse_of 2 idm idm /\ posdef 2 P.
Proof.
  eexists. eexists. split; [reflexivity|]. split; [reflexivity|].
  assert (O : forall i j, (i < 2)%nat -> (j < 2)%nat -> rsumn 2 (fun l => idm l i * idm l j) = if (i =? j)%nat then 1 else 0) by apply idm_orth.
  assert (I : inverse_of 2 idm idm).
  { intros i j Hi Hj. rewrite <- O by assumption. apply rsumn_ext. intros k _. unfold idm. now rewrite (Nat.eqb_sym k i). }
  split; [exact O|]. split; [exact I|].
  eapply C82_spanning_centres_posdef with (wps := [wq 0 0; wq 4 0; wq 0 2]) (eig := fun _ => idm) (inv := fun M => M) (k := 0%nat);
    [intros _; exact O|intros _; exact I|reflexivity|reflexivity|].
  intros u [i [Hi Hu]]. destruct (Req_EM_T (u 0%nat) 0) as [E|E].
  - exists (wq 0 2). split; [right; now left|]. cbn. two i; lra.
  - exists (wq 4 0). split; [now left|]. cbn. lra.
Qed.

(** * C84: which objects can be iterated
    The control update of iterate works exactly when initialize took over none
    of the old objects. *)
Theorem C84_iterable_iff_none_taken dim inv chi2_ppf h thresh gs mg dyn invd nin nom objs rest : (1 <= h)%nat ->
  initialize dim inv chi2_ppf h thresh gs mg dyn invd nin nom = Ok (objs, rest) ->
  (iterate_ctrl_update objs = Ok tt <-> length rest = length gs).
Proof.
  intros Hh H. unfold initialize in H. destruct (t_m mg) as [|m ms] eqn:Em; [injection H as <- <-; now split|]. rewrite <- Em in H.
  assert (Hg : gs = map (fun j => nth j gs g0) (seq 0 (length gs))) by (symmetry; apply map_nth_seq).
  rewrite Hg in H. apply init_loop_spec in H as [src [L1 [L2 [L3 L4]]]]; [|apply seq_NoDup|intros j Hj; apply in_seq in Hj; lia].
  rewrite seq_length in L1, L2.
  assert (L4' : forall i, (i < length (t_m mg))%nat -> exists o, nth_error objs i = Some o /\
     (nth i src None = None <-> exists c, g_ctrl_input o = Some c) /\ forall j, nth i src None = Some j -> (j < length gs)%nat).
  { intros i Hlt. destruct (L4 i i) as [mean [cov [w [o' [M1 [M2 [M3 [M4 M5]]]]]]]].
    { rewrite nth_error_nth' with (d := 0%nat) by now rewrite seq_length. now rewrite seq_nth. }
    exists o'. split; [exact M4|]. destruct (nth i src None) as [j|].
    - destruct M5 as [Av [_ [_ [first Hm]]]]. apply matched_fields in Hm. destruct Hm as [_ [_ [_ [_ [_ [Hc _]]]]]]. split.
      + split; [easy|]. intros [c Hc']. congruence.
      + intros j' E. injection E as <-. destruct Av as [Av _]. apply in_seq in Av. lia.
    - destruct M5 as [_ [n [fs [is [un [-> _]]]]]]. split; [split; [intros _; now eexists|reflexivity]|easy]. }
  assert (Hr : length rest = length gs <-> forall j, (j < length gs)%nat -> existsb (takes j) src = false).
  { rewrite L3, map_length. split.
    - intros E j Hj. destruct (existsb (takes j) src) eqn:Et; [|reflexivity]. exfalso.
      assert (G : forall l, In j l -> (length (filter (fun j => negb (existsb (takes j) src)) l) < length l)%nat).
      { clear - Et. induction l as [|x l IH]; [easy|]. intros [->|Hin]; cbn [filter length].
        - rewrite Et. cbn [negb]. assert (Q : forall l', (length (filter (fun j => negb (existsb (takes j) src)) l') <= length l')%nat) by (induction l' as [|y l' IH']; cbn [filter length]; [lia|destruct (negb _); cbn [length]; lia]).
          specialize (Q l). lia.
        - specialize (IH Hin). destruct (negb _); cbn [length]; lia. }
      specialize (G (seq 0 (length gs))). rewrite seq_length in G. unfold leftover in E. specialize (G ltac:(apply in_seq; lia)). lia.
    - intros E. unfold leftover. rewrite <- (seq_length (length gs) 0) at 2. f_equal.
      transitivity (filter (fun _ => true) (seq 0 (length gs))); [|apply filter_all; reflexivity].
      apply filter_ext_in. intros j Hj. apply in_seq in Hj. rewrite E by lia. reflexivity. }
  rewrite Hr. unfold iterate_ctrl_update. split.
  - intros Hf j Hj. destruct (forallb _ objs) eqn:Ef; [|easy]. clear Hf. rewrite forallb_forall in Ef.
    destruct (existsb (takes j) src) eqn:Et; [|reflexivity]. exfalso. apply existsb_exists in Et as [s [Hs Ht]]. destruct s as [x|]; [|easy].
    apply In_nth_error in Hs as [i Hi]. assert (Hlt : (i < length (t_m mg))%nat) by (rewrite <- L1; apply nth_error_Some; congruence).
    destruct (L4' i Hlt) as [o [Ho [K1 _]]]. specialize (Ef o (nth_error_In _ _ Ho)). destruct (g_ctrl_input o) as [c|] eqn:Ec; [|easy].
    assert (Q : nth i src None = None) by (apply K1; now exists c). rewrite (nth_error_nth _ _ _ Hi) in Q. easy.
  - intro E. replace (forallb _ objs) with true; [reflexivity|]. symmetry. apply forallb_forall. intros o Hin.
    apply In_nth_error in Hin as [i Hi]. assert (Hlt : (i < length (t_m mg))%nat) by (rewrite <- L2; apply nth_error_Some; congruence).
    destruct (L4' i Hlt) as [o' [Ho [K1 K2]]]. rewrite Hi in Ho. injection Ho as <-.
    destruct (nth i src None) as [j|] eqn:Es.
    + exfalso. specialize (E j (K2 j eq_refl)). rewrite <- Bool.not_true_iff_false in E. apply E. apply existsb_exists. exists (Some j).
      split; [rewrite <- Es; apply nth_In; lia|]. cbn. apply Nat.eqb_refl.
    + destruct (proj1 K1 eq_refl) as [c ->]. reflexivity.
Qed.
(** A first initialize takes over nothing, so it can be iterated. *)
Example C84_iterable_ex : exists objs, initialize 1 (fun M => M) (fun _ _ => 5) 3 (1 / 2) [] ex_mg [[]; []] [[]; []] [1%nat; 1%nat] None = Ok (objs, [])
  /\ length objs = 2%nat /\ iterate_ctrl_update objs = Ok tt.
Proof.
  eexists. split; [reflexivity|]. split; reflexivity.
Qed.

Print Assumptions C82_positive_definite_iff.
Print Assumptions C82_spanning_centres_posdef.
Print Assumptions C83_axes_are_columns_partial.
Print Assumptions C84_iterable_iff_none_taken.
