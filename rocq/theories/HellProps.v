(** C138 in every dimension: the HELLINGER core of calculate_ospa
    (utilities/distributions.py:354-365) between Gaussians with positive definite
    covariances, and OSPA values computed with it. *)
From Verif Require Import Base OspaModel OspaSpec OspaProofs OspaMetric OspaProps HellSpec HellDet.
From Coq Require Import Reals List Arith Lia Lra FunctionalExtensionality.
Import ListNotations.
Local Open Scope R_scope.

(** The entry for two Gaussians: symmetric, within [0, 1), and 0 exactly for equal
    distributions. *)
Theorem C138_hellinger_core : forall dim inv det x y P Q,
  inv_ok dim inv -> det_ok dim det -> cv x = Some P -> cv y = Some Q -> positive_definite dim P -> positive_definite dim Q ->
  exists d, core dim inv det Hellinger x y = Some d /\ core dim inv det Hellinger y x = Some d /\
    d = 1 - sqrt (sqrt (det P * det Q) / det (fun i j => (P i j + Q i j) / 2)) * exp (- / 4 * quad dim (inv (fun i j => P i j + Q i j)) (fun i => st x i - st y i)) /\
    0 <= d < 1 /\ (d = 0 <-> same_gaussian dim x y).
Proof.
  intros dim inv det x y P Q HI HD EP EQ PP PQ.
  assert (EM : forall A B : rmat, madd A B = madd B A) by (intros; unfold madd; do 2 (apply functional_extensionality; intro); ring).
  assert (HM : mscale (/ 2) (madd P Q) = mid P Q) by reflexivity.
  assert (HM2 : (fun i j => (P i j + Q i j) / 2) = mid P Q) by (unfold mid; do 2 (apply functional_extensionality; intro); field).
  pose proof (pd_mid dim P Q PP PQ) as PM.
  assert (PS : positive_definite dim (madd P Q)).
  { split; [intros i j Hi Hj; unfold madd; rewrite (proj1 PP i j), (proj1 PQ i j) by assumption; reflexivity|].
    intros z Hz. unfold madd. rewrite quad_add. pose proof (proj2 PP z Hz). pose proof (proj2 PQ z Hz). lra. }
  set (dd := fun i => st x i - st y i). set (q := quad dim (inv (madd P Q)) dd).
  set (s := sqrt (sqrt (det P * det Q) / det (mid P Q))).
  destruct (quad_inv dim inv (madd P Q) dd HI PS) as [Q0 Q1]. fold q in Q0, Q1.
  assert (FQ : core dim inv det Hellinger x y = Some (1 - s * exp (- / 4 * q))).
  { unfold core. rewrite EP, EQ. fold dd. fold q. rewrite HM, (proj1 (proj2 HD)). reflexivity. }
  assert (FR : core dim inv det Hellinger y x = Some (1 - s * exp (- / 4 * q))).
  { unfold core. rewrite EP, EQ. rewrite (EM Q P), HM, (proj1 (proj2 HD)), (Rmult_comm (det Q)). fold s. do 4 f_equal. f_equal.
    unfold q, quad, dd. apply rsumn_ext. intros j _.
    rewrite (rsumn_ext dim _ (fun i => (-1) * ((st x i - st y i) * inv (madd P Q) i j))) by (intros; ring). rewrite rs_scal. ring. }
  exists (1 - s * exp (- / 4 * q)). split; [exact FQ|]. split; [exact FR|]. split; [rewrite HM2; reflexivity|].
  pose proof (det_piv dim det P HD PP) as DP. pose proof (det_piv dim det Q HD PQ) as DQ. pose proof (det_piv dim det _ HD PM) as DM.
  pose proof (piv_pos dim P PP) as P0. pose proof (piv_pos dim Q PQ) as Q0'. pose proof (piv_pos dim _ PM) as M0.
  destruct (piv_mid dim P Q PP PQ) as [C1 C2]. rewrite <- DP, <- DQ, <- DM in *.
  set (u := det P * det Q) in *. set (m := det (mid P Q)) in *.
  assert (U0 : 0 < u) by (apply Rmult_lt_0_compat; assumption).
  assert (R0 : 0 < sqrt u) by (apply sqrt_lt_R0; exact U0).
  assert (R1 : sqrt u <= m) by (rewrite <- (sqrt_pow2 m) by lra; apply sqrt_le_1; lra).
  assert (T0 : 0 < sqrt u / m) by (apply Rmult_lt_0_compat; [exact R0|apply Rinv_0_lt_compat; exact M0]).
  assert (T1 : sqrt u / m <= 1) by (apply Rmult_le_reg_r with m; [exact M0|]; unfold Rdiv; rewrite Rmult_assoc, Rinv_l by lra; lra).
  assert (S0 : 0 < s) by (apply sqrt_lt_R0; exact T0).
  assert (S1 : s <= 1) by (unfold s; rewrite <- sqrt_1; apply sqrt_le_1; lra).
  assert (X0 : 0 < exp (- / 4 * q)) by apply exp_pos.
  assert (X1 : exp (- / 4 * q) <= 1).
  { assert (- / 4 * q <= 0) as [H|H] by lra; [rewrite <- exp_0; left; apply exp_increasing; exact H|rewrite H, exp_0; lra]. }
  assert (SX0 : 0 < s * exp (- / 4 * q)) by (apply Rmult_lt_0_compat; assumption).
  assert (SX1 : s * exp (- / 4 * q) <= 1) by (rewrite <- (Rmult_1_l 1); apply Rmult_le_compat; lra).
  split; [lra|]. split.
  - intros Z. destruct (mult_ge_eq s 1 (exp (- / 4 * q)) 1 S0 S1 X0 X1) as [_ ME]. destruct ME as [E1 E2]; [lra|].
    assert (q = 0) as Eq by (assert (- / 4 * q = 0) by (apply exp_inv; rewrite exp_0; exact E2); lra).
    assert (sqrt u / m = 1) as Er by (rewrite <- (sqrt_sqrt (sqrt u / m)) by lra; fold s; rewrite E1; ring).
    assert (Em : sqrt u = m) by (apply Rmult_eq_reg_r with (/ m); [rewrite Rinv_r by lra; exact Er|apply Rinv_neq_0_compat; lra]).
    assert (Eu : u = m ^ 2) by (rewrite <- Em; cbn [pow]; rewrite Rmult_1_r, sqrt_sqrt; lra).
    split; [intros i Hi; specialize (Q1 Eq i Hi); unfold dd in Q1; lra|].
    intros P' Q' EP' EQ'. rewrite EP in EP'. rewrite EQ in EQ'. injection EP' as <-. injection EQ' as <-. exact (C2 Eu).
  - intros [G1 G2]. specialize (G2 P Q EP EQ).
    assert (Eq : q = 0) by (unfold q; apply quad_zero; intros i Hi; unfold dd; rewrite G1 by exact Hi; ring).
    assert (ED : det P = m) by (unfold m; apply (proj1 HD); intros i j Hi Hj; unfold mid; rewrite <- G2 by assumption; field).
    assert (ED' : det Q = m) by (unfold m; apply (proj1 HD); intros i j Hi Hj; unfold mid; rewrite G2 by assumption; field).
    assert (Es : s = 1). { unfold s, u. rewrite ED, ED', sqrt_square by lra. unfold Rdiv. rewrite Rinv_r by lra. apply sqrt_1. }
    rewrite Es, Eq. rewrite Rmult_0_r, exp_0. ring.
Qed.

(** OSPA with a core that behaves well on a class of objects. *)
Section Good.
Variables (dim : nat) (inv : rmat -> rmat) (det : rmat -> R) (lsa : nat -> nat -> (nat -> nat -> option R) -> result (list (nat * nat))).
Hypothesis Hlsa : lsa_ok lsa.
Variables (me : method) (c : R) (good : obj -> Prop).
Hypothesis Hc : 0 <= c.
Hypothesis Hpair : forall x y, good x -> good y -> exists v, core dim inv det me x y = Some v /\ core dim inv det me y x = Some v /\ 0 <= v.
Hypothesis Hself : forall x, good x -> core dim inv det me x x = Some 0.
Definition gslots (l : list slot) : Prop := forall x, In (Some x) l -> good x.
Notation de := (dist_entry dim inv det me c true).

Lemma good_entry e t : (forall x, e = Some x -> good x) -> (forall x, t = Some x -> good x) ->
  exists v, de e t = Some v /\ de t e = Some v /\ 0 <= v <= c.
Proof.
  intros He Ht. unfold dist_entry. destruct e as [x|], t as [y|].
  - destruct (Hpair x y) as [v [E1 [E2 E3]]]; [auto|auto|]. rewrite E1, E2. cbn. exists (Rmin v c). repeat split; [apply Rmin_glb; assumption|apply Rmin_r].
  - cbn. exists (Rmin c c). rewrite Rmin_left by lra. repeat split; lra.
  - cbn. exists (Rmin c c). rewrite Rmin_left by lra. repeat split; lra.
  - cbn. exists (Rmin 0 c). rewrite Rmin_left by lra. repeat split; lra.
Qed.
Lemma good_entry_self e : (forall x, e = Some x -> good x) -> de e e = Some 0.
Proof. intros He. unfold dist_entry. destruct e as [x|]; [rewrite Hself by auto|]; cbn; rewrite Rmin_left by lra; reflexivity. Qed.
Lemma gslots_nth l i x : gslots l -> nth i l None = Some x -> good x.
Proof. intros H E. apply H. destruct (Nat.lt_ge_cases i (length l)) as [Hi|Hi]; [rewrite <- E; apply nth_In, Hi|rewrite nth_overflow in E by exact Hi; discriminate]. Qed.
Lemma good_dm es ts i j : gslots es -> gslots ts -> exists v, dmat dim inv det me c true es ts i j = Some v /\ dmat dim inv det me c true ts es j i = Some v /\ 0 <= v <= c.
Proof. intros H1 H2. unfold dmat. apply good_entry; intros x; eauto using gslots_nth. Qed.

Lemma good_step p es ts : (1 <= p)%nat -> gslots es -> gslots ts -> exists l k,
  ospa_step dim inv det lsa me c p true es ts = Ok (l, k) /\ ospa_step dim inv det lsa me c p true ts es = Ok (l, k) /\
  0 <= l <= c /\ 0 <= k <= c /\ (p = 1%nat -> l + k <= c).
Proof.
  intros Hp H1 H2. pose proof (fun i j => good_dm es ts i j H1 H2) as D.
  destruct (step_cases dim inv det lsa Hlsa me c p true es ts) as [[A E]|[[A E]|[[A [[i [j [Hi [Hj Hn]]]] E]]|[A [Hn [v [Hv E]]]]]]].
  - exists 0, 0. split; [exact E|]. split; [apply step_00; tauto|]. repeat split; lra.
  - exists 0, c. split; [exact E|]. split; [apply step_one; tauto|]. repeat split; lra.
  - exfalso. destruct (D i j) as [w [E1 _]]. congruence.
  - destruct (step_ok dim inv det lsa Hlsa me c p true ts es) as [v' [Hv' E']]; [tauto|tauto| |].
    { intros i j _ _. destruct (D j i) as [w [_ [E1 _]]]. congruence. }
    set (m := count es) in *. set (n := count ts) in *.
    assert (v = v').
    { apply least_cost_flip in Hv. eapply least_cost_unique; [|exact Hv|exact Hv']. intros i j _ _. cbn beta. destruct (D j i) as [w [E1 [E2 _]]]. rewrite E1, E2. reflexivity. }
    subst v'. eexists _, _. split; [exact E|]. split.
    { rewrite E', (Nat.max_comm n m). replace (absdiff n m) with (absdiff m n) by (unfold absdiff; lia). reflexivity. }
    pose proof (max_pos m n ltac:(lia)) as HM.
    assert (B : 0 <= v <= INR (Nat.min m n) * c ^ p).
    { apply (least_bounds _ _ _ _ _ Hv). intros i j _ _. apply pow_bounds. destruct (D i j) as [w [E1 [_ E2]]]. rewrite E1. exact E2. }
    assert (Cp : 0 <= c ^ p) by (apply pow_le; exact Hc).
    assert (B1 : 0 <= v / INR (Nat.max m n) <= c ^ p).
    { apply (frac_bound v (c ^ p) (INR (Nat.min m n))); auto. split; [apply pos_INR|apply le_INR; lia]. }
    assert (B2 : 0 <= c ^ p * INR (absdiff m n) / INR (Nat.max m n) <= c ^ p).
    { apply (frac_bound _ (c ^ p) (INR (absdiff m n))); auto; [split; [apply pos_INR|apply le_INR; unfold absdiff; lia]|].
      pose proof (pos_INR (absdiff m n)) as X. pose proof (Rmult_le_pos _ _ Cp X). split; [exact H|right; ring]. }
    assert (T : forall z, 0 <= z <= c ^ p -> root p z <= c).
    { intros z Hz. rewrite <- (root_pow p c Hp Hc). apply root_le; tauto. }
    repeat split; try apply root_nonneg; try (apply T; assumption).
    intros ->. rewrite pow_1 in *. rewrite !root_1 by lra.
    assert (S1 : INR (Nat.max m n) = INR (Nat.min m n) + INR (absdiff m n)) by (rewrite <- plus_INR; f_equal; unfold absdiff; lia).
    apply Rmult_le_reg_r with (INR (Nat.max m n)); [lra|]. unfold Rdiv. rewrite Rmult_plus_distr_r, !Rmult_assoc, !Rinv_l by lra. rewrite S1. lra.
Qed.
Lemma good_step_self p es : (1 <= p)%nat -> gslots es -> ospa_step dim inv det lsa me c p true es es = Ok (0, 0).
Proof.
  intros Hp H1. pose proof (fun i j => good_dm es es i j H1 H1) as D.
  destruct (step_cases dim inv det lsa Hlsa me c p true es es) as [[A E]|[[A E]|[[A [[i [j [Hi [Hj Hn]]]] E]]|[A [Hn [v [Hv E]]]]]]]; [exact E|lia| |].
  - exfalso. destruct (D i j) as [w [E1 _]]. congruence.
  - rewrite E. set (m := count es) in *.
    assert (V : v = 0).
    { apply Rle_antisym.
      - destruct Hv as [_ Hm]. eapply Rle_trans; [apply (Hm _ (assignment_id m m))|]. right. unfold cost. rewrite map_map. cbn [fst snd].
        rewrite Nat.min_id. rewrite (rsum_ext _ (fun _ => 0)); [rewrite rsum_const; ring|]. intros i Hi.
        unfold dmat. rewrite good_entry_self by (intros x; apply gslots_nth, H1). cbn [val]. apply pow_i. lia.
      - apply (least_bounds _ _ _ _ (c ^ p) Hv). intros i j _ _. apply pow_bounds. destruct (D i j) as [w [E1 [_ E2]]]. rewrite E1. exact E2. }
    subst v. unfold Rdiv. rewrite Rmult_0_l, root_0. replace (absdiff m m) with 0%nat by (unfold absdiff; lia). cbn [INR].
    rewrite Rmult_0_r, Rmult_0_l, root_0. reflexivity.
Qed.
End Good.

Definition pd_obj (dim : nat) (x : obj) : Prop := exists P, cv x = Some P /\ positive_definite dim P.
Lemma hell_pair dim inv det : inv_ok dim inv -> det_ok dim det -> forall x y, pd_obj dim x -> pd_obj dim y ->
  exists v, core dim inv det Hellinger x y = Some v /\ core dim inv det Hellinger y x = Some v /\ 0 <= v.
Proof. intros HI HD x y [P [EP PP]] [Q [EQ PQ]]. destruct (C138_hellinger_core dim inv det x y P Q HI HD EP EQ PP PQ) as [d [E1 [E2 [_ [E3 _]]]]]. exists d. repeat split; [assumption|assumption|lra]. Qed.
Lemma hell_self dim inv det : inv_ok dim inv -> det_ok dim det -> forall x, pd_obj dim x -> core dim inv det Hellinger x x = Some 0.
Proof.
  intros HI HD x [P [EP PP]]. destruct (C138_hellinger_core dim inv det x x P P HI HD EP EP PP PP) as [d [E1 [_ [_ [_ E3]]]]]. rewrite E1. f_equal. apply E3.
  split; [reflexivity|]. intros P1 P2 H1 H2. rewrite H1 in H2. injection H2 as ->. reflexivity.
Qed.
Lemma gaussian_slots dim a t : gaussian_array dim a -> gslots (pd_obj dim) (nth t a []).
Proof.
  intros H x Hx. destruct (Nat.lt_ge_cases t (length a)) as [Ht|Ht]; [|rewrite nth_overflow in Hx by exact Ht; destruct Hx].
  exact (H (nth t a []) x (nth_In _ _ Ht) Hx).
Qed.
Lemma gaussian_in dim a l : gaussian_array dim a -> In l a -> gslots (pd_obj dim) l.
Proof. intros H Hl x Hx. exact (H l x Hl Hx). Qed.
Lemma cut_pos c : 0 <= c -> 0 <= Rmin 1 c.
Proof. intros. apply Rmin_glb; lra. Qed.

(** OSPA between arrays of Gaussians with the HELLINGER core: defined, within the
    cut-off (which becomes min 1 c), ... *)
Theorem C138_hellinger_bounded : forall dim inv det lsa est tru c p ecov,
  inv_ok dim inv -> det_ok dim det -> lsa_ok lsa -> gaussian_array dim est -> gaussian_array dim tru ->
  0 <= c -> (1 <= p)%nat -> (length tru <= length est)%nat ->
  exists r, calculate_ospa dim inv det lsa est tru c p true (Some Hellinger) true ecov = Ok (r, Hellinger, Rmin 1 c) /\ length r = length tru /\
    forall lc, In lc r -> 0 <= fst lc <= Rmin 1 c /\ 0 <= snd lc <= Rmin 1 c /\ (p = 1%nat -> ospa_val lc <= Rmin 1 c).
Proof.
  intros dim inv det lsa est tru c p ecov HI HD HL GE GT Hc Hp Hlen. pose proof (cut_pos c Hc) as Hc'.
  pose proof (hell_pair dim inv det HI HD) as HP.
  unfold calculate_ospa. cbn [ospa_method ospa_cut].
  destruct (mapM_all_ok (fun et => ospa_step dim inv det lsa Hellinger (Rmin 1 c) p true (fst et) (snd et)) (combine est tru)) as [r Er].
  { intros [e t] Hin. pose proof (in_combine_l _ _ _ _ Hin). pose proof (in_combine_r _ _ _ _ Hin). cbn [fst snd].
    destruct (good_step dim inv det lsa HL Hellinger (Rmin 1 c) (pd_obj dim) Hc' HP p e t Hp) as [l [k [E _]]]; eauto using gaussian_in. }
  rewrite Er. cbn [bind]. destruct (Nat.ltb_spec (length est) (length tru)) as [X|X]; [lia|]. exists r. split; [reflexivity|].
  apply mapM_ok in Er. pose proof (proj1 (Forall2_nth _ _ _ Er)) as Ln. rewrite combine_length in Ln. split; [lia|].
  intros lc Hin. assert (EX : exists et, In et (combine est tru) /\ ospa_step dim inv det lsa Hellinger (Rmin 1 c) p true (fst et) (snd et) = Ok lc).
  { clear -Er Hin. induction Er as [|a b l1 l2 H1 H2 IH]; [destruct Hin|]. destruct Hin as [<-|Hin]; [exists a; split; [left; reflexivity|exact H1]|].
    destruct (IH Hin) as [et [H3 H4]]. exists et. split; [right; exact H3|exact H4]. }
  destruct EX as [[e t] [Hin' E]]. pose proof (in_combine_l _ _ _ _ Hin'). pose proof (in_combine_r _ _ _ _ Hin'). cbn [fst snd] in E.
  destruct (good_step dim inv det lsa HL Hellinger (Rmin 1 c) (pd_obj dim) Hc' HP p e t Hp) as [l [k [E' [_ [B1 [B2 B3]]]]]]; eauto using gaussian_in.
  rewrite E in E'. injection E' as ->. cbn [fst snd]. unfold ospa_val. cbn [fst snd]. auto.
Qed.
(** ... symmetric, ... *)
Theorem C138_hellinger_symmetric : forall dim inv det lsa est tru c p ecov,
  inv_ok dim inv -> det_ok dim det -> lsa_ok lsa -> gaussian_array dim est -> gaussian_array dim tru ->
  0 <= c -> (1 <= p)%nat -> length est = length tru ->
  calculate_ospa dim inv det lsa est tru c p true (Some Hellinger) true ecov = calculate_ospa dim inv det lsa tru est c p true (Some Hellinger) true ecov.
Proof.
  intros dim inv det lsa est tru c p ecov HI HD HL GE GT Hc Hp Hlen. pose proof (cut_pos c Hc) as Hc'.
  pose proof (hell_pair dim inv det HI HD) as HP.
  unfold calculate_ospa. cbn [ospa_method ospa_cut]. rewrite Hlen, Nat.ltb_irrefl. f_equal.
  clear Hc. revert tru GT Hlen. induction est as [|e est IH]; intros [|t tru] GT Hlen; try discriminate; [reflexivity|]. cbn [combine mapM fst snd].
  destruct (good_step dim inv det lsa HL Hellinger (Rmin 1 c) (pd_obj dim) Hc' HP p e t Hp) as [l [k [E1 [E2 _]]]].
  { apply (gaussian_in dim _ e GE). left; reflexivity. } { apply (gaussian_in dim _ t GT). left; reflexivity. }
  rewrite E1, E2. cbn [bind]. rewrite IH; [reflexivity| | |cbn in Hlen; lia].
  - intros l0 x H1 H2. eapply GE; [right; exact H1|exact H2].
  - intros l0 x H1 H2. eapply GT; [right; exact H1|exact H2].
Qed.
(** ... 0 between a set and itself, ... *)
Theorem C138_hellinger_self_zero : forall dim inv det lsa est c p ecov,
  inv_ok dim inv -> det_ok dim det -> lsa_ok lsa -> gaussian_array dim est -> 0 <= c -> (1 <= p)%nat ->
  calculate_ospa dim inv det lsa est est c p true (Some Hellinger) true ecov = Ok (map (fun _ => (0, 0)) est, Hellinger, Rmin 1 c).
Proof.
  intros dim inv det lsa est c p ecov HI HD HL GE Hc Hp. pose proof (cut_pos c Hc) as Hc'.
  pose proof (hell_pair dim inv det HI HD) as HP. pose proof (hell_self dim inv det HI HD) as HS.
  unfold calculate_ospa. cbn [ospa_method ospa_cut]. rewrite Nat.ltb_irrefl.
  assert (E : mapM (fun et => ospa_step dim inv det lsa Hellinger (Rmin 1 c) p true (fst et) (snd et)) (combine est est) = Ok (map (fun _ => (0, 0)) est)).
  { clear Hc. induction est as [|e est IH]; [reflexivity|]. cbn [combine mapM map fst snd].
    rewrite (good_step_self dim inv det lsa HL Hellinger (Rmin 1 c) (pd_obj dim) Hc' HP HS p e Hp) by (apply (gaussian_in dim _ e GE); left; reflexivity).
    cbn [bind]. rewrite IH; [reflexivity|]. intros l0 x H1 H2. eapply GE; [right; exact H1|exact H2]. }
  rewrite E. reflexivity.
Qed.
(** ... and 0 only between equal sets (objects in the leading slots, see C26). *)
Theorem C138_hellinger_zero_only_if_equal : forall dim inv det lsa est tru c p ecov r me' c' t,
  inv_ok dim inv -> det_ok dim det -> lsa_ok lsa -> gaussian_array dim est -> gaussian_array dim tru -> 0 < c -> (1 <= p)%nat ->
  calculate_ospa dim inv det lsa est tru c p true (Some Hellinger) true ecov = Ok (r, me', c') -> (t < length tru)%nat ->
  prefix_slots (nth t est []) -> prefix_slots (nth t tru []) ->
  ospa_val (nth t r (0, 0)) = 0 ->
  let X := present (nth t est []) in let Y := present (nth t tru []) in
  length X = length Y /\ exists a, assignment (length X) (length Y) a /\
    forall i j x0, In (i, j) a -> same_gaussian dim (nth i X x0) (nth j Y x0).
Proof.
  intros dim inv det lsa est tru c p ecov r me' c' t HI HD HL GE GT Hc Hp E Ht P1 P2 Hz X Y.
  pose proof (C26_ospa_prefix_slots_partial _ _ _ _ _ _ _ _ _ _ _ _ _ _ _ t HL E Ht P1 P2) as H. fold X Y in H.
  apply calc_ok in E as [-> [-> _]]. cbn [ospa_method ospa_cut] in *.
  assert (Hc' : 0 < Rmin 1 c) by (apply Rmin_glb_lt; lra).
  assert (GX : forall x, In x X -> pd_obj dim x).
  { intros x Hx. apply (gaussian_slots dim est t GE). unfold X, present in Hx. clear -Hx. induction (nth t est []) as [|[y|] l IH]; cbn in Hx; [destruct Hx|destruct Hx as [->|Hx]; [left; reflexivity|right; apply IH, Hx]|right; apply IH, Hx]. }
  assert (GY : forall x, In x Y -> pd_obj dim x).
  { intros x Hx. apply (gaussian_slots dim tru t GT). unfold Y, present in Hx. clear -Hx. induction (nth t tru []) as [|[y|] l IH]; cbn in Hx; [destruct Hx|destruct Hx as [->|Hx]; [left; reflexivity|right; apply IH, Hx]|right; apply IH, Hx]. }
  set (d := fun x y => Rabs (val (core dim inv det Hellinger x y))).
  assert (D : forall x y, In x X -> In y Y -> exists w, core dim inv det Hellinger x y = Some w /\ d x y = w /\ (w = 0 -> same_gaussian dim x y)).
  { intros x y Hx Hy. destruct (GX x Hx) as [P [EP PP]], (GY y Hy) as [Q [EQ PQ]].
    destruct (C138_hellinger_core dim inv det x y P Q HI HD EP EQ PP PQ) as [w [E1 [_ [_ [E2 E3]]]]]. exists w. split; [exact E1|]. split; [unfold d; rewrite E1; cbn [val]; apply Rabs_right; lra|tauto]. }
  assert (H' : ospa_of_sets d (Rmin 1 c) p X Y (fst (nth t r (0, 0))) (snd (nth t r (0, 0)))).
  { clearbody X Y. destruct X as [|x0 X], Y as [|y0 Y]; try exact H. cbn [ospa_of_sets] in *. destruct H as [v [Hv HR]]. exists v. split; [|exact HR].
    refine (least_cost_ext _ _ _ _ _ _ Hv). intros i j Hi Hj. cbn beta. destruct (D (nth i (x0 :: X) x0) (nth j (y0 :: Y) y0) (nth_In _ _ Hi) (nth_In _ _ Hj)) as [w [E1 [E2 _]]].
    rewrite E2. f_equal. f_equal. rewrite E1. reflexivity. }
  destruct (ospa_sets_zero d (Rmin 1 c) p X Y _ _ ltac:(intros; apply Rabs_pos) Hc' Hp H' Hz) as [HLn [a [Ha Hx]]]. split; [exact HLn|]. exists a. split; [exact Ha|].
  intros i j x0 Hij. specialize (Hx i j x0 Hij).
  assert (Hij' : (i < length X)%nat /\ (j < length Y)%nat).
  { destruct Ha as [_ [_ [HB _]]]. exact (HB i j Hij). }
  destruct (D (nth i X x0) (nth j Y x0)) as [w [_ [E2 E3]]]; [apply nth_In; tauto|apply nth_In; tauto|]. apply E3. rewrite <- E2. exact Hx.
Qed.

(** The contracts are met by the textbook formulas in two dimensions, and a
    correlated covariance is positive definite. *)
Definition det2 (A : rmat) : R := A 0%nat 0%nat * A 1%nat 1%nat - A 0%nat 1%nat * A 1%nat 0%nat.
Definition inv2 (A : rmat) : rmat := fun i j =>
  match i, j with
  | O, O => A 1%nat 1%nat / det2 A | O, _ => - A 0%nat 1%nat / det2 A
  | _, O => - A 1%nat 0%nat / det2 A | _, _ => A 0%nat 0%nat / det2 A end.
Definition cov2 (a b c : R) : rmat := fun i j => match i, j with O, O => a | S _, S _ => c | _, _ => b end.
Example C138_det_contract : det_ok 2 det2.
Proof.
  split; [|split].
  - intros A B H. unfold det2. rewrite !H by lia. reflexivity.
  - intros A B. unfold det2, mprod. cbn [rsumn]. ring.
  - intros A H. unfold det2. cbn [rprodn]. destruct H as [H|H]; rewrite (H _ _ ltac:(split; [apply Nat.lt_0_1|lia])); ring.
Qed.
Example C138_inv_contract : inv_ok 2 inv2.
Proof.
  intros A PD. pose proof (piv_pos 2 A PD) as H. pose proof (pd_pivot 1 A PD) as Ha. cbn [piv] in H. unfold schur in H.
  assert (D : det2 A <> 0). { unfold det2. intros Z. replace (A 0%nat 0%nat * ((A 1%nat 1%nat - A 1%nat 0%nat * A 0%nat 1%nat / A 0%nat 0%nat) * 1)) with (A 0%nat 0%nat * A 1%nat 1%nat - A 0%nat 1%nat * A 1%nat 0%nat) in H by (field; lra). lra. }
  assert (D' : A 0%nat 0%nat * A 1%nat 1%nat - A 0%nat 1%nat * A 1%nat 0%nat <> 0) by exact D.
  intros [|[|i]] [|[|j]] Hi Hj; try lia; unfold mprod; cbn [rsumn inv2 Nat.eqb]; unfold det2; field; exact D'.
Qed.
Lemma cov2_pd a b c : 0 < a -> b * b < a * c -> positive_definite 2 (cov2 a b c).
Proof.
  intros Ha Hd. split; [intros [|[|i]] [|[|j]] Hi Hj; try lia; reflexivity|]. intros x [i [Hi Hx]]. unfold quad. cbn [rsumn cov2].
  assert (E : a * (0 + (0 + x 0%nat * a + x 1%nat * b) * x 0%nat + (0 + x 0%nat * b + x 1%nat * c) * x 1%nat)
    = (a * x 0%nat + b * x 1%nat) * (a * x 0%nat + b * x 1%nat) + (a * c - b * b) * (x 1%nat * x 1%nat)) by ring.
  apply Rmult_lt_reg_l with a; [exact Ha|]. rewrite Rmult_0_r, E. pose proof (Rle_0_sqr (a * x 0%nat + b * x 1%nat)) as S1. unfold Rsqr in S1.
  destruct (Req_EM_T (x 1%nat) 0) as [Z|Z].
  - rewrite Z in *. destruct i as [|[|i]]; [|contradiction|lia]. assert (0 < (a * x 0%nat) * (a * x 0%nat)).
    { change (0 < Rsqr (a * x 0%nat)). apply Rlt_0_sqr. apply Rmult_integral_contrapositive_currified; [lra|exact Hx]. } lra.
  - assert (0 < x 1%nat * x 1%nat) by (change (0 < Rsqr (x 1%nat)); apply Rlt_0_sqr, Z). assert (0 < (a * c - b * b) * (x 1%nat * x 1%nat)) by (apply Rmult_lt_0_compat; lra). lra.
Qed.
Example C138_all_dims_ex : exists r, calculate_ospa 2 inv2 det2 brute_lsa
    [[Some {| st := fun _ => 1; cv := Some (cov2 2 1 2) |}; None]] [[Some {| st := fun _ => 0; cv := Some (cov2 1 0 3) |}; Some {| st := fun _ => 5; cv := Some (cov2 1 (-1) 2) |}]]
    (1 / 2) 2 true (Some Hellinger) true true = Ok (r, Hellinger, Rmin 1 (1 / 2)) /\ length r = 1%nat.
Proof.
  destruct (C138_hellinger_bounded 2 inv2 det2 brute_lsa
    [[Some {| st := fun _ => 1; cv := Some (cov2 2 1 2) |}; None]] [[Some {| st := fun _ => 0; cv := Some (cov2 1 0 3) |}; Some {| st := fun _ => 5; cv := Some (cov2 1 (-1) 2) |}]]
    (1 / 2) 2 true C138_inv_contract C138_det_contract brute_lsa_ok) as [r [E [L _]]]; [| |lra|lia|cbn; lia|exists r; split; assumption].
  - intros l x [<-|[]] [H|[H|[]]]; [|discriminate]. injection H as <-. eexists. split; [reflexivity|]. apply cov2_pd; lra.
  - intros l x [<-|[]] [H|[H|[]]]; injection H as <-; eexists; (split; [reflexivity|apply cov2_pd; lra]).
Qed.

Print Assumptions C138_hellinger_core.
Print Assumptions C138_hellinger_bounded.
Print Assumptions C138_hellinger_symmetric.
Print Assumptions C138_hellinger_self_zero.
Print Assumptions C138_hellinger_zero_only_if_equal.
