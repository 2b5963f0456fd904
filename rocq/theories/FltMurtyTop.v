(** murty_m_best in rounded arithmetic, whole function. *)
From Verif Require Import RBase RHungModel RHungSpec RHungProofs RMurtyModel RMurtySpec RMurtyProofs
  FltModel FltSpec FltHung FltAssign FltMurtyModel FltMurtySpec FltMurty.
From Coq Require Import Permutation FunctionalExtensionality.
Local Open Scope R_scope.

(** Sum of entries bounded by K. *)
Lemma sum_bound (e : nat -> nat -> ext) (K : R) l : 0 <= K ->
  (forall r c, In (r, c) l -> 0 <= fin_val (e r c) <= K) ->
  0 <= rsum (map (fun rc => fin_val (e (fst rc) (snd rc))) l) <= INR (length l) * K.
Proof.
  intros K0. induction l as [|[r c] l IH]; intros H.
  - cbn [map length INR]. change (rsum []) with 0. lra.
  - cbn [map length fst snd]. rewrite S_INR. change (rsum (?a :: ?b)) with (a + rsum b).
    specialize (H r c (or_introl eq_refl)) as H1. cbn [fst snd] in H1.
    assert (H2 : forall r c, In (r, c) l -> 0 <= fin_val (e r c) <= K) by (intros; apply H; right; assumption).
    specialize (IH H2). lra.
Qed.
Lemma sum_diff (e e' : nat -> nat -> ext) (K : R) l : 0 <= K ->
  (forall r c, In (r, c) l -> Rabs (fin_val (e' r c) - fin_val (e r c)) <= K) ->
  Rabs (rsum (map (fun rc => fin_val (e' (fst rc) (snd rc))) l) -
        rsum (map (fun rc => fin_val (e (fst rc) (snd rc))) l)) <= INR (length l) * K.
Proof.
  intros K0. induction l as [|[r c] l IH]; intros H.
  - cbn [map length INR]. change (rsum []) with 0. rewrite Rminus_0_r, Rabs_R0. lra.
  - cbn [map length fst snd]. rewrite S_INR. change (rsum (?a :: ?b)) with (a + rsum b).
    specialize (H r c (or_introl eq_refl)) as H1. cbn [fst snd] in H1.
    assert (H2 : forall r c, In (r, c) l -> Rabs (fin_val (e' r c) - fin_val (e r c)) <= K) by (intros; apply H; right; assumption).
    specialize (IH H2). apply Rabs_le_iff in H1, IH. apply Rabs_le_iff. lra.
Qed.
Lemma pairs_le nr nc a : is_assignment nr nc a -> (length (pairs a) <= nr)%nat.
Proof.
  intros [H _]. rewrite <- H. unfold pairs. generalize 0%nat. clear H.
  induction a as [|[c|] a IH]; intros k; cbn [pairs_from length]; [lia| |]; specialize (IH (S k)); lia.
Qed.

(** The minimum is an entry. *)
Lemma min_entry_attained nr nc m x : min_entry nr nc m = Some (Fin x) ->
  exists r c, (r < nr)%nat /\ (c < nc)%nat /\ m r c = Fin x.
Proof.
  unfold min_entry. destruct ((nr =? 0) || (nc =? 0))%bool; [discriminate|]. intros H. injection H as H1.
  assert (Hin : forall r cols e, (forall c, In c cols -> (c < nc)%nat) ->
     fold_left (fun acc c => min_ext acc (m r c)) cols e = Fin x -> e = Fin x \/ exists c, (c < nc)%nat /\ m r c = Fin x).
  { intros r cols. induction cols as [|c cols IH]; intros e Hc E; cbn [fold_left] in E; [left; exact E|].
    destruct (IH (min_ext e (m r c))) as [E1|E1]; [intros; apply Hc; right; assumption|exact E| |right; exact E1].
    assert (Hm : min_ext e (m r c) = e \/ min_ext e (m r c) = m r c).
    { unfold min_ext. destruct e as [a|]; [|right; reflexivity]. destruct (m r c) as [b|]; [|left; reflexivity].
      destruct (Rltb b a); auto. }
    destruct Hm as [Hm|Hm]; rewrite Hm in E1; [left; exact E1|].
    right. exists c. split; [apply Hc; left; reflexivity|exact E1]. }
  assert (Hout : forall rows e, (forall r, In r rows -> (r < nr)%nat) ->
     fold_left (fun acc r => fold_left (fun acc c => min_ext acc (m r c)) (seq 0 nc) acc) rows e = Fin x ->
     e = Fin x \/ exists r c, (r < nr)%nat /\ (c < nc)%nat /\ m r c = Fin x).
  { induction rows as [|r rows IH]; intros e Hr E; cbn [fold_left] in E; [left; exact E|].
    destruct (IH _ (fun r' H => Hr r' (or_intror H)) E) as [E1|E1]; [|right; exact E1].
    destruct (Hin r (seq 0 nc) e) as [E2|[c [Hc E2]]]; [intros c Hc; apply in_seq in Hc; lia|exact E1|left; exact E2|].
    right. exists r, c. split; [apply Hr; left; reflexivity|]. auto. }
  destruct (Hout (seq 0 nr) Inf) as [E|E]; [intros r Hr; apply in_seq in Hr; lia|exact H1|discriminate|exact E].
Qed.

Section Top.
Variables (u fmax : R) (rep : R -> Prop) (A : farith).
Hypothesis HS : rounds_signed u fmax rep A.
Variables nr nc : nat.
Variable M : nat -> nat -> ext.
Variables K x : R.
Notation ncp := (nc + nr)%nat.
Hypothesis Hnr : (0 < nr)%nat.
Hypothesis Hrep : float_matrix rep nr nc M.
Hypothesis HK : forall r c q, (r < nr)%nat -> (c < nc)%nat -> M r c = Fin q -> - K <= q <= K.
Hypothesis K0 : 0 <= K.
Hypothesis Htol : assign_tol u nr ncp <= 1 / 2.
Hypothesis Hcu : INR ncp * u <= 1.
Hypothesis H100 : 100 <= fmax.
Hypothesis Hfm : 600 * K * INR nr * INR ncp <= fmax.
Hypothesis Hx : - K <= x <= 0.
Hypothesis Rx : rep x.
Hypothesis Hmin : forall r c q, (r < nr)%nat -> (c < nc)%nat -> M r c = Fin q -> x <= q.

(** The caller's matrix with the rounding errors of the shift. *)
Definition M' (r c : nat) : ext := match M r c with Fin q => Fin (fsub A q x + x) | Inf => Inf end.

Lemma cm_P0 : (fun r c => fesub A (if (c <? nc)%nat then M r c else Fin 0) x) = P0 nc M' x.
Proof.
  extensionality r. extensionality c. unfold P0, M'. destruct (c <? nc)%nat.
  - destruct (M r c) as [q|]; cbn [fesub esub]; [|reflexivity]. f_equal. ring.
  - cbn [fesub esub]. destruct HS as (_ & _ & _ & H0 & _). rewrite (H0 x Rx). f_equal. ring.
Qed.

Lemma u_half : 0 <= u /\ u <= / 2.
Proof.
  destruct HS as ((U0 & _) & _). split; [exact U0|].
  unfold assign_tol in Htol. rewrite Nat.min_l in Htol by lia.
  assert (1 <= INR nr) by (change 1 with (INR 1); apply le_INR; lia).
  assert (1 <= INR (S nr * (2 * nr + 4))) by (change 1 with (INR 1); apply le_INR; lia).
  assert (1 <= INR nr * INR (S nr * (2 * nr + 4))) by nra.
  assert (0 <= (INR nr * INR (S nr * (2 * nr + 4)) - 1) * u) by (apply Rmult_le_pos; lra). lra.
Qed.

Lemma shifted r c q : (r < nr)%nat -> (c < ncp)%nat -> P0 nc M' x r c = Fin q -> rep q /\ 0 <= q <= 3 * K.
Proof.
  intros Hr Hc E. unfold P0, M' in E. destruct u_half as [U0 U1].
  destruct HS as (_ & _ & Hsub & H0 & _).
  assert (B : 2 * K <= fmax).
  { assert (1 <= INR nr) by (change 1 with (INR 1); apply le_INR; lia).
    assert (1 <= INR ncp) by (change 1 with (INR 1); apply le_INR; lia).
    assert (1 <= INR nr * INR ncp) by nra.
    assert (0 <= K * (INR nr * INR ncp - 1)) by (apply Rmult_le_pos; lra). lra. }
  destruct (Nat.ltb_spec c nc) as [Hl|Hl].
  - destruct (M r c) as [q0|] eqn:E0; cbn [esub] in E; [|discriminate].
    assert (Eq : q = fsub A q0 x) by (inversion E; ring). subst q.
    pose proof (HK r c q0 Hr Hl E0). pose proof (Hmin r c q0 Hr Hl E0).
    destruct (Hsub q0 x (Hrep r c q0 Hr Hl E0) Rx) as (A1 & A2 & A3); [lra|lra|].
    split; [exact A1|]. split; [exact A2|]. apply Rabs_le_iff in A3.
    assert (u * (q0 - x) <= / 2 * (q0 - x)) by (apply Rmult_le_compat_r; lra). lra.
  - cbn [esub] in E. assert (Eq : q = - x) by (inversion E; ring).
    destruct HS as ((_ & R0 & _) & _).
    destruct (Hsub 0 x R0 Rx) as (A1 & A2 & A3); [lra|lra|]. rewrite (H0 x Rx) in A1, A2. subst q.
    split; [exact A1|]. lra.
Qed.
Lemma P0_nonneg : forall r c q, (r < nr)%nat -> (c < ncp)%nat -> P0 nc M' x r c = Fin q -> 0 <= q.
Proof. intros r c q Hr Hc E. apply (shifted r c q Hr Hc E). Qed.

Lemma n1 : 1 <= INR nr. Proof. change 1 with (INR 1). apply le_INR. lia. Qed.
Lemma p1 : 1 <= INR ncp. Proof. change 1 with (INR 1). apply le_INR. lia. Qed.

Definition d1 : R := 6 * INR nr * INR nr * u * K.
Definition d2 : R := assign_tol u nr ncp * (33 * K * INR nr * INR ncp).

Lemma tol_nonneg : 0 <= assign_tol u nr ncp.
Proof.
  unfold assign_tol. destruct u_half. repeat apply Rmult_le_pos; try lra; apply pos_INR.
Qed.

Lemma opt_good : forall P, good nr nc M' x P -> exists a c,
  fassign_opt2 A {| mr := nr; mc := ncp; me := P |} = Ok (a, c) /\
  (all_assigned a = true ->
     is_assignment nr ncp a /\ inf_free P a /\ full a /\ sol nr nc P (abs nc a) /\
     (rep c /\ Rabs (c - (assign_cost M' (abs nc a) - x * Rn nr)) <= d1) /\
     forall s, sol nr nc P s -> assign_cost M' (abs nc a) <= assign_cost M' s + d2) /\
  (all_assigned a = false -> forall s, ~ sol nr nc P s).
Proof.
  intros P Hg. destruct u_half as [U0 U1]. pose proof n1. pose proof p1.
  assert (HP : forall r c q, (r < nr)%nat -> (c < ncp)%nat -> P r c = Fin q -> rep q /\ 0 <= q <= 3 * K).
  { intros r c q Hr Hc E. apply (shifted r c q Hr Hc). destruct Hg as [Hg _]. apply (Hg r c q Hr Hc E). }
  destruct HS as (HR & _).
  destruct (fassign_opt2_spec u fmax rep A {| mr := nr; mc := ncp; me := P |} (3 * K) HR) as [a [c [E [Ha [Hf [[Hcr Hc] Hopt]]]]]];
    cbn [mr mc me] in *.
  { intros r c q Hr Hc E. apply (HP r c q Hr Hc E). }
  { intros r c q Hr Hc E. apply (HP r c q Hr Hc E). }
  { change (fuelR nr ncp) with (INR (hung_fuel nr ncp)). unfold hung_fuel. unfold assign_tol in Htol. lra. }
  { exact Hcu. } { exact H100. } { lra. } { lra. }
  rewrite Nat.min_l in Hc, Hopt by lia.
  assert (Esc : forall b : bool, (if b then 11 * (3 * K) * INR nr * INR ncp else 3 * K) <= 33 * K * INR nr * INR ncp).
  { intros b. assert (1 <= INR nr * INR ncp) by nra.
    assert (0 <= K * (INR nr * INR ncp - 1)) by (apply Rmult_le_pos; lra). destruct b; lra. }
  assert (Et : 34 * INR nr * fuelR nr ncp * u = assign_tol u nr ncp).
  { unfold assign_tol. rewrite Nat.min_l by lia. unfold fuelR, hung_fuel. rewrite Nat.min_l by lia. reflexivity. }
  rewrite Et in Hopt. pose proof tol_nonneg as T0.
  exists a, c. split; [exact E|]. split.
  - intros Hall. apply all_assigned_full in Hall. split; [exact Ha|]. split; [exact Hf|]. split; [exact Hall|].
    split; [apply (sol_abs nr nc M' x P0_nonneg); assumption|].
    assert (Ec : assign_cost P a = assign_cost M' (abs nc a) - x * Rn nr) by (apply cost_abs; assumption).
    split.
    + split; [exact Hcr|]. rewrite <- Ec. eapply Rle_trans; [exact Hc|].
      assert (Hb : 0 <= assign_cost P a <= INR nr * (3 * K)).
      { pose proof (sum_bound P (3 * K) (pairs a)) as Hs. fold (assign_cost P a) in Hs.
        assert (Hl : INR (length (pairs a)) <= INR nr) by (apply le_INR, (pairs_le nr ncp), Ha).
        destruct Hs as [S1 S2]; [lra| |split; [exact S1|eapply Rle_trans; [exact S2|]; apply Rmult_le_compat_r; lra]].
        intros r k Hin. destruct (Hf r k Hin) as [q Eq]. rewrite Eq. cbn [fin_val].
        apply assignment_plist in Ha. destruct Ha as [_ [_ Ha]]. destruct (Ha r k Hin) as [Hr Hk].
        apply (HP r k q Hr Hk Eq). }
      unfold d1. replace (6 * INR nr * INR nr * u * K) with (2 * INR nr * u * (INR nr * (3 * K))) by ring.
      apply Rmult_le_compat_l; [|apply Hb]. apply Rmult_le_pos; lra.
    + intros s Hs. destruct (sol_realise nr nc M' x P0_nonneg P s Hg Hs) as [b [Hb [Hbf [Hbfull <-]]]].
      destruct (Hopt b Hb Hbf) as [_ Ho].
      assert (Esz : assign_size b = assign_size a).
      { apply full_size in Hbfull, Hall. destruct Ha as [Ha _]. destruct Hb as [Hb _]. congruence. }
      specialize (Ho Esz). rewrite Ec, (cost_abs nr nc M' x P b) in Ho by assumption.
      unfold d2.
      match type of Ho with context [if ?bb then _ else _] => specialize (Esc bb) end.
      apply (Rmult_le_compat_l _ _ _ T0) in Esc. lra.
  - intros Hall s Hs. destruct (sol_realise nr nc M' x P0_nonneg P s Hg Hs) as [b [Hb [Hbf [Hbfull _]]]].
    destruct (Hopt b Hb Hbf) as [Hle _].
    assert (Hfa : full a); [|apply all_assigned_full in Hfa; congruence].
    apply full_size. apply full_size in Hbfull.
    assert (assign_size a <= length a)%nat.
    { unfold assign_size. rewrite <- (map_length fst), <- (seq_length (length a) 0).
      apply NoDup_incl_length; [apply pairs_fst_NoDup|]. intros r Hr.
      apply in_map_iff in Hr as [[r' k] [<- Hin]]. apply in_seq. apply pairs_row in Hin. simpl; lia. }
    destruct Ha as [Ha _]. destruct Hb as [Hb _]. lia.
Qed.

(** The search. *)
Lemma helper_spec m : (0 < m)%nat ->
  exists ans, fmurty_helper A nr ncp (P0 nc M' x) m = Ok ans /\ result_ok nr nc M' x d1 d2 rep m ans.
Proof.
  intros Hm. unfold fmurty_helper.
  destruct (opt_good (P0 nc M' x) (P0_good nr nc M' x)) as [s0 [c0 [E [Hyes Hno]]]].
  rewrite E. cbn [bind].
  destruct (all_assigned s0) eqn:Ea.
  2:{ exfalso. apply (Hno eq_refl (repeat None nr)). apply P0_sol. apply none_feasible. }
  destruct (Hyes eq_refl) as [B1 [B2 [B3 [B4 [B5 B6]]]]].
  destruct (Nat.eqb_spec m 1) as [->|Hm1].
  - exists [(s0, c0)]. split; [reflexivity|]. split; [|split; [|split; [|split; [|split]]]].
    + intros sc [<-|[]]. cbn [fst snd]. split; [apply B1|]. split; [exact B3|]. split; [|exact B5].
      apply P0_sol with (x := x). exact B4.
    + constructor; [intros []|constructor].
    + constructor; constructor.
    + intros sc s [<-|[]] Hs _. cbn [snd].
      apply (P0_sol nr nc M' x) in Hs. specialize (B6 s Hs). unfold tot. destruct B5 as [_ B5]; apply Rabs_le_iff in B5. lra.
    + simpl; lia.
    + simpl; lia.
  - destruct (fmurty_loop_spec A nr nc M' x d1 d2 rep P0_nonneg opt_good m [{| nP := P0 nc M' x; nS := s0; nC := Some c0 |}] [])
      as [ans [Ea' Hr]].
    + split; [|split; [|split; [|split; [|split; [|split; [|split; [|split]]]]]]].
      * constructor; [|constructor]. intros c Hc. cbn [nC nP nS] in *. inversion Hc; subst c.
        split; [apply P0_good|]. auto.
      * constructor; constructor.
      * intros sc [].
      * constructor.
      * intros s Hs. right. eexists. split; [left; reflexivity|]. split; [discriminate|].
        cbn [nP]. apply P0_sol. exact Hs.
      * intros n s [<-|[]] [_ Hs]. split; [|intros []]. cbn [nP] in Hs. apply P0_sol in Hs. exact Hs.
      * intros sc n s [].
      * constructor.
      * reflexivity.
    + exists ans. split; [exact Ea'|]. exact Hr.
Qed.

Notation acc_tol := (acc_tol u nr K).
Notation rank_tol := (rank_tol u nr nc K).

Lemma M'_feasible s : feasible nr nc M' s <-> feasible nr nc M s.
Proof.
  unfold feasible, inf_free, M'. split; intros [H1 H2]; (split; [exact H1|]); intros r c Hin;
    destruct (H2 r c Hin) as [q Hq]; destruct (M r c) as [q'|]; try discriminate; eauto.
Qed.

(** Rounding the shift changes the cost of a solution by at most 2 n u K. *)
Lemma M'_cost s : feasible nr nc M s -> Rabs (assign_cost M' s - assign_cost M s) <= INR nr * (2 * u * K).
Proof.
  intros [H1 H2]. destruct u_half as [U0 U1].
  assert (Z : 0 <= 2 * u * K) by (apply Rmult_le_pos; lra).
  pose proof (sum_diff M M' (2 * u * K) (pairs s) Z) as H.
  eapply Rle_trans; [apply H|].
  - intros r c Hin. destruct (H2 r c Hin) as [q Eq]. unfold M'. rewrite Eq. cbn [fin_val].
    pose proof (assignment_plist _ _ _ H1) as [_ [_ Hp]]. destruct (Hp r c Hin) as [Hr Hc].
    pose proof (HK r c q Hr Hc Eq). pose proof (Hmin r c q Hr Hc Eq).
    destruct HS as (_ & _ & Hsub & _).
    destruct (Hsub q x (Hrep r c q Hr Hc Eq) Rx) as (_ & _ & A3); [lra| |].
    { pose proof n1. pose proof p1. assert (1 <= INR nr * INR ncp) by nra.
      assert (0 <= K * (INR nr * INR ncp - 1)) by (apply Rmult_le_pos; lra). lra. }
    replace (fsub A q x + x - q) with (fsub A q x - (q - x)) by ring.
    eapply Rle_trans; [exact A3|]. replace (2 * u * K) with (u * (2 * K)) by ring. apply Rmult_le_compat_l; lra.
  - apply Rmult_le_compat_r; [exact Z|]. apply le_INR, (pairs_le nr nc), H1.
Qed.

(** The reported cost: undoing the shift costs two more roundings. *)
Lemma fix_cost_spec a c : length a = nr -> full a -> feasible nr nc M (abs nc a) -> rep c ->
  Rabs (c - (assign_cost M' (abs nc a) - x * Rn nr)) <= d1 ->
  Rabs (fadd A c (fmul A x (INR (length (filter
     (fun o => match o with Some _ => true | None => false end) a)))) - assign_cost M (abs nc a)) <= acc_tol.
Proof.
  intros Hl Hf Hfe Rc Hc.
  assert (El : length (filter (fun o : option nat => match o with Some _ => true | None => false end) a) = nr).
  { rewrite <- Hl. f_equal. apply all_assigned_full in Hf. unfold all_assigned in Hf. clear - Hf.
    induction a as [|o l IH]; [reflexivity|]. simpl in *. apply andb_true_iff in Hf as [X Y].
    rewrite X. f_equal. apply IH, Y. }
  rewrite El. pose proof (M'_cost _ Hfe) as Hm. destruct u_half as [U0 U1]. pose proof n1 as N1. pose proof p1 as P1.
  rewrite Rn_INR in Hc. set (n := INR nr) in *. set (C' := assign_cost M' (abs nc a)) in *.
  set (C := assign_cost M (abs nc a)) in *.
  assert (KN : 0 <= K * n) by (apply Rmult_le_pos; lra).
  assert (KNP : K * n <= K * n * INR ncp) by nra.
  assert (HC : Rabs C <= n * K).
  { destruct Hfe as [F1 F2].
    pose proof (sum_diff (fun _ _ => Fin 0) M K (pairs (abs nc a)) K0) as H. cbn [fin_val] in H.
    fold (assign_cost M (abs nc a)) in H. fold C in H.
    assert (Z0 : forall l : list (nat * nat), rsum (map (fun _ => 0) l) = 0).
    { induction l as [|y l IH]; [reflexivity|]. cbn [map]. change (rsum (?g :: ?h)) with (g + rsum h). rewrite IH. ring. }
    rewrite Z0, Rminus_0_r in H. eapply Rle_trans; [apply H|].
    - intros r k Hin. destruct (F2 r k Hin) as [q Eq]. rewrite Eq. cbn [fin_val]. rewrite Rminus_0_r.
      pose proof (assignment_plist _ _ _ F1) as [_ [_ Hp]]. destruct (Hp r k Hin) as [Hr Hk].
      apply Rabs_le_iff. apply (HK r k q Hr Hk Eq).
    - apply Rmult_le_compat_r; [exact K0|]. apply le_INR, (pairs_le nr nc), F1. }
  assert (NU : n * u <= / 2).
  { pose proof Htol as T. unfold assign_tol in T. rewrite Nat.min_l in T by lia. fold n in T.
    assert (F : 1 <= INR (S nr * (2 * nr + 4))) by (change 1 with (INR 1); apply le_INR; lia).
    assert (0 <= n * u) by (apply Rmult_le_pos; lra).
    assert (0 <= (INR (S nr * (2 * nr + 4)) - 1) * (n * u)) by (apply Rmult_le_pos; lra). lra. }
  assert (D1 : d1 <= 3 * (K * n)).
  { unfold d1. fold n. replace (6 * n * n * u * K) with (6 * (n * u) * (K * n)) by ring.
    assert (6 * (n * u) * (K * n) <= 6 * / 2 * (K * n)); [|lra]. apply Rmult_le_compat_r; lra. }
  assert (NK2 : n * (2 * u * K) <= K * n).
  { replace (n * (2 * u * K)) with ((2 * u) * (K * n)) by ring.
    rewrite <- (Rmult_1_l (K * n)) at 2. apply Rmult_le_compat_r; lra. }
  assert (XN : - (K * n) <= x * n <= 0).
  { assert (0 <= (x + K) * n) by (apply Rmult_le_pos; lra). assert (0 <= (- x) * n) by (apply Rmult_le_pos; lra). lra. }
  destruct HS as (HR & Hadd & _ & _ & Hmul).
  assert (Rn' : rep n).
  { destruct HR as (_ & _ & RI & _). apply RI. unfold n in NU. lra. }
  assert (Xa : Rabs (x * n) <= K * n) by (apply Rabs_le_iff; lra).
  destruct (Hmul x nr Rx Rn') as [M1 M2]; [fold n; lra|]. fold n in M1, M2.
  assert (M3 : u * Rabs (x * n) <= u * (K * n)) by (apply Rmult_le_compat_l; lra).
  assert (M4 : u * (K * n) <= / 2 * (K * n)) by (apply Rmult_le_compat_r; lra).
  set (g := fmul A x n) in *. clearbody g.
  apply Rabs_le_iff in M2, Hc, Hm, HC.
  assert (S1 : Rabs (c + g) <= 6 * (K * n)) by (apply Rabs_le_iff; lra).
  destruct (Hadd c g Rc M1) as [_ A2]; [lra|].
  assert (S2 : u * Rabs (c + g) <= u * (6 * (K * n))) by (apply Rmult_le_compat_l; lra).
  apply Rabs_le_iff in A2. apply Rabs_le_iff. unfold acc_tol. unfold d1 in Hc. fold n in Hc |- *.
  assert (KU : u * (K * n) <= n * n * u * K).
  { replace (n * n * u * K) with (n * (u * (K * n))) by ring.
    rewrite <- (Rmult_1_l (u * (K * n))) at 1. apply Rmult_le_compat_r; [|exact N1]. apply Rmult_le_pos; lra. }
  replace (n * (2 * u * K)) with (2 * (u * (K * n))) in Hm by ring.
  set (w := u * (K * n)) in *. set (v := n * n * u * K) in *.
  replace (6 * n * n * u * K) with (6 * v) in Hc by (unfold v; ring).
  replace (15 * n * n * u * K) with (15 * v) by (unfold v; ring).
  replace (u * (6 * (K * n))) with (6 * w) in S2 by (unfold w; ring).
  lra.
Qed.

Lemma tol_room : 4 * d1 + d2 + 2 * (INR nr * (2 * u * K)) <= rank_tol.
Proof.
  unfold rank_tol, d2, d1. destruct u_half as [U0 U1]. pose proof n1 as N1. pose proof p1 as P1.
  assert (T : 34 * INR nr * u <= assign_tol u nr ncp).
  { unfold assign_tol. rewrite Nat.min_l by lia.
    assert (F : 1 <= INR (S nr * (2 * nr + 4))) by (change 1 with (INR 1); apply le_INR; lia).
    assert (0 <= INR nr * u) by (apply Rmult_le_pos; lra).
    assert (0 <= (INR (S nr * (2 * nr + 4)) - 1) * (INR nr * u)) by (apply Rmult_le_pos; lra). lra. }
  set (n := INR nr) in *. set (p := INR ncp) in *. set (t := assign_tol u nr ncp) in *.
  assert (KN : 0 <= K * n) by (apply Rmult_le_pos; lra).
  assert (KNP : K * n <= K * n * p) by nra.
  assert (H1 : 34 * n * u * (K * n) <= t * (K * n)) by (apply Rmult_le_compat_r; lra).
  assert (T0 : 0 <= t) by (assert (0 <= n * u) by (apply Rmult_le_pos; lra); lra).
  assert (H2 : t * (K * n) <= t * (K * n * p)) by (apply Rmult_le_compat_l; lra).
  assert (H3 : u * (K * n) <= n * (u * (K * n))).
  { rewrite <- (Rmult_1_l (u * (K * n))) at 1. apply Rmult_le_compat_r; [|lra]. apply Rmult_le_pos; lra. }
  assert (H4 : 0 <= n * (u * (K * n))) by (repeat apply Rmult_le_pos; lra).
  replace (4 * (6 * n * n * u * K)) with (24 * (n * (u * (K * n)))) by ring.
  replace (2 * (n * (2 * u * K))) with (4 * (u * (K * n))) by ring.
  replace (t * (33 * K * n * p)) with (33 * (t * (K * n * p))) by ring.
  replace (34 * K * n * p * t) with (34 * (t * (K * n * p))) by ring.
  replace (34 * n * u * (K * n)) with (34 * (n * (u * (K * n)))) in H1 by ring. lra.
Qed.
End Top.

(** * The whole function *)
Lemma Forall2_map_in {X Y Z} (f : X -> Y) (g : X -> Z) (R : Y -> Z -> Prop) l :
  (forall a, In a l -> R (f a) (g a)) -> Forall2 R (map f l) (map g l).
Proof.
  induction l as [|a l IH]; intros H; cbn [map]; constructor; [apply H; left; reflexivity|].
  apply IH. intros; apply H; right; assumption.
Qed.

Lemma fmurty2_spec u fmax rep A (cost : mat) (K : R) (m : nat) : rounds_signed u fmax rep A ->
  (0 < mr cost)%nat -> (0 < m)%nat ->
  float_matrix rep (mr cost) (mc cost) (me cost) ->
  (forall r c q, (r < mr cost)%nat -> (c < mc cost)%nat -> me cost r c = Fin q -> - K <= q <= K) -> 0 <= K ->
  assign_tol u (mr cost) (mc cost + mr cost) <= 1 / 2 -> INR (mc cost + mr cost) * u <= 1 ->
  100 <= fmax -> 600 * K * INR (mr cost) * INR (mc cost + mr cost) <= fmax ->
  exists sols costs, fmurty2 A cost m = Ok (map encode sols, costs) /\
    m_best_upto (acc_tol u (mr cost) K) (rank_tol u (mr cost) (mc cost) K)
      (mr cost) (mc cost) (me cost) m sols costs.
Proof.
  intros HS Hnr Hm Hrep HK K0 Htol Hcu H100 Hfm. unfold fmurty2.
  destruct (Nat.eqb_spec m 0) as [|_]; [lia|].
  set (nr := mr cost) in *. set (nc := mc cost) in *. set (M := me cost) in *.
  set (cm0 := fun r c => if (c <? nc)%nat then M r c else Fin 0).
  destruct (min_entry_spec nr (nc + nr) cm0) as [x [Ex Hx]]; [lia|lia| |].
  { exists 0%nat, nc, 0%R. split; [lia|]. split; [lia|]. unfold cm0. rewrite Nat.ltb_irrefl. reflexivity. }
  destruct (min_entry_attained nr (nc + nr) cm0 x Ex) as [r0 [c0 [Hr0 [Hc0 E0]]]].
  cbn zeta. fold nr nc M cm0. rewrite Ex.
  assert (Hx0 : x <= 0).
  { apply (Hx 0%nat nc 0); [lia|lia|]. unfold cm0. rewrite Nat.ltb_irrefl. reflexivity. }
  assert (Hmin : forall r c q, (r < nr)%nat -> (c < nc)%nat -> M r c = Fin q -> x <= q).
  { intros r c q Hr Hc E. apply (Hx r c q Hr); [lia|]. unfold cm0. apply Nat.ltb_lt in Hc. rewrite Hc. exact E. }
  assert (HxR : rep x /\ - K <= x).
  { unfold cm0 in E0. destruct (Nat.ltb_spec c0 nc) as [Hl|Hl].
    - split; [apply (Hrep r0 c0 x Hr0 Hl E0)|apply (HK r0 c0 x Hr0 Hl E0)].
    - inversion E0. split; [apply HS|lra]. }
  destruct HxR as [Rx HxK].
  change (fun r c => fesub A (cm0 r c) x) with (fun r c => fesub A (if (c <? nc)%nat then M r c else Fin 0) x).
  rewrite (cm_P0 u fmax rep A HS nc M x Rx).
  destruct (helper_spec u fmax rep A HS nr nc M K x Hnr Hrep HK K0 Htol Hcu H100 Hfm (conj HxK Hx0) Rx Hmin m Hm)
    as [ans [Eans [R1 [R2 [R3 [R4 [R5 R6]]]]]]].
  rewrite Eans. cbn [bind].
  set (MM := M' A M x) in *.
  assert (HF : forall sc, In sc ans -> feasible nr nc M (abs nc (fst sc))).
  { intros sc Hsc. apply (M'_feasible A nr nc M x). apply (R1 sc Hsc). }
  assert (HD : forall s, feasible nr nc M s -> Rabs (assign_cost MM s - assign_cost M s) <= INR nr * (2 * u * K)).
  { intros s Hs. eapply M'_cost with (fmax := fmax) (rep := rep); try eassumption; split; assumption. }
  assert (Room : 4 * d1 u nr K + d2 u nr nc K + 2 * (INR nr * (2 * u * K)) <= rank_tol u nr nc K).
  { eapply tol_room with (fmax := fmax) (rep := rep); try eassumption; split; assumption. }
  exists (map (fun sc => abs nc (fst sc)) ans). eexists. split.
  { f_equal. f_equal. rewrite map_map. apply map_ext_in. intros sc Hsc.
    destruct (R1 sc Hsc) as [Hl _]. rewrite <- Hl, firstn_all. unfold encode, abs. rewrite map_map.
    apply map_ext. intros o. destruct o as [c|]; [|reflexivity].
    destruct (Nat.ltb_spec c nc), (Nat.ltb_spec nc (S c)); try reflexivity; lia. }
  split; [|split; [|split; [|split; [|split; [|split]]]]].
  - apply Forall_map, Forall_forall. exact HF.
  - exact R2.
  - apply Forall2_map_in. intros sc Hsc. destruct (R1 sc Hsc) as [Hl [Hf [_ [Rc Hc]]]].
    eapply fix_cost_spec with (fmax := fmax) (rep := rep) (M := M); try eassumption; [split; assumption|apply HF, Hsc].
  - apply FOP_map. eapply FOP_impl; [|exact R3]. intros a b Ha Hb Hle. cbn beta.
    destruct (R1 a Ha) as [_ [_ [_ [_ Ea]]]]. destruct (R1 b Hb) as [_ [_ [_ [_ Eb]]]].
    pose proof (HD _ (HF a Ha)) as Da. pose proof (HD _ (HF b Hb)) as Db. unfold tot in *.
    apply Rabs_le_iff in Ea, Eb, Da, Db. unfold assign_vec in *. lra.
  - intros s s' Hs Hs' Hn. apply in_map_iff in Hs as [sc [<- Hsc]].
    assert (Hs2 : feas nr nc MM s') by (apply (M'_feasible A nr nc M x); exact Hs').
    specialize (R4 sc s' Hsc Hs2 Hn). destruct (R1 sc Hsc) as [_ [_ [_ [_ Ea]]]].
    pose proof (HD _ (HF sc Hsc)) as Da. pose proof (HD _ Hs') as Db. unfold tot in *.
    assert (0 <= d1 u nr K).
    { eapply Rle_trans; [apply Rabs_pos|exact Ea]. }
    apply Rabs_le_iff in Ea, Da, Db. unfold assign_vec in *. lra.
  - rewrite map_length. exact R5.
  - rewrite map_length. intros Hlt s Hs. apply (R6 Hlt). apply (M'_feasible A nr nc M x). exact Hs.
Qed.

