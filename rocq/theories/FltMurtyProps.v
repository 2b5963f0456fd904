(** C157, C158: [murty_m_best] computed in IEEE double precision. *)
From Coq Require Import Reals ZArith Lra Lia List.
From Flocq Require Import Core.
From Verif Require Import RBase RHungModel RHungSpec RHungProofs RMurtyModel RMurtySpec RMurtyProofs
  FltModel FltSpec FltExact FltAssign FltIeee FltProps FltMurtyModel FltMurtySpec FltMurty FltMurtyTop.
Import ListNotations.
Local Open Scope R_scope.

(** binary64 meets the signed contract. *)
Lemma rnd_rep_abs x : Rabs x <= fmax64 -> rep64 (rnd64 x).
Proof.
  intros H. split.
  - apply generic_format_round; [exact valid64 | apply valid_rnd_N].
  - apply abs_round_le_generic; [exact valid64 | apply valid_rnd_N | exact fmax64_format | exact H].
Qed.
Lemma rep64_opp x : rep64 x -> rep64 (- x).
Proof. intros [H1 H2]. split; [apply generic_format_opp, H1 | rewrite Rabs_Ropp; exact H2]. Qed.
Theorem ieee64_rounds_signed : rounds_signed u64 fmax64 rep64 ieee64.
Proof.
  split; [exact ieee64_rounds |]. split; [| split; [| split]].
  - intros x y Rx Ry H. cbn [fadd ieee64]. split; [apply rnd_rep_abs, H |].
    destruct (rep_int x Rx) as [a Ea]. destruct (rep_int y Ry) as [b Eb].
    replace (x + y) with (IZR (a + b) * bpow radix2 (-1074)) by (rewrite plus_IZR, Ea, Eb; ring). apply rnd_int.
  - intros x y Rx Ry Hle H. cbn [fsub ieee64].
    split; [apply rnd_rep; lra |]. split.
    + apply round_ge_generic; [exact valid64 | apply valid_rnd_N | apply generic_format_0 | lra].
    + destruct (rep_int x Rx) as [a Ea]. destruct (rep_int y Ry) as [b Eb].
      assert (E : x - y = IZR (a - b) * bpow radix2 (-1074)) by (rewrite minus_IZR, Ea, Eb; ring).
      rewrite <- (Rabs_pos_eq (x - y)) at 3 by lra. rewrite E. apply rnd_int.
  - intros x Rx. cbn [fsub ieee64]. rewrite Rminus_0_l. apply rnd_exact, rep64_opp, Rx.
  - intros x n Rx Rn H. cbn [fmul ieee64]. split; [apply rnd_rep_abs, H |].
    destruct (rep_int x Rx) as [a Ea].
    assert (E : x * INR n = IZR (a * Z.of_nat n) * bpow radix2 (-1074)) by (rewrite mult_IZR, <- INR_IZR_INZ, Ea; ring).
    rewrite E. apply rnd_int.
Qed.

(** With exact operations the rounded model is the exact one. *)
Lemma fopt2_exact m : fassign_opt2 exact_arith m = assign_opt2 m.
Proof. exact (rounded_model_exact (Arr2 m)). Qed.
Lemma fbranch_exact nr ncp s : forall k P, fbranch exact_arith nr ncp k s P = branch nr ncp k s P.
Proof.
  induction s as [| [aj |] s IH]; intros k P; cbn [fbranch branch]; [reflexivity | | apply IH].
  rewrite fopt2_exact. destruct (assign_opt2 _) as [[a c] | e]; cbn [bind]; [| reflexivity].
  destruct (all_assigned a); [rewrite IH; reflexivity | apply IH].
Qed.
Lemma floop_exact nr ncp m : forall nodes acc, fmurty_loop exact_arith nr ncp m nodes acc = murty_loop nr ncp m nodes acc.
Proof.
  induction m as [| m IH]; intros nodes acc; cbn [fmurty_loop murty_loop]; [reflexivity |].
  destruct (nanargmin (map nC nodes)) as [i |]; [| reflexivity].
  destruct (nth_error nodes i) as [[P s [c |]] |]; try reflexivity.
  rewrite fbranch_exact. destruct (branch nr ncp 0 s P); cbn [bind]; [apply IH | reflexivity].
Qed.
Theorem rounded_murty_exact (a : ndarray) (m : nat) : fmurty_m_best exact_arith a m = murty_m_best a m.
Proof.
  destruct a as [n f | c |]; try reflexivity. cbn [fmurty_m_best murty_m_best]. unfold fmurty2, murty2.
  destruct (m =? 0)%nat; [reflexivity |]. cbn zeta.
  destruct (min_entry _ _ _) as [[x |] |]; try reflexivity.
  change (fun r c0 => fesub exact_arith (if (c0 <? mc c)%nat then me c r c0 else Fin 0) x)
    with (fun r c0 => esub (if (c0 <? mc c)%nat then me c r c0 else Fin 0) x).
  unfold fmurty_helper, murty_helper. rewrite fopt2_exact.
  destruct (assign_opt2 _) as [[s0 c0] | e]; cbn [bind]; [| reflexivity].
  rewrite floop_exact.
  match goal with |- bind ?X _ = bind ?X _ => destruct X as [ans | e] end; cbn [bind]; [| reflexivity].
  f_equal. f_equal. apply map_ext. intros sc. cbn [exact_arith fadd fmul]. rewrite INR_IZR_INZ. reflexivity.
Qed.

(** C157.  In any arithmetic that meets the contract, on any matrix of floats
    and infinities within the bounds, murty_m_best terminates normally and
    returns distinct feasible solutions, the requested number or all there are;
    reported costs are right up to [acc_tol], and no later or omitted solution
    is cheaper than a returned one by more than [rank_tol]. *)
Theorem C157_murty_rounded : forall u fmax rep A (cost : mat) (K : R) (m : nat),
  rounds_signed u fmax rep A -> (0 < mr cost)%nat ->
  float_matrix rep (mr cost) (mc cost) (me cost) ->
  (forall r c q, (r < mr cost)%nat -> (c < mc cost)%nat -> me cost r c = Fin q -> Rabs q <= K) -> 0 <= K ->
  assign_tol u (mr cost) (mc cost + mr cost) <= 1 / 2 -> INR (mc cost + mr cost) * u <= 1 ->
  100 <= fmax -> 600 * K * INR (mr cost) * INR (mc cost + mr cost) <= fmax ->
  exists sols costs, fmurty_m_best A (Arr2 cost) m = Ok (map encode sols, costs) /\
    m_best_upto (acc_tol u (mr cost) K) (rank_tol u (mr cost) (mc cost) K)
      (mr cost) (mc cost) (me cost) m sols costs.
Proof.
  intros u fmax rep A cost K m HS Hnr Hrep HK K0 Ht Hcu H100 Hfm. destruct m as [| m].
  - exists [], []. split; [reflexivity |]. split; [constructor |]. split; [constructor |].
    split; [constructor |]. split; [constructor |]. split; [intros s s' [] |].
    split; cbn [length]; lia.
  - apply (fmurty2_spec u fmax rep A cost K (S m)); try assumption; [lia |].
    intros r c q Hr Hc E. apply Rabs_le_iff. exact (HK r c q Hr Hc E).
Qed.

Theorem C157_murty_ieee : forall (cost : mat) (K : R) (m : nat), (0 < mr cost)%nat ->
  float_matrix rep64 (mr cost) (mc cost) (me cost) ->
  (forall r c q, (r < mr cost)%nat -> (c < mc cost)%nat -> me cost r c = Fin q -> Rabs q <= K) -> 0 <= K ->
  assign_tol u64 (mr cost) (mc cost + mr cost) <= 1 / 2 -> INR (mc cost + mr cost) * u64 <= 1 ->
  600 * K * INR (mr cost) * INR (mc cost + mr cost) <= fmax64 ->
  exists sols costs, fmurty_m_best ieee64 (Arr2 cost) m = Ok (map encode sols, costs) /\
    m_best_upto (acc_tol u64 (mr cost) K) (rank_tol u64 (mr cost) (mc cost) K)
      (mr cost) (mc cost) (me cost) m sols costs.
Proof.
  intros cost K m Hnr Hrep HK K0 Ht Hcu Hfm.
  exact (C157_murty_rounded u64 fmax64 rep64 ieee64 cost K m ieee64_rounds_signed Hnr Hrep HK K0 Ht Hcu fmax64_100 Hfm).
Qed.

Lemma assign_cost_int (nr nc : nat) (M : nat -> nat -> ext) s :
  (forall r c q, (r < nr)%nat -> (c < nc)%nat -> M r c = Fin q -> exists k : Z, q = IZR k) ->
  is_assignment nr nc s -> exists k : Z, assign_cost M s = IZR k.
Proof.
  intros HM Hs. unfold assign_cost.
  assert (H : forall r c, In (r, c) (pairs s) -> (r < nr /\ c < nc)%nat).
  { pose proof (assignment_plist _ _ _ Hs) as [_ [_ Hp]]. exact Hp. }
  induction (pairs s) as [| [r c] l IH].
  - exists 0%Z. reflexivity.
  - destruct IH as [b Hb]; [intros; apply H; right; assumption |].
    destruct (H r c (or_introl eq_refl)) as [Hr Hc].
    assert (Ha : exists a, fin_val (M r c) = IZR a).
    { destruct (M r c) as [q |] eqn:E; [apply (HM r c q Hr Hc E) | exists 0%Z; reflexivity]. }
    destruct Ha as [a Ha]. exists (a + b)%Z. cbn [map fst snd].
    change (rsum (?g :: ?h)) with (g + rsum h). rewrite Ha, Hb, plus_IZR. reflexivity.
Qed.

(** C158.  Integer costs for which the tolerance is below one: the ranking is
    exactly right. *)
Theorem C158_murty_integers : forall (cost : mat) (K : R) (m : nat), (0 < mr cost)%nat ->
  float_matrix rep64 (mr cost) (mc cost) (me cost) ->
  (forall r c q, (r < mr cost)%nat -> (c < mc cost)%nat -> me cost r c = Fin q ->
     (exists k : Z, q = IZR k) /\ Rabs q <= K) -> 0 <= K ->
  assign_tol u64 (mr cost) (mc cost + mr cost) <= 1 / 2 -> INR (mc cost + mr cost) * u64 <= 1 ->
  600 * K * INR (mr cost) * INR (mc cost + mr cost) <= fmax64 ->
  rank_tol u64 (mr cost) (mc cost) K < 1 ->
  exists sols costs, fmurty_m_best ieee64 (Arr2 cost) m = Ok (map encode sols, costs) /\
    m_best_upto (acc_tol u64 (mr cost) K) 0 (mr cost) (mc cost) (me cost) m sols costs.
Proof.
  intros cost K m Hnr Hrep HK K0 Ht Hcu Hfm Ht1.
  destruct (C157_murty_ieee cost K m Hnr Hrep) as [sols [costs [E [F1 [F2 [F3 [F4 [F5 F6]]]]]]]]; try assumption.
  { intros r c q Hr Hc Eq. apply (HK r c q Hr Hc Eq). }
  assert (HI : forall s, feasible (mr cost) (mc cost) (me cost) s -> exists k : Z, assign_cost (me cost) s = IZR k).
  { intros s [Hs _]. apply (assign_cost_int (mr cost) (mc cost)); [| exact Hs].
    intros r c q Hr Hc Eq. apply (HK r c q Hr Hc Eq). }
  assert (HZ : forall s s', feasible (mr cost) (mc cost) (me cost) s -> feasible (mr cost) (mc cost) (me cost) s' ->
     assign_cost (me cost) s <= assign_cost (me cost) s' + rank_tol u64 (mr cost) (mc cost) K ->
     assign_cost (me cost) s <= assign_cost (me cost) s' + 0).
  { intros s s' Hs Hs' H. destruct (HI s Hs) as [a Ha]. destruct (HI s' Hs') as [b Hb]. rewrite Ha, Hb in *.
    rewrite Rplus_0_r. apply IZR_le.
    assert (Hlt : IZR a < IZR (b + 1)) by (rewrite plus_IZR; lra). apply lt_IZR in Hlt. lia. }
  rewrite Forall_forall in F1.
  exists sols, costs. split; [exact E |]. split; [rewrite Forall_forall; exact F1 |]. split; [exact F2 |]. split; [exact F3 |].
  split; [| split; [| exact F6]].
  - eapply FOP_impl; [| exact F4]. intros a b Ha Hb. apply HZ; apply F1; assumption.
  - intros s s' Hs Hs' Hn. apply HZ; [apply F1, Hs | exact Hs' | apply F5; assumption].
Qed.

(** A 2 x 2 matrix with negative costs and an infinity. *)
Definition ex157 : mat := {| mr := 2; mc := 2; me := fun r c =>
  match r, c with
  | 0, 0 => Fin 4 | 0, _ => Fin (-1)
  | _, 0 => Inf | _, _ => Fin (-3)
  end%nat |}.
Example ex157_ranked : exists sols costs,
  fmurty_m_best ieee64 (Arr2 ex157) 9 = Ok (map encode sols, costs) /\
  m_best_upto (acc_tol u64 2 4) 0 2 2 (me ex157) 9 sols costs.
Proof.
  assert (Hint : forall k : Z, (Z.abs k <= 10)%Z -> rep64 (IZR k)).
  { intros k Hk. destruct (Z_le_dec 0 k) as [H | H].
    - replace (IZR k) with (INR (Z.to_nat k)) by (rewrite INR_IZR_INZ, Z2Nat.id by lia; reflexivity).
      apply rep64_INR. pose proof u64_small. pose proof u64_nonneg.
      assert (INR (Z.to_nat k) <= 10) by (rewrite INR_IZR_INZ, Z2Nat.id by lia; apply IZR_le; lia).
      pose proof (pos_INR (Z.to_nat k)). nra.
    - replace (IZR k) with (- INR (Z.to_nat (- k))).
      + apply rep64_opp, rep64_INR. pose proof u64_small. pose proof u64_nonneg.
        assert (INR (Z.to_nat (- k)) <= 10) by (rewrite INR_IZR_INZ, Z2Nat.id by lia; apply IZR_le; lia).
        pose proof (pos_INR (Z.to_nat (- k))). nra.
      + rewrite INR_IZR_INZ, Z2Nat.id by lia. rewrite opp_IZR. ring. }
  assert (Hent : forall r c q, (r < 2)%nat -> (c < 2)%nat -> me ex157 r c = Fin q ->
     exists k : Z, q = IZR k /\ (Z.abs k <= 4)%Z).
  { intros r c q Hr Hc E. destruct r as [| [| r]]; [| | lia]; destruct c as [| [| c]]; try lia; try discriminate;
      apply Fin_inj_R in E; subst q; [exists 4%Z | exists (-1)%Z | exists (-3)%Z]; (split; [reflexivity | lia]). }
  apply (C158_murty_integers ex157 4 9); cbn [mr mc ex157]; try lra.
  - lia.
  - intros r c q Hr Hc E. destruct (Hent r c q Hr Hc E) as [k [-> Hk]]. apply Hint. lia.
  - intros r c q Hr Hc E. destruct (Hent r c q Hr Hc E) as [k [-> Hk]]. split; [exists k; reflexivity |].
    rewrite <- abs_IZR. apply IZR_le, Hk.
  - unfold assign_tol. replace (INR (Nat.min 2 (2 + 2))) with 2 by (cbn; ring).
    replace (INR (S (Nat.min 2 (2 + 2)) * (2 * 2 + 4))) with 24 by (cbn; ring). pose proof u64_small. lra.
  - replace (INR (2 + 2)) with 4 by (cbn; ring). pose proof u64_small. lra.
  - replace (INR (2 + 2)) with 4 by (cbn; ring). replace (INR 2) with 2 by (cbn; ring).
    apply Rle_trans with (bpow radix2 53); [| exact two53_le_fmax].
    change (bpow radix2 53) with (IZR (2 ^ 53)). apply Rle_trans with (IZR 19200); [lra | apply IZR_le; lia].
  - unfold rank_tol, assign_tol. replace (INR (Nat.min 2 (2 + 2))) with 2 by (cbn; ring).
    replace (INR (S (Nat.min 2 (2 + 2)) * (2 * 2 + 4))) with 24 by (cbn; ring).
    replace (INR (2 + 2)) with 4 by (cbn; ring). replace (INR 2) with 2 by (cbn; ring). pose proof u64_small. lra.
Qed.

Print Assumptions C157_murty_rounded.
Print Assumptions C157_murty_ieee.
Print Assumptions C158_murty_integers.
Print Assumptions rounded_murty_exact.
