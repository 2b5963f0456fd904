(** [assign_opt] in double precision: from the matching to the returned vector
    and cost. *)
From Coq Require Import Reals List ZArith Lra Lia Bool.
From Flocq Require Import Core.
From Verif Require Import RBase RHungModel RHungSpec RHungProofs FltIeee FltGibbs FltGibbsProps FltNear FltPhd FltPhdMerge FltHungModel FltHungGen FltHungErr.
Import ListNotations.
Local Open Scope R_scope.

(** The selected costs, row by row. *)
Definition sel (e : nat -> nat -> ext) (l : list (nat * nat)) : list R := map (fun rc => fin_val (e (fst rc) (snd rc))) l.
Lemma comp_assignf_spec orig a : forall k cost,
  let '(v, t) := comp_assignf orig k a cost in
  length v = length a /\
  pairs_from k v = filter (fun rc => is_fin (orig (fst rc) (snd rc))) (pairs_from k a) /\
  t = fold_left add64 (sel orig (pairs_from k v)) cost.
Proof.
  induction a as [|o a IH]; intros k cost; cbn [comp_assignf pairs_from].
  - split; [reflexivity|]. split; reflexivity.
  - destruct o as [c|].
    + destruct (orig k c) as [q|] eqn:E.
      * specialize (IH (S k) (add64 cost q)). destruct (comp_assignf orig (S k) a (add64 cost q)) as [v t].
        destruct IH as [H1 [H2 H3]]. cbn [length pairs_from filter fst snd]. rewrite E. cbn [is_fin].
        split; [lia|]. split; [f_equal; exact H2|]. unfold sel in *. cbn [map fst snd fold_left]. rewrite E. exact H3.
      * specialize (IH (S k) cost). destruct (comp_assignf orig (S k) a cost) as [v t].
        destruct IH as [H1 [H2 H3]]. cbn [length pairs_from filter fst snd]. rewrite E. cbn [is_fin]. auto.
    + specialize (IH (S k) cost). destruct (comp_assignf orig (S k) a cost) as [v t].
      destruct IH as [H1 [H2 H3]]. cbn [length pairs_from]. auto.
Qed.

Section Finish.
Variables nr nc : nat.
Notation md := (Nat.min nr nc).
Variable e : nat -> nat -> ext.
Variable c : nat -> nat -> R.
Variables B mx rho : R.
Variable star : nat -> nat -> bool.
Notation l := (pairs (build_assign nr nc star)).
Hypothesis Cf : forall r k q, (r < nr)%nat -> (k < nc)%nat -> e r k = Fin q -> c r k = q.
Hypothesis Ci : forall r k, (r < nr)%nat -> (k < nc)%nat -> e r k = Inf -> c r k = B.
Hypothesis Cb : forall r k, (r < nr)%nat -> (k < nc)%nat -> 0 <= c r k <= B.
Hypothesis Cm : forall r k q, (r < nr)%nat -> (k < nc)%nat -> e r k = Fin q -> q <= mx.
Hypothesis Hpl : plist_ok nr nc l.
Hypothesis Hlen : length l = md.
Hypothesis Hrho : 0 <= rho.
Hypothesis Hnear : forall b, plist_ok nr nc b -> length b = md -> pcost c l <= pcost c b * (1 + rho).
Hypothesis Hinf : (forall r k, (r < nr)%nat -> (k < nc)%nat -> e r k <> Inf) \/
  (0 <= mx /\ 0 < B /\ 9 * (INR md * mx) <= B /\ rho * INR md <= / 4).

Lemma NDmap {X Y} (g : X -> Y) f (ll : list X) : NoDup (map g ll) -> NoDup (map g (filter f ll)).
Proof.
  induction ll as [|x ll IH]; cbn [map filter]; intros H; [constructor|].
  inversion H; subst. destruct (f x); cbn [map]; [|auto]. constructor; [|auto].
  intros Hin. apply H2. apply in_map_iff in Hin as [y [Ey Hy]]. apply filter_In in Hy.
  apply in_map_iff. exists y; tauto.
Qed.
Lemma finish : let '(a, t) := comp_assignf e 0 (build_assign nr nc star) 0 in
  is_assignment nr nc a /\ inf_free e a /\ t = fold_left add64 (sel e (pairs a)) 0 /\
  forall b, is_assignment nr nc b -> inf_free e b ->
    (assign_size b <= assign_size a)%nat /\
    (assign_size b = assign_size a ->
       assign_cost e a <= assign_cost e b * (1 + rho) + rho * (B * INR (md - assign_size a))).
Proof.
  pose proof (comp_assignf_spec e (build_assign nr nc star) 0 0) as Hca.
  destruct (comp_assignf e 0 (build_assign nr nc star) 0) as [a t].
  destruct Hca as [Ha1 [Ha2 Ha3]]. fold (pairs a) in Ha2, Ha3. fold l in Ha2.
  set (fin := fun rc : nat * nat => is_fin (e (fst rc) (snd rc))) in *.
  assert (Hfin : forall r k, In (r, k) (filter fin l) <-> In (r, k) l /\ exists q, e r k = Fin q).
  { intros r k. rewrite filter_In. unfold fin; cbn [fst snd]. destruct (e r k) as [q|]; cbn [is_fin].
    - split; [intros [A _]; eauto|tauto].
    - split; [intros [_ A]; discriminate|intros [_ [q A]]; discriminate]. }
  split; [|split; [|split]].
  - split; [rewrite Ha1; unfold build_assign; rewrite map_length, seq_length; reflexivity|].
    rewrite Ha2. split.
    + intros r k H. apply Hfin in H as [H _]. destruct Hpl as [_ [_ Hp]]. apply (Hp r k H).
    + apply NDmap. apply Hpl.
  - intros r k. rewrite Ha2. intros H. apply Hfin in H. tauto.
  - exact Ha3.
  - intros b Hb Hbf. pose proof (assignment_plist _ _ _ Hb) as Hbp.
    pose proof (plist_le _ _ _ Hbp) as Hbl.
    destruct (extend_full nr nc (pairs b) Hbp Hbl) as [ex [Hex Hexl]].
    pose proof (Hnear _ Hex Hexl) as Hopt.
    assert (Eq_fin : forall ll, (forall r k, In (r, k) ll -> (r < nr)%nat /\ (k < nc)%nat) ->
       (forall r k, In (r, k) ll -> exists q, e r k = Fin q) ->
       pcost c ll = rsum (map (fun rc => fin_val (e (fst rc) (snd rc))) ll)).
    { intros ll H1 H2. apply qsum_map_eq. intros [r k] H. cbn [fst snd]. destruct (H2 r k H) as [q Eq].
      destruct (H1 r k H). rewrite (Cf r k q), Eq by auto. reflexivity. }
    assert (Ecb : pcost c (pairs b) = assign_cost e b).
    { apply Eq_fin; [apply Hbp|exact Hbf]. }
    assert (Eca : pcost c (filter fin l) = assign_cost e a).
    { unfold assign_cost. rewrite Ha2. apply Eq_fin.
      - intros r k H. apply Hfin in H as [H _]. apply Hpl, H.
      - intros r k H. apply Hfin in H. tauto. }
    assert (Esa : assign_size a = length (filter fin l)) by (unfold assign_size; rewrite Ha2; reflexivity).
    unfold assign_size at 1 3. rewrite Esa.
    set (lf := filter fin l) in *. set (li := filter (fun x => negb (fin x)) l).
    assert (Eli : pcost c li = B * Rn (length li)).
    { unfold pcost. transitivity (rsum (map (fun _ : nat * nat => B) li)); [|apply qsum_map_const].
      apply qsum_map_eq. intros [r k] H. unfold li in H. apply filter_In in H as [H1 H2].
      unfold fin in H2. cbn [fst snd] in *. destruct (e r k) eqn:Eq; [discriminate|].
      destruct Hpl as [_ [_ Hp]]. destruct (Hp r k H1). rewrite Ci by auto. reflexivity. }
    assert (Elen : length li = (md - length lf)%nat).
    { pose proof (filter_len fin l) as H. fold lf li in H. lia. }
    assert (Eex : length ex = (md - length (pairs b))%nat) by (rewrite app_length in Hexl; lia).
    assert (Bex : pcost c ex <= B * Rn (length ex)).
    { apply (pcost_bounds c 0%R B ex). intros r k H. destruct Hex as [_ [_ Hex]].
      destruct (Hex r k) as [X1 X2]; [apply in_app_iff; auto|]. apply Cb; assumption. }
    rewrite (pcost_filter c fin l) in Hopt. fold lf li in Hopt.
    rewrite Eli, Elen, pcost_app in Hopt. rewrite Eex in Bex. unfold Rn in *. rewrite <- INR_IZR_INZ in *.
    assert (Pb0 : 0 <= pcost c (pairs b)).
    { apply qsum_nonneg. intros x Hx. apply in_map_iff in Hx as [[r k] [<- Hx]]. apply Cb; apply (proj2 (proj2 Hbp) r k Hx). }
    assert (Pl0 : 0 <= pcost c lf).
    { apply qsum_nonneg. intros x Hx. apply in_map_iff in Hx as [[r k] [<- Hx]]. apply Hfin in Hx as [Hx _]. apply Cb; apply (proj2 (proj2 Hpl) r k Hx). }
    split.
    + destruct (Nat.le_gt_cases (length (pairs b)) (length lf)) as [|Hgt]; [assumption|]. exfalso.
      destruct Hinf as [Hno|[Hm0 [HB0 [HB Hr]]]].
      * assert (El : lf = l); [|rewrite El in Hgt; lia].
        unfold lf. assert (HH : forall ll, incl ll l -> filter fin ll = ll).
        { induction ll as [|[r k] ll IH]; intros Hi; [reflexivity|]. cbn [filter].
          assert (Hin : In (r, k) l) by (apply Hi; left; reflexivity).
          destruct (proj2 (proj2 Hpl) r k Hin) as [R1 R2]. specialize (Hno r k R1 R2).
          unfold fin at 1. cbn [fst snd]. destruct (e r k); [|congruence]. cbn [is_fin]. f_equal. apply IH.
          intros x Hx. apply Hi. right; exact Hx. }
        apply HH. intros x Hx; exact Hx.
      * assert (Bb : pcost c (pairs b) <= mx * INR (length (pairs b))).
        { pose proof (pcost_bounds c 0%R mx (pairs b)) as PB. unfold Rn in PB. rewrite <- INR_IZR_INZ in PB. apply PB.
          intros r k H. destruct (Hbf r k H) as [q Eq]. destruct (proj2 (proj2 Hbp) r k H) as [R1 R2].
          pose proof (Cf r k q R1 R2 Eq) as Ecq. split; [apply Cb; assumption|]. rewrite Ecq. exact (Cm r k q R1 R2 Eq). }
        assert (L1 : INR (length (pairs b)) <= INR md) by (apply le_INR, Hbl).
        assert (L2 : mx * INR (length (pairs b)) <= mx * INR md) by (apply Rmult_le_compat_l; assumption).
        assert (L3 : (md - length (pairs b) + 1 <= md - length lf)%nat) by lia.
        apply le_INR in L3. rewrite plus_INR in L3. cbn [INR] in L3.
        assert (L4 : INR (md - length (pairs b)) + 1 <= INR md).
        { assert (md - length (pairs b) + 1 <= md)%nat by lia. apply le_INR in H. rewrite plus_INR in H. exact H. }
        set (n := INR (md - length (pairs b))) in *. set (j := INR (md - length lf)) in *.
        assert (n0 : 0 <= n) by apply pos_INR. assert (m0 : 1 <= INR md) by lra.
        assert (L5 : B * (n + 1) <= B * j) by (apply Rmult_le_compat_l; lra).
        assert (r1 : rho * 1 <= rho * INR md) by (apply Rmult_le_compat_l; assumption).
        assert (L6 : (pcost c ex + pcost c (pairs b)) * (1 + rho) <= (B * n + B / 9) * (1 + rho)) by (apply Rmult_le_compat_r; lra).
        assert (L7 : rho * n <= rho * INR md) by (apply Rmult_le_compat_l; lra).
        assert (L8 : B * (rho * n) <= B * / 4) by (apply Rmult_le_compat_l; lra).
        assert (L9 : B * rho <= B * / 4) by (apply Rmult_le_compat_l; lra). lra.
    + intros Esz. rewrite Esz in Bex. rewrite <- Eca, <- Ecb.
      assert (X : pcost c ex * (1 + rho) <= B * INR (md - length lf) * (1 + rho)) by (apply Rmult_le_compat_r; lra). lra.
Qed.
End Finish.

(** The value put in place of inf. *)
Lemma fmt_nat x n : fmt x -> exists a, x * INR n = IZR a * bp (-1074).
Proof.
  intros Hx. destruct (fmt_int x Hx) as [a Ea]. exists (a * Z.of_nat n)%Z. rewrite mult_IZR, <- INR_IZR_INZ, Ea. ring.
Qed.
Lemma mul_nat_err x n : fmt x -> 0 <= x -> Rabs (mul64 x (INR n) - x * INR n) <= u64 * (x * INR n).
Proof.
  intros Hx H0. destruct (fmt_nat x n Hx) as [a Ea]. unfold mul64. rewrite Ea.
  assert (P : 0 <= IZR a * bp (-1074)) by (rewrite <- Ea; apply Rmult_le_pos; [exact H0|apply pos_INR]).
  pose proof (rnd_int a) as H. cbn zeta in H. rewrite (Rabs_pos_eq (IZR a * bp (-1074))) in H by exact P. exact H.
Qed.
Lemma inf_value64_pos nr nc mx : 0 < mx -> fmt mx -> u64 <= / 64 -> (0 < nr)%nat -> (0 < nc)%nat ->
  9 * mx * INR nr * INR nc <= inf_value64 nr nc mx <= 11 * mx * INR nr * INR nc /\ fmt (inf_value64 nr nc mx).
Proof.
  intros H0 HF Hu Hr Hc. unfold inf_value64. rewrite (proj2 (Rltb_lt 0 mx) H0).
  split; [|apply rnd_fmt].
  assert (E1 : mul64 10 mx = mul64 mx (INR 10)) by (unfold mul64; f_equal; replace (INR 10) with 10 by (rewrite INR_IZR_INZ; reflexivity); ring).
  rewrite E1. pose proof u64_pos as Hp.
  apply (le_INR 1) in Hr. apply (le_INR 1) in Hc. cbn [INR] in Hr, Hc. 
  assert (T : forall x n, fmt x -> 0 < x -> 1 <= INR n -> fmt (mul64 x (INR n)) /\ x * INR n * (1 - u64) <= mul64 x (INR n) <= x * INR n * (1 + u64)).
  { intros x n Fx X0 N1. split; [apply rnd_fmt|]. pose proof (mul_nat_err x n Fx ltac:(lra)) as E. apply Rabs_le_inv in E. lra. }
  assert (I10 : INR 10 = 10) by (rewrite INR_IZR_INZ; reflexivity).
  destruct (T mx 10%nat HF H0) as [F1 [A1 B1]]; [rewrite I10; lra|]. rewrite I10 in *. set (x1 := mul64 mx 10) in *.
  assert (X1 : 0 < x1).
  { assert (0 < mx * 10 * (1 - u64)) by (repeat apply Rmult_lt_0_compat; lra). lra. }
  destruct (T x1 nr F1 X1 Hr) as [F2 [A2 B2]]. set (x2 := mul64 x1 (INR nr)) in *.
  assert (X2 : 0 < x2).
  { assert (Q : 0 < x1 * INR nr * (1 - u64)) by (apply Rmult_lt_0_compat; [apply Rmult_lt_0_compat|]; lra). lra. }
  destruct (T x2 nc F2 X2 Hc) as [F3 [A3 B3]].
  set (p := mx * INR nr * INR nc). assert (P0 : 0 < p) by (unfold p; repeat apply Rmult_lt_0_compat; lra).
  split.
  - eapply Rle_trans; [|exact A3].
    assert (Y1 : mx * 10 * (1 - u64) * (INR nr * (1 - u64)) <= x2).
    { eapply Rle_trans; [|exact A2]. rewrite <- Rmult_assoc. repeat apply Rmult_le_compat_r; lra. }
    assert (Y2 : mx * 10 * (1 - u64) * (INR nr * (1 - u64)) * INR nc * (1 - u64) <= x2 * INR nc * (1 - u64)) by (repeat apply Rmult_le_compat_r; lra).
    eapply Rle_trans; [|exact Y2].
    replace (9 * mx * INR nr * INR nc) with (p * 9) by (unfold p; ring).
    replace (mx * 10 * (1 - u64) * (INR nr * (1 - u64)) * INR nc * (1 - u64)) with (p * (10 * ((1 - u64) * (1 - u64) * (1 - u64)))) by (unfold p; ring).
    apply Rmult_le_compat_l; [lra|].
    assert (V1 : 1 - 2 * u64 <= (1 - u64) * (1 - u64)) by (pose proof (Rle_0_sqr u64) as Q; unfold Rsqr in Q; lra).
    assert (V2 : (1 - 2 * u64) * (1 - u64) <= (1 - u64) * (1 - u64) * (1 - u64)) by (apply Rmult_le_compat_r; lra).
    pose proof (Rle_0_sqr u64) as Q; unfold Rsqr in Q. lra.
  - eapply Rle_trans; [exact B3|].
    assert (Y1 : x2 <= mx * 10 * (1 + u64) * (INR nr * (1 + u64))).
    { eapply Rle_trans; [exact B2|]. rewrite <- Rmult_assoc. repeat apply Rmult_le_compat_r; lra. }
    assert (Y2 : x2 * INR nc * (1 + u64) <= mx * 10 * (1 + u64) * (INR nr * (1 + u64)) * INR nc * (1 + u64)) by (repeat apply Rmult_le_compat_r; lra).
    eapply Rle_trans; [exact Y2|].
    replace (11 * mx * INR nr * INR nc) with (p * 11) by (unfold p; ring).
    replace (mx * 10 * (1 + u64) * (INR nr * (1 + u64)) * INR nc * (1 + u64)) with (p * (10 * ((1 + u64) * (1 + u64) * (1 + u64)))) by (unfold p; ring).
    apply Rmult_le_compat_l; [lra|].
    assert (V0 : u64 * u64 <= / 64 * u64) by (apply Rmult_le_compat_r; lra).
    assert (V1 : (1 + u64) * (1 + u64) <= 1 + 3 * u64) by lra.
    assert (V2 : (1 + u64) * (1 + u64) * (1 + u64) <= (1 + 3 * u64) * (1 + u64)) by (apply Rmult_le_compat_r; lra). lra.
Qed.
