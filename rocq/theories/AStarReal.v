(** The root-free comparison used by the A* model is the comparison of the real
    numbers f = g + h. *)
From Verif Require Import Base AStarModel.
From Coq Require Import Reals Lra Qreals.
Open Scope R_scope.

Lemma Q2R_inject_Z z : Q2R (inject_Z z) = IZR z.
Proof. unfold Q2R, inject_Z. cbn [Qnum Qden]. rewrite Rinv_1. ring. Qed.
Lemma Qltb_Rlt a b : Qltb a b = true <-> Q2R a < Q2R b.
Proof. rewrite Qltb_lt. split; [apply Qlt_Rlt|apply Rlt_Qlt]. Qed.
Lemma Qltb_Rge a b : Qltb a b = false <-> Q2R b <= Q2R a.
Proof. rewrite Qltb_ge. split; [apply Qle_Rle|apply Rle_Qle]. Qed.

Lemma sq_lt x y : 0 <= x -> 0 <= y -> x * x < y * y -> x < y.
Proof. intros Hx Hy H. destruct (Rlt_or_le x y) as [|Hle]; [assumption|]. exfalso. nra. Qed.
Lemma sq_lt' x y : 0 <= x -> x < y -> x * x < y * y.
Proof. intros. nra. Qed.

Lemma sum_sqrt_lt_spec g1 a g2 b : (0 <= a)%Z -> (0 <= b)%Z ->
  sum_sqrt_lt g1 a g2 b = true <-> Q2R g1 + sqrt (IZR a) < Q2R g2 + sqrt (IZR b).
Proof.
  intros Ha Hb. unfold sum_sqrt_lt. cbn zeta.
  apply IZR_le in Ha, Hb.
  pose proof (sqrt_pos (IZR a)) as Sa. pose proof (sqrt_pos (IZR b)) as Sb.
  pose proof (sqrt_sqrt (IZR a) Ha) as Ea. pose proof (sqrt_sqrt (IZR b) Hb) as Eb.
  set (sa := sqrt (IZR a)) in *. set (sb := sqrt (IZR b)) in *.
  set (d := (g2 - g1)%Q). set (D := Q2R g2 - Q2R g1).
  assert (HD : Q2R d = D) by (unfold d, D; rewrite Q2R_minus; reflexivity).
  destruct (Qle_bool 0 d) eqn:Ed.
  - apply Qleb_le, Qle_Rle in Ed. rewrite HD, RMicromega.Q2R_0 in Ed.
    destruct (Qltb (inject_Z a - d * d - inject_Z b) 0) eqn:E1.
    + split; [intros _|reflexivity]. apply Qltb_Rlt in E1.
      rewrite !Q2R_minus, Q2R_mult, !Q2R_inject_Z, HD, RMicromega.Q2R_0 in E1.
      enough (sa < D + sb) by (unfold D in *; lra). apply sq_lt; [lra|lra|]. nra.
    + apply Qltb_Rge in E1. rewrite !Q2R_minus, Q2R_mult, !Q2R_inject_Z, HD, RMicromega.Q2R_0 in E1.
      rewrite Qltb_Rlt. rewrite !Q2R_mult, !Q2R_minus, !Q2R_mult, !Q2R_inject_Z, HD.
      replace (Q2R 4) with 4 by (unfold Q2R; cbn; lra).
      assert (Heq : 4 * D * D * IZR b = (2 * D * sb) * (2 * D * sb)) by (rewrite <- Eb; ring). rewrite Heq.
      assert (Hp : 0 <= D * sb) by (apply Rmult_le_pos; assumption).
      split; intros H.
      * apply sq_lt in H; [|lra|lra]. enough (sa < D + sb) by (unfold D in *; lra). apply sq_lt; [lra|lra|]. nra.
      * apply sq_lt'; [lra|]. assert (sa < D + sb) by (unfold D in *; lra).
        assert (sa * sa < (D + sb) * (D + sb)) by (apply sq_lt'; lra). nra.
  - apply Qleb_gt, Qlt_Rlt in Ed. rewrite HD, RMicromega.Q2R_0 in Ed.
    destruct (Qltb 0 (inject_Z b - inject_Z a - d * d)) eqn:E1.
    + apply Qltb_Rlt in E1. rewrite !Q2R_minus, Q2R_mult, !Q2R_inject_Z, HD, RMicromega.Q2R_0 in E1.
      rewrite Qltb_Rlt. rewrite !Q2R_mult, !Q2R_minus, !Q2R_mult, !Q2R_inject_Z, HD.
      replace (Q2R 4) with 4 by (unfold Q2R; cbn; lra).
      assert (Heq : 4 * D * D * IZR a = (2 * -D * sa) * (2 * -D * sa)) by (rewrite <- Ea; ring). rewrite Heq.
      assert (Hp : 0 <= -D * sa) by (apply Rmult_le_pos; lra).
      split; intros H.
      * apply sq_lt in H; [|lra|lra]. enough (sa - D < sb) by (unfold D in *; lra). apply sq_lt; [lra|lra|]. nra.
      * apply sq_lt'; [lra|]. assert (sa - D < sb) by (unfold D in *; lra).
        assert ((sa - D) * (sa - D) < sb * sb) by (apply sq_lt'; lra). nra.
    + split; [discriminate|]. intros H. exfalso. apply Qltb_Rge in E1.
      rewrite !Q2R_minus, Q2R_mult, !Q2R_inject_Z, HD, RMicromega.Q2R_0 in E1.
      assert (sa - D < sb) by (unfold D in *; lra).
      assert ((sa - D) * (sa - D) < sb * sb) by (apply sq_lt'; lra).
      assert (Hp : 0 <= -D * sa) by (apply Rmult_le_pos; lra). nra.
Qed.
