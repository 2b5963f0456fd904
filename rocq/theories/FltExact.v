(** The rounded model with exact operations is the exact model. *)
From Verif Require Import RBase RHungModel FltModel.

(** With exact operations this is the exact model of RHungModel.v. *)
Lemma fcomp_exact orig a : forall row cost,
  fcomp_assign exact_arith orig row a cost = comp_assign orig row a cost.
Proof.
  induction a as [|[c|] a IH]; intros row cost; cbn [fcomp_assign comp_assign]; [reflexivity| |].
  - destruct (orig row c); rewrite IH; reflexivity.
  - rewrite IH; reflexivity.
Qed.
Lemma fstep3_exact nr nc md fuel : forall st, fstep3 exact_arith nr nc md fuel st = step3 nr nc md fuel st.
Proof.
  induction fuel as [|fuel IH]; intros st; cbn [fstep3 step3]; [reflexivity|].
  destruct (sweep_cols nr nc (seq 0 nc) st false) as [st1 row col|st1 [|]].
  - destruct (step4 nr nc st1 row col) as [st2|e]; cbn [bind]; [|reflexivity].
    destruct (count_lt _ nc =? md); [reflexivity|apply IH].
  - apply IH.
  - unfold fstep5, step5. destruct (step5_min nr nc st1) as [h|]; cbn [bind]; [apply IH|reflexivity].
Qed.
Theorem rounded_model_exact (a : ndarray) : fassign_opt exact_arith a = assign_opt a.
Proof.
  assert (H : forall m, fassign_opt2 exact_arith m = assign_opt2 m).
  { intros m. unfold fassign_opt2, assign_opt2.
    assert (Hs : forall nr nc c, fsolve exact_arith nr nc c = solve nr nc c).
    { intros nr nc c. unfold fsolve, solve, fstep2b, step2b. cbn [fsub exact_arith].
      destruct (nr <=? nc).
      - destruct (star_rows _ _ _ _ _) as [s k]. rewrite fstep3_exact. reflexivity.
      - destruct (star_cols _ _ _ _ _ _) as [[s k] rk]. rewrite fstep3_exact. reflexivity. }
    assert (Hv : forall nr nc mx, finf_value exact_arith nr nc mx = inf_value nr nc mx).
    { intros nr nc mx. unfold finf_value, inf_value. cbn [fmul exact_arith]. rewrite !INR_IZR_INZ. reflexivity. }
    destruct (any_entry _ _ _ _); [reflexivity|]. destruct (negb _); [reflexivity|].
    destruct (any_entry _ _ _ _).
    - destruct (max_finite _ _ _) as [mx|]; [|reflexivity]. rewrite Hv, Hs.
      destruct (solve _ _ _) as [s|]; cbn [bind]; [rewrite fcomp_exact|]; reflexivity.
    - rewrite Hs. destruct (solve _ _ _) as [s|]; cbn [bind]; [rewrite fcomp_exact|]; reflexivity. }
  destruct a as [n f|m|]; cbn [fassign_opt assign_opt]; auto.
Qed.
