(** C180: how many births CPHD predict assumes.  Every birth mixture adds all its
    components to the intensity, but only its first weight to the expected
    number of births of the cardinality prediction (tracker.py:1382-1386). *)
From Verif Require Import Base Lists.
From Verif Require Import OspaModel OspaProofs CphdModel CphdSpec CphdProofs CphdProps CphdThin.
From Coq Require Import Reals Lra.
Open Scope R_scope.

(** Expected number of births: all weights of all birth mixtures. *)
Definition expected_births {V M} (births : list (rmix V M)) : R := rsum (concat (map (@rm_w V M) births)).
(** Certainly no object at all. *)
Definition no_object (rho : list R) : Prop := nth 0 rho 0 = 1 /\ forall i, (1 <= i)%nat -> nth i rho 0 = 0.

Lemma thinned_none ps mx rho j : no_object rho -> thinned ps mx rho j = if (j =? 0)%nat then 1 else 0.
Proof.
  intros [H0 H1]. unfold thinned. destruct j as [|j]; cbn [Nat.eqb].
  - assert (E : forall m, sum_ab 0 m (fun i => C i 0 * ps ^ 0 * (1 - ps) ^ (i - 0) * nth i rho 0) = 1).
    { induction m as [|m IH].
      - rewrite sum_ab_1, H0. unfold C. cbn. field.
      - rewrite sum_ab_S by lia. rewrite IH, (H1 (S m)) by lia. ring. }
    apply E.
  - rewrite (sum_ab_ext _ _ _ (fun i => 0 * INR i)).
    + rewrite sum_ab_scale. ring.
    + intros i Hi. rewrite (H1 i) by lia. ring.
Qed.
Lemma predicted_none ps b mx rho n : no_object rho -> predicted ps b mx rho n = poisson b n.
Proof.
  intros H. unfold predicted.
  assert (E : forall m, (m <= n)%nat -> sum_ab 0 m (fun j => poisson b (n - j) * thinned ps mx rho j) = poisson b n).
  { induction m as [|m IH]; intros Hm.
    - rewrite sum_ab_1, thinned_none by exact H. cbn [Nat.eqb]. rewrite Nat.sub_0_r. ring.
    - rewrite sum_ab_S by lia. rewrite IH, thinned_none by (lia || exact H). cbn [Nat.eqb]. ring. }
  apply E. lia.
Qed.
Lemma poisson_pos b k : 0 < b -> 0 < poisson b k.
Proof. intros H. unfold poisson. apply Rdiv_lt_0_compat; [|apply fact_pos]. apply Rmult_lt_0_compat; [apply exp_pos|apply pow_lt, H]. Qed.

(** Starting from no object, the predicted probability of one birth is the sum
    of the first weights times that of none, whatever the other weights are; so
    the prediction is the one for that number of births, and differs from the
    one for the expected number whenever the two numbers differ. *)
Theorem C180_birth_count_refuted : forall {V M Meas} (c : ccfg V M Meas) s b,
  0 < k_ps c < 1 -> first_weights (k_birth c) b -> 0 < b -> 0 < expected_births (k_birth c) ->
  (2 <= cp_max s)%nat -> distribution (cp_max s) (cp_card s) -> no_object (cp_card s) ->
  exists s', cp_predict c s = Ok s' /\ 0 < nth 0 (cp_card s') 0 /\ nth 1 (cp_card s') 0 = b * nth 0 (cp_card s') 0 /\
    ((forall n, (n <= cp_max s)%nat -> nth n (cp_card s') 0 = predicted_norm (k_ps c) (expected_births (k_birth c)) (cp_max s) (cp_card s) n)
     <-> b = expected_births (k_birth c)).
Proof.
  intros V M Meas c s b Hps Hb Hp HB Hm Hd Hn. set (B := expected_births (k_birth c)) in *.
  destruct (C42_cphd_predict_partial c s b Hps Hb Hp Hm Hd) as [s' [E [L P]]]; [intros i Hi; apply (proj2 Hn); lia|].
  exists s'. split; [exact E|].
  assert (S : forall x, 0 < x -> 0 < sum_ab 0 (cp_max s) (predicted (k_ps c) x (cp_max s) (cp_card s))).
  { intros x Hx. apply (sum_ab_pos _ _ _ 0%nat); [intros i _; rewrite predicted_none by exact Hn; left; apply poisson_pos, Hx|lia|rewrite predicted_none by exact Hn; apply poisson_pos, Hx]. }
  assert (R0 : forall x, 0 < x -> 0 < predicted_norm (k_ps c) x (cp_max s) (cp_card s) 0).
  { intros x Hx. unfold predicted_norm. apply Rdiv_lt_0_compat; [rewrite predicted_none by exact Hn; apply poisson_pos, Hx|apply S, Hx]. }
  assert (R1 : forall x, 0 < x -> predicted_norm (k_ps c) x (cp_max s) (cp_card s) 1 = x * predicted_norm (k_ps c) x (cp_max s) (cp_card s) 0).
  { intros x Hx. unfold predicted_norm. rewrite !(predicted_none _ _ _ _ _ Hn). specialize (S x Hx). unfold poisson. cbn [pow fact Nat.mul Nat.add INR]. field. lra. }
  rewrite (P 0%nat), (P 1%nat) by lia. split; [apply R0, Hp|]. split; [apply R1, Hp|]. split.
  - intros H. assert (H0 := H 0%nat ltac:(lia)). assert (H1 := H 1%nat ltac:(lia)). rewrite (P 0%nat) in H0 by lia. rewrite (P 1%nat) in H1 by lia.
    rewrite (R1 b Hp), (R1 B HB), H0 in H1. apply Rmult_eq_reg_r in H1; [exact H1|]. apply Rgt_not_eq, R0, HB.
  - intros <- n Hk. apply P, Hk.
Qed.
Print Assumptions C180_birth_count_refuted.
(** A birth mixture with two components of weight 1: the prediction assumes one
    birth. *)
Definition two_births : list (rmix nat nat) := [{| rm_w := [1; 1]; rm_m := [0%nat; 5%nat]; rm_p := [0%nat; 0%nat] |}].
Theorem C180_birth_count_witness_refuted : exists (c : ccfg nat nat nat) s s', 0 < k_ps c < 1 /\ expected_births (k_birth c) = 2 /\
  distribution (cp_max s) (cp_card s) /\ no_object (cp_card s) /\ cp_predict c s = Ok s' /\
  nth 1 (cp_card s') 0 = nth 0 (cp_card s') 0 /\
  predicted_norm (k_ps c) 2 (cp_max s) (cp_card s) 1 = 2 * predicted_norm (k_ps c) 2 (cp_max s) (cp_card s) 0.
Proof.
  set (g := {| rm_w := []; rm_m := []; rm_p := [] |} : rmix nat nat).
  assert (D : distribution 2 [1; 0; 0]) by (split; [reflexivity|]; split; [intros x [<-|[<-|[<-|[]]]]; lra|cbn; ring]).
  assert (N : no_object [1; 0; 0]) by (split; [reflexivity|]; intros [|[|[|[|i]]]] Hi; try lia; reflexivity).
  assert (B : expected_births (k_birth (ex_c (1/2) 1 1 two_births)) = 2) by (unfold expected_births, two_births; cbn; ring).
  assert (H : 0 < k_ps (ex_c (1/2) 1 1 two_births) < 1) by (cbn; lra).
  assert (F : first_weights (k_birth (ex_c (1/2) 1 1 two_births)) 1) by (exists [1]; split; [repeat constructor|cbn; ring]).
  exists (ex_c (1/2) 1 1 two_births), (ex_s 2 [1; 0; 0] g).
  destruct (C180_birth_count_refuted (ex_c (1/2) 1 1 two_births) (ex_s 2 [1; 0; 0] g) 1 H F Rlt_0_1) as [s' [E [P [R _]]]]; [rewrite B; lra|cbn; lia|exact D|exact N|].
  exists s'. split; [exact H|]. split; [exact B|]. split; [exact D|]. split; [exact N|]. split; [exact E|]. split; [rewrite R; ring|].
  cbn [ex_s cp_max cp_card ex_c k_ps]. unfold predicted_norm. rewrite !(predicted_none _ _ _ _ _ N).
  assert (S : 0 < sum_ab 0 2 (predicted (1/2) 2 2 [1; 0; 0])).
  { apply (sum_ab_pos _ _ _ 0%nat); [intros i _; rewrite predicted_none by exact N; left; apply poisson_pos; lra|lia|rewrite predicted_none by exact N; apply poisson_pos; lra]. }
  unfold poisson. cbn [pow fact Nat.mul Nat.add INR]. field. lra.
Qed.
Print Assumptions C180_birth_count_witness_refuted.
(** Birth mixtures with one component each are counted in full. *)
Theorem C180_birth_count_partial : forall {V M} (births : list (rmix V M)) b,
  first_weights births b -> (forall g, In g births -> length (rm_w g) = 1%nat) -> b = expected_births births.
Proof.
  intros V M births b [l [F ->]] H. unfold expected_births. induction F as [|g w gs ws E F IH]; [reflexivity|].
  cbn [map concat]. rewrite rsum_app. change (rsum (w :: ws)) with (w + rsum ws). rewrite IH by (intros x Hx; apply H; right; exact Hx).
  specialize (H g (or_introl eq_refl)). destruct (rm_w g) as [|x [|y t]]; try discriminate H. injection E as ->. cbn. ring.
Qed.
Print Assumptions C180_birth_count_partial.
Example C180_ex : forall ps pd rate, first_weights (k_birth (ex_c ps pd rate ex_birth)) 1 /\ forall g, In g (k_birth (ex_c ps pd rate ex_birth)) -> length (rm_w g) = 1%nat.
Proof. intros ps pd rate. split; [apply ex_birth_sum|]. intros g [<-|[]]. reflexivity. Qed.
