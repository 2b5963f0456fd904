(** [gibbs] in double precision: draws, sweeps and the whole function. *)
From Coq Require Import Reals ZArith Lra Lia.
From Verif Require Import RBase GibbsModel GibbsProofs GibbsSpec FltModel FltSpec FltIeee FltGibbsModel FltGibbs FltGibbsDraw.
Local Open Scope R_scope.

Section G.
Context {C : Type} (cd : C) (csum : list C -> C) (costs : list (list C)) (M : nat) (expw : C -> R).
Notation N := (length costs).
Notation W i j := (expw (nth j (nth i costs []) cd)).
Context (HM : 4 * INR M * u64 <= 1).
Context (HW : forall i j, (i < N)%nat -> (j < M)%nat -> rep64 (W i j) /\ 0 <= W i j /\ 2 * INR M * W i j <= fmax64).

Definition gusable cur v j := (j < M)%nat /\ ~ In j (others cur v) /\ 0 < W v j.
Lemma existsb_in j l : existsb (Nat.eqb j) l = true <-> In j l.
Proof.
  rewrite existsb_exists. split.
  - intros [x [Hx E]]. apply Nat.eqb_eq in E. subst x. exact Hx.
  - intros H. exists j. split; [exact H|apply Nat.eqb_refl].
Qed.
Lemma gold_ind_in cur v j : In j (gold_ind 0%R Rltb cd costs M expw cur v) <-> gusable cur v j.
Proof.
  unfold gold_ind, gusable. rewrite filter_In, in_seq, Rltb_lt. unfold gweight.
  destruct (existsb (Nat.eqb j) (others cur v)) eqn:E.
  - apply existsb_in in E. split; [intros [_ H]; lra|tauto].
  - assert (~ In j (others cur v)) by (intros H; apply existsb_in in H; congruence).
    split; [intros [H1 H2]; split; [lia|auto]|intros [H1 [_ H2]]; split; [lia|exact H2]].
Qed.
Lemma gold_ind_nodup cur v : NoDup (gold_ind 0%R Rltb cd costs M expw cur v).
Proof. apply NoDup_filter, seq_NoDup. Qed.
Lemma gold_ind_length cur v : (length (gold_ind 0%R Rltb cd costs M expw cur v) <= M)%nat.
Proof.
  rewrite <- (seq_length M 0) at 2. apply NoDup_incl_length; [apply gold_ind_nodup|].
  intros j Hj. apply gold_ind_in in Hj as [H _]. apply in_seq. lia.
Qed.
(** The free columns are those not held by the other N - 1 variables. *)
Lemma gold_ind_free cur v : length cur = N -> (v < N)%nat -> (forall j, In j cur -> (j < M)%nat) -> NoDup cur ->
  (length (gold_ind 0%R Rltb cd costs M expw cur v) + (N - 1) <= M)%nat.
Proof.
  intros L Hv B ND. rewrite <- L. rewrite <- (others_length cur v) by lia. rewrite <- app_length.
  rewrite <- (seq_length M 0) at 2. apply NoDup_incl_length.
  - assert (NO : NoDup (others cur v)) by (apply others_nodup; [lia|exact ND]).
    assert (Hd : forall j, In j (gold_ind 0%R Rltb cd costs M expw cur v) -> ~ In j (others cur v)).
    { intros j Hj. apply gold_ind_in in Hj. apply Hj. }
    revert Hd. generalize (gold_ind_nodup cur v). generalize (gold_ind 0%R Rltb cd costs M expw cur v).
    induction l as [|x l IH]; intros NDl Hd; [exact NO|]. cbn [app]. inversion NDl; subst. constructor.
    + rewrite in_app_iff. intros [H|H]; [contradiction|]. apply (Hd x); [left; reflexivity|exact H].
    + apply IH; [assumption|]. intros j Hj. apply Hd. right. exact Hj.
  - intros j Hj. apply in_app_or in Hj as [Hj|Hj]; apply in_seq.
    + apply gold_ind_in in Hj as [H _]. lia.
    + apply others_incl in Hj. apply B in Hj. lia.
Qed.

(** The weights of the free columns satisfy what FltGibbsDraw.v needs. *)
Lemma weights_ok cur v : (v < N)%nat ->
  let ws := map (gweight 0 cd costs expw cur v) (gold_ind 0%R Rltb cd costs M expw cur v) in
  (forall x, In x ws -> rep64 x /\ 0 < x) /\ 2 * rsum ws <= fmax64.
Proof.
  intros Hv ws.
  assert (E : forall j, In j (gold_ind 0%R Rltb cd costs M expw cur v) -> gweight 0 cd costs expw cur v j = W v j).
  { intros j Hj. apply gold_ind_in in Hj as [_ [H _]]. unfold gweight.
    destruct (existsb (Nat.eqb j) (others cur v)) eqn:Ex; [|reflexivity]. apply existsb_in in Ex. contradiction. }
  split.
  - intros x Hx. apply in_map_iff in Hx as [j [<- Hj]]. rewrite E by exact Hj. apply gold_ind_in in Hj as [H1 [_ H2]].
    split; [apply (HW v j Hv H1)|exact H2].
  - assert (Hb : forall x, In x ws -> 2 * INR M * x <= fmax64).
    { intros x Hx. apply in_map_iff in Hx as [j [<- Hj]]. rewrite E by exact Hj. apply gold_ind_in in Hj as [H1 _]. apply (HW v j Hv H1). }
    assert (HL : (length ws <= M)%nat) by (unfold ws; rewrite map_length; apply gold_ind_length).
    assert (Hs : 2 * INR M * rsum ws <= INR (length ws) * fmax64).
    { clear HL. clearbody ws. induction ws as [|x l IH].
      - change (rsum []) with 0. cbn [length INR]. lra.
      - change (rsum (x :: l)) with (x + rsum l). cbn [length]. rewrite S_INR.
        pose proof (Hb x (or_introl eq_refl)).
        assert (2 * INR M * rsum l <= INR (length l) * fmax64) by (apply IH; intros y Hy; apply Hb; right; exact Hy). lra. }
    destruct (Nat.eq_dec M 0) as [Z|NZ].
    + assert (length ws = 0%nat) by lia. destruct ws; [|discriminate]. change (rsum []) with 0. pose proof fmax64_pos. lra.
    + assert (0 < INR M) by (apply lt_0_INR; lia). apply Rmult_le_reg_l with (INR M); [assumption|].
      assert (INR (length ws) * fmax64 <= INR M * fmax64).
      { apply Rmult_le_compat_r; [apply fmax64_pos|]. apply le_INR. exact HL. }
      lra.
Qed.

(** The random numbers: in [0, 1), and not within M 2^-52 of 1 unless fewer than
    eight columns are ever free. *)
Definition good_random (u : R) : Prop :=
  0 <= u < 1 /\ ((M < N + 7)%nat \/ u < 1 - 2 * INR M * u64).

Lemma gdraw_spec cur v u : length cur = N -> (v < N)%nat -> (forall j, In j cur -> (j < M)%nat) -> NoDup cur ->
  good_random u -> (exists j, gusable cur v j) ->
  let oi := gold_ind 0%R Rltb cd costs M expw cur v in
  let w := gweight 0 cd costs expw cur v in
  exists j k, gdraw 0 add64 div64 Rltb Rleb cd costs M expw cur v u = Ok j /\
    nth_error oi k = Some j /\ gusable cur v j /\
    rsum (map w (firstn k oi)) / rsum (map w oi) - 5 * INR M * u64 <= u /\
    u < rsum (map w (firstn (S k) oi)) / rsum (map w oi) + 5 * INR M * u64.
Proof.
  intros L Hv B ND [[U0 U1] HU] [j0 Hj0] oi w.
  destruct (weights_ok cur v Hv) as [Hpos Hsum]. fold oi w in Hpos, Hsum.
  assert (Hne : oi <> []).
  { apply gold_ind_in in Hj0. fold oi in Hj0. destruct oi; [destruct Hj0|discriminate]. }
  assert (Hne' : map w oi <> []) by (destruct oi; [congruence|discriminate]).
  assert (HL : (length (map w oi) <= M)%nat) by (rewrite map_length; apply gold_ind_length).
  assert (HI : INR (length (map w oi)) * u64 <= INR M * u64).
  { apply Rmult_le_compat_r; [apply u64_nonneg|]. apply le_INR. exact HL. }
  assert (Hu : u < div64 (nth (length (map w oi) - 1) (fcumsum add64 (map w oi)) 0) (np_sum 0 add64 (map w oi))).
  { destruct HU as [HU|HU].
    - rewrite (bin_last_short M HM (map w oi) Hne' HL Hpos Hsum); [exact U1|].
      rewrite map_length. pose proof (gold_ind_free cur v L Hv B ND) as HF. fold oi in HF. lia.
    - eapply Rlt_le_trans; [|apply (bin_last M HM (map w oi) Hne' HL Hpos Hsum)]. lra. }
  destruct (digitize_float M HM (map w oi) Hne' HL Hpos Hsum u U0 Hu) as [d [E [Hd [D1 D2]]]].
  unfold gdraw. fold oi w. rewrite E. cbn [bind]. rewrite map_length in Hd.
  destruct (nth_error oi (d - 1)) as [j|] eqn:En; [|apply nth_error_None in En; lia].
  exists j, (d - 1)%nat. split; [destruct oi; [congruence|reflexivity]|]. split; [exact En|]. split.
  { apply gold_ind_in. eapply nth_error_In. exact En. }
  replace (S (d - 1))%nat with d by lia. rewrite <- !firstn_map. split; lra.
Qed.

Context (rnd : nat -> nat -> R) (Hrnd : forall sol v, good_random (rnd sol v)).
Context (Inv : list nat -> Prop).
Context (Inv_free : forall cur v, length cur = N -> (forall j, In j cur -> (j < M)%nat) -> NoDup cur ->
  Inv cur -> (v < N)%nat -> exists j, gusable cur v j).
Context (Inv_step : forall cur v j, length cur = N -> Inv cur -> (v < N)%nat -> gusable cur v j -> Inv (set_nth cur v j)).
Notation sweep64 := (gsweep 0 add64 div64 Rltb Rleb cd costs M expw rnd).
Notation iterate64 := (giterate 0 add64 div64 Rltb Rleb cd csum costs M expw rnd).
Notation gibbs64 := (ggibbs 0 add64 div64 Rltb Rleb cd csum costs M expw rnd).

Lemma gsweep_ok sol vars : (forall v, In v vars -> (v < N)%nat) -> forall cur,
  one_to_one N M cur -> Inv cur ->
  exists cur', sweep64 sol vars cur = Ok cur' /\ one_to_one N M cur' /\ Inv cur'.
Proof.
  induction vars as [|v vs IH]; intros Hv cur [L [B ND]] HI; cbn [gsweep].
  { exists cur. split; [reflexivity|]. split; [split; [exact L|split; assumption]|exact HI]. }
  assert (Hvn : (v < N)%nat) by (apply Hv; left; reflexivity).
  destruct (gdraw_spec cur v (rnd sol v) L Hvn B ND (Hrnd sol v) (Inv_free cur v L B ND HI Hvn)) as [j [k [E [_ [Hj _]]]]].
  rewrite E. cbn [bind]. apply IH.
  - intros x Hx. apply Hv. right; exact Hx.
  - split; [rewrite set_nth_length; lia|]. split.
    + intros x Hx. apply set_nth_in in Hx as [->|Hx]; [apply Hj|]. apply B. eapply others_incl. exact Hx.
    + apply set_nth_nodup; [lia|exact ND|apply Hj].
  - apply Inv_step; auto.
Qed.
Lemma grow_cost_ok a : (forall j, In j a -> (j < M)%nat) -> exists c, grow_cost cd csum costs M a = Ok c.
Proof.
  intros H. unfold grow_cost. replace (forallb (fun j => j <? M) a) with true; [eexists; reflexivity|].
  symmetry. apply forallb_forall. intros j Hj. apply Nat.ltb_lt, H, Hj.
Qed.
Lemma giterate_ok k : forall sol cur, one_to_one N M cur -> Inv cur ->
  exists l, iterate64 k sol cur = Ok l /\ forall p, In p l -> one_to_one N M (fst p) /\ Inv (fst p).
Proof.
  induction k as [|k IH]; intros sol cur H HI; cbn [giterate].
  { exists []. split; [reflexivity|intros p []]. }
  destruct (gsweep_ok sol (seq 0 N)) with (cur := cur) as [cur' [E [H' HI']]]; [intros v Hv; apply in_seq in Hv; lia|exact H|exact HI|].
  rewrite E. cbn [bind]. destruct (grow_cost_ok cur') as [c Ec]; [apply H'|]. rewrite Ec. cbn [bind].
  destruct (IH (S sol) cur' H' HI') as [l [El Hl]]. rewrite El. cbn [bind].
  exists ((cur', c) :: l). split; [reflexivity|]. intros p [<-|Hp]; [split; assumption|auto].
Qed.
Lemma gins_in (x y : list nat * C) l : In y (gins x l) -> y = x \/ In y l.
Proof.
  induction l as [|z l IH]; cbn [gins]; [intros [<-|[]]; left; reflexivity|].
  destruct (lex_cmp (fst x) (fst z)); cbn [In].
  - intros [<-|H]; [left; reflexivity|right; right; exact H].
  - intros [<-|[<-|H]]; [left; reflexivity|right; left; reflexivity|right; right; exact H].
  - intros [<-|H]; [right; left; reflexivity|]. destruct (IH H); [left; assumption|right; right; assumption].
Qed.
Lemma gunique_in (y : list nat * C) l : In y (gunique l) -> In y l.
Proof.
  induction l as [|x l IH]; [exact (fun H => H)|]. cbn [gunique fold_right]. intros H. apply gins_in in H as [->|H]; [left; reflexivity|].
  right. apply IH. exact H.
Qed.
Lemma ggibbs_ok k : (2 * N <= M)%nat -> Inv (seq N N) ->
  exists rows cs, gibbs64 (S k) = Ok (rows, cs) /\ forall a, In a rows -> one_to_one N M a /\ Inv a.
Proof.
  intros H2 HI.
  assert (H0 : one_to_one N M (seq N N)).
  { split; [apply seq_length|]. split; [intros j Hj; apply in_seq in Hj; lia|apply seq_NoDup]. }
  cbn [ggibbs]. destruct (grow_cost_ok (seq N N)) as [c0 E0]; [apply H0|]. rewrite E0. cbn [bind].
  destruct (giterate_ok k 1 (seq N N) H0 HI) as [l [El Hl]]. rewrite El. cbn [bind].
  eexists _, _. split; [reflexivity|]. intros a Ha. apply in_map_iff in Ha as [p [<- Hp]].
  apply gunique_in in Hp. destruct Hp as [<-|Hp]; [split; assumption|auto].
Qed.
End G.
