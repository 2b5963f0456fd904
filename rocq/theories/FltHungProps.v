(** C176-C178: [assign_opt] in double precision. *)
From Coq Require Import Reals List ZArith Lra Lia Bool.
From Flocq Require Import Core.
From Verif Require Import RBase RHungModel RHungSpec RHungProofs FltModel FltIeee FltGibbs FltGibbsProps FltNear FltPhd FltPhdMerge FltPhdProps
  FltHungModel FltHungGen FltHungErr FltHungTop FltHungGrid FltHungSpec.
Import ListNotations.
Local Open Scope R_scope.

(** What the code hands to the core for the matrix [m]. *)
Definition coreB (m : mat) : R :=
  if any_entry (mr m) (mc m) (me m) (fun e => negb (is_fin e)) then
    match max_finite (mr m) (mc m) (me m) with Some mx => inf_value64 (mr m) (mc m) mx | None => 0 end else 0.
Definition coreC (m : mat) (r c : nat) : R := match me m r c with Fin q => q | Inf => coreB m end.

Lemma assign64_unfold m : (forall r c q, (r < mr m)%nat -> (c < mc m)%nat -> me m r c = Fin q -> 0 <= q) ->
  (exists r c q, (r < mr m)%nat /\ (c < mc m)%nat /\ me m r c = Fin q) ->
  exists c, (forall r k, (r < mr m)%nat -> (k < mc m)%nat -> c r k = coreC m r k) /\
  assign_opt64 m = (if fits (coreB m) then
          do star <- solvef (mr m) (mc m) c;
          let '(a, cost) := comp_assignf (me m) 0 (build_assign (mr m) (mc m) star) 0 in
          if fits cost then Ok (a, cost) else Err NanErr
        else Err NanErr).
Proof.
  intros Hpos [r0 [c0 [q0 [Hr0 [Hc0 E0]]]]]. unfold assign_opt64.
  destruct (any_entry (mr m) (mc m) (me m) (fun x => match x with Fin q => Rltb q 0 | Inf => false end)) eqn:En.
  { apply any_entry_true in En as [r [c [Hr [Hc En]]]]. destruct (me m r c) as [q|] eqn:Ee; [|discriminate].
    apply Rltb_lt in En. specialize (Hpos r c q Hr Hc Ee). exfalso; lra. }
  assert (Ef : any_entry (mr m) (mc m) (me m) is_fin = true).
  { apply any_entry_true. exists r0, c0. rewrite E0. auto. }
  rewrite Ef. cbn [negb]. unfold coreB. 
  destruct (any_entry (mr m) (mc m) (me m) (fun x => negb (is_fin x))) eqn:Ei.
  - pose proof (max_finite_spec (mr m) (mc m) (me m)) as Hmx.
    destruct (max_finite (mr m) (mc m) (me m)) as [mx|] eqn:Em.
    2: { exfalso. apply (Hmx q0). exists r0, c0. auto. }
    exists (fun r c => match me m r c with Fin q => q | Inf => inf_value64 (mr m) (mc m) mx end). split; [|reflexivity].
    intros r k Hr Hk. unfold coreC, coreB. rewrite Ei, Em. reflexivity.
  - exists (fun r c => fin_val (me m r c)). split; [|reflexivity].
    intros r k Hr Hk. unfold coreC. rewrite any_entry_false in Ei. specialize (Ei r k Hr Hk). destruct (me m r k); [reflexivity|discriminate].
Qed.
Lemma fits_0 : fits 0 = true.
Proof. apply fits_le; [lra|]. apply bpow_ge_0. Qed.
Lemma no_fin_case m : (forall r c q, (r < mr m)%nat -> (c < mc m)%nat -> me m r c = Fin q -> False) ->
  assign_opt64 m = Ok (repeat None (mr m), 0) /\ is_assignment (mr m) (mc m) (repeat None (mr m)) /\
  pairs (repeat None (mr m)) = [] /\
  forall b, is_assignment (mr m) (mc m) b -> inf_free (me m) b -> pairs b = [].
Proof.
  intros Hno. assert (Ep : pairs (repeat None (mr m)) = []).
  { unfold pairs. generalize 0%nat. generalize (mr m). clear. intros n. induction n as [|n IH]; intros k; cbn; auto. }
  split; [|split; [|split]].
  - unfold assign_opt64.
    destruct (any_entry (mr m) (mc m) (me m) (fun x => match x with Fin q => Rltb q 0 | Inf => false end)) eqn:En.
    { exfalso. apply any_entry_true in En as [r [c [Hr [Hc En]]]]. destruct (me m r c) as [q|] eqn:Ee; [|discriminate]. eapply Hno; eauto. }
    assert (Ef : any_entry (mr m) (mc m) (me m) is_fin = false).
    { apply any_entry_false. intros r c Hr Hc. destruct (me m r c) eqn:E; [exfalso; eapply Hno; eauto|reflexivity]. }
    rewrite Ef. reflexivity.
  - split; [apply repeat_length|]. rewrite Ep. split; [intros r c []|constructor].
  - exact Ep.
  - intros b Hb Hbf. destruct (pairs b) as [|[r c] l] eqn:Eb; [reflexivity|]. exfalso.
    destruct (Hbf r c) as [q Hq]; [rewrite Eb; left; reflexivity|].
    apply assignment_plist in Hb. destruct Hb as [_ [_ Hb]].
    destruct (Hb r c) as [Hr Hc]; [rewrite Eb; left; reflexivity|]. eapply Hno; eauto.
Qed.
Lemma fin_dec m : (exists r c q, (r < mr m)%nat /\ (c < mc m)%nat /\ me m r c = Fin q) \/
  (forall r c q, (r < mr m)%nat -> (c < mc m)%nat -> me m r c = Fin q -> False).
Proof.
  destruct (any_entry (mr m) (mc m) (me m) is_fin) eqn:E.
  - left. apply any_entry_true in E as [r [c [Hr [Hc E]]]]. destruct (me m r c) as [q|] eqn:Ee; [|discriminate]. exists r, c, q. auto.
  - right. rewrite any_entry_false in E. intros r c q Hr Hc Eq. specialize (E r c Hr Hc). rewrite Eq in E. discriminate.
Qed.

(** Sums of the selected costs. *)
Lemma total_close m a : double_costs m -> is_assignment (mr m) (mc m) a -> inf_free (me m) a ->
  INR (Nat.min (mr m) (mc m)) <= 32768 ->
  fits (total64 m a) = true /\
  Rabs (total64 m a - assign_cost (me m) a) <= 2 * INR (Nat.min (mr m) (mc m)) * u64 * assign_cost (me m) a.
Proof.
  intros Hm Ha Hi Hn. set (n := Nat.min (mr m) (mc m)) in *.
  pose proof (assignment_plist _ _ _ Ha) as Hp. pose proof (plist_le _ _ _ Hp) as Hl. fold n in Hl.
  assert (Hs : forall x, In x (selected m a) -> rep64 x /\ 0 <= x <= bpow radix2 900).
  { intros x Hx. apply in_map_iff in Hx as [[r c] [<- Hx]]. cbn [fst snd]. destruct (Hi r c Hx) as [q Eq]. rewrite Eq. cbn [fin_val].
    destruct (proj2 (proj2 Hp) r c Hx) as [R1 R2]. exact (Hm r c q R1 R2 Eq). }
  assert (Hab : map Rabs (selected m a) = selected m a).
  { rewrite <- (map_id (selected m a)) at 2. apply map_ext_in. intros x Hx. apply Rabs_pos_eq. apply Hs, Hx. }
  assert (Hlen : length (selected m a) = length (pairs a)) by apply map_length.
  assert (Hln : INR (length (selected m a)) <= INR n) by (apply le_INR; lia).
  assert (Hub : u64 <= / 1073741824).
  { unfold u64. apply Rle_trans with (bp (-30)); [apply bpow_le; lia|]. change (bp (-30)) with (/ 1073741824). lra. }
  pose proof u64_pos as Hu.
  assert (Hnu : INR (length (selected m a)) * u64 <= / 4).
  { assert (INR (length (selected m a)) * u64 <= 32768 * / 1073741824) by (apply Rmult_le_compat; try lra; apply pos_INR). lra. }
  pose proof (fold_signed0 (selected m a)) as F. rewrite Hab in F.
  assert (F' := F (fun x Hx => rep64_fmt x (proj1 (Hs x Hx)))). clear F.
  change (RBase.rsum (selected m a)) with (assign_cost (me m) a) in F'. fold (total64 m a) in F'.
  assert (A0 : 0 <= assign_cost (me m) a) by (apply qsum_nonneg; intros x Hx; apply Hs, Hx).
  pose proof (g_lin _ Hnu) as G.
  assert (A1 : (g (length (selected m a)) - 1) * assign_cost (me m) a <= 2 * INR n * u64 * assign_cost (me m) a).
  { apply Rmult_le_compat_r; [exact A0|]. assert (INR (length (selected m a)) * u64 <= INR n * u64) by (apply Rmult_le_compat_r; lra). lra. }
  split; [|lra].
  assert (A2 : assign_cost (me m) a <= 32768 * bpow radix2 900).
  { assert (assign_cost (me m) a <= INR n * bpow radix2 900).
    { pose proof (qsum_map_le (fun x => x) (fun _ => bpow radix2 900) (selected m a)) as Q. rewrite map_id in Q.
      assert (Q' := Q (fun x Hx => proj2 (proj2 (Hs x Hx)))). rewrite qsum_map_const, <- INR_IZR_INZ in Q'.
      change (rsum (selected m a)) with (assign_cost (me m) a) in Q'.
      assert (bpow radix2 900 * INR (length (selected m a)) <= bpow radix2 900 * INR n) by (apply Rmult_le_compat_l; [apply bpow_ge_0|exact Hln]). lra. }
    assert (INR n * bpow radix2 900 <= 32768 * bpow radix2 900) by (apply Rmult_le_compat_r; [apply bpow_ge_0|exact Hn]). lra. }
  assert (A3 : 2 * INR n * u64 * assign_cost (me m) a <= 1 * assign_cost (me m) a).
  { apply Rmult_le_compat_r; [exact A0|]. assert (INR n * u64 <= 32768 * / 1073741824) by (apply Rmult_le_compat; try lra; apply pos_INR). lra. }
  unfold fits. apply Rleb_le. eapply Rle_trans; [|apply fmax64_big].
  apply Rabs_le_inv in F'.
  replace (bpow radix2 1003) with (bp 103 * bpow radix2 900) by (rewrite <- bpow_plus; reflexivity).
  assert (B : 65536 * bpow radix2 900 <= bp 103 * bpow radix2 900).
  { apply Rmult_le_compat_r; [apply bpow_ge_0|]. apply Rle_trans with (bp 16); [change (bp 16) with 65536; lra|apply bpow_le; lia]. }
  apply Rabs_le. lra.
Qed.

(** Sizes. *)
Lemma fuel_INR nr nc : INR (hung_fuel nr nc) = (INR (Nat.min nr nc) + 1) * (2 * INR nr + 4).
Proof. unfold hung_fuel. rewrite mult_INR, S_INR, plus_INR, mult_INR. replace (INR 4) with 4 by (rewrite INR_IZR_INZ; reflexivity). replace (INR 2) with 2 by (rewrite INR_IZR_INZ; reflexivity). ring. Qed.
Lemma u_val : u64 = / 9007199254740992.
Proof. reflexivity. Qed.
Lemma size_K nr nc N : INR nr <= N -> 0 <= N ->
  INR (Nat.min nr nc * hung_fuel nr nc) * u64 <= N * (N + 1) * (2 * N + 4) * u64.
Proof.
  intros H HN. rewrite mult_INR, fuel_INR. apply Rmult_le_compat_r; [pose proof u64_pos; lra|].
  assert (A : INR (Nat.min nr nc) <= N) by (eapply Rle_trans; [apply le_INR, Nat.le_min_l|exact H]).
  pose proof (pos_INR (Nat.min nr nc)). pose proof (pos_INR nr). rewrite <- Rmult_assoc.
  apply Rmult_le_compat; [apply Rmult_le_pos; lra|lra| |lra]. apply Rmult_le_compat; lra.
Qed.
Lemma fuel_pos nr nc : (1 <= hung_fuel nr nc)%nat.
Proof. unfold hung_fuel. cbn [Nat.mul]. lia. Qed.

Lemma excess_rel m : excess m = rel (mr m) (mc m) (hung_fuel (mr m) (mc m)).
Proof. unfold excess, rel. cbn zeta. rewrite mult_INR, fuel_INR. ring. Qed.
Lemma size_facts m : moderate_size m ->
  INR (Nat.min (mr m) (mc m) * hung_fuel (mr m) (mc m)) * u64 <= / 64 /\
  INR (mr m) <= 32768 /\ INR (mc m) <= 32768 /\
  (no_inf m \/ rel (mr m) (mc m) (hung_fuel (mr m) (mc m)) * INR (Nat.min (mr m) (mc m)) <= / 4).
Proof.
  intros [[A B]|[Hn [A B]]].
  - pose proof (size_K (mr m) (mc m) 2048 A ltac:(lra)) as S. rewrite u_val in S at 2.
    split; [lra|]. split; [lra|]. split; [lra|]. right. unfold rel.
    set (x := INR (Nat.min (mr m) (mc m) * hung_fuel (mr m) (mc m)) * u64) in *.
    assert (X0 : 0 <= x) by (unfold x; apply Rmult_le_pos; [apply pos_INR|pose proof u64_pos; lra]).
    assert (N : INR (Nat.min (mr m) (mc m)) <= 2048) by (eapply Rle_trans; [apply le_INR, Nat.le_min_l|exact A]).
    apply Rle_trans with (32 * (2048 * (2048 + 1) * (2 * 2048 + 4) * / 9007199254740992) * 2048); [|lra].
    apply Rmult_le_compat; try lra. apply pos_INR.
  - pose proof (size_K (mr m) (mc m) 32768 A ltac:(lra)) as S. rewrite u_val in S at 2.
    split; [lra|]. split; [lra|]. split; [lra|]. left. exact Hn.
Qed.
Lemma fmt_ten : fmt 10.
Proof. apply rep64_fmt. apply (dy 10 0); [reflexivity|lia|]. change (bp 0) with 1. lra. Qed.

(** The numbers handed to the core. *)
Lemma core_facts m : double_costs m -> moderate_size m -> (0 < mr m)%nat -> (0 < mc m)%nat ->
  (exists r c q, (r < mr m)%nat /\ (c < mc m)%nat /\ me m r c = Fin q) ->
  fits (coreB m) = true /\
  (forall r c, (r < mr m)%nat /\ (c < mc m)%nat -> fmt (coreC m r c) /\ 0 <= coreC m r c <= bp 950) /\
  (no_inf m \/ exists mx, 0 <= mx /\ (forall r c q, (r < mr m)%nat -> (c < mc m)%nat -> me m r c = Fin q -> q <= mx) /\
     (forall r c, (r < mr m)%nat -> (c < mc m)%nat -> coreC m r c <= coreB m) /\
     (exists r c, (r < mr m)%nat /\ (c < mc m)%nat /\ me m r c = Fin mx) /\
     0 < coreB m /\ 9 * (INR (Nat.min (mr m) (mc m)) * mx) <= coreB m /\
     (mx = 0 \/ coreB m <= 11 * mx * INR (mr m) * INR (mc m))).
Proof.
  intros Hm Hsz Hnr Hnc Hfin. destruct (size_facts m Hsz) as [HK [N1 [N2 HR]]]. unfold coreC, coreB.
  assert (Hu : u64 <= / 64) by (rewrite u_val; lra).
  destruct (any_entry (mr m) (mc m) (me m) (fun x => negb (is_fin x))) eqn:Ei.
  - pose proof (max_finite_spec (mr m) (mc m) (me m)) as Hmx.
    destruct (max_finite (mr m) (mc m) (me m)) as [mx|].
    2: { exfalso. destruct Hfin as [r0 [c0 [q0 [Hr0 [Hc0 E0]]]]]. apply (Hmx q0). exists r0, c0. auto. }
    destruct Hmx as [[r0 [c0 [Hr0 [Hc0 E0]]]] Hmx]. destruct (Hm r0 c0 mx Hr0 Hc0 E0) as [Rx [M0 M1]].
    pose proof (le_INR 1 _ Hnr) as P1. pose proof (le_INR 1 _ Hnc) as P2. cbn [INR] in P1, P2.
    assert (HBf : fmt (inf_value64 (mr m) (mc m) mx) /\ 0 < inf_value64 (mr m) (mc m) mx <= bp 950 /\
       mx <= inf_value64 (mr m) (mc m) mx /\ 9 * (INR (Nat.min (mr m) (mc m)) * mx) <= inf_value64 (mr m) (mc m) mx /\
       (mx = 0 \/ inf_value64 (mr m) (mc m) mx <= 11 * mx * INR (mr m) * INR (mc m))).
    { destruct (Rle_lt_or_eq_dec 0 mx M0) as [Mp|Mz].
      - destruct (inf_value64_pos (mr m) (mc m) mx Mp (rep64_fmt _ Rx) Hu Hnr Hnc) as [[L U] F].
        set (B := inf_value64 (mr m) (mc m) mx) in *. split; [exact F|].
        assert (Q1 : mx * 1 <= mx * INR (mr m)) by (apply Rmult_le_compat_l; lra).
        assert (Q2 : mx * INR (mr m) * 1 <= mx * INR (mr m) * INR (mc m)) by (apply Rmult_le_compat_l; lra).
        assert (Q3 : INR (Nat.min (mr m) (mc m)) * mx <= INR (mr m) * mx) by (apply Rmult_le_compat_r; [lra|apply le_INR, Nat.le_min_l]).
        split; [split; [lra|]|split; [lra|split; [lra|right; lra]]].
        eapply Rle_trans; [exact U|].
        assert (Q4 : mx * INR (mr m) <= bp 900 * 32768) by (apply Rmult_le_compat; lra).
        assert (Q5 : mx * INR (mr m) * INR (mc m) <= bp 900 * 32768 * 32768) by (apply Rmult_le_compat; lra).
        replace (bp 950) with (bp 50 * bp 900) by (rewrite <- bpow_plus; reflexivity).
        assert (Q6 : 11 * 32768 * 32768 * bp 900 <= bp 50 * bp 900).
        { apply Rmult_le_compat_r; [apply bpow_ge_0|]. change (bp 50) with 1125899906842624. lra. }
        lra.
      - subst mx. unfold inf_value64. assert (El : Rltb 0 0 = false) by (apply Rltb_ge; lra). rewrite El.
        split; [exact fmt_ten|]. split; [split; [lra|]|split; [lra|split; [lra|left; reflexivity]]].
        apply Rle_trans with (bp 4); [change (bp 4) with 16; lra|apply bpow_le; lia]. }
    destruct HBf as [HBf [[HB0 HB1] [HB2 [HB3 HB4]]]]. set (B := inf_value64 (mr m) (mc m) mx) in *.
    split; [|split].
    + apply fits_le; [lra|]. eapply Rle_trans; [exact HB1|apply bpow_le; lia].
    + intros r c [Hr Hc]. destruct (me m r c) as [q|] eqn:Eq; [|split; [exact HBf|lra]].
      destruct (Hm r c q Hr Hc Eq) as [Rq [Q0 Q1]]. split; [apply rep64_fmt, Rq|]. split; [exact Q0|].
      eapply Rle_trans; [exact Q1|apply bpow_le; lia].
    + right. exists mx. split; [exact M0|]. split; [intros r c q Hr Hc Eq; apply Hmx; exists r, c; auto|].
      split; [|split; [exists r0, c0; auto|auto]].
      intros r c Hr Hc. destruct (me m r c) as [q|] eqn:Eq; [|lra].
      assert (q <= mx) by (apply Hmx; exists r, c; auto). lra.
  - rewrite any_entry_false in Ei. assert (Hni : no_inf m).
    { intros r c Hr Hc E. specialize (Ei r c Hr Hc). rewrite E in Ei. discriminate. }
    split; [exact fits_0|]. split; [|left; exact Hni].
    intros r c [Hr Hc]. destruct (me m r c) as [q|] eqn:Eq; [|exfalso; exact (Hni r c Hr Hc Eq)].
    destruct (Hm r c q Hr Hc Eq) as [Rq [Q0 Q1]]. split; [apply rep64_fmt, Rq|]. split; [exact Q0|].
    eapply Rle_trans; [exact Q1|apply bpow_le; lia].
Qed.

Lemma full_size m a : no_inf m -> is_assignment (mr m) (mc m) a ->
  (forall b, is_assignment (mr m) (mc m) b -> inf_free (me m) b -> (assign_size b <= assign_size a)%nat) ->
  assign_size a = Nat.min (mr m) (mc m).
Proof.
  intros Hn Ha Hmax. pose proof (plist_le _ _ _ (assignment_plist _ _ _ Ha)) as Hl.
  destruct (diag_assignment (mr m) (mc m)) as [D1 D2]. specialize (Hmax _ D1). rewrite D2 in Hmax. unfold assign_size in *.
  assert (inf_free (me m) (diag_assign (mr m) (mc m))); [|specialize (Hmax H); lia].
  intros r c Hrc. destruct (proj2 (proj2 (assignment_plist _ _ _ D1)) r c Hrc) as [R1 R2]. specialize (Hn r c R1 R2).
  destruct (me m r c) as [q|]; [exists q; reflexivity|congruence].
Qed.

(** Everything at once. *)
Lemma assign64_main m : double_costs m -> moderate_size m ->
  exists a, assign_opt64 m = Ok (a, total64 m a) /\
    is_assignment (mr m) (mc m) a /\ inf_free (me m) a /\
    Rabs (total64 m a - assign_cost (me m) a) <= 2 * INR (Nat.min (mr m) (mc m)) * u64 * assign_cost (me m) a /\
    forall b, is_assignment (mr m) (mc m) b -> inf_free (me m) b ->
      (assign_size b <= assign_size a)%nat /\
      (assign_size b = assign_size a -> forall L, 0 <= L -> (forall r c q, (r < mr m)%nat -> (c < mc m)%nat -> me m r c = Fin q -> q <= L) ->
         assign_cost (me m) a <= assign_cost (me m) b * (1 + excess m) +
            excess m * (11 * L * INR (mr m) * INR (mc m) * INR (Nat.min (mr m) (mc m) - assign_size a))).
Proof.
  intros Hm Hsz. destruct (size_facts m Hsz) as [HK [N1 [N2 HR]]].
  assert (Hex0 : 0 <= excess m).
  { rewrite excess_rel. unfold rel. apply Rmult_le_pos; [lra|]. apply Rmult_le_pos; [apply pos_INR|pose proof u64_pos; lra]. }
  assert (Hrest : forall L n, 0 <= L -> 0 <= excess m * (11 * L * INR (mr m) * INR (mc m) * INR n)).
  { intros L n HL. apply Rmult_le_pos; [exact Hex0|]. repeat apply Rmult_le_pos; try lra; apply pos_INR. }
  assert (Hmd : INR (Nat.min (mr m) (mc m)) <= 32768) by (eapply Rle_trans; [apply le_INR, Nat.le_min_l|exact N1]).
  destruct (fin_dec m) as [Hfin|Hno].
  2: { destruct (no_fin_case m Hno) as [E [A [Ep Hb]]]. exists (repeat None (mr m)).
       assert (Et : total64 m (repeat None (mr m)) = 0) by (unfold total64, selected; rewrite Ep; reflexivity).
       assert (Ec : assign_cost (me m) (repeat None (mr m)) = 0) by (unfold assign_cost; rewrite Ep; reflexivity).
       rewrite Et, Ec. split; [exact E|]. split; [exact A|]. split; [intros r c; rewrite Ep; intros []|].
       split; [rewrite Rminus_diag_eq by reflexivity; rewrite Rabs_R0; lra|].
       intros b Hb1 Hb2. specialize (Hb b Hb1 Hb2). unfold assign_size, assign_cost. rewrite Hb, Ep. split; [cbn; lia|].
       intros _ L HL0 HL. cbn [map length]. change (rsum []) with 0.
       pose proof (Hrest L (Nat.min (mr m) (mc m) - 0)%nat HL0). lra. }
  assert (Hdim : (0 < mr m)%nat /\ (0 < mc m)%nat) by (destruct Hfin as [r [c [q [A [B _]]]]]; lia).
  destruct Hdim as [Hnr Hnc].
  assert (Hpos : forall r c q, (r < mr m)%nat -> (c < mc m)%nat -> me m r c = Fin q -> 0 <= q) by (intros r c q Hr Hc E; apply (Hm r c q Hr Hc E)).
  destruct (assign64_unfold m Hpos Hfin) as [c [Ec Ea]].
  destruct (core_facts m Hm Hsz Hnr Hnc Hfin) as [HfB [HC Hinf]].
  rewrite HfB in Ea.
  set (nr := mr m) in *. set (nc := mc m) in *. set (K := hung_fuel nr nc) in *.
  assert (HC' : forall r k, (r < nr)%nat /\ (k < nc)%nat -> fmt (c r k) /\ 0 <= c r k <= bp 950).
  { intros r k Hrk. rewrite Ec by tauto. apply HC, Hrk. }
  assert (K1 : (1 <= K)%nat) by apply fuel_pos.
  destruct (solvef_err nr nc K c HC' Hnr Hnc HK K1 (le_n _)) as [star [Es Hend]].
  assert (Hmat : exists dist, matching_on nr nc dist star /\ nstars nr nc star = Nat.min nr nc).
  { destruct Hend as [dist [u [v [C' [k [_ [_ [_ [A [_ B]]]]]]]]]]. exists dist. auto. }
  destruct Hmat as [dist [Hmat Hst]].
  destruct (build_assign_plist nr nc dist star Hmat) as [Hpl Hlen]. rewrite Hst in Hlen.
  assert (Hnear : forall b, plist_ok nr nc b -> length b = Nat.min nr nc -> pcost c (pairs (build_assign nr nc star)) <= pcost c b * (1 + rel nr nc K)).
  { intros b Hb Hlb. apply (near_opt nr nc K c HC' Hnr Hnc HK K1 star); auto.
    intros r k. apply (build_assign_pairs nr nc dist star r k Hmat). }
  rewrite Es in Ea. cbn [bind] in Ea.
  assert (Cf : forall r k q, (r < nr)%nat -> (k < nc)%nat -> me m r k = Fin q -> c r k = q).
  { intros r k q Hr Hk E. rewrite Ec by assumption. unfold coreC. rewrite E. reflexivity. }
  assert (Hrel : excess m = rel nr nc K) by apply excess_rel.
  rewrite Hrel in *.
  assert (Hfinal : let '(a, t) := comp_assignf (me m) 0 (build_assign nr nc star) 0 in
    is_assignment nr nc a /\ inf_free (me m) a /\ t = total64 m a /\
    forall b, is_assignment nr nc b -> inf_free (me m) b ->
      (assign_size b <= assign_size a)%nat /\
      (assign_size b = assign_size a -> forall L, 0 <= L -> (forall r c q, (r < nr)%nat -> (c < nc)%nat -> me m r c = Fin q -> q <= L) ->
         assign_cost (me m) a <= assign_cost (me m) b * (1 + rel nr nc K) +
            rel nr nc K * (11 * L * INR nr * INR nc * INR (Nat.min nr nc - assign_size a)))).
  { destruct Hinf as [Hni|[mx [M0 [Mx [CB [Hmxe [B0 [B9 B11]]]]]]]].
    - pose proof (finish nr nc (me m) c (bp 950) (bp 950) (rel nr nc K) star Cf) as F.
      assert (F' := F (fun r k Hr Hk E => False_ind _ (Hni r k Hr Hk E)) (fun r k Hr Hk => proj2 (HC' r k (conj Hr Hk)))). clear F.
      assert (F := F' (fun r k q Hr Hk E => eq_ind _ (fun z => z <= bp 950) (proj2 (proj2 (HC' r k (conj Hr Hk)))) _ (Cf r k q Hr Hk E)) Hpl Hlen Hex0 Hnear (or_introl Hni)). clear F'.
      destruct (comp_assignf (me m) 0 (build_assign nr nc star) 0) as [a t]. destruct F as [F1 [F2 [F3 F4]]].
      split; [exact F1|]. split; [exact F2|]. split; [exact F3|]. intros b Hb Hbf. destruct (F4 b Hb Hbf) as [G1 G2].
      split; [exact G1|]. intros Eb L L0 HL. specialize (G2 Eb).
      assert (Efull : assign_size a = Nat.min nr nc).
      { apply full_size; [exact Hni|exact F1|]. intros b' Hb' Hbf'. apply F4; assumption. }
      rewrite Efull, Nat.sub_diag in G2. cbn [INR] in G2. pose proof (Hrest L (Nat.min nr nc - assign_size a)%nat L0). lra.
    - destruct HR as [Hni|HR].
      { exfalso. assert (coreB m = 0); [|lra]. unfold coreB.
        assert (Ei : any_entry (mr m) (mc m) (me m) (fun e => negb (is_fin e)) = false).
        { apply any_entry_false. intros r k Hr Hk. specialize (Hni r k Hr Hk). destruct (me m r k); [reflexivity|congruence]. }
        rewrite Ei. reflexivity. }
      assert (Ci : forall r k, (r < nr)%nat -> (k < nc)%nat -> me m r k = Inf -> c r k = coreB m).
      { intros r k Hr Hk E. rewrite Ec by assumption. unfold coreC. rewrite E. reflexivity. }
      assert (Cb : forall r k, (r < nr)%nat -> (k < nc)%nat -> 0 <= c r k <= coreB m).
      { intros r k Hr Hk. split; [apply HC'; auto|]. rewrite Ec by assumption. apply CB; assumption. }
      pose proof (finish nr nc (me m) c (coreB m) mx (rel nr nc K) star Cf Ci Cb Mx Hpl Hlen Hex0 Hnear
        (or_intror (conj M0 (conj B0 (conj B9 HR))))) as F.
      destruct (comp_assignf (me m) 0 (build_assign nr nc star) 0) as [a t]. destruct F as [F1 [F2 [F3 F4]]].
      split; [exact F1|]. split; [exact F2|]. split; [exact F3|]. intros b Hb Hbf. destruct (F4 b Hb Hbf) as [G1 G2].
      split; [exact G1|]. intros Eb L L0 HL. specialize (G2 Eb). pose proof (Hrest L (Nat.min nr nc - assign_size a)%nat L0) as HL'.
      assert (Hb0 : 0 <= assign_cost (me m) b).
      { apply qsum_nonneg. intros x Hx. apply in_map_iff in Hx as [[r k] [<- Hx]]. cbn [fst snd]. destruct (Hbf r k Hx) as [q Eq]. rewrite Eq.
        destruct (proj2 (proj2 (assignment_plist _ _ _ Hb)) r k Hx). exact (Hpos r k q H H0 Eq). }
      destruct B11 as [Mz|B11].
      + assert (Hz : assign_cost (me m) a <= 0).
        { unfold assign_cost. pose proof (qsum_map_le (fun rc => fin_val (me m (fst rc) (snd rc))) (fun _ => 0) (pairs a)) as Q.
          rewrite qsum_map_const, Rmult_0_l in Q. apply Q. intros [r k] Hx. cbn [fst snd]. destruct (F2 r k Hx) as [q Eq]. rewrite Eq. cbn [fin_val].
          destruct (proj2 (proj2 (assignment_plist _ _ _ F1)) r k Hx). rewrite <- Mz. exact (Mx r k q H H0 Eq). }
        assert (0 <= assign_cost (me m) b * (1 + rel nr nc K)) by (apply Rmult_le_pos; lra). lra.
      + assert (ML : mx <= L) by (destruct Hmxe as [r0 [c0 [Hr0 [Hc0 E0]]]]; exact (HL r0 c0 mx Hr0 Hc0 E0)).
        assert (Q : coreB m <= 11 * L * INR nr * INR nc).
        { eapply Rle_trans; [exact B11|]. apply Rmult_le_compat_r; [apply pos_INR|]. apply Rmult_le_compat_r; [apply pos_INR|]. lra. }
        assert (Q2 : rel nr nc K * (coreB m * INR (Nat.min nr nc - assign_size a)) <= rel nr nc K * (11 * L * INR nr * INR nc * INR (Nat.min nr nc - assign_size a))).
        { apply Rmult_le_compat_l; [exact Hex0|]. apply Rmult_le_compat_r; [apply pos_INR|exact Q]. }
        lra. }
  destruct (comp_assignf (me m) 0 (build_assign nr nc star) 0) as [a t]. destruct Hfinal as [F1 [F2 [F3 F4]]].
  destruct (total_close m a Hm F1 F2 Hmd) as [T1 T2]. subst t. rewrite T1 in Ea.
  exists a. split; [exact Ea|]. split; [exact F1|]. split; [exact F2|]. split; [exact T2|exact F4].
Qed.

(** * Theorems *)

(** C176: on every matrix of non-negative doubles (inf allowed) [assign_opt]
    returns, without running out of range, one column or none per row, no column
    twice, no inf entry, as many assigned rows as any assignment without inf
    entries can have; the cost is the rounded sum of the selected entries, close
    to their exact sum. *)
Theorem C176_assign_double : forall m, double_costs m -> moderate_size m ->
  exists a cost, assign_opt64 m = Ok (a, cost) /\
    is_assignment (mr m) (mc m) a /\ inf_free (me m) a /\
    (forall b, is_assignment (mr m) (mc m) b -> inf_free (me m) b -> (assign_size b <= assign_size a)%nat) /\
    (no_inf m -> assign_size a = Nat.min (mr m) (mc m)) /\
    cost = total64 m a /\
    Rabs (cost - assign_cost (me m) a) <= 2 * INR (Nat.min (mr m) (mc m)) * u64 * assign_cost (me m) a.
Proof.
  intros m Hm Hs. destruct (assign64_main m Hm Hs) as [a [E [A [F [T B]]]]]. exists a, (total64 m a).
  split; [exact E|]. split; [exact A|]. split; [exact F|].
  assert (HB : forall b, is_assignment (mr m) (mc m) b -> inf_free (me m) b -> (assign_size b <= assign_size a)%nat)
    by (intros b Hb Hbf; apply B; assumption).
  split; [exact HB|]. split; [intros Hn; apply full_size; assumption|]. split; [reflexivity|exact T].
Qed.

(** C177, the true part: the exact cost of the assignment returned is within a
    relative [excess m] of that of any other assignment of as many rows, plus a
    term that is absent when every row (or column) is assigned.  In particular a
    full assignment of cost 0 is found when there is one. *)
Theorem C177_assign_double_near_optimal_partial : forall m a cost, double_costs m -> moderate_size m ->
  assign_opt64 m = Ok (a, cost) ->
  forall b, is_assignment (mr m) (mc m) b -> inf_free (me m) b -> assign_size b = assign_size a ->
    (assign_size a = Nat.min (mr m) (mc m) -> assign_cost (me m) a <= assign_cost (me m) b * (1 + excess m)) /\
    (forall L, 0 <= L -> (forall r c q, (r < mr m)%nat -> (c < mc m)%nat -> me m r c = Fin q -> q <= L) ->
       assign_cost (me m) a <= assign_cost (me m) b * (1 + excess m) +
         excess m * (11 * L * INR (mr m) * INR (mc m) * INR (Nat.min (mr m) (mc m) - assign_size a))) /\
    (assign_size a = Nat.min (mr m) (mc m) -> assign_cost (me m) b = 0 -> assign_cost (me m) a = 0).
Proof.
  intros m a cost Hm Hs E b Hb Hbf Esz. destruct (assign64_main m Hm Hs) as [a' [E' [A [F [_ B]]]]].
  rewrite E in E'. injection E' as E1 E2. subst a'. destruct (B b Hb Hbf) as [_ B2]. specialize (B2 Esz).
  assert (P : forall r c q, (r < mr m)%nat -> (c < mc m)%nat -> me m r c = Fin q -> q <= bpow radix2 900) by (intros r c q Hr Hc Eq; apply (Hm r c q Hr Hc Eq)).
  assert (A0 : 0 <= assign_cost (me m) a).
  { apply qsum_nonneg. intros x Hx. apply in_map_iff in Hx as [[r k] [<- Hx]]. cbn [fst snd]. destruct (F r k Hx) as [q Eq]. rewrite Eq.
    destruct (proj2 (proj2 (assignment_plist _ _ _ A)) r k Hx) as [R1 R2]. apply (Hm r k q R1 R2 Eq). }
  assert (Rl : assign_size a = Nat.min (mr m) (mc m) -> assign_cost (me m) a <= assign_cost (me m) b * (1 + excess m)).
  { intros Ef. specialize (B2 (bpow radix2 900) (bpow_ge_0 _ _) P). rewrite Ef, Nat.sub_diag in B2. cbn [INR] in B2. lra. }
  split; [exact Rl|]. split; [exact B2|]. intros Ef Ez. specialize (Rl Ef). rewrite Ez in Rl. lra.
Qed.

(** C178: costs that are multiples of a common power of two and not too large:
    no rounding at all, the assignment is optimal and its cost exact. *)
Theorem C178_assign_double_exact : forall m e Zmax, exact_costs e Zmax m ->
  exists a cost, assign_opt64 m = Ok (a, cost) /\
    is_assignment (mr m) (mc m) a /\ inf_free (me m) a /\ cost = assign_cost (me m) a /\
    forall b, is_assignment (mr m) (mc m) b -> inf_free (me m) b ->
      (assign_size b <= assign_size a)%nat /\
      (assign_size b = assign_size a -> assign_cost (me m) a <= assign_cost (me m) b).
Proof.
  intros m e Zmax [Hg [He Hcase]]. destruct (fin_dec m) as [Hfin|Hno].
  2: { destruct (no_fin_case m Hno) as [E [A [Ep Hb]]]. exists (repeat None (mr m)), 0.
       split; [exact E|]. split; [exact A|]. split; [intros r c; rewrite Ep; intros []|].
       split; [unfold assign_cost; rewrite Ep; reflexivity|].
       intros b Hb1 Hb2. specialize (Hb b Hb1 Hb2). unfold assign_size, assign_cost. rewrite Hb, Ep. split; [cbn; lia|].
       intros _. lra. }
  assert (Hdim : (0 < mr m)%nat /\ (0 < mc m)%nat) by (destruct Hfin as [r [c [q [A [B _]]]]]; lia).
  destruct Hdim as [Hnr Hnc].
  assert (Bp : 0 < bp e) by apply bpow_gt_0.
  assert (Hpos : forall r c q, (r < mr m)%nat -> (c < mc m)%nat -> me m r c = Fin q -> 0 <= q).
  { intros r c q Hr Hc E. destruct (Hg r c q Hr Hc E) as [z [-> [Z0 _]]]. apply Rmult_le_pos; lra. }
  destruct (assign64_unfold m Hpos Hfin) as [c [Ec Ea]].
  set (nr := mr m) in *. set (nc := mc m) in *.
  assert (Hfm : bp 53 * bp e <= fmax64).
  { eapply Rle_trans; [|apply fmax64_big]. rewrite <- bpow_plus. apply bpow_le. lia. }
  pose proof (le_INR 1 _ Hnr) as P1. pose proof (le_INR 1 _ Hnc) as P2. cbn [INR] in P1, P2.
  assert (Hmd0 : 0 <= INR (Nat.min nr nc)) by apply pos_INR.
  (* the core's matrix is on the grid *)
  assert (Hcore : exists M, M * (1 + INR (Nat.min nr nc)) < bp 53 * bp e /\
     (forall r k, (r < nr)%nat /\ (k < nc)%nat -> grid e (c r k) /\ 0 <= c r k <= M) /\ fits (coreB m) = true /\
     (no_inf m \/ exists mx, 0 <= mx /\ (forall r k q, (r < nr)%nat -> (k < nc)%nat -> me m r k = Fin q -> q <= mx) /\
        0 < coreB m /\ mx <= coreB m /\ 9 * (INR (Nat.min nr nc) * mx) <= coreB m)).
  { destruct Hcase as [[Hni HM]|[He0 [Hez HM]]].
    - exists (Zmax * bp e). split; [rewrite Rmult_assoc, (Rmult_comm (bp e)), <- Rmult_assoc; apply Rmult_lt_compat_r; assumption|].
      split; [|split; [|left; exact Hni]].
      + intros r k [Hr Hk]. rewrite Ec by assumption. unfold coreC. destruct (me m r k) as [q|] eqn:Eq; [|exfalso; exact (Hni r k Hr Hk Eq)].
        destruct (Hg r k q Hr Hk Eq) as [z [-> [Z0 Z1]]]. split; [exists z; reflexivity|]. split; [apply Rmult_le_pos; lra|apply Rmult_le_compat_r; lra].
      + unfold coreB. assert (Ei : any_entry (mr m) (mc m) (me m) (fun e => negb (is_fin e)) = false).
        { apply any_entry_false. intros r k Hr Hk. specialize (Hni r k Hr Hk). destruct (me m r k); [reflexivity|congruence]. }
        rewrite Ei. exact fits_0.
    - set (MZ := 10 * Zmax * INR nr * INR nc) in *.
      assert (Z0 : 1 <= Zmax) by (eapply Rle_trans; [|exact Hez]; change 1 with (bp 0); apply bpow_le; lia).
      assert (Q1 : 10 * Zmax * 1 <= 10 * Zmax * INR nr) by (apply Rmult_le_compat_l; lra).
      assert (Q2 : 10 * Zmax * INR nr * 1 <= 10 * Zmax * INR nr * INR nc) by (apply Rmult_le_compat_l; lra). fold MZ in Q2.
      assert (MZ0 : 10 <= MZ) by lra.
      assert (MZm : 0 <= MZ * INR (Nat.min nr nc)) by (apply Rmult_le_pos; lra).
      exists (MZ * bp e). split; [rewrite Rmult_assoc, (Rmult_comm (bp e)), <- Rmult_assoc; apply Rmult_lt_compat_r; assumption|].
      assert (Hsm : forall x, x <= MZ -> x * bp e < bp 53 * bp e) by (intros x Hx; apply Rmult_lt_compat_r; [exact Bp|lra]).
      assert (Hq : forall r k q, (r < nr)%nat -> (k < nc)%nat -> me m r k = Fin q -> grid e q /\ 0 <= q <= Zmax * bp e).
      { intros r k q Hr Hk Eq. destruct (Hg r k q Hr Hk Eq) as [z [-> [Y0 Y1]]]. split; [exists z; reflexivity|].
        split; [apply Rmult_le_pos; lra|apply Rmult_le_compat_r; lra]. }
      assert (ZM : Zmax * bp e <= MZ * bp e) by (apply Rmult_le_compat_r; lra).
      destruct (any_entry nr nc (me m) (fun e => negb (is_fin e))) eqn:Ei.
      2: { assert (Hni : no_inf m).
           { rewrite any_entry_false in Ei. intros r k Hr Hk E. specialize (Ei r k Hr Hk). rewrite E in Ei. discriminate. }
           split; [|split; [|left; exact Hni]].
           - intros r k [Hr Hk]. rewrite Ec by assumption. unfold coreC. destruct (me m r k) as [q|] eqn:Eq; [|exfalso; exact (Hni r k Hr Hk Eq)].
             destruct (Hq r k q Hr Hk Eq) as [G B]. split; [exact G|lra].
           - unfold coreB. fold nr nc. rewrite Ei. exact fits_0. }
      pose proof (max_finite_spec nr nc (me m)) as Hmx.
      assert (HB : exists mx, coreB m = inf_value64 nr nc mx /\ (exists r k, (r < nr)%nat /\ (k < nc)%nat /\ me m r k = Fin mx) /\
          forall r k q, (r < nr)%nat -> (k < nc)%nat -> me m r k = Fin q -> q <= mx).
      { unfold coreB. fold nr nc. rewrite Ei. destruct (max_finite nr nc (me m)) as [mx|].
        2: { exfalso. destruct Hfin as [r0 [c0 [q0 [Hr0 [Hc0 E0]]]]]. apply (Hmx q0). exists r0, c0. auto. }
        destruct Hmx as [A B]. exists mx. split; [reflexivity|]. split; [exact A|]. intros r k q Hr Hk Eq. apply B. exists r, k. auto. }
      destruct HB as [mx [EB [[r0 [k0 [Hr0 [Hk0 E0]]]] Mx]]]. destruct (Hg r0 k0 mx Hr0 Hk0 E0) as [z [Ez [Y0 Y1]]].
      assert (HBv : grid e (coreB m) /\ 0 < coreB m <= MZ * bp e /\ mx <= coreB m /\ 9 * (INR (Nat.min nr nc) * mx) <= coreB m /\ 0 <= mx).
      { rewrite EB. unfold inf_value64. destruct (Rltb 0 mx) eqn:El.
        - apply Rltb_lt in El.
          assert (I0 : forall x (n : nat), 0 <= x -> x * INR n <= MZ * bp e -> grid e x -> mul64 x (INR n) = x * INR n /\ grid e (x * INR n)).
          { intros x n X0 X1 [y ->]. assert (G : grid e (IZR y * bp e * INR n)).
            { exists (y * Z.of_nat n)%Z. rewrite mult_IZR, <- INR_IZR_INZ. ring. }
            split; [|exact G]. unfold mul64. apply rnd_fix. apply (grid_fmt e); [lia|exact G|apply Rmult_le_pos; [exact X0|apply pos_INR]|].
            eapply Rle_lt_trans; [exact X1|]. apply Hsm. lra. }
          assert (I10 : INR 10 = 10) by (rewrite INR_IZR_INZ; reflexivity).
          assert (Mz : mx <= Zmax * bp e) by (rewrite Ez; apply Rmult_le_compat_r; lra).
          assert (R1 : mx * 10 <= Zmax * bp e * 10) by lra.
          assert (R2 : mx * 10 * INR nr <= Zmax * bp e * 10 * INR nr) by (apply Rmult_le_compat_r; lra).
          assert (R3 : mx * 10 * INR nr * INR nc <= Zmax * bp e * 10 * INR nr * INR nc) by (apply Rmult_le_compat_r; lra).
          assert (R4 : Zmax * bp e * 10 * INR nr * INR nc = MZ * bp e) by (unfold MZ; ring).
          assert (R5 : mx * 10 * 1 <= mx * 10 * INR nr) by (apply Rmult_le_compat_l; lra).
          assert (R6 : mx * 10 * INR nr * 1 <= mx * 10 * INR nr * INR nc) by (apply Rmult_le_compat_l; lra).
          destruct (I0 mx 10%nat) as [A1 G1]; [lra|rewrite I10; lra|exists z; exact Ez|]. rewrite I10 in A1, G1.
          replace (mul64 10 mx) with (mul64 mx 10) by (unfold mul64; f_equal; ring). rewrite A1.
          destruct (I0 (mx * 10) nr) as [A2 G2]; [lra|lra|exact G1|]. rewrite A2.
          destruct (I0 (mx * 10 * INR nr) nc) as [A3 G3]; [lra|lra|exact G2|]. rewrite A3.
          split; [exact G3|]. split; [lra|]. split; [lra|]. split; [|lra].
          assert (R7 : INR (Nat.min nr nc) * mx <= INR nr * mx) by (apply Rmult_le_compat_r; [lra|apply le_INR, Nat.le_min_l]). lra.
        - apply Rltb_ge in El. assert (mx0 : 0 <= mx) by (eapply Hpos; eauto). assert (mx = 0) as -> by lra.
          assert (E1 : bp (- e) * bp e = 1) by (rewrite <- bpow_plus; replace (- e + e)%Z with 0%Z by lia; reflexivity).
          split; [|split; [split; [lra|]|lra]].
          + exists (10 * 2 ^ (- e))%Z. rewrite mult_IZR, (IZR_Zpower radix2) by lia. rewrite Rmult_assoc, E1. ring.
          + assert (bp (- e) * bp e <= Zmax * bp e) by (apply Rmult_le_compat_r; lra).
            assert (10 * Zmax * bp e <= MZ * bp e) by (apply Rmult_le_compat_r; lra). lra. }
      destruct HBv as [GB [[B0 B1] [B2 [B3 B4]]]].
      split; [|split; [|right; exists mx; auto]].
      + intros r k [Hr Hk]. rewrite Ec by assumption. unfold coreC. destruct (me m r k) as [q|] eqn:Eq; [|split; [exact GB|lra]].
        destruct (Hq r k q Hr Hk Eq) as [G B]. split; [exact G|lra].
      + unfold fits. apply Rleb_le. rewrite Rabs_pos_eq by lra. pose proof (Hsm MZ (Rle_refl _)). lra. }
  destruct Hcore as [M [HM [HC [HfB Hinf]]]]. rewrite HfB in Ea.
  destruct (solvef_grid nr nc e M c (proj1 He) HC HM Hfm Hnr Hnc) as [star [Es Hend]].
  assert (Hmat : exists dist, matching_on nr nc dist star /\ nstars nr nc star = Nat.min nr nc).
  { destruct Hend as [dist [u [v [C' [k [_ [_ [_ [A [_ B]]]]]]]]]]. exists dist. auto. }
  destruct Hmat as [dist [Hmat Hst]].
  destruct (build_assign_plist nr nc dist star Hmat) as [Hpl Hlen]. rewrite Hst in Hlen.
  assert (Hnear : forall b, plist_ok nr nc b -> length b = Nat.min nr nc -> pcost c (pairs (build_assign nr nc star)) <= pcost c b * (1 + 0)).
  { intros b Hb Hlb. rewrite Rplus_0_r, Rmult_1_r. apply (grid_opt nr nc e c star); auto.
    intros r k. apply (build_assign_pairs nr nc dist star r k Hmat). }
  rewrite Es in Ea. cbn [bind] in Ea.
  assert (Cf : forall r k q, (r < nr)%nat -> (k < nc)%nat -> me m r k = Fin q -> c r k = q).
  { intros r k q Hr Hk E. rewrite Ec by assumption. unfold coreC. rewrite E. reflexivity. }
  assert (Hfinal : let '(a, t) := comp_assignf (me m) 0 (build_assign nr nc star) 0 in
    is_assignment nr nc a /\ inf_free (me m) a /\ t = total64 m a /\
    forall b, is_assignment nr nc b -> inf_free (me m) b ->
      (assign_size b <= assign_size a)%nat /\
      (assign_size b = assign_size a -> assign_cost (me m) a <= assign_cost (me m) b)).
  { destruct Hinf as [Hni|[mx [M0 [Mx [B0 [B1 B9]]]]]].
    - pose proof (finish nr nc (me m) c M M 0 star Cf) as F.
      assert (F' := F (fun r k Hr Hk E => False_ind _ (Hni r k Hr Hk E)) (fun r k Hr Hk => proj2 (HC r k (conj Hr Hk)))). clear F.
      assert (F := F' (fun r k q Hr Hk E => eq_ind _ (fun z => z <= M) (proj2 (proj2 (HC r k (conj Hr Hk)))) _ (Cf r k q Hr Hk E)) Hpl Hlen (Rle_refl 0) Hnear (or_introl Hni)). clear F'.
      destruct (comp_assignf (me m) 0 (build_assign nr nc star) 0) as [a t]. destruct F as [F1 [F2 [F3 F4]]].
      split; [exact F1|]. split; [exact F2|]. split; [exact F3|]. intros b Hb Hbf. destruct (F4 b Hb Hbf) as [G1 G2].
      split; [exact G1|]. intros Eb. specialize (G2 Eb). lra.
    - assert (Ci : forall r k, (r < nr)%nat -> (k < nc)%nat -> me m r k = Inf -> c r k = coreB m).
      { intros r k Hr Hk E. rewrite Ec by assumption. unfold coreC. rewrite E. reflexivity. }
      assert (Cb : forall r k, (r < nr)%nat -> (k < nc)%nat -> 0 <= c r k <= coreB m).
      { intros r k Hr Hk. split; [apply HC; auto|]. rewrite Ec by assumption. unfold coreC. destruct (me m r k) as [q|] eqn:Eq; [|lra].
        pose proof (Mx r k q Hr Hk Eq). lra. }
      assert (Hz : 0 * INR (Nat.min nr nc) <= / 4) by lra.
      pose proof (finish nr nc (me m) c (coreB m) mx 0 star Cf Ci Cb Mx Hpl Hlen (Rle_refl 0) Hnear
        (or_intror (conj M0 (conj B0 (conj B9 Hz))))) as F.
      destruct (comp_assignf (me m) 0 (build_assign nr nc star) 0) as [a t]. destruct F as [F1 [F2 [F3 F4]]].
      split; [exact F1|]. split; [exact F2|]. split; [exact F3|]. intros b Hb Hbf. destruct (F4 b Hb Hbf) as [G1 G2].
      split; [exact G1|]. intros Eb. specialize (G2 Eb). lra. }
  destruct (comp_assignf (me m) 0 (build_assign nr nc star) 0) as [a t]. destruct Hfinal as [F1 [F2 [F3 F4]]].
  pose proof (assignment_plist _ _ _ F1) as Hpa. pose proof (plist_le _ _ _ Hpa) as Hla.
  assert (Hs : forall x, In x (selected m a) -> grid e x /\ 0 <= x <= M).
  { intros x Hx. apply in_map_iff in Hx as [[r k] [<- Hx]]. cbn [fst snd]. destruct (F2 r k Hx) as [q Eq]. rewrite Eq. cbn [fin_val].
    destruct (proj2 (proj2 Hpa) r k Hx) as [R1 R2]. pose proof (HC r k (conj R1 R2)) as Q. rewrite (Cf r k q R1 R2 Eq) in Q. exact Q. }
  assert (M0 : 0 <= M) by (destruct (HC 0%nat 0%nat (conj Hnr Hnc)) as [_ Q]; lra).
  assert (Hsum : assign_cost (me m) a <= M * INR (Nat.min nr nc)).
  { pose proof (qsum_map_le (fun x => x) (fun _ => M) (selected m a)) as Q. rewrite map_id in Q.
    assert (Q' := Q (fun x Hx => proj2 (proj2 (Hs x Hx)))). rewrite qsum_map_const, <- INR_IZR_INZ in Q'.
    change (rsum (selected m a)) with (assign_cost (me m) a) in Q'. eapply Rle_trans; [exact Q'|]. apply Rmult_le_compat_l; [exact M0|].
    apply le_INR. unfold selected. rewrite map_length. exact Hla. }
  assert (A0 : 0 <= assign_cost (me m) a) by (apply qsum_nonneg; intros x Hx; apply Hs, Hx).
  assert (Et : total64 m a = assign_cost (me m) a).
  { unfold total64. rewrite (fold_grid e (proj1 He)).
    - change (rsum (selected m a)) with (assign_cost (me m) a). lra.
    - exists 0%Z. lra.
    - lra.
    - intros x Hx. destruct (Hs x Hx) as [G [B _]]. split; assumption.
    - change (rsum (selected m a)) with (assign_cost (me m) a). lra. }
  subst t. rewrite Et in Ea.
  assert (Hft : fits (assign_cost (me m) a) = true) by (unfold fits; apply Rleb_le; rewrite Rabs_pos_eq by exact A0; lra).
  rewrite Hft in Ea. exists a, (assign_cost (me m) a). split; [exact Ea|]. split; [exact F1|]. split; [exact F2|]. split; [reflexivity|exact F4].
Qed.

(** C177 as stated is false: with costs [[0, 2^55], [1, 2^55]] the reduced
    entry 2^55 - 1 of the second row rounds to 2^55, both pairings look equally
    good, and the dearer one is returned. *)
Definition big55 : R := bpow radix2 55.
Definition lossM : mat :=
  {| mr := 2; mc := 2; me := fun r c => Fin (match r, c with _, S _ => big55 | O, O => 0 | _, O => 1 end) |}.
Lemma big55_val : big55 = 36028797018963968.
Proof. unfold big55. cbn. lra. Qed.
Lemma absorb55 : sub64 big55 1 = big55.
Proof.
  unfold sub64, rnd64, round, scaled_mantissa.
  assert (Hc : cexp radix2 fexp64 (big55 - 1) = 2%Z).
  { unfold cexp. replace (mag radix2 (big55 - 1) : Z) with 55%Z; [reflexivity|]. symmetry. apply mag_unique.
    rewrite big55_val, Rabs_pos_eq by lra. split; cbn; lra. }
  rewrite Hc. replace (ZnearestE ((big55 - 1) * bpow radix2 (- (2)))) with (2 ^ 53)%Z.
  - unfold F2R. cbn [Fnum Fexp]. rewrite big55_val. cbn. lra.
  - symmetry. apply Znearest_imp. rewrite big55_val. replace (bpow radix2 (-(2))) with (/ 4) by (cbn; lra).
    replace (IZR (2 ^ 53)) with 9007199254740992 by reflexivity. rewrite Rabs_left by lra. lra.
Qed.
Lemma fmt_55 : fmt big55. Proof. apply bpow_format. lia. Qed.
Lemma step3f_S nr nc md fuel st : step3f nr nc md (S fuel) st =
      match sweep_cols nr nc (seq 0 nc) st false with
      | Goto4 st1 row col =>
          do st2 <- step4 nr nc st1 row col;
          if (count_lt (h_ccov (step2a nr st2)) nc =? md)%nat then Ok (h_star (step2a nr st2))
          else step3f nr nc md fuel (step2a nr st2)
      | Done st1 true => step3f nr nc md fuel st1
      | Done st1 false => do st2 <- step5f nr nc st1; step3f nr nc md fuel st2
      end.
Proof. reflexivity. Qed.


Lemma tie_end fuel st :
  h_dist st 0 0 = 0 -> h_dist st 0 1 = 0 -> h_dist st 1 0 = 0 -> h_dist st 1 1 = 0 ->
  h_star st 0 0 = true -> h_star st 0 1 = false -> h_star st 1 0 = false -> h_star st 1 1 = false ->
  h_prime st 0 0 = false -> h_prime st 0 1 = false -> h_prime st 1 0 = false -> h_prime st 1 1 = false ->
  h_ccov st 0 = true -> h_ccov st 1 = false -> h_rcov st 0 = false -> h_rcov st 1 = false ->
  exists star, step3f 2 2 2 (S (S fuel)) st = Ok star /\
    star 0%nat 0%nat = false /\ star 0%nat 1%nat = true /\ star 1%nat 0%nat = true /\ star 1%nat 1%nat = false.
Proof.
  destruct st as [d s p cc rc]. cbn [h_dist h_star h_prime h_ccov h_rcov].
  intros D00 D01 D10 D11 S00 S01 S10 S11 P00 P01 P10 P11 C0 C1 R0 R1.
  assert (E00 : Reqb 0 0 = true) by (apply Reqb_eq; lra).
  eexists. split.
  { rewrite step3f_S. cbn [seq sweep_cols h_ccov]. rewrite C0, C1. cbn [h_rcov h_dist h_star find_first find_from].
    unfold find_first. cbn [find_from]. rewrite R0, D01, E00. cbn [negb andb Nat.ltb Nat.leb]. rewrite S00. cbn [Nat.eqb].
    rewrite step3f_S. cbn [seq sweep_cols h_ccov h_rcov h_dist h_star h_prime].
    unfold find_first. cbn [find_from]. 
    change (upd cc 0 false 0%nat) with false. change (upd rc 0 true 0%nat) with true. change (upd rc 0 true 1%nat) with (rc 1%nat).
    rewrite R1, D10, E00. cbn [negb andb Nat.ltb Nat.leb]. rewrite S10, S11. cbn [Nat.eqb].
    unfold step4. cbn [h_star h_prime step4_loop]. unfold find_first. cbn [find_from]. rewrite S00. cbn [Nat.ltb Nat.leb].
    cbv [upd2 Nat.eqb andb]. rewrite P00. cbn [negb Nat.eqb].
    rewrite S01, S11. cbn [Nat.ltb Nat.leb bind].
    unfold count_lt, step2a, any_lt. cbn [h_ccov h_star seq filter existsb upd Nat.eqb orb length].
    rewrite orb_true_r. cbn [length Nat.eqb]. reflexivity. }
  repeat split; try reflexivity. exact S11.
Qed.
Lemma tie_run (c : nat -> nat -> R) : c 0%nat 0%nat = 0 -> c 0%nat 1%nat = big55 -> c 1%nat 0%nat = 1 -> c 1%nat 1%nat = big55 ->
  exists star, solvef 2 2 c = Ok star /\
    star 0%nat 0%nat = false /\ star 0%nat 1%nat = true /\ star 1%nat 0%nat = true /\ star 1%nat 1%nat = false.
Proof.
  intros C00 C01 C10 C11.
  pose proof big55_val as BV. assert (B : 0 < big55) by lra.
  assert (LB0 : Rltb big55 0 = false) by (apply Rltb_ge; lra).
  assert (LB1 : Rltb big55 1 = false) by (apply Rltb_ge; lra).
  assert (LBB : Rltb big55 big55 = false) by (apply Rltb_ge; lra).
  assert (E00 : Reqb 0 0 = true) by (apply Reqb_eq; lra).
  assert (EB0 : Reqb big55 0 = false) by (apply Reqb_neq; lra).
  assert (S0 : sub64 0 0 = 0) by apply sub64_self.
  assert (SB : sub64 big55 0 = big55) by (unfold sub64; rewrite Rminus_0_r; apply rnd_fix, fmt_55).
  assert (S1 : sub64 1 1 = 0) by apply sub64_self.
  assert (SBB : sub64 big55 big55 = 0) by apply sub64_self.
  pose proof absorb55 as AB.
  assert (FB : fits big55 = true) by (apply fits_le; [lra|apply bpow_le; lia]).
  pose proof fits_0 as F0.
  clear BV.
  unfold solvef. cbn [Nat.leb].
  set (d := fun r col => sub64 (c r col) (min_lt (c r) 2)).
  assert (M0 : min_lt (c 0%nat) 2 = 0) by (unfold min_lt; cbn [Nat.sub seq fold_left]; rewrite C00, C01, LB0; reflexivity).
  assert (M1 : min_lt (c 1%nat) 2 = 1) by (unfold min_lt; cbn [Nat.sub seq fold_left]; rewrite C10, C11, LB1; reflexivity).
  assert (D00 : d 0%nat 0%nat = 0) by (unfold d; rewrite M0, C00; exact S0).
  assert (D01 : d 0%nat 1%nat = big55) by (unfold d; rewrite M0, C01; exact SB).
  assert (D10 : d 1%nat 0%nat = 0) by (unfold d; rewrite M1, C10; exact S1).
  assert (D11 : d 1%nat 1%nat = big55) by (unfold d; rewrite M1, C11; exact AB).
  clearbody d.
  cbn [seq star_rows]. unfold find_first. cbn [find_from]. rewrite D00, E00. cbn [negb andb Nat.ltb Nat.leb].
  cbn [find_from]. rewrite D10, D11, E00, EB0. change (upd (fun _ : nat => false) 0 true 0%nat) with true.
  cbn [negb andb Nat.ltb Nat.leb]. unfold step2bf. cbn [h_ccov]. unfold count_lt. cbn [seq filter upd Nat.eqb length].
  change (hung_fuel 2 2) with 24%nat. rewrite step3f_S.
  cbn [seq sweep_cols h_ccov h_rcov h_dist]. change (upd (fun _ : nat => false) 0 true 0%nat) with true.
  change (upd (fun _ : nat => false) 0 true 1%nat) with false. unfold find_first. cbn [find_from].
  rewrite D01, D11, EB0. cbn [negb andb Nat.ltb Nat.leb].
  unfold step5f, step5_min. cbn [seq fold_left h_rcov h_ccov h_dist].
  change (upd (fun _ : nat => false) 0 true 0%nat) with true.
  change (upd (fun _ : nat => false) 0 true 1%nat) with false. cbv iota. rewrite D01, D11, LBB.
  unfold all_lt. cbn [seq forallb]. unfold step5_sub, step5_add. cbn [h_rcov h_ccov h_dist].
  change (upd (fun _ : nat => false) 0 true 0%nat) with true.
  change (upd (fun _ : nat => false) 0 true 1%nat) with false. cbv iota. rewrite D00, D01, D10, D11, SBB, FB, F0.
  cbn [andb bind].
  apply (tie_end 21); cbn [h_dist h_star h_prime h_ccov h_rcov]; try reflexivity; cbn [upd Nat.eqb]; cbv iota;
    first [exact D00|exact D10|rewrite D01; exact SBB|rewrite D11; exact SBB].
Qed.

Lemma lossM_run : assign_opt64 lossM = Ok ([Some 1; Some 0]%nat, total64 lossM [Some 1; Some 0]%nat).
Proof.
  pose proof big55_val as BV. 
  destruct (assign64_unfold lossM) as [c [Hc ->]].
  { intros r k q Hr Hk E. cbn in E. injection E as <-. destruct r, k; lra. }
  { exists 0%nat, 0%nat, 0. cbn. split; [lia|]. split; [lia|reflexivity]. }
  change (coreB lossM) with 0. rewrite fits_0. cbn [mr mc lossM] in *.
  destruct (tie_run c) as [star [-> [T1 [T2 [T3 T4]]]]]; [rewrite Hc by lia; reflexivity ..|].
  cbn [bind]. unfold build_assign. cbn [seq map]. unfold find_first. cbn [find_from]. rewrite T1, T2, T3. cbn [Nat.ltb Nat.leb].
  cbn [comp_assignf me lossM].
  change (total64 lossM [Some 1%nat; Some 0%nat]) with (add64 (add64 0 big55) 1).
  assert (E : fits (add64 (add64 0 big55) 1) = true); [|rewrite E; reflexivity].
  assert (E1 : add64 0 big55 = big55) by (unfold add64; rewrite Rplus_0_l; apply rnd_fix, fmt_55). rewrite E1.
  assert (fmt (bp 56)) by (apply bpow_format; lia).
  apply fits_le.
  - apply rnd_ge; [apply generic_format_0|lra].
  - apply (Rle_trans _ (bp 56)); [|apply bpow_le; lia]. unfold add64. apply rnd_le; [assumption|]. cbn; lra.
Qed.

Lemma loss_hyps : double_costs lossM /\ moderate_size lossM /\ no_inf lossM.
Proof.
  pose proof big55_val as BV. split; [|split].
  - intros r c q Hr Hc E. cbn in E. injection E as <-.
    assert (F : forall x, fmt x -> 0 <= x -> x <= big55 -> rep64 x /\ 0 <= x <= bpow radix2 900).
    { intros x Fx H0 H1. assert (x <= bp 900) by (apply (Rle_trans _ big55 _ H1); apply bpow_le; lia).
      split; [|lra]. split; [exact Fx|]. rewrite Rabs_pos_eq by exact H0. eapply Rle_trans; [|exact fmax64_big].
      apply (Rle_trans _ (bp 900)); [assumption|apply bpow_le; lia]. }
    destruct c; [destruct r|]; apply F; try lra; [apply fmt_0|change 1 with (bp 0); apply bpow_format; lia|destruct r; exact fmt_55|destruct r; lra..].
  - left. cbn [mr mc lossM]. cbn. lra.
  - intros r c _ _ E. cbn in E. discriminate E.
Qed.
Theorem C177_assign_double_refuted :
  exists m a cost b, double_costs m /\ moderate_size m /\ no_inf m /\
    assign_opt64 m = Ok (a, cost) /\
    is_assignment (mr m) (mc m) b /\ assign_size b = assign_size a /\
    assign_cost (me m) b < assign_cost (me m) a.
Proof.
  exists lossM, [Some 1; Some 0]%nat, (total64 lossM [Some 1; Some 0]%nat), [Some 0; Some 1]%nat.
  destruct loss_hyps as [A [B C]]. split; [exact A|]. split; [exact B|]. split; [exact C|]. split; [exact lossM_run|].
  pose proof big55_val as BV. split; [|split; [reflexivity|]].
  - split; [reflexivity|]. cbn. split.
    + intros r c [E|[E|[]]]; injection E as <- <-; lia.
    + repeat constructor; cbn; intuition lia.
  - unfold assign_cost. cbn. lra.
Qed.

(** The hypotheses are met, also by matrices with inf. *)
Definition mixedM : mat :=
  of_rows 2 [[Fin 3; Inf]; [Fin 1; Fin 2]; [Inf; Fin 5]].
Example mixed_exact : exact_costs 0 5 mixedM.
Proof.
  assert (F : forall z, (0 <= z <= 5)%Z -> exists z', IZR z = IZR z' * bpow radix2 0 /\ 0 <= IZR z' <= 5).
  { intros z Hz. exists z. split; [cbn; lra|]. split; apply IZR_le; lia. }
  split; [|split; [lia|right; split; [lia|split]]].
  - intros r c q Hr Hc E. cbn [mr mc mixedM of_rows length] in Hr, Hc.
    destruct r as [|[|[|r]]]; [| | |lia]; (destruct c as [|[|c]]; [| |lia]); cbn in E; try discriminate E; injection E as <-; apply F; lia.
  - cbn. lra.
  - cbn. lra.
Qed.
Example mixed_double : double_costs mixedM /\ moderate_size mixedM /\ ~ no_inf mixedM.
Proof.
  split; [|split].
  - intros r c q Hr Hc E. cbn [mr mc mixedM of_rows length] in Hr, Hc.
    assert (F : forall z, (0 <= z <= 5)%Z -> rep64 (IZR z) /\ 0 <= IZR z <= bpow radix2 900).
    { intros z Hz. assert (0 <= IZR z <= 5) by (split; apply IZR_le; lia).
      assert (5 <= bp 3) by (change (bp 3) with 8; lra). assert (bp 3 <= bp 900) by (apply bpow_le; lia).
      split; [|lra]. split; [apply (grid_fmt 0); [lia|exists z; cbn; lra|lra|cbn; lra]|]. rewrite Rabs_pos_eq by lra. eapply Rle_trans; [|exact fmax64_big].
      apply (Rle_trans _ (bp 3)); [lra|apply bpow_le; lia]. }
    destruct r as [|[|[|r]]]; [| | |lia]; (destruct c as [|[|c]]; [| |lia]); cbn in E; try discriminate E; injection E as <-; apply F; lia.
  - left. cbn [mr mc mixedM of_rows length]. cbn. lra.
  - intros H. apply (H 0%nat 1%nat); cbn; [lia|lia|reflexivity].
Qed.

Print Assumptions C176_assign_double.
Print Assumptions C177_assign_double_refuted.
Print Assumptions C177_assign_double_near_optimal_partial.
Print Assumptions C178_assign_double_exact.

(** The model of C155 (FltModel.v, without a check for overflow) gives the same
    answers wherever this one does not report an overflow. *)
Lemma step5f_same nr nc st st' : step5f nr nc st = Ok st' -> FltModel.fstep5 ieee64 nr nc st = Ok st'.
Proof.
  unfold step5f, FltModel.fstep5. destruct (step5_min nr nc st) as [h|]; [|discriminate].
  match goal with |- context [if ?b then _ else _] => destruct b end; [|discriminate].
  intros H. injection H as <-. reflexivity.
Qed.
Lemma step3f_same nr nc md fuel : forall st s, step3f nr nc md fuel st = Ok s -> FltModel.fstep3 ieee64 nr nc md fuel st = Ok s.
Proof.
  induction fuel as [|fuel IH]; intros st s; [discriminate|]. cbn [step3f FltModel.fstep3].
  destruct (sweep_cols nr nc (seq 0 nc) st false) as [st1 row col|st1 [|]].
  - destruct (step4 nr nc st1 row col) as [st2|e]; cbn [bind]; [|discriminate].
    match goal with |- context [if ?b then _ else _] => destruct b end; [tauto|apply IH].
  - apply IH.
  - destruct (step5f nr nc st1) as [st2|e] eqn:E; cbn [bind]; [|discriminate]. rewrite (step5f_same _ _ _ _ E). cbn [bind]. apply IH.
Qed.
Lemma step2bf_same nr nc md fuel st s : step2bf nr nc md fuel st = Ok s -> FltModel.fstep2b ieee64 nr nc md fuel st = Ok s.
Proof.
  unfold step2bf, FltModel.fstep2b. match goal with |- context [if ?b then _ else _] => destruct b end; [tauto|apply step3f_same].
Qed.
Lemma solvef_same nr nc c s : solvef nr nc c = Ok s -> FltModel.fsolve ieee64 nr nc c = Ok s.
Proof.
  unfold solvef, FltModel.fsolve. destruct (nr <=? nc)%nat.
  - change (fun r col => FltModel.fsub ieee64 (c r col) (min_lt (c r) nc)) with (fun r col => sub64 (c r col) (min_lt (c r) nc)).
    destruct (star_rows nc _ _ _ _) as [star ccov]. apply step2bf_same.
  - change (fun r col => FltModel.fsub ieee64 (c r col) (min_lt (fun r' => c r' col) nr)) with (fun r col => sub64 (c r col) (min_lt (fun r' => c r' col) nr)).
    destruct (star_cols nr _ _ _ _ _) as [[star ccov] rcov]. apply step2bf_same.
Qed.
Theorem assign_opt64_same : forall m r, assign_opt64 m = Ok r -> FltModel.fassign_opt ieee64 (Arr2 m) = Ok r.
Proof.
  intros m r. unfold FltModel.fassign_opt, FltModel.fassign_opt2, assign_opt64.
  match goal with |- context [if ?b then _ else _] => destruct b end; [discriminate|].
  match goal with |- context [if negb ?b then _ else _] => destruct b end; cbn [negb]; [|tauto].
  match goal with |- context [if ?b then _ else _] => destruct b end.
  - destruct (max_finite (mr m) (mc m) (me m)) as [mx|]; [|tauto].
    destruct (fits _); [|discriminate].
    destruct (solvef _ _ _) as [star|e] eqn:E; cbn [bind]; [|discriminate].
    change (finf_value ieee64 (mr m) (mc m) mx) with (inf_value64 (mr m) (mc m) mx). rewrite (solvef_same _ _ _ _ E). cbn [bind].
    change (FltModel.fcomp_assign ieee64) with comp_assignf. destruct (comp_assignf _ _ _ _) as [a t]. destruct (fits t); [tauto|discriminate].
  - destruct (fits _); [|discriminate].
    destruct (solvef _ _ _) as [star|e] eqn:E; cbn [bind]; [|discriminate].
    rewrite (solvef_same _ _ _ _ E). cbn [bind].
    change (FltModel.fcomp_assign ieee64) with comp_assignf. destruct (comp_assignf _ _ _ _) as [a t]. destruct (fits t); [tauto|discriminate].
Qed.
Print Assumptions assign_opt64_same.
