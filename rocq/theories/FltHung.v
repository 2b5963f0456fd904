(** Rounding-error analysis of [assign_opt]: the run in rounded arithmetic ends,
    and its stars are an optimal assignment of a matrix that differs from the
    given one by at most [17 * fuel * u] times the largest entry. *)
From Verif Require Import RBase RHungModel RHungSpec RHungProofs FltModel FltSpec.
From Coq Require Import Permutation.

Lemma abs_inv x a : (Rabs x <= a -> - a <= x <= a)%R.
Proof. intros H. unfold Rabs in H. destruct (Rcase_abs x); lra. Qed.

Section Run.
Variables (u fmax : R) (rep : R -> Prop) (A : farith).
Hypothesis HA : rounds u fmax rep A.
Variables nr nc : nat.
Variable C : nat -> nat -> R.
Variable K : R.
Notation md := (Nat.min nr nc).
Notation F := (INR (hung_fuel nr nc)).
Hypothesis HK : forall r c, r < nr -> c < nc -> (0 <= C r c <= K)%R /\ rep (C r c).
Hypothesis Hu : (17 * F * u <= 1)%R.
Hypothesis Hmax : (10 * K <= fmax)%R.
Hypothesis Hnr : 0 < nr.
Hypothesis Hnc : 0 < nc.

Lemma K_nonneg : (0 <= K)%R.
Proof. destruct (HK 0 0 Hnr Hnc) as [H _]. lra. Qed.
Lemma u_nonneg : (0 <= u)%R.
Proof. exact (proj1 HA). Qed.
Lemma fuel_ge : (8 <= F)%R.
Proof.
  replace 8%R with (INR 8) by (simpl; ring). apply le_INR. unfold hung_fuel.
  assert (1 <= md) by lia. 
  assert (2 * 6 <= S md * (2 * nr + 4)) by (apply Nat.mul_le_mono; lia). lia.
Qed.
Lemma u_small : (u <= / 10)%R.
Proof. pose proof fuel_ge. pose proof u_nonneg. nra. Qed.

(** The perturbed matrix stays within [e]. *)
Definition near (e : R) (C' : nat -> nat -> R) : Prop :=
  forall r c, r < nr -> c < nc -> (Rabs (C' r c - C r c) <= e)%R.

(** Dual variables of an unmatched line are large enough. *)
Definition bnd (star : nat -> nat -> bool) (uu vv : nat -> R) : Prop :=
  forall r c, r < nr -> c < nc ->
    (if nr <=? nc then forall r', star r' c = false else forall c', star r c' = false) -> (0 <= uu r + vv c)%R.

Definition reps (st : hst) : Prop := forall r c, r < nr -> c < nc -> rep (h_dist st r c).

Lemma free_col star : (forall r c, star r c = true -> r < nr /\ c < nc) -> nstars nr nc star < nc ->
  exists c, c < nc /\ forall r, star r c = false.
Proof.
  intros Hb Hn. destruct (count_lt_not_full _ _ Hn) as [c [Hc Hf]]. exists c. split; [exact Hc|].
  intros r. destruct (star r c) eqn:E; [|reflexivity].
  assert (cstar nr star c = true); [|congruence]. apply (cstar_true nr nc); [exact Hb|eauto].
Qed.

Lemma free_row dist star : matching_on nr nc dist star -> nstars nr nc star < nr ->
  exists r, r < nr /\ forall c, star r c = false.
Proof.
  intros [M1 [M2 M3]] Hn.
  destruct (count_lt_not_full (fun r => any_lt (star r) nc) nr) as [r [Hr Hf]].
  - apply Nat.le_lt_trans with (nstars nr nc star); [|exact Hn]. unfold nstars, count_lt.
    rewrite <- (map_length (fun r => find_first (star r) nc)). apply NoDup_incl_length.
    + assert (HN : NoDup (filter (fun r => any_lt (star r) nc) (seq 0 nr))) by (apply NoDup_filter, seq_NoDup).
      assert (Hin : forall r, In r (filter (fun r => any_lt (star r) nc) (seq 0 nr)) ->
                star r (find_first (star r) nc) = true).
      { intros r Hr. apply filter_In in Hr as [_ Hr]. apply any_lt_true in Hr as [c [Hc Hrc]].
        destruct (find_first_some (star r) nc c Hc Hrc) as [Hlt _]. apply find_first_true; exact Hlt. }
      revert HN Hin. generalize (filter (fun r => any_lt (star r) nc) (seq 0 nr)). intros l.
      induction l as [|r l IH]; intros HN Hin; simpl; constructor.
      * intros Hx. apply in_map_iff in Hx as [r' [E Hr']]. inversion HN; subst.
        assert (r = r'); [|subst; contradiction].
        apply (M3 r r' (find_first (star r) nc)); [apply Hin; left; reflexivity|].
        rewrite <- E. apply Hin; right; exact Hr'.
      * inversion HN; subst. apply IH; auto. intros x Hx; apply Hin; right; exact Hx.
    + intros c Hc. apply in_map_iff in Hc as [r [<- Hr]]. apply filter_In in Hr as [Hr Hx].
      apply any_lt_true in Hx as [c [Hc Hrc]].
      destruct (find_first_some (star r) nc c Hc Hrc) as [Hlt _].
      apply filter_In. split; [apply in_seq; lia|]. unfold cstar. apply any_lt_true. exists r.
      apply in_seq in Hr. split; [lia|]. apply find_first_true; exact Hlt.
  - exists r. split; [exact Hr|]. intros c. destruct (star r c) eqn:E; [|reflexivity].
    assert (any_lt (star r) nc = true); [|congruence]. apply any_lt_true. exists c.
    split; [apply (M1 _ _ E)|exact E].
Qed.

(** All working values stay below five times the largest entry. *)
Lemma dist_bound C' st uu vv hist e : inv nr nc C' st uu vv hist -> bnd (h_star st) uu vv ->
  nstars nr nc (h_star st) < md -> near e C' -> (0 <= e <= K)%R ->
  forall r c, r < nr -> c < nc -> (0 <= h_dist st r c <= 5 * K)%R.
Proof.
  intros [Hd [Hm [Hsl [Hcs [Hrs Hp]]]]] Hb Hn Hnear He r c Hr Hc.
  assert (N : forall r c, r < nr -> c < nc -> (- e <= C' r c <= K + e)%R).
  { intros r' c' Hr' Hc'. specialize (Hnear r' c' Hr' Hc'). destruct (HK r' c' Hr' Hc') as [H _].
    apply abs_inv in Hnear. lra. }
  split; [apply Hd; assumption|]. unfold bnd in Hb.
  pose proof Hm as [M1 [M2 M3]].
  destruct (nr <=? nc) eqn:E.
  - apply Nat.leb_le in E.
    destruct (free_col (h_star st)) as [c0 [Hc0 Hf0]]; [intros a b HH; destruct (M1 _ _ HH); tauto|lia|].
    pose proof (Hb r c0 Hr Hc0 Hf0) as B0. destruct (Hd r c Hr Hc) as [D1 D2].
    destruct (cstar nr (h_star st) c) eqn:Ec.
    + apply (cstar_true nr nc) in Ec; [|intros a b HH; destruct (M1 _ _ HH); tauto].
      destruct Ec as [r' Hr']. destruct (M1 _ _ Hr') as [R1 [_ Z]].
      destruct (Hd r' c R1 Hc) as [D3 _]. destruct (Hd r' c0 R1 Hc0) as [D4 D5].
      pose proof (N r c Hr Hc). pose proof (N r' c R1 Hc). pose proof (N r' c0 R1 Hc0). lra.
    + assert (Hf : forall r', h_star st r' c = false).
      { intros r'. destruct (h_star st r' c) eqn:Es; [|reflexivity].
        assert (cstar nr (h_star st) c = true); [|congruence].
        apply (cstar_true nr nc); [intros a b HH; destruct (M1 _ _ HH); tauto|eauto]. }
      pose proof (Hb r c Hr Hc Hf). pose proof (N r c Hr Hc). lra.
  - apply Nat.leb_gt in E.
    destruct (free_row (h_dist st) (h_star st) Hm) as [r0 [Hr0 Hf0]]; [lia|].
    pose proof (Hb r0 c Hr0 Hc Hf0) as B0. destruct (Hd r c Hr Hc) as [D1 D2].
    destruct (any_lt (h_star st r) nc) eqn:Ec.
    + apply any_lt_true in Ec as [c' [C1 Hc']]. destruct (M1 _ _ Hc') as [_ [_ Z]].
      destruct (Hd r c' Hr C1) as [D3 _]. destruct (Hd r0 c' Hr0 C1) as [D4 D5].
      pose proof (N r c Hr Hc). pose proof (N r c' Hr C1). pose proof (N r0 c' Hr0 C1). lra.
    + assert (Hf : forall c', h_star st r c' = false).
      { intros c'. destruct (h_star st r c') eqn:Es; [|reflexivity].
        assert (any_lt (h_star st r) nc = true); [|congruence].
        apply any_lt_true. exists c'. split; [apply (M1 _ _ Es)|exact Es]. }
      pose proof (Hb r c Hr Hc Hf). pose proof (N r c Hr Hc). lra.
Qed.

(** One rounded step 5. *)
Lemma fstep5_spec C' st uu vv hist e : inv nr nc C' st uu vv hist -> bnd (h_star st) uu vv -> reps st ->
  nstars nr nc (h_star st) < md -> near e C' -> (0 <= e <= K)%R ->
  exists st' C'' uu' vv', fstep5 A nr nc st = Ok st' /\ inv nr nc C'' st' uu' vv' hist /\
    bnd (h_star st') uu' vv' /\ reps st' /\ near (e + 16 * u * K) C'' /\
    h_star st' = h_star st /\ unc_zero nr nc st' = true.
Proof.
  intros Hinv Hb Hrep Hlt Hnear He.
  pose proof (dist_bound C' st uu vv hist e Hinv Hb Hlt Hnear He) as Hdb.
  destruct (uncovered_exist _ _ _ _ _ _ _ Hinv Hlt) as [r0 [c0 [Hr0 [Hc0 [Hrc0 Hcc0]]]]].
  pose proof Hinv as [Hd [[M1 [M2 M3]] [Hsl [Hcs [Hrs Hp]]]]].
  pose proof (step5_min_spec nr nc C' st) as Hmin. unfold fstep5.
  destruct (step5_min nr nc st) as [h|]; simpl in Hmin.
  2: { exfalso. apply (Hmin (h_dist st r0 c0)). exists r0, c0. auto. }
  destruct Hmin as [[r1 [c1 [Hr1 [Hc1 [Hrc1 [Hcc1 Eh]]]]]] Hle].
  assert (Hh : (0 <= h <= 5 * K)%R) by (rewrite Eh; apply Hdb; assumption).
  assert (Rh : rep h) by (rewrite Eh; apply Hrep; assumption).
  pose proof HA as (U0 & R0 & _ & HAdd & HSub & _).
  pose proof u_small as Us. pose proof K_nonneg as K0.
  assert (Add : forall r c, r < nr -> c < nc -> rep (fadd A (h_dist st r c) h) /\
     (Rabs (fadd A (h_dist st r c) h - (h_dist st r c + h)) <= u * (10 * K))%R /\
     (h_dist st r c = 0 -> fadd A (h_dist st r c) h = h)%R /\ (h <= fadd A (h_dist st r c) h)%R).
  { intros r c Hr Hc. destruct (Hdb r c Hr Hc) as [D0 D1].
    destruct (HAdd (h_dist st r c) h) as (X1 & X2 & X3 & X4); auto; try lra.
    split; [exact X1|]. split; [|split; assumption].
    eapply Rle_trans; [exact X2|]. apply Rmult_le_compat_l; lra. }
  assert (S0 : fsub A h h = 0%R).
  { destruct (HSub h h Rh Rh) as [_ X]; [lra|lra|]. replace (h - h)%R with 0%R in X by ring.
    rewrite Rmult_0_r, Rminus_0_r in X. pose proof (Rabs_pos (fsub A h h)) as Y.
    destruct (Req_dec (fsub A h h) 0) as [|Hne]; [assumption|].
    apply Rabs_pos_lt in Hne. lra. }
  set (d' := fun r c =>
              let d1 := if h_rcov st r then fadd A (h_dist st r c) h else h_dist st r c in
              if h_ccov st c then d1 else fsub A d1 h).
  set (uu' := fun r => if h_rcov st r then (uu r - h)%R else uu r).
  set (vv' := fun c => if h_ccov st c then vv c else (vv c + h)%R).
  assert (Dnew : forall r c, r < nr -> c < nc -> (0 <= d' r c)%R /\ rep (d' r c) /\
     (Rabs (d' r c - (h_dist st r c + (if h_rcov st r then h else 0) - (if h_ccov st c then 0 else h))) <= 16 * u * K)%R).
  { intros r c Hr Hc. unfold d'. cbn zeta. destruct (Hdb r c Hr Hc) as [D0 D1].
    destruct (Add r c Hr Hc) as (X1 & X2 & X3 & X4).
    assert (UK : (0 <= u * K)%R) by (apply Rmult_le_pos; assumption).
    destruct (h_rcov st r) eqn:Er; destruct (h_ccov st c) eqn:Ec.
    - split; [lra|]. split; [exact X1|].
      replace (h_dist st r c + h - 0)%R with (h_dist st r c + h)%R by ring. lra.
    - destruct (HSub (fadd A (h_dist st r c) h) h X1 Rh) as [Y1 Y2]; [lra|exact X4|].
      set (x := fadd A (h_dist st r c) h) in *. apply abs_inv in X2.
      assert (Y3 : (u * (x - h) <= u * (6 * K))%R) by (apply Rmult_le_compat_l; nra).
      assert (Y4 : (u * (x - h) <= x - h)%R) by nra.
      apply abs_inv in Y2. split; [lra|]. split; [exact Y1|]. apply Rabs_le. lra.
    - split; [lra|]. split; [apply Hrep; assumption|].
      replace (h_dist st r c - (h_dist st r c + 0 - 0))%R with 0%R by ring. rewrite Rabs_R0. lra.
    - assert (Hge : (h <= h_dist st r c)%R) by (apply Hle; exists r, c; auto).
      destruct (HSub (h_dist st r c) h (Hrep r c Hr Hc) Rh) as [Y1 Y2]; [lra|exact Hge|].
      assert (Y3 : (u * (h_dist st r c - h) <= u * (5 * K))%R) by (apply Rmult_le_compat_l; lra).
      assert (Y4 : (u * (h_dist st r c - h) <= h_dist st r c - h)%R) by nra.
      apply abs_inv in Y2. split; [lra|]. split; [exact Y1|]. apply Rabs_le. lra. }
  assert (Hz : forall r c, r < nr -> c < nc -> h_rcov st r = true -> h_ccov st c = false ->
     h_dist st r c = 0%R -> d' r c = 0%R).
  { intros r c Hr Hc Er Ec Z. unfold d'. cbn zeta. rewrite Er, Ec.
    destruct (Add r c Hr Hc) as (_ & _ & X3 & _). rewrite (X3 Z). exact S0. }
  eexists. exists (fun r c => d' r c + uu' r + vv' c)%R, uu', vv'. split; [reflexivity|].
  split; [|split; [|split; [|split; [|split; [reflexivity|]]]]].
  - split; [|split; [|split; [|split; [|split]]]]; cbn [h_dist h_star h_prime h_ccov h_rcov].
    + intros r c Hr Hc. fold d'. destruct (Dnew r c Hr Hc) as [X _]. cbv beta.
      change ((d' r c = (d' r c + uu' r + vv' c) - uu' r - vv' c)%R /\ (0 <= d' r c)%R).
      split; [ring|exact X].
    + fold d'. split; [|split; assumption]. intros r c Hrc. destruct (M1 _ _ Hrc) as [B1 [B2 Z]].
      split; [exact B1|]. split; [exact B2|]. pose proof (Hrs _ _ Hrc) as Hrc'.
      destruct (h_ccov st c) eqn:Ec; simpl in Hrc'.
      * unfold d'. cbn zeta. rewrite Hrc', Ec. exact Z.
      * apply Hz; auto.
    + unfold slack in *. destruct (nr <=? nc).
      * destruct Hsl as [V HV]. exists (V + h)%R. intros c Hc. destruct (HV c Hc) as [X Y].
        unfold vv'. split.
        -- destruct (h_ccov st c); lra.
        -- intros Hn. destruct (h_ccov st c) eqn:Ec.
           ++ destruct (Hcs c Ec) as [r Hr]. rewrite Hn in Hr. discriminate.
           ++ rewrite (Y Hn). reflexivity.
      * destruct Hsl as [V HV]. exists V. intros r Hr. destruct (HV r Hr) as [X Y].
        unfold uu'. split.
        -- destruct (h_rcov st r); lra.
        -- intros Hn. destruct (h_rcov st r) eqn:Er; [|apply Y, Hn].
           destruct Hp as [_ [P2 [P3 _]]]. apply P2 in Er. destruct (P3 r Er) as [_ [c Hc']].
           rewrite Hn in Hc'. discriminate.
    + exact Hcs.
    + exact Hrs.
    + destruct Hp as [P1 [P2 [P3 [P4 P5]]]]. split; [exact P1|]. split; [exact P2|]. split; [exact P3|].
      split; [exact P4|]. intros l1 r l2 E. destruct (P5 _ _ _ E) as [p [Q1 [Q2 [Q3 [Q4 [Q5 Q6]]]]]].
      exists p. split; [exact Q1|]. split; [exact Q2|]. split; [|split; [exact Q4|split; [exact Q5|exact Q6]]].
      assert (Hin : In r hist) by (subst hist; apply in_app_iff; simpl; auto).
      change (d' r p = 0%R). apply Hz; auto; [apply (P3 r Hin)|apply P2, Hin].
  - unfold bnd in *. cbn [h_star]. intros r c Hr Hc. specialize (Hb r c Hr Hc).
    unfold uu', vv'. destruct (nr <=? nc).
    + intros Hf. specialize (Hb Hf). destruct (h_ccov st c) eqn:Ec.
      * destruct (Hcs c Ec) as [r' Hr']. rewrite Hf in Hr'. discriminate.
      * destruct (h_rcov st r); lra.
    + intros Hf. specialize (Hb Hf). destruct (h_rcov st r) eqn:Er.
      * destruct Hp as [_ [P2 [P3 _]]]. apply P2 in Er. destruct (P3 r Er) as [_ [c' Hc']].
        rewrite Hf in Hc'. discriminate.
      * destruct (h_ccov st c); lra.
  - intros r c Hr Hc. cbn [h_dist]. apply (Dnew r c Hr Hc).
  - intros r c Hr Hc. cbv beta. destruct (Dnew r c Hr Hc) as (_ & _ & X).
    destruct (Hd r c Hr Hc) as [E1 _]. specialize (Hnear r c Hr Hc).
    apply abs_inv in X. apply abs_inv in Hnear. apply Rabs_le. unfold uu', vv'.
    destruct (h_rcov st r), (h_ccov st c); lra.
  - unfold unc_zero. apply any_lt_true. exists c1. split; [exact Hc1|]. cbn [h_ccov h_rcov h_dist].
    rewrite Hcc1. simpl. apply any_lt_true. exists r1. split; [exact Hr1|]. rewrite Hrc1. simpl.
    apply Reqb_eq. unfold d'. cbn zeta. rewrite Hrc1, Hcc1, <- Eh. exact S0.
Qed.

(** The run ends with the stars of a matrix close to the given one. *)
Definition fsolved (star : nat -> nat -> bool) : Prop :=
  exists C', near (17 * F * u * K) C' /\ solved nr nc C' star.

Lemma bnd_step4 C' C2 dist st st' uu vv : matching_on nr nc dist (h_star st) -> bnd (h_star st) uu vv ->
  slack nr nc (h_star st') uu vv -> nstars nr nc (h_star st) < md -> duals nr nc C' (h_dist st) uu vv ->
  duals nr nc C2 (h_dist st') uu vv -> bnd (h_star st') uu vv.
Proof.
  intros Hm Hb Hsl Hn _ _. pose proof Hm as [M1 _]. unfold bnd, slack in *. intros r c Hr Hc.
  destruct (nr <=? nc) eqn:E.
  - apply Nat.leb_le in E. intros Hf. destruct Hsl as [V HV]. destruct (HV c Hc) as [_ Vc]. rewrite (Vc Hf).
    destruct (free_col (h_star st)) as [c0 [Hc0 Hf0]]; [intros a b HH; destruct (M1 _ _ HH); tauto|lia|].
    pose proof (Hb r c0 Hr Hc0 Hf0). destruct (HV c0 Hc0). lra.
  - apply Nat.leb_gt in E. intros Hf. destruct Hsl as [V HV]. destruct (HV r Hr) as [_ Vc]. rewrite (Vc Hf).
    destruct (free_row dist (h_star st) Hm) as [r0 [Hr0 Hf0]]; [lia|].
    pose proof (Hb r0 c Hr0 Hc Hf0). destruct (HV r0 Hr0). lra.
Qed.

Lemma sweep_dist cols : forall st zf,
  match sweep_cols nr nc cols st zf with
  | Goto4 st1 _ _ | Done st1 _ => h_dist st1 = h_dist st
  end.
Proof.
  induction cols as [|c cols IH]; intros st zf; cbn [sweep_cols]; [reflexivity|].
  destruct (h_ccov st c); [apply IH|].
  destruct (find_first _ nr <? nr); [|apply IH].
  destruct (find_first (h_star st _) nc =? nc); [reflexivity|].
  match goal with |- context [sweep_cols nr nc cols ?s true] => specialize (IH s true) end. exact IH.
Qed.

Lemma fstep3_spec fuel : forall k C' st uu vv hist,
  inv nr nc C' st uu vv hist -> bnd (h_star st) uu vv -> reps st -> near ((1 + 16 * INR k) * u * K) C' ->
  k + fuel <= hung_fuel nr nc ->
  nstars nr nc (h_star st) < md -> measure nr nc st hist < fuel ->
  exists star, fstep3 A nr nc md fuel st = Ok star /\ fsolved star.
Proof.
  pose proof u_nonneg as U0. pose proof K_nonneg as K0. pose proof fuel_ge as F8.
  assert (Kbound : forall k, k <= hung_fuel nr nc -> (0 <= (1 + 16 * INR k) * u * K <= 17 * F * u * K)%R).
  { intros k Hk. apply le_INR in Hk. pose proof (pos_INR k).
    assert (0 <= u * K)%R by (apply Rmult_le_pos; assumption). nra. }
  assert (Kle : (17 * F * u * K <= K)%R) by nra.
  induction fuel as [|fuel IH]; intros k C' st uu vv hist Hinv Hb Hrep Hnear Hk Hlt Hf; [lia|].
  cbn [fstep3].
  pose proof (sweep_spec nr nc C' (seq 0 nc) st uu vv hist false Hinv (fun c H => proj2 (proj1 (in_seq nc 0 c) H))) as Hs.
  pose proof (sweep_dist (seq 0 nc) st false) as Hsd.
  destruct (sweep_cols nr nc (seq 0 nc) st false) as [st1 row col|st1 [|]].
  - destruct Hs as [st0 [hist0 [Hi0 [Es [Hrow [Hcol [Hcc [Hz [Hns ->]]]]]]]]]. cbn [h_dist] in Hsd.
    destruct (step4_spec nr nc C' st0 uu vv hist0 row col Hi0 Hrow Hcol Hcc Hz Hns) as [st' [E4 [Hi' [Hn' Hcov]]]].
    assert (Ed : h_dist (step2a nr st') = h_dist st).
    { cbn [step2a h_dist]. unfold step4 in E4. destruct (step4_loop _ _ _ _ _ _ _ _) as [nw|]; [|discriminate].
      cbn [bind] in E4. inversion E4; subst st'. cbn [h_dist]. exact Hsd. }
    rewrite E4. cbn [bind].
    rewrite (count_lt_ext (h_ccov (step2a nr st')) (cstar nr (h_star st')) nc Hcov).
    fold (nstars nr nc (h_star st')).
    change (h_star (step2a nr st')) with (h_star st').
    destruct (Nat.eqb_spec (nstars nr nc (h_star st')) md) as [E|Hne].
    + exists (h_star st'). split; [reflexivity|]. destruct Hi' as [D [Mt [Sl _]]]. exists C'. split.
      * intros r c Hr Hc. eapply Rle_trans; [apply Hnear; assumption|]. apply Kbound. lia.
      * exists (h_dist (step2a nr st')), uu, vv. auto.
    + apply (IH k C' (step2a nr st') uu vv []); [exact Hi'| | | | | |].
      * change (h_star (step2a nr st')) with (h_star st').
        destruct Hi' as [D' [_ [Sl' _]]]. destruct Hinv as [D [Mt _]].
        apply (bnd_step4 C' C' (h_dist st) st (step2a nr st') uu vv); auto.
      * intros r c Hr Hc. rewrite Ed. apply Hrep; assumption.
      * exact Hnear.
      * lia.
      * change (h_star (step2a nr st')) with (h_star st'). 
        destruct Hi' as [_ [Mt' _]]. pose proof (nstars_le nr nc C' _ _ Mt') as Hle.
        change (h_star (step2a nr st')) with (h_star st') in Hle. lia.
      * unfold measure in *. change (h_star (step2a nr st')) with (h_star st').
        rewrite Hn', Es. cbn [length].
        assert (Hd : (md - nstars nr nc (h_star st)) * (2 * nr + 4) =
                (md - S (nstars nr nc (h_star st))) * (2 * nr + 4) + (2 * nr + 4)).
        { replace (md - nstars nr nc (h_star st)) with (S (md - S (nstars nr nc (h_star st)))) by lia.
          cbn [Nat.mul]. lia. }
        rewrite Hd in Hf.
        clear Hd; generalize dependent ((md - S (nstars nr nc (h_star st))) * (2 * nr + 4)). intros X Hf.
        destruct (unc_zero nr nc st), (unc_zero nr nc (step2a nr st')); lia.
  - destruct Hs as [hist1 [Hi1 [Es [_ [Ht _]]]]]. destruct (Ht eq_refl) as [|Hlen]; [discriminate|].
    apply (IH k C' st1 uu vv hist1 Hi1); [rewrite Es; exact Hb| |exact Hnear|lia|rewrite Es; exact Hlt|].
    { intros r c Hr Hc. rewrite Hsd. apply Hrep; assumption. }
    pose proof (hist_len _ _ _ _ (proj2 (proj2 (proj2 (proj2 (proj2 Hi1)))))) as Hln.
    unfold measure in *. rewrite Es.
    generalize dependent ((md - nstars nr nc (h_star st)) * (2 * nr + 4)). intros X Hf.
    destruct (unc_zero nr nc st), (unc_zero nr nc st1); lia.
  - destruct Hs as [hist1 [_ [_ [_ [_ Hf1]]]]]. destruct (Hf1 eq_refl) as [_ [-> Hnz]].
    destruct (fstep5_spec C' st uu vv hist ((1 + 16 * INR k) * u * K) Hinv Hb Hrep Hlt Hnear)
      as [st' [C'' [uu' [vv' [E5 [Hi' [Hb' [Hr' [Hn' [Es Hz]]]]]]]]]].
    { assert (Hkk : k <= hung_fuel nr nc) by lia. specialize (Kbound k Hkk). lra. }
    rewrite E5. cbn [bind]. apply (IH (S k) C'' st' uu' vv' hist Hi' Hb' Hr'); [|lia|rewrite Es; exact Hlt|].
    { intros r c Hr Hc. eapply Rle_trans; [apply Hn'; assumption|]. rewrite S_INR. apply Req_le. ring. }
    assert (Hu0 : unc_zero nr nc st = false).
    { unfold unc_zero. apply any_lt_false. intros c Hc. destruct (h_ccov st c) eqn:Ec; [reflexivity|].
      simpl. apply any_lt_false. intros r Hr. destruct (h_rcov st r) eqn:Er; [reflexivity|]. simpl.
      apply Reqb_neq. apply Hnz; auto. apply in_seq; lia. }
    unfold measure in *. rewrite Es, Hz. rewrite Hu0 in Hf. lia.
Qed.

Lemma fstep2b_spec C' dist star ccov uu vv :
  duals nr nc C' dist uu vv -> matching_on nr nc dist star -> slack nr nc star uu vv -> bnd star uu vv ->
  (forall r c, r < nr -> c < nc -> rep (dist r c)) -> near (u * K) C' ->
  (forall c, ccov c = true <-> exists r, star r c = true) ->
  exists star', fstep2b A nr nc md (hung_fuel nr nc)
     {| h_dist := dist; h_star := star; h_prime := fun _ _ => false;
        h_ccov := ccov; h_rcov := fun _ => false |} = Ok star' /\ fsolved star'.
Proof.
  intros Hd Hm Hs Hb Hrep Hnear Hc. unfold fstep2b. cbn [h_ccov h_star].
  assert (E : count_lt ccov nc = nstars nr nc star).
  { apply count_lt_ext. intros c _. apply eq_true_iff_eq. rewrite Hc. symmetry. apply (cstar_true nr nc).
    intros r' c' H. destruct Hm as [M1 _]. destruct (M1 _ _ H); tauto. }
  pose proof u_nonneg as U0. pose proof K_nonneg as K0. pose proof fuel_ge as F8.
  assert (UK : (0 <= u * K)%R) by (apply Rmult_le_pos; assumption).
  rewrite E. destruct (Nat.eqb_spec (nstars nr nc star) md) as [Eq|Hne].
  - exists star. split; [reflexivity|]. exists C'. split; [|exists dist, uu, vv; auto].
    intros r c Hr Hcc. eapply Rle_trans; [apply Hnear; assumption|]. nra.
  - pose proof (nstars_le nr nc C' _ _ Hm) as Hle.
    apply (fstep3_spec _ 0 C' _ uu vv []).
    + split; [exact Hd|]. split; [exact Hm|]. split; [exact Hs|]. cbn. split; [intros c; apply Hc|].
      split; [|split; [constructor|split; [split; [discriminate|intros []]|split; [intros r []|split; [discriminate|]]]]].
      * intros r c Hrc. assert (ccov c = true) as -> by (apply Hc; eauto). reflexivity.
      * intros l1 r l2 El. destruct l1; discriminate.
    + exact Hb.
    + exact Hrep.
    + intros r c Hr Hcc. eapply Rle_trans; [apply Hnear; assumption|]. simpl (INR 0). apply Req_le. ring.
    + lia.
    + cbn [h_star]. lia.
    + unfold measure, hung_fuel. cbn [h_star length].
      assert ((md - nstars nr nc star) * (2 * nr + 4) <= md * (2 * nr + 4)) by (apply Nat.mul_le_mono_r; lia).
      cbn [Nat.mul]. destruct (unc_zero _ _ _); lia.
Qed.

(** The reduction of one line. *)
Lemma reduce_spec (x m : R) : rep x -> rep m -> (0 <= m)%R -> (m <= x)%R -> (x <= K)%R ->
  rep (fsub A x m) /\ (0 <= fsub A x m)%R /\ (Rabs (fsub A x m + m - x) <= u * K)%R.
Proof.
  intros Rx Rm M0 Mx XK. pose proof HA as (U0 & R0 & _ & HAdd & HSub & _). pose proof u_small as Us.
  destruct (HSub x m Rx Rm M0 Mx) as [Y1 Y2]. split; [exact Y1|]. apply abs_inv in Y2.
  assert (u * (x - m) <= x - m)%R by nra. assert (u * (x - m) <= u * K)%R by (apply Rmult_le_compat_l; lra).
  split; [lra|]. apply Rabs_le. lra.
Qed.

Lemma fsolve_spec : exists star, fsolve A nr nc C = Ok star /\ fsolved star.
Proof.
  unfold fsolve. destruct (nr <=? nc) eqn:E.
  - apply Nat.leb_le in E.
    set (dist := fun r col => fsub A (C r col) (min_lt (C r) nc)).
    assert (Red : forall r c, r < nr -> c < nc ->
      rep (dist r c) /\ (0 <= dist r c)%R /\ (Rabs (dist r c + min_lt (C r) nc - C r c) <= u * K)%R).
    { intros r c Hr Hc. destruct (min_lt_spec (C r) nc Hnc) as [H1 [i [Hi H2]]].
      destruct (HK r c Hr Hc) as [B1 B2]. destruct (HK r i Hr Hi) as [B3 B4].
      apply reduce_spec; [exact B2|rewrite H2; exact B4|rewrite H2; lra|apply H1, Hc|lra]. }
    pose proof (star_rows_spec nr nc dist (seq 0 nr) (fun _ _ => false) (fun _ => false)) as H.
    destruct (star_rows nc dist (seq 0 nr) (fun _ _ => false) (fun _ => false)) as [star ccov].
    destruct H as [Hm Hc].
    + apply seq_NoDup.
    + intros r Hr. apply in_seq in Hr. lia.
    + split; [discriminate|split; discriminate].
    + intros c. split; [discriminate|intros [r Hr]; discriminate].
    + reflexivity.
    + replace (fstep2b A nr nc nr) with (fstep2b A nr nc md) by (rewrite Nat.min_l by exact E; reflexivity).
      apply (fstep2b_spec (fun r c => dist r c + min_lt (C r) nc)%R dist star ccov (fun r => min_lt (C r) nc) (fun _ => 0%R)).
      * intros r c Hr Hcc. destruct (Red r c Hr Hcc) as (_ & X & _). split; [ring|exact X].
      * exact Hm.
      * unfold slack. apply Nat.leb_le in E. rewrite E. exists 0%R. intros c _. split; [lra|reflexivity].
      * intros r c Hr Hcc _. destruct (min_lt_spec (C r) nc Hnc) as [_ [i [Hi H2]]].
        destruct (HK r i Hr Hi) as [B3 _]. rewrite H2. lra.
      * intros r c Hr Hcc. apply (Red r c Hr Hcc).
      * intros r c Hr Hcc. apply (Red r c Hr Hcc).
      * exact Hc.
  - apply Nat.leb_gt in E.
    set (dist := fun r col => fsub A (C r col) (min_lt (fun r' => C r' col) nr)).
    assert (Red : forall r c, r < nr -> c < nc ->
      rep (dist r c) /\ (0 <= dist r c)%R /\ (Rabs (dist r c + min_lt (fun r' => C r' c) nr - C r c) <= u * K)%R).
    { intros r c Hr Hc. destruct (min_lt_spec (fun r' => C r' c) nr Hnr) as [H1 [i [Hi H2]]].
      destruct (HK r c Hr Hc) as [B1 B2]. destruct (HK i c Hi Hc) as [B3 B4].
      apply reduce_spec; [exact B2|rewrite H2; exact B4|rewrite H2; lra|apply (H1 r), Hr|lra]. }
    pose proof (star_cols_spec nr nc dist (seq 0 nc) (fun _ _ => false) (fun _ => false) (fun _ => false)) as H.
    destruct (star_cols nr dist (seq 0 nc) (fun _ _ => false) (fun _ => false) (fun _ => false)) as [[star ccov] rcov].
    destruct H as [Hm Hc].
    + apply seq_NoDup.
    + intros r Hr. apply in_seq in Hr. lia.
    + split; [discriminate|split; discriminate].
    + intros c. split; [discriminate|intros [r Hr]; discriminate].
    + intros c. split; [discriminate|intros [r Hr]; discriminate].
    + reflexivity.
    + replace (fstep2b A nr nc nc) with (fstep2b A nr nc md) by (rewrite Nat.min_r by lia; reflexivity).
      apply (fstep2b_spec (fun r c => dist r c + min_lt (fun r' => C r' c) nr)%R dist star ccov
               (fun r => 0%R) (fun c => min_lt (fun r => C r c) nr)).
      * intros r c Hr Hcc. destruct (Red r c Hr Hcc) as (_ & X & _). split; [ring|exact X].
      * exact Hm.
      * unfold slack. apply Nat.leb_gt in E. rewrite E. exists 0%R. intros c _. split; [lra|reflexivity].
      * intros r c Hr Hcc _. destruct (min_lt_spec (fun r' => C r' c) nr Hnr) as [_ [i [Hi H2]]].
        destruct (HK i c Hi Hcc) as [B3 _]. rewrite H2. lra.
      * intros r c Hr Hcc. apply (Red r c Hr Hcc).
      * intros r c Hr Hcc. apply (Red r c Hr Hcc).
      * exact Hc.
Qed.

(** Near-optimality among assignments of full size. *)
Lemma fsolved_optimal star l b :
  fsolved star -> plist_ok nr nc l -> (forall r c, In (r, c) l <-> star r c = true) ->
  plist_ok nr nc b -> length b = md -> length l = md ->
  (pcost C l <= pcost C b + 34 * INR md * F * u * K)%R.
Proof.
  intros [C' [Hnear Hs]] Hl Hls Hb Hlb Hll.
  pose proof (solved_optimal nr nc C' star l b Hs Hl Hls Hb Hlb Hll) as Ho.
  assert (N : forall ll, plist_ok nr nc ll ->
     (Rabs (pcost C' ll - pcost C ll) <= INR (length ll) * (17 * F * u * K))%R).
  { intros ll [_ [_ H]]. induction ll as [|[r c] ll IH].
    - unfold pcost; cbn. rewrite Rminus_0_r, Rabs_R0. lra.
    - assert (IH' := IH (fun r c X => H r c (or_intror X))).
      destruct (H r c (or_introl eq_refl)) as [Hr Hc]. specialize (Hnear r c Hr Hc).
      cbn [length]. rewrite S_INR.
      assert (Ec : forall D, pcost D ((r, c) :: ll) = (D r c + pcost D ll)%R) by (intros; reflexivity).
      rewrite !Ec. apply abs_inv in Hnear. apply abs_inv in IH'. apply Rabs_le. lra. }
  pose proof (N l Hl) as Nl. pose proof (N b Hb) as Nb. rewrite Hll in Nl. rewrite Hlb in Nb.
  apply abs_inv in Nl. apply abs_inv in Nb. lra.
Qed.
End Run.
