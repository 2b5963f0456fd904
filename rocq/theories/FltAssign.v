(** The whole of [assign_opt] in rounded arithmetic: feasibility, size and
    near-optimality of the returned assignment, accuracy of the returned cost. *)
From Verif Require Import RBase RHungModel RHungSpec RHungProofs FltModel FltSpec FltHung.
From Coq Require Import Permutation.

(** The rounded sum of the selected entries: same vector as the exact one, a
    relative error of at most [2 * terms * u]. *)
Lemma fcomp_spec u fmax rep A (N : nat) (Kf : R) orig a : rounds u fmax rep A ->
  (2 * INR N * u <= 1)%R -> (3 * INR N * Kf <= fmax)%R ->
  forall row cost s (i : nat),
  (forall r c q, In (r, c) (pairs_from row a) -> orig r c = Fin q -> rep q /\ (0 <= q <= Kf)%R) ->
  i + length (pairs_from row a) <= N -> rep cost -> (0 <= cost)%R ->
  (0 <= s <= INR i * Kf)%R -> (Rabs (cost - s) <= 2 * INR i * u * s)%R ->
  fst (fcomp_assign A orig row a cost) = fst (comp_assign orig row a s) /\
  (0 <= snd (comp_assign orig row a s))%R /\
  rep (snd (fcomp_assign A orig row a cost)) /\
  (Rabs (snd (fcomp_assign A orig row a cost) - snd (comp_assign orig row a s))
     <= 2 * INR N * u * snd (comp_assign orig row a s))%R.
Proof.
  intros HA HN Hmax. pose proof HA as (U0 & R0 & _ & HAdd & _ & _).
  induction a as [|[c|] a IH]; intros row cost s i Hsel Hi Rc C0 S0 Hcs; cbn [fcomp_assign comp_assign].
  - cbn [fst snd]. split; [reflexivity|]. split; [lra|]. split; [exact Rc|]. eapply Rle_trans; [exact Hcs|].
    apply Rmult_le_compat_r; [lra|]. apply Rmult_le_compat_r; [exact U0|]. apply Rmult_le_compat_l; [lra|].
    apply le_INR. lia.
  - cbn [pairs_from length] in Hi. destruct (orig row c) as [q|] eqn:E.
    + destruct (Hsel row c q) as [Rq Q0]; [left; reflexivity|exact E|].
      assert (HiN : (INR i + 1 <= INR N)%R) by (rewrite <- S_INR; apply le_INR; lia).
      pose proof (pos_INR i) as I0.
      assert (Kf0 : (0 <= Kf)%R) by lra.
      assert (H1 : (2 * INR i * u <= 1)%R) by nra.
      assert (H2 : (2 * INR i * u * s <= s)%R) by nra.
      apply abs_inv in Hcs.
      assert (H3 : (s + q <= (INR i + 1) * Kf)%R) by lra.
      assert (H4 : (cost + q <= fmax)%R).
      { assert ((INR i + 1) * Kf <= INR N * Kf)%R by (apply Rmult_le_compat_r; lra).
        assert (0 <= INR N * Kf)%R by nra. lra. }
      destruct (HAdd cost q Rc Rq C0) as (A1 & A2 & A3 & A4); [lra|exact H4|].
      specialize (IH (S row) (fadd A cost q) (s + q)%R (S i)).
      destruct IH as (I1 & I2 & I3); auto.
      * intros r k x Hin. apply Hsel. right; exact Hin.
      * lia.
      * lra.
      * rewrite S_INR. lra.
      * rewrite S_INR. apply abs_inv in A2. 
        assert (H5 : (u * (cost + q) <= u * (2 * (s + q)))%R) by (apply Rmult_le_compat_l; lra).
        assert (H6 : (2 * INR i * u * s <= 2 * INR i * u * (s + q))%R).
        { apply Rmult_le_compat_l; [|lra]. apply Rmult_le_pos; [lra|exact U0]. }
        apply Rabs_le. lra.
      * destruct (fcomp_assign A orig (S row) a (fadd A cost q)) as [v t].
        destruct (comp_assign orig (S row) a (s + q)) as [v' t']. cbn [fst snd] in *. subst v. auto.
    + specialize (IH (S row) cost s i). destruct IH as (I1 & I2 & I3); auto.
      * intros r k x Hin. apply Hsel. right; exact Hin.
      * lia.
      * destruct (fcomp_assign A orig (S row) a cost) as [v t].
        destruct (comp_assign orig (S row) a s) as [v' t']. cbn [fst snd] in *. subst v. auto.
  - specialize (IH (S row) cost s i). destruct IH as (I1 & I2 & I3); auto.
    destruct (fcomp_assign A orig (S row) a cost) as [v t].
    destruct (comp_assign orig (S row) a s) as [v' t']. cbn [fst snd] in *. subst v. auto.
Qed.

Definition fuelR (nr nc : nat) : R := INR (hung_fuel nr nc).

Section Core.
Variables (u fmax : R) (rep : R -> Prop) (A : farith).
Hypothesis HA : rounds u fmax rep A.
Variables nr nc : nat.
Notation md := (Nat.min nr nc).
Variable e : nat -> nat -> ext.
Variable c : nat -> nat -> R.
Variables B mx : R.
Hypothesis Hnr : 0 < nr.
Hypothesis Hnc : 0 < nc.
Hypothesis Hsize : (68 * INR md * fuelR nr nc * u <= 1)%R.
Hypothesis Hmax : (10 * B <= fmax)%R.
Hypothesis Hmax2 : (3 * INR md * mx <= fmax)%R.
Hypothesis Cf : forall r k q, r < nr -> k < nc -> e r k = Fin q -> c r k = q /\ (0 <= q <= mx)%R.
Hypothesis Ci : forall r k, r < nr -> k < nc -> e r k = Inf -> c r k = B.
Hypothesis Cb : forall r k, r < nr -> k < nc -> (0 <= c r k <= B)%R /\ rep (c r k).
Hypothesis Hm0 : (0 <= mx)%R.
Hypothesis HB : (forall r k, r < nr -> k < nc -> e r k <> Inf) \/ (2 * INR md * mx < B)%R.

Lemma md_pos : (1 <= INR md)%R.
Proof. change 1%R with (INR 1). apply le_INR. lia. Qed.

Lemma Rn_INR n : Rn n = INR n.
Proof. unfold Rn. symmetry. apply INR_IZR_INZ. Qed.

Lemma fcore : exists star a t, fsolve A nr nc c = Ok star /\
    fcomp_assign A e 0 (build_assign nr nc star) 0%R = (a, t) /\
    is_assignment nr nc a /\ inf_free e a /\
    (rep t /\ Rabs (t - assign_cost e a) <= 2 * INR md * u * assign_cost e a)%R /\
    forall b, is_assignment nr nc b -> inf_free e b ->
      assign_size b <= assign_size a /\
      (assign_size b = assign_size a ->
       (assign_cost e a <= assign_cost e b + 34 * INR md * fuelR nr nc * u * B)%R).
Proof.
  pose proof md_pos as Md1. pose proof HA as (U0 & R0 & _ & _ & _ & _).
  assert (Fpos : (8 <= fuelR nr nc)%R).
  { unfold fuelR. replace 8%R with (INR 8) by (simpl; ring). apply le_INR. unfold hung_fuel.
    assert (1 <= md) by lia. assert (2 * 6 <= S md * (2 * nr + 4)) by (apply Nat.mul_le_mono; lia). lia. }
  assert (FU : (0 <= fuelR nr nc * u)%R) by (apply Rmult_le_pos; lra).
  assert (FU1 : (fuelR nr nc * u <= INR md * fuelR nr nc * u)%R) by nra.
  assert (H17 : (17 * INR (hung_fuel nr nc) * u <= 1)%R) by (fold (fuelR nr nc); lra).
  assert (B0 : (0 <= B)%R) by (destruct (Cb 0 0 Hnr Hnc); lra).
  destruct (fsolve_spec u fmax rep A HA nr nc c B Cb H17 Hmax Hnr Hnc) as [star [Es Hs]].
  pose proof Hs as [C' [_ [dist [uu [vv [Hd [Hm [Hsl Hn]]]]]]]].
  destruct (build_assign_plist nr nc dist star Hm) as [Hpl Hlen].
  pose proof (comp_assign_spec e (build_assign nr nc star) 0 0%R) as Hca.
  destruct (fcomp_spec u fmax rep A md mx e (build_assign nr nc star) HA) with (row := 0) (cost := 0%R) (s := 0%R) (i := 0)
    as (F1 & F2 & F3).
  { assert (INR md * u <= INR md * (fuelR nr nc * u))%R by (apply Rmult_le_compat_l; nra). nra. }
  { exact Hmax2. }
  { intros r k q Hin Eq. fold (pairs (build_assign nr nc star)) in Hin. destruct Hpl as [_ [_ Hpl]].
    destruct (Hpl r k Hin) as [Hr Hk]. destruct (Cf r k q Hr Hk Eq) as [X Y]. split; [|exact Y].
    rewrite <- X. apply (Cb r k Hr Hk). }
  { fold (pairs (build_assign nr nc star)). rewrite Hlen, Hn. lia. }
  { exact R0. } { lra. } { simpl (INR 0). lra. } { rewrite Rminus_0_r, Rabs_R0, Rmult_0_r. lra. }
  destruct (comp_assign e 0 (build_assign nr nc star) 0%R) as [a t0].
  destruct (fcomp_assign A e 0 (build_assign nr nc star) 0%R) as [a1 t] eqn:Ef. cbn [fst snd] in F1, F2, F3. subst a1.
  destruct Hca as [Ha1 [Ha2 Ha3]]. fold (pairs a) in Ha2, Ha3. fold (pairs (build_assign nr nc star)) in Ha2.
  exists star, a, t. split; [exact Es|]. split; [exact Ef|].
  set (l := pairs (build_assign nr nc star)) in *.
  set (fin := fun rc : nat * nat => is_fin (e (fst rc) (snd rc))) in *.
  assert (Hfin : forall r k, In (r, k) (filter fin l) <-> In (r, k) l /\ exists q, e r k = Fin q).
  { intros r k. rewrite filter_In. unfold fin; simpl. destruct (e r k) as [q|]; simpl.
    - split; [intros [X _]; eauto|tauto].
    - split; [intros [_ X]; discriminate|intros [_ [q X]]; discriminate]. }
  assert (NDmap : forall {X Y} (g : X -> Y) f (ll : list X), NoDup (map g ll) -> NoDup (map g (filter f ll))).
  { intros X Y g f ll. induction ll as [|x ll IH]; simpl; intros H; [constructor|].
    inversion H; subst. destruct (f x); simpl; [|auto]. constructor; [|auto].
    intros Hin. apply H2. apply in_map_iff in Hin as [y [Ey Hy]]. apply filter_In in Hy.
    apply in_map_iff. exists y; tauto. }
  assert (Et0 : t0 = assign_cost e a) by (rewrite Ha3; unfold assign_cost; lra).
  split; [|split; [|split]].
  - split; [rewrite Ha1; unfold build_assign; rewrite map_length, seq_length; reflexivity|].
    rewrite Ha2. split.
    + intros r k H. apply Hfin in H as [H _]. destruct Hpl as [_ [_ Hpl]]. apply (Hpl r k H).
    + apply NDmap. apply Hpl.
  - intros r k. rewrite Ha2. intros H. apply Hfin in H. tauto.
  - rewrite <- Et0. exact F3.
  - intros b Hb Hbf. pose proof (assignment_plist _ _ _ Hb) as Hbp.
    pose proof (plist_le _ _ _ Hbp) as Hbl.
    destruct (extend_full nr nc (pairs b) Hbp Hbl) as [ex [Hex Hexl]].
    assert (Hopt : (pcost c l <= pcost c (ex ++ pairs b) + 34 * INR md * fuelR nr nc * u * B)%R).
    { apply (fsolved_optimal u nr nc c B star); auto; [|lia].
      intros r k. apply (build_assign_pairs nr nc dist star r k Hm). }
    assert (Eq_fin : forall ll, (forall r k, In (r, k) ll -> r < nr /\ k < nc) ->
       (forall r k, In (r, k) ll -> exists q, e r k = Fin q) ->
       (pcost c ll = rsum (map (fun rc => fin_val (e (fst rc) (snd rc))) ll))%R).
    { intros ll H1 H2. apply qsum_map_eq. intros [r k] H. simpl. destruct (H2 r k H) as [q Eq].
      destruct (H1 r k H) as [Hr Hk]. destruct (Cf r k q Hr Hk Eq) as [-> _]. rewrite Eq. reflexivity. }
    assert (Ecb : (pcost c (pairs b) = assign_cost e b)%R).
    { apply Eq_fin; [apply Hbp|exact Hbf]. }
    assert (Eca : (pcost c (filter fin l) = assign_cost e a)%R).
    { unfold assign_cost. rewrite Ha2. apply Eq_fin.
      - intros r k H. apply Hfin in H as [H _]. apply Hpl, H.
      - intros r k H. apply Hfin in H. tauto. }
    assert (Esa : assign_size a = length (filter fin l)) by (unfold assign_size; rewrite Ha2; reflexivity).
    unfold assign_size at 1 3. rewrite Esa.
    set (lf := filter fin l) in *. set (li := filter (fun x => negb (fin x)) l).
    assert (Eli : (pcost c li = B * Rn (length li))%R).
    { unfold pcost. transitivity (rsum (map (fun _ : nat * nat => B) li)); [|apply qsum_map_const].
      apply qsum_map_eq. intros [r k] H. unfold li in H. apply filter_In in H as [H1 H2].
      unfold fin in H2. simpl in *. destruct (e r k) eqn:Eq; [discriminate|].
      destruct Hpl as [_ [_ Hpl]]. destruct (Hpl r k H1). rewrite Ci by auto. reflexivity. }
    assert (Elen : length li = md - length lf).
    { pose proof (filter_len fin l) as H. fold lf li in H. lia. }
    assert (Eex : length ex = md - length (pairs b)) by (rewrite app_length in Hexl; lia).
    assert (Bex : (pcost c ex <= B * Rn (length ex))%R).
    { apply (pcost_bounds c 0%R B ex). intros r k H. destruct Hex as [_ [_ Hex]].
      destruct (Hex r k) as [X1 X2]; [apply in_app_iff; auto|]. apply (Cb r k X1 X2). }
    rewrite (pcost_filter c fin l) in Hopt. fold lf li in Hopt.
    rewrite Eli, Elen, pcost_app in Hopt. rewrite Eex in Bex.
    split.
    + destruct (Nat.le_gt_cases (length (pairs b)) (length lf)) as [|Hgt]; [assumption|]. exfalso.
      destruct HB as [Hno|HB'].
      * assert (El : lf = l).
        { unfold lf. assert (X : forall ll, incl ll l -> filter fin ll = ll).
          { induction ll as [|[r k] ll IH]; intros Hi; [reflexivity|]. simpl.
            assert (Hin : In (r, k) l) by (apply Hi; left; reflexivity).
            destruct Hpl as [_ [_ Hpl]]. destruct (Hpl r k Hin) as [Hr Hk].
            unfold fin at 1. simpl. specialize (Hno r k Hr Hk). destruct (e r k); [|congruence]. simpl.
            f_equal. apply IH. intros x Hx. apply Hi. right; exact Hx. }
          apply X. intros x Hx; exact Hx. }
        rewrite El, Hlen, Hn in Hgt. lia.
      * set (k := length (pairs b)) in *. set (j := length lf) in *.
        assert (Bb : (pcost c (pairs b) <= mx * Rn k)%R).
        { apply (pcost_bounds c 0%R mx). intros r kk H. destruct (Hbf r kk H) as [q Eq].
          destruct Hbp as [_ [_ Hbp]]. destruct (Hbp r kk H) as [Hr Hk].
          destruct (Cf r kk q Hr Hk Eq) as [-> X]. exact X. }
        assert (Bl : (0 * Rn j <= pcost c lf)%R).
        { apply (pcost_bounds c 0%R B). intros r kk H. apply Hfin in H as [H _].
          destruct Hpl as [_ [_ Hpl]]. destruct (Hpl r kk H). apply Cb; auto. }
        assert (En : (Rn (md - j) = Rn (md - k) + Rn (k - j))%R).
        { rewrite <- Rn_plus. f_equal. lia. }
        assert (H1 : (1 <= Rn (k - j))%R) by (apply Rn_pos; lia).
        assert (H2 : (Rn k <= INR md)%R) by (rewrite Rn_INR; apply le_INR; lia).
        assert (H3 : (mx * Rn k <= mx * INR md)%R) by (apply Rmult_le_compat_l; assumption).
        assert (H4 : (34 * INR md * fuelR nr nc * u * B <= / 2 * B)%R).
        { apply Rmult_le_compat_r; [exact B0|]. lra. }
        assert (H5 : (B * 1 <= B * Rn (k - j))%R) by (apply Rmult_le_compat_l; assumption).
        rewrite En in Hopt. lra.
    + intros Esz. rewrite Esz in Bex. rewrite <- Eca, <- Ecb. lra.
Qed.
End Core.

(** The value put in place of the infinities. *)
Lemma finf_spec u fmax rep A nr nc mx : rounds u fmax rep A -> 0 < nr -> 0 < nc ->
  rep mx -> (0 <= mx)%R -> (100 * u <= 1)%R -> rep (INR nr) -> rep (INR nc) ->
  (11 * mx * INR nr * INR nc <= fmax)%R -> 
  rep (finf_value A nr nc mx) /\
  ((mx = 0)%R -> finf_value A nr nc mx = 10%R) /\
  ((0 < mx)%R -> (9 * mx * INR nr * INR nc <= finf_value A nr nc mx <= 11 * mx * INR nr * INR nc)%R).
Proof.
  intros HA Hnr Hnc Rm M0 Hu Rr Rc Hmax. pose proof HA as (U0 & R0 & RI & _ & _ & HMul).
  assert (R10 : rep 10%R).
  { replace 10%R with (INR 10) by (simpl; ring). apply RI. simpl. lra. }
  assert (P1 : (1 <= INR nr)%R) by (change 1%R with (INR 1); apply le_INR; lia).
  assert (P2 : (1 <= INR nc)%R) by (change 1%R with (INR 1); apply le_INR; lia).
  unfold finf_value. destruct (Rltb 0 mx) eqn:El.
  2: { apply Rltb_ge in El. split; [exact R10|]. split; [reflexivity|intros; lra]. }
  apply Rltb_lt in El.
  set (P := (INR nr * INR nc)%R). assert (HP : (11 * mx * INR nr * INR nc = 11 * mx * P)%R) by (unfold P; ring).
  assert (HP9 : (9 * mx * INR nr * INR nc = 9 * mx * P)%R) by (unfold P; ring).
  assert (P3 : (INR nr <= P)%R) by (unfold P; nra).
  assert (P4 : (1 <= P)%R) by lra.
  rewrite HP in *. rewrite HP9.
  assert (Mr : (mx <= mx * INR nr)%R) by nra. assert (MP : (mx * INR nr <= mx * P)%R) by (apply Rmult_le_compat_l; lra).
  (* 10 * mx *)
  replace 10%R with (INR 10) in * by (simpl; ring).
  assert (I10 : INR 10 = 10%R) by (simpl; ring).
  destruct (HMul mx 10 Rm R10 M0) as [_ [X1 X2]]; [rewrite I10; lra|].
  set (x1 := fmul A (INR 10) mx) in *. rewrite I10 in X2. apply abs_inv in X2.
  assert (X3 : (u * (mx * 10) <= / 100 * (mx * 10))%R) by (apply Rmult_le_compat_r; lra).
  assert (X4 : (mx * (99 / 10) <= x1 <= mx * (101 / 10))%R) by lra.
  (* * n_rows *)
  assert (Y0 : (mx * (99 / 10) * INR nr <= x1 * INR nr <= mx * (101 / 10) * INR nr)%R)
    by (split; apply Rmult_le_compat_r; lra).
  destruct (HMul x1 nr X1 Rr) as [[Y1 Y2] _]; [lra|lra|].
  set (x2 := fmul A x1 (INR nr)) in *. apply abs_inv in Y2.
  assert (Y3 : (u * (x1 * INR nr) <= / 100 * (x1 * INR nr))%R) by (apply Rmult_le_compat_r; lra).
  assert (Y4 : (mx * INR nr * (98 / 10) <= x2 <= mx * INR nr * (103 / 10))%R) by lra.
  (* * n_cols *)
  assert (Z0 : (mx * P * (98 / 10) <= x2 * INR nc <= mx * P * (103 / 10))%R).
  { unfold P. split.
    - replace (mx * (INR nr * INR nc) * (98 / 10))%R with (mx * INR nr * (98 / 10) * INR nc)%R by ring.
      apply Rmult_le_compat_r; lra.
    - replace (mx * (INR nr * INR nc) * (103 / 10))%R with (mx * INR nr * (103 / 10) * INR nc)%R by ring.
      apply Rmult_le_compat_r; lra. }
  destruct (HMul x2 nc Y1 Rc) as [[Z1 Z2] _]; [lra|lra|].
  set (x3 := fmul A x2 (INR nc)) in *. apply abs_inv in Z2.
  assert (Z3 : (u * (x2 * INR nc) <= / 100 * (x2 * INR nc))%R) by (apply Rmult_le_compat_r; lra).
  split; [exact Z1|]. split; [lra|]. intros _. lra.
Qed.

(** [assign_opt] on a 2-D array of floats without negative entries. *)
Lemma fassign_opt2_spec u fmax rep A (m : mat) (Kf : R) : rounds u fmax rep A ->
  float_matrix rep (mr m) (mc m) (me m) ->
  (forall r c q, r < mr m -> c < mc m -> me m r c = Fin q -> (0 <= q <= Kf)%R) ->
  (68 * INR (Nat.min (mr m) (mc m)) * fuelR (mr m) (mc m) * u <= 1)%R ->
  (INR (mc m) * u <= 1)%R ->
  (100 <= fmax)%R -> (200 * Kf * INR (mr m) * INR (mc m) <= fmax)%R -> (0 <= Kf)%R ->
  exists a cost, fassign_opt2 A m = Ok (a, cost) /\
    is_assignment (mr m) (mc m) a /\ inf_free (me m) a /\
    (rep cost /\ Rabs (cost - assign_cost (me m) a) <= 2 * INR (Nat.min (mr m) (mc m)) * u * assign_cost (me m) a)%R /\
    forall b, is_assignment (mr m) (mc m) b -> inf_free (me m) b ->
      assign_size b <= assign_size a /\
      (assign_size b = assign_size a ->
       (assign_cost (me m) a <= assign_cost (me m) b +
          34 * INR (Nat.min (mr m) (mc m)) * fuelR (mr m) (mc m) * u *
          (if any_entry (mr m) (mc m) (me m) (fun x => negb (is_fin x)) then 11 * Kf * INR (mr m) * INR (mc m) else Kf))%R).
Proof.
  intros HA Hrep Hpos Hsize Hcu H100 Hmax HKf. unfold fassign_opt2. set (nr := mr m) in *. set (nc := mc m) in *.
  set (e := me m) in *. set (md := Nat.min nr nc) in *.
  destruct (any_entry nr nc e (fun x => match x with Fin q => Rltb q 0 | Inf => false end)) eqn:En.
  { apply any_entry_true in En as [r [c [Hr [Hc En]]]]. destruct (e r c) as [q|] eqn:Ee; [|discriminate].
    apply Rltb_lt in En. specialize (Hpos r c q Hr Hc Ee). exfalso; lra. }
  destruct (any_entry nr nc e is_fin) eqn:Ef; cbn [negb].
  2: { rewrite any_entry_false in Ef. exists (repeat None nr), 0%R.
       assert (Ep : pairs (repeat None nr) = []).
       { unfold pairs. generalize 0. clear. induction nr as [|n IH]; intros k; simpl; auto. }
       assert (Ec0 : assign_cost e (repeat None nr) = 0%R) by (unfold assign_cost; rewrite Ep; reflexivity).
       split; [reflexivity|]. split; [|split; [|split]].
       - split; [apply repeat_length|]. rewrite Ep. split; [intros r c []|constructor].
       - intros r c. rewrite Ep. intros [].
       - split; [apply HA|]. rewrite Ec0, Rminus_0_r, Rabs_R0. lra.
       - intros b Hb Hbf. assert (Eb : pairs b = []).
         { destruct (pairs b) as [|[r c] l] eqn:Eb; [reflexivity|]. exfalso.
           destruct (Hbf r c) as [q Hq]; [rewrite Eb; left; reflexivity|].
           apply assignment_plist in Hb. destruct Hb as [_ [_ Hb]].
           destruct (Hb r c) as [Hr Hc]; [rewrite Eb; left; reflexivity|].
           specialize (Ef r c Hr Hc). rewrite Hq in Ef. discriminate. }
         rewrite Ec0. unfold assign_size, assign_cost. rewrite Eb, Ep. cbn [length map]. split; [lia|]. intros _.
         change (rsum []) with 0%R.
         assert (0 <= 34 * INR md * fuelR nr nc * u)%R.
         { destruct HA as [U0 _]. pose proof (pos_INR md). assert (0 <= fuelR nr nc)%R by apply pos_INR.
           apply Rmult_le_pos; [|exact U0]. apply Rmult_le_pos; [lra|assumption]. }
         assert (0 <= (if any_entry nr nc e (fun x => negb (is_fin x)) then 11 * Kf * INR nr * INR nc else Kf))%R.
         { pose proof (pos_INR nr). pose proof (pos_INR nc).
           match goal with |- context [if ?b then _ else _] => destruct b end; [|exact HKf].
           apply Rmult_le_pos; [|assumption]. apply Rmult_le_pos; [lra|assumption]. }
         rewrite Rplus_0_l. apply Rmult_le_pos; assumption. }
  assert (Hdim : 0 < nr /\ 0 < nc).
  { apply any_entry_true in Ef as [r [c [Hr [Hc _]]]]. lia. }
  destruct Hdim as [Hnr Hnc].
  pose proof HA as (U0 & R0 & RI & _).
  assert (P1 : (1 <= INR nr)%R) by (change 1%R with (INR 1); apply le_INR; lia).
  assert (P2 : (1 <= INR nc)%R) by (change 1%R with (INR 1); apply le_INR; lia).
  assert (Md1 : (1 <= INR md)%R) by (change 1%R with (INR 1); apply le_INR; unfold md; lia).
  assert (Fpos : (12 * INR nr <= 12 * fuelR nr nc /\ 8 <= fuelR nr nc)%R).
  { unfold fuelR. split; [apply Rmult_le_compat_l; [lra|]; apply le_INR|replace 8%R with (INR 8) by (simpl; ring); apply le_INR]; unfold hung_fuel.
    - apply Nat.le_trans with (1 * (2 * nr + 4)); [lia|]. apply Nat.mul_le_mono_r. lia.
    - assert (2 * 6 <= S md * (2 * nr + 4)) by (apply Nat.mul_le_mono; unfold md; lia). fold md. lia. }
  destruct Fpos as [F12 F8].
  assert (FU1 : (fuelR nr nc * u <= INR md * fuelR nr nc * u)%R).
  { assert (0 <= fuelR nr nc * u)%R by (apply Rmult_le_pos; lra). nra. }
  assert (Hu100 : (100 * u <= 1)%R) by nra.
  assert (Hru : (INR nr * u <= 1)%R) by nra.
  assert (Rr : rep (INR nr)) by (apply RI; exact Hru).
  assert (Rc : rep (INR nc)) by (apply RI; exact Hcu).
  pose proof (max_finite_spec nr nc e) as Hmx.
  assert (MdN : (INR md <= INR nr * INR nc)%R).
  { assert (INR md <= INR nr)%R by (apply le_INR; unfold md; lia). nra. }
  destruct (max_finite nr nc e) as [mx|] eqn:Emx; simpl in Hmx.
  2: { exfalso. apply any_entry_true in Ef as [r [c [Hr [Hc Efc]]]].
       destruct (e r c) as [q|] eqn:Ee; [|discriminate]. apply (Hmx q). exists r, c. auto. }
  destruct Hmx as [[r0 [c0 [Hr0 [Hc0 E0]]]] Hmx].
  assert (Hmx0 : (0 <= mx <= Kf)%R) by (apply (Hpos r0 c0); assumption).
  assert (Rmx : rep mx) by (apply (Hrep r0 c0); assumption).
  assert (KP : (Kf * INR nr * INR nc = Kf * (INR nr * INR nc))%R) by ring.
  assert (KK : (Kf <= Kf * (INR nr * INR nc))%R) by nra.
  assert (Kmd : (INR md * Kf <= Kf * (INR nr * INR nc))%R) by nra.
  assert (Mle : (mx * (INR nr * INR nc) <= Kf * (INR nr * INR nc))%R) by (apply Rmult_le_compat_r; nra).
  assert (Hmax' : (200 * (Kf * (INR nr * INR nc)) <= fmax)%R) by lra.
  assert (H3m : (3 * INR md * mx <= fmax)%R).
  { assert (INR md * mx <= INR md * Kf)%R by (apply Rmult_le_compat_l; lra). lra. }
  destruct (any_entry nr nc e (fun x => negb (is_fin x))) eqn:Ei.
  - destruct (finf_spec u fmax rep A nr nc mx HA Hnr Hnc Rmx (proj1 Hmx0) Hu100 Rr Rc) as (V1 & V2 & V3); [lra|].
    set (B := finf_value A nr nc mx) in *.
    assert (BB : (10 * B <= fmax)%R /\ (2 * INR md * mx < B)%R /\ (mx <= B)%R /\ (B <= 11 * Kf * INR nr * INR nc \/ mx = 0)%R).
    { destruct (Rle_lt_or_eq_dec 0 mx (proj1 Hmx0)) as [Hlt|Heq].
      - specialize (V3 Hlt). assert (INR md * mx <= mx * (INR nr * INR nc))%R by nra.
        assert (mx <= mx * (INR nr * INR nc))%R by nra.
        repeat split; [lra|lra|lra|left; lra].
      - symmetry in Heq. rewrite (V2 Heq). rewrite Heq. split; [lra|]. split; [lra|]. split; [lra|]. right; reflexivity. }
    destruct BB as (B1 & B2 & B3 & B4).
    destruct (fcore u fmax rep A HA nr nc e
       (fun r c => match e r c with Fin q => q | Inf => B end) B mx Hnr Hnc Hsize B1) as (star & a & t & S1 & S2 & S3 & S4 & S5 & S6).
    + exact H3m.
    + intros r k q Hr Hk Eq. rewrite Eq. split; [reflexivity|]. split; [apply (Hpos r k q Hr Hk Eq)|].
      apply Hmx. exists r, k; auto.
    + intros r k Hr Hk Eq. rewrite Eq. reflexivity.
    + intros r k Hr Hk. destruct (e r k) as [q|] eqn:Eq.
      * assert (q <= mx)%R by (apply Hmx; exists r, k; auto). pose proof (Hpos r k q Hr Hk Eq).
        split; [lra|apply (Hrep r k q Hr Hk Eq)].
      * split; [lra|exact V1].
    + lra.
    + right. exact B2.
    + rewrite S1. cbn [bind]. rewrite S2. exists a, t. split; [reflexivity|]. split; [exact S3|]. split; [exact S4|].
      split; [exact S5|]. intros b Hb Hbf. destruct (S6 b Hb Hbf) as [T1 T2]. split; [exact T1|].
      intros Esz. specialize (T2 Esz).
      assert (Z : (0 <= 34 * INR md * fuelR nr nc * u)%R).
      { assert (0 <= INR md * fuelR nr nc * u)%R by nra. lra. }
      destruct B4 as [B4|B4].
      * eapply Rle_trans; [exact T2|]. apply Rplus_le_compat_l. apply Rmult_le_compat_l; assumption.
      * assert (Zc : forall x, is_assignment nr nc x -> inf_free e x -> assign_cost e x = 0%R).
        { intros x Hx Hxf. apply assignment_plist in Hx. destruct Hx as [_ [_ Hx]]. unfold assign_cost.
          assert (X : forall ll, (forall r k, In (r, k) ll -> In (r, k) (pairs x)) ->
             rsum (map (fun rc => fin_val (e (fst rc) (snd rc))) ll) = 0%R).
          { induction ll as [|[r k] ll IH]; intros Hi; [reflexivity|].
            cbn [map fst snd]. assert (Hin : In (r, k) (pairs x)) by (apply Hi; left; reflexivity).
            destruct (Hx r k Hin) as [Hr Hk]. destruct (Hxf r k Hin) as [q Eq].
            assert (q <= mx)%R by (apply Hmx; exists r, k; auto). pose proof (Hpos r k q Hr Hk Eq).
            change (rsum (?a :: ?b)) with (a + rsum b)%R. rewrite IH; [|intros; apply Hi; right; assumption].
            rewrite Eq. cbn [fin_val]. lra. }
          apply X. auto. }
        rewrite (Zc a S3 S4), (Zc b Hb Hbf). rewrite Rplus_0_l. apply Rmult_le_pos; [exact Z|].
        pose proof (pos_INR nr). nra.
  - rewrite any_entry_false in Ei.
    destruct (fcore u fmax rep A HA nr nc e
       (fun r c => fin_val (e r c)) Kf mx Hnr Hnc Hsize) as (star & a & t & S1 & S2 & S3 & S4 & S5 & S6).
    + lra.
    + exact H3m.
    + intros r k q Hr Hk Eq. rewrite Eq. split; [reflexivity|]. split; [apply (Hpos r k q Hr Hk Eq)|].
      apply Hmx. exists r, k; auto.
    + intros r k Hr Hk Eq. specialize (Ei r k Hr Hk). rewrite Eq in Ei. discriminate.
    + intros r k Hr Hk. destruct (e r k) as [q|] eqn:Eq.
      * split; [apply (Hpos r k q Hr Hk Eq)|apply (Hrep r k q Hr Hk Eq)].
      * specialize (Ei r k Hr Hk). rewrite Eq in Ei. discriminate.
    + lra.
    + left. intros r k Hr Hk Eq. specialize (Ei r k Hr Hk). rewrite Eq in Ei. discriminate.
    + rewrite S1. cbn [bind]. rewrite S2. exists a, t. auto 7.
Qed.
