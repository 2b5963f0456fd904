(** C155-C157: [assign_opt] computed in IEEE double precision. *)
From Coq Require Import Reals Lra Lia List.
From Verif Require Import RBase RHungModel RHungSpec RHungProofs FltModel FltSpec FltHung FltAssign FltIeee.
Import ListNotations.
Local Open Scope R_scope.

Lemma any_inf_scale nr nc e K s : cost_scale nr nc e K s ->
  s = if any_entry nr nc e (fun x => negb (is_fin x)) then 11 * K * INR nr * INR nc else K.
Proof.
  intros H. destruct (any_entry nr nc e (fun x => negb (is_fin x))) eqn:E.
  - apply existsb_exists in E. destruct E as [r [Hr E]]. apply existsb_exists in E. destruct E as [c [Hc E]].
    apply in_seq in Hr, Hc. destruct H as [[H _] | [_ H]]; [| exact H].
    exfalso. apply (H r c); [lia | lia |]. destruct (e r c); [discriminate | reflexivity].
  - destruct H as [[_ H] | [[r [c [Hr [Hc H]]]] _]]; [exact H |]. exfalso.
    assert (T : any_entry nr nc e (fun x => negb (is_fin x)) = true); [| congruence].
    apply existsb_exists. exists r. split; [apply in_seq; lia |].
    apply existsb_exists. exists c. split; [apply in_seq; lia |]. rewrite H. reflexivity.
Qed.

(** C155.  In any arithmetic that meets the contract, on any matrix of
    non-negative floats and infinities whose size and costs stay within the
    stated bounds, assign_opt terminates normally; the vector it returns is an
    assignment without infinite entries, with as many pairs as possible; the
    returned cost is the sum of the selected entries up to a relative error
    2 n u; and no assignment of that size is cheaper by more than the tolerance
    times the magnitude of the numbers. *)
Theorem C155_assign_opt_rounded : forall u fmax rep A (m : mat) (K s : R),
  rounds u fmax rep A ->
  float_matrix rep (mr m) (mc m) (me m) ->
  (forall r c q, (r < mr m)%nat -> (c < mc m)%nat -> me m r c = Fin q -> 0 <= q <= K) -> 0 <= K ->
  assign_tol u (mr m) (mc m) <= 1 / 2 -> INR (mc m) * u <= 1 ->
  100 <= fmax -> 200 * K * INR (mr m) * INR (mc m) <= fmax ->
  cost_scale (mr m) (mc m) (me m) K s ->
  exists a cost, fassign_opt A (Arr2 m) = Ok (a, cost) /\
    is_assignment (mr m) (mc m) a /\ inf_free (me m) a /\
    Rabs (cost - assign_cost (me m) a) <=
      2 * INR (Nat.min (mr m) (mc m)) * u * assign_cost (me m) a /\
    forall b, is_assignment (mr m) (mc m) b -> inf_free (me m) b ->
      (assign_size b <= assign_size a)%nat /\
      (assign_size b = assign_size a ->
       assign_cost (me m) a <= assign_cost (me m) b + assign_tol u (mr m) (mc m) * s).
Proof.
  intros u fmax rep A m K s HA Hf Hk K0 Ht Hc H100 Hm Hs.
  assert (E : assign_tol u (mr m) (mc m) = 34 * INR (Nat.min (mr m) (mc m)) * fuelR (mr m) (mc m) * u) by reflexivity.
  rewrite E in *.
  destruct (fassign_opt2_spec u fmax rep A m K HA Hf Hk) as [a [cost [H1 [H2 [H3 [H4 H5]]]]]];
    [lra | exact Hc | exact H100 | exact Hm | exact K0 |].
  rewrite <- (any_inf_scale _ _ _ _ _ Hs) in H5.
  exists a, cost. split; [exact H1 |]. split; [exact H2 |]. split; [exact H3 |]. split; [apply H4 | exact H5].
Qed.

Lemma u64_lt1 : u64 <= 1.
Proof. change 1 with (Raux.bpow Zaux.radix2 0). apply Raux.bpow_le. lia. Qed.
Lemma fmax64_100 : 100 <= fmax64.
Proof.
  eapply Rle_trans; [| exact two53_le_fmax]. change (Raux.bpow Zaux.radix2 53) with (IZR (2 ^ 53)).
  apply IZR_le. lia.
Qed.

(** The same for IEEE binary64, rounding to nearest even. *)
Theorem C155_assign_opt_ieee : forall (m : mat) (K s : R),
  float_matrix rep64 (mr m) (mc m) (me m) ->
  (forall r c q, (r < mr m)%nat -> (c < mc m)%nat -> me m r c = Fin q -> 0 <= q <= K) -> 0 <= K ->
  assign_tol u64 (mr m) (mc m) <= 1 / 2 -> INR (mc m) * u64 <= 1 ->
  200 * K * INR (mr m) * INR (mc m) <= fmax64 ->
  cost_scale (mr m) (mc m) (me m) K s ->
  exists a cost, fassign_opt ieee64 (Arr2 m) = Ok (a, cost) /\
    is_assignment (mr m) (mc m) a /\ inf_free (me m) a /\
    Rabs (cost - assign_cost (me m) a) <=
      2 * INR (Nat.min (mr m) (mc m)) * u64 * assign_cost (me m) a /\
    forall b, is_assignment (mr m) (mc m) b -> inf_free (me m) b ->
      (assign_size b <= assign_size a)%nat /\
      (assign_size b = assign_size a ->
       assign_cost (me m) a <= assign_cost (me m) b + assign_tol u64 (mr m) (mc m) * s).
Proof.
  intros m K s Hf Hk K0 Ht Hc Hm Hs.
  exact (C155_assign_opt_rounded u64 fmax64 rep64 ieee64 m K s ieee64_rounds Hf Hk K0 Ht Hc fmax64_100 Hm Hs).
Qed.

(** ** Integer costs *)

Lemma pairs_from_bound row a : forall r c, In (r, c) (pairs_from row a) -> (r < row + length a)%nat.
Proof.
  revert row. induction a as [| [x |] a IH]; intros row r c H; cbn [pairs_from length] in *; [contradiction | |].
  - destruct H as [E | H]; [inversion E; subst; lia |]. apply IH in H. lia.
  - apply IH in H. lia.
Qed.

(** A sum of natural numbers is a natural number. *)
Lemma rsum_INR l : (forall x, In x l -> exists n : nat, x = INR n) -> exists n : nat, rsum l = INR n.
Proof.
  induction l as [| x l IH]; intros H.
  - exists 0%nat. reflexivity.
  - destruct (H x (or_introl eq_refl)) as [a ->]. destruct IH as [b Hb]; [intros y Hy; apply H; right; exact Hy |].
    exists (a + b)%nat. rewrite plus_INR, <- Hb. reflexivity.
Qed.

(** The rounded accumulation of natural numbers is exact. *)
Lemma fcomp_INR orig a : forall row (n : nat),
  (forall r c q, In (r, c) (pairs_from row a) -> orig r c = Fin q -> exists k : nat, q = INR k) ->
  (INR n + rsum (map (fun rc => fin_val (orig (fst rc) (snd rc))) (pairs_from row (fst (fcomp_assign ieee64 orig row a (INR n)))))) * u64 <= 1 ->
  snd (fcomp_assign ieee64 orig row a (INR n)) =
    INR n + rsum (map (fun rc => fin_val (orig (fst rc) (snd rc))) (pairs_from row (fst (fcomp_assign ieee64 orig row a (INR n))))).
Proof.
  induction a as [| [c |] a IH]; intros row n Hq Hb; cbn [fcomp_assign] in *.
  - cbn [fst snd pairs_from map] in *. change (rsum []) with 0. ring.
  - destruct (orig row c) as [q |] eqn:Eo.
    + destruct (Hq row c q (or_introl eq_refl) Eo) as [k ->].
      assert (Hex : exists r : nat, rsum (map (fun rc => fin_val (orig (fst rc) (snd rc)))
                (pairs_from (S row) (fst (fcomp_assign ieee64 orig (S row) a (fadd ieee64 (INR n) (INR k)))))) = INR r).
      { apply rsum_INR. intros x Hx. apply in_map_iff in Hx. destruct Hx as [[r' c'] [<- Hx]]. cbn [fst snd].
        destruct (orig r' c') as [q' |] eqn:E'; [| exists 0%nat; reflexivity].
        assert (Hin : In (r', c') (pairs_from (S row) a)).
        { revert Hx. clear. generalize (fadd ieee64 (INR n) (INR k)) as v. generalize (S row) as row'.
          induction a as [| [x |] a IHa]; intros row' v; cbn [fcomp_assign]; [tauto | |].
          - destruct (orig row' x) as [q0 |].
            + specialize (IHa (S row') (fadd ieee64 v q0)).
              destruct (fcomp_assign ieee64 orig (S row') a (fadd ieee64 v q0)). cbn [fst pairs_from In] in *. tauto.
            + specialize (IHa (S row') v). destruct (fcomp_assign ieee64 orig (S row') a v). cbn [fst pairs_from In] in *. tauto.
          - specialize (IHa (S row') v). destruct (fcomp_assign ieee64 orig (S row') a v). cbn [fst pairs_from In] in *. tauto. }
        apply (Hq r' c' q'); [right; exact Hin | exact E']. }
      destruct Hex as [r Hr].
      destruct (fcomp_assign ieee64 orig (S row) a (fadd ieee64 (INR n) (INR k))) as [v z] eqn:Ef.
      cbn [fst snd pairs_from map] in *.
      change (rsum (fin_val (orig row c) :: map (fun rc => fin_val (orig (fst rc) (snd rc))) (pairs_from (S row) v)))
        with (fin_val (orig row c) + rsum (map (fun rc => fin_val (orig (fst rc) (snd rc))) (pairs_from (S row) v))) in *.
      rewrite Eo in *. cbn [fin_val] in *.
      assert (Hnk : INR (n + k) * u64 <= 1).
      { eapply Rle_trans; [| exact Hb]. apply Rmult_le_compat_r; [exact u64_nonneg |].
        rewrite Hr, plus_INR. pose proof (pos_INR r). lra. }
      rewrite (ieee64_add_INR n k Hnk) in Ef.
      specialize (IH (S row) (n + k)%nat). rewrite Ef in IH. cbn [fst snd] in IH. rewrite IH.
      * rewrite plus_INR. ring.
      * intros r' c' q' H1 H2. apply (Hq r' c' q'); [right; exact H1 | exact H2].
      * rewrite plus_INR. replace (INR n + INR k + rsum (map (fun rc => fin_val (orig (fst rc) (snd rc))) (pairs_from (S row) v)))
          with (INR n + (INR k + rsum (map (fun rc => fin_val (orig (fst rc) (snd rc))) (pairs_from (S row) v)))) by ring. exact Hb.
    + specialize (IH (S row) n). destruct (fcomp_assign ieee64 orig (S row) a (INR n)) as [v z].
      cbn [fst snd pairs_from] in *. apply IH; [| exact Hb].
      intros r' c' q' H1 H2. apply (Hq r' c' q'); [right; exact H1 | exact H2].
  - specialize (IH (S row) n). destruct (fcomp_assign ieee64 orig (S row) a (INR n)) as [v z].
    cbn [fst snd pairs_from] in *. apply IH; [| exact Hb].
    intros r' c' q' H1 H2. apply (Hq r' c' q'); [exact H1 | exact H2].
Qed.

Lemma pairs_repeat_None n : forall row, pairs_from row (repeat None n) = [].
Proof. induction n as [| n IH]; intros row; [reflexivity |]. exact (IH (S row)). Qed.

Lemma rsum_le_len l (K : R) : (forall x, In x l -> x <= K) -> rsum l <= INR (length l) * K.
Proof.
  induction l as [| x l IH]; intros H.
  - cbn [length INR]. change (rsum []) with 0. lra.
  - change (rsum (x :: l)) with (x + rsum l). cbn [length]. rewrite S_INR.
    specialize (H x (or_introl eq_refl)) as Hx.
    assert (rsum l <= INR (length l) * K) by (apply IH; intros y Hy; apply H; right; exact Hy). lra.
Qed.
Lemma pairs_from_len a : forall row, (length (pairs_from row a) <= length a)%nat.
Proof.
  induction a as [| [c |] a IH]; intros row; cbn [pairs_from length]; [lia | |]; specialize (IH (S row)); lia.
Qed.

(** The pairs after [fcomp_assign] are among the pairs before. *)
Lemma fcomp_pairs A orig a : forall row v r c,
  In (r, c) (pairs_from row (fst (fcomp_assign A orig row a v))) -> In (r, c) (pairs_from row a).
Proof.
  induction a as [| [x |] a IHa]; intros row v r c; cbn [fcomp_assign]; [tauto | |].
  - destruct (orig row x) as [q0 |].
    + specialize (IHa (S row) (fadd A v q0) r c).
      destruct (fcomp_assign A orig (S row) a (fadd A v q0)). cbn [fst pairs_from In] in *. tauto.
    + specialize (IHa (S row) v r c). destruct (fcomp_assign A orig (S row) a v). cbn [fst pairs_from In] in *. tauto.
  - specialize (IHa (S row) v r c). destruct (fcomp_assign A orig (S row) a v). cbn [fst pairs_from In] in *. tauto.
Qed.

Lemma build_assign_pairs nr nc star r c : In (r, c) (pairs (build_assign nr nc star)) -> (r < nr /\ c < nc)%nat.
Proof.
  unfold pairs, build_assign. intros H. split.
  - apply pairs_from_bound in H. rewrite map_length, seq_length in H. lia.
  - revert H. generalize (seq 0 nr) as l. generalize 0%nat as row. intros row l. revert row.
    induction l as [| x l IH]; intros row; cbn [map pairs_from]; [contradiction |].
    destruct (find_first (star x) nc <? nc)%nat eqn:E; [| apply IH].
    intros [H | H]; [| exact (IH _ H)]. inversion H; subst. apply Nat.ltb_lt in E. exact E.
Qed.

Lemma integer_sum_exact (m : mat) (K : nat) a cost : (0 < mr m)%nat ->
  (forall r c q, (r < mr m)%nat -> (c < mc m)%nat -> me m r c = Fin q ->
     exists k : nat, q = INR k /\ (k <= K)%nat) ->
  INR (mr m * mc m * S K) * u64 <= 1 ->
  fassign_opt2 ieee64 m = Ok (a, cost) -> is_assignment (mr m) (mc m) a -> inf_free (me m) a ->
  cost = assign_cost (me m) a.
Proof.
  intros Hmr Hq Hbig H Ha Hfree. unfold fassign_opt2 in H.
  destruct (any_entry (mr m) (mc m) (me m) _) in H; [discriminate |].
  destruct (negb (any_entry (mr m) (mc m) (me m) is_fin)).
  { inversion H; subst. unfold assign_cost, pairs. rewrite pairs_repeat_None. reflexivity. }
  match type of H with context [match ?o with None => _ | Some _ => _ end] => destruct o as [c |] end.
  2: { inversion H; subst. unfold assign_cost, pairs. rewrite pairs_repeat_None. reflexivity. }
  destruct (fsolve ieee64 (mr m) (mc m) c) as [star | e]; cbn [bind] in H; [| discriminate].
  remember (build_assign (mr m) (mc m) star) as B eqn:EB.
  assert (HB : forall r' c', In (r', c') (pairs_from 0 B) -> (r' < mr m /\ c' < mc m)%nat).
  { intros r' c' Hin. subst B. exact (build_assign_pairs _ _ _ _ _ Hin). }
  clear EB. inversion H as [E].
  pose proof (fcomp_INR (me m) B 0 0) as F. change (INR 0) with 0 in F. rewrite E in F. cbn [fst snd] in F.
  rewrite F.
  - rewrite Rplus_0_l. reflexivity.
  - intros r' c' q Hin Eq. destruct (HB r' c' Hin) as [H1 H2]. destruct (Hq r' c' q H1 H2 Eq) as [k [-> _]]. exists k. reflexivity.
  - rewrite Rplus_0_l. eapply Rle_trans; [| exact Hbig]. apply Rmult_le_compat_r; [exact u64_nonneg |].
    eapply Rle_trans; [apply (rsum_le_len _ (INR K)) |].
    + intros x Hx. apply in_map_iff in Hx. destruct Hx as [[r' c'] [<- Hx]]. cbn [fst snd].
      destruct (me m r' c') as [q |] eqn:Eq; [| apply pos_INR].
      assert (Hin : In (r', c') (pairs_from 0 B)).
      { apply (fcomp_pairs ieee64 (me m) B 0 0). rewrite E. exact Hx. }
      destruct (HB r' c' Hin) as [H1 H2]. destruct (Hq r' c' q H1 H2 Eq) as [k [-> Hk]]. cbn [fin_val]. apply le_INR, Hk.
    + rewrite map_length, <- mult_INR. apply le_INR.
      destruct (pairs_from 0 a) as [| [r' c'] l] eqn:Ep; [cbn [length]; lia |].
      assert (Hc : (c' < mc m)%nat).
      { destruct Ha as [_ [Ha _]]. apply (Ha r' c'). unfold pairs. rewrite Ep. left. reflexivity. }
      rewrite <- Ep. pose proof (pairs_from_len a 0) as Hl. destruct Ha as [La _]. rewrite La in Hl.
      apply Nat.mul_le_mono; [| lia].
      apply Nat.le_trans with (mr m * 1)%nat; [lia | apply Nat.mul_le_mono_l; lia].
Qed.

(** C156.  Integer costs small enough for the tolerance to be below one: the
    result is exactly optimal and the returned cost exactly right. *)
Theorem C156_assign_opt_integers : forall (m : mat) (K : nat) (s : R), (0 < mr m)%nat ->
  (forall r c q, (r < mr m)%nat -> (c < mc m)%nat -> me m r c = Fin q ->
     exists k : nat, q = INR k /\ (k <= K)%nat) ->
  INR (mr m * mc m * S K) * u64 <= 1 ->
  assign_tol u64 (mr m) (mc m) <= 1 / 2 ->
  cost_scale (mr m) (mc m) (me m) (INR K) s ->
  assign_tol u64 (mr m) (mc m) * s < 1 ->
  exists a, fassign_opt ieee64 (Arr2 m) = Ok (a, assign_cost (me m) a) /\
    is_assignment (mr m) (mc m) a /\ inf_free (me m) a /\
    forall b, is_assignment (mr m) (mc m) b -> inf_free (me m) b ->
      (assign_size b <= assign_size a)%nat /\
      (assign_size b = assign_size a -> assign_cost (me m) a <= assign_cost (me m) b).
Proof.
  intros m K s Hmr Hq Hbig Ht Hs Htol.
  assert (Hint : forall b, is_assignment (mr m) (mc m) b -> exists n : nat, assign_cost (me m) b = INR n).
  { intros b Hb. apply rsum_INR. intros x Hx. apply in_map_iff in Hx. destruct Hx as [[r c] [<- Hx]]. cbn [fst snd].
    destruct (me m r c) as [q |] eqn:Eq; [| exists 0%nat; reflexivity].
    destruct Hb as [Lb [Hb _]]. specialize (Hb r c Hx). apply pairs_from_bound in Hx. rewrite Lb in Hx.
    destruct (Hq r c q ltac:(lia) Hb Eq) as [k [-> _]]. exists k. reflexivity. }
  assert (Hle : forall n : nat, (n <= mr m * mc m * S K)%nat -> INR n * u64 <= 1).
  { intros n Hn. eapply Rle_trans; [| exact Hbig]. apply Rmult_le_compat_r; [exact u64_nonneg | apply le_INR, Hn]. }
  destruct (C155_assign_opt_ieee m (INR K) s) as [a [cost [H1 [H2 [H3 [_ H5]]]]]].
  - intros r c q Hr Hc Eq. destruct (Hq r c q Hr Hc Eq) as [k [-> Hk]]. apply rep64_INR, Hle.
    apply Nat.le_trans with (1 * 1 * S K)%nat; [lia |]. apply Nat.mul_le_mono_r. apply Nat.mul_le_mono; lia.
  - intros r c q Hr Hc Eq. destruct (Hq r c q Hr Hc Eq) as [k [-> Hk]]. split; [apply pos_INR | apply le_INR, Hk].
  - apply pos_INR.
  - exact Ht.
  - apply Hle. apply Nat.le_trans with (1 * mc m * 1)%nat; [lia |]. apply Nat.mul_le_mono; [| lia]. apply Nat.mul_le_mono_r; lia.
  - replace (200 * INR K * INR (mr m) * INR (mc m)) with (200 * INR (mr m * mc m * K)) by (rewrite !mult_INR; ring).
    assert (Hx : INR (mr m * mc m * K) * u64 <= 1) by (apply Hle, Nat.mul_le_mono_l; lia).
    assert (Hy : INR (mr m * mc m * K) <= Raux.bpow Zaux.radix2 53).
    { apply Rmult_le_reg_r with u64; [apply Raux.bpow_gt_0 |]. unfold u64 at 2. rewrite <- Raux.bpow_plus. exact Hx. }
    apply Rle_trans with (Raux.bpow Zaux.radix2 8 * Raux.bpow Zaux.radix2 53).
    + apply Rmult_le_compat; [lra | apply pos_INR | | exact Hy].
      change (Raux.bpow Zaux.radix2 8) with 256. lra.
    + rewrite <- Raux.bpow_plus. apply Rle_trans with (Raux.bpow Zaux.radix2 971); [apply Raux.bpow_le; lia |].
      unfold fmax64, Defs.F2R. cbn [Defs.Fnum Defs.Fexp].
      rewrite <- (Rmult_1_l (Raux.bpow Zaux.radix2 971)) at 1.
      apply Rmult_le_compat_r; [apply Raux.bpow_ge_0 |]. apply (IZR_le 1). lia.
  - exact Hs.
  - exists a. cbn [fassign_opt] in *.
    rewrite (integer_sum_exact m K a cost Hmr Hq Hbig H1 H2 H3) in H1.
    split; [exact H1 |]. split; [exact H2 |]. split; [exact H3 |].
    intros b Hb Hbf. destruct (H5 b Hb Hbf) as [L1 L2]. split; [exact L1 |].
    intros Es. specialize (L2 Es). destruct (Hint a H2) as [na Ea]. destruct (Hint b Hb) as [nb Eb].
    rewrite Ea, Eb in *. apply le_INR.
    assert (INR na < INR (S nb)) by (rewrite S_INR; lra). apply INR_lt in H. lia.
Qed.

(** ** Cases that meet the hypotheses *)

Definition ex155 : mat := {| mr := 3; mc := 3; me := fun r c =>
  match r, c with
  | 0, 0 => Fin 7 | 0, 1 => Fin 2 | 0, _ => Inf
  | 1, 0 => Fin 3 | 1, 1 => Inf | 1, _ => Fin 9
  | _, 0 => Fin 1 | _, 1 => Fin 4 | _, _ => Fin 6
  end%nat |}.
Lemma u64_small : u64 <= / 1000000000.
Proof.
  apply Rmult_le_reg_l with 1000000000; [lra |]. rewrite Rinv_r by lra.
  apply Rle_trans with (Raux.bpow Zaux.radix2 30 * u64).
  - apply Rmult_le_compat_r; [exact u64_nonneg |]. change (Raux.bpow Zaux.radix2 30) with 1073741824. lra.
  - unfold u64. rewrite <- Raux.bpow_plus. change 1 with (Raux.bpow Zaux.radix2 0). apply Raux.bpow_le. lia.
Qed.
Lemma Fin_inj_R (x y : R) : Fin x = Fin y -> x = y. Proof. intros H. now inversion H. Qed.
Lemma ex155_entries : forall r c q, (r < mr ex155)%nat -> (c < mc ex155)%nat -> me ex155 r c = Fin q ->
  exists k : nat, q = INR k /\ (k <= 9)%nat.
Proof.
  intros r c q Hr Hc E. cbn [mr mc me ex155] in *.
  destruct r as [| [| [| r]]]; [| | | lia]; destruct c as [| [| [| c]]]; try lia; try discriminate;
    apply Fin_inj_R in E; subst q;
    [exists 7%nat | exists 2%nat | exists 3%nat | exists 9%nat | exists 1%nat | exists 4%nat | exists 6%nat];
    (split; [cbn [INR]; ring | lia]).
Qed.
Lemma ex155_scale : cost_scale (mr ex155) (mc ex155) (me ex155) (INR 9) (11 * INR 9 * INR 3 * INR 3).
Proof.
  right. split; [| reflexivity]. exists 0%nat, 2%nat. split; [cbn; lia |]. split; [cbn; lia | reflexivity].
Qed.
Lemma ex155_tol : assign_tol u64 3 3 <= 34 * 3 * 40 * / 1000000000.
Proof.
  unfold assign_tol. replace (INR (Nat.min 3 3)) with 3 by (cbn; ring).
  replace (INR (S (Nat.min 3 3) * (2 * 3 + 4))) with 40 by (cbn; ring).
  apply Rmult_le_compat_l; [lra | exact u64_small].
Qed.
Example ex155_optimal : exists a, fassign_opt ieee64 (Arr2 ex155) = Ok (a, assign_cost (me ex155) a) /\
  is_assignment 3 3 a /\ inf_free (me ex155) a /\
  forall b, is_assignment 3 3 b -> inf_free (me ex155) b ->
    (assign_size b <= assign_size a)%nat /\
    (assign_size b = assign_size a -> assign_cost (me ex155) a <= assign_cost (me ex155) b).
Proof.
  apply (C156_assign_opt_integers ex155 9 (11 * INR 9 * INR 3 * INR 3)).
  - cbn; lia.
  - exact ex155_entries.
  - cbn [mr mc ex155]. replace (INR (3 * 3 * 10)) with 90 by (cbn; ring).
    pose proof u64_small. pose proof u64_nonneg. lra.
  - cbn [mr mc ex155]. pose proof ex155_tol. lra.
  - exact ex155_scale.
  - cbn [mr mc ex155]. pose proof ex155_tol as H.
    replace (11 * INR 9 * INR 3 * INR 3) with 891 by (cbn; ring).
    apply Rle_lt_trans with (34 * 3 * 40 * / 1000000000 * 891); [| lra].
    apply Rmult_le_compat_r; [lra | exact H].
Qed.
(** The hypotheses of C155 for non-integer costs: 0.5 and 1.25 in a 1 x 2 matrix. *)
Example ex155_nonint : exists a cost,
  fassign_opt ieee64 (Arr2 {| mr := 1; mc := 2; me := fun _ c => match c with 0%nat => Fin (5 / 4) | _ => Fin (1 / 2) end |}) = Ok (a, cost) /\
  is_assignment 1 2 a.
Proof.
  destruct (C155_assign_opt_ieee {| mr := 1; mc := 2; me := fun _ c => match c with 0%nat => Fin (5 / 4) | _ => Fin (1 / 2) end |} 2 2)
    as [a [cost [H1 [H2 _]]]]; cbn [mr mc me].
  - assert (Hr : forall k : Z, (Z.abs k < 2 ^ 53)%Z -> rep64 (IZR k * / 4)).
    { intros k Hk. assert (Ef : IZR k * / 4 = Defs.F2R (Defs.Float Zaux.radix2 k (-2))) by reflexivity.
      split.
      - rewrite Ef. apply FLT.generic_format_FLT. exists (Defs.Float Zaux.radix2 k (-2)); [reflexivity | exact Hk |]. cbn. lia.
      - rewrite Rabs_mult, (Rabs_pos_eq (/ 4)) by lra. rewrite <- abs_IZR.
        apply Rle_trans with (IZR (2 ^ 53)); [| exact two53_le_fmax].
        apply Rle_trans with (IZR (Z.abs k)); [| apply IZR_le; lia].
        assert (0 <= IZR (Z.abs k)) by (apply IZR_le; lia). lra. }
    intros r c q Hrr Hc E. destruct c as [| c]; apply Fin_inj_R in E; subst q.
    + replace (5 / 4) with (IZR 5 * / 4) by lra. apply Hr. lia.
    + replace (1 / 2) with (IZR 2 * / 4) by lra. apply Hr. lia.
  - intros r c q Hr Hc E. destruct c as [| c]; apply Fin_inj_R in E; subst q; lra.
  - lra.
  - unfold assign_tol. replace (INR (Nat.min 1 2)) with 1 by (cbn; ring).
    replace (INR (S (Nat.min 1 2) * (2 * 1 + 4))) with 12 by (cbn; ring). pose proof u64_small. lra.
  - replace (INR 2) with 2 by (cbn; ring). pose proof u64_small. lra.
  - replace (INR 1) with 1 by reflexivity. replace (INR 2) with 2 by (cbn; ring).
    apply Rle_trans with (Raux.bpow Zaux.radix2 53); [| exact two53_le_fmax].
    change (Raux.bpow Zaux.radix2 53) with (IZR (2 ^ 53)). apply Rle_trans with (IZR 800); [lra | apply IZR_le; lia].
  - left. split; [| reflexivity]. intros r c _ _ E. destruct c; discriminate.
  - exists a, cost. split; [exact H1 | exact H2].
Qed.

Print Assumptions C155_assign_opt_rounded.
Print Assumptions C155_assign_opt_ieee.
Print Assumptions C156_assign_opt_integers.
