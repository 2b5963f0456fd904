(** The loop of [assign_opt] in double precision: whatever invariant the
    arithmetic of step 5 preserves holds when the loop ends, and it ends with a
    full matching.  The invariant of RHungProofs.v is used with a matrix [C']
    that changes with every rounding. *)
From Coq Require Import Reals List ZArith Lra Lia Bool.
From Verif Require Import RBase RHungModel RHungSpec RHungProofs FltHungModel.
Import ListNotations.
Local Open Scope nat_scope.

Lemma sweep_dist nr nc cols : forall st zf,
  match sweep_cols nr nc cols st zf with
  | Goto4 st1 _ _ => h_dist st1 = h_dist st
  | Done st1 _ => h_dist st1 = h_dist st
  end.
Proof.
  induction cols as [|c cols IH]; intros st zf; cbn [sweep_cols]; [reflexivity|].
  destruct (h_ccov st c); [apply IH|].
  match goal with |- context [if ?b then _ else _] => destruct b end; [|apply IH].
  match goal with |- context [if ?b then _ else _] => destruct b end; [reflexivity|].
  match goal with |- context [sweep_cols nr nc cols ?s true] => specialize (IH s true) end.
  exact IH.
Qed.
Lemma step4_dist nr nc st r c st' : step4 nr nc st r c = Ok st' -> h_dist st' = h_dist st.
Proof.
  unfold step4. destruct (step4_loop _ _ _ _ _ _ _ _) as [new|e]; cbn [bind]; [|discriminate].
  intros H. injection H as H1. subst st'. reflexivity.
Qed.

Section Gen.
Variables nr nc K : nat.
Notation md := (Nat.min nr nc).
Variable P : (nat -> nat -> R) -> (nat -> R) -> (nat -> R) -> (nat -> nat -> R) -> nat -> Prop.
Hypothesis P5 : forall st u v hist C' k, inv nr nc C' st u v hist -> P (h_dist st) u v C' k ->
  nstars nr nc (h_star st) < md -> k < K ->
  exists st' u' v' C'', step5f nr nc st = Ok st' /\ inv nr nc C'' st' u' v' hist /\
    h_star st' = h_star st /\ unc_zero nr nc st' = true /\ P (h_dist st') u' v' C'' (S k).

Definition ended (star : nat -> nat -> bool) : Prop :=
  exists dist u v C' k, P dist u v C' k /\ k <= K /\
    duals nr nc C' dist u v /\ matching_on nr nc dist star /\ slack nr nc star u v /\ nstars nr nc star = md.

Lemma step3f_spec fuel : forall st u v hist C' k,
  inv nr nc C' st u v hist -> P (h_dist st) u v C' k -> nstars nr nc (h_star st) < md ->
  measure nr nc st hist < fuel -> k + fuel <= K ->
  exists star, step3f nr nc md fuel st = Ok star /\ ended star.
Proof.
  induction fuel as [|fuel IH]; intros st u v hist C' k Hinv HP Hlt Hf HK; [lia|].
  cbn [step3f].
  pose proof (sweep_spec nr nc C' (seq 0 nc) st u v hist false Hinv (fun c H => proj2 (proj1 (in_seq nc 0 c) H))) as Hs.
  pose proof (sweep_dist nr nc (seq 0 nc) st false) as Hsd.
  destruct (sweep_cols nr nc (seq 0 nc) st false) as [st1 row col|st1 [|]].
  - destruct Hs as [st0 [hist0 [Hi0 [Es [Hrow [Hcol [Hcc [Hz [Hns ->]]]]]]]]]. cbn [h_dist] in Hsd.
    destruct (step4_spec nr nc C' st0 u v hist0 row col Hi0 Hrow Hcol Hcc Hz Hns) as [st' [E4 [Hi' [Hn' Hcov]]]].
    pose proof (step4_dist _ _ _ _ _ _ E4) as Ed. cbn [h_dist] in Ed.
    rewrite E4. cbn [bind].
    rewrite (count_lt_ext (h_ccov (step2a nr st')) (cstar nr (h_star st')) nc Hcov).
    fold (nstars nr nc (h_star st')).
    change (h_star (step2a nr st')) with (h_star st').
    assert (HP' : P (h_dist (step2a nr st')) u v C' k).
    { change (h_dist (step2a nr st')) with (h_dist st'). rewrite Ed, Hsd. exact HP. }
    destruct (Nat.eqb_spec (nstars nr nc (h_star st')) md) as [E|Hne].
    + exists (h_star st'). split; [reflexivity|]. destruct Hi' as [D [Mt [Sl _]]].
      exists (h_dist (step2a nr st')), u, v, C', k. split; [exact HP'|]. split; [lia|]. auto.
    + apply (IH (step2a nr st') u v [] C' k); [exact Hi'|exact HP'| | |lia].
      * change (h_star (step2a nr st')) with (h_star st'). rewrite Hn', Es in *. lia.
      * unfold measure in *. change (h_star (step2a nr st')) with (h_star st').
        rewrite Hn', Es. cbn [length].
        assert (Hd : (md - nstars nr nc (h_star st)) * (2 * nr + 4) =
                (md - S (nstars nr nc (h_star st))) * (2 * nr + 4) + (2 * nr + 4)).
        { replace (md - nstars nr nc (h_star st)) with (S (md - S (nstars nr nc (h_star st)))) by lia.
          cbn [Nat.mul]. lia. }
        rewrite Hd in Hf.
        clear Hd; generalize dependent ((md - S (nstars nr nc (h_star st))) * (2 * nr + 4)). intros X Hf.
        destruct (unc_zero nr nc st), (unc_zero nr nc (step2a nr st')); lia.
  - destruct Hs as [hist1 [Hi1 [Es [_ [Ht _]]]]]. destruct (Ht eq_refl) as [|Hlen]; [discriminate|].
    apply (IH st1 u v hist1 C' k Hi1); [rewrite Hsd; exact HP|rewrite Es; exact Hlt| |lia].
    pose proof (hist_len _ _ _ _ (proj2 (proj2 (proj2 (proj2 (proj2 Hi1)))))) as Hln.
    unfold measure in *. rewrite Es.
    generalize dependent ((md - nstars nr nc (h_star st)) * (2 * nr + 4)). intros X Hf.
    destruct (unc_zero nr nc st), (unc_zero nr nc st1); lia.
  - destruct Hs as [hist1 [_ [_ [_ [_ Hf1]]]]]. destruct (Hf1 eq_refl) as [_ [-> Hnz]].
    destruct (P5 st u v hist C' k Hinv HP Hlt) as [st' [u' [v' [C'' [E5 [Hi' [Es [Hz HP']]]]]]]]; [lia|].
    rewrite E5. cbn [bind]. apply (IH st' u' v' hist C'' (S k) Hi' HP'); [rewrite Es; exact Hlt| |lia].
    assert (Hu : unc_zero nr nc st = false).
    { unfold unc_zero. apply any_lt_false. intros c Hc. destruct (h_ccov st c) eqn:Ec; [reflexivity|].
      simpl. apply any_lt_false. intros r Hr. destruct (h_rcov st r) eqn:Er; [reflexivity|]. simpl.
      apply Reqb_neq. apply Hnz; auto. apply in_seq; lia. }
    unfold measure in *. rewrite Es, Hz. rewrite Hu in Hf. lia.
Qed.

Hypothesis HKfuel : hung_fuel nr nc <= K.
Lemma step2bf_spec dist star ccov u v C' :
  duals nr nc C' dist u v -> matching_on nr nc dist star -> slack nr nc star u v -> P dist u v C' 0 ->
  (forall c, ccov c = true <-> exists r, star r c = true) ->
  exists star', step2bf nr nc md (hung_fuel nr nc)
     {| h_dist := dist; h_star := star; h_prime := fun _ _ => false;
        h_ccov := ccov; h_rcov := fun _ => false |} = Ok star' /\ ended star'.
Proof.
  intros Hd Hm Hs HP Hc. unfold step2bf. cbn [h_ccov h_star].
  assert (E : count_lt ccov nc = nstars nr nc star).
  { apply count_lt_ext. intros c _. apply eq_true_iff_eq. rewrite Hc. symmetry. apply (cstar_true nr nc).
    intros r' c' H. destruct Hm as [M1 _]. destruct (M1 _ _ H); tauto. }
  rewrite E. destruct (Nat.eqb_spec (nstars nr nc star) md) as [Eq|Hne].
  - exists star. split; [reflexivity|]. exists dist, u, v, C', 0. split; [exact HP|]. split; [lia|]. auto.
  - pose proof (nstars_le nr nc C' _ _ Hm) as Hle.
    apply (step3f_spec _ _ u v [] C' 0).
    + split; [exact Hd|]. split; [exact Hm|]. split; [exact Hs|]. cbn. split; [intros c; apply Hc|].
      split; [|split; [constructor|split; [split; [discriminate|intros []]|split; [intros r []|split; [discriminate|]]]]].
      * intros r c Hrc. assert (ccov c = true) as -> by (apply Hc; eauto). reflexivity.
      * intros l1 r l2 El. destruct l1; discriminate.
    + exact HP.
    + cbn. lia.
    + unfold measure, hung_fuel. cbn [h_star length].
      assert ((md - nstars nr nc star) * (2 * nr + 4) <= md * (2 * nr + 4)) by (apply Nat.mul_le_mono_r; lia).
      cbn [Nat.mul]. destruct (unc_zero _ _ _); lia.
    + lia.
Qed.

(** From the reduced matrix of lines 61-90. *)
Lemma solvef_spec (C : nat -> nat -> R) : 0 < nr -> 0 < nc ->
  (forall dist u v, (forall r c, r < nr -> c < nc ->
      exists m, (0 <= m <= C r c)%R /\ (exists r' c', r' < nr /\ c' < nc /\ m = C r' c') /\ dist r c = sub64 (C r c) m /\ (u r + v c = m)%R) ->
    (forall r, r < nr -> (0 <= u r)%R) -> (forall c, c < nc -> (0 <= v c)%R) ->
    exists C', duals nr nc C' dist u v /\ P dist u v C' 0) ->
  (forall r c, r < nr -> c < nc -> (0 <= C r c)%R) ->
  exists star, solvef nr nc C = Ok star /\ ended star.
Proof.
  intros Hnr Hnc H0 Hpos. unfold solvef. destruct (nr <=? nc) eqn:E.
  - apply Nat.leb_le in E.
    set (dist := fun r col => sub64 (C r col) (min_lt (C r) nc)).
    pose proof (star_rows_spec nr nc dist (seq 0 nr) (fun _ _ => false) (fun _ => false)) as H.
    destruct (star_rows nc dist (seq 0 nr) (fun _ _ => false) (fun _ => false)) as [star ccov].
    destruct H as [Hm Hc].
    + apply seq_NoDup.
    + intros r Hr. apply in_seq in Hr. lia.
    + split; [discriminate|split; discriminate].
    + intros c. split; [discriminate|intros [r Hr]; discriminate].
    + reflexivity.
    + replace (step2bf nr nc nr) with (step2bf nr nc md) by (rewrite Nat.min_l by exact E; reflexivity).
      destruct (H0 dist (fun r => min_lt (C r) nc) (fun _ => 0%R)) as [C0 [HD HP]].
      * intros r c Hr Hcc. exists (min_lt (C r) nc).
        destruct (min_lt_spec (C r) nc Hnc) as [H1 [i [Hi Ei]]]. split.
        -- split; [|apply H1; exact Hcc]. rewrite Ei. apply Hpos; assumption.
        -- split; [exists r, i; auto|]. split; [reflexivity|lra].
      * intros r Hr. destruct (min_lt_spec (C r) nc Hnc) as [H1 [i [Hi Ei]]]. rewrite Ei. apply Hpos; assumption.
      * intros; lra.
      * apply (step2bf_spec dist star ccov (fun r => min_lt (C r) nc) (fun _ => 0%R) C0); auto.
        unfold slack. apply Nat.leb_le in E. rewrite E. exists 0%R. intros c _. split; [lra|reflexivity].
  - apply Nat.leb_gt in E.
    set (dist := fun r col => sub64 (C r col) (min_lt (fun r' => C r' col) nr)).
    pose proof (star_cols_spec nr nc dist (seq 0 nc) (fun _ _ => false) (fun _ => false) (fun _ => false)) as H.
    destruct (star_cols nr dist (seq 0 nc) (fun _ _ => false) (fun _ => false) (fun _ => false)) as [[star ccov] rcov].
    destruct H as [Hm Hc].
    + apply seq_NoDup.
    + intros r Hr. apply in_seq in Hr. lia.
    + split; [discriminate|split; discriminate].
    + intros c. split; [discriminate|intros [r Hr]; discriminate].
    + intros c. split; [discriminate|intros [r Hr]; discriminate].
    + reflexivity.
    + replace (step2bf nr nc nc) with (step2bf nr nc md) by (rewrite Nat.min_r by lia; reflexivity).
      destruct (H0 dist (fun r => 0%R) (fun c => min_lt (fun r => C r c) nr)) as [C0 [HD HP]].
      * intros r c Hr Hcc. exists (min_lt (fun r => C r c) nr).
        destruct (min_lt_spec (fun r => C r c) nr Hnr) as [H1 [i [Hi Ei]]]. split.
        -- split; [|exact (H1 r Hr)]. rewrite Ei. apply Hpos; assumption.
        -- split; [exists i, c; auto|]. split; [reflexivity|lra].
      * intros; lra.
      * intros c Hcc. destruct (min_lt_spec (fun r => C r c) nr Hnr) as [H1 [i [Hi Ei]]]. rewrite Ei. apply Hpos; assumption.
      * apply (step2bf_spec dist star ccov (fun r => 0%R) (fun c => min_lt (fun r => C r c) nr) C0); auto.
        unfold slack. apply Nat.leb_gt in E. rewrite E. exists 0%R. intros c _. split; [lra|reflexivity].
Qed.
End Gen.

(** Covered lines are fewer than the stars; so step 5 raises the duals of any
    full matching by at least [h]. *)
Lemma covered_le nr nc C st u v hist : inv nr nc C st u v hist ->
  count_lt (h_ccov st) nc + count_lt (h_rcov st) nr <= nstars nr nc (h_star st).
Proof.
  intros [Hd [[M1 [M2 M3]] [Hsl [Hcs [Hrs [H1 [H2 [H3 _]]]]]]]].
  assert (HL : length hist = count_lt (h_rcov st) nr).
  { apply count_lt_NoDup; [exact H1|]. intros i. rewrite H2. split; [intros Hi; split; [apply (H3 i Hi)|exact Hi]|tauto]. }
  rewrite <- HL. clear HL.
  set (g := fun r => find_first (h_star st r) nc).
  assert (Hg : forall r, In r hist -> h_star st r (g r) = true /\ g r < nc).
  { intros r Hr. destruct (H3 r Hr) as [_ [c Hc]]. destruct (M1 _ _ Hc) as [_ [Hcn _]].
    destruct (find_first_some (h_star st r) nc c Hcn Hc) as [Hlt _].
    split; [apply find_first_true; exact Hlt|exact Hlt]. }
  rewrite <- (map_length g hist). unfold nstars. unfold count_lt at 1 2. rewrite <- app_length. apply NoDup_incl_length.
  - assert (HN : NoDup (map g hist)).
    { clear H2 H3. induction hist as [|r l IH]; simpl; constructor.
      - intros Hin. apply in_map_iff in Hin as [r' [E Hr']].
        destruct (Hg r' (or_intror Hr')) as [A _]. destruct (Hg r (or_introl eq_refl)) as [B _].
        rewrite E in A. assert (r' = r) by (eapply M3; eauto). subst. inversion H1; contradiction.
      - apply IH; [inversion H1; assumption|]. intros x Hx. apply Hg. right; exact Hx. }
    assert (HF : NoDup (filter (h_ccov st) (seq 0 nc))) by (apply NoDup_filter, seq_NoDup).
    assert (HD : forall c, In c (filter (h_ccov st) (seq 0 nc)) -> ~ In c (map g hist)).
    { intros c Hc Hin. apply filter_In in Hc as [_ Hc]. apply in_map_iff in Hin as [r [<- Hr]].
      destruct (Hg r Hr) as [A _]. specialize (Hrs _ _ A). rewrite Hc in Hrs.
      assert (h_rcov st r = true) by (apply H2, Hr). rewrite Hrs in H. discriminate. }
    revert HF HD. generalize (filter (h_ccov st) (seq 0 nc)). intros l HF HD.
    induction HF as [|x l Hx HF IH]; simpl; [exact HN|]. constructor.
    + rewrite in_app_iff. intros [H|H]; [contradiction|]. apply (HD x); [left; reflexivity|exact H].
    + apply IH. intros c Hc. apply HD. right; exact Hc.
  - intros c Hc. apply in_app_iff in Hc as [Hc|Hc].
    + apply filter_In in Hc as [A B]. apply filter_In. split; [exact A|].
      apply (cstar_true nr nc); [intros r' c' H; destruct (M1 _ _ H); tauto|]. apply Hcs, B.
    + apply in_map_iff in Hc as [r [<- Hr]]. destruct (Hg r Hr) as [A B].
      apply filter_In. split; [apply in_seq; lia|]. unfold cstar. apply any_lt_true.
      exists r. split; [apply (H3 r Hr)|exact A].
Qed.
