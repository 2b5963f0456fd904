(** Properties C107 (no two hypotheses with the same tracks) and C108 (the stored
    measurements) of the GLMB filters, and C109 (the draws of the Gibbs sampler
    with the real exponential). *)
From Verif Require Import Base Lists.
From Coq Require Import Reals Permutation Sorted Lra.
From Verif Require Import OspaModel CphdModel OspaProofs CphdSpec CphdProofs GlmbModel GlmbSpec GlmbProofs GlmbInv GlmbExtract GlmbProps GlmbDemo.
From Verif Require Import GibbsModel GibbsSpec GibbsProofs GibbsReal JglmbModel JglmbSpec JglmbProofs JglmbInv JglmbGibbs JglmbProps JglmbDemo GlmbDistinct SnapProps.
Open Scope R_scope.

(** * C107: after any history no two hypotheses have the same set of tracks, in
    the GLMB filter when murty_m_best returns no row twice (C05) ... *)
Theorem C107_glmb_no_duplicates : forall {FS ST CV MS} (E : genv FS ST CV MS) c os s,
  kshort_ok (v_kshort E) -> murty_ok (v_murty E) -> (forall nr nc M m rows costs, v_murty E nr nc M m = Ok (rows, costs) -> NoDup rows) ->
  rsorts (v_argsort E) -> run E c os glmb_new = Ok s ->
  forall i j h1 h2, nth_error (g_hyps s) i = Some h1 -> nth_error (g_hyps s) j = Some h2 -> Permutation (h_ts h1) (h_ts h2) -> i = j.
Proof.
  intros FS ST CV MS E c os s Hk Hm Hn Hs H. apply ds_positions. apply (ds_run E c os _ _ Hk Hm Hn Hs H). split; cbn.
  - intros h [<-|[]]. constructor.
  - constructor; [intros []|constructor].
Qed.
Print Assumptions C107_glmb_no_duplicates.
(** ... and in the joint filter always, whatever the sampler returns. *)
Theorem C107_jglmb_no_duplicates : forall {FS ST CV MS} (E : genv FS ST CV MS) G gt c os s,
  rsorts (v_argsort E) -> jrun E G gt c os jst_new = Ok s ->
  forall i j h1 h2, nth_error (g_hyps (y_g s)) i = Some h1 -> nth_error (g_hyps (y_g s)) j = Some h2 -> Permutation (h_ts h1) (h_ts h2) -> i = j.
Proof.
  intros FS ST CV MS E G gt c os s Hs H. apply ds_positions. apply (jds_run E G gt c os _ _ Hs H). cbn. constructor; [intros []|constructor].
Qed.
Print Assumptions C107_jglmb_no_duplicates.

(** * C108: with save_measurements the filter stores the measurements of every
    correct, in order; without it, nothing. *)
Definition measurements {MS} (os : list (gop MS)) : list (list MS) := flat_map (fun o => match o with OpCorrect _ meas => [meas] | _ => [] end) os.
Lemma exec_stores {FS ST CV MS} (E : genv FS ST CV MS) c o s s' : exec E c o s = Ok s' -> g_meas s' = g_meas s ++ (if c_savemeas c then measurements [o] else []).
Proof.
  intros H. destruct (c_savemeas c) eqn:Ec; [|rewrite app_nil_r; exact (exec_meas E c o s s' Ec H)].
  destruct o as [t|t meas|pr ca ex|u k]; [| |set (c' := c); assert (Hx : exec E c (OpCleanup pr ca ex) s = Ok s') by exact H|]; cbn [measurements flat_map app]; rewrite ?app_nil_r; cbn [exec] in H.
  - unfold predict in H. destruct (gen_birth_tab E c t (g_cnt s)) as [[bt lc]|]; [|discriminate]. cbn [bind] in H. destruct (v_kshort E lc (c_reqb c)) as [[ps cs]|]; [|discriminate]. cbn [bind] in H.
    destruct (gen_birth_hyps E c ps cs); [|discriminate]. cbn [bind] in H. destruct (gen_surv_hyps _ _ _ _); [|discriminate]. cbn [bind] in H. injection H as <-. reflexivity.
  - unfold correct in H. destruct (gen_cor_tab E c t meas (g_tab s)) as [tab ac]. destruct (gen_cor_hyps _ _ _ _ _ _) as [hs|]; [|discriminate]. cbn [bind] in H.
    destruct (clean_updates tab hs). rewrite Ec in H. injection H as <-. reflexivity.
  - destruct (cleanup_inv _ _ _ _ _ _ _ H) as [_ [_ [_ [_ [_ X]]]]].
    assert (Hm : g_meas (cleaned E c pr ca s) = g_meas s).
    { unfold cleaned. cbn zeta. destruct ca; [unfold cap; destruct (_ <? _)%nat|]; destruct pr; reflexivity. }
    destruct X as [[_ ->]|[_ [o X]]]; [exact Hm|]. rewrite (extract_meas _ _ _ _ _ _ X). exact Hm.
  - destruct (extract_states c u k s) as [[o s4]|] eqn:X2; [|discriminate]. cbn [bind] in H. injection H as <-. exact (extract_meas _ _ _ _ _ _ X2).
Qed.
Theorem C108_glmb_measurements : forall {FS ST CV MS} (E : genv FS ST CV MS) c os s, run E c os glmb_new = Ok s ->
  g_meas s = if c_savemeas c then measurements os else [].
Proof.
  intros FS ST CV MS E c os s H.
  assert (Hgo : forall os s0, run E c os s0 = Ok s -> g_meas s = g_meas s0 ++ (if c_savemeas c then measurements os else [])).
  { clear os H. induction os as [|o os IH]; intros s0 H; cbn [run] in H.
    - injection H as <-. destruct (c_savemeas c); rewrite app_nil_r; reflexivity.
    - apply bind_ok in H as [s1 [H1 H]]. rewrite (IH s1 H), (exec_stores _ _ _ _ _ H1), <- app_assoc. destruct (c_savemeas c); [|reflexivity].
      f_equal. unfold measurements. cbn [flat_map]. rewrite app_nil_r. reflexivity. }
  exact (Hgo os _ H).
Qed.
Print Assumptions C108_glmb_measurements.
(** The joint filter stores them whatever the setting. *)
Lemma jexec_stores {FS ST CV MS} (E : genv FS ST CV MS) G gt c o s s' : jexec E G gt c o s = Ok s' -> g_meas (y_g s') = g_meas (y_g s) ++ measurements [o].
Proof.
  intros H. destruct o as [t|t meas|pr ca ex|u k]; cbn [measurements flat_map app]; rewrite ?app_nil_r; cbn [jexec] in H.
  - destruct (jpredict_inv _ _ _ _ _ H) as [_ [_ [_ [_ [_ [X _]]]]]]. exact X.
  - destruct (jcorrect_inv _ _ _ _ _ _ _ _ H) as [hs X]. cbn zeta in X. tauto.
  - apply bind_ok in H as [g [H1 H2]]. injection H2 as <-. cbn [with_g y_g]. destruct (cleanup_inv _ _ _ _ _ _ _ H1) as [_ [_ [_ [_ [_ X]]]]].
    assert (Hm : g_meas (cleaned E c pr ca (y_g s)) = g_meas (y_g s)).
    { unfold cleaned. cbn zeta. destruct ca; [unfold cap; destruct (_ <? _)%nat|]; destruct pr; reflexivity. }
    destruct X as [[_ ->]|[_ [o X]]]; [exact Hm|]. rewrite (extract_meas _ _ _ _ _ _ X). exact Hm.
  - apply bind_ok in H as [[oo g'] [H1 H2]]. injection H2 as <-. exact (extract_meas _ _ _ _ _ _ H1).
Qed.
Theorem C108_jglmb_measurements_refuted : forall {FS ST CV MS} (E : genv FS ST CV MS) G gt c os s, jrun E G gt c os jst_new = Ok s ->
  g_meas (y_g s) = measurements os.
Proof.
  intros FS ST CV MS E G gt c os s H.
  assert (Hgo : forall os s0, jrun E G gt c os s0 = Ok s -> g_meas (y_g s) = g_meas (y_g s0) ++ measurements os).
  { clear os H. induction os as [|o os IH]; intros s0 H; cbn [jrun] in H.
    - injection H as <-. rewrite app_nil_r. reflexivity.
    - apply bind_ok in H as [s1 [H1 H]]. rewrite (IH s1 H), (jexec_stores _ _ _ _ _ _ _ H1), <- app_assoc.
      f_equal. unfold measurements. cbn [flat_map]. rewrite app_nil_r. reflexivity. }
  exact (Hgo os _ H).
Qed.
Print Assumptions C108_jglmb_measurements_refuted.

(** * C109: with exact arithmetic a draw of the sampler picks column j for exactly
    the u between the normalised sums of the weights exp(-cost) of the columns
    before j and up to j; columns held by other variables weigh 0. *)
Lemma rcumsum_spec t ws : forall acc, (forall x, In x ws -> 0 < x) -> acc <= t -> t < acc + rsum ws ->
  let k := length (filter (fun b => if Rle_dec b t then true else false) (rcumsum acc ws)) in
  (k < length ws)%nat /\ acc + rsum (firstn k ws) <= t /\ t < acc + rsum (firstn (S k) ws).
Proof.
  induction ws as [|x ws IH]; intros acc H H1 H2.
  { change (rsum []) with 0 in H2. lra. }
  assert (0 < x) by (apply H; left; reflexivity).
  cbn [rcumsum filter]. rewrite rsum_cons in H2. destruct (Rle_dec (acc + x) t) as [Hr|Hr].
  - destruct (IH (acc + x)) as [A [B C]]; [intros y Hy; apply H; right; exact Hy|exact Hr|lra|]. cbn zeta in *. cbn [length].
    set (k := length (filter _ (rcumsum (acc + x) ws))) in *. rewrite !firstn_cons, !rsum_cons. split; [lia|]. split; lra.
  - rewrite rcumsum_above; [|intros y Hy; apply H; right; exact Hy|lra]. cbn [length firstn]. rewrite rsum_cons. change (rsum []) with 0. split; [lia|]. split; lra.
Qed.
Lemma rdigitize_spec u ws : ws <> [] -> (forall x, In x ws -> 0 < x) -> 0 <= u < 1 ->
  let k := (rdigitize u (rhist ws) - 1)%nat in (k < length ws)%nat /\ rsum (firstn k ws) <= u * rsum ws /\ u * rsum ws < rsum (firstn (S k) ws).
Proof.
  intros Hne Hp [H0 H1]. cbn zeta.
  assert (HS : 0 < rsum ws). { pose proof (rsum_allpos (fun x => x) ws Hne Hp) as H. rewrite map_id in H. exact H. }
  unfold rdigitize, rhist. cbn [filter]. destruct (Rle_dec 0 u) as [_|]; [|lra]. cbn [length].
  rewrite Nat.sub_succ, Nat.sub_0_r, rfilter_div by exact HS. destruct (rcumsum_spec (u * rsum ws) ws 0 Hp) as [A [B C]]; [apply Rmult_le_pos; lra| |].
  - rewrite Rplus_0_l. rewrite <- (Rmult_1_l (rsum ws)) at 2. apply Rmult_lt_compat_r; assumption.
  - split; [exact A|]. split; lra.
Qed.
Lemma rfilter_prefix (f : nat -> bool) (w : nat -> R) n : (forall x, f x = false -> w x = 0) ->
  forall s k j, nth_error (filter f (seq s n)) k = Some j ->
  (s <= j < s + n)%nat /\ rsum (map w (firstn k (filter f (seq s n)))) = rsum (map w (seq s (j - s))) /\
  rsum (map w (firstn (S k) (filter f (seq s n)))) = rsum (map w (seq s (S j - s))).
Proof.
  intros Hz. induction n as [|n IH]; intros s k j E; cbn [seq filter] in E.
  { destruct k; discriminate. }
  cbn [seq filter]. destruct (f s) eqn:F.
  - destruct k as [|k].
    + cbn in E. injection E as <-. split; [lia|]. rewrite Nat.sub_diag.
      replace (S s - s)%nat with 1%nat by lia. split; [reflexivity|]. cbn [firstn map seq]. reflexivity.
    + cbn [nth_error] in E. destruct (IH _ _ _ E) as [A [B C]]. split; [lia|].
      rewrite !firstn_cons. cbn [map]. replace (j - s)%nat with (S (j - S s)) by lia.
      replace (S j - s)%nat with (S (S j - S s)) by lia. cbn [seq map].
      rewrite !rsum_cons. rewrite B, C. split; reflexivity.
  - destruct (IH _ _ _ E) as [A [B C]]. split; [lia|].
    replace (j - s)%nat with (S (j - S s)) by lia. replace (S j - s)%nat with (S (S j - S s)) by lia.
    cbn [seq map]. rewrite !rsum_cons, B, C, (Hz _ F). split; lra.
Qed.
Lemma rfilter_full (f : nat -> bool) (w : nat -> R) l : (forall x, f x = false -> w x = 0) -> rsum (map w (filter f l)) = rsum (map w l).
Proof.
  intros Hz. induction l as [|x l IH]; [reflexivity|]. cbn [filter map]. destruct (f x) eqn:F; cbn [map]; rewrite !rsum_cons, ?IH; [reflexivity|]. rewrite (Hz _ F). lra.
Qed.
Theorem C109_real_inverse_transform : forall C M cur v u,
  let W j := if in_dec Nat.eq_dec j (firstn v cur ++ skipn (S v) cur) then 0 else exp (- C v j) in
  0 <= u < 1 -> (exists j, (j < M)%nat /\ ~ In j (firstn v cur ++ skipn (S v) cur)) ->
  exists j, rdraw C M cur v u = Ok j /\ (j < M)%nat /\ ~ In j (firstn v cur ++ skipn (S v) cur) /\
    rsum (map W (seq 0 j)) <= u * rsum (map W (seq 0 M)) < rsum (map W (seq 0 (S j))).
Proof.
  intros C M cur v u W Hu [j0 [Hj0 Nj0]].
  assert (EW : forall j, rweight C cur v j = W j).
  { intros j. unfold rweight, W, others. destruct (in_dec Nat.eq_dec j (firstn v cur ++ skipn (S v) cur)) as [H|H].
    - assert (E : existsb (Nat.eqb j) (firstn v cur ++ skipn (S v) cur) = true).
      { apply existsb_exists. exists j. split; [exact H|apply Nat.eqb_refl]. } rewrite E. reflexivity.
    - destruct (existsb (Nat.eqb j) (firstn v cur ++ skipn (S v) cur)) eqn:E; [|reflexivity].
      apply existsb_exists in E as [x [Hx Ex]]. apply Nat.eqb_eq in Ex. subst x. contradiction. }
  assert (HW0 : forall j, (if Rlt_dec 0 (rweight C cur v j) then true else false) = false -> rweight C cur v j = 0).
  { intros j Hj. rewrite EW in *. unfold W in *. destruct (in_dec Nat.eq_dec j _); [reflexivity|]. pose proof (exp_pos (- C v j)). destruct (Rlt_dec 0 (exp (- C v j))); [discriminate|lra]. }
  set (oi := rold_ind C M cur v). assert (Hne : oi <> []).
  { intros E. assert (H : In j0 (rold_ind C M cur v)) by (apply (rold_in C 0 M (Nat.le_0_l M)); split; [exact Hj0|exact Nj0]). fold oi in H. rewrite E in H. destruct H. }
  destruct (rdigitize_spec u (map (rweight C cur v) oi)) as [A [B D]]; [intros E; apply map_eq_nil in E; contradiction| |exact Hu|].
  { intros x Hx. apply in_map_iff in Hx as [j [<- Hj]]. unfold oi, rold_ind in Hj. apply filter_In in Hj as [_ Hj]. destruct (Rlt_dec 0 (rweight C cur v j)); [assumption|discriminate]. }
  unfold rdraw. fold oi. cbn zeta in *. set (pos := (rdigitize u (rhist (map (rweight C cur v) oi)) - 1)%nat) in *. rewrite map_length in A.
  destruct (nth_error oi pos) as [j|] eqn:Ej; [|apply nth_error_None in Ej; lia]. exists j.
  split; [destruct oi; [congruence|reflexivity]|]. pose proof (nth_error_In _ _ Ej) as Hj. unfold oi in Hj. apply (rold_in C 0 M (Nat.le_0_l M)) in Hj as [Hj1 Hj2]. split; [exact Hj1|]. split; [exact Hj2|].
  destruct (rfilter_prefix _ _ _ HW0 _ _ _ Ej) as [_ [P1 P2]]. rewrite !firstn_map in B, D. unfold oi, rold_ind in B, D. fold (rold_ind C M cur v) in B, D. fold oi in B, D.
  fold (rold_ind C M cur v) in P1, P2. fold oi in P1, P2. rewrite P1 in B. rewrite P2 in D. rewrite !Nat.sub_0_r in *.
  assert (Q : rsum (map (rweight C cur v) oi) = rsum (map W (seq 0 M))).
  { unfold oi, rold_ind. rewrite (rfilter_full _ _ _ HW0). f_equal. apply map_ext. exact EW. }
  assert (EM : forall l, map (rweight C cur v) l = map W l) by (intros l; apply map_ext; exact EW).
  rewrite Q, !EM in *. split; assumption.
Qed.
Print Assumptions C109_real_inverse_transform.

(** * Instances of the hypotheses *)
Lemma d_rows_nodup nr nc M m rows costs : d_murty nr nc M m = Ok (rows, costs) -> NoDup rows.
Proof. unfold d_murty. intros H. repeat match type of H with context [if ?b then _ else _] => destruct b | context [match ?b with _ => _ end] => destruct b end; try discriminate; injection H as <- <-; repeat constructor; cbn; intuition discriminate. Qed.
Example C107_ex : exists s, let E := d_env false in let os := flat_map cycle [(0, [tt], (true, true, true)); (1, [tt; tt], (true, true, true))] in
  kshort_ok (v_kshort E) /\ murty_ok (v_murty E) /\ (forall nr nc M m rows costs, v_murty E nr nc M m = Ok (rows, costs) -> NoDup rows) /\
  rsorts (v_argsort E) /\ run E (d_cfg (9 / 10)) os glmb_new = Ok s.
Proof.
  destruct glmb_hypotheses_ex as [s X]. cbv zeta in *. exists s. split; [tauto|]. split; [tauto|]. split; [exact d_rows_nodup|]. tauto.
Qed.
(** save_measurements is off here, and the joint filter stored two measurement lists. *)
Example C108_ex : exists s, c_savemeas (d_cfg (9 / 10)) = false /\
  let os := (flat_map cycle [(0, [tt], (true, true, true))] ++ [OpPredict 1]) ++ [OpCorrect 1 [tt; tt]] in
  jrun (d_env false) (sampler_of j_rnd) false (d_cfg (9 / 10)) os jst_new = Ok s /\ g_meas (y_g s) = [[tt]; [tt; tt]].
Proof.
  destruct jglmb_hypotheses_ex as [s [s' X]]. cbv zeta in X. exists s'. split; [reflexivity|]. assert (H : jrun (d_env false) (sampler_of j_rnd) false (d_cfg (9 / 10)) ((flat_map cycle [(0, [tt], (true, true, true))] ++ [OpPredict 1]) ++ [OpCorrect 1 [tt; tt]]) jst_new = Ok s') by tauto.
  cbv zeta. split; [exact H|]. rewrite (C108_jglmb_measurements_refuted _ _ _ _ _ _ H). reflexivity.
Qed.
(** Two variables, five equal columns, variable 1 at column 4: with u = 1/2 variable 0 takes column 2. *)
Example C109_ex : rdraw (fun _ _ => 0) 5 [0; 4]%nat 0 (1 / 2) = Ok 2%nat.
Proof.
  destruct (C109_real_inverse_transform (fun _ _ => 0) 5 [0; 4]%nat 0 (1 / 2)) as [j [H [Hj [_ Hs]]]]; [lra|exists 0%nat; cbn; split; [lia|intros [X|[]]; discriminate]|].
  rewrite H. f_equal. cbn [seq map firstn skipn app] in Hs. rewrite Ropp_0, exp_0 in Hs.
  destruct j as [|[|[|[|[|j]]]]]; try lia; exfalso; cbn -[rsum INR] in Hs; rewrite ?rsum_cons in Hs; change (rsum []) with 0 in Hs; lra.
Qed.
