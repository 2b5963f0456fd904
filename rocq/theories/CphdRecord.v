(** What a CPHD filter records and what its read-only properties return, over
    whole histories with attributes free to change between calls (C184, C185). *)
From Verif Require Import RBase RLists RPhdModel RPhdSpec RPhdProofs RPhdProps RPhdHist.
From Coq Require Import Permutation Reals Lra.
From Verif Require Import OspaModel OspaProofs CphdModel CphdSpec CphdProofs CphdProps CphdHist CphdBirth.
Open Scope R_scope.

(** ** model *)
(** Property states (inherited), tracker.py:608-619. *)
Definition cstates_of {V M Meas} (s : cphd V M Meas) : list V := last (cp_states s) [].
(** Property cardinality, tracker.py:1337-1340. *)
Definition ccardinality_of {V M Meas} (s : cphd V M Meas) : result nat := argmaxR (cp_card s).

(** ** specification *)
(** The correct calls of a history, and the attributes at its extractions. *)
Definition ccorrections {Meas} (l : list (cattr Meas * hop Meas)) : list (cattr Meas * list Meas) :=
  flat_map (fun co => match snd co with HCorrect z => [(fst co, z)] | _ => [] end) l.
Definition cextractions {Meas} (l : list (cattr Meas * hop Meas)) : list (cattr Meas) :=
  flat_map (fun co => match snd co with HExtract => [fst co] | HCleanup _ _ _ true => [fst co] | _ => [] end) l.
(** The measurements a correct call used: all, or those that passed the gate. *)
Definition cused_by {Meas} (cz : cattr Meas * list Meas) (used : list Meas) : Prop :=
  if k_gating (a_c (fst cz)) then exists g, k_gate (a_c (fst cz)) (snd cz) g = Ok used else used = snd cz.
(** Calls that change neither the cardinality distribution nor the estimates. *)
Definition keeps_card {Meas} (o : hop Meas) : Prop := match o with HCleanup _ _ _ false => True | _ => False end.

(** ** proofs *)
Lemma ok_inj {A} (x y : A) : Ok x = Ok y -> x = y.
Proof. intros H. injection H as H. exact H. Qed.
Section R.
Context {Meas : Type} (argsort : list R -> list nat).
Notation st := (cphd vec mat Meas).
Lemma cextract_rec (c : ccfg vec mat Meas) (s s' : st) : cp_extract c argsort s = Ok s' ->
  cp_mix s' = cp_mix s /\ cp_meas s' = cp_meas s /\ cp_hist s' = cp_hist s /\ cp_card s' = cp_card s /\
  exists x y, cp_states s' = cp_states s ++ [x] /\ cp_covs s' = (if k_save_covs c then cp_covs s ++ [y] else cp_covs s).
Proof.
  unfold cp_extract. intros E. apply bind_ok in E as [card [_ E]]. apply bind_ok in E as [x [_ E]]. apply bind_ok in E as [y [_ E]]. apply ok_inj in E. subst s'.
  cbn [cp_mix cp_meas cp_hist cp_card cp_states cp_covs]. repeat (split; [reflexivity|]). exists x, y. auto.
Qed.
(** One call. *)
Lemma cstep_rec (a : cattr Meas) o (s s' : st) : hstep a argsort o s = Ok s' ->
  (exists m h, cp_meas s' = cp_meas s ++ m /\ cp_hist s' = cp_hist s ++ h /\ Forall2 cused_by (ccorrections [(a, o)]) m /\ length h = length m /\
     forall i x, nth_error h i = Some x -> is_mode (cp_card s') x) /\
  match cextractions [(a, o)] with
  | [] => cp_states s' = cp_states s /\ cp_covs s' = cp_covs s
  | _ => cextractions [(a, o)] = [a] /\ exists x y, cp_states s' = cp_states s ++ [x] /\ cp_covs s' = (if k_save_covs (a_c a) then cp_covs s ++ [y] else cp_covs s)
  end.
Proof.
  assert (N : forall (s s' : st), cp_meas s' = cp_meas s -> cp_hist s' = cp_hist s -> exists (m : list (list Meas)) (h : list nat), cp_meas s' = cp_meas s ++ m /\ cp_hist s' = cp_hist s ++ h /\
     Forall2 cused_by (@nil (cattr Meas * list Meas)) m /\ length h = length m /\ forall i x, nth_error h i = Some x -> is_mode (cp_card s') x).
  { intros t t' A B. exists [], []. rewrite !app_nil_r. repeat (split; [first [assumption|constructor|reflexivity]|]). intros i x Hx. destruct i; discriminate. }
  destruct o as [|z| |x|pr ca me ex]; cbn [hstep cstep ccorrections cextractions flat_map fst snd app]; intros E.
  - unfold cp_predict in E. apply bind_ok in E as [rho [_ E]]. apply ok_inj in E. subst s'. split; [apply N; reflexivity|]. split; reflexivity.
  - unfold cp_correct in E. apply bind_ok in E as [ms [Em E]]. apply bind_ok in E as [[g rho] [_ E]]. apply bind_ok in E as [h [Eh E]]. apply ok_inj in E. subst s'.
    cbn [cp_meas cp_hist cp_states cp_covs cp_card]. split; [|split; reflexivity]. exists [ms], [h]. split; [reflexivity|]. split; [reflexivity|]. split; [constructor; [|constructor]|].
    + unfold cused_by. cbn [fst snd]. destruct (k_gating (a_c a)); [eauto|]. apply ok_inj in Em. symmetry. exact Em.
    + split; [reflexivity|]. intros i x Hx. destruct i as [|i]; [|destruct i; discriminate]. injection Hx as <-. apply argmaxR_spec, Eh.
  - apply cextract_rec in E as [_ [A [B [_ E]]]]. split; [apply N; assumption|]. split; [reflexivity|exact E].
  - apply ok_inj in E. subst s'. split; [apply N; reflexivity|]. split; reflexivity.
  - apply bind_ok in E as [s1 [E1 E]]. apply bind_ok in E1 as [g [_ E1]]. apply ok_inj in E1. subst s1. destruct ex.
    + apply cextract_rec in E as [_ [A [B [_ E]]]]. cbn [cp_meas cp_hist cp_states cp_covs] in *. split; [apply N; assumption|]. split; [reflexivity|exact E].
    + apply ok_inj in E. subst s'. cbn [app]. split; [apply N; reflexivity|]. split; reflexivity.
Qed.
Lemma cextractions_app (l l' : list (cattr Meas * hop Meas)) : cextractions (l ++ l') = cextractions l ++ cextractions l'.
Proof. apply flat_map_app. Qed.
Lemma ccorrections_app (l l' : list (cattr Meas * hop Meas)) : ccorrections (l ++ l') = ccorrections l ++ ccorrections l'.
Proof. apply flat_map_app. Qed.
Lemma F2_len {A B} (Q : A -> B -> Prop) l l' : Forall2 Q l l' -> length l = length l'.
Proof. induction 1; cbn [length]; congruence. Qed.
Lemma hruns_rec (l : list (cattr Meas * hop Meas)) : forall (s s' : st), hruns argsort l s = Ok s' -> exists m h x y,
  cp_meas s' = cp_meas s ++ m /\ cp_hist s' = cp_hist s ++ h /\ cp_states s' = cp_states s ++ x /\ cp_covs s' = cp_covs s ++ y /\
  Forall2 cused_by (ccorrections l) m /\ length h = length m /\ length x = length (cextractions l) /\ length y = length (filter (fun a => k_save_covs (a_c a)) (cextractions l)).
Proof.
  induction l as [|[a o] l IH]; intros s s' E; cbn [hruns] in E.
  - apply ok_inj in E. subst s'. exists [], [], [], []. rewrite !app_nil_r. repeat (split; [first [reflexivity|constructor]|]). reflexivity.
  - apply bind_ok in E as [s1 [E1 E]]. destruct (IH s1 s' E) as [m [h [x [y [A1 [A2 [A3 [A4 [A5 [A6 [A7 A8]]]]]]]]]]].
    apply cstep_rec in E1 as [[m1 [h1 [B1 [B2 [B3 [B4 _]]]]]] B5].
    change ((a, o) :: l) with ([(a, o)] ++ l). rewrite ccorrections_app, cextractions_app, filter_app, !app_length.
    assert (Lh : length (h1 ++ h) = length (m1 ++ m)) by (rewrite !app_length; congruence).
    destruct (cextractions [(a, o)]) as [|e es] eqn:Ee.
    + destruct B5 as [C1 C2]. exists (m1 ++ m), (h1 ++ h), x, y. rewrite A1, A2, A3, A4, B1, B2, C1, C2, !app_assoc. cbn [filter length Nat.add].
      repeat (split; [first [reflexivity|assumption|apply Forall2_app; assumption]|]). assumption.
    + destruct B5 as [Ec [x1 [y1 [C1 C2]]]]. injection Ec as -> ->. exists (m1 ++ m), (h1 ++ h), (x1 :: x), (if k_save_covs (a_c a) then y1 :: y else y).
      rewrite A1, A2, A3, A4, B1, B2, C1, C2, <- !app_assoc. cbn [filter length Nat.add app].
      destruct (k_save_covs (a_c a)); cbn [length]; rewrite <- ?app_assoc; cbn [app Nat.add];
        repeat (split; [first [reflexivity|assumption|apply Forall2_app; assumption|congruence]|]); congruence.
Qed.
End R.

(** * C184 *)
(** Every correct call adds one entry to the measurement record and one to the
    cardinality history; every extraction one entry to the record of states and,
    if covariances are saved at the time, one to that of covariances. *)
Theorem C184_cphd_records : forall (Meas : Type) argsort (l : list (cattr Meas * hop Meas)) s s', hruns argsort l s = Ok s' ->
  exists m h x y, cp_meas s' = cp_meas s ++ m /\ cp_hist s' = cp_hist s ++ h /\ cp_states s' = cp_states s ++ x /\ cp_covs s' = cp_covs s ++ y /\
    Forall2 cused_by (ccorrections l) m /\ length h = length (ccorrections l) /\
    length x = length (cextractions l) /\ length y = length (filter (fun a => k_save_covs (a_c a)) (cextractions l)).
Proof.
  intros Meas argsort l s s' E. destruct (hruns_rec argsort l s s' E) as [m [h [x [y [A1 [A2 [A3 [A4 [A5 [A6 [A7 A8]]]]]]]]]]].
  exists m, h, x, y. repeat (split; [assumption|]). split; [rewrite A6; symmetry; apply (F2_len _ _ _ A5)|]. split; assumption.
Qed.
(** Entry k of the two records belongs to correct call k: the measurements used,
    and the most probable cardinality right after it. *)
Theorem C184_cphd_record_of_correct : forall (Meas : Type) argsort (l1 l2 : list (cattr Meas * hop Meas)) a z mx s,
  hruns argsort (l1 ++ (a, HCorrect z) :: l2) (cphd_new mx) = Ok s ->
  exists s1 used h, hruns argsort (l1 ++ [(a, HCorrect z)]) (cphd_new mx) = Ok s1 /\
    nth_error (cp_meas s) (length (ccorrections l1)) = Some used /\ cused_by (a, z) used /\
    nth_error (cp_hist s) (length (ccorrections l1)) = Some h /\ is_mode (cp_card s1) h.
Proof.
  intros Meas argsort l1 l2 a z mx s E. rewrite hruns_app in E. apply bind_ok in E as [s0 [E0 E]]. cbn [hruns] in E. apply bind_ok in E as [s1 [E1 E]].
  destruct (C184_cphd_records _ _ _ _ _ E0) as [m0 [h0 [_ [_ [A1 [A2 [_ [_ [A3 [A4 _]]]]]]]]]].
  destruct (C184_cphd_records _ _ _ _ _ E) as [m2 [h2 [_ [_ [B1 [B2 _]]]]]].
  destruct (cstep_rec argsort a (HCorrect z) s0 s1 E1) as [[m1 [h1 [C1 [C2 [C3 [C4 C5]]]]]] _]. cbn [ccorrections flat_map fst snd app] in C3.
  inversion C3 as [|? used ? m1' Hu F1]; subst. inversion F1; subst. destruct h1 as [|h [|? ?]]; try discriminate.
  exists s1, used, h. split; [rewrite hruns_app, E0; cbn [bind hruns]; rewrite E1; reflexivity|].
  cbn [cphd_new cp_meas cp_hist app] in A1, A2. split; [|split; [exact Hu|split; [|apply (C5 0%nat); reflexivity]]].
  - rewrite B1, C1, A1, (F2_len _ _ _ A3), <- app_assoc, nth_error_app2, Nat.sub_diag by lia. reflexivity.
  - rewrite B2, C2, A2, <- A4, <- app_assoc, nth_error_app2, Nat.sub_diag by lia. reflexivity.
Qed.
Print Assumptions C184_cphd_records.
Print Assumptions C184_cphd_record_of_correct.
(** Hypotheses. *)
Example C184_ex : exists s, hruns sort_ref g_hist (cphd_new 3) = Ok s /\ length (ccorrections g_hist) = 2%nat /\ length (cextractions g_hist) = 2%nat /\
  exists l1 a z l2, g_hist = l1 ++ (a, HCorrect z) :: l2 /\ length (ccorrections l1) = 1%nat.
Proof.
  destruct C143_hypotheses_ex as [_ [_ [_ [_ [s [E _]]]]]]. exists s. split; [exact E|]. split; [reflexivity|]. split; [reflexivity|].
  exists (firstn 5 g_hist). do 3 eexists. split; reflexivity.
Qed.

(** * C185 *)
(** Number of components heavier than one half. *)
Definition heavy (ws : list R) : nat := length (filter (fun w => if Rlt_dec (1 / 2) w then true else false) ws).
Lemma heavy_perm ws order : Permutation order (seq 0 (length ws)) ->
  heavy ws = length (filter (fun i => if Rlt_dec (1 / 2) (nth i ws 0) then true else false) order).
Proof.
  intros P. assert (E : heavy ws = heavy (map (fun i => nth i ws 0) (seq 0 (length ws)))).
  { f_equal. apply nth_ext with (d := 0) (d' := 0); [rewrite map_length, seq_length; reflexivity|]. intros i Hi.
    rewrite (nth_indep (map _ _) 0 (nth 0%nat ws 0)) by (rewrite map_length, seq_length; exact Hi). rewrite (map_nth (fun i => nth i ws 0)), seq_nth by exact Hi. reflexivity. }
  rewrite E. clear E. unfold heavy.
  assert (L : forall l, length (filter (fun w => if Rlt_dec (1 / 2) w then true else false) (map (fun i => nth i ws 0) l)) = length (filter (fun i => if Rlt_dec (1 / 2) (nth i ws 0) then true else false) l)).
  { induction l as [|i l IH]; [reflexivity|]. cbn [map filter]. destruct (Rlt_dec (1 / 2) (nth i ws 0)); cbn [length]; congruence. }
  rewrite L. symmetry. induction P as [|x l l' _ IH|x y l|? ? ? _ IH1 _ IH2]; cbn [filter]; try reflexivity; try congruence;
    repeat (destruct (Rlt_dec _ _)); cbn [length]; congruence.
Qed.
Lemma round_pos w n : nearest_even w n -> ((0 < n)%Z <-> 1 / 2 < w).
Proof.
  intros [[A B] C]. split; intros H.
  - destruct (Rlt_dec (1 / 2) w) as [|X]; [assumption|exfalso]. assert (n = 1%Z).
    { destruct (Z.eq_dec n 1) as [|D]; [assumption|]. assert (2 <= IZR n) by (apply IZR_le; lia). lra. }
    subst n. assert (Z.even 1 = true) by (apply C; lra). discriminate.
  - destruct (Z_lt_le_dec 0 n) as [|X]; [assumption|exfalso]. apply IZR_le in X. lra.
Qed.
Lemma round_one w n : nearest_even w n -> w < 3 / 2 -> (n <= 1)%Z.
Proof. intros [[A B] C] H. destruct (Z_le_gt_dec n 1) as [|X]; [assumption|exfalso]. assert (2 <= IZR n) by (apply IZR_le; lia). lra. Qed.
(** With weights below 3/2 the filter reports one agent per state, and as many
    states as the cardinality, or as there are components above one half if that
    is fewer. *)
Theorem C185_cphd_agents_partial : forall {V M Meas} (c : ccfg V M Meas) argsort s s',
  rsorts argsort -> raligned (cp_mix s) -> (forall w, In w (rm_w (cp_mix s)) -> w < 3 / 2) -> cp_extract c argsort s = Ok s' ->
  exists card, ccardinality_of s' = Ok card /\ is_mode (cp_card s) card /\
    cp_agents s' = repeat 1%Z (length (cstates_of s')) /\ length (cstates_of s') = Nat.min card (heavy (rm_w (cp_mix s))).
Proof.
  intros V M Meas c argsort s s' Hs Ha Hw E. assert (Hc : cp_card s <> []).
  { unfold cp_extract in E. apply bind_ok in E as [x [E _]]. intros E0. rewrite E0 in E. discriminate. }
  destruct (rm_w (cp_mix s)) as [|w0 ws0] eqn:Ew.
  - (* no components *)
    unfold cp_extract in E. apply bind_ok in E as [card [Ec E]]. cbn zeta in E. rewrite Ew in E.
    assert (En : rev (argsort []) = []) by (destruct (Hs []) as [P _]; cbn in P; apply Permutation_sym, Permutation_nil in P; rewrite P; reflexivity).
    rewrite En in E. cbn [extract_loop mapM bind] in E. assert (E' : exists cv, Ok {| cp_mix := cp_mix s; cp_card := cp_card s; cp_max := cp_max s; cp_hist := cp_hist s; cp_meas := cp_meas s;
        cp_states := cp_states s ++ [[]]; cp_covs := cv; cp_agents := [] |} = Ok s').
    { destruct (k_save_covs c); cbn [bind map] in E; eexists; exact E. }
    destruct E' as [cv E']. apply ok_inj in E'. subst s'. exists card. unfold ccardinality_of, cstates_of. cbn [cp_card cp_agents cp_states]. rewrite last_last.
    split; [exact Ec|]. split; [apply argmaxR_spec, Ec|]. split; [reflexivity|]. unfold heavy. cbn [filter length]. rewrite Nat.min_0_r. reflexivity.
  - assert (Hin : exists v0 : V, In v0 (rm_m (cp_mix s))).
    { destruct Ha as [Hm _]. rewrite Ew in Hm. destruct (rm_m (cp_mix s)) as [|v l]; [discriminate|]. exists v. left. reflexivity. }
    assert (Hip : exists p0 : M, In p0 (rm_p (cp_mix s))).
    { destruct Ha as [_ Hm]. rewrite Ew in Hm. destruct (rm_p (cp_mix s)) as [|v l]; [discriminate|]. exists v. left. reflexivity. }
    destruct Hin as [v0 _]. destruct Hip as [p0 _]. rewrite <- Ew in *. clear w0 ws0 Ew.
    destruct (C44_cphd_extract c argsort s v0 p0 Hs Ha Hc) as [s1 [order [k [card [num [E1 [B1 [B2 [B3 [B4 [B5 [B6 [B7 [_ [B9 [B10 [B11 [B12 [B13 _]]]]]]]]]]]]]]]]]]].
    rewrite E in E1. apply ok_inj in E1. subst s1. set (ws := rm_w (cp_mix s)) in *.
    assert (W1 : forall i, nth i ws 0 < 3 / 2).
    { intros i. destruct (Nat.ltb_spec i (length ws)) as [L|L]; [apply Hw, nth_In, L|rewrite nth_overflow by exact L; lra]. }
    assert (N1 : forall i, In i (firstn k order) -> num i = 1%Z).
    { intros i Hi. assert (0 < num i)%Z by (apply B9; rewrite B6; apply in_map, Hi). pose proof (round_one _ _ (B4 i) (W1 i)). lia. }
    assert (Lk : length (firstn k order) = k) by (apply firstn_length_le, B5).
    assert (Sm : forall l, (forall i, In i l -> num i = 1%Z) -> zsum (map num l) = Z.of_nat (length l)).
    { induction l as [|i l IH]; intros H; [reflexivity|]. cbn [map length]. change (zsum (num i :: map num l)) with (num i + zsum (map num l))%Z. rewrite IH by (intros j Hj; apply H; right; exact Hj). rewrite (H i) by (left; reflexivity). lia. }
    assert (Sub : forall m, (m <= k)%nat -> zsum (map num (firstn m order)) = Z.of_nat m).
    { intros m Hm. rewrite Sm; [rewrite firstn_length_le by lia; reflexivity|]. intros i Hi. apply N1. rewrite <- (firstn_skipn m (firstn k order)). apply in_or_app. left. rewrite firstn_firstn, Nat.min_l by lia. exact Hi. }
    assert (Kc : (k <= card)%nat).
    { destruct k as [|k']; [lia|]. specialize (B10 k' ltac:(lia)). rewrite Sub in B10 by lia. lia. }
    assert (Agt : cp_agents s' = repeat 1%Z k).
    { rewrite B6. rewrite <- Lk at 2. clear - N1. induction (firstn k order) as [|i l IH]; [reflexivity|]. cbn [map length repeat]. f_equal; [apply N1; left; reflexivity|apply IH; intros j Hj; apply N1; right; exact Hj]. }
    assert (Lst : length (cstates_of s') = k) by (unfold cstates_of; rewrite B7, last_last, map_length; exact Lk).
    set (isH := fun i : nat => if Rlt_dec (1 / 2) (nth i ws 0) then true else false).
    assert (Fa : forall l, (forall i, In i l -> isH i = true) -> length (filter isH l) = length l).
    { induction l as [|i l IH]; intros H; [reflexivity|]. cbn [filter]. rewrite (H i) by (left; reflexivity). cbn [length]. rewrite IH; [reflexivity|intros j Hj; apply H; right; exact Hj]. }
    assert (Fn : forall l, (forall i, In i l -> isH i = false) -> filter isH l = []).
    { induction l as [|i l IH]; intros H; [reflexivity|]. cbn [filter]. rewrite (H i) by (left; reflexivity). apply IH. intros j Hj; apply H; right; exact Hj. }
    assert (Ht : forall i, In i (firstn k order) -> isH i = true).
    { intros i Hi. unfold isH. destruct (Rlt_dec (1 / 2) (nth i ws 0)) as [|X]; [reflexivity|]. exfalso. apply X. apply (proj1 (round_pos _ _ (B4 i))). rewrite (N1 i Hi). lia. }
    assert (Hh : heavy ws = (k + length (filter isH (skipn k order)))%nat).
    { rewrite (heavy_perm ws order B2). fold isH. rewrite <- (firstn_skipn k order) at 1. rewrite filter_app, app_length, (Fa _ Ht), Lk. reflexivity. }
    exists card. split; [unfold ccardinality_of; rewrite B13; destruct (argmaxR (cp_card s)) as [q|q] eqn:Eq|].
    { f_equal. pose proof (argmaxR_spec _ _ Eq) as [Q1 [Q2 Q3]]. destruct B1 as [R1 [R2 R3]]. destruct (Nat.lt_trichotomy q card) as [X|[X|X]]; [|exact X|].
      - specialize (R3 q X). specialize (Q2 card R1). lra.
      - specialize (Q3 card X). specialize (R2 q Q1). lra. }
    { exfalso. destruct (cp_card s); [congruence|discriminate]. }
    split; [exact B1|]. rewrite Lst. split; [exact Agt|]. rewrite Hh.
    destruct B11 as [X|[X|X]].
    + rewrite X. rewrite skipn_all. cbn [filter length]. lia.
    + rewrite B6, Sub in X by lia. lia.
    + rewrite (Fn (skipn k order)); [cbn [length]; lia|]. intros i Hi. apply In_nth with (d := 0%nat) in Hi as [j [Hj Ei]]. rewrite skipn_length in Hj.
      assert (Ni : i = nth (k + j) order 0%nat) by (rewrite <- Ei; clear; revert order; induction k as [|k' IH]; intros [|o l]; cbn [skipn nth Nat.add]; try reflexivity; [destruct j; reflexivity|apply IH]).
      assert (Lw : nth i ws 0 <= nth (nth k order 0%nat) ws 0).
      { rewrite Ni. destruct j as [|j]; [rewrite Nat.add_0_r; lra|apply B3; lia]. }
      unfold isH. destruct (Rlt_dec (1 / 2) (nth i ws 0)) as [Y|Y]; [|reflexivity]. exfalso.
      assert (0 < num (nth k order 0%nat))%Z by (apply (proj2 (round_pos _ _ (B4 _))); lra). lia.
Qed.
Print Assumptions C185_cphd_agents_partial.
(** States and agents stay those of the last extraction; the cardinality too as
    long as there is no predict or correct and max_expected_card is not set. *)
Lemma quiet_step {Meas} argsort (a : cattr Meas) o s s' : hstep a argsort o s = Ok s' -> cextractions [(a, o)] = [] ->
  cp_states s' = cp_states s /\ cp_agents s' = cp_agents s /\ (keeps_card o -> cp_card s' = cp_card s).
Proof.
  destruct o as [|z| |x|pr ca me ex]; cbn [hstep cstep cextractions flat_map fst snd app keeps_card]; intros E N; try discriminate.
  - unfold cp_predict in E. apply bind_ok in E as [rho [_ E]]. apply ok_inj in E. subst s'. cbn [cp_states cp_agents]. tauto.
  - unfold cp_correct in E. apply bind_ok in E as [ms [_ E]]. apply bind_ok in E as [[g rho] [_ E]]. apply bind_ok in E as [h [_ E]]. apply ok_inj in E. subst s'. cbn [cp_states cp_agents]. tauto.
  - apply ok_inj in E. subst s'. cbn [cp_states cp_agents cp_set_max]. tauto.
  - destruct ex; [discriminate|]. apply bind_ok in E as [s1 [E1 E]]. apply bind_ok in E1 as [g [_ E1]]. apply ok_inj in E1. subst s1. apply ok_inj in E. subst s'. cbn [cp_states cp_agents cp_card]. auto.
Qed.
Theorem C185_cphd_readouts : forall (Meas : Type) argsort (l1 l2 : list (cattr Meas * hop Meas)) s1 s, hruns argsort (l1 ++ l2) s1 = Ok s -> cextractions l2 = [] ->
  exists s2, hruns argsort l1 s1 = Ok s2 /\ cstates_of s = cstates_of s2 /\ cp_agents s = cp_agents s2 /\
    ((forall a o, In (a, o) l2 -> keeps_card o) -> ccardinality_of s = ccardinality_of s2).
Proof.
  intros Meas argsort l1 l2 s1 s E N. rewrite hruns_app in E. apply bind_ok in E as [s2 [E2 E]]. exists s2. split; [exact E2|]. clear E2 l1 s1.
  assert (K : cp_states s = cp_states s2 /\ cp_agents s = cp_agents s2 /\ ((forall a o, In (a, o) l2 -> keeps_card o) -> cp_card s = cp_card s2)).
  { revert s2 E N. induction l2 as [|[a o] l IH]; intros s2 E N; cbn [hruns] in E; [apply ok_inj in E; subst s; auto|].
    apply bind_ok in E as [s3 [E3 E]]. change ((a, o) :: l) with ([(a, o)] ++ l) in N. rewrite cextractions_app in N. apply app_eq_nil in N as [N1 N2].
    destruct (quiet_step argsort a o s2 s3 E3 N1) as [A1 [A2 A3]]. destruct (IH s3 E N2) as [B1 [B2 B3]]. split; [congruence|]. split; [congruence|].
    intros H. rewrite B3 by (intros; eapply H; right; eassumption). apply A3. apply (H a o). left. reflexivity. }
  destruct K as [K1 [K2 K3]]. unfold cstates_of, ccardinality_of. rewrite K1. split; [reflexivity|]. split; [exact K2|]. intros H. rewrite K3 by exact H. reflexivity.
Qed.
Print Assumptions C185_cphd_readouts.

(** Refuted: agents_per_state need not add up to the cardinality, in either
    direction.  One predict and one extraction of a new filter. *)
Definition b_cfg (births : list (rmix vec mat)) : ccfg vec mat R :=
  {| k_fpred := fun m p => (m, p); k_fcorr := fun z m p => (m, p, exp (- ((z - m 0%nat) * (z - m 0%nat)) / 2));
     k_ps := 9 / 10; k_pd := 9 / 10; k_birth := births;
     k_rate := 1; k_den := 1 / 10; k_esf := esf_ref; k_gating := false; k_gate := fun m _ => Ok m; k_save_covs := true |}.
Definition b_attr (births : list (rmix vec mat)) : cattr R :=
  {| a_c := b_cfg births; a_prune := / 1000; a_merge := 4; a_max := 10; a_dim := 1; a_inv := a_inv (g_attr (9 / 10)) |}.
Definition one_birth (w : R) : rmix vec mat := {| rm_w := [w]; rm_m := [fun _ => 0]; rm_p := [fun _ _ => 1] |}.
Lemma b_ok w ws : 0 < w -> (forall x, In x ws -> 0 < x) -> cphd_ok (pos_def 1) (b_attr (map one_birth (w :: ws))).
Proof.
  intros Hw Hws. constructor; cbn [b_attr b_cfg a_c k_ps k_pd k_rate k_den k_esf k_birth k_fpred k_fcorr k_gating a_inv a_prune a_merge a_max fst snd]; try lra; try lia.
  - exact esf_ref_ok.
  - intros b Hb. apply in_map_iff in Hb as [x [<- Hx]]. split; [split; reflexivity|]. split; [|intros p [<-|[]]; apply pd1r; lra].
    intros y [<-|[]]. destruct Hx as [<-|Hx]; [lra|specialize (Hws x Hx); lra].
  - exists (rsum (w :: ws)). split; [exists (w :: ws); split; [|reflexivity]|].
    + clear. induction (w :: ws) as [|x l IH]; [constructor|]. constructor; [reflexivity|exact IH].
    + change (rsum (w :: ws)) with (w + rsum ws). assert (0 <= rsum ws) by (apply rsum_nonneg; intros x Hx; left; apply Hws, Hx). lra.
  - intros. left. apply exp_pos.
  - intros. assumption.
  - intros. assumption.
  - intros p H. apply pd1r in H. cbn [g_attr a_inv]. destruct (Req_EM_T (p 0%nat 0%nat) 0); [lra|eauto].
Qed.
Lemma b_weights ws : rm_w (pred_mix (b_cfg (map one_birth ws)) {| rm_w := []; rm_m := []; rm_p := [] |}) = ws.
Proof.
  rewrite pred_w. cbn [map app b_cfg k_birth rm_w]. induction ws as [|w l IH]; [reflexivity|]. cbn [map concat one_birth rm_w app]. f_equal. exact IH.
Qed.
(** The state after one predict: the births, and a cut Poisson distribution. *)
Lemma b_first w ws : 0 < w -> (forall x, In x ws -> 0 < x) -> exists s k, cp_predict (b_cfg (map one_birth (w :: ws))) (cphd_new 3) = Ok s /\
  rm_w (cp_mix s) = w :: ws /\ raligned (cp_mix s) /\ length (cp_card s) = 4%nat /\ 0 < k /\
  forall n, (n <= 3)%nat -> nth n (cp_card s) 0 = k * poisson (rsum (w :: ws)) n.
Proof.
  intros Hw Hws. set (c := b_cfg (map one_birth (w :: ws))). set (b := rsum (w :: ws)).
  assert (Hb : 0 < b) by (unfold b; change (rsum (w :: ws)) with (w + rsum ws); assert (0 <= rsum ws) by (apply rsum_nonneg; intros x Hx; left; apply Hws, Hx); lra).
  assert (F : first_weights (k_birth c) b).
  { exists (w :: ws). split; [|reflexivity]. cbn [c b_cfg k_birth]. clear. induction (w :: ws) as [|x l IH]; [constructor|]. constructor; [reflexivity|exact IH]. }
  assert (D : distribution 3 (cp_card (@cphd_new vec mat R 3))) by apply init_card_dist.
  assert (N : no_object (cp_card (@cphd_new vec mat R 3))) by (split; [reflexivity|]; intros [|[|[|[|[|i]]]]] Hi; try lia; reflexivity).
  destruct (C42_cphd_predict_partial c (cphd_new 3) b) as [s [E [L P]]]; [cbn; lra|exact F|exact Hb|cbn; lia|exact D|intros i Hi; apply (proj2 N); lia|].
  cbn [cphd_new cp_max cp_card] in P, L. assert (Sm : 0 < sum_ab 0 3 (predicted (k_ps c) b 3 (init_card 3))).
  { apply (sum_ab_pos _ _ _ 0%nat); [intros i _; rewrite predicted_none by exact N; left; apply poisson_pos, Hb|lia|rewrite predicted_none by exact N; apply poisson_pos, Hb]. }
  exists s, (/ sum_ab 0 3 (predicted (k_ps c) b 3 (init_card 3))). split; [exact E|].
  assert (Em : cp_mix s = pred_mix c {| rm_w := []; rm_m := []; rm_p := [] |}).
  { unfold cp_predict in E. apply bind_ok in E as [rho [_ E]]. apply ok_inj in E. subst s. reflexivity. }
  rewrite Em. split; [apply b_weights|]. split.
  { unfold c, pred_mix. cbn [rm_m rm_p rm_w combine map b_cfg k_birth k_ps]. change (one_birth w :: map one_birth ws) with (map one_birth (w :: ws)). clear.
    assert (K : forall l (g : rmix vec mat), raligned g -> raligned (fold_left rm_app (map one_birth l) g)).
    { induction l as [|x l IH]; intros g Hg; [exact Hg|]. cbn [map fold_left]. apply IH. destruct Hg as [A B]. split; cbn [rm_app rm_m rm_w rm_p]; rewrite !app_length; cbn [one_birth rm_w rm_m rm_p length]; congruence. }
    apply K. split; reflexivity. }
  split; [exact L|]. split; [apply Rinv_0_lt_compat, Sm|]. intros n Hn. rewrite P by exact Hn. unfold predicted_norm. rewrite (predicted_none _ _ _ _ _ N). unfold Rdiv. ring.
Qed.
Lemma zsum_two (s : cphd vec mat R) (c : ccfg vec mat R) w : rm_w (cp_mix s) = [w] -> forall s', cp_extract c sort_ref s = Ok s' -> cp_agents s' = [] \/ cp_agents s' = [roundR w].
Proof.
  intros Hw s' E. unfold cp_extract in E. apply bind_ok in E as [card [_ E]]. cbn zeta in E. apply bind_ok in E as [x [_ E]]. apply bind_ok in E as [y [_ E]]. apply ok_inj in E. subst s'. cbn [cp_agents].
  rewrite Hw. cbn [sort_ref length seq fold_right ins rev app extract_loop]. destruct (0 <? Z.of_nat card)%Z; [|left; reflexivity]. cbn [nth]. destruct (roundR w <=? 0)%Z; [left; reflexivity|right; reflexivity].
Qed.
Theorem C185_cphd_agents_refuted : exists (over under : list (cattr R * hop R)) so su co cu,
  (forall a o, In (a, o) (over ++ under) -> cphd_ok (pos_def 1) a /\ hcareful o) /\
  hruns sort_ref over (cphd_new 3) = Ok so /\ ccardinality_of so = Ok co /\ (Z.of_nat co < zsum (cp_agents so))%Z /\
  hruns sort_ref under (cphd_new 3) = Ok su /\ ccardinality_of su = Ok cu /\ (zsum (cp_agents su) < Z.of_nat cu)%Z /\ cstates_of su = [].
Proof.
  set (ao := b_attr (map one_birth [27 / 10])). set (au := b_attr (map one_birth [1 / 2; 1 / 2; 1 / 2])).
  assert (Oo : cphd_ok (pos_def 1) ao) by (apply b_ok; [lra|intros x []]).
  assert (Ou : cphd_ok (pos_def 1) au) by (apply b_ok; [lra|intros x [<-|[<-|[]]]; lra]).
  destruct (b_first (27 / 10) [] ltac:(lra) ltac:(intros x [])) as [s1 [k1 [E1 [W1 [A1 [L1 [K1 P1]]]]]]].
  destruct (b_first (1 / 2) [1 / 2; 1 / 2] ltac:(lra) ltac:(intros x [<-|[<-|[]]]; lra)) as [s2 [k2 [E2 [W2 [A2 [L2 [K2 P2]]]]]]].
  assert (B1 : rsum [27 / 10] = 27 / 10) by (cbn; lra). assert (B2 : rsum [1 / 2; 1 / 2; 1 / 2] = 3 / 2) by (cbn; lra).
  rewrite B1 in P1. rewrite B2 in P2.
  assert (X1 : exists s1', cp_extract (a_c ao) sort_ref s1 = Ok s1').
  { destruct (C44_cphd_extract (a_c ao) sort_ref s1 (fun _ => 0) (fun _ _ => 0) C44_ex A1) as [s' [_ [_ [_ [_ [E _]]]]]]; [intros E0; rewrite E0 in L1; discriminate|eauto]. }
  destruct X1 as [so Eo].
  assert (X2 : exists s2', cp_extract (a_c au) sort_ref s2 = Ok s2').
  { destruct (C44_cphd_extract (a_c au) sort_ref s2 (fun _ => 0) (fun _ _ => 0) C44_ex A2) as [s' [_ [_ [_ [_ [E _]]]]]]; [intros E0; rewrite E0 in L2; discriminate|eauto]. }
  destruct X2 as [su Eu].
  pose proof (cextract_rec sort_ref _ _ _ Eo) as [_ [_ [_ [Co _]]]]. pose proof (cextract_rec sort_ref _ _ _ Eu) as [_ [_ [_ [Cu _]]]].
  assert (Mo : exists co, argmaxR (cp_card s1) = Ok co) by (destruct (cp_card s1); [discriminate L1|eexists; reflexivity]). destruct Mo as [co Mo].
  assert (Mu : exists cu, argmaxR (cp_card s2) = Ok cu) by (destruct (cp_card s2); [discriminate L2|eexists; reflexivity]). destruct Mu as [cu Mu].
  exists [(ao, HPredict); (ao, HExtract)], [(au, HPredict); (au, HExtract)], so, su, co, cu.
  split; [intros a o Hi; repeat (destruct Hi as [Hi|Hi]; [injection Hi as <- <-; split; [assumption|cbn; auto]|]); destruct Hi|].
  split; [cbn [hruns hstep cstep]; unfold ao at 1; cbn [b_attr a_c]; rewrite E1; cbn [bind]; rewrite Eo; reflexivity|].
  split; [unfold ccardinality_of; rewrite Co; exact Mo|].
  assert (Q1 : forall n, poisson (27 / 10) n = exp (- (27 / 10)) * (27 / 10) ^ n / INR (fact n)) by reflexivity.
  assert (Q2 : forall n, poisson (3 / 2) n = exp (- (3 / 2)) * (3 / 2) ^ n / INR (fact n)) by reflexivity.
  assert (Z1 : 0 < k1 * exp (- (27 / 10))) by (apply Rmult_lt_0_compat; [exact K1|apply exp_pos]).
  assert (Z2 : 0 < k2 * exp (- (3 / 2))) by (apply Rmult_lt_0_compat; [exact K2|apply exp_pos]).
  split; [|split; [cbn [hruns hstep cstep]; unfold au at 1; cbn [b_attr a_c]; rewrite E2; cbn [bind]; rewrite Eu; reflexivity|split; [unfold ccardinality_of; rewrite Cu; exact Mu|]]].
  - pose proof (argmaxR_spec _ _ Mo) as [H1 [H2 H3]]. rewrite L1 in *.
    assert (D0 : co <> 0%nat). { intros ->. specialize (H2 1%nat ltac:(lia)). rewrite !P1, !Q1 in H2 by lia. cbn [pow fact Nat.mul Nat.add] in H2. replace (INR 1) with 1 in H2 by reflexivity. set (z := exp (- (27 / 10))) in *. nra. }
    assert (D3 : co <> 3%nat).
    { intros ->. specialize (H2 2%nat ltac:(lia)). rewrite !P1, !Q1 in H2 by lia. change (fact 3) with 6%nat in H2. change (fact 2) with 2%nat in H2.
      replace (INR 6) with 6 in H2 by (cbn; ring). replace (INR 2) with 2 in H2 by (cbn; ring). set (z := exp (- (27 / 10))) in *.
      replace (k1 * (z * (27 / 10) ^ 2 / 2)) with (k1 * z * (729 / 200)) in H2 by (cbn [pow]; field). replace (k1 * (z * (27 / 10) ^ 3 / 6)) with (k1 * z * (19683 / 6000)) in H2 by (cbn [pow]; field). lra. }
    assert (Rd : roundR (27 / 10) = 3%Z).
    { assert (NE : nearest_even (27 / 10) (roundR (27 / 10))) by apply roundR_spec. destruct NE as [[A B] _]. assert (IZR (roundR (27 / 10)) < 4 /\ 2 < IZR (roundR (27 / 10))) as [U V] by lra. apply lt_IZR in U, V. lia. }
    destruct (C44_cphd_extract (a_c ao) sort_ref s1 (fun _ => 0) (fun _ _ => 0) C44_ex A1) as [s' [order [k [card [num [E [G1 [G2 [_ [G4 [_ [G6 [_ [_ [_ [_ [G11 _]]]]]]]]]]]]]]]]]; [intros E0; rewrite E0 in L1; discriminate|].
    rewrite Eo in E. apply ok_inj in E. subst s'.
    destruct (zsum_two s1 (a_c ao) (27 / 10) W1 so Eo) as [Z|Z]; [|rewrite Z, Rd; cbn [zsum fold_right]; lia].
    exfalso. rewrite W1 in *. cbn [length seq] in G2. assert (order = [0%nat]) by (apply Permutation_sym, Permutation_length_1_inv in G2; exact G2). subst order.
    assert (card = co).
    { destruct G1 as [R1 [R2 R3]]. rewrite L1 in *. destruct (Nat.lt_trichotomy card co) as [X|[X|X]]; [|exact X|]; [specialize (H3 card X); specialize (R2 co H1); lra|specialize (R3 co X); specialize (H2 card R1); lra]. }
    subst card. destruct k as [|k].
    + destruct G11 as [X|[X|X]]; [discriminate| |]. { rewrite Z in X. cbn [zsum fold_right] in X. lia. }
      cbn [nth] in X. pose proof (G4 0%nat) as [[_ Y] _]. cbn [nth] in Y. apply IZR_le in X. lra.
    + rewrite Z in G6. cbn [firstn map] in G6. discriminate.
  - pose proof (argmaxR_spec _ _ Mu) as [H1 [H2 H3]]. rewrite L2 in *.
    assert (D0 : cu <> 0%nat). { intros ->. specialize (H2 1%nat ltac:(lia)). rewrite !P2, !Q2 in H2 by lia. cbn [pow fact Nat.mul Nat.add] in H2. replace (INR 1) with 1 in H2 by reflexivity. set (z := exp (- (3 / 2))) in *. nra. }
    destruct (C185_cphd_agents_partial (a_c au) sort_ref s2 su C44_ex A2) as [card [_ [_ [G1 G2]]]]; [rewrite W2; intros w [<-|[<-|[<-|[]]]]; lra|exact Eu|].
    rewrite W2 in G2. unfold heavy in G2. cbn [filter] in G2. destruct (Rlt_dec (1 / 2) (1 / 2)) as [X|_]; [lra|]. cbn [length] in G2. rewrite Nat.min_0_r in G2.
    rewrite G2 in G1. rewrite G1. cbn [repeat zsum fold_right]. split; [lia|]. destruct (cstates_of su); [reflexivity|discriminate].
Qed.
Print Assumptions C185_cphd_agents_refuted.
(** Hypotheses of C185: one predict of a new filter with three births of weight 1. *)
Example C185_ex : exists s s', cp_predict (b_cfg (map one_birth [1; 1; 1])) (cphd_new 3) = Ok s /\ rsorts sort_ref /\ raligned (cp_mix s) /\
  (forall w, In w (rm_w (cp_mix s)) -> w < 3 / 2) /\ heavy (rm_w (cp_mix s)) = 3%nat /\ cp_extract (b_cfg (map one_birth [1; 1; 1])) sort_ref s = Ok s'.
Proof.
  destruct (b_first 1 [1; 1] ltac:(lra) ltac:(intros x [<-|[<-|[]]]; lra)) as [s [k [E [W [A [L _]]]]]].
  destruct (C44_cphd_extract (b_cfg (map one_birth [1; 1; 1])) sort_ref s (fun _ => 0) (fun _ _ => 0) C44_ex A) as [s' [_ [_ [_ [_ [X _]]]]]]; [intros E0; rewrite E0 in L; discriminate|].
  exists s, s'. split; [exact E|]. split; [exact C44_ex|]. split; [exact A|]. rewrite W. split; [intros w [<-|[<-|[<-|[]]]]; lra|]. split; [|exact X].
  unfold heavy. cbn [filter]. destruct (Rlt_dec (1 / 2) 1); [reflexivity|lra].
Qed.
