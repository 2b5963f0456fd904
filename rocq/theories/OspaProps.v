(** Property theorems about OSPA and OSPA(2) (C23-C30, C72, C74). *)
From Verif Require Import Base Lists OspaModel OspaSpec OspaProofs OspaMetric.
From Coq Require Import Reals Lra Permutation.
Open Scope R_scope.

(** The default core and the two vector-norm cores. *)
Definition norm_core (me : option method) : Prop := me = None \/ me = Some Euclidean \/ me = Some Manhattan.

Lemma cut_id me c : me <> Hellinger -> ospa_cut me c = c.
Proof. destruct me; cbn; congruence. Qed.

Lemma nonan_symm dim inv det me c es ts m n : symm me -> nonan m n (dmat dim inv det me c true es ts).
Proof. intros H i j _ _ E. unfold dmat in E. destruct (de_some dim inv det me c (nth i es None) (nth j ts None) H) as [v Ev]. congruence. Qed.

(** C23: swapping estimates and truth changes nothing (also not the failures). *)
Theorem C23_ospa_symmetric : forall dim inv det lsa est tru c p ue me tcov ecov,
  lsa_ok lsa -> norm_core me -> length est = length tru ->
  calculate_ospa dim inv det lsa est tru c p ue me tcov ecov = calculate_ospa dim inv det lsa tru est c p ue me tcov ecov.
Proof.
  intros dim inv det lsa est tru c p ue me tcov ecov L Hm Hl. unfold calculate_ospa.
  rewrite Hl, Nat.ltb_irrefl. f_equal.
  pose proof (ospa_method_symm me tcov ecov Hm) as S.
  rewrite (mapM_ext _ (fun et => ospa_step dim inv det lsa (ospa_method me tcov ecov) (ospa_cut (ospa_method me tcov ecov) c) p ue (fst et) (snd et)) (fun et => (snd et, fst et))).
  - f_equal. clear -Hl. revert tru Hl. induction est as [|x est IH]; intros [|y tru] Hl; try discriminate; [reflexivity|]. cbn. f_equal. apply IH. cbn in Hl. lia.
  - intros [e t]. cbn [fst snd]. apply step_sym; assumption.
Qed.
Theorem C23_ospa2_symmetric : forall dim inv det lsa est tru ne nt c p w me tcov ecov r me' c',
  lsa_ok lsa -> norm_core me -> length est = length tru ->
  calculate_ospa2 dim inv det lsa est tru ne nt c p w me tcov ecov = Ok (r, me', c') ->
  calculate_ospa2 dim inv det lsa tru est nt ne c p w me tcov ecov = Ok (r, me', c').
Proof.
  intros dim inv det lsa est tru ne nt c p w me tcov ecov r me' c' L Hm Hl E.
  pose proof (ospa_method_symm me tcov ecov Hm) as S.
  pose proof (calc2_ok dim inv det lsa est tru ne nt c p w me tcov ecov r me' c' L Hm E) as [E1 [E2 [Ln H]]].
  unfold calculate_ospa2 in *. rewrite <- C23_ospa_symmetric by assumption.
  destruct (calculate_ospa dim inv det lsa est tru c 1 false me tcov ecov) as [[[r0 me0] c0]|]; [|discriminate]. cbn [bind] in *.
  apply bind_ok in E as [r1 [Er E]]. injection E as -> -> ->. subst me' c'.
  destruct (mapM_all_ok (fun tt => ospa2_step dim inv det lsa (ospa_method me tcov ecov) c p tru est nt ne (win_idx tt w)) (seq 0 (length est))) as [r' Er'].
  { intros t _. destruct (step2_spec dim inv det lsa L (ospa_method me tcov ecov) c p tru est nt ne (win_idx t w) S) as [l [k [X _]]]. eauto. }
  rewrite Er'. cbn [bind]. do 3 f_equal.
  apply mapM_ok, Forall2_nth in Er' as [Ln' H']. rewrite seq_length in Ln', H'.
  apply (nth_ext r' r (0, 0) (0, 0)); [lia|]. intros t Ht.
  specialize (H' t 0%nat (0, 0) ltac:(lia)). rewrite seq_nth in H' by lia. cbn [plus] in H'.
  specialize (H t (0, 0) ltac:(lia)).
  destruct (step2_spec dim inv det lsa L (ospa_method me tcov ecov) c p tru est nt ne (win_idx t w) S) as [l [k [El Hs]]].
  rewrite El in H'. injection H' as <-. apply ospa2_of_tracks_sym in H; [|intros x y; f_equal; apply core_sym, S].
  destruct (ospa2_of_tracks_perm _ _ _ _ _ _ _ _ _ _ _ (Permutation_refl _) (Permutation_refl _) H Hs) as [<- <-].
  destruct (nth t r (0, 0)); reflexivity.
Qed.

(** C24: both components lie between 0 and the cut-off; a set has OSPA 0 to
    itself. *)
Theorem C24_ospa_bounds : forall dim inv det lsa est tru c p ue me tcov ecov r me' c',
  lsa_ok lsa -> me <> Some Hellinger -> 0 <= c -> (1 <= p)%nat ->
  calculate_ospa dim inv det lsa est tru c p ue me tcov ecov = Ok (r, me', c') ->
  c' = c /\ forall lc, In lc r -> 0 <= fst lc <= c /\ 0 <= snd lc <= c.
Proof.
  intros dim inv det lsa est tru c p ue me tcov ecov r me' c' L Hm Hc Hp E.
  apply calc_ok in E as [-> [-> [Hl [Ln H]]]].
  assert (Hn : ospa_method me tcov ecov <> Hellinger).
  { destruct me as [[]|]; cbn; try discriminate; try congruence. destruct ecov; discriminate. }
  pose proof (cut_id _ c Hn) as Ec.
  rewrite Ec in *. split; [reflexivity|]. intros lc Hlc. destruct (In_nth r lc (0, 0) Hlc) as [t [Ht <-]].
  specialize (H t (0, 0) ltac:(lia)). destruct (nth t r (0, 0)) as [l k]. cbn [fst snd]. eapply step_bounds; eassumption.
Qed.
Theorem C24_ospa_self_zero : forall dim inv det lsa est c p me tcov ecov r me' c',
  lsa_ok lsa -> me <> Some Hellinger -> 0 <= c -> (1 <= p)%nat ->
  calculate_ospa dim inv det lsa est est c p true me tcov ecov = Ok (r, me', c') ->
  length r = length est /\ forall lc, In lc r -> lc = (0, 0).
Proof.
  intros dim inv det lsa est c p me tcov ecov r me' c' L Hm Hc Hp E.
  apply calc_ok in E as [-> [-> [Hl [Ln H]]]].
  assert (Hn : ospa_method me tcov ecov <> Hellinger).
  { destruct me as [[]|]; cbn; try discriminate; try congruence. destruct ecov; discriminate. }
  pose proof (cut_id _ c Hn) as Ec.
  rewrite Ec in *. split; [exact Ln|]. intros lc Hlc. destruct (In_nth r lc (0, 0) Hlc) as [t [Ht <-]].
  specialize (H t (0, 0) ltac:(lia)). eapply step_self; eassumption.
Qed.
(** The two theorems above are not vacuous: calculate_ospa with these cores
    returns a value for every existence pattern. *)
Theorem C24_ospa_total : forall dim inv det lsa est tru c p me tcov ecov,
  lsa_ok lsa -> norm_core me -> (length tru <= length est)%nat ->
  exists r me' c', calculate_ospa dim inv det lsa est tru c p true me tcov ecov = Ok (r, me', c') /\ length r = length tru.
Proof.
  intros dim inv det lsa est tru c p me tcov ecov L Hm Hl. unfold calculate_ospa.
  destruct (mapM_all_ok (fun et => ospa_step dim inv det lsa (ospa_method me tcov ecov) (ospa_cut (ospa_method me tcov ecov) c) p true (fst et) (snd et)) (combine est tru)) as [r Er].
  { intros et _. apply step_total; [exact L|]. apply ospa_method_symm, Hm. }
  rewrite Er. cbn [bind]. destruct (Nat.ltb_spec (length est) (length tru)); [lia|].
  do 3 eexists. split; [reflexivity|]. apply mapM_ok, Forall2_nth in Er as [Ln _]. rewrite combine_length in Ln. lia.
Qed.

(** C25: the sum is at most c when p = 1, and not in general. *)
Theorem C25_ospa_le_cutoff_p1 : forall dim inv det lsa est tru c ue me tcov ecov r me' c',
  lsa_ok lsa -> me <> Some Hellinger -> 0 <= c ->
  calculate_ospa dim inv det lsa est tru c 1 ue me tcov ecov = Ok (r, me', c') ->
  forall lc, In lc r -> ospa_val lc <= c.
Proof.
  intros dim inv det lsa est tru c ue me tcov ecov r me' c' L Hm Hc E.
  apply calc_ok in E as [-> [-> [Hl [Ln H]]]].
  assert (Hn : ospa_method me tcov ecov <> Hellinger).
  { destruct me as [[]|]; cbn; try discriminate; try congruence. destruct ecov; discriminate. }
  pose proof (cut_id _ c Hn) as Ec.
  rewrite Ec in *. intros lc Hlc. destruct (In_nth r lc (0, 0) Hlc) as [t [Ht <-]].
  specialize (H t (0, 0) ltac:(lia)). destruct (nth t r (0, 0)) as [l k]. unfold ospa_val. cbn [fst snd]. eapply step_p1; eassumption.
Qed.
(** For every p the sum is at most 2c. *)
Theorem C25_ospa_le_twice_cutoff : forall dim inv det lsa est tru c p ue me tcov ecov r me' c',
  lsa_ok lsa -> me <> Some Hellinger -> 0 <= c -> (1 <= p)%nat ->
  calculate_ospa dim inv det lsa est tru c p ue me tcov ecov = Ok (r, me', c') ->
  forall lc, In lc r -> ospa_val lc <= 2 * c.
Proof.
  intros dim inv det lsa est tru c p ue me tcov ecov r me' c' L Hm Hc Hp E lc Hlc.
  destruct (C24_ospa_bounds dim inv det lsa est tru c p ue me tcov ecov r me' c' L Hm Hc Hp E) as [_ H].
  specialize (H lc Hlc). unfold ospa_val. lra.
Qed.
Definition pt (x : R) : obj := {| st := fun _ => x; cv := None |}.
(** Every assignment of a block with constant entries has the same cost. *)
Lemma least_const m n C v a : least_cost m n C v -> (forall i j, (i < m)%nat -> (j < n)%nat -> C i j = a) -> v = INR (Nat.min m n) * a.
Proof.
  intros [[b [Hb <-]] _] H. destruct (cost_bounds m n C b a a Hb) as [H1 H2]; [intros i j Hi Hj; rewrite H by assumption; lra|lra].
Qed.
Theorem C25_ospa_le_cutoff_refuted : forall inv det lsa, lsa_ok lsa ->
  exists dim est tru c p r me', 0 < c /\ (1 <= p)%nat /\
    calculate_ospa dim inv det lsa est tru c p true (Some Euclidean) false false = Ok ([r], me', c) /\ c < ospa_val r.
Proof.
  intros inv det lsa L. exists 1%nat, [[Some (pt 0)]], [[Some (pt 10); Some (pt 10)]], 1, 2%nat.
  destruct (step_ok 1 inv det lsa L Euclidean 1 2 true [Some (pt 0)] [Some (pt 10); Some (pt 10)]) as [v [Hv E]]; try (cbn; lia).
  { apply nonan_symm. left; reflexivity. }
  exists (root 2 (/ 2), root 2 (/ 2)), Euclidean. split; [lra|]. split; [lia|].
  assert (V : v = 1).
  { rewrite (least_const _ _ _ _ 1 Hv); [cbn; ring|]. intros i j Hi Hj. cbn in Hi, Hj.
    replace i with 0%nat by lia.
    assert (S10 : sqrt (0 + (10 - 0) ^ 2) = 10) by (replace (0 + (10 - 0) ^ 2) with (10 * 10) by ring; apply sqrt_square; lra).
    assert (j = 0 \/ j = 1)%nat as [->| ->] by lia; unfold dmat, dist_entry, nth, core, nan_min, rsumn, pt, st, val; rewrite S10, Rmin_right by lra; ring. }
  subst v. split.
  - unfold calculate_ospa. cbn [ospa_method ospa_cut combine mapM fst snd length Nat.ltb Nat.leb]. rewrite E. cbn [bind].
    change (count [Some (pt 0)]) with 1%nat. change (count [Some (pt 10); Some (pt 10)]) with 2%nat.
    replace (1 ^ 2 * INR (absdiff 1 2) / INR (Nat.max 1 2)) with (/ 2) by (cbn; field).
    replace (1 / INR (Nat.max 1 2)) with (/ 2) by (cbn; field). reflexivity.
  - unfold ospa_val. cbn [fst snd]. pose proof (pow_root 2 (/ 2) ltac:(lia) ltac:(lra)). pose proof (root_nonneg 2 (/ 2)). nra.
Qed.

(** C26: the value of a time step as a function of the two sets of objects. *)
(** Refuted: moving the only estimate to another slot changes the value. *)
Theorem C26_ospa_slots_refuted : forall inv det lsa, lsa_ok lsa ->
  exists dim est est' tru c r r' me', Permutation (concat est) (concat est') /\
    calculate_ospa dim inv det lsa est tru c 1 true (Some Euclidean) false false = Ok ([r], me', c) /\
    calculate_ospa dim inv det lsa est' tru c 1 true (Some Euclidean) false false = Ok ([r'], me', c) /\
    ospa_val r = 0 /\ ospa_val r' = c /\ 0 < c.
Proof.
  intros inv det lsa L. exists 1%nat, [[Some (pt 0); None]], [[None; Some (pt 0)]], [[Some (pt 0); None]], 1.
  destruct (step_ok 1 inv det lsa L Euclidean 1 1 true [Some (pt 0); None] [Some (pt 0); None]) as [v [Hv E]]; try (cbn; lia).
  { apply nonan_symm. left; reflexivity. }
  destruct (step_ok 1 inv det lsa L Euclidean 1 1 true [None; Some (pt 0)] [Some (pt 0); None]) as [v' [Hv' E']]; try (cbn; lia).
  { apply nonan_symm. left; reflexivity. }
  assert (V : v = 0).
  { rewrite (least_const _ _ _ _ 0 Hv); [cbn; ring|]. intros i j Hi Hj. cbn in Hi, Hj. replace i with 0%nat by lia. replace j with 0%nat by lia.
    unfold dmat, dist_entry, nth, core, nan_min, rsumn, pt, st, val. replace (0 + (0 - 0) ^ 2) with 0 by ring. rewrite sqrt_0, Rmin_left by lra. ring. }
  assert (V' : v' = 1).
  { rewrite (least_const _ _ _ _ 1 Hv'); [cbn; ring|]. intros i j Hi Hj. cbn in Hi, Hj. replace i with 0%nat by lia. replace j with 0%nat by lia.
    unfold dmat, dist_entry, nth, nan_min, val. rewrite Rmin_left by lra. ring. }
  subst v v'. exists (0, 0), (1, 0), Euclidean. split; [cbn; apply perm_swap|].
  unfold calculate_ospa. cbn [ospa_method ospa_cut combine mapM fst snd length Nat.ltb Nat.leb]. rewrite E, E'. cbn [bind].
  change (count [Some (pt 0); None]) with 1%nat. change (count [None; Some (pt 0)]) with 1%nat.
  change (absdiff 1 1) with 0%nat. change (Nat.max 1 1) with 1%nat. cbn [INR].
  replace (1 ^ 1 * 0 / 1) with 0 by field. replace (0 / 1) with 0 by field. replace (1 / 1) with 1 by field. rewrite root_0, root_1 by lra.
  repeat split; unfold ospa_val; cbn [fst snd]; lra.
Qed.
(** Objects in the first slots: the components are those of the documented OSPA
    of the two sets ... *)
Theorem C26_ospa_prefix_slots_partial : forall dim inv det lsa est tru c p ue me tcov ecov r me' c' t,
  lsa_ok lsa -> calculate_ospa dim inv det lsa est tru c p ue me tcov ecov = Ok (r, me', c') ->
  (t < length tru)%nat -> prefix_slots (nth t est []) -> prefix_slots (nth t tru []) ->
  ospa_of_sets (fun x y => val (core dim inv det me' x y)) c' p
    (present (nth t est [])) (present (nth t tru [])) (fst (nth t r (0, 0))) (snd (nth t r (0, 0))).
Proof.
  intros dim inv det lsa est tru c p ue me tcov ecov r me' c' t L E Ht H1 H2.
  apply calc_ok in E as [-> [-> [Hl [Ln H]]]]. eapply step_prefix; eauto.
Qed.
(** ... which does not depend on the order of the objects. *)
Theorem C26_ospa_order_independent : forall dim inv det lsa est est' tru tru' c p ue me tcov ecov r r' me' c' me'' c'' t,
  lsa_ok lsa ->
  calculate_ospa dim inv det lsa est tru c p ue me tcov ecov = Ok (r, me', c') ->
  calculate_ospa dim inv det lsa est' tru' c p ue me tcov ecov = Ok (r', me'', c'') ->
  (t < length tru)%nat -> (t < length tru')%nat ->
  prefix_slots (nth t est []) -> prefix_slots (nth t tru []) -> prefix_slots (nth t est' []) -> prefix_slots (nth t tru' []) ->
  Permutation (present (nth t est [])) (present (nth t est' [])) ->
  Permutation (present (nth t tru [])) (present (nth t tru' [])) ->
  nth t r (0, 0) = nth t r' (0, 0).
Proof.
  intros dim inv det lsa est est' tru tru' c p ue me tcov ecov r r' me' c' me'' c'' t L E E' Ht Ht' P1 P2 P3 P4 Q1 Q2.
  pose proof (C26_ospa_prefix_slots_partial _ _ _ _ _ _ _ _ _ _ _ _ _ _ _ t L E Ht P1 P2) as H.
  pose proof (C26_ospa_prefix_slots_partial _ _ _ _ _ _ _ _ _ _ _ _ _ _ _ t L E' Ht' P3 P4) as H'.
  apply calc_ok in E as [-> [-> _]]. apply calc_ok in E' as [-> [-> _]].
  destruct (ospa_of_sets_perm _ _ _ _ _ _ _ _ _ _ _ Q1 Q2 H H') as [A B].
  destruct (nth t r (0, 0)), (nth t r' (0, 0)). cbn in A, B. subst. reflexivity.
Qed.

(** The tracker's calculate_ospa on lists without None entries: a value at every
    time step, equal to the documented OSPA of the two lists. *)
Lemma setup_row_some X n : (length X <= n)%nat -> setup_row n (map Some X) = Ok (map Some X ++ repeat None (n - length X)).
Proof.
  intros H. unfold setup_row. rewrite skipn_all2 by (rewrite map_length; exact H). cbn [existsb].
  rewrite firstn_all2 by (rewrite map_length; exact H). rewrite map_length. reflexivity.
Qed.
Lemma num_objs_ge ls l : In l ls -> (count l <= num_objs ls)%nat.
Proof.
  unfold num_objs. intros H.
  assert (M : forall ls s, (s <= fold_left (fun n l => Nat.max n (count l)) ls s)%nat).
  { clear. induction ls as [|l ls IH]; intros s; cbn; [lia|]. specialize (IH (Nat.max s (count l))). lia. }
  revert H. generalize 0%nat. induction ls as [|a ls IH]; intros s H; [destruct H|]; destruct H as [->|H]; cbn; [specialize (M ls (Nat.max s (count l))); lia|apply IH, H].
Qed.
Lemma setup_mat_some XS : exists n, setup_mat (map (map Some) XS) = Ok (map (fun X => map Some X ++ repeat None (n - length X)) XS).
Proof.
  exists (num_objs (map (map Some) XS)). unfold setup_mat. apply mapM_ok.
  set (n := num_objs (map (map Some) XS)).
  assert (H : forall X, In X XS -> (length X <= n)%nat).
  { intros X HX. rewrite <- (count_prefix X 0). cbn [repeat]. rewrite app_nil_r. apply num_objs_ge, in_map, HX. }
  clearbody n. induction XS as [|X XS IH]; cbn; constructor; [apply setup_row_some, H; left; reflexivity|].
  apply IH. intros Y HY. apply H. right; exact HY.
Qed.
Lemma present_some X : present (map Some X) = X.
Proof. rewrite <- (app_nil_r (map Some X)). apply (present_prefix X 0). Qed.
Theorem C26_tracker_ospa_of_lists : forall dim inv det lsa XT XE c p me save_covs tcov,
  lsa_ok lsa -> norm_core me -> (length XT <= length XE)%nat ->
  exists r me' c', trk_calculate_ospa dim inv det lsa (map (map Some) XT) (map (map Some) XE) c p me save_covs tcov = Ok (r, me', c') /\
    c' = c /\ forall t, (t < length XT)%nat ->
    ospa_of_sets (fun x y => val (core dim inv det me' x y)) c p (nth t XE []) (nth t XT []) (fst (nth t r (0, 0))) (snd (nth t r (0, 0))).
Proof.
  intros dim inv det lsa XT XE c p me sc tcov L Hm Hl. unfold trk_calculate_ospa.
  assert (HI : norm_core (Some (input_check me sc tcov))) by (destruct Hm as [->|[->| ->]]; cbn; unfold norm_core; auto).
  assert (NE : forall XS : list (list obj), existsb (existsb is_some) (map (map (@Some obj)) XS) = false -> forall t, nth t XS [] = []).
  { intros XS H t. destruct (nth_in_or_default t XS []) as [Hi|Hi]; [|exact Hi]. destruct (nth t XS []) as [|x X] eqn:En; [reflexivity|]. exfalso.
    assert (existsb (existsb is_some) (map (map (@Some obj)) XS) = true); [|congruence].
    apply existsb_exists. exists (map (@Some obj) (x :: X)). split; [apply in_map, Hi|reflexivity]. }
  destruct (negb _ && negb _)%bool eqn:E0.
  - rewrite andb_true_iff, !negb_true_iff in E0. destruct E0 as [E1 E2]. do 3 eexists. split; [reflexivity|]. split; [reflexivity|].
    intros t Ht. rewrite (NE XT E1), (NE XE E2).
    assert (nth t (map (fun _ : list slot => (0, 0)) (map (map (@Some obj)) XE)) (0, 0) = (0, 0)) as ->.
    { rewrite map_map. rewrite (nth_map' _ XE t (0, 0) []) by lia. reflexivity. }
    split; reflexivity.
  - clear E0. destruct (setup_mat_some XT) as [n ->]. destruct (setup_mat_some XE) as [n' ->]. cbn [bind].
    set (em := map (fun X => map Some X ++ repeat None (n' - length X)) XE). set (tm := map (fun X => map Some X ++ repeat None (n - length X)) XT).
    assert (Lt : length tm = length XT) by apply map_length. assert (Le : length em = length XE) by apply map_length.
    destruct (C24_ospa_total dim inv det lsa em tm c p (Some (input_check me sc tcov)) true true L HI) as [r [me' [c' [E Ln]]]].
    { transitivity (length XT); [rewrite <- Lt; apply Nat.le_refl|]. transitivity (length XE); [exact Hl|]. rewrite <- Le. apply Nat.le_refl. }
    exists r, me', c'. split; [exact E|].
    assert (c' = c). { apply calc_ok in E as [-> [-> _]]. apply symm_cut, ospa_method_symm, HI. }
    split; [assumption|]. subst c'. intros t Ht.
    assert (ET : nth t tm [] = map Some (nth t XT []) ++ repeat None (n - length (nth t XT []))) by (unfold tm; rewrite (nth_map' _ XT t [] []) by lia; reflexivity).
    assert (EE : nth t em [] = map Some (nth t XE []) ++ repeat None (n' - length (nth t XE []))) by (unfold em; rewrite (nth_map' _ XE t [] []) by lia; reflexivity).
    pose proof (C26_ospa_prefix_slots_partial _ _ _ _ _ _ _ _ _ _ _ _ _ _ _ t L E (eq_ind_r (fun n => (t < n)%nat) Ht Lt)) as H. rewrite ET, EE in H.
    rewrite !present_prefix in H. apply H; eexists _, _; reflexivity.
Qed.
(** The distance the wrapper uses: the one asked for, Euclidean by default, when
    Mahalanobis is asked for without saved covariances and when Hellinger is
    asked for without true covariances. *)
Theorem C26_tracker_ospa_core : forall dim inv det lsa truth states c p me save_covs tcov r me' c',
  trk_calculate_ospa dim inv det lsa truth states c p me save_covs tcov = Ok (r, me', c') ->
  me' = match me, save_covs, tcov with
        | Some Manhattan, _, _ => Manhattan
        | Some Mahalanobis, true, _ => Mahalanobis
        | Some Hellinger, _, true => Hellinger
        | _, _, _ => Euclidean
        end.
Proof.
  intros dim inv det lsa truth states c p me sc tc r me' c' E. unfold trk_calculate_ospa in E.
  assert (G : me' = input_check me sc tc); [|rewrite G; destruct me as [[]|], sc, tc; reflexivity].
  destruct (negb _ && negb _)%bool; [injection E as _ <- _; reflexivity|].
  apply bind_ok in E as [tm [_ E]]. apply bind_ok in E as [em [_ E]]. apply calc_ok in E as [-> _]. destruct me as [[]|], sc, tc; reflexivity.
Qed.
Print Assumptions C26_tracker_ospa_core.
(** Refuted for the GLMB filter, whose estimates occupy one slot per label: after
    the first object died, a perfect estimate of the survivor is scored c. *)
Theorem C26_glmb_ospa_refuted : forall inv det lsa, lsa_ok lsa ->
  exists dim truth labels states c r0 r1 me', 0 < c /\
    glmb_calculate_ospa dim inv det lsa (map (map Some) truth) labels states c 1 (Some Euclidean) false false = Ok ([r0; r1], me', c) /\
    truth = states /\ ospa_val r0 = 0 /\ ospa_val r1 = c.
Proof.
  intros inv det lsa L. exists 1%nat, [[pt 0; pt 5]; [pt 5]], [[Some 0%nat; Some 1%nat]; [Some 1%nat]], [[pt 0; pt 5]; [pt 5]], 1.
  set (r0 := [Some (pt 0); Some (pt 5)]). set (e1 := [None; Some (pt 5)]). set (t1 := [Some (pt 5); None]).
  destruct (step_total 1 inv det lsa L Euclidean 1 1 r0 r0) as [a Ea]; [left; reflexivity|].
  assert (a = (0, 0)) by (eapply step_self; [exact L| | | |exact Ea]; [discriminate|lra|lia]). subst a.
  destruct (step_ok 1 inv det lsa L Euclidean 1 1 true e1 t1) as [v [Hv E]]; try (cbn; lia).
  { apply nonan_symm. left; reflexivity. }
  assert (V : v = 1).
  { rewrite (least_const _ _ _ _ 1 Hv); [cbn; ring|]. intros i j Hi Hj. cbn in Hi, Hj. replace i with 0%nat by lia. replace j with 0%nat by lia.
    unfold e1, t1, dmat, dist_entry, nth, nan_min, val. rewrite Rmin_left by lra. ring. }
  subst v. exists (0, 0), (1, 0), Euclidean. split; [lra|]. split; [|unfold ospa_val; cbn [fst snd]; repeat split; lra].
  unfold glmb_calculate_ospa. cbn [input_check].
  change (setup_mat (map (map Some) [[pt 0; pt 5]; [pt 5]])) with (Ok [r0; t1]).
  change (glmb_emat [[Some 0%nat; Some 1%nat]; [Some 1%nat]] [[pt 0; pt 5]; [pt 5]]) with [r0; e1]. cbn [bind].
  unfold calculate_ospa. cbn [ospa_method ospa_cut combine mapM fst snd length Nat.ltb Nat.leb]. rewrite Ea, E. cbn [bind].
  change (count e1) with 1%nat. change (count t1) with 1%nat. change (absdiff 1 1) with 0%nat. change (Nat.max 1 1) with 1%nat. cbn [INR].
  replace (1 ^ 1 * 0 / 1) with 0 by field. replace (1 / 1) with 1 by field. rewrite root_0, root_1 by lra. reflexivity.
Qed.

(** C27: the Mahalanobis core uses the covariance, not its inverse. *)
Definition mahalanobis_doc (dim : nat) (icov : rmat) (x y : rvec) : R := sqrt (quad dim icov (fun i => x i - y i)).
Definition inverse (dim : nat) (A B : rmat) : Prop := forall i j, (i < dim)%nat -> (j < dim)%nat ->
  mprod dim A B i j = (if (i =? j)%nat then 1 else 0) /\ mprod dim B A i j = (if (i =? j)%nat then 1 else 0).
Theorem C27_mahalanobis_refuted : forall inv det lsa, lsa_ok lsa ->
  exists dim x y cov icov c r, inverse dim cov icov /\
    calculate_ospa dim inv det lsa [[Some {| st := x; cv := Some cov |}]] [[Some {| st := y; cv := None |}]] c 1 true (Some Mahalanobis) false true
      = Ok ([r], Mahalanobis, c) /\
    fst r = 2 /\ mahalanobis_doc dim icov x y = / 2 /\ 2 < c.
Proof.
  intros inv det lsa L. exists 1%nat, (fun _ => 1), (fun _ => 0), (fun _ _ => 4), (fun _ _ => / 4), 10.
  set (ex := [Some {| st := fun _ => 1; cv := Some (fun _ _ => 4) |}]). set (ty := [Some {| st := fun _ => 0; cv := None |}]).
  assert (S4 : sqrt (quad 1 (fun _ _ => 4) (fun _ => 1 - 0)) = 2).
  { unfold quad, rsumn. replace (0 + (0 + (1 - 0) * 4) * (1 - 0)) with (2 * 2) by ring. apply sqrt_square. lra. }
  destruct (step_ok 1 inv det lsa L Mahalanobis 10 1 true ex ty) as [v [Hv E]]; try (cbn; lia).
  { intros i j Hi Hj. cbn in Hi, Hj. replace i with 0%nat by lia. replace j with 0%nat by lia. cbn. discriminate. }
  assert (V : v = 2).
  { rewrite (least_const _ _ _ _ 2 Hv); [cbn; ring|]. intros i j Hi Hj. cbn in Hi, Hj. replace i with 0%nat by lia. replace j with 0%nat by lia.
    unfold ex, ty, dmat, dist_entry, nth, core, nan_min, st, cv, val. rewrite S4, Rmin_left by lra. ring. }
  subst v. exists (2, 0). split; [|split; [|split; [reflexivity|split; [|lra]]]].
  - intros i j Hi Hj. replace i with 0%nat by lia. replace j with 0%nat by lia. unfold mprod, rsumn. cbn [Nat.eqb]. split; field.
  - unfold calculate_ospa. cbn [ospa_method ospa_cut combine mapM fst snd length Nat.ltb Nat.leb].
    change (ospa_step 1 inv det lsa Mahalanobis 10 1 true _ _) with (ospa_step 1 inv det lsa Mahalanobis 10 1 true ex ty). rewrite E. cbn [bind].
    change (count ex) with 1%nat. change (count ty) with 1%nat. change (absdiff 1 1) with 0%nat. change (Nat.max 1 1) with 1%nat. cbn [INR].
    replace (10 ^ 1 * 0 / 1) with 0 by field. replace (2 / 1) with 2 by field. rewrite root_0, root_1 by lra. reflexivity.
  - unfold mahalanobis_doc, quad, rsumn. replace (0 + (0 + (1 - 0) * / 4) * (1 - 0)) with (/ 2 * / 2) by field. apply sqrt_square. lra.
Qed.
(** It agrees with the documentation exactly when both quadratic forms agree, for
    instance when the covariance is its own inverse (identity). *)
Theorem C27_mahalanobis_identity_partial : forall dim inv det x y cov icov ycov,
  (forall i j, (i < dim)%nat -> (j < dim)%nat -> cov i j = icov i j) ->
  core dim inv det Mahalanobis {| st := x; cv := Some cov |} {| st := y; cv := ycov |} = Some (mahalanobis_doc dim icov x y).
Proof.
  intros dim inv det x y cov icov ycov H. unfold core, mahalanobis_doc, quad. cbn [st cv]. do 2 f_equal.
  apply rsumn_ext. intros j Hj. f_equal. apply rsumn_ext. intros i Hi. rewrite H by assumption. reflexivity.
Qed.

(** C28: OSPA(2) at a step is the OSPA of the tracks in the window, so it depends
    only on these tracks and not on their order. *)
Theorem C28_ospa2_of_window : forall dim inv det lsa est tru ne nt c p w me tcov ecov r me' c' t,
  lsa_ok lsa -> norm_core me ->
  calculate_ospa2 dim inv det lsa est tru ne nt c p w me tcov ecov = Ok (r, me', c') -> (t < length tru)%nat ->
  ospa2_of_tracks (fun x y => val (core dim inv det me' x y)) c p
    (window_tracks est ne (win_idx t w)) (window_tracks tru nt (win_idx t w)) (fst (nth t r (0, 0))) (snd (nth t r (0, 0))).
Proof.
  intros dim inv det lsa est tru ne nt c p w me tcov ecov r me' c' t L Hm E Ht.
  destruct (calc2_ok dim inv det lsa est tru ne nt c p w me tcov ecov r me' c' L Hm E) as [_ [_ [_ H]]]. apply H, Ht.
Qed.
Theorem C28_ospa2_window_only : forall dim inv det lsa est tru est' tru' ne nt ne' nt' c p w me tcov ecov r r' me' c' me'' c'' t,
  lsa_ok lsa -> norm_core me ->
  calculate_ospa2 dim inv det lsa est tru ne nt c p w me tcov ecov = Ok (r, me', c') ->
  calculate_ospa2 dim inv det lsa est' tru' ne' nt' c p w me tcov ecov = Ok (r', me'', c'') ->
  (t < length tru)%nat -> (t < length tru')%nat ->
  Permutation (window_tracks est ne (win_idx t w)) (window_tracks est' ne' (win_idx t w)) ->
  Permutation (window_tracks tru nt (win_idx t w)) (window_tracks tru' nt' (win_idx t w)) ->
  nth t r (0, 0) = nth t r' (0, 0).
Proof.
  intros dim inv det lsa est tru est' tru' ne nt ne' nt' c p w me tcov ecov r r' me' c' me'' c'' t L Hm E E' Ht Ht' P1 P2.
  destruct (calc2_ok dim inv det lsa _ _ _ _ c p w me tcov ecov _ _ _ L Hm E) as [-> [-> [_ H]]].
  destruct (calc2_ok dim inv det lsa _ _ _ _ c p w me tcov ecov _ _ _ L Hm E') as [-> [-> [_ H']]].
  destruct (ospa2_of_tracks_perm _ _ _ _ _ _ _ _ _ _ _ P1 P2 (H t (0, 0) Ht) (H' t (0, 0) Ht')) as [A B].
  destruct (nth t r (0, 0)), (nth t r' (0, 0)). cbn in A, B. subst. reflexivity.
Qed.
(** The window holds the last [w] steps up to and including [t]. *)
Theorem C28_window : forall t w i, In i (win_idx t w) <-> (i <= t /\ t < i + w)%nat.
Proof. intros t w i. unfold win_idx. rewrite in_seq. lia. Qed.
Theorem C28_ospa2_bounds : forall dim inv det lsa est tru ne nt c p w me tcov ecov r me' c' t,
  lsa_ok lsa -> norm_core me -> 0 <= c -> (1 <= p)%nat ->
  calculate_ospa2 dim inv det lsa est tru ne nt c p w me tcov ecov = Ok (r, me', c') -> (t < length tru)%nat ->
  0 <= fst (nth t r (0, 0)) <= c /\ 0 <= snd (nth t r (0, 0)) <= c.
Proof.
  intros dim inv det lsa est tru ne nt c p w me tcov ecov r me' c' t L Hm Hc Hp E Ht.
  pose proof (C28_ospa2_of_window _ _ _ _ _ _ _ _ _ _ _ _ _ _ _ _ _ t L Hm E Ht) as H.
  apply calc2_ok in E as [-> _]; [|exact L|exact Hm].
  eapply ospa2_of_tracks_bounds; [|exact Hc|exact Hp|exact H]. intros x y.
  destruct (ospa_method_symm me tcov ecov Hm) as [-> | ->]; cbn; [apply sqrt_pos|apply rsumn_nonneg; intros; apply Rabs_pos].
Qed.

(** C29: OSPA(2) is not defined for all existence patterns. *)
Theorem C29_ospa2_total_refuted : forall inv det lsa, lsa_ok lsa ->
  exists dim est tru c p w, 0 < c /\ (1 <= p)%nat /\ (1 <= w)%nat /\ length est = length tru /\
    calculate_ospa2 dim inv det lsa est tru 2 2 c p w (Some Manhattan) false false = Err ValueErr.
Proof.
  intros inv det lsa L. exists 1%nat, [[None; Some (pt 0)]], [[None; Some (pt 0)]], 1, 1%nat, 1%nat.
  split; [lra|]. split; [lia|]. split; [lia|]. split; [reflexivity|].
  unfold calculate_ospa2, calculate_ospa. cbn [ospa_method ospa_cut combine mapM fst snd].
  rewrite step_nan; [reflexivity|exact L|cbn; lia|cbn; lia|]. exists 0%nat, 0%nat. cbn. auto.
Qed.
(** Exactly: it fails iff at some step a pair of slots inside the block
    [0..m) x [0..n) is empty on both sides (m, n: the numbers of objects then). *)
Theorem C29_ospa2_defined_iff : forall dim inv det lsa est tru ne nt c p w me tcov ecov,
  lsa_ok lsa -> norm_core me -> (length tru <= length est)%nat ->
  (exists r, calculate_ospa2 dim inv det lsa est tru ne nt c p w me tcov ecov = Ok r) <->
  (forall t i j, (t < length tru)%nat -> (i < count (nth t est []))%nat -> (j < count (nth t tru []))%nat ->
     ~ (slot_at est t i = None /\ slot_at tru t j = None)).
Proof.
  intros dim inv det lsa est tru ne nt c p w me tcov ecov L Hm Hl.
  pose proof (ospa_method_symm me tcov ecov Hm) as S. set (me' := ospa_method me tcov ecov) in *.
  assert (DN : forall e t, dist_entry dim inv det me' (ospa_cut me' c) false e t = None <-> e = None /\ t = None).
  { intros e t. unfold dist_entry. destruct e, t; cbn; try (split; [discriminate|intros [? ?]; discriminate]); [|tauto].
    destruct S as [-> | ->]; cbn; split; try discriminate; intros [? ?]; discriminate. }
  split.
  - intros [[[r m1] c1] E] t i j Ht Hi Hj Hn. unfold calculate_ospa2 in E. apply bind_ok in E as [[[r0 m0] c0] [E0 _]].
    apply calc_ok in E0 as [-> [-> [_ [_ H]]]]. specialize (H t (0, 0) Ht). fold me' in H. rewrite step_nan in H; [discriminate|exact L|lia|lia|].
    exists i, j. split; [exact Hi|]. split; [exact Hj|]. apply DN. exact Hn.
  - intros H.
    assert (exists r, calculate_ospa dim inv det lsa est tru c 1 false me tcov ecov = Ok (r, me', ospa_cut me' c)) as [r E].
    { unfold calculate_ospa. fold me'.
      destruct (mapM_all_ok (fun et => ospa_step dim inv det lsa me' (ospa_cut me' c) 1 false (fst et) (snd et)) (combine est tru)) as [r Er].
      { intros [e t0] Hin. destruct (In_nth _ _ ([], []) Hin) as [t [Ht En]]. rewrite combine_length in Ht.
        assert (Hc : combine est tru = map (fun i => (nth i est [], nth i tru [])) (seq 0 (length tru))).
        { clear -Hl. revert est Hl. induction tru as [|y tru IH]; intros [|x est] Hl; cbn in *; try reflexivity; try lia.
          f_equal. rewrite IH by lia. rewrite <- seq_shift, map_map. reflexivity. }
        rewrite Hc, (nth_map_seq (fun i => (nth i est [], nth i tru []))) in En by lia. injection En as <- <-. cbn [fst snd].
        destruct (step_cases dim inv det lsa L me' (ospa_cut me' c) 1 false (nth t est []) (nth t tru [])) as [[A E]|[[A E]|[[A [[i [j [Hi [Hj N]]]] E]]|[A [Hn [v [Hv E]]]]]]]; try (eexists; exact E).
        exfalso. apply (H t i j); [lia|exact Hi|exact Hj|]. apply DN. exact N. }
      rewrite Er. cbn [bind]. destruct (Nat.ltb_spec (length est) (length tru)); [lia|]. eexists; reflexivity. }
    unfold calculate_ospa2. rewrite E. cbn [bind].
    destruct (mapM_all_ok (fun tt => ospa2_step dim inv det lsa me' (ospa_cut me' c) p est tru ne nt (win_idx tt w)) (seq 0 (length tru))) as [r' ->].
    { intros t _. destruct (step2_spec dim inv det lsa L me' (ospa_cut me' c) p est tru ne nt (win_idx t w) S) as [l [k [X _]]]. eauto. }
    eexists. reflexivity.
Qed.
(** In particular it is defined when the truth occupies the first slots. *)
Theorem C29_ospa2_defined_prefix_partial : forall dim inv det lsa est tru ne nt c p w me tcov ecov,
  lsa_ok lsa -> norm_core me -> (length tru <= length est)%nat ->
  (forall t, (t < length tru)%nat -> prefix_slots (nth t tru [])) ->
  exists r, calculate_ospa2 dim inv det lsa est tru ne nt c p w me tcov ecov = Ok r.
Proof.
  intros dim inv det lsa est tru ne nt c p w me tcov ecov L Hm Hl H. apply C29_ospa2_defined_iff; try assumption.
  intros t i j Ht Hi Hj [_ N]. destruct (H t Ht) as [X [k E]]. unfold slot_at in N. rewrite E in Hj, N. rewrite count_prefix in Hj.
  destruct X as [|x0 X]; [cbn in Hj; lia|]. pose proof (nth_prefix (x0 :: X) k j x0 Hj) as F. rewrite F in N. discriminate.
Qed.

(** C30: the cardinality component. *)
Theorem C30_ospa_cardinality : forall dim inv det lsa est tru c p ue me tcov ecov r me' c' t,
  lsa_ok lsa -> 0 <= c -> (1 <= p)%nat -> me <> Some Hellinger ->
  calculate_ospa dim inv det lsa est tru c p ue me tcov ecov = Ok (r, me', c') -> (t < length tru)%nat ->
  let m := length (present (nth t est [])) in
  let n := length (present (nth t tru [])) in
  let card := snd (nth t r (0, 0)) in
  ((m = 0 /\ n = 0)%nat -> card = 0) /\
  (~ (m = 0 /\ n = 0)%nat -> card = root p (c ^ p * Rabs (INR m - INR n) / INR (Nat.max m n))) /\
  ((m = 0 /\ n <> 0 \/ m <> 0 /\ n = 0)%nat -> card = c) /\
  (m = n -> card = 0).
Proof.
  intros dim inv det lsa est tru c p ue me tcov ecov r me' c' t L Hc Hp Hm E Ht m n card.
  apply calc_ok in E as [-> [-> [Hl [Ln H]]]]. specialize (H t (0, 0) Ht).
  assert (Ec : ospa_cut (ospa_method me tcov ecov) c = c).
  { destruct me as [[]|]; cbn; try reflexivity; [congruence|]. destruct ecov; reflexivity. }
  rewrite Ec in H. destruct (nth t r (0, 0)) as [l k] eqn:Er. unfold card. cbn [snd]. apply step_card in H; try assumption.
  rewrite !count_present in H. fold m n in H.
  assert (AB : Rabs (INR m - INR n) = INR (absdiff m n)).
  { unfold absdiff. destruct (le_ge_dec m n) as [Hmn|Hmn].
    - rewrite Rabs_left1 by (apply le_INR in Hmn; lra). replace (m - n + (n - m))%nat with (n - m)%nat by lia. rewrite minus_INR by exact Hmn. ring.
    - rewrite Rabs_right by (apply le_INR in Hmn; lra). replace (m - n + (n - m))%nat with (m - n)%nat by lia. rewrite minus_INR by exact Hmn. ring. }
  rewrite AB. destruct (Nat.eqb_spec m 0) as [E1|E1], (Nat.eqb_spec n 0) as [E2|E2]; cbn [andb] in H; subst k.
  - repeat split; intros; try reflexivity; tauto.
  - assert (absdiff m n = n /\ Nat.max m n = n) as [-> ->] by (unfold absdiff; lia).
    assert (0 < INR n) by (apply lt_0_INR; lia). assert (root p (c ^ p * INR n / INR n) = c).
    { unfold Rdiv. rewrite Rmult_assoc, Rinv_r, Rmult_1_r by lra. apply root_pow; assumption. }
    split; [intros; lia|]. split; [reflexivity|]. split; [auto|]. intros; lia.
  - assert (absdiff m n = m /\ Nat.max m n = m) as [-> ->] by (unfold absdiff; lia).
    assert (0 < INR m) by (apply lt_0_INR; lia). assert (root p (c ^ p * INR m / INR m) = c).
    { unfold Rdiv. rewrite Rmult_assoc, Rinv_r, Rmult_1_r by lra. apply root_pow; assumption. }
    split; [intros; lia|]. split; [reflexivity|]. split; [auto|]. intros; lia.
  - split; [intros; lia|]. split; [reflexivity|]. split; [intros; lia|]. intros ->. replace (absdiff n n) with 0%nat by (unfold absdiff; lia).
    cbn [INR]. unfold Rdiv. rewrite Rmult_0_r, Rmult_0_l. apply root_0.
Qed.

(** C72: None entries in the lists given to the tracker's calculate_ospa. *)
Theorem C72_ospa_none_gap_refuted : forall dim inv det lsa c p me save_covs tcov x,
  trk_calculate_ospa dim inv det lsa [[None; Some x]] [[Some x]] c p me save_covs tcov = Err IndexErr /\
  trk_calculate_ospa dim inv det lsa [[Some x]] [[None; Some x]] c p me save_covs tcov = Err IndexErr.
Proof. intros. split; reflexivity. Qed.
(** The arrays are built iff every non-None entry stands at a position below the
    largest number of objects of a time step. *)
Theorem C72_ospa_setup_iff : forall ls,
  (exists m, setup_mat ls = Ok m) <->
  (forall l i, In l ls -> nth i l None <> None -> exists l', In l' ls /\ (i < length (present l'))%nat).
Proof.
  intros ls. assert (NM : forall i, (i < num_objs ls)%nat <-> exists l', In l' ls /\ (i < length (present l'))%nat).
  { intros i. unfold num_objs. assert (G : forall ls s, (i < fold_left (fun n l => Nat.max n (count l)) ls s)%nat <-> (i < s)%nat \/ exists l', In l' ls /\ (i < length (present l'))%nat).
    { clear. induction ls as [|a ls IH]; intros s; cbn [fold_left].
      - split; [auto|intros [H|[? [[] _]]]; exact H].
      - rewrite IH, count_present. split.
        + intros [H|[l' [H1 H2]]]; [|right; exists l'; split; [right; exact H1|exact H2]].
          destruct (le_lt_dec s i); [right; exists a; split; [left; reflexivity|lia]|left; assumption].
        + intros [H|[l' [[->|H1] H2]]]; [left; lia|left; lia|right; eauto]. }
    rewrite G. split; [intros [H|H]; [lia|exact H]|auto]. }
  assert (SR : forall l n, (exists m, setup_row n l = Ok m) <-> (forall i, nth i l None <> None -> (i < n)%nat)).
  { intros l n. unfold setup_row. destruct (existsb is_some (skipn n l)) eqn:E.
    - split; [intros [m Hm]; discriminate|]. intros H. exfalso. apply existsb_exists in E as [s [Hs E]].
      destruct (In_nth _ _ None Hs) as [k [Hk Ek]]. rewrite nth_skipn' in Ek. specialize (H (n + k)%nat). rewrite Ek in H.
      destruct s; [|discriminate]. specialize (H ltac:(discriminate)). lia.
    - split; [|eauto]. intros _ i Hi. destruct (le_lt_dec n i) as [Hn|]; [|assumption]. exfalso. apply Hi.
      destruct (nth i l None) as [o|] eqn:En; [|reflexivity]. exfalso. assert (existsb is_some (skipn n l) = true); [|congruence].
      apply existsb_exists. exists (Some o). split; [|reflexivity]. rewrite <- En. replace i with (n + (i - n))%nat by lia. rewrite <- nth_skipn'.
      apply nth_In. rewrite skipn_length. destruct (le_lt_dec (length l) i); [rewrite nth_overflow in En by assumption; discriminate|lia]. }
  unfold setup_mat. split.
  - intros [m E] l i Hl Hi. apply NM. apply mapM_ok in E.
    assert (exists y, setup_row (num_objs ls) l = Ok y) as [y Ey].
    { revert E Hl. generalize (num_objs ls). clear. intros n E Hl. induction E as [|a b ls ys H1 H2 IH]; [destruct Hl|]. destruct Hl as [<-|Hl]; eauto. }
    apply (proj1 (SR l (num_objs ls))); [eauto|exact Hi].
  - intros H. apply mapM_all_ok. intros l Hl. apply SR. intros i Hi. apply NM. eapply H; eassumption.
Qed.

(** C74: with p = 1 the tracker's OSPA is a metric on finite sets: triangle
    inequality, and value 0 only for equal sets (any p). *)
Theorem C74_ospa_triangle : forall dim inv det lsa X Y Z c ue me tcov ecov r1 r2 r3 me1 me2 me3 c1 c2 c3 t,
  lsa_ok lsa -> norm_core me -> 0 <= c ->
  calculate_ospa dim inv det lsa X Y c 1 ue me tcov ecov = Ok (r1, me1, c1) ->
  calculate_ospa dim inv det lsa Y Z c 1 ue me tcov ecov = Ok (r2, me2, c2) ->
  calculate_ospa dim inv det lsa X Z c 1 ue me tcov ecov = Ok (r3, me3, c3) ->
  (t < length Y)%nat -> (t < length Z)%nat ->
  prefix_slots (nth t X []) -> prefix_slots (nth t Y []) -> prefix_slots (nth t Z []) ->
  ospa_val (nth t r3 (0, 0)) <= ospa_val (nth t r1 (0, 0)) + ospa_val (nth t r2 (0, 0)).
Proof.
  intros dim inv det lsa X Y Z c ue me tcov ecov r1 r2 r3 me1 me2 me3 c1 c2 c3 t L Hm Hc E1 E2 E3 Ht Ht' P1 P2 P3.
  pose proof (C26_ospa_prefix_slots_partial _ _ _ _ _ _ _ _ _ _ _ _ _ _ _ t L E1 Ht P1 P2) as H1.
  pose proof (C26_ospa_prefix_slots_partial _ _ _ _ _ _ _ _ _ _ _ _ _ _ _ t L E2 Ht' P2 P3) as H2.
  pose proof (C26_ospa_prefix_slots_partial _ _ _ _ _ _ _ _ _ _ _ _ _ _ _ t L E3 Ht' P1 P3) as H3.
  apply calc_ok in E1 as [-> [-> _]]. apply calc_ok in E2 as [-> [-> _]]. apply calc_ok in E3 as [-> [-> _]].
  pose proof (ospa_method_symm me tcov ecov Hm) as S. rewrite (symm_cut _ c S) in *.
  unfold ospa_val. eapply ospa_sets_triangle; [apply core_metric, S|exact Hc|exact H1|exact H2|exact H3].
Qed.
Theorem C74_ospa_zero_only_if_equal : forall dim inv det lsa est tru c p ue me tcov ecov r me' c' t,
  lsa_ok lsa -> norm_core me -> 0 < c -> (1 <= p)%nat ->
  calculate_ospa dim inv det lsa est tru c p ue me tcov ecov = Ok (r, me', c') -> (t < length tru)%nat ->
  prefix_slots (nth t est []) -> prefix_slots (nth t tru []) ->
  ospa_val (nth t r (0, 0)) = 0 ->
  let X := present (nth t est []) in let Y := present (nth t tru []) in
  length X = length Y /\ exists a, assignment (length X) (length Y) a /\
    forall i j x0 k, In (i, j) a -> (k < dim)%nat -> st (nth i X x0) k = st (nth j Y x0) k.
Proof.
  intros dim inv det lsa est tru c p ue me tcov ecov r me' c' t L Hm Hc Hp E Ht P1 P2 Hz X Y.
  pose proof (C26_ospa_prefix_slots_partial _ _ _ _ _ _ _ _ _ _ _ _ _ _ _ t L E Ht P1 P2) as H.
  apply calc_ok in E as [-> [-> _]]. pose proof (ospa_method_symm me tcov ecov Hm) as S. rewrite (symm_cut _ c S) in *.
  destruct (core_metric dim inv det _ S) as [Hd _].
  destruct (ospa_sets_zero _ _ _ _ _ _ _ Hd Hc Hp H Hz) as [HL [a [Ha Hx]]]. split; [exact HL|]. exists a. split; [exact Ha|].
  intros i j x0 k Hij Hk. eapply core_zero; [exact S|apply (Hx i j x0 Hij)|exact Hk].
Qed.

(** The contract of linear_sum_assignment is satisfiable and the hypotheses are
    met by non-trivial inputs. *)
Example lsa_contract_met : lsa_ok brute_lsa := brute_lsa_ok.
Example prefix_met : prefix_slots [Some (pt 1); Some (pt 2); None].
Proof. exists [pt 1; pt 2], 1%nat. reflexivity. Qed.
Example defined_met : exists r, calculate_ospa2 1 (fun A => A) (fun _ => 0) brute_lsa
    [[Some (pt 0); Some (pt 1)]; [None; Some (pt 1)]] [[Some (pt 0); None]; [Some (pt 0); None]] 2 2 5 2 2 (Some Manhattan) false false = Ok r.
Proof.
  apply C29_ospa2_defined_prefix_partial; [apply brute_lsa_ok|right; right; reflexivity|cbn; lia|].
  intros [|[|t]] Ht; [exists [pt 0], 1%nat; reflexivity..|cbn in Ht; lia].
Qed.

Print Assumptions C23_ospa_symmetric.
Print Assumptions C23_ospa2_symmetric.
Print Assumptions C24_ospa_bounds.
Print Assumptions C24_ospa_self_zero.
Print Assumptions C24_ospa_total.
Print Assumptions C25_ospa_le_cutoff_p1.
Print Assumptions C25_ospa_le_twice_cutoff.
Print Assumptions C25_ospa_le_cutoff_refuted.
Print Assumptions C26_ospa_slots_refuted.
Print Assumptions C26_ospa_prefix_slots_partial.
Print Assumptions C26_ospa_order_independent.
Print Assumptions C26_tracker_ospa_of_lists.
Print Assumptions C26_glmb_ospa_refuted.
Print Assumptions C27_mahalanobis_refuted.
Print Assumptions C27_mahalanobis_identity_partial.
Print Assumptions C28_ospa2_of_window.
Print Assumptions C28_ospa2_window_only.
Print Assumptions C28_window.
Print Assumptions C28_ospa2_bounds.
Print Assumptions C29_ospa2_total_refuted.
Print Assumptions C29_ospa2_defined_iff.
Print Assumptions C29_ospa2_defined_prefix_partial.
Print Assumptions C30_ospa_cardinality.
Print Assumptions C74_ospa_triangle.
Print Assumptions C74_ospa_zero_only_if_equal.
Print Assumptions C72_ospa_none_gap_refuted.
Print Assumptions C72_ospa_setup_iff.
