(** The joint GLMB filter: probabilities after correct. *)
From Verif Require Import Base Lists.
From Coq Require Import Reals Permutation Lra.
From Verif Require Import OspaModel CphdModel OspaProofs CphdSpec CphdProofs GlmbModel GlmbSpec GlmbProofs GlmbInv GlmbTotal GlmbProps GlmbBayes.
From Verif Require Import JglmbModel JglmbSpec JglmbProofs JglmbInv.
Open Scope R_scope.

Section B.
Context {FS ST CV MS : Type}.
Variable E : genv FS ST CV MS.
Variable G : sampler.
Notation entry := (entry FS ST CV).
Implicit Types (c : gcfg ST CV) (s : jst FS ST CV MS).

Lemma floor_pos x : 0 < floor_eps x.
Proof. unfold floor_eps. destruct (Rle_dec x 0); [unfold feps; apply Rinv_0_lt_compat, pow_lt; lra|lra]. Qed.
Lemma feps_pos : 0 < feps.
Proof. unfold feps. apply Rinv_0_lt_compat, pow_lt. lra. Qed.

(** the tracks *)
Lemma jtracks_view c (tab : list entry) h : (forall i, In i (tindices c h) -> (i < length tab)%nat) ->
  Forall2 (fun i e => nth_error tab i = Some e) (tindices c h) (jtracks (length (c_births c)) tab h).
Proof.
  set (nb := length (c_births c)). intros Hr. unfold tindices in *. fold nb in Hr |- *. unfold jtracks.
  assert (Hnb : (nb <= length tab)%nat). { destruct nb as [|k]; [lia|]. assert (Hk : In k (seq 0 (S k) ++ map (fun x => (S k + x)%nat) (h_ts h))) by (apply in_or_app; left; apply in_seq; lia). specialize (Hr k Hk). lia. }
  apply Forall2_app.
  - assert (Hgo : forall l (pre : list entry) st, length pre = st -> Forall2 (fun i e => nth_error (pre ++ l) i = Some e) (seq st (length l)) l).
    { induction l as [|e l IH]; intros pre st Hp; [constructor|]. cbn [length seq]. constructor.
      - rewrite nth_error_app2, Hp, Nat.sub_diag by lia. reflexivity.
      - specialize (IH (pre ++ [e]) (S st)). rewrite <- app_assoc in IH. apply IH. rewrite app_length, Hp. cbn. lia. }
    specialize (Hgo (firstn nb tab) [] 0%nat eq_refl). rewrite firstn_length, Nat.min_l in Hgo by exact Hnb.
    eapply F2_impl; [|exact Hgo]. intros i e _ Hi. cbn [app] in Hi. rewrite <- (firstn_skipn nb tab). rewrite nth_error_app1; [exact Hi|]. apply nth_error_Some. congruence.
  - assert (Hts : forall x, In x (h_ts h) -> (x < length (skipn nb tab))%nat).
    { intros x Hx. rewrite skipn_length. assert (Hi : In (nb + x)%nat (seq 0 nb ++ map (fun x => (nb + x)%nat) (h_ts h))) by (apply in_or_app; right; apply in_map_iff; eauto). specialize (Hr _ Hi). lia. }
    clear Hr. unfold tracks. revert Hts. induction (h_ts h) as [|x ts IH]; intros Hts; [constructor|]. cbn [map flat_map].
    specialize (Hts x (or_introl eq_refl)) as Hx. destruct (nth_error (skipn nb tab) x) as [e|] eqn:Ee; [|apply nth_error_None in Ee; lia]. cbn [app]. constructor.
    + rewrite <- (firstn_skipn nb tab), nth_error_app2 by (rewrite firstn_length; lia). rewrite firstn_length, Nat.min_l by exact Hnb. replace (nb + x - nb)%nat with x by lia. exact Ee.
    + apply IH. intros y Hy. apply Hts. right. exact Hy.
Qed.
Lemma avg_surv_pos c h r i : nth_error (tindices c h) r = Some i -> avg_surv c i = jsurv c r.
Proof.
  unfold tindices, avg_surv, jsurv. set (nb := length (c_births c)). intros H. destruct (Nat.lt_ge_cases r nb) as [Hr|Hr].
  - rewrite nth_error_app1 in H by (rewrite seq_length; exact Hr). apply (nth_error_nth _ _ 0%nat) in H. rewrite seq_nth in H by exact Hr. rewrite <- H. reflexivity.
  - rewrite nth_error_app2 in H by (rewrite seq_length; exact Hr). apply nth_error_In, in_map_iff in H as [x [<- _]].
    rewrite !nth_overflow; [reflexivity| |]; rewrite map_length; fold nb; lia.
Qed.
Lemma ac_lik c t meas (tab : list entry) i j e z : (forall z f x, In z meas -> v_corr E t z f x <> None) -> nth_error tab i = Some e -> nth_error meas j = Some z ->
  snd (gen_cor_tab E c t meas tab) i j = track_lik E t z e.
Proof.
  intros Hf He Hz. cbn [gen_cor_tab snd]. rewrite He, Hz. destruct (cor_entry_some E c t z e) as [e' [cost Ec]]; [intros f x; apply Hf, (nth_error_In _ _ Hz)|]. rewrite Ec.
  destruct (cor_entry_spec E c t z e e' cost Ec) as [rs [_ [-> _]]]. reflexivity.
Qed.
(** the cost matrix of one hypothesis *)
Lemma cost_factor c t meas (tab : list entry) h es r e v : (forall z f x, In z meas -> v_corr E t z f x <> None) ->
  NoDup (tindices c h) -> (forall i, In i (tindices c h) -> (i < length tab)%nat) ->
  Forall2 (fun i e => nth_error tab i = Some e) (tindices c h) es -> nth_error es r = Some e -> (v < 2 * length es + length meas)%nat ->
  floor_eps (joint_cost c (length tab) (length tab) (snd (gen_cor_tab E c t meas tab)) (nth r (tindices c h) 0%nat) (comb (length tab) (tindices c h) v)) =
  joint_factor E c t meas (length es) r e v.
Proof.
  intros Hf ND Hr HF He Hv. pose proof (F2_len _ _ _ HF) as Hl. destruct (F2_nth_r _ _ _ _ _ HF He) as [i [Hi Hie]].
  rewrite (nth_error_nth _ _ 0%nat Hi). pose proof (avg_surv_pos _ _ _ _ Hi) as Hs. set (n := length tab) in *. set (tind := tindices c h) in *.
  assert (Hin : (i < n)%nat) by (apply Hr, (nth_error_In _ _ Hi)).
  assert (Hrn : (r < length es)%nat) by (apply nth_error_Some; congruence).
  unfold joint_factor, comb, joint_cost. cbv zeta. rewrite Hl. set (nt := length es) in *.
  assert (Hcol : forall w, (w < nt)%nat -> (nth w tind 0 < n)%nat /\ (i = nth w tind 0%nat <-> w = r)).
  { intros w Hw. split; [apply Hr, nth_In; lia|]. split.
    - intros Hw2. rewrite NoDup_nth_error in ND. symmetry. apply ND; [lia|]. rewrite Hi. rewrite (nth_error_nth' tind 0%nat) by lia. congruence.
    - intros ->. symmetry. exact (nth_error_nth _ _ _ Hi). }
  destruct (Nat.ltb_spec v nt) as [H1|H1].
  - destruct (Hcol v H1) as [A B]. destruct (Nat.ltb_spec (nth v tind 0%nat) n) as [_|?]; [|lia].
    destruct (Nat.eqb_spec i (nth v tind 0%nat)) as [H2|H2]; destruct (Nat.eqb_spec v r) as [H3|H3]; try tauto.
    + rewrite Hs. reflexivity.
    + unfold floor_eps. destruct (Rle_dec 0 0); [reflexivity|lra].
  - destruct (Nat.ltb_spec v (2 * nt)) as [H2|H2].
    + destruct (Hcol (v - nt)%nat ltac:(lia)) as [A B]. destruct (Nat.ltb_spec (n + nth (v - nt) tind 0%nat) n) as [?|_]; [lia|].
      destruct (Nat.ltb_spec (n + nth (v - nt) tind 0%nat) (2 * n)) as [_|?]; [|lia]. replace (n + nth (v - nt) tind 0%nat - n)%nat with (nth (v - nt) tind 0%nat) by lia.
      destruct (Nat.eqb_spec i (nth (v - nt) tind 0%nat)) as [H4|H4]; destruct (Nat.eqb_spec v (nt + r)) as [H5|H5].
      * rewrite Hs. reflexivity.
      * exfalso. apply B in H4. lia.
      * exfalso. apply H4, B. lia.
      * unfold floor_eps. destruct (Rle_dec 0 0); [reflexivity|lra].
    + destruct (Nat.ltb_spec (2 * n + (v - 2 * nt)) n) as [?|_]; [lia|]. destruct (Nat.ltb_spec (2 * n + (v - 2 * nt)) (2 * n)) as [?|_]; [lia|].
      replace (2 * n + (v - 2 * nt) - 2 * n)%nat with (v - 2 * nt)%nat by lia.
      assert (Hz : exists z, nth_error meas (v - 2 * nt) = Some z). { destruct (nth_error meas (v - 2 * nt)) as [z|] eqn:Ez; [eauto|]. apply nth_error_None in Ez. lia. }
      destruct Hz as [z Hz]. rewrite Hz.
      assert (H0 : (if (n =? 1)%nat then 0%nat else i) = i) by (destruct (Nat.eqb_spec n 1); [lia|reflexivity]). rewrite H0.
      rewrite (ac_lik c t meas tab i (v - 2 * nt) e z Hf Hie Hz), Hs. reflexivity.
Qed.
Lemma jweight_exp c t meas (tab : list entry) h es row : (forall z f x, In z meas -> v_corr E t z f x <> None) ->
  NoDup (tindices c h) -> (forall i, In i (tindices c h) -> (i < length tab)%nat) ->
  Forall2 (fun i e => nth_error tab i = Some e) (tindices c h) es -> length row = length es -> (forall v, In v row -> (v < 2 * length es + length meas)%nat) ->
  exp (- rsum (map (fun rv => - ln (floor_eps (joint_cost c (length tab) (length tab) (snd (gen_cor_tab E c t meas tab)) (nth (fst rv) (tindices c h) 0%nat) (comb (length tab) (tindices c h) (snd rv))))) (combine (seq 0 (length es)) row))) =
  joint_weight E c t meas es row.
Proof.
  intros Hf ND Hr HF Hl Hv. set (cm := fun rv : nat * nat => floor_eps (joint_cost c (length tab) (length tab) (snd (gen_cor_tab E c t meas tab)) (nth (fst rv) (tindices c h) 0%nat) (comb (length tab) (tindices c h) (snd rv)))).
  change (fun rv : nat * nat => - ln (floor_eps _)) with (fun rv => - ln (cm rv)).
  replace (- rsum (map (fun rv => - ln (cm rv)) (combine (seq 0 (length es)) row))) with (rsum (map (fun rv => ln (cm rv)) (combine (seq 0 (length es)) row))).
  2:{ induction (combine (seq 0 (length es)) row) as [|x l IH]; [cbn; lra|]. cbn [map]. rewrite !rsum_cons, IH. lra. }
  rewrite exp_rsum. rewrite (rprod_ext _ cm) by (intros x _; apply exp_ln, floor_pos). unfold joint_weight. f_equal.
  assert (Hgo : forall (l : list entry) (row' : list nat) st, length row' = length l ->
     (forall r e v, nth_error l r = Some e -> nth_error row' r = Some v -> cm ((st + r)%nat, v) = joint_factor E c t meas (length es) (st + r) e v) ->
     map cm (combine (seq st (length l)) row') = map (fun rev => joint_factor E c t meas (length es) (fst rev) (fst (snd rev)) (snd (snd rev))) (combine (seq st (length l)) (combine l row'))).
  { clear. induction l as [|e l IH]; intros [|v row'] st Hl H; try discriminate; [reflexivity|]. cbn [length seq combine map fst snd].
    pose proof (H 0%nat e v eq_refl eq_refl) as H0. rewrite Nat.add_0_r in H0. rewrite H0. f_equal. apply (IH row' (S st)).
    - now injection Hl.
    - intros r e0 v0 H1 H2. specialize (H (S r) e0 v0 H1 H2). replace (S st + r)%nat with (st + S r)%nat by lia. exact H. }
  apply Hgo; [exact Hl|]. intros r e v He Hrv. cbn [plus]. unfold cm. cbn [fst snd].
  apply (cost_factor c t meas tab h es r e v Hf ND Hr HF He). apply Hv, (nth_error_In _ _ Hrv).
Qed.

Definition jconst c (m : nat) : R := exp (- c_crate c) * (c_crate c * c_cden c) ^ m.
Lemma jcor_hyp_form c t meas (tab : list entry) ss call h l : gibbs_ok G -> gibbs_cost G -> gibbs_start G -> 0 < c_crate c * c_cden c ->
  (forall z f x, In z meas -> v_corr E t z f x <> None) -> NoDup (h_ts h) ->
  jcor_hyp G c (length tab) (length tab) (length meas) (snd (gen_cor_tab E c t meas tab)) ss call h = Ok l ->
  let es := jtracks (length (c_births c)) tab h in
  0 < h_p h /\ (forall i, In i (tindices c h) -> (i < length tab)%nat) /\
  exists rows, In (seq (length es) (length es)) rows /\ NoDup rows /\ (length rows <= S (Z.to_nat (roundR (INR (c_requ c) * sqrt (h_p h) / ss))))%nat /\
    (forall row, In row rows -> length row = length es /\ (forall v, In v row -> (v < 2 * length es + length meas)%nat) /\ NoDup row) /\
    map (fun x => (exp (h_p x), h_ts x)) l = map (fun row => (jconst c (length meas) * (h_p h * joint_weight E c t meas es row), decode (length tab) (tindices c h) row)) rows.
Proof.
  intros Hg Hgc Hgs Hcl Hf Hnd H es. unfold jcor_hyp in H. cbn zeta in H. destruct (forallb _ _) eqn:Ef; cbn [negb] in H; [|discriminate].
  assert (Hr : forall i, In i (tindices c h) -> (i < length tab)%nat).
  { intros i Hin. rewrite forallb_forall in Ef. apply Ef in Hin. apply andb_prop in Hin as [H1 H2]. apply Nat.ltb_lt in H1. exact H1. }
  pose proof (jtracks_view c tab h Hr) as HF. fold es in HF. pose proof (F2_len _ _ _ HF) as Hl.
  rewrite Hl in H.
  apply bind_ok in H as [[rows costs] [E1 H]]. apply bind_ok in H as [lcl [L1 H]]. apply bind_ok in H as [lw [L2 H]]. injection H as <-.
  unfold lnp in L1, L2. destruct (Rlt_dec 0 (c_crate c * c_cden c)); [|contradiction]. destruct (Rlt_dec 0 (h_p h)) as [Hp|]; [|discriminate]. injection L1 as <-. injection L2 as <-. split; [exact Hp|]. split; [exact Hr|].
  set (nt := length es) in *. set (m' := (2 * nt + (if (nt =? 0)%nat then 0 else length meas))%nat) in *.
  assert (Hm' : (2 * nt <= m')%nat) by (unfold m'; lia). assert (Hmm : (m' <= 2 * nt + length meas)%nat) by (unfold m'; destruct (nt =? 0)%nat; lia).
  match type of E1 with G _ _ _ ?C ?it = _ => set (cost := C) in *; set (iters := it) in * end. assert (Hit : (1 <= iters)%nat) by (unfold iters; lia).
  destruct (Hg _ _ _ _ _ _ _ Hm' Hit E1) as [_ [_ [NDr [Lr HR]]]].
  exists rows. split; [exact (Hgs _ _ _ _ _ _ _ Hm' Hit E1)|]. split; [exact NDr|]. split; [exact Lr|].
  assert (Hrow : forall row, In row rows -> length row = nt /\ (forall v, In v row -> (v < 2 * nt + length meas)%nat) /\ NoDup row).
  { intros row Hrow. destruct (HR row Hrow) as [A [B C]]. split; [exact A|]. split; [intros v Hv; specialize (B v Hv); lia|exact C]. }
  split; [exact Hrow|]. rewrite map_map. cbn [h_p h_ts].
  apply (combine_F2 (fun row x => (exp (- c_crate c + INR (length meas) * ln (c_crate c * c_cden c) + ln (h_p h) - x), decode (length tab) (tindices c h) row))).
  eapply F2_impl; [|exact (Hgc _ _ _ _ _ _ _ Hm' Hit E1)]. intros row x Hin ->. f_equal. destruct (Hrow row Hin) as [R1 [R2 _]].
  rewrite <- (jweight_exp c t meas tab h es row Hf (nd_tind _ _ Hnd) Hr HF R1 R2). fold nt.
  unfold Rminus. rewrite !exp_plus, (exp_ln _ Hp), exp_INR by exact Hcl. unfold jconst, cost. ring_simplify. reflexivity.
Qed.

(** the samples of all hypotheses *)
Lemma jcor_hyps_form c t meas (tab : list entry) call hs r : gibbs_ok G -> gibbs_cost G -> gibbs_start G -> 0 < c_crate c * c_cden c ->
  (forall z f x, In z meas -> v_corr E t z f x <> None) -> (forall h, In h hs -> NoDup (h_ts h)) ->
  jcor_hyps E G c (length tab) (length tab) (length meas) (snd (gen_cor_tab E c t meas tab)) call hs = Ok r ->
  exists K rr, 0 < K /\ Forall2 (fun h rows => rows_ok c (length meas) tab hs h rows /\ 0 < h_p h /\ (forall i, In i (tindices c h) -> (i < length tab)%nat)) hs rr /\
    map (fun x => (h_p x, h_ts x)) r = flat_map (fun hr => map (fun row => (K * (h_p (fst hr) * joint_weight E c t meas (jtracks (length (c_births c)) tab (fst hr)) row), decode (length tab) (tindices c (fst hr)) row)) (snd hr)) (combine hs rr).
Proof.
  intros Hg Hgc Hgs Hcl Hf Hnd H. unfold jcor_hyps in H. cbv zeta in H. apply bind_ok in H as [ll [El H]]. destruct (normalise_scale _ _ _ H) as [K [HK ->]].
  set (ss := rsum (map (fun h => sqrt (h_p h)) hs)) in El. set (nb := length (c_births c)) in *.
  assert (Hgo : forall hs1 call1 ll1, (forall h, In h hs1 -> NoDup (h_ts h)) ->
     mapM (fun ch => jcor_hyp G c (length tab) (length tab) (length meas) (snd (gen_cor_tab E c t meas tab)) ss (fst ch) (snd ch)) (combine (seq call1 (length hs1)) hs1) = Ok ll1 ->
     exists rr, Forall2 (fun h rows => rows_ok c (length meas) tab hs h rows /\ 0 < h_p h /\ (forall i, In i (tindices c h) -> (i < length tab)%nat)) hs1 rr /\
       map (fun x => (exp (h_p x), h_ts x)) (concat ll1) =
       flat_map (fun hr => map (fun row => (jconst c (length meas) * (h_p (fst hr) * joint_weight E c t meas (jtracks nb tab (fst hr)) row), decode (length tab) (tindices c (fst hr)) row)) (snd hr)) (combine hs1 rr)).
  { clear El H. induction hs1 as [|h hs1 IH]; intros call1 ll1 Hnd1 El; cbn [length seq combine mapM] in El.
    - injection El as <-. exists []. split; constructor.
    - apply bind_ok in El as [l [E1 El]]. apply bind_ok in El as [ll2 [E2 El]]. injection El as <-. cbn [fst snd] in E1.
      destruct (IH (S call1) ll2 (fun x Hx => Hnd1 x (or_intror Hx)) E2) as [rr [A B]].
      destruct (jcor_hyp_form c t meas tab ss call1 h l Hg Hgc Hgs Hcl Hf (Hnd1 h (or_introl eq_refl)) E1) as [Hp0 [Hr [rows [R1 [R2 [R3 [R4 R5]]]]]]].
      exists (rows :: rr). split.
      + constructor; [|exact A]. split; [|split; [exact Hp0|exact Hr]]. split; [exact R1|]. split; [exact R2|]. split; [exact R3|]. apply Forall_forall. intros row Hrow. exact (R4 row Hrow).
      + cbn [concat combine flat_map fst snd]. rewrite map_app, B, R5. reflexivity. }
  destruct (Hgo hs call ll Hnd El) as [rr [A B]]. exists (K * jconst c (length meas)), rr. split; [|split].
  - apply Rmult_lt_0_compat; [exact HK|]. unfold jconst. apply Rmult_lt_0_compat; [apply exp_pos|apply pow_lt; exact Hcl].
  - exact A.
  - rewrite map_map. cbn [h_p h_ts]. transitivity (map (fun x : R * list nat => (K * fst x, snd x)) (map (fun x => (exp (h_p x), h_ts x)) (concat ll))); [rewrite map_map; reflexivity|].
    rewrite B. rewrite !flat_map_concat_map, concat_map, map_map. f_equal. apply map_ext. intros [h rows]. rewrite map_map. apply map_ext. intros row. cbn [fst snd]. f_equal. ring.
Qed.

Lemma clean_length hs : (length (clean_predictions E hs) <= length hs)%nat.
Proof.
  unfold clean_predictions. rewrite map_length. assert (A : forall l acc, (length (fold_left (fun acc h => add_hyp (v_hash E (sort_nat (h_ts h))) h acc) l acc) <= length l + length acc)%nat); [|specialize (A hs []); cbn [length] in A; rewrite Nat.add_0_r in A; exact A].
  induction l as [|h l IH]; intros acc; cbn [fold_left length]; [lia|]. specialize (IH (add_hyp (v_hash E (sort_nat (h_ts h))) h acc)).
  assert (B : (length (add_hyp (v_hash E (sort_nat (h_ts h))) h acc) <= S (length acc))%nat); [|lia]. clear. generalize (v_hash E (sort_nat (h_ts h))) as k. intros k.
  induction acc as [|[k' h'] u IH]; cbn [add_hyp length]; [lia|]. destruct (k =? k')%Z; cbn [length]; lia.
Qed.
(** what a track set says about the table of candidates *)
Definition obs (cor : list (option entry)) (ts : list nat) : list (label * option nat) :=
  flat_map (fun i => match nth i cor None with Some e => [(e_label e, last (e_assoc e) None)] | None => [] end) ts.
Lemma obs_perm cor a b : Permutation a b -> Permutation (obs cor a) (obs cor b).
Proof. intros H. unfold obs. apply Permutation_flat_map. exact H. Qed.
Lemma said_obs cor hs h h' : In h hs -> In h' (reindex (nnz_inds cor hs) h) -> said (pick cor (nnz_inds cor hs)) h' = obs cor (h_ts h).
Proof.
  intros Hh Hr. pose proof (reindex_view cor hs h h' Hh Hr) as HF. unfold said, tracks, obs. set (tab' := pick cor (nnz_inds cor hs)) in *. clearbody tab'. clear Hh Hr.
  induction HF as [|i k ts ks [e [H1 H2]] _ IH]; [reflexivity|]. cbn [flat_map]. rewrite map_app, IH, H2, (nth_error_nth _ _ None H1). reflexivity.
Qed.
Lemma upd_said c t meas (e : entry) v nt e' : (nt <= v)%nat -> (1 <= nt)%nat -> upd_entry E c t meas e (assoc_of nt v) = Some e' ->
  (e_label e', last (e_assoc e') None) = if (v <? 2 * nt)%nat then (e_label e, None) else (e_label e, Some (v - 2 * nt)%nat).
Proof.
  intros Hv Hnt U. unfold assoc_of in U. destruct (Nat.ltb_spec v (2 * nt)) as [H|H].
  - replace (v - (2 * nt - 1))%nat with 0%nat in U by lia. cbn [upd_entry] in U. injection U as <-. cbn [add_assoc e_label e_assoc]. rewrite last_last. reflexivity.
  - replace (v - (2 * nt - 1))%nat with (S (v - 2 * nt))%nat in U by lia. pose proof (upd_label _ _ _ _ _ _ _ U) as [L1 _]. cbn [upd_entry] in U.
    destruct (nth_error meas (v - 2 * nt)) as [z|]; [|discriminate]. destruct (cor_entry E c t z e) as [[e1 x]|] eqn:Ec; [|discriminate]. injection U as <-.
    rewrite L1. cbn [add_assoc e_assoc]. rewrite last_last. reflexivity.
Qed.
Lemma obs_outcome c t meas (tab : list entry) tind es row : (forall z f x, In z meas -> v_corr E t z f x <> None) ->
  Forall2 (fun i e => nth_error tab i = Some e) tind es -> row_ok (length es) (length meas) row ->
  obs (fst (gen_cor_tab E c t meas tab)) (decode (length tab) tind row) = joint_outcome es row.
Proof.
  intros Hf HF [Hl [Hv _]]. pose proof (F2_len _ _ _ HF) as HL. rewrite decode_live, HL. unfold joint_outcome. set (nt := length es) in *. unfold obs, live.
  assert (Hnt : forall x, In x tind -> (1 <= nt)%nat) by (intros x Hx; rewrite <- HL; destruct tind; [destruct Hx|cbn; lia]).
  assert (Hlr : length row = length tind) by lia. clearbody nt. clear Hl HL. revert row Hv Hnt Hlr.
  induction HF as [|i e ti es1 Hie _ IH]; intros row Hv Hnt Hlr; destruct row as [|v row]; try discriminate; [reflexivity|].
  assert (IHr : flat_map (fun i => match nth i (fst (gen_cor_tab E c t meas tab)) None with Some e => [(e_label e, last (e_assoc e) None)] | None => [] end)
            (map (fun iv => (fst iv + length tab * assoc_of nt (snd iv))%nat) (filter (fun iv => (nt <=? snd iv)%nat) (combine ti row))) =
          flat_map (fun ev => let '(e, v) := ev in if (v <? nt)%nat then [] else if (v <? 2 * nt)%nat then [(e_label e, None)] else [(e_label e, Some (v - 2 * nt)%nat)]) (combine es1 row)).
  { apply IH; [intros w Hw; apply Hv; right; exact Hw|intros x Hx; apply (Hnt x); right; exact Hx|now injection Hlr]. }
  cbn [combine filter snd]. cbn [flat_map]. specialize (Hnt i (or_introl eq_refl)). specialize (Hv v (or_introl eq_refl)).
  destruct (Nat.leb_spec nt v) as [H|H]; destruct (Nat.ltb_spec v nt) as [H'|H']; try lia; [|rewrite IHr; reflexivity].
  cbn [map flat_map fst snd]. rewrite IHr. f_equal.
  assert (Ha : (assoc_of nt v <= length meas)%nat) by (unfold assoc_of; lia).
  destruct (upd_some E c t meas e _ Hf Ha) as [e' He']. rewrite (nth_error_nth _ _ None (eq_trans (cor_tab_nth E c t meas tab i (assoc_of nt v) e Hie Ha) (f_equal Some He'))).
  rewrite (upd_said c t meas e v nt e' H Hnt He'). destruct (v <? 2 * nt)%nat; reflexivity.
Qed.
Lemma jcorrect_mass gt c t meas s s' : gibbs_ok G -> gibbs_cost G -> gibbs_start G -> hash_ok (v_hash E) -> 0 < c_crate c * c_cden c ->
  (forall z f x, In z meas -> v_corr E t z f x <> None) -> (forall h, In h (g_hyps (y_g s)) -> NoDup (h_ts h)) ->
  length (g_tab (y_g s)) = (length (c_births c) + y_old s)%nat -> jcorrect E G gt c t meas s = Ok s' ->
  exists K rr, 0 < K /\ Forall2 (rows_ok c (length meas) (g_tab (y_g s)) (g_hyps (y_g s))) (g_hyps (y_g s)) rr /\
    (forall h, In h (g_hyps (y_g s)) -> 0 < h_p h) /\ (length (g_hyps (y_g s')) <= list_sum (map (@length _) rr))%nat /\
    forall f, (forall a b, Permutation a b -> f a = f b) ->
      mass (fun h => f (said (g_tab (y_g s')) h)) (g_hyps (y_g s')) = K * sampled_total E c t meas (g_tab (y_g s)) (g_hyps (y_g s)) rr f.
Proof.
  intros Hg Hgc Hgs Hh Hcl Hf Hnd Hlen H. destruct (jcorrect_inv _ _ _ _ _ _ _ _ H) as [hs X]. cbn zeta in X. destruct X as [_ [_ [Eg [Et [Eh _]]]]].
  rewrite <- Hlen in Eg. set (tab := g_tab (y_g s)) in *. set (cor := fst (gen_cor_tab E c t meas tab)) in *. set (cp := clean_predictions E hs) in *.
  destruct (jcor_hyps_form c t meas tab _ _ _ Hg Hgc Hgs Hcl Hf Hnd Eg) as [K [rr [HK [HF Hr]]]]. exists K, rr. split; [exact HK|].
  split; [eapply F2_impl; [|exact HF]; intros h rows _ [A _]; exact A|].
  split; [intros h Hh0; apply In_nth_error in Hh0 as [k Hk]; destruct (F2_nth_l _ _ _ _ _ HF Hk) as [rows [_ [_ [A _]]]]; exact A|].
  assert (Hlen1 : (length (g_hyps (y_g s')) <= length hs)%nat).
  { rewrite Eh. transitivity (length cp); [|unfold cp; apply clean_length].
    clear. generalize (nnz_inds cor cp) as nnz. intros nnz. induction cp as [|h l IH]; [cbn; lia|]. cbn [flat_map]. rewrite app_length. unfold reindex at 1. destruct (all_some _); cbn [length]; lia. }
  split.
  { etransitivity; [exact Hlen1|]. apply (f_equal (@length _)) in Hr. rewrite map_length in Hr. rewrite Hr. clear Hr. induction HF as [|h rows hl rl _ _ IH]; [cbn; lia|].
    cbn [combine flat_map map fst snd list_sum fold_right]. rewrite app_length, map_length. unfold list_sum in IH. lia. }
  intros f Hp.
  assert (Hall : forall h, In h cp -> exists h', reindex (nnz_inds cor cp) h = [h']).
  { intros h Hhc. apply reindex_all; [exact Hhc|]. intros i Hi. destruct (clean_in _ _ _ Hhc) as [h2 [Hh2 E2]].
    destruct (jcor_hyps_in _ _ _ _ _ _ _ _ _ _ _ Hg Eg Hh2) as [h0 [row [_ [HB [Lr [_ [HR Hts]]]]]]]. rewrite <- E2, Hts, decode_live in Hi.
    apply in_map_iff in Hi as [[k v] [<- Hkv]]. cbn [fst snd]. apply filter_In in Hkv as [Hkv _].
    pose proof (proj1 (HB k (in_combine_l _ _ _ _ Hkv))) as Hk. pose proof (HR v (in_combine_r _ _ _ _ Hkv)) as Hv.
    assert (Ha : (assoc_of (length (tindices c h0)) v <= length meas)%nat) by (unfold assoc_of; lia).
    destruct (nth_error tab k) as [e|] eqn:Ee; [|apply nth_error_None in Ee; lia].
    destruct (upd_some E c t meas e _ Hf Ha) as [e' He']. exists e'. unfold cor. rewrite (cor_tab_nth E c t meas _ _ _ _ Ee Ha), He'. reflexivity. }
  transitivity (mass (fun h => f (obs cor (h_ts h))) cp).
  { rewrite Eh, Et. fold cor. rewrite !mass_if. set (nnz := nnz_inds cor cp).
    assert (Hgo : forall l, (forall h, In h l -> In h cp) -> rsum (map (fun h => if f (said (pick cor nnz) h) then h_p h else 0) (flat_map (reindex nnz) l)) =
              rsum (map (fun h => if f (obs cor (h_ts h)) then h_p h else 0) l)); [|apply Hgo; auto].
    induction l as [|h l IH]; intros Hsub; [reflexivity|]. cbn [flat_map]. destruct (Hall h (Hsub h (or_introl eq_refl))) as [h' Eh']. fold nnz in Eh'. rewrite Eh'. cbn [app map]. rewrite !rsum_cons.
    rewrite IH; [|intros x Hx; apply Hsub; right; exact Hx]. f_equal.
    assert (Hi : In h' (reindex nnz h)) by (rewrite Eh'; left; reflexivity). unfold nnz in Hi |- *. rewrite (said_obs cor cp h h' (Hsub h (or_introl eq_refl)) Hi).
    apply reindex_in in Hi as [-> _]. reflexivity. }
  unfold cp. rewrite (C51_merge_preserves_mass E (fun ts => f (obs cor ts)) hs Hh) by (intros a b Hab; apply Hp, obs_perm, Hab).
  rewrite mass_if.
  transitivity (rsum (map (fun x : R * list nat => if f (obs cor (snd x)) then fst x else 0) (map (fun x => (h_p x, h_ts x)) hs))); [rewrite map_map; reflexivity|].
  rewrite Hr. unfold sampled_total. clear Hr Hlen1 Hall Eh Et Eg. clearbody cp. revert HF. generalize (g_hyps (y_g s)) at 2 3 4 as l. intros l HF.
  induction HF as [|h rows hl rl [Hrows [_ Hti]] _ IH]; [cbn [combine flat_map map]; change (rsum []) with 0; ring|].
  cbn [combine flat_map map fst snd]. rewrite map_app, rsum_app, rsum_cons, IH, Rmult_plus_distr_l. f_equal. rewrite map_map. cbn [fst snd].
  pose proof (jtracks_view c tab h Hti) as HV. destruct Hrows as [_ [_ [_ HR]]]. cbv zeta in HR. rewrite Forall_forall in HR. rewrite <- rsum_scale. apply rsum_ext. intros row Hrow.
  unfold cor. rewrite (obs_outcome c t meas tab _ _ row Hf HV (HR row Hrow)). destruct (f _); ring.
Qed.
End B.
