(** The joint GLMB filter: the intended cycle never raises, and what happens
    outside the intended use. *)
From Verif Require Import Base Lists.
From Coq Require Import Reals Permutation Lra.
From Verif Require Import OspaModel CphdModel OspaProofs CphdSpec CphdProofs GlmbModel GlmbSpec GlmbProofs GlmbInv GlmbExtract GlmbMost GlmbTotal GlmbProps.
From Verif Require Import JglmbModel JglmbSpec JglmbProofs JglmbInv GibbsReal JglmbGibbs JglmbProps.
Open Scope R_scope.

Section T.
Context {FS ST CV MS : Type}.
Variable E : genv FS ST CV MS.
Variable G : sampler.
Implicit Types (c : gcfg ST CV) (s : jst FS ST CV MS) (g : glmb FS ST CV MS).

Definition JCInv c ph s : Prop := JPInv ph s /\ (forall e, In e (g_tab (y_g s)) -> shape c e) /\ (forall x, In x (g_ext (y_g s)) -> xlen ph (g_cnt (y_g s)) x).
Lemma jcinv_new c : JCInv c 0 jst_new.
Proof. split; [apply jpinv_new|]. split; [intros e []|intros x []]. Qed.
Lemma jcinv_predict c t s s' : births_ok c -> jpredict E c t s = Ok s' -> JCInv c 0 s -> JCInv c 1 s'.
Proof.
  intros HB H [HP [HS HX]]. split; [exact (jpinv_predict E _ _ _ _ H HP)|]. destruct (jpredict_inv _ _ _ _ _ H) as [A [_ [_ [Ec [Ex _]]]]]. split.
  - intros e' He'. rewrite A in He'. apply in_app_or in He' as [He'|He'].
    + unfold jbirth_tab in He'. apply in_map_iff in He' as [[i [b p]] [<- Hi]]. cbn [fst snd]. apply in_combine_r in Hi. exact (shape_birth E c t _ i b p HB Hi).
    + apply in_map_iff in He' as [e [<- He]]. destruct HP as [HL _]. exact (shape_pred E c t e _ _ (HL e He) (HS e He)).
  - rewrite Ec, Ex. intros x Hx. destruct (HX x Hx) as [X1 [X2 X3]]. repeat split; auto. cbn in *. lia.
Qed.
Lemma jcinv_correct gt c t meas s s' : gibbs_ok G -> jcorrect E G gt c t meas s = Ok s' -> JCInv c 1 s -> JCInv c 2 s' /\ y_old s' = length (g_tab (y_g s')).
Proof.
  intros Hg H [HP [HS HX]]. destruct (jcorrect_inv _ _ _ _ _ _ _ _ H) as [hs X]. cbn zeta in X. destruct X as [_ [_ [_ [_ [_ [_ [Ec [Ex [_ [Eo _]]]]]]]]]].
  split; [|exact Eo]. split; [exact (jpinv_correct E G _ _ _ _ _ _ Hg H HP)|]. split.
  - intros e' He'. destruct (jcorrect_tab_in _ _ _ _ _ _ _ _ _ H He') as [e [a [He U]]]. destruct HP as [HL _]. exact (shape_upd E c t meas e a e' _ _ (HL e He) (HS e He) U).
  - rewrite Ec, Ex. exact HX.
Qed.
Lemma jc_cinv c ph s : JCInv c ph s -> y_old s = length (g_tab (y_g s)) -> CInv c ph (y_g s).
Proof. intros [[HL HI] [HS HX]] Ho. split; [split; [exact HL|exact (jinv_full _ _ HI Ho)]|]. split; assumption. Qed.
Lemma c_jcinv c ph g n : CInv c ph g -> length (g_tab g) = y_old n -> JCInv c ph (with_g n g).
Proof.
  intros [[HL HI] [HS HX]] Ho. split; [split; [exact HL|]|split; assumption]. exists [], (g_tab g). cbn [with_g y_g y_old app].
  split; [reflexivity|]. split; [exact Ho|]. split; [exact HI|]. split; [intros i j x y _ Hi; destruct i; discriminate|intros x y []].
Qed.
Lemma cinv_cleaned c pr ca g : CInv c 2 g -> CInv c 0 (cleaned E c pr ca g).
Proof.
  intros [[HL HI] [HS HX]]. destruct (cleaned_inv E c pr ca g) as [A [B [C D]]]. split; [split|split].
  - rewrite A, B. exact HL.
  - apply cleaned_hinv, HI.
  - rewrite A. exact HS.
  - rewrite B, C. exact HX.
Qed.
Lemma cleanup_total c pr ca ex g : CInv c 2 g -> g_card g <> [] -> exists g', cleanup E c pr ca ex g = Ok g' /\ CInv c 0 g'.
Proof.
  intros HC Hcard. pose proof (cinv_cleaned c pr ca g HC) as HC3. set (g3 := cleaned E c pr ca g) in *.
  change (cleanup E c pr ca ex g) with (if ex then do (_, s4) <- extract_states c true true g3; Ok s4 else Ok g3).
  destruct ex; [|eauto].
  assert (Hc3 : g_card g3 <> []) by (apply (card_exec E c (OpCleanup pr ca false) g g3 eq_refl); right; exact Hcard).
  destruct (g_hyps g3) as [|h0 hs0] eqn:Eh.
  - destruct (extract_none c true true g3 Hc3 Eh) as [s4 E4]. rewrite E4. cbn [bind]. exists s4. split; [reflexivity|exact (cinv_extract _ _ _ _ _ _ _ E4 HC3)].
  - assert (HE : Extractable c g3).
    { destruct HC3 as [[HL HI] [HS HX]]. split; [exact Hc3|]. split; [congruence|]. split; [eapply hinv_refs; exact HI|]. split; [intros e He; split; auto|exact HX]. }
    destruct (extract_ok c true true g3 HE) as [i [s4 E4]]. rewrite E4. cbn [bind]. exists s4. split; [reflexivity|exact (cinv_extract _ _ _ _ _ _ _ E4 HC3)].
Qed.
Lemma jcor_hyp_total c n m ac ss call h : gibbs_total G -> 0 < c_crate c * c_cden c -> 0 < h_p h -> (forall i, In i (tindices c h) -> (i < n)%nat) ->
  exists l, jcor_hyp G c n n m ac ss call h = Ok l.
Proof.
  intros Hg Hcl Hp Hr. unfold jcor_hyp. cbn zeta. replace (forallb _ (tindices c h)) with true.
  2:{ symmetry. apply forallb_forall. intros i Hi. specialize (Hr i Hi). apply Nat.ltb_lt in Hr. rewrite Hr. reflexivity. }
  cbn [negb]. match goal with |- context[G ?a ?b ?d ?e ?f] => destruct (Hg a b d e f) as [[rows costs] Er]; [lia|lia|rewrite Er] end. cbn [bind].
  rewrite (lnp_ok _ Hcl), (lnp_ok _ Hp). cbn [bind]. eauto.
Qed.
Lemma jcorrect_total c t meas s : gibbs_total G -> 0 < c_crate c * c_cden c -> (g_hyps (y_g s) = [] -> v_lse0 E = Ok tt) -> gibbs_ok G ->
  (forall h, In h (g_hyps (y_g s)) -> 0 < h_p h) -> length (g_tab (y_g s)) = (length (c_births c) + y_old s)%nat ->
  (forall h i, In h (g_hyps (y_g s)) -> In i (h_ts h) -> (i < y_old s)%nat) ->
  exists s', jcorrect E G false c t meas s = Ok s'.
Proof.
  intros Hg Hcl Hl Hok Hp Hn Hr. unfold jcorrect. cbn zeta. rewrite <- Hn, Nat.eqb_refl. cbn [orb negb andb].
  destruct (gen_cor_tab E c t meas (g_tab (y_g s))) as [tab ac].
  assert (Hj : exists hs, jcor_hyps E G c (length (g_tab (y_g s))) (length (g_tab (y_g s))) (length meas) ac (y_calls s) (g_hyps (y_g s)) = Ok hs).
  { unfold jcor_hyps. cbn zeta. match goal with |- context[mapM ?f ?l] => destruct (mapM_all_ok f l) as [ll Ell] end.
    - intros [call h] Hch. cbn [fst snd]. apply in_combine_r in Hch. apply jcor_hyp_total; auto. intros i Hi. unfold tindices in Hi. apply in_app_or in Hi as [Hi|Hi].
      + apply in_seq in Hi. lia.
      + apply in_map_iff in Hi as [x [<- Hx]]. specialize (Hr h x Hch Hx). lia.
    - rewrite Ell. cbn [bind]. destruct (concat ll) as [|h0 l0] eqn:Ec.
      + apply normalise_total. apply Hl. destruct (g_hyps (y_g s)) as [|h hs]; [reflexivity|exfalso].
        cbn [length seq combine mapM] in Ell. apply bind_ok in Ell as [l [E2 Ell]]. apply bind_ok in Ell as [ls [_ Ell]]. injection Ell as <-.
        cbn [fst snd] in E2. apply (jcor_hyp_nonempty _ _ _ _ _ _ _ _ _ _ Hok) in E2. cbn [concat] in Ec. destruct l; [congruence|discriminate].
      + apply normalise_total'. discriminate. }
  destruct Hj as [hs Ej]. rewrite Ej. cbn [bind]. destruct (clean_updates tab (clean_predictions E hs)). eauto.
Qed.
Lemma jpredict_total c t s : (forall b p, In (b, p) (c_births c) -> p <> 1) -> exists s', jpredict E c t s = Ok s'.
Proof.
  intros H. unfold jpredict. destruct (mapM_all_ok (fun b : bdist ST CV * R => if Req_EM_T (snd b) 1 then Err ValueErr else Ok tt) (c_births c)) as [ys Ey].
  - intros [b p] Hb. cbn [snd]. destruct (Req_EM_T p 1) as [->|]; [exfalso; exact (H _ _ Hb eq_refl)|eauto].
  - rewrite Ey. cbn [bind]. eauto.
Qed.
Lemma jcorrect_pos gt c t meas s s' : jcorrect E G gt c t meas s = Ok s' -> forall h, In h (g_hyps (y_g s')) -> 0 < h_p h.
Proof.
  intros H h Hh. destruct (jcorrect_inv _ _ _ _ _ _ _ _ H) as [hs [_ [_ [Eg [_ [Eh _]]]]]]. rewrite Eh in Hh. apply in_flat_map in Hh as [h0 [H0 H1]].
  apply reindex_in in H1 as [-> _]. assert (Hne : hs <> []) by (intros ->; destruct H0).
  apply (clean_pred_dist E _ (jcor_hyps_dist _ _ _ _ _ _ _ _ _ _ Eg Hne)), H0.
Qed.
Definition JRInv c s : Prop := JCInv c 0 s /\ y_old s = length (g_tab (y_g s)) /\ (forall h, In h (g_hyps (y_g s)) -> 0 < h_p h).
Lemma jcycle_total c x s : cfg_ok c -> births_ok c -> gibbs_ok G -> gibbs_total G -> v_lse0 E = Ok tt -> rsorts (v_argsort E) -> JRInv c s ->
  exists s', jrun E G false c (cycle x) s = Ok s' /\ JRInv c s'.
Proof.
  destruct x as [[t meas] [[pr ca] ex]]. intros Hc Hb Hok Hgt Hl Hs [HC [Ho HP]].
  destruct (jpredict_total c t s) as [s1 E1]; [intros b p Hbp; destruct Hc as [Hc _]; specialize (Hc b p Hbp); lra|].
  pose proof (jcinv_predict _ _ _ _ Hb E1 HC) as HC1. destruct (jpredict_inv _ _ _ _ _ E1) as [T1 [H1 [_ [_ [_ [_ [O1 _]]]]]]].
  destruct (jcorrect_total c t meas s1 Hgt) as [s2 E2]; auto.
  { destruct Hc as [_ [_ [_ [A B]]]]. apply Rmult_lt_0_compat; assumption. }
  { rewrite H1. exact HP. }
  { rewrite T1, app_length, jbirth_len, map_length, O1, Ho. reflexivity. }
  { rewrite H1, O1, Ho. destruct (jc_cinv _ _ _ HC Ho) as [[_ HI] _]. intros h i Hh Hi. exact (hinv_refs _ _ _ HI h i Hh Hi). }
  destruct (jcinv_correct _ _ _ _ _ _ Hok E2 HC1) as [HC2 O2]. pose proof (jcorrect_pos _ _ _ _ _ _ E2) as HP2.
  destruct (cleanup_total c pr ca ex (y_g s2) (jc_cinv _ _ _ HC2 O2)) as [g3 [E3 HC3]].
  { destruct (jcorrect_inv _ _ _ _ _ _ _ _ E2) as [hs X]. cbn zeta in X. destruct X as [_ [_ [_ [_ [_ [Ec _]]]]]]. rewrite Ec. apply calc_card_ne. }
  destruct (cleanup_inv _ _ _ _ _ _ _ E3) as [T3 [_ [_ [Eh _]]]]. exists (with_g s2 g3). split.
  - cbn [cycle jrun jexec]. rewrite E1. cbn [bind]. rewrite E2. cbn [bind]. rewrite E3. reflexivity.
  - split; [apply c_jcinv; [exact HC3|rewrite T3; symmetry; exact O2]|]. cbn [with_g y_g y_old]. split; [rewrite T3; exact O2|].
    rewrite Eh. apply cleaned_pos; assumption.
Qed.
Lemma jcycles_total c xs : cfg_ok c -> births_ok c -> gibbs_ok G -> gibbs_total G -> v_lse0 E = Ok tt -> rsorts (v_argsort E) ->
  exists s', jrun E G false c (flat_map cycle xs) jst_new = Ok s' /\ JRInv c s'.
Proof.
  intros Hc Hb Hok Hgt Hl Hs.
  assert (H : forall xs s, JRInv c s -> exists s', jrun E G false c (flat_map cycle xs) s = Ok s' /\ JRInv c s').
  { induction xs0 as [|x xs0 IH]; intros s HR; [exists s; split; [reflexivity|exact HR]|]. cbn [flat_map]. rewrite jrun_app.
    destruct (jcycle_total c x s Hc Hb Hok Hgt Hl Hs HR) as [s1 [E1 HR1]]. rewrite E1. cbn [bind]. apply IH, HR1. }
  apply H. split; [apply jcinv_new|]. split; [reflexivity|]. intros h [<-|[]]. cbn. lra.
Qed.
End T.

(** * C100: the intended cycle (predict, correct, cleanup with any flags, with
    gating off) never raises, and extraction after it never raises, for all
    measurements, failures of the inner filter and random numbers. *)
Theorem C100_jglmb_cycle_total : forall {FS ST CV MS} (E : genv FS ST CV MS) rnd c xs,
  cfg_ok c -> births_ok c -> uniform rnd -> v_lse0 E = Ok tt -> rsorts (v_argsort E) ->
  exists s, jrun E (sampler_of rnd) false c (flat_map cycle xs) jst_new = Ok s /\
    (xs <> [] -> forall u k, exists s', jexec E (sampler_of rnd) false c (OpExtract u k) s = Ok s').
Proof.
  intros FS ST CV MS E rnd c xs Hc Hb Hr Hl Hs. destruct (sampler_ok rnd Hr) as [Hok Hgt].
  destruct (jcycles_total E _ c xs Hc Hb Hok Hgt Hl Hs) as [s [E1 HR]]. exists s. split; [exact E1|]. intros Hx u k.
  assert (Hcard : g_card (y_g s) <> []).
  { destruct (exists_last Hx) as [xs' [[[t meas] [[pr ca] ex]] ->]]. rewrite flat_map_app in E1. cbn [flat_map] in E1. rewrite app_nil_r, jrun_app in E1.
    apply bind_ok in E1 as [s1 [_ E1]]. cbn [cycle jrun jexec] in E1. apply bind_ok in E1 as [s2 [_ E1]]. apply bind_ok in E1 as [s3 [E3 E1]]. apply bind_ok in E1 as [s4 [E4 E1]].
    injection E1 as <-. apply bind_ok in E4 as [g4 [E4 X]]. injection X as <-. cbn [with_g y_g].
    apply (card_exec E c (OpCleanup pr ca ex) (y_g s3) g4); [cbn [exec]; exact E4|]. right.
    destruct (jcorrect_inv _ _ _ _ _ _ _ _ E3) as [hs X]. cbn zeta in X. destruct X as [_ [_ [_ [_ [_ [Ec _]]]]]]. rewrite Ec. apply calc_card_ne. }
  destruct HR as [HC [Ho _]]. pose proof (jc_cinv _ _ _ HC Ho) as [[HL HI] [HS HX]].
  cbn [jexec]. destruct (g_hyps (y_g s)) as [|h0 hs0] eqn:Eh.
  - destruct (extract_none c u k (y_g s) Hcard Eh) as [s4 E4]. rewrite E4. cbn [bind]. eauto.
  - assert (HE : Extractable c (y_g s)).
    { split; [exact Hcard|]. split; [congruence|]. split; [rewrite Eh; eapply hinv_refs; exact HI|]. split; [intros e He; split; auto|exact HX]. }
    destruct (extract_ok c u k (y_g s) HE) as [i [s4 E4]]. rewrite E4. cbn [bind]. eauto.
Qed.
Print Assumptions C100_jglmb_cycle_total.

(** * C101: gating.  With gating switched on correct always raises AttributeError
    after a predict with a birth term (the table then starts with new-born tracks,
    which were never given gatemeas): nothing is ever gated. *)
Theorem C101_gating_raises_refuted : forall {FS ST CV MS} (E : genv FS ST CV MS) G c t meas s,
  c_births c <> [] -> length (g_tab (y_g s)) = (length (c_births c) + y_old s)%nat -> jcorrect E G true c t meas s = Err AttributeErr.
Proof.
  intros FS ST CV MS E G c t meas s Hn Hl. unfold jcorrect. cbn zeta. rewrite <- Hl, Nat.eqb_refl. cbn [orb negb andb].
  destruct (g_tab (y_g s)) as [|e0 l]; [destruct (c_births c); [congruence|discriminate]|]. reflexivity.
Qed.
Print Assumptions C101_gating_raises_refuted.
(** In particular the first correct of every filter with a birth term. *)
Theorem C101_gating_first_cycle_refuted : forall {FS ST CV MS} (E : genv FS ST CV MS) G c t meas,
  c_births c <> [] -> (forall b p, In (b, p) (c_births c) -> p <> 1) -> jrun E G true c [OpPredict t; OpCorrect t meas] jst_new = Err AttributeErr.
Proof.
  intros FS ST CV MS E G c t meas Hn Hp. cbn [jrun jexec]. destruct (jpredict_total E c t (@jst_new FS ST CV MS) Hp) as [s1 E1]. rewrite E1. cbn [bind].
  destruct (jpredict_inv _ _ _ _ _ E1) as [T1 [_ [_ [_ [_ [_ [O1 _]]]]]]]. assert (Hl : length (g_tab (y_g s1)) = (length (c_births c) + y_old s1)%nat) by (rewrite T1, O1, app_length, jbirth_len; reflexivity).
  rewrite (C101_gating_raises_refuted E G c t meas s1 Hn Hl). reflexivity.
Qed.
Print Assumptions C101_gating_first_cycle_refuted.

(** * C102: order of calls.  Two predicts in a row make the next correct raise
    ValueError (shape mismatch), whatever cleanups and extractions happen in
    between, unless the filter has no birth term. *)
Theorem C102_second_predict_raises_refuted : forall {FS ST CV MS} (E : genv FS ST CV MS) rnd gt c os t1 t2 mid t meas s r,
  uniform rnd -> c_births c <> [] -> (forall t m, ~ In (OpPredict t) mid /\ ~ In (OpCorrect t m) mid) ->
  jrun E (sampler_of rnd) gt c (os ++ OpPredict t1 :: mid ++ [OpPredict t2]) jst_new = Ok s ->
  jexec E (sampler_of rnd) gt c (OpCorrect t meas) s = r -> r = Err ValueErr.
Proof.
  intros FS ST CV MS E rnd gt c os t1 t2 mid t meas s r Hr Hb Hmid H <-. apply uniform_ok in Hr. revert Hr H. generalize (sampler_of rnd) as G. intros G Hg H.
  rewrite jrun_app in H. apply bind_ok in H as [s0 [H0 H]]. cbn [jrun] in H. apply bind_ok in H as [s1 [H1 H]]. rewrite jrun_app in H. apply bind_ok in H as [s2 [H2 H]].
  cbn [jrun] in H. apply bind_ok in H as [s3 [H3 H]]. injection H as <-. cbn [jexec] in H1, H3 |- *.
  destruct (jpredict_inv _ _ _ _ _ H1) as [T1 [_ [_ [_ [_ [_ [O1 _]]]]]]]. destruct (jpredict_inv _ _ _ _ _ H3) as [T3 [_ [_ [_ [_ [_ [O3 _]]]]]]].
  assert (HM : g_tab (y_g s2) = g_tab (y_g s1) /\ y_old s2 = y_old s1).
  { clear -H2 Hmid. revert s1 H2. induction mid as [|o mid IH]; intros s1 H2; cbn [jrun] in H2; [injection H2 as <-; auto|]. apply bind_ok in H2 as [s4 [H4 H2]].
    assert (HE : g_tab (y_g s4) = g_tab (y_g s1) /\ y_old s4 = y_old s1).
    { apply jrest in H4. destruct o as [t|t m|pr ca ex|u k].
      - exfalso. apply (proj1 (Hmid t [])). left. reflexivity.
      - exfalso. apply (proj2 (Hmid t m)). left. reflexivity.
      - destruct H4 as [g' [-> [A _]]]. auto.
      - destruct H4 as [g' [-> [A _]]]. auto. }
    destruct (IH ltac:(intros t m; destruct (Hmid t m) as [A B]; split; intros X; [apply A|apply B]; right; exact X) s4 H2) as [A B]. destruct HE. split; congruence. }
  destruct HM as [M1 M2].
  assert (Hold : (y_old s0 <= length (g_tab (y_g s0)))%nat) by exact (proj2 (jinv_refs _ _ (jtrue_run E G _ _ _ _ _ Hg H0 (jinv_new _)))).
  assert (Hl : length (g_tab (y_g s3)) = (length (c_births c) + (length (c_births c) + length (g_tab (y_g s0))))%nat).
  { rewrite T3, app_length, jbirth_len, map_length, M1, T1, app_length, jbirth_len, map_length. reflexivity. }
  unfold jcorrect. cbn zeta. rewrite Hl, O3, M2, O1. assert (1 <= length (c_births c))%nat by (destruct (c_births c); [congruence|cbn; lia]).
  destruct (Nat.eqb_spec (length (c_births c) + y_old s0) (length (c_births c) + (length (c_births c) + length (g_tab (y_g s0))))); [lia|].
  destruct (Nat.eqb_spec (length (c_births c) + (length (c_births c) + length (g_tab (y_g s0)))) 1); [lia|]. reflexivity.
Qed.
Print Assumptions C102_second_predict_raises_refuted.
(** A second correct without a predict raises unless there is exactly one track. *)
Theorem C102_second_correct_raises_refuted : forall {FS ST CV MS} (E : genv FS ST CV MS) G gt c t meas t' meas' s s',
  c_births c <> [] -> jcorrect E G gt c t meas s = Ok s' -> length (g_tab (y_g s')) <> 1%nat -> jcorrect E G gt c t' meas' s' = Err ValueErr.
Proof.
  intros FS ST CV MS E G gt c t meas t' meas' s s' Hb H Hn. destruct (jcorrect_inv _ _ _ _ _ _ _ _ H) as [hs X]. cbn zeta in X.
  destruct X as [_ [_ [_ [_ [_ [_ [_ [_ [_ [Eo _]]]]]]]]]]. unfold jcorrect. cbn zeta. rewrite Eo.
  assert (1 <= length (c_births c))%nat by (destruct (c_births c); [congruence|cbn; lia]).
  destruct (Nat.eqb_spec (length (c_births c) + length (g_tab (y_g s'))) (length (g_tab (y_g s')))); [lia|].
  destruct (Nat.eqb_spec (length (g_tab (y_g s'))) 1); [contradiction|]. reflexivity.
Qed.
Print Assumptions C102_second_correct_raises_refuted.

(** * C103: between predict and correct the hypotheses refer to the wrong tracks:
    index i below the number of birth terms, which was track i, is now the i-th
    new-born track (with the label of this predict); the track itself is at index
    i + number of birth terms. *)
Theorem C103_predict_shifts_tracks_refuted : forall {FS ST CV MS} (E : genv FS ST CV MS) c t s s' i e,
  jpredict E c t s = Ok s' -> nth_error (g_tab (y_g s)) i = Some e ->
  g_hyps (y_g s') = g_hyps (y_g s) /\
  ((i < length (c_births c))%nat -> exists e', nth_error (g_tab (y_g s')) i = Some e' /\ e_label e' = (v_rnd E t, i) /\ e_time e' = g_cnt (y_g s) /\ e_assoc e' = []) /\
  nth_error (g_tab (y_g s')) (i + length (c_births c)) = Some (pred_entry E c t e).
Proof.
  intros FS ST CV MS E c t s s' i e H He. destruct (jpredict_inv _ _ _ _ _ H) as [T1 [H1 _]]. rewrite T1. split; [exact H1|]. split.
  - intros Hi. rewrite nth_error_app1 by (rewrite jbirth_len; exact Hi). destruct (nth_error (jbirth_tab E c t (g_cnt (y_g s))) i) as [e'|] eqn:Ee.
    + destruct (jbirth_nth _ _ _ _ _ _ Ee) as [b ->]. eexists. split; [reflexivity|]. cbn. auto.
    + apply nth_error_None in Ee. rewrite jbirth_len in Ee. lia.
  - rewrite nth_error_app2 by (rewrite jbirth_len; lia). rewrite jbirth_len, Nat.add_sub, nth_error_map, He. reflexivity.
Qed.
Print Assumptions C103_predict_shifts_tracks_refuted.
