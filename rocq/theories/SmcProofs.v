(** Invariants of the SMC-GLMB model. *)
From Verif Require Import Base Lists.
From Coq Require Import Reals Permutation Lra.
From Verif Require Import OspaModel CphdModel OspaProofs CphdSpec CphdProofs GlmbModel GlmbSpec GlmbProofs GlmbInv SmcModel SmcSpec.
Open Scope R_scope.

Lemma mapM_nth_l {A B} (f : A -> result B) l l' k a : mapM f l = Ok l' -> nth_error l k = Some a -> exists b, nth_error l' k = Some b /\ f a = Ok b.
Proof. intros H Hk. apply mapM_ok in H. destruct (F2_nth_l _ _ _ _ _ H Hk) as [b [H1 H2]]. eauto. Qed.
Lemma mapM_nth_r {A B} (f : A -> result B) l l' k b : mapM f l = Ok l' -> nth_error l' k = Some b -> exists a, nth_error l k = Some a /\ f a = Ok b.
Proof. intros H Hk. apply mapM_ok in H. destruct (F2_nth_r _ _ _ _ _ H Hk) as [a [H1 H2]]. eauto. Qed.
(** the list of lists of one length, flattened *)
Lemma concat_uniform {A} (ll : list (list A)) n : (forall l, In l ll -> length l = n) -> forall j i l x, nth_error ll j = Some l -> nth_error l i = Some x ->
  nth_error (concat ll) (i + n * j) = Some x.
Proof.
  induction ll as [|l0 ll IH]; intros H j i l x Hj Hi; [destruct j; discriminate|]. cbn [concat].
  assert (L0 : length l0 = n) by (apply H; left; reflexivity). destruct j as [|j].
  - cbn in Hj. injection Hj as <-. rewrite Nat.mul_0_r, Nat.add_0_r. rewrite nth_error_app1; [exact Hi|]. apply nth_error_Some. congruence.
  - cbn in Hj. rewrite nth_error_app2 by (rewrite L0; nia). rewrite L0. replace (i + n * S j - n)%nat with (i + n * j)%nat by nia.
    apply (IH (fun l Hl => H l (or_intror Hl)) j i l x Hj Hi).
Qed.

Section P.
Context {P X ST CV MS : Type}.
Variable Z : senv P X ST CV MS.
Notation pfs := (pfs P X).
Notation E := (z_g Z).
Notation entry := (entry pfs ST CV).
Notation gcfg := (gcfg ST CV).
Notation glmb := (glmb pfs ST CV MS).
Notation sop := (sop P MS).
Notation birth := (pfs * ST * CV * R)%type.
Implicit Types (c : gcfg) (s : glmb) (bs : list birth).

(** ** predict *)
Lemma spred_keep psf c t e e' : spred_entry Z psf c t e = Ok e' ->
  e_label e' = e_label e /\ e_assoc e' = e_assoc e /\ e_time e' = e_time e /\
  length (e_st e') = S (length (e_st e)) /\ length (e_w e') = S (length (e_w e)) /\ length (e_cov e') = S (length (e_cov e)).
Proof.
  unfold spred_entry. intros H. apply bind_ok in H as [rs [_ H]]. injection H as <-. cbn [e_label e_assoc e_time e_st e_w e_cov].
  rewrite !app_length. cbn [length]. repeat split; lia.
Qed.
Lemma spredict_inv psf c bs t s s' : spredict Z psf c bs t s = Ok s' -> exists lcost paths costs bh stab av sh,
  mapM (fun b => birth_cost (bprob b)) bs = Ok lcost /\ v_kshort E lcost (c_reqb c) = Ok (paths, costs) /\ sbirth_hyps Z bs paths costs = Ok bh /\
  mapM (spred_entry Z psf c t) (g_tab s) = Ok stab /\ mapM (avg_prob psf) (g_tab s) = Ok av /\ ssurv_hyps Z c av (g_hyps s) = Ok sh /\
  g_tab s' = sbirth_tab Z c bs t (g_cnt s) ++ stab /\ g_hyps s' = clean_predictions E (set_pred_hyps (length bs) bh sh) /\
  g_card s' = calc_card sh /\ g_cnt s' = g_cnt s /\ g_ext s' = g_ext s /\ g_meas s' = g_meas s.
Proof.
  unfold spredict. intros H. apply bind_ok in H as [lcost [E1 H]]. apply bind_ok in H as [[paths costs] [E2 H]]. apply bind_ok in H as [bh [E3 H]].
  apply bind_ok in H as [stab [E4 H]]. apply bind_ok in H as [av [E5 H]]. apply bind_ok in H as [sh [E6 H]]. injection H as <-.
  exists lcost, paths, costs, bh, stab, av, sh. cbn [g_tab g_hyps g_card g_cnt g_ext g_meas]. repeat split; assumption.
Qed.
Lemma sbirth_hyps_pos bs paths costs bh : sbirth_hyps Z bs paths costs = Ok bh -> forall h, In h bh -> 0 < h_p h.
Proof.
  intros H h Hh. unfold sbirth_hyps in H. apply bind_ok in H as [ls [_ H]]. destruct (normalise_dist _ _ _ H) as [Hp _]; [intros ->; destruct Hh|exact (Hp h Hh)].
Qed.
Lemma ssurv_hyps_pos c av hs sh : ssurv_hyps Z c av hs = Ok sh -> forall h, In h sh -> 0 < h_p h.
Proof.
  intros H h Hh. unfold ssurv_hyps in H. cbn zeta in H. apply bind_ok in H as [ls [_ H]]. destruct (normalise_dist _ _ _ H) as [Hp _]; [intros ->; destruct Hh|exact (Hp h Hh)].
Qed.
Lemma spredict_dist psf c bs t s s' : spredict Z psf c bs t s = Ok s' -> g_hyps s' <> [] -> prob_dist (g_hyps s').
Proof.
  intros H Hn. destruct (spredict_inv _ _ _ _ _ _ H) as [lcost [paths [costs [bh [stab [av [sh [_ [_ [E3 [_ [_ [E6 [_ [Eh _]]]]]]]]]]]]]]].
  rewrite Eh in *. apply clean_pred_dist. apply set_pred_dist; [exact (clean_nil_inv _ _ Hn)|exact (sbirth_hyps_pos _ _ _ _ E3)|exact (ssurv_hyps_pos _ _ _ _ E6)].
Qed.
Lemma ssurv_hyps_in c av hs sh h' : kshort_ok (v_kshort E) -> ssurv_hyps Z c av hs = Ok sh -> In h' sh ->
  exists h sub, In h hs /\ (forall i, In i (h_ts h) -> (i < length av)%nat) /\ NoDup sub /\ Forall2 (fun j i => nth_error (h_ts h) j = Some i) sub (h_ts h').
Proof.
  intros Hk H Hi. unfold ssurv_hyps in H. cbn zeta in H. apply bind_ok in H as [ll [E1 H]]. destruct (normalise_in _ _ _ _ H Hi) as [h1 [Hh1 Et]].
  destruct (mapM_in_concat _ _ _ _ E1 Hh1) as [h [l [Hh [E2 Hl]]]]. rewrite <- Et. clear Et Hi H E1 Hh1.
  unfold ssurv_hyp in E2. destruct (h_ts h) as [|t0 ts0] eqn:Eth.
  - apply bind_ok in E2 as [a [_ H]]. injection H as <-. destruct Hl as [<-|[]]. exists h, []. rewrite Eth.
    split; [exact Hh|]. split; [intros i []|]. split; constructor.
  - rewrite <- Eth in *. clear Eth t0 ts0. apply bind_ok in E2 as [ps [Ep H]]. apply bind_ok in H as [lc [Elc H]]. cbn zeta in H.
    apply bind_ok in H as [[paths costs] [E3 H]]. apply bind_ok in H as [ld [_ H]]. apply bind_ok in H as [lw [_ H]].
    destruct (mapM_in _ _ _ _ H Hl) as [[p co] [Hp E4]]. apply bind_ok in E4 as [ts [E4 E5]]. cbn [fst snd] in E4, E5. injection E5 as <-. cbn [h_ts].
    exists h, p. split; [exact Hh|]. split.
    { intros i Hii. apply In_nth_error in Hii as [k Hk']. destruct (mapM_nth_l _ _ _ _ _ Ep Hk') as [x [_ Hx]]. apply geti_ok in Hx. apply nth_error_Some. congruence. }
    split; [apply (Hk _ _ _ _ E3), (in_combine_l _ _ _ _ Hp)|].
    apply mapM_ok in E4. eapply F2_impl; [|exact E4]. cbn beta. intros j i _ Hj. apply geti_ok, Hj.
Qed.
Lemma sbirth_len c bs t cnt : length (sbirth_tab Z c bs t cnt) = length bs.
Proof. unfold sbirth_tab. rewrite map_length, combine_length, seq_length. lia. Qed.
Lemma sbirth_nth c bs t cnt i e : nth_error (sbirth_tab Z c bs t cnt) i = Some e -> exists b, nth_error bs i = Some b /\ e = sbirth_entry Z c t cnt i b.
Proof.
  unfold sbirth_tab. intros H. rewrite nth_error_map in H. destruct (nth_error _ i) as [[j b]|] eqn:En; [|discriminate]. injection H as <-. cbn [fst snd].
  apply combine_nth_error in En as [H1 H2]. assert (Hl : (i < length bs)%nat) by (apply nth_error_Some; congruence).
  apply (nth_error_nth _ _ 0%nat) in H1. rewrite seq_nth in H1 by exact Hl. exists b. split; [exact H2|]. rewrite <- H1. reflexivity.
Qed.
Lemma sbirth_fields c t cnt i (b : birth) : e_label (sbirth_entry Z c t cnt i b) = (v_rnd E t, i) /\ e_assoc (sbirth_entry Z c t cnt i b) = [] /\
  e_time (sbirth_entry Z c t cnt i b) = cnt /\ length (e_st (sbirth_entry Z c t cnt i b)) = 1%nat /\ length (e_w (sbirth_entry Z c t cnt i b)) = 1%nat /\
  length (e_cov (sbirth_entry Z c t cnt i b)) = 1%nat /\ e_w (sbirth_entry Z c t cnt i b) = [[1]] /\ e_fs (sbirth_entry Z c t cnt i b) = [fst (fst (fst b))].
Proof. destruct b as [[[p m] cv] pr]. repeat split. Qed.
Lemma spredict_tab_in psf c bs t s s' e' : spredict Z psf c bs t s = Ok s' -> In e' (g_tab s') ->
  (exists i b, nth_error bs i = Some b /\ e' = sbirth_entry Z c t (g_cnt s) i b) \/ (exists e, In e (g_tab s) /\ spred_entry Z psf c t e = Ok e').
Proof.
  intros H Hi. destruct (spredict_inv _ _ _ _ _ _ H) as [lcost [paths [costs [bh [stab [av [sh [_ [_ [_ [E4 [_ [_ [Et _]]]]]]]]]]]]]].
  rewrite Et in Hi. apply in_app_or in Hi as [Hi|Hi].
  - left. apply In_nth_error in Hi as [k Hk]. destruct (sbirth_nth _ _ _ _ _ _ Hk) as [b [Hb ->]]. eauto.
  - right. destruct (mapM_in _ _ _ _ E4 Hi) as [e [He Hee]]. eauto.
Qed.
(** the tracks of a predicted hypothesis: births [p], then survivors *)
Lemma spredict_view psf c bs t s s' h' : kshort_ok (v_kshort E) -> spredict Z psf c bs t s = Ok s' -> In h' (g_hyps s') ->
  exists h p sub es be es', In h (g_hyps s) /\ NoDup p /\ NoDup sub /\
    Forall2 (fun i e => nth_error (sbirth_tab Z c bs t (g_cnt s)) i = Some e) p be /\
    Forall2 (fun j e => exists i, nth_error (h_ts h) j = Some i /\ nth_error (g_tab s) i = Some e) sub es /\
    Forall2 (fun e e' => spred_entry Z psf c t e = Ok e') es es' /\
    Forall2 (fun k e' => nth_error (g_tab s') k = Some e') (h_ts h') (be ++ es').
Proof.
  intros Hk H Hi. destruct (spredict_inv _ _ _ _ _ _ H) as [lcost [paths [costs [bh [stab [av [sh [E1 [E2 [E3 [E4 [E5 [E6 [Et [Eh _]]]]]]]]]]]]]]].
  rewrite Eh in Hi. apply clean_in in Hi as [h0 [Hi Ets]]. unfold set_pred_hyps in Hi. apply in_map_iff in Hi as [h1 [<- Hi]].
  apply in_flat_map in Hi as [hb [Hb Hi]]. apply in_map_iff in Hi as [hsv [<- Hsv]]. cbn [h_ts] in Ets.
  destruct (ssurv_hyps_in _ _ _ _ _ Hk E6 Hsv) as [h [sub [Hh [Hr [Hnd Hsub]]]]].
  assert (Hbp : In (h_ts hb) paths).
  { unfold sbirth_hyps in E3. apply bind_ok in E3 as [ls [_ E3]]. destruct (normalise_in _ _ _ _ E3 Hb) as [h2 [Hh2 <-]].
    apply in_map_iff in Hh2 as [[p co] [<- Hp]]. cbn [h_ts fst]. exact (in_combine_l _ _ _ _ Hp). }
  destruct (Hk _ _ _ _ E2) as [_ Hp]. destruct (Hp _ Hbp) as [Hpn Hpl]. rewrite (mapM_length _ _ _ E1) in Hpl. rewrite (mapM_length _ _ _ E5) in Hr.
  assert (Hes : exists es es', Forall2 (fun j e => exists i, nth_error (h_ts h) j = Some i /\ nth_error (g_tab s) i = Some e) sub es /\
     Forall2 (fun e e' => spred_entry Z psf c t e = Ok e') es es' /\ Forall2 (fun i e' => nth_error stab i = Some e') (h_ts hsv) es').
  { clear - Hsub Hr E4. revert Hsub. generalize (h_ts hsv) as ts. induction sub as [|j sub IH]; intros ts HF; inversion HF as [|? i ? ts' Hj HF']; subst.
    - exists [], []. repeat constructor.
    - destruct (IH _ HF') as [es [es' [F1 [F2 F3]]]]. destruct (nth_error (g_tab s) i) as [e|] eqn:Ei.
      + destruct (mapM_nth_l _ _ _ _ _ E4 Ei) as [e' [H1 H2]]. exists (e :: es), (e' :: es'). repeat split; constructor; eauto.
      + apply nth_error_None in Ei. specialize (Hr i (nth_error_In _ _ Hj)). lia. }
  destruct Hes as [es [es' [F1 [F2 F3]]]].
  assert (Hbe : exists be, Forall2 (fun i e => nth_error (sbirth_tab Z c bs t (g_cnt s)) i = Some e) (h_ts hb) be).
  { clear - Hpl. induction (h_ts hb) as [|i p IH]; [exists []; constructor|]. destruct IH as [be HF]; [intros; apply Hpl; right; assumption|].
    destruct (nth_error (sbirth_tab Z c bs t (g_cnt s)) i) as [e|] eqn:Ei; [exists (e :: be); constructor; assumption|].
    apply nth_error_None in Ei. rewrite sbirth_len in Ei. specialize (Hpl i (or_introl eq_refl)). lia. }
  destruct Hbe as [be F0]. exists h, (h_ts hb), sub, es, be, es'. repeat (split; [assumption|]). rewrite <- Ets, Et. apply Forall2_app.
  - eapply F2_impl; [|exact F0]. cbn beta. intros i e _ He. rewrite nth_error_app1; [exact He|]. apply nth_error_Some. congruence.
  - clear - F3. induction F3 as [|i e ts es Hi HF IH]; cbn [map]; constructor; [|exact IH].
    rewrite nth_error_app2 by (rewrite sbirth_len; lia). rewrite sbirth_len. replace (i + length bs - length bs)%nat with i by lia. exact Hi.
Qed.
Lemma spairs_predict (D D' : entry -> entry -> Prop) psf c bs t s s' : kshort_ok (v_kshort E) -> spredict Z psf c bs t s = Ok s' ->
  HInv D (g_tab s) (g_hyps s) ->
  (forall i j b b', i <> j -> D' (sbirth_entry Z c t (g_cnt s) i b) (sbirth_entry Z c t (g_cnt s) j b')) ->
  (forall i b e e', In e (g_tab s) -> spred_entry Z psf c t e = Ok e' -> D' (sbirth_entry Z c t (g_cnt s) i b) e' /\ D' e' (sbirth_entry Z c t (g_cnt s) i b)) ->
  (forall e1 e2 e1' e2', D e1 e2 -> spred_entry Z psf c t e1 = Ok e1' -> spred_entry Z psf c t e2 = Ok e2' -> D' e1' e2') ->
  HInv D' (g_tab s') (g_hyps s').
Proof.
  intros Hk H HI HB HBP HP h Hh. destruct (spredict_view psf c bs t s s' h Hk H Hh) as [h0 [p [sub [es [be [es' [Hh0 [Hp [Hsub [F0 [F1 [F2 F3]]]]]]]]]]]].
  eexists. split; [exact F3|]. destruct (HI h0 Hh0) as [es0 [HF0 HP0]].
  assert (Hes : forall k e, nth_error es k = Some e -> exists j, nth_error sub k = Some j /\ nth_error es0 j = Some e).
  { intros k e Hke. destruct (F2_nth_r _ _ _ _ _ F1 Hke) as [j [Hj [i [Hi He]]]]. exists j. split; [exact Hj|].
    destruct (F2_nth_l _ _ _ _ _ HF0 Hi) as [e' [He' He'']]. congruence. }
  apply pairs_app.
  - intros i j x y Hij Hi Hj. destruct (F2_nth_r _ _ _ _ _ F0 Hi) as [a [Ea Ha]]. destruct (F2_nth_r _ _ _ _ _ F0 Hj) as [b [Eb Hb]].
    destruct (sbirth_nth _ _ _ _ _ _ Ha) as [b1 [_ ->]]. destruct (sbirth_nth _ _ _ _ _ _ Hb) as [b2 [_ ->]]. apply HB.
    intros ->. apply Hij. rewrite NoDup_nth_error in Hp. apply Hp; [apply nth_error_Some; congruence|congruence].
  - intros i j x y Hij Hi Hj. destruct (F2_nth_r _ _ _ _ _ F2 Hi) as [e1 [E1 Hx]]. destruct (F2_nth_r _ _ _ _ _ F2 Hj) as [e2 [E2 Hy]].
    apply (HP e1 e2); [|exact Hx|exact Hy]. destruct (Hes _ _ E1) as [j1 [S1 T1]]. destruct (Hes _ _ E2) as [j2 [S2 T2]].
    apply (HP0 j1 j2 e1 e2); [|exact T1|exact T2]. intros ->. apply Hij. rewrite NoDup_nth_error in Hsub. apply Hsub; [apply nth_error_Some; congruence|congruence].
  - intros x y Hx Hy. apply In_nth_error in Hx as [a Ha]. destruct (F2_nth_r _ _ _ _ _ F0 Ha) as [i [_ Hi]]. destruct (sbirth_nth _ _ _ _ _ _ Hi) as [b [_ ->]].
    apply In_nth_error in Hy as [q Hq]. destruct (F2_nth_r _ _ _ _ _ F2 Hq) as [e [He Hee]].
    apply (HBP i b e y); [|exact Hee]. destruct (F2_nth_r _ _ _ _ _ F1 He) as [j [_ [i' [_ Hn]]]]. exact (nth_error_In _ _ Hn).
Qed.

(** ** correct *)
(** successor of a track: missed (0) or corrected with measurement j (j + 1) *)
Definition supd (pdf : list P -> list R) c (t : R) (meas : list MS) (e : entry) (a : nat) (e' : entry) : Prop :=
  match a with
  | O => e' = add_assoc None e
  | S j => exists z e1 w, nth_error meas j = Some z /\ scor_entry Z pdf c t z e = Ok (Some (e1, w)) /\ e' = add_assoc (Some j) e1
  end.
Lemma scor_keep pdf c t z e e1 w : scor_entry Z pdf c t z e = Ok (Some (e1, w)) ->
  e_label e1 = e_label e /\ e_assoc e1 = e_assoc e /\ e_time e1 = e_time e /\
  (e_st e <> [] -> length (e_st e1) = length (e_st e)) /\ (e_w e <> [] -> length (e_w e1) = length (e_w e)) /\ (e_cov e <> [] -> length (e_cov e1) = length (e_cov e)).
Proof.
  unfold scor_entry. intros H. apply bind_ok in H as [[rs|] [_ H]]; [|discriminate]. cbn zeta in H. apply bind_ok in H as [ws [_ H]]. injection H as H _. rewrite <- H.
  cbn [e_label e_assoc e_time e_st e_w e_cov]. repeat split; intros Hn; apply set_last_len; exact Hn.
Qed.
Lemma supd_label pdf c t meas e a e' : supd pdf c t meas e a e' -> e_label e' = e_label e /\ e_time e' = e_time e /\
  exists x, e_assoc e' = e_assoc e ++ [x] /\ (forall m, x = Some m -> a = S m).
Proof.
  destruct a as [|j]; cbn [supd].
  - intros ->. cbn. split; [reflexivity|]. split; [reflexivity|]. exists None. split; [reflexivity|discriminate].
  - intros [z [e1 [w [_ [Hc ->]]]]]. destruct (scor_keep _ _ _ _ _ _ _ Hc) as [A [B [C _]]]. cbn. split; [exact A|]. split; [exact C|]. exists (Some j). rewrite B. split; [reflexivity|congruence].
Qed.
Lemma scor_tab_nth pdf c t meas (tab : list entry) rows i a e : scor_rows Z pdf c t meas tab = Ok rows -> nth_error tab i = Some e -> (a <= length meas)%nat ->
  exists o, nth_error (scor_tab rows tab) (i + length tab * a) = Some o /\ forall e', o = Some e' -> supd pdf c t meas e a e'.
Proof.
  intros Hrow Hi Ha. assert (Hl : (i < length tab)%nat) by (apply nth_error_Some; congruence). unfold scor_tab. destruct a as [|j].
  - exists (Some (add_assoc None e)). split.
    + rewrite Nat.mul_0_r, Nat.add_0_r, nth_error_app1 by (rewrite map_length; lia). exact (map_nth_error (fun e => Some (add_assoc None e)) i tab Hi).
    + intros e' He. injection He as <-. reflexivity.
  - unfold scor_rows in Hrow. destruct (nth_error meas j) as [z|] eqn:Ez; [|apply nth_error_None in Ez; lia].
    destruct (mapM_nth_l _ _ _ _ _ Hrow Ez) as [row [Hr Hrz]]. destruct (mapM_nth_l _ _ _ _ _ Hrz Hi) as [o [Ho Hoe]].
    exists (option_map (fun ec => add_assoc (Some j) (fst ec)) o). split.
    + rewrite nth_error_app2 by (rewrite map_length; nia). rewrite map_length. replace (i + length tab * S j - length tab)%nat with (i + length tab * j)%nat by nia.
      apply (concat_uniform _ (length tab)) with (l := map (fun o => option_map (fun ec => add_assoc (Some j) (fst ec)) o) row).
      * intros l Hin. apply in_map_iff in Hin as [[k r] [<- Hkr]]. cbn [snd fst]. rewrite map_length. apply in_combine_r in Hkr.
        destruct (mapM_in _ _ _ _ Hrow Hkr) as [z' [_ Hz']]. exact (mapM_length _ _ _ Hz').
      * rewrite nth_error_map, (nth_error_combine_seq _ 0 _ _ Hr). reflexivity.
      * exact (map_nth_error _ _ _ Ho).
    + intros e' He. destruct o as [[e1 w]|]; [|discriminate]. cbn in He. injection He as <-. exists z, e1, w. auto.
Qed.
Lemma scor_tab_in pdf c t meas (tab : list entry) rows e' : scor_rows Z pdf c t meas tab = Ok rows -> In (Some e') (scor_tab rows tab) ->
  exists e a, In e tab /\ supd pdf c t meas e a e'.
Proof.
  intros Hrow H. unfold scor_tab in H. apply in_app_or in H as [H|H].
  - apply in_map_iff in H as [e [He Hi]]. injection He as <-. exists e, 0%nat. split; [exact Hi|reflexivity].
  - apply in_concat in H as [l [Hl H]]. apply in_map_iff in Hl as [[j r] [<- Hjr]]. apply in_map_iff in H as [o [He Ho]]. cbn [fst snd] in He, Ho.
    apply In_nth_error in Hjr as [k Hk]. apply combine_nth_error in Hk as [H1 H2].
    assert (Hkl : (k < length rows)%nat) by (apply nth_error_Some; congruence).
    assert (j = k). { apply (nth_error_nth _ _ 0%nat) in H1. rewrite seq_nth in H1 by assumption. lia. } subst j.
    unfold scor_rows in Hrow. destruct (mapM_nth_r _ _ _ _ _ Hrow H2) as [z [Hz Hzr]]. destruct (mapM_in _ _ _ _ Hzr Ho) as [e [Hei Hee]].
    destruct o as [[e1 w]|]; [|discriminate]. cbn in He. injection He as <-. exists e, (S k). split; [exact Hei|]. exists z, e1, w. auto.
Qed.
Lemma scor_hyp_in c nm ntab av cost ss h l h' : murty_ok (v_murty E) -> scor_hyp Z c nm ntab av cost ss h = Ok l -> In h' l ->
  (forall i, In i (h_ts h) -> (i < length av)%nat) /\ exists row, row_ok (length (h_ts h)) nm row /\ h_ts h' = shifted ntab (h_ts h) row.
Proof.
  intros Hm H Hi. unfold scor_hyp in H. cbn zeta in H. destruct (h_ts h) as [|t0 ts0] eqn:Et.
  - apply bind_ok in H as [a [_ H]]. apply bind_ok in H as [b [_ H]]. injection H as <-. destruct Hi as [<-|[]].
    split; [intros i []|]. exists []. split; [apply (row0_ok 0)|]. reflexivity.
  - rewrite <- Et in *. clear Et t0 ts0. apply bind_ok in H as [pds [Ep H]]. apply bind_ok in H as [ra [_ H]]. apply bind_ok in H as [lcl [_ H]].
    apply bind_ok in H as [[rows costs] [E1 H]]. apply bind_ok in H as [lmd [_ H]]. apply bind_ok in H as [lw [_ H]]. injection H as <-.
    split. { intros i Hii. apply In_nth_error in Hii as [k Hk']. destruct (mapM_nth_l _ _ _ _ _ Ep Hk') as [x [_ Hx]]. apply geti_ok in Hx. apply nth_error_Some. congruence. }
    apply in_map_iff in Hi as [[row co] [<- Hi]]. cbn [h_ts fst]. exists row. split; [|reflexivity].
    apply in_combine_l in Hi. destruct (Hm _ _ _ _ _ _ E1) as [_ Hr]. apply Hr, Hi.
Qed.
Lemma smiss_hyp_in c av h h' : smiss_hyp c av h = Ok h' -> (forall i, In i (h_ts h) -> (i < length av)%nat) /\ h_ts h' = h_ts h.
Proof.
  unfold smiss_hyp. intros H. apply bind_ok in H as [pds [Ep H]]. apply bind_ok in H as [a [_ H]]. apply bind_ok in H as [b [_ H]]. injection H as <-. cbn [h_ts]. split; [|reflexivity].
  intros i Hii. apply In_nth_error in Hii as [k Hk']. destruct (mapM_nth_l _ _ _ _ _ Ep Hk') as [x [_ Hx]]. apply geti_ok in Hx. apply nth_error_Some. congruence.
Qed.
Lemma scor_hyps_in c nm ntab av cost hs r h' : murty_ok (v_murty E) -> scor_hyps Z c nm ntab av cost hs = Ok r -> In h' r ->
  exists h row, In h hs /\ (forall i, In i (h_ts h) -> (i < length av)%nat) /\ row_ok (length (h_ts h)) nm row /\ h_ts h' = shifted ntab (h_ts h) row.
Proof.
  intros Hm H Hi. unfold scor_hyps in H. destruct nm as [|nm].
  - apply bind_ok in H as [l [E1 H]]. destruct (normalise_in _ _ _ _ H Hi) as [h1 [Hh1 Et]].
    destruct (mapM_in _ _ _ _ E1 Hh1) as [h [Hh E2]]. apply smiss_hyp_in in E2 as [Hr E2].
    exists h, (repeat 0%nat (length (h_ts h))). split; [exact Hh|]. split; [exact Hr|]. split; [apply row0_ok|]. rewrite shifted0. congruence.
  - cbn zeta in H. apply bind_ok in H as [ll [E1 H]]. destruct (normalise_in _ _ _ _ H Hi) as [h1 [Hh1 Et]].
    destruct (mapM_in_concat _ _ _ _ E1 Hh1) as [h [l [Hh [E2 Hl]]]].
    destruct (scor_hyp_in _ _ _ _ _ _ _ _ _ Hm E2 Hl) as [Hr [row [Hrow Hts]]]. exists h, row. repeat (split; [assumption|]). congruence.
Qed.
Lemma scor_hyps_dist c nm ntab av cost hs r : scor_hyps Z c nm ntab av cost hs = Ok r -> r <> [] -> prob_dist r.
Proof. intros H. unfold scor_hyps in H. destruct nm; cbn zeta in H; apply bind_ok in H as [l [_ H]]; exact (normalise_dist _ _ _ H). Qed.
Lemma scorrect_inv pdf c t meas s s' : scorrect Z pdf c t meas s = Ok s' -> exists rows av hs,
  scor_rows Z pdf c t meas (g_tab s) = Ok rows /\ mapM (avg_prob pdf) (g_tab s) = Ok av /\
  scor_hyps Z c (length meas) (length (g_tab s)) av (scor_cost rows) (g_hyps s) = Ok hs /\
  let tab := scor_tab rows (g_tab s) in
  g_tab s' = pick tab (nnz_inds tab hs) /\ g_hyps s' = flat_map (reindex (nnz_inds tab hs)) hs /\
  g_card s' = calc_card hs /\ g_cnt s' = g_cnt s /\ g_ext s' = g_ext s /\ g_meas s' = (if c_savemeas c then g_meas s ++ [meas] else g_meas s).
Proof.
  unfold scorrect. intros H. apply bind_ok in H as [rows [E1 H]]. apply bind_ok in H as [av [E2 H]]. apply bind_ok in H as [hs [E3 H]].
  rewrite clean_updates_eq in H. injection H as <-. exists rows, av, hs. cbn zeta. cbn [g_tab g_hyps g_card g_cnt g_ext g_meas]. repeat split; assumption.
Qed.
Lemma scorrect_tab_in pdf c t meas s s' e' : scorrect Z pdf c t meas s = Ok s' -> In e' (g_tab s') -> exists e a, In e (g_tab s) /\ supd pdf c t meas e a e'.
Proof.
  intros H Hi. destruct (scorrect_inv _ _ _ _ _ _ H) as [rows [av [hs [E1 [_ [_ [Et _]]]]]]]. rewrite Et in Hi. apply pick_in in Hi. exact (scor_tab_in _ _ _ _ _ _ _ E1 Hi).
Qed.
Lemma scorrect_view pdf c t meas s s' h' : murty_ok (v_murty E) -> scorrect Z pdf c t meas s = Ok s' -> In h' (g_hyps s') ->
  exists h row es es', In h (g_hyps s) /\ row_ok (length (h_ts h)) (length meas) row /\
    Forall2 (fun i e => nth_error (g_tab s) i = Some e) (h_ts h) es /\
    Forall2 (fun k e' => nth_error (g_tab s') k = Some e') (h_ts h') es' /\
    Forall2 (fun ea e' => supd pdf c t meas (fst ea) (snd ea) e') (combine es row) es'.
Proof.
  intros Hm H Hi. destruct (scorrect_inv _ _ _ _ _ _ H) as [rows [av [hs [E1 [E2 [E3 [Et [Eh _]]]]]]]]. rewrite Eh in Hi. apply in_flat_map in Hi as [h1 [Hh1 Hi]].
  pose proof (reindex_view _ _ _ _ Hh1 Hi) as Hv. rewrite <- Et in Hv.
  destruct (scor_hyps_in _ _ _ _ _ _ _ _ Hm E3 Hh1) as [h [row [Hh [Hr [Hrow Ets]]]]]. rewrite (mapM_length _ _ _ E2) in Hr.
  rewrite Ets in Hv. destruct Hrow as [Hl [Hle Hd]].
  assert (HG : forall ts row ks, length row = length ts -> (forall i, In i ts -> (i < length (g_tab s))%nat) -> (forall v, In v row -> (v <= length meas)%nat) ->
     Forall2 (fun i k => exists e, nth_error (scor_tab rows (g_tab s)) i = Some (Some e) /\ nth_error (g_tab s') k = Some e) (shifted (length (g_tab s)) ts row) ks ->
     exists es es', Forall2 (fun i e => nth_error (g_tab s) i = Some e) ts es /\ Forall2 (fun k e' => nth_error (g_tab s') k = Some e') ks es' /\
        Forall2 (fun ea e' => supd pdf c t meas (fst ea) (snd ea) e') (combine es row) es').
  { clear - E1. induction ts as [|i ts IH]; intros row ks Hl Hi Hv HF.
    - destruct row; [|discriminate]. inversion HF; subst. exists [], []. repeat constructor.
    - destruct row as [|a row]; [discriminate|]. unfold shifted in HF. cbn [combine map fst snd] in HF. inversion HF as [|? k ? ks' [e' [H1 H2]] HF']; subst.
      destruct (IH row ks') as [es [es' [F1 [F2 F3]]]]; [cbn in Hl; lia|intros; apply Hi; right; assumption|intros; apply Hv; right; assumption|exact HF'|].
      destruct (nth_error (g_tab s) i) as [e|] eqn:Ei; [|apply nth_error_None in Ei; specialize (Hi i (or_introl eq_refl)); lia].
      destruct (scor_tab_nth _ _ _ _ _ _ i a e E1 Ei) as [o [Ho Hs]]; [apply Hv; left; reflexivity|]. rewrite Ho in H1. injection H1 as H1. specialize (Hs e' H1).
      exists (e :: es), (e' :: es'). split; [constructor; assumption|]. split; [constructor; assumption|]. cbn [combine]. constructor; assumption. }
  destruct (HG _ _ _ Hl Hr Hle Hv) as [es [es' [F1 [F2 F3]]]]. exists h, row, es, es'. repeat split; assumption.
Qed.
Lemma spairs_correct (D D' : entry -> entry -> Prop) pdf c t meas s s' : murty_ok (v_murty E) -> scorrect Z pdf c t meas s = Ok s' ->
  HInv D (g_tab s) (g_hyps s) ->
  (forall e1 e2 a b e1' e2', In e1 (g_tab s) -> In e2 (g_tab s) -> D e1 e2 -> (a = b -> a = 0%nat) ->
     supd pdf c t meas e1 a e1' -> supd pdf c t meas e2 b e2' -> D' e1' e2') ->
  HInv D' (g_tab s') (g_hyps s').
Proof.
  intros Hm H HI HD h Hh. destruct (scorrect_view pdf c t meas s s' h Hm H Hh) as [h0 [row [es [es' [Hh0 [Hrow [HF1 [HF2 HF3]]]]]]]].
  exists es'. split; [exact HF2|]. destruct (HI h0 Hh0) as [es0 [HF0 HP0]].
  assert (es0 = es) by (rewrite <- (tracks_view _ _ _ HF0), <- (tracks_view _ _ _ HF1); reflexivity).
  subst es0. intros i j x y Hij Hi Hj.
  destruct (F2_nth_r _ _ _ _ _ HF3 Hi) as [[e1 a] [C1 U1]]. destruct (F2_nth_r _ _ _ _ _ HF3 Hj) as [[e2 b] [C2 U2]]. cbn [fst snd] in U1, U2.
  apply combine_nth_error in C1 as [C1 R1]. apply combine_nth_error in C2 as [C2 R2].
  apply (HD e1 e2 a b x y); auto.
  - destruct (F2_nth_r _ _ _ _ _ HF1 C1) as [k [_ Hk]]. exact (nth_error_In _ _ Hk).
  - destruct (F2_nth_r _ _ _ _ _ HF1 C2) as [k [_ Hk]]. exact (nth_error_In _ _ Hk).
  - exact (HP0 i j e1 e2 Hij C1 C2).
  - intros ->. destruct b as [|v]; [reflexivity|]. exfalso. apply Hij. destruct Hrow as [_ [_ Hd]]. exact (Hd i j v R1 R2).
Qed.

(** ** histories *)
Lemma srefs_run c bs os : forall s s', kshort_ok (v_kshort E) -> murty_ok (v_murty E) -> srun Z c bs os s = Ok s' ->
  HInv (fun _ _ => True) (g_tab s) (g_hyps s) -> HInv (fun _ _ => True) (g_tab s') (g_hyps s').
Proof.
  induction os as [|o os IH]; intros s s' Hk Hm H HI; cbn [srun] in H; [injection H as <-; exact HI|].
  apply bind_ok in H as [s1 [H1 H]]. apply (IH s1 s' Hk Hm H). destruct o as [psf t|pdf t meas|pr ca ex|u k]; cbn [sexec] in H1.
  - apply (spairs_predict _ _ _ _ _ _ _ _ Hk H1 HI); auto.
  - apply (spairs_correct _ _ _ _ _ _ _ _ Hm H1 HI); auto.
  - destruct (cleanup_inv _ _ _ _ _ _ _ H1) as [A [_ [B _]]]. rewrite A. eapply HInv_sub; eauto.
  - apply bind_ok in H1 as [[o s2] [H1 H2]]. injection H2 as <-. destruct (extract_tab _ _ _ _ _ _ H1) as [A [B _]]. rewrite A, B. exact HI.
Qed.
Lemma slabel_exec c bs o s s' used : kshort_ok (v_kshort E) -> murty_ok (v_murty E) -> sexec Z c bs o s = Ok s' ->
  (forall psf t, o = SPredict psf t -> ~ In (v_rnd E t) used) -> LInv used s ->
  LInv (match o with SPredict _ t => v_rnd E t :: used | _ => used end) s'.
Proof.
  intros Hk Hm H Hnew [HU HI]. destruct o as [psf t|pdf t meas|pr ca ex|u k]; cbn [sexec] in H.
  - specialize (Hnew psf t eq_refl). split.
    + intros e' He'. destruct (spredict_tab_in _ _ _ _ _ _ _ H He') as [[i [b [_ ->]]]|[e [He Hs]]].
      * destruct (sbirth_fields c t (g_cnt s) i b) as [-> _]. left. reflexivity.
      * destruct (spred_keep _ _ _ _ _ Hs) as [-> _]. right. apply HU, He.
    + apply (spairs_predict lab_ne lab_ne psf c bs t s s' Hk H HI); unfold lab_ne.
      * intros i j b b' Hij. destruct (sbirth_fields c t (g_cnt s) i b) as [-> _]. destruct (sbirth_fields c t (g_cnt s) j b') as [-> _]. congruence.
      * intros i b e e' He Hs. destruct (sbirth_fields c t (g_cnt s) i b) as [-> _]. destruct (spred_keep _ _ _ _ _ Hs) as [-> _].
        split; intros E0; apply Hnew; pose proof (HU e He) as Hi; [rewrite <- E0 in Hi|rewrite E0 in Hi]; exact Hi.
      * intros e1 e2 e1' e2' HD S1 S2. destruct (spred_keep _ _ _ _ _ S1) as [-> _]. destruct (spred_keep _ _ _ _ _ S2) as [-> _]. exact HD.
  - split.
    + intros e' He'. destruct (scorrect_tab_in _ _ _ _ _ _ _ H He') as [e [a [He Hu]]]. apply supd_label in Hu as [-> _]. apply HU, He.
    + apply (spairs_correct lab_ne lab_ne pdf c t meas s s' Hm H HI). intros e1 e2 a b e1' e2' _ _ HD _ U1 U2. unfold lab_ne in *.
      apply supd_label in U1 as [-> _]. apply supd_label in U2 as [-> _]. exact HD.
  - destruct (cleanup_inv _ _ _ _ _ _ _ H) as [A [_ [B _]]]. split; rewrite A; [exact HU|]. eapply HInv_sub; eauto.
  - apply bind_ok in H as [[o s1] [H1 H]]. injection H as <-. destruct (extract_tab _ _ _ _ _ _ H1) as [A [B _]]. split; rewrite A; [exact HU|rewrite B; exact HI].
Qed.
Lemma slabel_run c bs os : forall s s' used, kshort_ok (v_kshort E) -> murty_ok (v_murty E) -> srun Z c bs os s = Ok s' ->
  NoDup (map (v_rnd E) (spredict_times os)) -> (forall z, In z used -> ~ In z (map (v_rnd E) (spredict_times os))) -> LInv used s -> exists used', LInv used' s'.
Proof.
  induction os as [|o os IH]; intros s s' used Hk Hm H Hnd Hdis HI; cbn [srun] in H; [injection H as <-; eauto|].
  apply bind_ok in H as [s1 [H1 H]]. eapply (IH s1 s' _ Hk Hm H); [| |eapply slabel_exec; eauto].
  - destruct o; cbn in Hnd; try exact Hnd. inversion Hnd; assumption.
  - destruct o as [psf t| | |]; cbn in Hdis, Hnd; try exact Hdis. intros z [<-|Hz]; [inversion Hnd; assumption|]. intros Hi. apply (Hdis z Hz). right. exact Hi.
  - intros psf t -> Hi. apply (Hdis _ Hi). cbn. left. reflexivity.
Qed.
Lemma slen_upd pdf c t meas e a e' cnt : supd pdf c t meas e a e' -> len_ok 1 cnt e -> len_ok 2 cnt e'.
Proof.
  intros H [n [H1 [H2 [H3 [H4 [H5 H6]]]]]]. cbn in H5, H6. exists n. split; [exact H1|].
  assert (Hst : e_st e <> []) by (intros E0; rewrite E0 in H2; cbn in H2; lia).
  assert (Hw : e_w e <> []) by (intros E0; rewrite E0 in H3; cbn in H3; lia).
  assert (Hc : e_cov e <> []) by (intros E0; rewrite E0 in H4; cbn in H4; lia).
  destruct a as [|j]; cbn [supd] in H.
  - subst e'. cbn. rewrite app_length. cbn. repeat split; lia.
  - destruct H as [z [e1 [w [_ [Hce ->]]]]]. destruct (scor_keep _ _ _ _ _ _ _ Hce) as [_ [A [B [C [D F]]]]]. cbn. rewrite app_length, A, B, (C Hst), (D Hw), (F Hc). cbn. repeat split; lia.
Qed.
Lemma sdisj_upd pdf c t meas cnt e1 e2 a b e1' e2' : len_ok 1 cnt e1 -> len_ok 1 cnt e2 -> disj e1 e2 -> (a = b -> a = 0%nat) ->
  supd pdf c t meas e1 a e1' -> supd pdf c t meas e2 b e2' -> disj e1' e2'.
Proof.
  intros [n1 [A1 [_ [_ [_ [A5 A6]]]]]] [n2 [B1 [_ [_ [_ [B5 B6]]]]]] HD Hab U1 U2. cbn in A5, A6, B5, B6.
  apply supd_label in U1 as [_ [T1 [x1 [S1 V1]]]]. apply supd_label in U2 as [_ [T2 [x2 [S2 V2]]]].
  intros [p [q [m [H1 [H2 H3]]]]]. rewrite S1 in H1. rewrite S2 in H2. rewrite T1, T2 in H3.
  assert (Hp : (p < length (e_assoc e1 ++ [x1]))%nat) by (apply nth_error_Some; congruence).
  assert (Hq : (q < length (e_assoc e2 ++ [x2]))%nat) by (apply nth_error_Some; congruence).
  rewrite app_length in Hp, Hq. cbn in Hp, Hq.
  destruct (Nat.eq_dec p (length (e_assoc e1))) as [->|Np].
  - assert (q = length (e_assoc e2)) by lia. subst q.
    rewrite nth_error_app2, Nat.sub_diag in H1 by lia. rewrite nth_error_app2, Nat.sub_diag in H2 by lia. cbn in H1, H2.
    injection H1 as ->. injection H2 as ->. rewrite (V1 m eq_refl), (V2 m eq_refl) in Hab. specialize (Hab eq_refl). discriminate.
  - rewrite nth_error_app1 in H1 by lia. rewrite nth_error_app1 in H2 by lia. apply HD. exists p, q, m. auto.
Qed.
Lemma spinv_run c bs os : forall ph ph' s s', kshort_ok (v_kshort E) -> murty_ok (v_murty E) -> srun Z c bs os s = Ok s' ->
  sprotocol ph os = Some ph' -> PInv ph s -> PInv ph' s'.
Proof.
  induction os as [|o os IH]; intros ph ph' s s' Hk Hm H Hpr HI; cbn [srun] in H; [injection H as <-; cbn in Hpr; injection Hpr as <-; exact HI|].
  apply bind_ok in H as [s1 [H1 H]]. destruct o as [psf t|pdf t meas|pr ca ex|u k]; cbn [sprotocol] in Hpr; cbn [sexec] in H1.
  - destruct ph as [|ph]; [|discriminate]. apply (IH _ _ _ _ Hk Hm H Hpr). destruct HI as [HL HI].
    destruct (spredict_inv _ _ _ _ _ _ H1) as [_ [_ [_ [_ [_ [_ [_ [_ [_ [_ [_ [_ [_ [_ [_ [_ [Ec _]]]]]]]]]]]]]]]]]. split.
    + intros e' He'. rewrite Ec. destruct (spredict_tab_in _ _ _ _ _ _ _ H1 He') as [[i [b [_ ->]]]|[e [He Hs]]].
      * destruct (sbirth_fields c t (g_cnt s) i b) as [_ [A1 [A2 [A3 [A4 [A5 _]]]]]]. exists 1%nat. rewrite A1, A2, A3, A4, A5. cbn. repeat split; lia.
      * destruct (HL e He) as [n [N1 [N2 [N3 [N4 [N5 N6]]]]]]. cbn in N5, N6. destruct (spred_keep _ _ _ _ _ Hs) as [_ [A [B [C [D F]]]]].
        exists (S n). rewrite A, B, C, D, F. cbn. repeat split; lia.
    + apply (spairs_predict disj disj psf c bs t s s1 Hk H1 HI); unfold disj, share_meas.
      * intros i j b b' _. destruct (sbirth_fields c t (g_cnt s) i b) as [_ [-> _]]. intros [a [a' [m [Q _]]]]. rewrite nth_error_nil' in Q. discriminate.
      * intros i b e e' _ _. destruct (sbirth_fields c t (g_cnt s) i b) as [_ [-> _]]. split; intros [a [a' [m [Q1 [Q2 _]]]]]; rewrite nth_error_nil' in *; discriminate.
      * intros e1 e2 e1' e2' HD S1 S2. destruct (spred_keep _ _ _ _ _ S1) as [_ [-> [-> _]]]. destruct (spred_keep _ _ _ _ _ S2) as [_ [-> [-> _]]]. exact HD.
  - destruct ph as [|[|ph]]; try discriminate. apply (IH _ _ _ _ Hk Hm H Hpr). destruct HI as [HL HI].
    destruct (scorrect_inv _ _ _ _ _ _ H1) as [_ [_ [_ [_ [_ [_ [_ [_ [_ [Ec _]]]]]]]]]]. split.
    + intros e' He'. rewrite Ec. destruct (scorrect_tab_in _ _ _ _ _ _ _ H1 He') as [e [a [He Hu]]]. exact (slen_upd _ _ _ _ _ _ _ _ Hu (HL e He)).
    + apply (spairs_correct disj disj pdf c t meas s s1 Hm H1 HI). intros e1 e2 a b e1' e2' I1 I2 HD Hab U1 U2.
      exact (sdisj_upd pdf c t meas (g_cnt s) e1 e2 a b e1' e2' (HL _ I1) (HL _ I2) HD Hab U1 U2).
  - destruct ph as [|[|[|ph]]]; try discriminate. apply (IH 0%nat ph' s1 s' Hk Hm H Hpr).
    destruct (cleanup_inv _ _ _ _ _ _ _ H1) as [A [B [C _]]]. destruct HI as [HL HI]. split; rewrite A; [rewrite B; exact HL|]. eapply HInv_sub; eauto.
  - apply bind_ok in H1 as [[o s2] [H1 H2]]. injection H2 as <-. destruct (extract_tab _ _ _ _ _ _ H1) as [A [B [C _]]].
    apply (IH ph ph' s2 s' Hk Hm H Hpr). destruct HI as [HL HI]. split; [rewrite A, C; exact HL|rewrite A, B; exact HI].
Qed.
End P.
