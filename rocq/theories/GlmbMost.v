(** GLMB: shapes, MAP hypothesis, most probable hypotheses. *)
From Verif Require Import Base Lists.
From Coq Require Import Reals Permutation Lra.
From Verif Require Import OspaModel CphdModel OspaProofs CphdSpec CphdProofs GlmbModel GlmbSpec GlmbProofs GlmbInv GlmbExtract.
Open Scope R_scope.

Lemma last_in {A} (l : list A) d : l <> [] -> In (last l d) l.
Proof. intros H. destruct (exists_last H) as [l' [x ->]]. rewrite last_last. apply in_or_app. right. left. reflexivity. Qed.
Lemma all_some_len {A} (l : list (option A)) r : all_some l = Some r -> length r = length l.
Proof. intros H. apply all_some_ok in H. subst. rewrite map_length. reflexivity. Qed.
Lemma set_last_in {A} (l : list A) x y : In y (set_last l x) -> y = x \/ In y l.
Proof.
  unfold set_last. intros H. apply in_app_or in H as [H|[<-|[]]]; [|auto]. right. destruct l as [|a l]; [destruct H|].
  assert (Hn : a :: l <> []) by discriminate. rewrite (app_removelast_last a Hn). apply in_or_app. auto.
Qed.

Section P.
Context {FS ST CV MS : Type}.
Variable E : genv FS ST CV MS.
Notation entry := (entry FS ST CV).
Notation gcfg := (gcfg ST CV).
Notation glmb := (glmb FS ST CV MS).
Notation ehist := (ehist ST CV).
Notation gop := (gop MS).
Implicit Types (c : gcfg) (s : glmb).

(** ** shapes *)
Lemma shape_birth c t cnt i b p : births_ok c -> In (b, p) (c_births c) -> shape c (birth_entry E c t cnt i b).
Proof.
  intros HB Hi. destruct (HB _ _ Hi) as [H1 [H2 H3]]. exists (length (b_m b)). split; [exact H1|]. cbn.
  rewrite map_length, combine_length, H2, Nat.min_id. split; [reflexivity|].
  split; [intros l [<-|[]]; reflexivity|]. split; [intros l [<-|[]]; exact H3|].
  intros Hs l [<-|[]]. rewrite Hs, map_length. exact H2.
Qed.
Lemma shape_pred c t e ph cnt : len_ok ph cnt e -> shape c e -> shape c (pred_entry E c t e).
Proof.
  intros [n [Hn [L1 [L2 _]]]] [m [Hm [Hf [Hst [Hw Hc]]]]].
  assert (Hls : length (last (e_st e) []) = m) by (apply Hst, last_in; intros E0; rewrite E0 in L1; cbn in L1; lia).
  assert (Hlw : length (last (e_w e) []) = m) by (apply Hw, last_in; intros E0; rewrite E0 in L2; cbn in L2; lia).
  exists m. split; [exact Hm|]. unfold pred_entry. cbn [e_fs e_st e_w e_cov].
  assert (Hrs : length (map (fun fx => v_pred E t (fst fx) (snd fx)) (combine (e_fs e) (last (e_st e) []))) = m) by (rewrite map_length, combine_length, Hf, Hls; apply Nat.min_id).
  set (rs := map _ _) in *. rewrite map_length, Hrs. split; [reflexivity|].
  split; [intros l Hl; apply in_app_or in Hl as [Hl|[<-|[]]]; [auto|rewrite map_length; exact Hrs]|].
  split; [intros l Hl; apply in_app_or in Hl as [Hl|[<-|[]]]; auto|].
  intros Hs l Hl; apply in_app_or in Hl as [Hl|[<-|[]]]; [auto|rewrite map_length; exact Hrs].
Qed.
Lemma shape_upd c t meas e a e' ph cnt : len_ok ph cnt e -> shape c e -> upd_entry E c t meas e a = Some e' -> shape c e'.
Proof.
  intros [n [Hn [L1 [L2 _]]]] [m [Hm [Hf [Hst [Hw Hc]]]]] H. exists m. split; [exact Hm|].
  assert (Hls : length (last (e_st e) []) = m) by (apply Hst, last_in; intros E0; rewrite E0 in L1; cbn in L1; lia).
  assert (Hlw : length (last (e_w e) []) = m) by (apply Hw, last_in; intros E0; rewrite E0 in L2; cbn in L2; lia).
  destruct a as [|j]; cbn in H.
  - inversion H; cbn. auto.
  - destruct (nth_error meas j) as [z|]; [|discriminate]. unfold cor_entry in H. destruct (all_some _) as [rs|] eqn:Ea; [|discriminate].
    apply all_some_len in Ea. rewrite map_length, !combine_length, Hf, Hls, Hlw, !Nat.min_id in Ea.
    inversion H; cbn [e_fs e_st e_w e_cov add_assoc]. rewrite map_length. split; [exact Ea|].
    split; [intros l Hl; apply set_last_in in Hl as [->|Hl]; [rewrite map_length; exact Ea|auto]|].
    split; [intros l Hl; apply set_last_in in Hl as [->|Hl]; [rewrite !map_length, combine_length, Ea, Hlw; apply Nat.min_id|auto]|].
    intros Hs l Hl. apply set_last_in in Hl as [->|Hl]; [rewrite map_length; exact Ea|auto].
Qed.
Definition CInv c ph s : Prop := PInv ph s /\ (forall e, In e (g_tab s) -> shape c e) /\ (forall x, In x (g_ext s) -> xlen ph (g_cnt s) x).
Lemma cinv_extract c ph u k s o s' : extract_states c u k s = Ok (o, s') -> CInv c ph s -> CInv c ph s'.
Proof.
  intros H [[HL HI] [HS HX]]. destruct (extract_tab _ _ _ _ _ _ H) as [A [B [C D]]]. split; [split|split].
  - rewrite A, C. exact HL.
  - rewrite A, B. exact HI.
  - rewrite A. exact HS.
  - intros x Hx. rewrite C. eapply xlen_extract; eauto.
Qed.
Lemma cinv_run c os : forall ph ph' s s', kshort_ok (v_kshort E) -> murty_ok (v_murty E) -> births_ok c -> run E c os s = Ok s' ->
  protocol ph os = Some ph' -> CInv c ph s -> CInv c ph' s'.
Proof.
  induction os as [|o os IH]; intros ph ph' s s' Hk Hm HB H Hpr HI; cbn in H; [inversion H; subst; cbn in Hpr; inversion Hpr; subst; exact HI|].
  apply bind_ok in H as [s1 [H1 H]]. destruct o as [t|t meas|pr ca ex|u k]; cbn in Hpr, H1.
  - destruct ph as [|ph]; [|discriminate]. apply (IH _ _ _ _ Hk Hm HB H Hpr). destruct HI as [HP [HS HX]].
    split; [exact (pinv_predict E _ _ _ _ Hk H1 HP)|]. split.
    + intros e' He'. destruct (predict_tab_in _ _ _ _ _ _ H1 He') as [[i [b [_ [Hb ->]]]]|[e [He ->]]].
      * apply nth_error_In, in_map_iff in Hb as [[b' p] [<- Hb]]. eapply shape_birth; eauto.
      * destruct HP as [HL _]. eapply shape_pred; [apply HL, He|apply HS, He].
    + destruct (predict_inv _ _ _ _ _ H1) as [_ [_ [_ [_ [_ [_ [_ [_ [_ [_ [_ [_ [_ [Ec Ex]]]]]]]]]]]]]]. rewrite Ec, Ex.
      intros x Hx. destruct (HX x Hx) as [X1 [X2 X3]]. repeat split; auto. cbn in *. lia.
  - destruct ph as [|[|ph]]; try discriminate. apply (IH _ _ _ _ Hk Hm HB H Hpr). destruct HI as [HP [HS HX]].
    split; [exact (pinv_correct E _ _ _ _ _ Hm H1 HP)|]. split.
    + intros e' He'. destruct (correct_tab_in _ _ _ _ _ _ _ H1 He') as [e [a [He Hu]]]. destruct HP as [HL _]. eapply shape_upd; [apply HL, He|apply HS, He|exact Hu].
    + destruct (correct_inv _ _ _ _ _ _ H1) as [_ [_ [_ [_ [_ [Ec Ex]]]]]]. rewrite Ec, Ex. exact HX.
  - destruct ph as [|[|[|ph]]]; try discriminate. apply (IH _ _ _ _ Hk Hm HB H Hpr).
    assert (HC : CInv c 0 (cleaned E c pr ca s)).
    { destruct HI as [[HL HI] [HS HX]]. destruct (cleaned_inv E c pr ca s) as [A [B [C D]]]. split; [split|split].
      - rewrite A, B. exact HL.
      - apply cleaned_hinv, HI.
      - rewrite A. exact HS.
      - rewrite B, C. exact HX. }
    destruct (cleanup_inv _ _ _ _ _ _ _ H1) as [_ [_ [_ [_ [_ [[_ ->]|[_ [o H2]]]]]]]]; [exact HC|].
    eapply cinv_extract; eauto.
  - apply bind_ok in H1 as [[o s2] [H1 H2]]. inversion H2; subst s2. apply (IH _ _ _ _ Hk Hm HB H Hpr). eapply cinv_extract; eauto.
Qed.
Lemma cinv_new c : CInv c 0 (@glmb_new FS ST CV MS).
Proof. split; [split; [intros e []|apply hinv_new]|]. split; [intros e []|intros x []]. Qed.
Lemma calc_card_ne hs : calc_card hs <> [].
Proof. unfold calc_card. destruct hs; discriminate. Qed.
Lemma card_exec c o s s' : exec E c o s = Ok s' -> (exists t, o = OpPredict t) \/ g_card s <> [] -> g_card s' <> [].
Proof.
  intros H Hc. destruct o as [t|t meas|pr ca ex|u k]; cbn in H.
  - destruct (predict_inv _ _ _ _ _ H) as [_ [_ [_ [_ [_ [sh [_ [_ [_ [_ [_ [_ [Ec _]]]]]]]]]]]]]. rewrite Ec. apply calc_card_ne.
  - destruct (correct_inv _ _ _ _ _ _ H) as [hs [_ [_ [_ [Ec _]]]]]. rewrite Ec. apply calc_card_ne.
  - destruct Hc as [[t Ht]|Hc]; [discriminate|]. destruct (cleanup_inv _ _ _ _ _ _ _ H) as [_ [_ [_ [_ [Ec _]]]]]. rewrite Ec. unfold cleaned. cbn zeta.
    assert (H2 : g_card (if pr then prune c (bump s) else bump s) <> []) by (destruct pr; [apply calc_card_ne|exact Hc]).
    destruct ca; [|exact H2]. unfold cap. destruct (_ <? _)%nat; [apply calc_card_ne|exact H2].
  - destruct Hc as [[t Ht]|Hc]; [discriminate|]. apply bind_ok in H as [[o s2] [H1 H2]]. inversion H2; subst s2. destruct (extract_tab _ _ _ _ _ _ H1) as [_ [_ [_ D]]]. congruence.
Qed.
Lemma card_run c os : forall s s', run E c os s = Ok s' -> (exists t, In (OpPredict t) os) \/ g_card s <> [] -> g_card s' <> [].
Proof.
  induction os as [|o os IH]; intros s s' H Hc; cbn in H; [inversion H; subst; destruct Hc as [[t []]|Hc]; exact Hc|].
  apply bind_ok in H as [s1 [H1 H]]. apply (IH _ _ H). destruct Hc as [[t [->|Ht]]|Hc].
  - right. eapply card_exec; eauto.
  - left. eauto.
  - right. eapply card_exec; eauto.
Qed.
Lemma reach_extractable c os s : kshort_ok (v_kshort E) -> murty_ok (v_murty E) -> births_ok c -> run E c os glmb_new = Ok s ->
  protocol 0 os = Some 0%nat -> (exists t, In (OpPredict t) os) -> g_hyps s <> [] -> Extractable c s.
Proof.
  intros Hk Hm HB H Hp Ht Hh. destruct (cinv_run c os 0 0 _ _ Hk Hm HB H Hp (cinv_new c)) as [[HL HI] [HS HX]].
  split; [eapply card_run; eauto|]. split; [exact Hh|]. split; [eapply hinv_refs; exact HI|]. split; [intros e He; split; auto|exact HX].
Qed.

(** ** C57 *)
Lemma mass_pos_ex f hs : 0 < mass f hs -> exists h, In h hs /\ f h = true.
Proof.
  unfold mass. destruct (filter f hs) as [|h l] eqn:Ef; [cbn; lra|]. intros _. exists h. apply filter_In. rewrite Ef. left. reflexivity.
Qed.
Lemma mass_ge f hs h : (forall x, In x hs -> 0 <= h_p x) -> In h hs -> f h = true -> h_p h <= mass f hs.
Proof.
  unfold mass. intros Hp Hi Hf. induction hs as [|x hs IH]; [destruct Hi|]. cbn [filter].
  assert (Hr : 0 <= rsum (map h_p (filter f hs))).
  { apply rsum_nonneg. intros y Hy. apply in_map_iff in Hy as [z [<- Hz]]. apply filter_In in Hz as [Hz _]. apply Hp. right. exact Hz. }
  destruct Hi as [->|Hi].
  - rewrite Hf. cbn [map]. rewrite rsum_cons. lra.
  - assert (IH' : h_p h <= rsum (map h_p (filter f hs))) by (apply IH; [intros y Hy; apply Hp; right; exact Hy|exact Hi]).
    destruct (f x); [|exact IH']. cbn [map]. rewrite rsum_cons. pose proof (Hp x (or_introl eq_refl)). lra.
Qed.
Lemma map_index_spec s i : map_index s = Ok i -> g_hyps s <> [] -> (forall h, In h (g_hyps s) -> 0 < h_p h) -> card_matches (g_card s) (g_hyps s) ->
  exists h, nth_error (g_hyps s) i = Some h /\
    (forall n, mass (fun x => (length (h_ts x) =? n)%nat) (g_hyps s) <= mass (fun x => (length (h_ts x) =? length (h_ts h))%nat) (g_hyps s)) /\
    (forall h', In h' (g_hyps s) -> length (h_ts h') = length (h_ts h) -> h_p h' <= h_p h).
Proof.
  intros H Hne Hp Hc. destruct (map_index_lt _ _ H) as [h Hh]. exists h. split; [exact Hh|]. unfold map_index in H.
  apply bind_ok in H as [card [E1 H]]. apply argmaxR_spec in E1 as [C1 [C2 _]]. apply argmaxR_spec in H as [I1 [I2 _]].
  rewrite map_length in I1, I2. set (v := fun h => if (length (h_ts h) =? card)%nat then h_p h * 1 else h_p h * 0) in *.
  assert (Hv : forall k x, nth_error (g_hyps s) k = Some x -> (k < length (g_hyps s))%nat /\ nth k (map v (g_hyps s)) 0 = v x).
  { intros k x Hk. split; [apply nth_error_Some; congruence|]. apply nth_error_nth. apply map_nth_error. exact Hk. }
  assert (Hcard : forall n, nth n (g_card s) 0 <= nth card (g_card s) 0).
  { intros n. destruct (Nat.lt_ge_cases n (length (g_card s))) as [Hl|Hl]; [apply C2, Hl|]. rewrite nth_overflow by exact Hl.
    rewrite (Hc card). unfold mass. apply rsum_nonneg. intros y Hy. apply in_map_iff in Hy as [z [<- Hz]]. apply filter_In in Hz as [Hz _]. left. auto. }
  assert (Hp' : forall x, In x (g_hyps s) -> 0 <= h_p x) by (intros; left; auto).
  assert (Hpos : 0 < nth card (g_card s) 0).
  { destruct (g_hyps s) as [|x hs] eqn:Eh; [congruence|]. rewrite <- Eh in *.
    assert (Hx : In x (g_hyps s)) by (rewrite Eh; left; reflexivity).
    specialize (Hcard (length (h_ts x))). rewrite (Hc (length (h_ts x))) in Hcard.
    pose proof (mass_ge (fun y => (length (h_ts y) =? length (h_ts x))%nat) _ x Hp' Hx (Nat.eqb_refl _)). specialize (Hp x Hx). lra. }
  destruct (mass_pos_ex (fun y => (length (h_ts y) =? card)%nat) (g_hyps s)) as [x [Hx Hxl]]; [rewrite <- (Hc card); exact Hpos|].
  destruct (Hv i h Hh) as [_ Vi].
  assert (Hlen : length (h_ts h) = card).
  { destruct (In_nth_error _ _ Hx) as [k Hk]. destruct (Hv k x Hk) as [Lk Vk]. specialize (I2 k Lk). rewrite Vi, Vk in I2. unfold v in I2. rewrite Hxl in I2.
    destruct (Nat.eqb_spec (length (h_ts h)) card) as [|_]; [assumption|]. specialize (Hp x Hx). lra. }
  split.
  - intros n. rewrite Hlen, <- (Hc n), <- (Hc card). apply Hcard.
  - intros h' Hh' Hl'. destruct (In_nth_error _ _ Hh') as [k Hk]. destruct (Hv k h' Hk) as [Lk Vk]. specialize (I2 k Lk). rewrite Vi, Vk in I2. unfold v in I2.
    rewrite Hl', Hlen, Nat.eqb_refl in I2. lra.
Qed.

(** ** C58 *)
Definition count_ge (th : R) (hs : list hyp) : nat := length (filter (fun h => if Rle_dec th (h_p h) then true else false) hs).
Lemma set_prob0_nth i : forall hs j, nth_error (set_prob0 i hs) j = if (j =? i)%nat then option_map (fun h => {| h_p := 0; h_ts := h_ts h |}) (nth_error hs j) else nth_error hs j.
Proof. induction i as [|i IH]; intros [|h hs] [|j]; cbn; try reflexivity; [destruct (j =? i)%nat; reflexivity|apply IH]. Qed.
Lemma count_set0 th : 0 < th -> forall i hs h, nth_error hs i = Some h -> th <= h_p h -> count_ge th hs = S (count_ge th (set_prob0 i hs)).
Proof.
  intros Hth. unfold count_ge. induction i as [|i IH]; intros [|x hs] h Hn Hh; try discriminate; cbn in Hn |- *.
  - inversion Hn; subst x. destruct (Rle_dec th (h_p h)); [|contradiction]. destruct (Rle_dec th 0); [lra|]. reflexivity.
  - destruct (Rle_dec th (h_p x)); cbn; rewrite (IH hs h Hn Hh); reflexivity.
Qed.
Lemma most_loop_ok c th : 0 < th -> forall fuel s, Extractable c s -> (count_ge th (g_hyps s) <= fuel)%nat ->
  exists r is, most_loop fuel c th s = Ok r /\ NoDup is /\
    Forall2 (fun i o => exists h, nth_error (g_hyps s) i = Some h /\ h_p h = snd o) is r /\ (forall o, In o r -> th <= snd o).
Proof.
  intros Hth. induction fuel as [|fuel IH]; intros s HE Hf;
    (destruct (map_index_ok s) as [i Hi]; [apply HE|apply HE|]);
    destruct (extract_step c s i HE Hi) as [s1 [H1 [Hh [Hc [HE1 HE2]]]]]; destruct (map_index_lt _ _ Hi) as [h Hn];
    cbn [most_loop]; rewrite H1; cbn [bind]; unfold geti; rewrite Hh, Hn; cbn [bind].
  - destruct (Rle_dec th (h_p h)) as [Hle|Hle].
    + rewrite (count_set0 th Hth i _ h Hn Hle) in Hf. lia.
    + exists [], []. split; [reflexivity|]. split; [constructor|]. split; [constructor|]. intros o [].
  - destruct (Rle_dec th (h_p h)) as [Hle|Hle].
    + rewrite (count_set0 th Hth i _ h Hn Hle) in Hf. rewrite <- Hh in Hf.
      destruct (IH (zero_hyp i s1) HE2) as [r [is [E1 [N1 [F1 L1]]]]]; [cbn [zero_hyp g_hyps]; apply le_S_n; exact Hf|]. rewrite E1. cbn [bind].
      assert (Hisr : forall j, In j is -> j <> i /\ exists h', nth_error (g_hyps s) j = Some h').
      { intros j Hj. apply In_nth_error in Hj as [k Hk]. destruct (F2_nth_l _ _ _ _ _ F1 Hk) as [o [Ho [h' [Hh' Hp']]]].
        cbn in Hh'. rewrite set_prob0_nth, Hh in Hh'. destruct (Nat.eqb_spec j i) as [->|Hji]; [|eauto].
        rewrite Hn in Hh'. cbn in Hh'. inversion Hh'; subst h'. cbn in Hp'. specialize (L1 o (nth_error_In _ _ Ho)). lra. }
      eexists _, (i :: is). split; [reflexivity|]. split; [constructor; [intros Hi'; destruct (Hisr i Hi') as [? _]; congruence|exact N1]|].
      split.
      * constructor; [exists h; auto|]. eapply F2_impl; [|exact F1]. intros j o Hj [h' [Hh' Hp']]. cbn in Hh'. rewrite set_prob0_nth, Hh in Hh'.
        destruct (Nat.eqb_spec j i) as [->|_]; [destruct (Hisr i Hj); congruence|]. eauto.
      * intros o [<-|Ho]; [exact Hle|auto].
    + exists [], []. split; [reflexivity|]. split; [constructor|]. split; [constructor|]. intros o [].
Qed.
Lemma set_prob0_nonneg i hs : (forall h, In h hs -> 0 <= h_p h) -> forall h, In h (set_prob0 i hs) -> 0 <= h_p h.
Proof.
  intros H h Hh. apply In_nth_error in Hh as [j Hj]. rewrite set_prob0_nth in Hj. destruct (j =? i)%nat.
  - destruct (nth_error hs j); [|discriminate]. inversion Hj; cbn. lra.
  - apply H. eapply nth_error_In; eauto.
Qed.
Lemma most_loop_diverges c th : th <= 0 -> forall fuel s, Extractable c s -> (forall h, In h (g_hyps s) -> 0 <= h_p h) -> most_loop fuel c th s = Err OutOfFuel.
Proof.
  intros Hth. induction fuel as [|fuel IH]; intros s HE Hp;
    (destruct (map_index_ok s) as [i Hi]; [apply HE|apply HE|]);
    destruct (extract_step c s i HE Hi) as [s1 [H1 [Hh [Hc [HE1 HE2]]]]]; destruct (map_index_lt _ _ Hi) as [h Hn];
    cbn [most_loop]; rewrite H1; cbn [bind]; unfold geti; rewrite Hh, Hn; cbn [bind];
    (destruct (Rle_dec th (h_p h)) as [Hle|Hle]; [|pose proof (Hp h (nth_error_In _ _ Hn)); lra]).
  - reflexivity.
  - rewrite (IH (zero_hyp i s1) HE2); [reflexivity|]. cbn. rewrite Hh. apply set_prob0_nonneg, Hp.
Qed.
(** one step of the loop on a known state *)
Lemma most_loop_step c th fuel s i h : Extractable c s -> map_index s = Ok i -> nth_error (g_hyps s) i = Some h -> th <= h_p h ->
  exists s1 o, g_hyps s1 = set_prob0 i (g_hyps s) /\ g_card s1 = g_card s /\ Extractable c s1 /\ snd o = h_p h /\
    most_loop (S fuel) c th s = (do r <- most_loop fuel c th s1; Ok (o :: r)).
Proof.
  intros HE Hi Hn Hle. destruct (extract_step c s i HE Hi) as [s1 [H1 [Hh [Hc [HE1 HE2]]]]].
  exists (zero_hyp i s1), (g_states s1, g_labels s1, g_covs s1, h_p h). cbn [zero_hyp g_hyps g_card]. rewrite Hh, Hc. repeat (split; [auto|]).
  cbn [most_loop]. rewrite H1. cbn [bind]. unfold geti. rewrite Hh, Hn. cbn [bind]. destruct (Rle_dec th (h_p h)); [reflexivity|contradiction].
Qed.
Lemma most_loop_stop c th fuel s i h : Extractable c s -> map_index s = Ok i -> nth_error (g_hyps s) i = Some h -> h_p h < th ->
  most_loop fuel c th s = Ok [].
Proof.
  intros HE Hi Hn Hlt. destruct (extract_step c s i HE Hi) as [s1 [H1 [Hh [Hc [HE1 HE2]]]]].
  destruct fuel; cbn [most_loop]; rewrite H1; cbn [bind]; unfold geti; rewrite Hh, Hn; cbn [bind]; destruct (Rle_dec th (h_p h)); (lra || reflexivity).
Qed.
Lemma most_prob_step c th fuel s i h : Extractable c s -> map_index s = Ok i -> nth_error (g_hyps s) i = Some h ->
  exists s1 o, g_hyps s1 = set_prob0 i (g_hyps s) /\ g_card s1 = g_card s /\ Extractable c s1 /\ snd o = h_p h /\
    most_prob fuel c th s = (do r <- most_loop fuel c th s1; Ok (o :: r)).
Proof.
  intros HE Hi Hn. destruct (extract_step c s i HE Hi) as [s1 [H1 [Hh [Hc [HE1 HE2]]]]].
  exists (zero_hyp i s1), (g_states s1, g_labels s1, g_covs s1, h_p h). cbn [zero_hyp g_hyps g_card]. rewrite Hh, Hc. repeat (split; [auto|]).
  unfold most_prob. rewrite H1. cbn [bind]. unfold geti. rewrite Hh, Hn. reflexivity.
Qed.
End P.
