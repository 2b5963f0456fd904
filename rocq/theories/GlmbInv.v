(** Invariants of the GLMB model over histories. *)
From Verif Require Import Base Lists.
From Coq Require Import Reals Permutation Lra.
From Verif Require Import OspaModel CphdModel OspaProofs CphdSpec CphdProofs GlmbModel GlmbSpec GlmbProofs.
Open Scope R_scope.

(** Lists *)
Lemma F2_nth_r {A B} (P : A -> B -> Prop) l l' k b : Forall2 P l l' -> nth_error l' k = Some b -> exists a, nth_error l k = Some a /\ P a b.
Proof. intros H. revert k. induction H as [|x y l l' Hxy _ IH]; intros [|k] E; try discriminate; cbn in *; [inversion E; subst; eauto|auto]. Qed.
Lemma F2_nth_l {A B} (P : A -> B -> Prop) l l' k a : Forall2 P l l' -> nth_error l k = Some a -> exists b, nth_error l' k = Some b /\ P a b.
Proof. intros H. revert k. induction H as [|x y l l' Hxy _ IH]; intros [|k] E; try discriminate; cbn in *; [inversion E; subst; eauto|auto]. Qed.
Lemma F2_len {A B} (P : A -> B -> Prop) l l' : Forall2 P l l' -> length l = length l'.
Proof. intros H; induction H; cbn; congruence. Qed.
Lemma combine_nth_error {A B} (l : list A) (l' : list B) k a b :
  nth_error (combine l l') k = Some (a, b) <-> nth_error l k = Some a /\ nth_error l' k = Some b.
Proof.
  revert l' k. induction l as [|x l IH]; intros [|y l'] [|k]; cbn; try (split; [discriminate|intros [? ?]; discriminate]).
  - split; [intros H; inversion H; auto|intros [H1 H2]; congruence].
  - apply IH.
Qed.
(** all pairs at different positions *)
Definition pairs {A} (D : A -> A -> Prop) (l : list A) : Prop :=
  forall i j x y, i <> j -> nth_error l i = Some x -> nth_error l j = Some y -> D x y.
Lemma pairs_nil {A} (D : A -> A -> Prop) : pairs D [].
Proof. intros [|i] j x y _ H; discriminate. Qed.
Lemma pairs_app {A} (D : A -> A -> Prop) l1 l2 : pairs D l1 -> pairs D l2 -> (forall x y, In x l1 -> In y l2 -> D x y /\ D y x) -> pairs D (l1 ++ l2).
Proof.
  intros H1 H2 H i j x y Hij Hi Hj.
  destruct (Nat.lt_ge_cases i (length l1)) as [Li|Li]; destruct (Nat.lt_ge_cases j (length l1)) as [Lj|Lj];
    [rewrite nth_error_app1 in Hi, Hj by lia|rewrite nth_error_app1 in Hi by lia; rewrite nth_error_app2 in Hj by lia|
     rewrite nth_error_app2 in Hi by lia; rewrite nth_error_app1 in Hj by lia|rewrite nth_error_app2 in Hi, Hj by lia].
  - exact (H1 i j x y Hij Hi Hj).
  - exact (proj1 (H x y (nth_error_In _ _ Hi) (nth_error_In _ _ Hj))).
  - exact (proj2 (H y x (nth_error_In _ _ Hj) (nth_error_In _ _ Hi))).
  - apply (H2 (i - length l1)%nat (j - length l1)%nat x y); [lia|assumption|assumption].
Qed.
Lemma pairs_nodup {A B} (f : A -> B) l : pairs (fun x y => f x <> f y) l <-> NoDup (map f l).
Proof.
  split.
  - intros H. apply NoDup_nth_error. intros i j Hi E. rewrite map_length in Hi.
    destruct (Nat.eq_dec i j) as [|Hij]; [assumption|exfalso].
    destruct (nth_error l i) as [x|] eqn:Ex; [|apply nth_error_None in Ex; lia]. rewrite (map_nth_error f _ _ Ex) in E.
    destruct (nth_error l j) as [y|] eqn:Ey.
    + rewrite (map_nth_error f _ _ Ey) in E. inversion E. eapply (H i j); eauto.
    + apply nth_error_None in Ey. symmetry in E. assert (Hs : (j < length (map f l))%nat) by (apply nth_error_Some; congruence). rewrite map_length in Hs. lia.
  - intros H i j x y Hij Hi Hj E. apply Hij. rewrite NoDup_nth_error in H. apply H.
    + rewrite map_length. apply nth_error_Some. congruence.
    + rewrite (map_nth_error f _ _ Hi), (map_nth_error f _ _ Hj). congruence.
Qed.
Lemma tracks_view {A} (tab : list A) h es : Forall2 (fun i e => nth_error tab i = Some e) (h_ts h) es -> tracks tab h = es.
Proof. unfold tracks. intros H. induction H as [|i e ts es Hi _ IH]; cbn; [reflexivity|]. rewrite Hi, IH. reflexivity. Qed.

Section P.
Context {FS ST CV MS : Type}.
Variable E : genv FS ST CV MS.
Notation entry := (entry FS ST CV).
Notation gcfg := (gcfg ST CV).
Notation glmb := (glmb FS ST CV MS).
Notation gop := (gop MS).
Implicit Types (c : gcfg) (s : glmb).

(** Every hypothesis refers to tracks that are pairwise related by D. *)
Definition HInv (D : entry -> entry -> Prop) (tab : list entry) (hs : list hyp) : Prop :=
  forall h, In h hs -> exists es, Forall2 (fun i e => nth_error tab i = Some e) (h_ts h) es /\ pairs D es.
Definition subhyps (hs' hs : list hyp) : Prop :=
  forall h', In h' hs' -> h_ts h' = [] \/ exists h, In h hs /\ h_ts h = h_ts h'.
Lemma HInv_sub D tab hs hs' : subhyps hs' hs -> HInv D tab hs -> HInv D tab hs'.
Proof.
  intros HS H h' Hh'. destruct (HS _ Hh') as [->|[h [Hh <-]]]; [exists []; split; [constructor|apply pairs_nil]|apply H, Hh].
Qed.
Lemma subhyps_refl hs : subhyps hs hs.
Proof. intros h Hh. right. eauto. Qed.
Lemma subhyps_trans a b d : subhyps a b -> subhyps b d -> subhyps a d.
Proof. intros H1 H2 h Hh. destruct (H1 _ Hh) as [->|[h' [Hh' E1]]]; [auto|]. destruct (H2 _ Hh') as [E2|[h2 [Hh2 E2]]]; [left; congruence|right; exists h2; split; congruence]. Qed.
Lemma rescale_sub hs : subhyps (rescale hs) hs.
Proof. intros h Hh. apply in_map_iff in Hh as [x [<- Hx]]. right. exists x. auto. Qed.
Lemma prune_sub c s : subhyps (g_hyps (prune c s)) (g_hyps s).
Proof.
  cbn. eapply subhyps_trans; [apply rescale_sub|]. intros h Hh. apply filter_In in Hh as [Hh _]. right. eauto.
Qed.
Lemma cap_sub c s : subhyps (g_hyps (cap E c s)) (g_hyps s).
Proof.
  unfold cap. destruct (_ <? _)%nat; [|apply subhyps_refl]. cbn [g_hyps with_hyps]. eapply subhyps_trans; [apply rescale_sub|].
  intros h Hh. apply in_map_iff in Hh as [i [<- _]]. destruct (nth_in_or_default i (g_hyps s) {| h_p := 0; h_ts := [] |}) as [Hi| ->]; [right; eauto|left; reflexivity].
Qed.
Lemma cap_tab c s : g_tab (cap E c s) = g_tab s /\ g_cnt (cap E c s) = g_cnt s /\ g_ext (cap E c s) = g_ext s.
Proof. unfold cap. destruct (_ <? _)%nat; repeat split. Qed.
Lemma extract_tab c u k s o s' : extract_states c u k s = Ok (o, s') -> g_tab s' = g_tab s /\ g_hyps s' = g_hyps s /\ g_cnt s' = g_cnt s /\ g_card s' = g_card s.
Proof.
  unfold extract_states. intros H. apply bind_ok in H as [a [_ H]]. cbn zeta in H. destruct (g_hyps s) as [|h0 hs0] eqn:Eh.
  - inversion H; subst; cbn. auto.
  - apply bind_ok in H as [i [_ H]]. apply bind_ok in H as [xs [_ H]]. apply bind_ok in H as [oo [_ H]]. inversion H; subst; cbn. auto.
Qed.
Definition cleaned c (pr ca : bool) s : glmb :=
  let s1 := bump s in let s2 := if pr then prune c s1 else s1 in if ca then cap E c s2 else s2.
Lemma cleaned_inv c pr ca s : g_tab (cleaned c pr ca s) = g_tab s /\ g_cnt (cleaned c pr ca s) = S (g_cnt s) /\ g_ext (cleaned c pr ca s) = g_ext s /\
  subhyps (g_hyps (cleaned c pr ca s)) (g_hyps s).
Proof.
  unfold cleaned. cbn zeta. set (s2 := if pr then prune c (bump s) else bump s).
  assert (H2 : g_tab s2 = g_tab s /\ g_cnt s2 = S (g_cnt s) /\ g_ext s2 = g_ext s /\ subhyps (g_hyps s2) (g_hyps s)).
  { unfold s2. destruct pr; [|repeat split; apply subhyps_refl]. repeat split. apply (prune_sub c (bump s)). }
  destruct H2 as [A [B [C D]]]. destruct ca; [|auto]. destruct (cap_tab c s2) as [A' [B' C']]. repeat split; try congruence.
  eapply subhyps_trans; [apply cap_sub|exact D].
Qed.
Lemma cleanup_inv c pr ca ex s s' : cleanup E c pr ca ex s = Ok s' ->
  g_tab s' = g_tab s /\ g_cnt s' = S (g_cnt s) /\ subhyps (g_hyps s') (g_hyps s) /\ g_hyps s' = g_hyps (cleaned c pr ca s) /\ g_card s' = g_card (cleaned c pr ca s) /\
  ((ex = false /\ s' = cleaned c pr ca s) \/ (ex = true /\ exists o, extract_states c true true (cleaned c pr ca s) = Ok (o, s'))).
Proof.
  unfold cleanup. fold (cleaned c pr ca s). destruct (cleaned_inv c pr ca s) as [A [B [C D]]].
  intros H. cbn zeta in H. change (let s1 := bump s in _) with (cleaned c pr ca s) in H.
  change (if ca then cap E c (if pr then prune c (bump s) else bump s) else if pr then prune c (bump s) else bump s) with (cleaned c pr ca s) in H.
  destruct ex.
  - apply bind_ok in H as [[o s4] [H1 H]]. inversion H; subst s4. destruct (extract_tab _ _ _ _ _ _ H1) as [T1 [T2 [T3 T4]]].
    repeat split; try congruence; [rewrite T2; exact D|]. right. split; [reflexivity|]. exists o. exact H1.
  - inversion H; subst s'. repeat split; try congruence; [exact D|]. left; auto.
Qed.

(** C48 *)
Lemma hinv_predict c t s s' : kshort_ok (v_kshort E) -> predict E c t s = Ok s' -> HInv (fun _ _ => True) (g_tab s') (g_hyps s').
Proof.
  intros Hk H h Hh. destruct (predict_view E c t s s' h Hk H Hh) as [h0 [p [sub [es [_ [_ [_ [_ [_ [_ HF]]]]]]]]]].
  eexists. split; [exact HF|]. intros i j x y _ _ _. exact I.
Qed.
Lemma hinv_correct c t meas s s' : murty_ok (v_murty E) -> correct E c t meas s = Ok s' -> HInv (fun _ _ => True) (g_tab s') (g_hyps s').
Proof.
  intros Hk H h Hh. destruct (correct_view E c t meas s s' h Hk H Hh) as [h0 [row [es [es' [_ [_ [_ [HF _]]]]]]]].
  eexists. split; [exact HF|]. intros i j x y _ _ _. exact I.
Qed.
Lemma hinv_exec c o s s' : kshort_ok (v_kshort E) -> murty_ok (v_murty E) -> exec E c o s = Ok s' ->
  HInv (fun _ _ => True) (g_tab s) (g_hyps s) -> HInv (fun _ _ => True) (g_tab s') (g_hyps s').
Proof.
  intros Hk Hm H HI. destruct o as [t|t meas|pr ca ex|u k]; cbn in H.
  - exact (hinv_predict _ _ _ _ Hk H).
  - exact (hinv_correct _ _ _ _ _ Hm H).
  - destruct (cleanup_inv _ _ _ _ _ _ H) as [A [_ [B _]]]. rewrite A. eapply HInv_sub; eauto.
  - apply bind_ok in H as [[o s1] [H1 H]]. inversion H; subst. destruct (extract_tab _ _ _ _ _ _ H1) as [A [B _]]. rewrite A, B. exact HI.
Qed.
Lemma hinv_run c os : forall s s', kshort_ok (v_kshort E) -> murty_ok (v_murty E) -> run E c os s = Ok s' ->
  HInv (fun _ _ => True) (g_tab s) (g_hyps s) -> HInv (fun _ _ => True) (g_tab s') (g_hyps s').
Proof.
  induction os as [|o os IH]; intros s s' Hk Hm H HI; cbn in H; [inversion H; subst; exact HI|].
  apply bind_ok in H as [s1 [H1 H]]. apply (IH s1 s' Hk Hm H). exact (hinv_exec _ _ _ _ Hk Hm H1 HI).
Qed.
Lemma hinv_new D : HInv D (g_tab (@glmb_new FS ST CV MS)) (g_hyps (@glmb_new FS ST CV MS)).
Proof. intros h [<-|[]]. exists []. split; [constructor|apply pairs_nil]. Qed.
Lemma hinv_refs D tab hs : HInv D tab hs -> refs_ok tab hs.
Proof.
  intros H h i Hh Hi. destruct (H h Hh) as [es [HF _]]. apply In_nth_error in Hi as [k Hk].
  destruct (F2_nth_l _ _ _ _ _ HF Hk) as [e [_ He]]. apply nth_error_Some. congruence.
Qed.

(** pairs after predict and correct *)
Lemma pairs_predict (D D' : entry -> entry -> Prop) c t s s' : kshort_ok (v_kshort E) -> predict E c t s = Ok s' ->
  HInv D (g_tab s) (g_hyps s) ->
  (forall i j, (i < length (c_births c))%nat -> (j < length (c_births c))%nat -> i <> j -> forall b b', D' (birth_entry E c t (g_cnt s) i b) (birth_entry E c t (g_cnt s) j b')) ->
  (forall i b e, In e (g_tab s) -> D' (birth_entry E c t (g_cnt s) i b) (pred_entry E c t e) /\ D' (pred_entry E c t e) (birth_entry E c t (g_cnt s) i b)) ->
  (forall e1 e2, D e1 e2 -> D' (pred_entry E c t e1) (pred_entry E c t e2)) ->
  HInv D' (g_tab s') (g_hyps s').
Proof.
  intros Hk H HI HB HBP HP h Hh. destruct (predict_view E c t s s' h Hk H Hh) as [h0 [p [sub [es [Hh0 [Hp [Hpl [Hsub [_ [HF1 HF2]]]]]]]]]].
  eexists. split; [exact HF2|]. destruct (HI h0 Hh0) as [es0 [HF0 HP0]].
  assert (Hes : forall k e, nth_error es k = Some e -> exists j, nth_error sub k = Some j /\ nth_error es0 j = Some e).
  { intros k e Hke. destruct (F2_nth_r _ _ _ _ _ HF1 Hke) as [j [Hj [i [Hi He]]]]. exists j. split; [exact Hj|].
    destruct (F2_nth_l _ _ _ _ _ HF0 Hi) as [e' [He' He'']]. congruence. }
  apply pairs_app.
  - intros i j x y Hij Hi Hj. rewrite nth_error_map in Hi, Hj.
    destruct (nth_error p i) as [a|] eqn:Ea; [|discriminate]. destruct (nth_error p j) as [b|] eqn:Eb; [|discriminate].
    inversion Hi; inversion Hj. apply HB; [exact (Hpl _ (nth_error_In _ _ Ea))|exact (Hpl _ (nth_error_In _ _ Eb))|].
    intros ->. apply Hij. rewrite NoDup_nth_error in Hp. apply Hp; [apply nth_error_Some; congruence|congruence].
  - intros i j x y Hij Hi Hj. rewrite nth_error_map in Hi, Hj.
    destruct (nth_error es i) as [e1|] eqn:E1; [|discriminate]. destruct (nth_error es j) as [e2|] eqn:E2; [|discriminate].
    inversion Hi; inversion Hj. apply HP. destruct (Hes _ _ E1) as [j1 [S1 T1]]. destruct (Hes _ _ E2) as [j2 [S2 T2]].
    apply (HP0 j1 j2 e1 e2); [|exact T1|exact T2]. intros ->. apply Hij. rewrite NoDup_nth_error in Hsub. apply Hsub; [apply nth_error_Some; congruence|congruence].
  - intros x y Hx Hy. apply in_map_iff in Hx as [i [<- _]]. apply in_map_iff in Hy as [e [<- He]]. apply HBP.
    apply In_nth_error in He as [k Hke]. destruct (F2_nth_r _ _ _ _ _ HF1 Hke) as [j [Hj [i' [Hi He]]]]. exact (nth_error_In _ _ He).
Qed.
Lemma pairs_correct (D D' : entry -> entry -> Prop) c t meas s s' : murty_ok (v_murty E) -> correct E c t meas s = Ok s' ->
  HInv D (g_tab s) (g_hyps s) ->
  (forall e1 e2 a b e1' e2', In e1 (g_tab s) -> In e2 (g_tab s) -> D e1 e2 -> (a = b -> a = 0%nat) ->
     upd_entry E c t meas e1 a = Some e1' -> upd_entry E c t meas e2 b = Some e2' -> D' e1' e2') ->
  HInv D' (g_tab s') (g_hyps s').
Proof.
  intros Hm H HI HD h Hh. destruct (correct_view E c t meas s s' h Hm H Hh) as [h0 [row [es [es' [Hh0 [Hrow [HF1 [HF2 HF3]]]]]]]].
  exists es'. split; [exact HF2|]. destruct (HI h0 Hh0) as [es0 [HF0 HP0]].
  assert (es0 = es).
  { rewrite <- (tracks_view _ _ _ HF0), <- (tracks_view _ _ _ HF1). reflexivity. }
  subst es0. intros i j x y Hij Hi Hj.
  destruct (F2_nth_r _ _ _ _ _ HF3 Hi) as [[e1 a] [C1 U1]]. destruct (F2_nth_r _ _ _ _ _ HF3 Hj) as [[e2 b] [C2 U2]]. cbn in U1, U2.
  apply combine_nth_error in C1 as [C1 R1]. apply combine_nth_error in C2 as [C2 R2].
  apply (HD e1 e2 a b x y); auto.
  - destruct (F2_nth_r _ _ _ _ _ HF1 C1) as [k [_ Hk]]. exact (nth_error_In _ _ Hk).
  - destruct (F2_nth_r _ _ _ _ _ HF1 C2) as [k [_ Hk]]. exact (nth_error_In _ _ Hk).
  - exact (HP0 i j e1 e2 Hij C1 C2).
  - intros ->. destruct b as [|v]; [reflexivity|]. exfalso. apply Hij. destruct Hrow as [_ [_ Hd]]. exact (Hd i j v R1 R2).
Qed.

(** Entries of the corrected table come from the predicted one. *)
Lemma cor_tab_in c t meas (tab : list entry) e' : In (Some e') (fst (gen_cor_tab E c t meas tab)) ->
  exists e a, In e tab /\ upd_entry E c t meas e a = Some e'.
Proof.
  cbn [fst gen_cor_tab]. intros H. apply in_app_or in H as [H|H].
  - apply in_map_iff in H as [e [He Hi]]. exists e, 0%nat. auto.
  - apply in_concat in H as [l [Hl H]]. apply in_map_iff in Hl as [[j z] [<- Hjz]]. apply in_map_iff in H as [e [He Hi]]. cbn [fst snd] in He.
    exists e, (S j). split; [exact Hi|]. apply In_nth_error in Hjz as [k Hk]. apply combine_nth_error in Hk as [H1 H2].
    assert (Hkl : (k < length meas)%nat) by (apply nth_error_Some; congruence).
    assert (j = k). { apply (nth_error_nth _ _ 0%nat) in H1. rewrite seq_nth in H1 by assumption. lia. }
    subst j. cbn. rewrite H2. exact He.
Qed.
Lemma pick_in (tab : list (option entry)) l e : In e (pick tab l) -> In (Some e) tab.
Proof.
  intros H. apply in_flat_map in H as [i [_ H]]. destruct (nth_in_or_default i tab None) as [Hn|Hn].
  - destruct (nth i tab None) as [e'|]; [|destruct H]. destruct H as [<-|[]]. exact Hn.
  - rewrite Hn in H. destruct H.
Qed.
Lemma correct_tab_in c t meas s s' e' : correct E c t meas s = Ok s' -> In e' (g_tab s') ->
  exists e a, In e (g_tab s) /\ upd_entry E c t meas e a = Some e'.
Proof.
  intros H Hi. destruct (correct_inv _ _ _ _ _ _ H) as [hs [_ [Et _]]]. rewrite Et in Hi. apply pick_in in Hi. apply (cor_tab_in c t meas (g_tab s)), Hi.
Qed.
Lemma predict_tab_in c t s s' e' : predict E c t s = Ok s' -> In e' (g_tab s') ->
  (exists i b, (i < length (c_births c))%nat /\ nth_error (map fst (c_births c)) i = Some b /\ e' = birth_entry E c t (g_cnt s) i b) \/ (exists e, In e (g_tab s) /\ e' = pred_entry E c t e).
Proof.
  intros H Hi. destruct (predict_inv _ _ _ _ _ H) as [btab [lcost [paths [costs [bh [sh [E1 [_ [_ [_ [Et _]]]]]]]]]]].
  rewrite Et in Hi. apply in_app_or in Hi as [Hi|Hi].
  - left. apply bind_ok in E1 as [cs [_ E5]]. inversion E5 as [[Hbt Hcs]]. rewrite <- Hbt in Hi.
    apply in_map_iff in Hi as [[i b] [<- Hi]]. apply In_nth_error in Hi as [k Hk]. apply combine_nth_error in Hk as [H1 H2].
    assert (Hkl : (k < length (c_births c))%nat) by (apply nth_error_Some; congruence).
    assert (i = k). { apply (nth_error_nth _ _ 0%nat) in H1. rewrite seq_nth in H1 by assumption. lia. }
    subst i. exists k, (fst b). split; [exact Hkl|]. split; [apply map_nth_error, H2|reflexivity].
  - right. apply in_map_iff in Hi as [e [<- He]]. eauto.
Qed.
Lemma upd_label c t meas e a e' : upd_entry E c t meas e a = Some e' -> e_label e' = e_label e /\ e_time e' = e_time e /\
  exists x, e_assoc e' = e_assoc e ++ [x] /\ (forall m, x = Some m -> a = S m).
Proof.
  destruct a as [|j]; cbn.
  - intros H. inversion H; cbn. split; [reflexivity|]. split; [reflexivity|]. exists None. split; [reflexivity|discriminate].
  - destruct (nth_error meas j) as [z|]; [|discriminate]. unfold cor_entry. destruct (all_some _) as [rs|]; [|discriminate].
    cbn. intros H. inversion H; cbn. split; [reflexivity|]. split; [reflexivity|]. exists (Some j). split; [reflexivity|congruence].
Qed.

(** C49 *)
Definition lab_ne (e1 e2 : entry) : Prop := e_label e1 <> e_label e2.
Definition LInv (used : list Z) s : Prop := (forall e, In e (g_tab s) -> In (fst (e_label e)) used) /\ HInv lab_ne (g_tab s) (g_hyps s).
Lemma linv_exec c o s s' used : kshort_ok (v_kshort E) -> murty_ok (v_murty E) -> exec E c o s = Ok s' ->
  (forall t, o = OpPredict t -> ~ In (v_rnd E t) used) -> LInv used s ->
  LInv (match o with OpPredict t => v_rnd E t :: used | _ => used end) s'.
Proof.
  intros Hk Hm H Hnew [HU HI]. destruct o as [t|t meas|pr ca ex|u k]; cbn [exec] in H.
  - specialize (Hnew t eq_refl). split.
    + intros e' He'. destruct (predict_tab_in _ _ _ _ _ H He') as [[i [b [_ [_ ->]]]]|[e [He ->]]]; cbn; [left; reflexivity|right; apply HU, He].
    + apply (pairs_predict lab_ne lab_ne c t s s' Hk H HI); unfold lab_ne; cbn.
      * intros i j _ _ Hij b b' E0. inversion E0. contradiction.
      * intros i b e He. split; intros E0; apply Hnew; pose proof (HU e He) as Hi; [rewrite <- E0 in Hi|rewrite E0 in Hi]; exact Hi.
      * auto.
  - split.
    + intros e' He'. destruct (correct_tab_in _ _ _ _ _ _ H He') as [e [a [He Hu]]]. apply upd_label in Hu as [-> _]. apply HU, He.
    + apply (pairs_correct lab_ne lab_ne c t meas s s' Hm H HI). intros e1 e2 a b e1' e2' _ _ HD _ U1 U2. unfold lab_ne in *.
      apply upd_label in U1 as [-> _]. apply upd_label in U2 as [-> _]. exact HD.
  - destruct (cleanup_inv _ _ _ _ _ _ H) as [A [_ [B _]]]. split; rewrite A; [exact HU|]. eapply HInv_sub; eauto.
  - apply bind_ok in H as [[o s1] [H1 H]]. inversion H; subst. destruct (extract_tab _ _ _ _ _ _ H1) as [A [B _]]. split; rewrite A; [exact HU|rewrite B; exact HI].
Qed.
Lemma linv_run c os : forall s s' used, kshort_ok (v_kshort E) -> murty_ok (v_murty E) -> run E c os s = Ok s' ->
  NoDup (map (v_rnd E) (predict_times os)) -> (forall z, In z used -> ~ In z (map (v_rnd E) (predict_times os))) -> LInv used s -> exists used', LInv used' s'.
Proof.
  induction os as [|o os IH]; intros s s' used Hk Hm H Hnd Hdis HI; cbn in H; [inversion H; subst; eauto|].
  apply bind_ok in H as [s1 [H1 H]]. eapply (IH s1 s' _ Hk Hm H); [| |eapply linv_exec; eauto].
  - destruct o; cbn in Hnd; try exact Hnd. inversion Hnd; assumption.
  - destruct o as [t| | |]; cbn in Hdis, Hnd; try exact Hdis. intros z [<-|Hz]; [inversion Hnd; assumption|]. intros Hi. apply (Hdis z Hz). right. exact Hi.
  - intros t -> Hi. apply (Hdis _ Hi). cbn. left. reflexivity.
Qed.

(** C50, C61: protocol *)
Definition len_ok (ph cnt : nat) (e : entry) : Prop :=
  exists n, (1 <= n)%nat /\ length (e_st e) = n /\ length (e_w e) = n /\ length (e_cov e) = n /\
    length (e_assoc e) = (if (ph =? 1)%nat then n - 1 else n)%nat /\ (e_time e + n = if (ph =? 0)%nat then cnt else S cnt)%nat.
Definition disj (e1 e2 : entry) : Prop := ~ share_meas e1 e2.
Definition PInv (ph : nat) s : Prop := (forall e, In e (g_tab s) -> len_ok ph (g_cnt s) e) /\ HInv disj (g_tab s) (g_hyps s).
Lemma pred_assoc c t e : e_assoc (pred_entry E c t e) = e_assoc e /\ e_time (pred_entry E c t e) = e_time e.
Proof. split; reflexivity. Qed.
Lemma nth_error_nil' {A} k : nth_error (@nil A) k = None.
Proof. destruct k; reflexivity. Qed.
Lemma pinv_predict c t s s' : kshort_ok (v_kshort E) -> predict E c t s = Ok s' -> PInv 0 s -> PInv 1 s'.
Proof.
  intros Hk H [HL HI]. destruct (predict_inv _ _ _ _ _ H) as [_ [_ [_ [_ [_ [_ [_ [_ [_ [_ [_ [_ [_ [Ec _]]]]]]]]]]]]]]. split.
  - intros e' He'. rewrite Ec. destruct (predict_tab_in _ _ _ _ _ H He') as [[i [b [_ [_ ->]]]]|[e [He ->]]].
    + exists 1%nat. cbn. repeat split; lia.
    + destruct (HL e He) as [n [H1 [H2 [H3 [H4 [H5 H6]]]]]]. cbn in H5, H6. exists (S n). cbn. rewrite !app_length. cbn. repeat split; lia.
  - apply (pairs_predict disj disj c t s s' Hk H HI); unfold disj, share_meas; cbn.
    + intros i j _ _ _ b b' [a [a' [m [H1 _]]]]. rewrite nth_error_nil' in H1. discriminate.
    + intros i b e _. split; intros [a [a' [m [H1 [H2 _]]]]]; rewrite nth_error_nil' in *; discriminate.
    + auto.
Qed.
Lemma set_last_len {A} (l : list A) x : l <> [] -> length (set_last l x) = length l.
Proof.
  intros Hl. unfold set_last. rewrite app_length. cbn. pose proof (app_removelast_last x Hl) as Ha. rewrite Ha at 2. rewrite app_length. reflexivity.
Qed.
Lemma upd_len c t meas e a e' cnt : upd_entry E c t meas e a = Some e' -> len_ok 1 cnt e -> len_ok 2 cnt e'.
Proof.
  intros H [n [H1 [H2 [H3 [H4 [H5 H6]]]]]]. cbn in H5, H6. exists n. split; [exact H1|].
  assert (Hst : e_st e <> []) by (intros E0; rewrite E0 in H2; cbn in H2; lia).
  assert (Hw : e_w e <> []) by (intros E0; rewrite E0 in H3; cbn in H3; lia).
  assert (Hc : e_cov e <> []) by (intros E0; rewrite E0 in H4; cbn in H4; lia).
  destruct a as [|j]; cbn in H.
  - inversion H; cbn. rewrite app_length. cbn. repeat split; lia.
  - destruct (nth_error meas j) as [z|]; [|discriminate]. unfold cor_entry in H. destruct (all_some _) as [rs|]; [|discriminate].
    inversion H; cbn. rewrite app_length, !set_last_len by assumption. cbn. repeat split; lia.
Qed.
Lemma disj_upd c t meas cnt e1 e2 a b e1' e2' : len_ok 1 cnt e1 -> len_ok 1 cnt e2 -> disj e1 e2 -> (a = b -> a = 0%nat) ->
  upd_entry E c t meas e1 a = Some e1' -> upd_entry E c t meas e2 b = Some e2' -> disj e1' e2'.
Proof.
  intros [n1 [A1 [_ [_ [_ [A5 A6]]]]]] [n2 [B1 [_ [_ [_ [B5 B6]]]]]] HD Hab U1 U2. cbn in A5, A6, B5, B6.
  apply upd_label in U1 as [_ [T1 [x1 [S1 V1]]]]. apply upd_label in U2 as [_ [T2 [x2 [S2 V2]]]].
  intros [p [q [m [H1 [H2 H3]]]]]. rewrite S1 in H1. rewrite S2 in H2. rewrite T1, T2 in H3.
  assert (Hp : (p < length (e_assoc e1 ++ [x1]))%nat) by (apply nth_error_Some; congruence).
  assert (Hq : (q < length (e_assoc e2 ++ [x2]))%nat) by (apply nth_error_Some; congruence).
  rewrite app_length in Hp, Hq. cbn in Hp, Hq.
  destruct (Nat.eq_dec p (length (e_assoc e1))) as [->|Np].
  - assert (q = length (e_assoc e2)) by lia. subst q.
    rewrite nth_error_app2, Nat.sub_diag in H1 by lia. rewrite nth_error_app2, Nat.sub_diag in H2 by lia. cbn in H1, H2.
    inversion H1; inversion H2; subst. rewrite (V1 m eq_refl), (V2 m eq_refl) in Hab. specialize (Hab eq_refl). discriminate.
  - rewrite nth_error_app1 in H1 by lia. rewrite nth_error_app1 in H2 by lia. apply HD. exists p, q, m. auto.
Qed.
Lemma pinv_correct c t meas s s' : murty_ok (v_murty E) -> correct E c t meas s = Ok s' -> PInv 1 s -> PInv 2 s'.
Proof.
  intros Hm H [HL HI]. destruct (correct_inv _ _ _ _ _ _ H) as [_ [_ [_ [_ [_ [Ec _]]]]]]. split.
  - intros e' He'. rewrite Ec. destruct (correct_tab_in _ _ _ _ _ _ H He') as [e [a [He Hu]]]. eapply upd_len; eauto.
  - apply (pairs_correct disj disj c t meas s s' Hm H HI). intros e1 e2 a b e1' e2' I1 I2 HD Hab U1 U2.
    eapply (disj_upd c t meas (g_cnt s) e1 e2); eauto.
Qed.
Lemma pinv_run c os : forall ph ph' s s', kshort_ok (v_kshort E) -> murty_ok (v_murty E) -> run E c os s = Ok s' ->
  protocol ph os = Some ph' -> PInv ph s -> PInv ph' s'.
Proof.
  induction os as [|o os IH]; intros ph ph' s s' Hk Hm H Hpr HI; cbn in H; [inversion H; subst; cbn in Hpr; inversion Hpr; subst; exact HI|].
  apply bind_ok in H as [s1 [H1 H]]. destruct o as [t|t meas|pr ca ex|u k]; cbn in Hpr, H1.
  - destruct ph as [|ph]; [|discriminate]. exact (IH _ _ _ _ Hk Hm H Hpr (pinv_predict _ _ _ _ Hk H1 HI)).
  - destruct ph as [|[|ph]]; try discriminate. exact (IH _ _ _ _ Hk Hm H Hpr (pinv_correct _ _ _ _ _ Hm H1 HI)).
  - destruct ph as [|[|[|ph]]]; try discriminate. apply (IH 0%nat ph' s1 s' Hk Hm H Hpr).
    destruct (cleanup_inv _ _ _ _ _ _ H1) as [A [B [C _]]]. destruct HI as [HL HI]. split; rewrite A; [rewrite B; exact HL|]. eapply HInv_sub; eauto.
  - apply bind_ok in H1 as [[o s2] [H1 H2]]. inversion H2; subst s2. destruct (extract_tab _ _ _ _ _ _ H1) as [A [B [C _]]].
    apply (IH ph ph' s1 s' Hk Hm H Hpr). destruct HI as [HL HI]. split; [rewrite A, C; exact HL|rewrite A, B; exact HI].
Qed.
End P.
