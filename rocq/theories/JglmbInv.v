(** Invariants of the joint GLMB model over histories. *)
From Verif Require Import Base Lists.
From Coq Require Import Reals Permutation Lra.
From Verif Require Import OspaModel CphdModel OspaProofs CphdSpec CphdProofs OspaMetric GlmbModel GlmbSpec GlmbProofs GlmbInv JglmbModel JglmbSpec JglmbProofs.
Open Scope R_scope.

Lemma pairs_map_seq {A} (D : A -> A -> Prop) l : pairs D l -> forall es, Forall2 (fun i e => nth_error l i = Some e) (seq 0 (length l)) es -> pairs D es.
Proof.
  intros H es HF i j x y Hij Hi Hj.
  destruct (F2_nth_r _ _ _ _ _ HF Hi) as [a [Ha Hx]]. destruct (F2_nth_r _ _ _ _ _ HF Hj) as [b [Hb Hy]].
  assert (Hs : forall i a, nth_error (seq 0 (length l)) i = Some a -> a = i).
  { intros p q Hp. assert (Hl : (p < length l)%nat) by (rewrite <- (seq_length (length l) 0); apply nth_error_Some; congruence).
    apply (nth_error_nth _ _ 0%nat) in Hp. rewrite seq_nth in Hp by exact Hl. lia. }
  rewrite (Hs _ _ Ha) in Hx. rewrite (Hs _ _ Hb) in Hy. exact (H i j x y Hij Hx Hy).
Qed.
Lemma F2_map_l {A B C} (P : B -> C -> Prop) (f : A -> B) l l' : Forall2 P (map f l) l' <-> Forall2 (fun a c => P (f a) c) l l'.
Proof.
  revert l'. induction l as [|a l IH]; intros l'; cbn [map]; split; intros H; inversion H; subst; constructor; try assumption; apply IH; assumption.
Qed.
Lemma F2_map_r {A B C} (P : A -> C -> Prop) (f : B -> C) l l' : Forall2 (fun a b => P a (f b)) l l' -> Forall2 P l (map f l').
Proof. intros H. induction H; cbn; constructor; assumption. Qed.

Section P.
Context {FS ST CV MS : Type}.
Variable E : genv FS ST CV MS.
Variable G : sampler.
Notation entry := (entry FS ST CV).
Notation gcfg := (gcfg ST CV).
Notation jst := (jst FS ST CV MS).
Notation gop := (gop MS).
Implicit Types (c : gcfg) (s : jst).

(** The table ends with the [y_old] tracks the hypotheses refer to. *)
Definition JInv (D : entry -> entry -> Prop) s : Prop := exists pre base,
  g_tab (y_g s) = pre ++ base /\ length base = y_old s /\ HInv D base (g_hyps (y_g s)) /\ pairs D pre /\
  forall x y, In x pre -> In y base -> D x y /\ D y x.

Lemma jinv_tind D c s h es : JInv D s -> In h (g_hyps (y_g s)) ->
  (length (c_births c) + y_old s = length (g_tab (y_g s)) \/ length (g_tab (y_g s)) = 1)%nat ->
  (forall i, In i (tindices c h) -> (i < length (c_births c) + y_old s)%nat) ->
  Forall2 (fun i e => nth_error (g_tab (y_g s)) i = Some e) (tindices c h) es -> pairs D es.
Proof.
  intros [pre [base [Et [Lb [HI [HP HX]]]]]] Hh Hk HB HF. set (nb := length (c_births c)) in *.
  destruct (Nat.eq_dec (length pre) nb) as [Ep|Np].
  - unfold tindices in HF. fold nb in HF. apply Forall2_app_inv_l in HF as [es1 [es2 [F1 [F2 ->]]]].
    assert (G1 : Forall2 (fun i e => nth_error pre i = Some e) (seq 0 (length pre)) es1).
    { rewrite Ep. eapply F2_impl; [|exact F1]. intros i e Hi He. apply in_seq in Hi. rewrite Et, nth_error_app1 in He by lia. exact He. }
    destruct (HI h Hh) as [es0 [F0 P0]].
    assert (es2 = es0).
    { apply F2_map_l in F2. rewrite <- (tracks_view _ _ _ F0), <- (tracks_view base h es2); [reflexivity|].
      eapply F2_impl; [|exact F2]. intros i e Hi He. rewrite Et, nth_error_app2 in He by lia. rewrite <- Ep in He. replace (length pre + i - length pre)%nat with i in He by lia. exact He. }
    subst es0. apply pairs_app; [exact (pairs_map_seq D pre HP es1 G1)|exact P0|].
    intros x y Hx Hy. apply HX.
    + apply In_nth_error in Hx as [q Hq]. destruct (F2_nth_r _ _ _ _ _ G1 Hq) as [i [_ Hi]]. exact (nth_error_In _ _ Hi).
    + apply In_nth_error in Hy as [q Hq]. destruct (F2_nth_r _ _ _ _ _ F0 Hq) as [i [_ Hi]]. exact (nth_error_In _ _ Hi).
  - assert (Ln : length (g_tab (y_g s)) = (length pre + y_old s)%nat) by (rewrite Et, app_length; lia).
    assert (L1 : length (g_tab (y_g s)) = 1%nat) by (destruct Hk; lia).
    apply pairs_short. rewrite <- (F2_len _ _ _ HF).
    assert (H0 : forall i, In i (tindices c h) -> i = 0%nat).
    { intros i Hi. apply In_nth_error in Hi as [q Hq]. destruct (F2_nth_l _ _ _ _ _ HF Hq) as [e [_ He]].
      assert (i < length (g_tab (y_g s)))%nat by (apply nth_error_Some; congruence). lia. }
    unfold tindices in *. fold nb in H0, HB |- *. rewrite app_length, seq_length, map_length.
    destruct nb as [|[|nb]].
    + destruct (h_ts h) as [|x ts]; [cbn; lia|]. exfalso. specialize (HB x). cbn in HB. specialize (HB (or_introl eq_refl)).
      assert (y_old s = 1%nat) by lia. lia.
    + destruct (h_ts h) as [|x ts]; [cbn; lia|]. exfalso. specialize (H0 (1 + x)%nat). cbn in H0. specialize (H0 (or_intror (or_introl eq_refl))). lia.
    + exfalso. specialize (H0 1%nat). cbn in H0. specialize (H0 (or_intror (or_introl eq_refl))). lia.
Qed.
Lemma jinv_new D : JInv D jst_new.
Proof. exists [], []. split; [reflexivity|]. split; [reflexivity|]. split; [exact (hinv_new D)|]. split; [apply pairs_nil|]. intros x y []. Qed.
Lemma jinv_predict (D D' : entry -> entry -> Prop) c t s s' : jpredict E c t s = Ok s' -> JInv D s ->
  (forall i j b b', i <> j -> D' (birth_entry E c t (g_cnt (y_g s)) i b) (birth_entry E c t (g_cnt (y_g s)) j b')) ->
  (forall i b e, In e (g_tab (y_g s)) -> D' (birth_entry E c t (g_cnt (y_g s)) i b) (pred_entry E c t e) /\ D' (pred_entry E c t e) (birth_entry E c t (g_cnt (y_g s)) i b)) ->
  (forall e1 e2, D e1 e2 -> D' (pred_entry E c t e1) (pred_entry E c t e2)) ->
  JInv D' s'.
Proof.
  intros H [pre [base [Et [Lb [HI [HP HX]]]]]] HB HBP HPP. destruct (jpredict_inv _ _ _ _ _ H) as [T [Hh [_ [_ [_ [_ [Ho _]]]]]]].
  exists (jbirth_tab E c t (g_cnt (y_g s)) ++ map (pred_entry E c t) pre), (map (pred_entry E c t) base).
  assert (Hbi : forall x, In x (jbirth_tab E c t (g_cnt (y_g s))) -> exists i b, x = birth_entry E c t (g_cnt (y_g s)) i b).
  { intros x Hx. apply In_nth_error in Hx as [q Hq]. destruct (jbirth_nth _ _ _ _ _ _ Hq) as [b ->]. eauto. }
  assert (Hin1 : forall x, In x pre -> In x (g_tab (y_g s))) by (intros x Hx; rewrite Et; apply in_or_app; auto).
  assert (Hin2 : forall x, In x base -> In x (g_tab (y_g s))) by (intros x Hx; rewrite Et; apply in_or_app; auto).
  split; [rewrite T, Et, map_app, app_assoc; reflexivity|]. split; [rewrite map_length; congruence|]. split; [|split].
  - rewrite Hh. intros h Hh'. destruct (HI h Hh') as [es [F0 P0]]. exists (map (pred_entry E c t) es). split.
    + apply F2_map_r. eapply F2_impl; [|exact F0]. cbn beta. intros i e _ He. exact (map_nth_error _ _ _ He).
    + apply pairs_map. eapply pairs_impl; [|exact P0]. intros x y _ _. apply HPP.
  - apply pairs_app.
    + intros i j x y Hij Hi Hj. destruct (jbirth_nth _ _ _ _ _ _ Hi) as [b ->]. destruct (jbirth_nth _ _ _ _ _ _ Hj) as [b' ->]. apply HB, Hij.
    + apply pairs_map. eapply pairs_impl; [|exact HP]. intros x y _ _. apply HPP.
    + intros x y Hx Hy. destruct (Hbi x Hx) as [i [b ->]]. apply in_map_iff in Hy as [e [<- He]]. apply HBP, Hin1, He.
  - intros x y Hx Hy. apply in_map_iff in Hy as [e [<- He]]. apply in_app_or in Hx as [Hx|Hx].
    + destruct (Hbi x Hx) as [i [b ->]]. apply HBP, Hin2, He.
    + apply in_map_iff in Hx as [e1 [<- He1]]. destruct (HX e1 e He1 He) as [A B]. split; apply HPP; assumption.
Qed.
Lemma jinv_correct (D D' : entry -> entry -> Prop) gt c t meas s s' : gibbs_ok G -> jcorrect E G gt c t meas s = Ok s' -> JInv D s ->
  (forall e1 e2 a b e1' e2', In e1 (g_tab (y_g s)) -> In e2 (g_tab (y_g s)) -> D e1 e2 -> (a = b -> a = 0%nat) ->
     upd_entry E c t meas e1 a = Some e1' -> upd_entry E c t meas e2 b = Some e2' -> D' e1' e2') ->
  JInv D' s'.
Proof.
  intros Hg H HI HD. destruct (jcorrect_inv _ _ _ _ _ _ _ _ H) as [hs [Hk [_ [_ [_ [_ [_ [_ [_ [_ [Ho _]]]]]]]]]]].
  exists [], (g_tab (y_g s')). split; [reflexivity|]. split; [symmetry; exact Ho|]. split; [|split; [apply pairs_nil|intros x y []]].
  apply (jpairs_correct E G D D' gt c t meas s s' Hg H); [|exact HD]. intros h es Hh HB HF. exact (jinv_tind D c s h es HI Hh Hk HB HF).
Qed.
Lemma jinv_sub D s g' : JInv D s -> g_tab g' = g_tab (y_g s) -> subhyps (g_hyps g') (g_hyps (y_g s)) -> JInv D (with_g s g').
Proof.
  intros [pre [base [Et [Lb [HI [HP HX]]]]]] A B. exists pre, base. cbn [y_g with_g y_old]. split; [congruence|]. split; [exact Lb|]. split; [exact (HInv_sub D base _ _ B HI)|]. auto.
Qed.
Lemma jrest gt c o s s' : jexec E G gt c o s = Ok s' ->
  match o with
  | OpPredict t => jpredict E c t s = Ok s'
  | OpCorrect t meas => jcorrect E G gt c t meas s = Ok s'
  | OpCleanup _ _ _ => exists g', s' = with_g s g' /\ g_tab g' = g_tab (y_g s) /\ subhyps (g_hyps g') (g_hyps (y_g s)) /\ g_cnt g' = S (g_cnt (y_g s))
  | OpExtract _ _ => exists g', s' = with_g s g' /\ g_tab g' = g_tab (y_g s) /\ g_hyps g' = g_hyps (y_g s) /\ g_cnt g' = g_cnt (y_g s) /\ g_card g' = g_card (y_g s)
  end.
Proof.
  intros H. destruct o as [t|t meas|pr ca ex|u k]; cbn [jexec] in H; try exact H.
  - apply bind_ok in H as [g' [H1 H]]. injection H as <-. destruct (cleanup_inv _ _ _ _ _ _ _ H1) as [A [B [C _]]]. exists g'. auto.
  - apply bind_ok in H as [[oo g'] [H1 H]]. injection H as <-. destruct (extract_tab _ _ _ _ _ _ H1) as [A [B [C D]]]. exists g'. auto.
Qed.

(** Any relation kept by all operations. *)
Lemma jtrue_run gt c os : forall s s', gibbs_ok G -> jrun E G gt c os s = Ok s' -> JInv (fun _ _ => True) s -> JInv (fun _ _ => True) s'.
Proof.
  induction os as [|o os IH]; intros s s' Hg H HI; cbn [jrun] in H; [injection H as <-; exact HI|].
  apply bind_ok in H as [s1 [H1 H]]. apply (IH s1 s' Hg H). apply jrest in H1. destruct o as [t|t meas|pr ca ex|u k].
  - apply (jinv_predict _ _ _ _ _ _ H1 HI); auto.
  - apply (jinv_correct _ _ _ _ _ _ _ _ Hg H1 HI); auto.
  - destruct H1 as [g' [-> [A [B _]]]]. exact (jinv_sub _ _ _ HI A B).
  - destruct H1 as [g' [-> [A [B _]]]]. apply (jinv_sub _ _ _ HI A). rewrite B. apply subhyps_refl.
Qed.
Lemma jinv_refs D s : JInv D s -> refs_ok (skipn (length (g_tab (y_g s)) - y_old s) (g_tab (y_g s))) (g_hyps (y_g s)) /\ (y_old s <= length (g_tab (y_g s)))%nat.
Proof.
  intros [pre [base [Et [Lb [HI _]]]]]. rewrite Et, app_length, Lb. replace (length pre + y_old s - y_old s)%nat with (length pre) by lia.
  rewrite skipn_app, skipn_all, Nat.sub_diag. cbn [app skipn]. split; [exact (hinv_refs _ _ _ HI)|lia].
Qed.

(** no index twice *)
Definition NDInv s : Prop := forall h, In h (g_hyps (y_g s)) -> NoDup (h_ts h).
Lemma nd_sub s g' : NDInv s -> subhyps (g_hyps g') (g_hyps (y_g s)) -> NDInv (with_g s g').
Proof. intros H B h Hh. destruct (B h Hh) as [->|[h0 [Hh0 <-]]]; [constructor|exact (H h0 Hh0)]. Qed.
Lemma nodup_map_inj {A B} (f : A -> B) l : NoDup l -> (forall x y, In x l -> In y l -> f x = f y -> x = y) -> NoDup (map f l).
Proof.
  induction l as [|x l IH]; intros H Hf; cbn [map]; [constructor|]. inversion H; subst. constructor.
  - intros Hi. apply in_map_iff in Hi as [y [Ey Hy]]. apply Hf in Ey; [subst; contradiction|right; exact Hy|left; reflexivity].
  - apply IH; [assumption|]. intros a b Ha Hb. apply Hf; right; assumption.
Qed.
Lemma nodup_combine_fst {A B} (l : list A) (l' : list B) f : NoDup l -> NoDup (map fst (filter f (combine l l'))).
Proof.
  revert l'. induction l as [|x l IH]; intros [|y l'] H; cbn [combine filter map]; try constructor.
  inversion H; subst. destruct (f (x, y)); cbn [map fst]; [|apply IH; assumption]. constructor; [|apply IH; assumption].
  intros Hi. apply in_map_iff in Hi as [[a b] [Ea Hab]]. cbn in Ea. subst a. apply filter_In in Hab as [Hab _]. apply in_combine_l in Hab. contradiction.
Qed.
Lemma nd_tind c h : NoDup (h_ts h) -> NoDup (tindices c h).
Proof.
  intros H. unfold tindices. apply nodup_app'; [apply seq_NoDup| |].
  - apply nodup_map_inj; [exact H|]. intros; lia.
  - intros i Hi Hj. apply in_seq in Hi. apply in_map_iff in Hj as [x [E0 _]]. lia.
Qed.
Lemma nd_decode n tind row : NoDup tind -> (forall i, In i tind -> (i < n)%nat) -> NoDup (decode n tind row).
Proof.
  intros H Hn. rewrite decode_live. set (l := filter _ _).
  assert (Hf : NoDup (map fst l)) by (apply nodup_combine_fst, H).
  assert (Hl : forall iv, In iv l -> (fst iv < n)%nat).
  { intros [i v] Hi. apply filter_In in Hi as [Hi _]. apply in_combine_l in Hi. exact (Hn i Hi). }
  apply nodup_map_inj; [exact (NoDup_map_inv _ _ Hf)|]. intros x y Hx Hy E0.
  assert (Ex : fst x = fst y).
  { pose proof (Hl x Hx) as B1. pose proof (Hl y Hy) as B2.
    rewrite <- (Nat.mod_small (fst x) n B1), <- (Nat.mod_small (fst y) n B2), <- (Nat.mod_add (fst x) (assoc_of (length tind) (snd x)) n) by lia.
    rewrite <- (Nat.mod_add (fst y) (assoc_of (length tind) (snd y)) n) by lia. f_equal. lia. }
  revert Hf Hx Hy Ex. clear. induction l as [|a l IH]; intros Hf Hx Hy Ex; [destruct Hx|]. cbn [map] in Hf. inversion Hf; subst.
  destruct Hx as [->|Hx]; destruct Hy as [->|Hy]; [reflexivity| | |exact (IH H2 Hx Hy Ex)]; exfalso; apply H1; [rewrite Ex; apply in_map; exact Hy|rewrite <- Ex; apply in_map; exact Hx].
Qed.
Lemma nd_reindex nnz h h' : In h' (reindex nnz h) -> NoDup (h_ts h) -> NoDup (h_ts h').
Proof.
  intros H Hn. apply reindex_in in H as [_ H]. revert H Hn. generalize (h_ts h) as ts. induction (h_ts h') as [|k ks IH]; intros ts H Hn; [constructor|].
  destruct ts as [|i ts]; [discriminate|]. cbn [map] in H. injection H as Hk H. inversion Hn; subst. constructor; [|exact (IH ts H H3)].
  intros Hin. assert (Hm : In (Some k) (map Some ks)) by (apply in_map; exact Hin). rewrite H in Hm. apply in_map_iff in Hm as [j [Ej Hj]].
  symmetry in Hk. apply index_of_some in Hk, Ej. assert (i = j) by congruence. subst. contradiction.
Qed.
Lemma nd_correct gt c t meas s s' : gibbs_ok G -> jcorrect E G gt c t meas s = Ok s' -> NDInv s -> NDInv s'.
Proof.
  intros Hg H HI h' Hi. destruct (jcorrect_inv _ _ _ _ _ _ _ _ H) as [hs [_ [_ [E1 [_ [Eh _]]]]]]. rewrite Eh in Hi. apply in_flat_map in Hi as [h1 [Hh1 Hi]].
  apply (nd_reindex _ _ _ Hi). destruct (clean_in _ _ _ Hh1) as [h2 [Hh2 <-]].
  destruct (jcor_hyps_in _ _ _ _ _ _ _ _ _ _ _ Hg E1 Hh2) as [h [row [Hh [HB [_ [_ [_ ->]]]]]]]. apply nd_decode; [apply nd_tind, HI, Hh|]. intros i Hin. exact (proj1 (HB i Hin)).
Qed.
Lemma nd_run gt c os : forall s s', gibbs_ok G -> jrun E G gt c os s = Ok s' -> NDInv s -> NDInv s'.
Proof.
  induction os as [|o os IH]; intros s s' Hg H HI; cbn [jrun] in H; [injection H as <-; exact HI|].
  apply bind_ok in H as [s1 [H1 H]]. apply (IH s1 s' Hg H). apply jrest in H1. destruct o as [t|t meas|pr ca ex|u k].
  - destruct (jpredict_inv _ _ _ _ _ H1) as [_ [Hh _]]. unfold NDInv. rewrite Hh. exact HI.
  - exact (nd_correct _ _ _ _ _ _ Hg H1 HI).
  - destruct H1 as [g' [-> [A [B _]]]]. exact (nd_sub _ _ HI B).
  - destruct H1 as [g' [-> [A [B _]]]]. apply (nd_sub _ _ HI). rewrite B. apply subhyps_refl.
Qed.
Lemma nd_new : NDInv jst_new.
Proof. intros h [<-|[]]. constructor. Qed.

(** labels *)
Definition JLInv (used : list Z) s : Prop := (forall e, In e (g_tab (y_g s)) -> In (fst (e_label e)) used) /\ JInv lab_ne s.
Lemma jtab_in c t s s' e' : jpredict E c t s = Ok s' -> In e' (g_tab (y_g s')) ->
  (exists i b, e' = birth_entry E c t (g_cnt (y_g s)) i b) \/ exists e, In e (g_tab (y_g s)) /\ e' = pred_entry E c t e.
Proof.
  intros H Hi. destruct (jpredict_inv _ _ _ _ _ H) as [T _]. rewrite T in Hi. apply in_app_or in Hi as [Hi|Hi].
  - left. apply In_nth_error in Hi as [q Hq]. destruct (jbirth_nth _ _ _ _ _ _ Hq) as [b ->]. eauto.
  - right. apply in_map_iff in Hi as [e [<- He]]. eauto.
Qed.
Lemma jlinv_exec gt c o s s' used : gibbs_ok G -> jexec E G gt c o s = Ok s' ->
  (forall t, o = OpPredict t -> ~ In (v_rnd E t) used) -> JLInv used s ->
  JLInv (match o with OpPredict t => v_rnd E t :: used | _ => used end) s'.
Proof.
  intros Hg H Hnew [HU HI]. apply jrest in H. destruct o as [t|t meas|pr ca ex|u k].
  - specialize (Hnew t eq_refl). split.
    + intros e' He'. destruct (jtab_in _ _ _ _ _ H He') as [[i [b ->]]|[e [He ->]]]; cbn; [left; reflexivity|right; apply HU, He].
    + apply (jinv_predict lab_ne lab_ne c t s s' H HI); unfold lab_ne; cbn.
      * intros i j b b' Hij E0. inversion E0. contradiction.
      * intros i b e He. split; intros E0; apply Hnew; pose proof (HU e He) as Hi; [rewrite <- E0 in Hi|rewrite E0 in Hi]; exact Hi.
      * auto.
  - split.
    + intros e' He'. destruct (jcorrect_tab_in _ _ _ _ _ _ _ _ _ H He') as [e [a [He Hu]]]. apply upd_label in Hu as [-> _]. apply HU, He.
    + apply (jinv_correct lab_ne lab_ne gt c t meas s s' Hg H HI). intros e1 e2 a b e1' e2' _ _ HD _ U1 U2. unfold lab_ne in *.
      apply upd_label in U1 as [-> _]. apply upd_label in U2 as [-> _]. exact HD.
  - destruct H as [g' [-> [A [B _]]]]. split; [cbn; rewrite A; exact HU|exact (jinv_sub _ _ _ HI A B)].
  - destruct H as [g' [-> [A [B _]]]]. split; [cbn; rewrite A; exact HU|]. apply (jinv_sub _ _ _ HI A). rewrite B. apply subhyps_refl.
Qed.
Lemma jlinv_run gt c os : forall s s' used, gibbs_ok G -> jrun E G gt c os s = Ok s' ->
  NoDup (map (v_rnd E) (predict_times os)) -> (forall z, In z used -> ~ In z (map (v_rnd E) (predict_times os))) -> JLInv used s ->
  exists used', JLInv used' s' /\ forall z, In z used' -> In z used \/ In z (map (v_rnd E) (predict_times os)).
Proof.
  induction os as [|o os IH]; intros s s' used Hg H Hnd Hdis HI; cbn [jrun] in H; [injection H as <-; eauto|].
  apply bind_ok in H as [s1 [H1 H]]. destruct (IH s1 s' (match o with OpPredict t => v_rnd E t :: used | _ => used end) Hg H) as [used' [A B]].
  - destruct o; cbn in Hnd; try exact Hnd. inversion Hnd; assumption.
  - destruct o as [t| | |]; cbn in Hdis, Hnd; try exact Hdis. intros z [<-|Hz]; [inversion Hnd; assumption|]. intros Hi. apply (Hdis z Hz). right. exact Hi.
  - apply (jlinv_exec _ _ _ _ _ _ Hg H1); [|exact HI]. intros t -> Hi. apply (Hdis _ Hi). cbn. left. reflexivity.
  - exists used'. split; [exact A|]. intros z Hz. destruct (B z Hz) as [Hu|Hu].
    + destruct o as [t| | |]; cbn in Hu |- *; auto. destruct Hu as [<-|Hu]; auto.
    + right. destruct o; cbn; auto.
Qed.

(** protocol: histories and exclusive use of measurements *)
Definition JPInv (ph : nat) s : Prop := (forall e, In e (g_tab (y_g s)) -> len_ok ph (g_cnt (y_g s)) e) /\ JInv disj s.
Lemma jpinv_predict c t s s' : jpredict E c t s = Ok s' -> JPInv 0 s -> JPInv 1 s'.
Proof.
  intros H [HL HI]. destruct (jpredict_inv _ _ _ _ _ H) as [_ [_ [_ [Ec _]]]]. split.
  - intros e' He'. rewrite Ec. destruct (jtab_in _ _ _ _ _ H He') as [[i [b ->]]|[e [He ->]]].
    + exists 1%nat. cbn. repeat split; lia.
    + destruct (HL e He) as [n [H1 [H2 [H3 [H4 [H5 H6]]]]]]. cbn in H5, H6. exists (S n). cbn. rewrite !app_length. cbn. repeat split; lia.
  - apply (jinv_predict disj disj c t s s' H HI); unfold disj, share_meas; cbn.
    + intros i j b b' _ [a [a' [m [H1 _]]]]. rewrite nth_error_nil' in H1. discriminate.
    + intros i b e _. split; intros [a [a' [m [H1 [H2 _]]]]]; rewrite nth_error_nil' in *; discriminate.
    + auto.
Qed.
Lemma jpinv_correct gt c t meas s s' : gibbs_ok G -> jcorrect E G gt c t meas s = Ok s' -> JPInv 1 s -> JPInv 2 s'.
Proof.
  intros Hg H [HL HI]. destruct (jcorrect_inv _ _ _ _ _ _ _ _ H) as [hs [_ [_ [_ [_ [_ [_ [Ec _]]]]]]]]. split.
  - intros e' He'. rewrite Ec. destruct (jcorrect_tab_in _ _ _ _ _ _ _ _ _ H He') as [e [a [He Hu]]]. exact (upd_len _ _ _ _ _ _ _ _ Hu (HL e He)).
  - apply (jinv_correct disj disj gt c t meas s s' Hg H HI). intros e1 e2 a b e1' e2' I1 I2 HD Hab U1 U2.
    exact (disj_upd E c t meas _ e1 e2 a b e1' e2' (HL e1 I1) (HL e2 I2) HD Hab U1 U2).
Qed.
Lemma jpinv_run gt c os : forall ph ph' s s', gibbs_ok G -> jrun E G gt c os s = Ok s' -> protocol ph os = Some ph' -> JPInv ph s -> JPInv ph' s'.
Proof.
  induction os as [|o os IH]; intros ph ph' s s' Hg H Hpr HI; cbn [jrun] in H; [injection H as <-; cbn in Hpr; injection Hpr as <-; exact HI|].
  apply bind_ok in H as [s1 [H1 H]]. apply jrest in H1. destruct o as [t|t meas|pr ca ex|u k]; cbn [protocol] in Hpr.
  - destruct ph as [|ph]; [|discriminate]. exact (IH _ _ _ _ Hg H Hpr (jpinv_predict _ _ _ _ H1 HI)).
  - destruct ph as [|[|ph]]; try discriminate. exact (IH _ _ _ _ Hg H Hpr (jpinv_correct _ _ _ _ _ _ Hg H1 HI)).
  - destruct ph as [|[|[|ph]]]; try discriminate. apply (IH 0%nat ph' s1 s' Hg H Hpr). destruct H1 as [g' [-> [A [B C]]]]. destruct HI as [HL HI].
    split; [cbn; rewrite A, C; exact HL|exact (jinv_sub _ _ _ HI A B)].
  - apply (IH ph ph' s1 s' Hg H). { destruct ph; exact Hpr. } destruct H1 as [g' [-> [A [B [C _]]]]]. destruct HI as [HL HI].
    split; [cbn; rewrite A, C; exact HL|]. apply (jinv_sub _ _ _ HI A). rewrite B. apply subhyps_refl.
Qed.
Lemma jpinv_new : JPInv 0 jst_new.
Proof. split; [intros e []|exact (jinv_new disj)]. Qed.
End P.
