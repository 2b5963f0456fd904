(** Invariants of the SMC joint GLMB model. *)
From Verif Require Import Base Lists.
From Coq Require Import Reals Permutation Lra.
From Verif Require Import OspaModel CphdModel OspaProofs CphdSpec CphdProofs OspaMetric GlmbModel GlmbSpec GlmbProofs GlmbInv GlmbExtract GlmbMost GlmbTotal GlmbProps GlmbBayes.
From Verif Require Import JglmbModel JglmbSpec JglmbProofs JglmbInv GibbsReal JglmbGibbs JglmbProps JglmbTotal SmcModel SmcSpec SmcProofs SmcBayes SmcUpd SmcTotal SmcJModel.
Open Scope R_scope.

Section P.
Context {P X ST CV MS : Type}.
Variable Z : senv P X ST CV MS.
Variable G : sampler.
Notation pfs := (pfs P X).
Notation E := (z_g Z).
Notation entry := (entry pfs ST CV).
Notation gcfg := (gcfg ST CV).
Notation jst := (jst pfs ST CV MS).
Notation sop := (sop P MS).
Notation birth := (pfs * ST * CV * R)%type.
Implicit Types (c : gcfg) (s : jst) (bs : list birth) (psf pdf : list P -> list R).

Lemma sjcfg_len c bs : length (c_births (sjcfg c bs)) = length bs.
Proof. apply map_length. Qed.
Lemma sjpredict_inv psf c bs t s s' : sjpredict Z psf c bs t s = Ok s' -> exists stab, mapM (spred_entry Z psf c t) (g_tab (y_g s)) = Ok stab /\
  g_tab (y_g s') = sbirth_tab Z c bs t (g_cnt (y_g s)) ++ stab /\ g_hyps (y_g s') = g_hyps (y_g s) /\ g_card (y_g s') = g_card (y_g s) /\
  g_cnt (y_g s') = g_cnt (y_g s) /\ g_ext (y_g s') = g_ext (y_g s) /\ y_old s' = y_old s /\ y_calls s' = y_calls s.
Proof. unfold sjpredict. intros H. apply bind_ok in H as [u [_ H]]. apply bind_ok in H as [stab [Hs H]]. injection H as <-. exists stab. repeat split; try reflexivity. exact Hs. Qed.
Lemma sjcorrect_inv gt pdf c bs t meas s s' : sjcorrect G Z gt pdf c bs t meas s = Ok s' -> exists rows hs,
  let tab := g_tab (y_g s) in let k := (length bs + y_old s)%nat in let cor := scor_tab rows tab in
  scor_rows Z pdf c t meas tab = Ok rows /\
  (k = length tab \/ length tab = 1%nat) /\
  jcor_hyps E G (sjcfg c bs) k (length tab) (length meas) (scor_cost rows) (y_calls s) (g_hyps (y_g s)) = Ok hs /\
  g_tab (y_g s') = pick cor (nnz_inds cor (clean_predictions E hs)) /\
  g_hyps (y_g s') = flat_map (reindex (nnz_inds cor (clean_predictions E hs))) (clean_predictions E hs) /\
  g_card (y_g s') = calc_card hs /\ g_cnt (y_g s') = g_cnt (y_g s) /\ g_ext (y_g s') = g_ext (y_g s) /\
  y_old s' = length (g_tab (y_g s')).
Proof.
  unfold sjcorrect. cbn zeta. intros H. apply bind_ok in H as [rows [Er H]]. destruct (_ || _)%bool eqn:Eo; cbn [negb] in H; [|discriminate].
  destruct (gt && _)%bool eqn:Eg; [discriminate|]. apply bind_ok in H as [hs [E1 H]].
  rewrite clean_updates_eq in H. injection H as <-. exists rows, hs. cbn [y_g g_tab g_hyps g_card g_cnt g_ext g_meas y_old y_calls].
  apply Bool.orb_true_iff in Eo. rewrite !Nat.eqb_eq in Eo. repeat split; try reflexivity; assumption.
Qed.
(** the tracks of a new hypothesis *)
Lemma sjcorrect_view gt pdf c bs t meas s s' h' : gibbs_ok G -> sjcorrect G Z gt pdf c bs t meas s = Ok s' -> In h' (g_hyps (y_g s')) ->
  exists h row es es', In h (g_hyps (y_g s)) /\ NoDup row /\ length row = length es /\
    (forall i, In i (tindices (sjcfg c bs) h) -> (i < length (c_births (sjcfg c bs)) + y_old s)%nat) /\
    Forall2 (fun i e => nth_error (g_tab (y_g s)) i = Some e) (tindices (sjcfg c bs) h) es /\
    Forall2 (fun k e' => nth_error (g_tab (y_g s')) k = Some e') (h_ts h') es' /\
    Forall2 (fun ea e' => supd Z pdf c t meas (fst ea) (assoc_of (length es) (snd ea)) e') (filter (fun ev => (length es <=? snd ev)%nat) (combine es row)) es'.
Proof.
  intros Hg H Hi. destruct (sjcorrect_inv _ _ _ _ _ _ _ _ H) as [rows [hs [Er [_ [E1 [Et [Eh _]]]]]]]. set (tab := g_tab (y_g s)) in *. set (n := length tab) in *.
  set (cor := scor_tab rows tab) in *. set (cp := clean_predictions E hs) in *.
  rewrite Eh in Hi. apply in_flat_map in Hi as [h1 [Hh1 Hi]].
  pose proof (reindex_view cor cp h1 h' Hh1 Hi) as HV. destruct (clean_in _ _ _ Hh1) as [h2 [Hh2 E2]].
  destruct (jcor_hyps_in _ _ _ _ _ _ _ _ _ _ _ Hg E1 Hh2) as [h [row [Hh [HB [Lr [ND [HR Hts]]]]]]]. set (tind := tindices (sjcfg c bs) h) in *.
  assert (Hes : exists es, Forall2 (fun i e => nth_error tab i = Some e) tind es).
  { clear -HB. induction tind as [|i ti IH]; [exists []; constructor|]. destruct IH as [es IH]; [intros j Hj; apply HB; right; exact Hj|].
    destruct (nth_error tab i) as [e|] eqn:Ee; [exists (e :: es); constructor; assumption|]. apply nth_error_None in Ee. destruct (HB i (or_introl eq_refl)). unfold n in *. lia. }
  destruct Hes as [es HF]. assert (Le : length tind = length es) by exact (F2_len _ _ _ HF).
  rewrite <- E2, Hts, decode_live, Le in HV.
  assert (HQ : exists es', Forall2 (fun k e' => nth_error (g_tab (y_g s')) k = Some e') (h_ts h') es' /\
     Forall2 (fun ea e' => supd Z pdf c t meas (fst ea) (assoc_of (length es) (snd ea)) e') (filter (fun ev => (length es <=? snd ev)%nat) (combine es row)) es').
  { rewrite Et. fold tab cor cp. unfold JglmbProofs.live in HV. set (nt := length es) in *. assert (Hrow : forall v, In v row -> (assoc_of nt v <= length meas)%nat).
    { intros v Hv. specialize (HR v Hv). rewrite Le in HR. unfold assoc_of. lia. }
    assert (Ltr : length tind = length row) by congruence.
    clearbody nt tind. clear Hts HR ND Hi Hh1 E2 Hh2 HB Le Lr. revert row Ltr Hrow HV. generalize (h_ts h') as ts'. clear h'.
    induction HF as [|i e ti es1 Hie _ IH]; intros ts' row Ltr Hrow HV.
    - cbn [combine filter map] in HV. inversion HV; subst. exists []. split; constructor.
    - destruct row as [|v row]; [discriminate|]. cbn [combine filter] in HV |- *. cbn [snd] in HV |- *. destruct (nt <=? v)%nat.
      + cbn [map fst snd] in HV. inversion HV as [|x k xs ks Hx HV' Q1 Q2]; subst. destruct Hx as [e' [He1 He2]].
        destruct (scor_tab_nth Z pdf c t meas tab rows i (assoc_of nt v) e Er Hie) as [o [Ho1 Ho2]]; [apply Hrow; left; reflexivity|].
        unfold cor, n in He1. rewrite Ho1 in He1. injection He1 as ->.
        destruct (IH ks row) as [es' [A B]]; [now injection Ltr|intros w Hw; apply Hrow; right; exact Hw|exact HV'|].
        exists (e' :: es'). split; constructor; try assumption. apply Ho2. reflexivity.
      + apply (IH ts' row); [now injection Ltr|intros w Hw; apply Hrow; right; exact Hw|exact HV]. }
  destruct HQ as [es' [A B]]. exists h, row, es, es'. rewrite <- Le. split; [exact Hh|]. split; [exact ND|]. split; [exact Lr|]. split.
  - intros i Hin. rewrite sjcfg_len. exact (proj2 (HB i Hin)).
  - split; [exact HF|]. split; [exact A|]. rewrite Le. exact B.
Qed.
Lemma sjinv_correct (D D' : entry -> entry -> Prop) gt pdf c bs t meas s s' : gibbs_ok G -> sjcorrect G Z gt pdf c bs t meas s = Ok s' -> JInv D s ->
  (forall e1 e2 a b e1' e2', In e1 (g_tab (y_g s)) -> In e2 (g_tab (y_g s)) -> D e1 e2 -> (a = b -> a = 0%nat) ->
     supd Z pdf c t meas e1 a e1' -> supd Z pdf c t meas e2 b e2' -> D' e1' e2') ->
  JInv D' s'.
Proof.
  intros Hg H HI HD. destruct (sjcorrect_inv _ _ _ _ _ _ _ _ H) as [rows [hs X0]]. cbn zeta in X0. destruct X0 as [_ [Hk [_ [_ [_ [_ [_ [_ Ho]]]]]]]].
  exists [], (g_tab (y_g s')). split; [reflexivity|]. split; [symmetry; exact Ho|]. split; [|split; [apply pairs_nil|intros x y []]].
  intros h' Hh'. destruct (sjcorrect_view _ _ _ _ _ _ _ _ _ Hg H Hh') as [h [row [es [es' [Hh [ND [Lr [HB [HF1 [HF2 HF3]]]]]]]]]].
  exists es'. split; [exact HF2|].
  assert (HP : pairs D es) by (refine (jinv_tind D (sjcfg c bs) s h es HI Hh _ HB HF1); rewrite sjcfg_len; exact Hk).
  assert (HQ : pairs (fun x y => D (fst x) (fst y) /\ snd x <> snd y) (combine es row)).
  { intros i j [e1 v1] [e2 v2] Hij Hi Hj. apply combine_nth_error in Hi as [A1 A2]. apply combine_nth_error in Hj as [B1 B2]. cbn [fst snd].
    split; [exact (HP i j e1 e2 Hij A1 B1)|]. intros ->. apply Hij. rewrite NoDup_nth_error in ND. apply ND; [apply nth_error_Some; congruence|congruence]. }
  apply (pairs_filter _ (fun ev => (length es <=? snd ev)%nat)) in HQ. intros i j x y Hij Hi Hj.
  destruct (F2_nth_r _ _ _ _ _ HF3 Hi) as [[e1 v1] [C1 U1]]. destruct (F2_nth_r _ _ _ _ _ HF3 Hj) as [[e2 v2] [C2 U2]]. cbn [fst snd] in U1, U2.
  destruct (HQ i j _ _ Hij C1 C2) as [HDe Hv]. cbn [fst snd] in HDe, Hv.
  assert (Hin : forall e v k, nth_error (filter (fun ev => (length es <=? snd ev)%nat) (combine es row)) k = Some (e, v) -> (length es <= v)%nat /\ In e (g_tab (y_g s))).
  { intros e v k0 Hk0. apply nth_error_In, filter_In in Hk0 as [Hk0 Hf]. cbn [snd] in Hf. apply Nat.leb_le in Hf. split; [exact Hf|].
    apply in_combine_l in Hk0. apply In_nth_error in Hk0 as [q Hq]. destruct (F2_nth_r _ _ _ _ _ HF1 Hq) as [i0 [_ Hi0]]. exact (nth_error_In _ _ Hi0). }
  destruct (Hin _ _ _ C1) as [V1 I1]. destruct (Hin _ _ _ C2) as [V2 I2].
  apply (HD e1 e2 (assoc_of (length es) v1) (assoc_of (length es) v2) x y I1 I2 HDe); [|exact U1|exact U2].
  intros Ha. exact (assoc_inj _ _ _ V1 V2 Hv Ha).
Qed.
Lemma sjcorrect_tab_in gt pdf c bs t meas s s' e' : sjcorrect G Z gt pdf c bs t meas s = Ok s' -> In e' (g_tab (y_g s')) ->
  exists e a, In e (g_tab (y_g s)) /\ supd Z pdf c t meas e a e'.
Proof.
  intros H Hi. destruct (sjcorrect_inv _ _ _ _ _ _ _ _ H) as [rows [hs [Er [_ [_ [Et _]]]]]]. rewrite Et in Hi. apply pick_in in Hi. exact (scor_tab_in Z pdf c t meas _ _ _ Er Hi).
Qed.
Lemma sjpredict_tab_in psf c bs t s s' e' : sjpredict Z psf c bs t s = Ok s' -> In e' (g_tab (y_g s')) ->
  (exists i b, nth_error bs i = Some b /\ e' = sbirth_entry Z c t (g_cnt (y_g s)) i b) \/ exists e, In e (g_tab (y_g s)) /\ spred_entry Z psf c t e = Ok e'.
Proof.
  intros H Hi. destruct (sjpredict_inv _ _ _ _ _ _ H) as [stab [Hs [T _]]]. rewrite T in Hi. apply in_app_or in Hi as [Hi|Hi].
  - left. apply In_nth_error in Hi as [q Hq]. destruct (sbirth_nth _ _ _ _ _ _ _ Hq) as [b [Hb ->]]. eauto.
  - right. destruct (mapM_in _ _ _ _ Hs Hi) as [e [He Hee]]. eauto.
Qed.
Lemma sjinv_predict (D D' : entry -> entry -> Prop) psf c bs t s s' : sjpredict Z psf c bs t s = Ok s' -> JInv D s ->
  (forall i j b b', i <> j -> D' (sbirth_entry Z c t (g_cnt (y_g s)) i b) (sbirth_entry Z c t (g_cnt (y_g s)) j b')) ->
  (forall i b e e', In e (g_tab (y_g s)) -> spred_entry Z psf c t e = Ok e' -> D' (sbirth_entry Z c t (g_cnt (y_g s)) i b) e' /\ D' e' (sbirth_entry Z c t (g_cnt (y_g s)) i b)) ->
  (forall e1 e2 e1' e2', D e1 e2 -> spred_entry Z psf c t e1 = Ok e1' -> spred_entry Z psf c t e2 = Ok e2' -> D' e1' e2') ->
  JInv D' s'.
Proof.
  intros H [pre [base [Et [Lb [HI [HP HX]]]]]] HB HBP HPP. destruct (sjpredict_inv _ _ _ _ _ _ H) as [stab [Hs [T [Hh [_ [_ [_ [Ho _]]]]]]]].
  assert (Hin1 : forall x, In x pre -> In x (g_tab (y_g s))) by (intros x Hx; rewrite Et; apply in_or_app; auto).
  assert (Hin2 : forall x, In x base -> In x (g_tab (y_g s))) by (intros x Hx; rewrite Et; apply in_or_app; auto).
  rewrite Et in Hs. apply mapM_ok in Hs. apply Forall2_app_inv_l in Hs as [pre' [base' [F1 [F2 ->]]]].
  exists (sbirth_tab Z c bs t (g_cnt (y_g s)) ++ pre'), base'.
  assert (Hbi : forall x, In x (sbirth_tab Z c bs t (g_cnt (y_g s))) -> exists i b, x = sbirth_entry Z c t (g_cnt (y_g s)) i b).
  { intros x Hx. apply In_nth_error in Hx as [q Hq]. destruct (sbirth_nth _ _ _ _ _ _ _ Hq) as [b [_ ->]]. eauto. }
  assert (Hpi : forall l l', Forall2 (fun a b => spred_entry Z psf c t a = Ok b) l l' -> forall y, In y l' -> exists e, In e l /\ spred_entry Z psf c t e = Ok y).
  { intros l l' HF y Hy. apply In_nth_error in Hy as [q Hq]. destruct (F2_nth_r _ _ _ _ _ HF Hq) as [e [He Hee]]. exists e. split; [exact (nth_error_In _ _ He)|exact Hee]. }
  split; [rewrite T, app_assoc; reflexivity|]. split; [rewrite <- (F2_len _ _ _ F2); congruence|]. split; [|split].
  - rewrite Hh. intros h Hh'. destruct (HI h Hh') as [es [F0 P0]].
    assert (Hes : exists es', Forall2 (fun i e => nth_error base' i = Some e) (h_ts h) es' /\ Forall2 (fun a b => spred_entry Z psf c t a = Ok b) es es').
    { clear P0. induction F0 as [|i e l es Hie _ [es' [A B]]]; [exists []; split; constructor|]. destruct (F2_nth_l _ _ _ _ _ F2 Hie) as [e' [He1 He2]]. exists (e' :: es'). split; constructor; assumption. }
    destruct Hes as [es' [A B]]. exists es'. split; [exact A|]. intros i j x y Hij Hi Hj.
    destruct (F2_nth_r _ _ _ _ _ B Hi) as [x0 [X1 X2]]. destruct (F2_nth_r _ _ _ _ _ B Hj) as [y0 [Y1 Y2]]. exact (HPP x0 y0 x y (P0 i j x0 y0 Hij X1 Y1) X2 Y2).
  - apply pairs_app.
    + intros i j x y Hij Hi Hj. destruct (sbirth_nth _ _ _ _ _ _ _ Hi) as [b [_ ->]]. destruct (sbirth_nth _ _ _ _ _ _ _ Hj) as [b' [_ ->]]. apply HB, Hij.
    + intros i j x y Hij Hi Hj. destruct (F2_nth_r _ _ _ _ _ F1 Hi) as [x0 [X1 X2]]. destruct (F2_nth_r _ _ _ _ _ F1 Hj) as [y0 [Y1 Y2]]. exact (HPP x0 y0 x y (HP i j x0 y0 Hij X1 Y1) X2 Y2).
    + intros x y Hx Hy. destruct (Hbi x Hx) as [i [b ->]]. destruct (Hpi _ _ F1 y Hy) as [e [He Hee]]. exact (HBP i b e y (Hin1 e He) Hee).
  - intros x y Hx Hy. destruct (Hpi _ _ F2 y Hy) as [e [He Hee]]. apply in_app_or in Hx as [Hx|Hx].
    + destruct (Hbi x Hx) as [i [b ->]]. exact (HBP i b e y (Hin2 e He) Hee).
    + destruct (Hpi _ _ F1 x Hx) as [e1 [He1 Hee1]]. destruct (HX e1 e He1 He) as [A B]. split; [exact (HPP e1 e x y A Hee1 Hee)|exact (HPP e e1 y x B Hee Hee1)].
Qed.
Lemma sjrest gt c bs o s s' : sjexec G Z gt c bs o s = Ok s' ->
  match o with
  | SPredict psf t => sjpredict Z psf c bs t s = Ok s'
  | SCorrect pdf t meas => sjcorrect G Z gt pdf c bs t meas s = Ok s'
  | SCleanup _ _ _ => exists g', s' = with_g s g' /\ g_tab g' = g_tab (y_g s) /\ subhyps (g_hyps g') (g_hyps (y_g s)) /\ g_cnt g' = S (g_cnt (y_g s))
  | SExtract _ _ => exists g', s' = with_g s g' /\ g_tab g' = g_tab (y_g s) /\ g_hyps g' = g_hyps (y_g s) /\ g_cnt g' = g_cnt (y_g s) /\ g_card g' = g_card (y_g s)
  end.
Proof.
  intros H. destruct o as [psf t|pdf t meas|pr ca ex|u k]; cbn [sjexec] in H; try exact H.
  - apply bind_ok in H as [g' [H1 H]]. injection H as <-. destruct (cleanup_inv _ _ _ _ _ _ _ H1) as [A [B [C _]]]. exists g'. auto.
  - apply bind_ok in H as [[oo g'] [H1 H]]. injection H as <-. destruct (extract_tab _ _ _ _ _ _ H1) as [A [B [C D]]]. exists g'. auto.
Qed.
(** references, and no index twice *)
Lemma sjtrue_exec gt c bs o s s' : gibbs_ok G -> sjexec G Z gt c bs o s = Ok s' -> JInv (fun _ _ => True) s -> JInv (fun _ _ => True) s'.
Proof.
  intros Hg H HI. apply sjrest in H. destruct o as [psf t|pdf t meas|pr ca ex|u k].
  - apply (sjinv_predict _ _ _ _ _ _ _ _ H HI); auto.
  - apply (sjinv_correct _ _ _ _ _ _ _ _ _ _ Hg H HI); auto.
  - destruct H as [g' [-> [A [B _]]]]. exact (jinv_sub _ _ _ HI A B).
  - destruct H as [g' [-> [A [B _]]]]. apply (jinv_sub _ _ _ HI A). rewrite B. apply subhyps_refl.
Qed.
Lemma sjnd_exec gt c bs o s s' : gibbs_ok G -> sjexec G Z gt c bs o s = Ok s' -> NDInv s -> NDInv s'.
Proof.
  intros Hg H HI. apply sjrest in H. destruct o as [psf t|pdf t meas|pr ca ex|u k].
  - destruct (sjpredict_inv _ _ _ _ _ _ H) as [st [_ [_ [Hh _]]]]. unfold NDInv. rewrite Hh. exact HI.
  - intros h' Hi. destruct (sjcorrect_inv _ _ _ _ _ _ _ _ H) as [rows [hs [_ [_ [E1 [_ [Eh _]]]]]]]. rewrite Eh in Hi. apply in_flat_map in Hi as [h1 [Hh1 Hi]].
    apply (nd_reindex _ _ _ Hi). destruct (clean_in _ _ _ Hh1) as [h2 [Hh2 <-]].
    destruct (jcor_hyps_in _ _ _ _ _ _ _ _ _ _ _ Hg E1 Hh2) as [h [row [Hh [HB [_ [_ [_ ->]]]]]]]. apply nd_decode; [apply nd_tind, HI, Hh|]. intros i Hin. exact (proj1 (HB i Hin)).
  - destruct H as [g' [-> [A [B _]]]]. exact (nd_sub _ _ HI B).
  - destruct H as [g' [-> [A [B _]]]]. apply (nd_sub _ _ HI). rewrite B. apply subhyps_refl.
Qed.
(** labels *)
Lemma sjlinv_exec gt c bs o s s' used : gibbs_ok G -> sjexec G Z gt c bs o s = Ok s' ->
  (forall psf t, o = SPredict psf t -> ~ In (v_rnd E t) used) -> JLInv used s ->
  JLInv (match o with SPredict _ t => v_rnd E t :: used | _ => used end) s'.
Proof.
  intros Hg H Hnew [HU HI]. apply sjrest in H. destruct o as [psf t|pdf t meas|pr ca ex|u k].
  - specialize (Hnew psf t eq_refl).
    assert (Hlab : forall i b, e_label (sbirth_entry Z c t (g_cnt (y_g s)) i b) = (v_rnd E t, i)) by (intros i b; destruct (sbirth_fields Z c t (g_cnt (y_g s)) i b) as [L _]; exact L).
    split.
    + intros e' He'. destruct (sjpredict_tab_in _ _ _ _ _ _ _ H He') as [[i [b [_ ->]]]|[e [He Hs]]].
      * rewrite Hlab. left. reflexivity.
      * destruct (spred_keep _ _ _ _ _ _ Hs) as [-> _]. right. apply HU, He.
    + apply (sjinv_predict lab_ne lab_ne psf c bs t s s' H HI); unfold lab_ne.
      * intros i j b b' Hij. rewrite !Hlab. intros E0. inversion E0. contradiction.
      * intros i b e e' He Hs. destruct (spred_keep _ _ _ _ _ _ Hs) as [-> _]. rewrite Hlab. split; intros E0; apply Hnew; pose proof (HU e He) as Hi; [rewrite <- E0 in Hi|rewrite E0 in Hi]; exact Hi.
      * intros e1 e2 e1' e2' HD S1 S2. destruct (spred_keep _ _ _ _ _ _ S1) as [-> _]. destruct (spred_keep _ _ _ _ _ _ S2) as [-> _]. exact HD.
  - split.
    + intros e' He'. destruct (sjcorrect_tab_in _ _ _ _ _ _ _ _ _ H He') as [e [a [He Hu]]]. apply supd_label in Hu as [-> _]. apply HU, He.
    + apply (sjinv_correct lab_ne lab_ne gt pdf c bs t meas s s' Hg H HI). intros e1 e2 a b e1' e2' _ _ HD _ U1 U2. unfold lab_ne in *.
      apply supd_label in U1 as [-> _]. apply supd_label in U2 as [-> _]. exact HD.
  - destruct H as [g' [-> [A [B _]]]]. split; [cbn; rewrite A; exact HU|exact (jinv_sub _ _ _ HI A B)].
  - destruct H as [g' [-> [A [B _]]]]. split; [cbn; rewrite A; exact HU|]. apply (jinv_sub _ _ _ HI A). rewrite B. apply subhyps_refl.
Qed.
(** protocol *)
Lemma sjpinv_predict psf c bs t s s' : sjpredict Z psf c bs t s = Ok s' -> JPInv 0 s -> JPInv 1 s'.
Proof.
  intros H [HL HI]. destruct (sjpredict_inv _ _ _ _ _ _ H) as [st [_ [_ [_ [_ [Ec _]]]]]]. split.
  - intros e' He'. rewrite Ec. destruct (sjpredict_tab_in _ _ _ _ _ _ _ H He') as [[i [b [_ ->]]]|[e [He Hs]]].
    + destruct (sbirth_fields Z c t (g_cnt (y_g s)) i b) as [_ [A1 [A2 [A3 [A4 [A5 _]]]]]]. exists 1%nat. rewrite A1, A2, A3, A4, A5. cbn. repeat split; lia.
    + destruct (HL e He) as [n [N1 [N2 [N3 [N4 [N5 N6]]]]]]. cbn in N5, N6. destruct (spred_keep _ _ _ _ _ _ Hs) as [_ [A [B [C [D F]]]]].
      exists (S n). rewrite A, B, C, D, F. cbn. repeat split; lia.
  - apply (sjinv_predict disj disj psf c bs t s s' H HI); unfold disj, share_meas.
    + intros i j b b' _. destruct (sbirth_fields Z c t (g_cnt (y_g s)) i b) as [_ [-> _]]. intros [a [a' [m [Q _]]]]. rewrite nth_error_nil' in Q. discriminate.
    + intros i b e e' _ _. destruct (sbirth_fields Z c t (g_cnt (y_g s)) i b) as [_ [-> _]]. split; intros [a [a' [m [Q1 [Q2 _]]]]]; rewrite nth_error_nil' in *; discriminate.
    + intros e1 e2 e1' e2' HD S1 S2. destruct (spred_keep _ _ _ _ _ _ S1) as [_ [-> [-> _]]]. destruct (spred_keep _ _ _ _ _ _ S2) as [_ [-> [-> _]]]. exact HD.
Qed.
Lemma sjpinv_correct gt pdf c bs t meas s s' : gibbs_ok G -> sjcorrect G Z gt pdf c bs t meas s = Ok s' -> JPInv 1 s -> JPInv 2 s'.
Proof.
  intros Hg H [HL HI]. destruct (sjcorrect_inv _ _ _ _ _ _ _ _ H) as [rows [hs X0]]. cbn zeta in X0. destruct X0 as [_ [_ [_ [_ [_ [_ [Ec _]]]]]]]. split.
  - intros e' He'. rewrite Ec. destruct (sjcorrect_tab_in _ _ _ _ _ _ _ _ _ H He') as [e [a [He Hu]]]. exact (slen_upd _ _ _ _ _ _ _ _ _ Hu (HL e He)).
  - apply (sjinv_correct disj disj gt pdf c bs t meas s s' Hg H HI). intros e1 e2 a b e1' e2' I1 I2 HD Hab U1 U2.
    exact (sdisj_upd Z pdf c t meas _ e1 e2 a b e1' e2' (HL e1 I1) (HL e2 I2) HD Hab U1 U2).
Qed.
Lemma sjpinv_exec gt c bs o ph ph' s s' : gibbs_ok G -> sjexec G Z gt c bs o s = Ok s' -> sprotocol ph [o] = Some ph' -> JPInv ph s -> JPInv ph' s'.
Proof.
  intros Hg H Hpr HI. apply sjrest in H. destruct o as [psf t|pdf t meas|pr ca ex|u k]; cbn [sprotocol] in Hpr.
  - destruct ph as [|ph]; [|discriminate]. injection Hpr as <-. exact (sjpinv_predict _ _ _ _ _ _ H HI).
  - destruct ph as [|[|ph]]; try discriminate. injection Hpr as <-. exact (sjpinv_correct _ _ _ _ _ _ _ _ Hg H HI).
  - destruct ph as [|[|[|ph]]]; try discriminate. injection Hpr as <-. destruct H as [g' [-> [A [B C]]]]. destruct HI as [HL HI].
    split; [cbn; rewrite A, C; exact HL|exact (jinv_sub _ _ _ HI A B)].
  - destruct H as [g' [-> [A [B [C _]]]]]. destruct HI as [HL HI]. assert (ph' = ph) by (destruct ph; injection Hpr as <-; reflexivity). subst ph'.
    split; [cbn; rewrite A, C; exact HL|]. apply (jinv_sub _ _ _ HI A). rewrite B. apply subhyps_refl.
Qed.
(** distribution *)
Lemma sjcorrect_full gt pdf c bs t meas s s' : gibbs_ok G -> (forall z p, In z meas -> z_corr Z t z p <> None) -> sjcorrect G Z gt pdf c bs t meas s = Ok s' ->
  exists hs, Forall2 (fun h h' => h_p h' = h_p h /\ length (h_ts h') = length (h_ts h)) (clean_predictions E hs) (g_hyps (y_g s')) /\
    (hs <> [] -> prob_dist hs) /\ g_card (y_g s') = calc_card hs.
Proof.
  intros Hg Hn H. destruct (sjcorrect_inv _ _ _ _ _ _ _ _ H) as [rows [hs X0]]. cbn zeta in X0. destruct X0 as [Er [_ [Eg [Et [Eh [Ec _]]]]]]. exists hs. rewrite Eh.
  set (tab := scor_tab rows (g_tab (y_g s))) in *.
  split; [|split; [intros Hne; exact (jcor_hyps_dist _ _ _ _ _ _ _ _ _ _ Eg Hne)|exact Ec]].
  assert (Hall : forall h, In h (clean_predictions E hs) -> exists h', reindex (nnz_inds tab (clean_predictions E hs)) h = [h']).
  { intros h Hh. apply reindex_all; [exact Hh|]. intros i Hi. destruct (clean_in _ _ _ Hh) as [h2 [Hh2 E2]].
    destruct (jcor_hyps_in _ _ _ _ _ _ _ _ _ _ _ Hg Eg Hh2) as [h0 [row [_ [HB [Lr [_ [HR Hts]]]]]]]. rewrite <- E2, Hts, decode_live in Hi.
    apply in_map_iff in Hi as [[k v] [<- Hkv]]. cbn [fst snd]. apply filter_In in Hkv as [Hkv _].
    pose proof (proj1 (HB k (in_combine_l _ _ _ _ Hkv))) as Hk. pose proof (HR v (in_combine_r _ _ _ _ Hkv)) as Hv.
    assert (Ha : (assoc_of (length (tindices (sjcfg c bs) h0)) v <= length meas)%nat) by (unfold assoc_of; lia).
    destruct (nth_error (g_tab (y_g s)) k) as [e|] eqn:Ee; [|apply nth_error_None in Ee; lia].
    exact (scor_tab_some Z _ _ _ _ _ _ _ _ _ Er Hn Ee Ha). }
  set (nnz := nnz_inds tab _) in *. clearbody nnz. clear Eg Ec Et Eh. revert Hall. generalize (clean_predictions E hs) as l. induction l as [|h l IH]; intros Hall; [constructor|].
  cbn [flat_map]. destruct (Hall h (or_introl eq_refl)) as [h' Eh']. rewrite Eh'. cbn [app]. constructor; [|apply IH; intros x Hx; apply Hall; right; exact Hx].
  assert (Hi : In h' (reindex nnz h)) by (rewrite Eh'; left; reflexivity). apply reindex_in in Hi as [Hp Hts]. split; [exact Hp|].
  apply (f_equal (@length _)) in Hts. rewrite !map_length in Hts. exact Hts.
Qed.
Lemma sjcorrect_dist gt pdf c bs t meas s s' : gibbs_ok G -> (forall z p, In z meas -> z_corr Z t z p <> None) -> sjcorrect G Z gt pdf c bs t meas s = Ok s' ->
  g_hyps (y_g s') <> [] -> prob_dist (g_hyps (y_g s')).
Proof.
  intros Hg Hn H Hne. destruct (sjcorrect_full _ _ _ _ _ _ _ _ Hg Hn H) as [hs [HF [HD HC]]].
  assert (Hh : hs <> []) by (intros ->; rewrite clean_nil in HF; inversion HF; congruence).
  pose proof (clean_pred_dist E _ (HD Hh)) as [Hp Hs]. destruct (F2_dist _ _ HF) as [M1 _].
  split; [|rewrite M1; exact Hs]. intros h' Hh'. apply In_nth_error in Hh' as [k Hk]. destruct (F2_nth_r _ _ _ _ _ HF Hk) as [h [Hh1 [-> _]]]. apply Hp. eapply nth_error_In; eauto.
Qed.
Lemma sjexec_dist gt c bs o s s' : gibbs_ok G -> rsorts (v_argsort E) -> snever_fails Z [o] -> sjexec G Z gt c bs o s = Ok s' ->
  (g_hyps (y_g s) <> [] -> prob_dist (g_hyps (y_g s))) -> g_hyps (y_g s') <> [] -> prob_dist (g_hyps (y_g s')).
Proof.
  intros Hg Hs Hn H HI Hne. destruct o as [psf t|pdf t meas|pr ca ex|u k]; cbn [sjexec] in H.
  - destruct (sjpredict_inv _ _ _ _ _ _ H) as [st [_ [_ [Hh _]]]]. rewrite Hh in *. auto.
  - apply (sjcorrect_dist _ _ _ _ _ _ _ _ Hg (Hn pdf t meas (or_introl eq_refl)) H Hne).
  - apply (jexec_dist E G false c (OpCleanup pr ca ex) s s' Hg Hs); [intros t meas [E0|[]]; discriminate E0|exact H|exact HI|exact Hne].
  - apply (jexec_dist E G false c (OpExtract u k) s s' Hg Hs); [intros t meas [E0|[]]; discriminate E0|exact H|exact HI|exact Hne].
Qed.
(** after the last correct *)
Lemma sjold_exec gt c bs o s s' : sjexec G Z gt c bs o s = Ok s' -> (forall psf t, o <> SPredict psf t) -> y_old s = length (g_tab (y_g s)) -> y_old s' = length (g_tab (y_g s')).
Proof.
  intros H Hp HI. apply sjrest in H. destruct o as [psf t|pdf t meas|pr ca ex|u k].
  - exfalso. exact (Hp psf t eq_refl).
  - destruct (sjcorrect_inv _ _ _ _ _ _ _ _ H) as [rows [hs X0]]. cbn zeta in X0. tauto.
  - destruct H as [g' [-> [A _]]]. cbn [with_g y_g y_old]. rewrite A. exact HI.
  - destruct H as [g' [-> [A _]]]. cbn [with_g y_g y_old]. rewrite A. exact HI.
Qed.
End P.
