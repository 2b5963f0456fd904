(** Invariants of the joint GLMB model. *)
From Verif Require Import Base Lists.
From Coq Require Import Reals Permutation Lra.
From Verif Require Import OspaModel CphdModel OspaProofs CphdSpec CphdProofs GlmbModel GlmbSpec GlmbProofs GlmbInv JglmbModel JglmbSpec.
Open Scope R_scope.

Lemma pairs_filter {A} (D : A -> A -> Prop) f l : pairs D l -> pairs D (filter f l).
Proof.
  intros H. assert (Hgo : forall l, pairs D l -> pairs D (filter f l) ); [|exact (Hgo l H)]. clear l H.
  induction l as [|x l IH]; intros H; [exact H|].
  assert (Hl : pairs D l). { intros i j a b Hij Hi Hj. apply (H (S i) (S j) a b); [lia|exact Hi|exact Hj]. }
  cbn [filter]. destruct (f x); [|exact (IH Hl)]. apply (pairs_app D [x] (filter f l)).
  - intros [|[|i]] [|[|j]] a b Hij Hi Hj; try discriminate; congruence.
  - exact (IH Hl).
  - intros a b [<-|[]] Hb. apply filter_In in Hb as [Hb _]. apply In_nth_error in Hb as [k Hk].
    split; [apply (H 0%nat (S k)); [lia|reflexivity|exact Hk]|apply (H (S k) 0%nat); [lia|exact Hk|reflexivity]].
Qed.
Lemma pairs_map {A B} (f : A -> B) (D : B -> B -> Prop) l : pairs (fun x y => D (f x) (f y)) l -> pairs D (map f l).
Proof.
  intros H i j x y Hij Hi Hj. rewrite nth_error_map in Hi, Hj.
  destruct (nth_error l i) as [a|] eqn:Ea; [|discriminate]. destruct (nth_error l j) as [b|] eqn:Eb; [|discriminate].
  injection Hi as <-. injection Hj as <-. exact (H i j a b Hij Ea Eb).
Qed.
Lemma pairs_impl {A} (D D' : A -> A -> Prop) l : (forall x y, In x l -> In y l -> D x y -> D' x y) -> pairs D l -> pairs D' l.
Proof. intros HI H i j x y Hij Hi Hj. apply HI; [exact (nth_error_In _ _ Hi)|exact (nth_error_In _ _ Hj)|exact (H i j x y Hij Hi Hj)]. Qed.
Lemma pairs_short {A} (D : A -> A -> Prop) l : (length l <= 1)%nat -> pairs D l.
Proof.
  intros Hl i j x y Hij Hi Hj. exfalso.
  assert (i < length l)%nat by (apply nth_error_Some; congruence). assert (j < length l)%nat by (apply nth_error_Some; congruence). lia.
Qed.
Lemma F2_filter_map {A B} (P : A -> B -> Prop) f l l' : Forall2 P l l' -> Forall2 P (map fst (filter f (combine l l'))) (map snd (filter f (combine l l'))).
Proof. intros H. induction H as [|x y l l' Hxy _ IH]; cbn [combine filter]; [constructor|]. destruct (f (x, y)); cbn [map fst snd]; [constructor; assumption|exact IH]. Qed.

Section P.
Context {FS ST CV MS : Type}.
Variable E : genv FS ST CV MS.
Variable G : sampler.
Notation entry := (entry FS ST CV).
Notation gcfg := (gcfg ST CV).
Notation glmb := (glmb FS ST CV MS).
Notation jst := (jst FS ST CV MS).
Notation gop := (gop MS).
Implicit Types (c : gcfg) (s : jst).

(** ** Samples *)
(** association number of a live sample value: 0 missed, j+1 measurement j *)
Definition assoc_of (nt v : nat) : nat := (v - (2 * nt - 1))%nat.
Definition live (nt : nat) (iv : nat * nat) : bool := (nt <=? snd iv)%nat.
Lemma decode_live n (tind row : list nat) : 
  decode n tind row = map (fun iv => (fst iv + n * assoc_of (length tind) (snd iv))%nat) (filter (live (length tind)) (combine tind row)).
Proof.
  unfold decode. set (nt := length tind).
  assert (Hgo : forall l : list (nat * nat), (forall iv, In iv l -> (1 <= nt)%nat) -> flat_map (fun iv => let '(i, v) := iv in if (v <? nt)%nat then [] else if (v <? 2 * nt)%nat then [i] else [n * (v - 2 * nt + 1) + i]%nat) l
    = map (fun iv => (fst iv + n * assoc_of nt (snd iv))%nat) (filter (live nt) l)).
  { induction l as [|[i v] l IH]; intros Hl; [reflexivity|]. cbn [flat_map filter]. rewrite IH by (intros iv Hiv; apply (Hl iv); right; exact Hiv). unfold live at 2. cbn [snd].
    pose proof (Hl (i, v) (or_introl eq_refl)) as H1. unfold assoc_of.
    destruct (Nat.ltb_spec v nt) as [Hv|Hv]; destruct (Nat.leb_spec nt v) as [Hv'|Hv']; try lia; [reflexivity|]. cbn [map fst snd].
    destruct (Nat.ltb_spec v (2 * nt)) as [Hw|Hw]; cbn [app]; f_equal.
    - replace (v - (2 * nt - 1))%nat with 0%nat by lia. lia.
    - replace (v - (2 * nt - 1))%nat with (v - 2 * nt + 1)%nat by lia. lia. }
  apply Hgo. intros [i v] H. apply in_combine_l in H. unfold nt. destruct tind; [destruct H|cbn; lia].
Qed.
Lemma assoc_inj nt v w : (nt <= v)%nat -> (nt <= w)%nat -> v <> w -> assoc_of nt v = assoc_of nt w -> assoc_of nt v = 0%nat.
Proof. unfold assoc_of. lia. Qed.

Lemma jcor_hyp_in c k n m ac ss call h l h' : gibbs_ok G -> jcor_hyp G c k n m ac ss call h = Ok l -> In h' l ->
  (forall i, In i (tindices c h) -> (i < n)%nat /\ (i < k)%nat) /\
  exists row, length row = length (tindices c h) /\ NoDup row /\ (forall v, In v row -> (v < 2 * length (tindices c h) + m)%nat) /\ h_ts h' = decode n (tindices c h) row.
Proof.
  intros Hg H Hi. unfold jcor_hyp in H. cbn zeta in H. destruct (forallb _ _) eqn:Ef; cbn [negb] in H; [|discriminate]. split.
  { intros i Hin. rewrite forallb_forall in Ef. apply Ef in Hin. apply andb_prop in Hin as [H1 H2]. apply Nat.ltb_lt in H1, H2. auto. }
  apply bind_ok in H as [[rows costs] [E1 H]]. apply bind_ok in H as [lcl [_ H]]. apply bind_ok in H as [lw [_ H]]. injection H as <-.
  apply in_map_iff in Hi as [[row co] [<- Hrc]]. cbn [h_ts fst]. apply in_combine_l in Hrc.
  set (nt := length (tindices c h)) in *.
  apply Hg in E1; [|lia|lia]. destruct E1 as [_ [_ [_ [_ HR]]]]. destruct (HR row Hrc) as [L [B ND]]. exists row. repeat split; auto.
  intros v Hv. specialize (B v Hv). destruct (nt =? 0)%nat; lia.
Qed.
Lemma jcor_hyp_nonempty c k n m ac ss call h l : gibbs_ok G -> jcor_hyp G c k n m ac ss call h = Ok l -> l <> [].
Proof.
  intros Hg H. unfold jcor_hyp in H. cbn zeta in H. destruct (forallb _ _) eqn:Ef; cbn [negb] in H; [|discriminate].
  apply bind_ok in H as [[rows costs] [E1 H]]. apply bind_ok in H as [lcl [_ H]]. apply bind_ok in H as [lw [_ H]]. injection H as <-.
  apply Hg in E1; [|lia|lia]. destruct E1 as [L [N _]]. destruct rows as [|r rows]; [congruence|]. destruct costs; [discriminate|]. discriminate.
Qed.
Lemma jcor_hyps_in c k n m ac call hs r h' : gibbs_ok G -> jcor_hyps E G c k n m ac call hs = Ok r -> In h' r ->
  exists h row, In h hs /\ (forall i, In i (tindices c h) -> (i < n)%nat /\ (i < k)%nat) /\ length row = length (tindices c h) /\ NoDup row /\
    (forall v, In v row -> (v < 2 * length (tindices c h) + m)%nat) /\ h_ts h' = decode n (tindices c h) row.
Proof.
  intros Hg H Hi. unfold jcor_hyps in H. cbn zeta in H. apply bind_ok in H as [ll [E1 H]]. destruct (normalise_in _ _ _ _ H Hi) as [h1 [Hh1 Et]].
  destruct (mapM_in_concat _ _ _ _ E1 Hh1) as [[cl h] [l [Hh [E2 Hl]]]]. cbn [fst snd] in E2. apply in_combine_r in Hh.
  destruct (jcor_hyp_in _ _ _ _ _ _ _ _ _ _ Hg E2 Hl) as [A [row B]]. exists h, row. rewrite <- Et. tauto.
Qed.
Lemma jcor_hyps_dist c k n m ac call hs r : jcor_hyps E G c k n m ac call hs = Ok r -> r <> [] -> prob_dist r.
Proof. intros H. unfold jcor_hyps in H. cbn zeta in H. apply bind_ok in H as [ll [_ H]]. exact (normalise_dist _ _ _ H). Qed.
Lemma jcor_hyps_nonempty c k n m ac call hs r : gibbs_ok G -> jcor_hyps E G c k n m ac call hs = Ok r -> hs <> [] -> r <> [].
Proof.
  intros Hg H Hn. unfold jcor_hyps in H. cbn zeta in H. apply bind_ok in H as [ll [E1 H]].
  assert (Hc : concat ll <> []).
  { destruct hs as [|h hs]; [congruence|]. cbn [length seq combine mapM] in E1. apply bind_ok in E1 as [l [E2 E1]]. apply bind_ok in E1 as [ls [_ E1]]. injection E1 as <-.
    cbn [fst snd] in E2. apply (jcor_hyp_nonempty _ _ _ _ _ _ _ _ _ Hg) in E2. cbn [concat]. destruct l; [congruence|discriminate]. }
  destruct (normalise_cases _ _ _ H) as [[? _]|[_ ->]]; [congruence|]. destruct (concat ll); [congruence|discriminate].
Qed.

(** ** correct *)
Lemma jcorrect_inv gt c t meas s s' : jcorrect E G gt c t meas s = Ok s' -> exists hs,
  let tab := g_tab (y_g s) in let k := (length (c_births c) + y_old s)%nat in
  let cor := fst (gen_cor_tab E c t meas tab) in
  (k = length tab \/ length tab = 1%nat) /\ (gt = true -> tab = []) /\
  jcor_hyps E G c k (length tab) (length meas) (snd (gen_cor_tab E c t meas tab)) (y_calls s) (g_hyps (y_g s)) = Ok hs /\
  g_tab (y_g s') = pick cor (nnz_inds cor (clean_predictions E hs)) /\
  g_hyps (y_g s') = flat_map (reindex (nnz_inds cor (clean_predictions E hs))) (clean_predictions E hs) /\
  g_card (y_g s') = calc_card hs /\ g_cnt (y_g s') = g_cnt (y_g s) /\ g_ext (y_g s') = g_ext (y_g s) /\
  g_meas (y_g s') = g_meas (y_g s) ++ [meas] /\ y_old s' = length (g_tab (y_g s')) /\ y_calls s' = (y_calls s + length (g_hyps (y_g s)))%nat.
Proof.
  unfold jcorrect. cbn zeta. intros H. destruct (_ || _)%bool eqn:Eo; cbn [negb] in H; [|discriminate].
  destruct (gt && _)%bool eqn:Eg; [discriminate|].
  destruct (gen_cor_tab E c t meas (g_tab (y_g s))) as [tab ac] eqn:Et. apply bind_ok in H as [hs [E1 H]].
  rewrite clean_updates_eq in H. injection H as <-. exists hs. cbn [fst snd y_g g_tab g_hyps g_card g_cnt g_ext g_meas y_old y_calls].
  apply Bool.orb_true_iff in Eo. rewrite !Nat.eqb_eq in Eo. split; [exact Eo|]. split; [|repeat split; assumption || reflexivity].
  intros ->. destruct (g_tab (y_g s)); [reflexivity|discriminate Eg].
Qed.
(** the tracks of a new hypothesis *)
Lemma jcorrect_view gt c t meas s s' h' : gibbs_ok G -> jcorrect E G gt c t meas s = Ok s' -> In h' (g_hyps (y_g s')) ->
  exists h row es es', In h (g_hyps (y_g s)) /\ NoDup row /\ length row = length es /\ (forall v, In v row -> (v < 2 * length es + length meas)%nat) /\
    (forall i, In i (tindices c h) -> (i < length (c_births c) + y_old s)%nat) /\
    Forall2 (fun i e => nth_error (g_tab (y_g s)) i = Some e) (tindices c h) es /\
    Forall2 (fun k e' => nth_error (g_tab (y_g s')) k = Some e') (h_ts h') es' /\
    Forall2 (fun ea e' => upd_entry E c t meas (fst ea) (assoc_of (length es) (snd ea)) = Some e') (filter (fun ev => (length es <=? snd ev)%nat) (combine es row)) es'.
Proof.
  intros Hg H Hi. destruct (jcorrect_inv _ _ _ _ _ _ H) as [hs [_ [_ [E1 [Et [Eh _]]]]]]. set (tab := g_tab (y_g s)) in *. set (n := length tab) in *.
  set (cor := fst (gen_cor_tab E c t meas tab)) in *. set (cp := clean_predictions E hs) in *.
  rewrite Eh in Hi. apply in_flat_map in Hi as [h1 [Hh1 Hi]].
  pose proof (reindex_view cor cp h1 h' Hh1 Hi) as HV. destruct (clean_in _ _ _ Hh1) as [h2 [Hh2 E2]].
  destruct (jcor_hyps_in _ _ _ _ _ _ _ _ _ Hg E1 Hh2) as [h [row [Hh [HB [Lr [ND [HR Hts]]]]]]]. set (tind := tindices c h) in *.
  assert (Hes : exists es, Forall2 (fun i e => nth_error tab i = Some e) tind es).
  { clear -HB. induction tind as [|i ti IH]; [exists []; constructor|]. destruct IH as [es IH]; [intros j Hj; apply HB; right; exact Hj|].
    destruct (nth_error tab i) as [e|] eqn:Ee; [exists (e :: es); constructor; assumption|]. apply nth_error_None in Ee. destruct (HB i (or_introl eq_refl)). unfold n in *. lia. }
  destruct Hes as [es HF]. assert (Le : length tind = length es) by exact (F2_len _ _ _ HF).
  rewrite <- E2, Hts, decode_live, Le in HV.
  assert (HQ : exists es', Forall2 (fun k e' => nth_error (g_tab (y_g s')) k = Some e') (h_ts h') es' /\
     Forall2 (fun ea e' => upd_entry E c t meas (fst ea) (assoc_of (length es) (snd ea)) = Some e') (filter (fun ev => (length es <=? snd ev)%nat) (combine es row)) es').
  { rewrite Et. fold tab cor cp. unfold live in HV. set (nt := length es) in *. assert (Hrow : forall v, In v row -> (assoc_of nt v <= length meas)%nat).
    { intros v Hv. specialize (HR v Hv). rewrite Le in HR. unfold assoc_of. lia. }
    assert (Ltr : length tind = length row) by congruence.
    clearbody nt tind. clear Hts HR ND Hi Hh1 E2 Hh2 HB Le Lr. revert row Ltr Hrow HV. generalize (h_ts h') as ts'. clear h'.
    induction HF as [|i e ti es1 Hie _ IH]; intros ts' row Ltr Hrow HV.
    - cbn [combine filter map] in HV. inversion HV; subst. exists []. split; constructor.
    - destruct row as [|v row]; [discriminate|]. cbn [combine filter] in HV |- *. cbn [snd] in HV |- *. destruct (nt <=? v)%nat.
      + cbn [map fst snd] in HV. inversion HV as [|x k xs ks Hx HV' Q1 Q2]; subst. destruct Hx as [e' [He1 He2]].
        unfold cor, n in He1. rewrite (cor_tab_nth E c t meas tab i (assoc_of nt v) e Hie) in He1 by (apply Hrow; left; reflexivity). injection He1 as He1.
        destruct (IH ks row) as [es' [A B]]; [now injection Ltr|intros w Hw; apply Hrow; right; exact Hw|exact HV'|].
        exists (e' :: es'). split; constructor; assumption.
      + apply (IH ts' row); [now injection Ltr|intros w Hw; apply Hrow; right; exact Hw|exact HV]. }
  destruct HQ as [es' [A B]]. exists h, row, es, es'. rewrite <- Le. repeat split; try assumption.
  - intros i Hin. exact (proj2 (HB i Hin)).
  - rewrite Le. exact B.
Qed.
Lemma jpairs_correct (D D' : entry -> entry -> Prop) gt c t meas s s' : gibbs_ok G -> jcorrect E G gt c t meas s = Ok s' ->
  (forall h es, In h (g_hyps (y_g s)) -> (forall i, In i (tindices c h) -> (i < length (c_births c) + y_old s)%nat) ->
     Forall2 (fun i e => nth_error (g_tab (y_g s)) i = Some e) (tindices c h) es -> pairs D es) ->
  (forall e1 e2 a b e1' e2', In e1 (g_tab (y_g s)) -> In e2 (g_tab (y_g s)) -> D e1 e2 -> (a = b -> a = 0%nat) ->
     upd_entry E c t meas e1 a = Some e1' -> upd_entry E c t meas e2 b = Some e2' -> D' e1' e2') ->
  HInv D' (g_tab (y_g s')) (g_hyps (y_g s')).
Proof.
  intros Hg H HP HD h' Hh'. destruct (jcorrect_view _ _ _ _ _ _ _ Hg H Hh') as [h [row [es [es' [Hh [ND [Lr [HR [HB [HF1 [HF2 HF3]]]]]]]]]]].
  exists es'. split; [exact HF2|]. specialize (HP h es Hh HB HF1).
  assert (HQ : pairs (fun x y => D (fst x) (fst y) /\ snd x <> snd y) (combine es row)).
  { intros i j [e1 v1] [e2 v2] Hij Hi Hj. apply combine_nth_error in Hi as [A1 A2]. apply combine_nth_error in Hj as [B1 B2]. cbn [fst snd].
    split; [exact (HP i j e1 e2 Hij A1 B1)|]. intros ->. apply Hij. rewrite NoDup_nth_error in ND. apply ND; [apply nth_error_Some; congruence|congruence]. }
  apply (pairs_filter _ (fun ev => (length es <=? snd ev)%nat)) in HQ. intros i j x y Hij Hi Hj.
  destruct (F2_nth_r _ _ _ _ _ HF3 Hi) as [[e1 v1] [C1 U1]]. destruct (F2_nth_r _ _ _ _ _ HF3 Hj) as [[e2 v2] [C2 U2]]. cbn [fst snd] in U1, U2.
  destruct (HQ i j _ _ Hij C1 C2) as [HDe Hv]. cbn [fst snd] in HDe, Hv.
  assert (Hin : forall e v k, nth_error (filter (fun ev => (length es <=? snd ev)%nat) (combine es row)) k = Some (e, v) -> (length es <= v)%nat /\ In e (g_tab (y_g s))).
  { intros e v k0 Hk. apply nth_error_In, filter_In in Hk as [Hk Hf]. cbn [snd] in Hf. apply Nat.leb_le in Hf. split; [exact Hf|].
    apply in_combine_l in Hk. apply In_nth_error in Hk as [q Hq]. destruct (F2_nth_r _ _ _ _ _ HF1 Hq) as [i0 [_ Hi0]]. exact (nth_error_In _ _ Hi0). }
  destruct (Hin _ _ _ C1) as [V1 I1]. destruct (Hin _ _ _ C2) as [V2 I2].
  apply (HD e1 e2 (assoc_of (length es) v1) (assoc_of (length es) v2) x y I1 I2 HDe); [|exact U1|exact U2].
  intros Ha. exact (assoc_inj _ _ _ V1 V2 Hv Ha).
Qed.
Lemma jcorrect_tab_in gt c t meas s s' e' : jcorrect E G gt c t meas s = Ok s' -> In e' (g_tab (y_g s')) ->
  exists e a, In e (g_tab (y_g s)) /\ upd_entry E c t meas e a = Some e'.
Proof.
  intros H Hi. destruct (jcorrect_inv _ _ _ _ _ _ H) as [hs [_ [_ [_ [Et _]]]]]. rewrite Et in Hi. apply pick_in in Hi. exact (cor_tab_in E c t meas _ _ Hi).
Qed.
Lemma jpredict_inv c t s s' : jpredict E c t s = Ok s' ->
  g_tab (y_g s') = jbirth_tab E c t (g_cnt (y_g s)) ++ map (pred_entry E c t) (g_tab (y_g s)) /\ g_hyps (y_g s') = g_hyps (y_g s) /\
  g_card (y_g s') = g_card (y_g s) /\ g_cnt (y_g s') = g_cnt (y_g s) /\ g_ext (y_g s') = g_ext (y_g s) /\ g_meas (y_g s') = g_meas (y_g s) /\
  y_old s' = y_old s /\ y_calls s' = y_calls s /\ (forall b, In b (c_births c) -> snd b <> 1).
Proof.
  unfold jpredict. intros H. apply bind_ok in H as [u [Hm H]]. injection H as <-. repeat split; try reflexivity.
  intros b Hb E0. assert (Hex : exists y, (if Req_EM_T (snd b) 1 then Err ValueErr else Ok tt) = Ok (y : unit)).
  { apply mapM_ok in Hm. apply In_nth_error in Hb as [k Hk]. destruct (F2_nth_l _ _ _ _ _ Hm Hk) as [y [_ Hy]]. eauto. }
  destruct Hex as [y Hy]. destruct (Req_EM_T (snd b) 1); [discriminate|contradiction].
Qed.
Lemma jbirth_len c t cnt : length (jbirth_tab E c t cnt) = length (c_births c).
Proof. unfold jbirth_tab. rewrite map_length, combine_length, seq_length. lia. Qed.
Lemma jbirth_nth c t cnt i e : nth_error (jbirth_tab E c t cnt) i = Some e -> exists b, e = birth_entry E c t cnt i b.
Proof.
  unfold jbirth_tab. intros H. rewrite nth_error_map in H. destruct (nth_error _ i) as [[j b]|] eqn:En; [|discriminate]. injection H as <-. cbn [fst snd].
  apply combine_nth_error in En as [H1 H2]. assert (Hl : (i < length (c_births c))%nat) by (apply nth_error_Some; congruence).
  apply (nth_error_nth _ _ 0%nat) in H1. rewrite seq_nth in H1 by exact Hl. exists (fst b). rewrite <- H1. reflexivity.
Qed.
End P.
