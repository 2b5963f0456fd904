(** Proofs about SnapModel: the heap of hypothesis objects refines GlmbModel,
    and which objects an operation can change. *)
From Verif Require Import Base Lists.
From Coq Require Import Reals Permutation Lra.
From Verif Require Import OspaModel CphdModel OspaProofs CphdSpec CphdProofs GlmbModel GlmbSpec GlmbProofs GlmbInv GlmbTotal SnapModel.
Open Scope R_scope.

Lemma nth_set {A} (l : list A) : forall i x j d, (i < length l)%nat -> nth j (GlmbModel.set_nth i x l) d = if (j =? i)%nat then x else nth j l d.
Proof. induction l as [|y l IH]; intros [|i] x [|j] d H; cbn in *; try lia; try reflexivity. apply IH. lia. Qed.
Lemma set_nth_len {A} (l : list A) : forall i x, length (GlmbModel.set_nth i x l) = length l.
Proof. induction l as [|y l IH]; intros [|i] x; cbn; congruence. Qed.
Lemma write_len vals : forall locs heap, length (write_all heap locs vals) = length heap.
Proof.
  induction vals as [|v vals IH]; intros [|l locs] heap; try reflexivity. unfold write_all in *. cbn [combine fold_left fst snd].
  rewrite IH. apply set_nth_len.
Qed.
Lemma write_other vals : forall locs heap j, (forall l, In l locs -> (l < length heap)%nat) -> ~ In j locs -> nth j (write_all heap locs vals) no_hyp = nth j heap no_hyp.
Proof.
  induction vals as [|v vals IH]; intros [|l locs] heap j Hl Hj; try reflexivity. unfold write_all in *. cbn [combine fold_left fst snd].
  rewrite IH; [|intros k Hk; rewrite set_nth_len; apply Hl; right; exact Hk|intros H; apply Hj; right; exact H].
  rewrite nth_set by (apply Hl; left; reflexivity). destruct (Nat.eqb_spec j l) as [->|]; [|reflexivity]. exfalso. apply Hj. left. reflexivity.
Qed.
(** After the assignments the objects hold the assigned values. *)
Lemma deref_write vals : forall locs heap, NoDup locs -> (forall l, In l locs -> (l < length heap)%nat) -> length vals = length locs ->
  deref (write_all heap locs vals) locs = vals.
Proof.
  induction vals as [|v vals IH]; intros [|l locs] heap ND Hl Hn; try discriminate; [reflexivity|]. inversion ND as [|? ? Hni ND']; subst.
  unfold write_all. cbn [combine fold_left fst snd]. fold (write_all (GlmbModel.set_nth l v heap) locs vals).
  assert (Hl' : forall k, In k locs -> (k < length (GlmbModel.set_nth l v heap))%nat) by (intros k Hk; rewrite set_nth_len; apply Hl; right; exact Hk).
  unfold deref. cbn [map]. f_equal.
  - rewrite write_other by assumption. rewrite nth_set by (apply Hl; left; reflexivity). rewrite Nat.eqb_refl. reflexivity.
  - apply IH; [exact ND'|exact Hl'|]. injection Hn. auto.
Qed.
Lemma deref_other heap locs vals js : (forall l, In l locs -> (l < length heap)%nat) -> (forall j, In j js -> ~ In j locs) ->
  deref (write_all heap locs vals) js = deref heap js.
Proof. intros Hl Hd. apply map_ext_in. intros j Hj. apply write_other; [exact Hl|apply Hd, Hj]. Qed.
Lemma deref_app heap new locs : (forall l, In l locs -> (l < length heap)%nat) -> deref (heap ++ new) locs = deref heap locs.
Proof. intros H. apply map_ext_in. intros l Hl. apply app_nth1, H, Hl. Qed.
Lemma deref_new heap new : deref (heap ++ new) (seq (length heap) (length new)) = new.
Proof.
  unfold deref. revert heap. induction new as [|h new IH]; intros heap; [reflexivity|]. cbn [length seq map]. f_equal.
  - rewrite app_nth2 by lia. rewrite Nat.sub_diag. reflexivity.
  - specialize (IH (heap ++ [h])). rewrite <- app_assoc in IH. rewrite app_length, Nat.add_1_r in IH. exact IH.
Qed.
Lemma deref_filter f heap locs : deref heap (filter (fun l => f (nth l heap no_hyp)) locs) = filter f (deref heap locs).
Proof. induction locs as [|l locs IH]; [reflexivity|]. unfold deref in *. cbn [filter map]. destruct (f (nth l heap no_hyp)); cbn [map]; congruence. Qed.
Lemma deref_len heap locs : length (deref heap locs) = length locs.
Proof. apply map_length. Qed.
Lemma rescale_len hs : length (rescale hs) = length hs.
Proof. apply map_length. Qed.
Lemma normalise_len {FS ST CV MS} (E : genv FS ST CV MS) l l' : normalise_log E l = Ok l' -> length l' = length l.
Proof.
  destruct l as [|h l]; cbn [normalise_log].
  - destruct (v_lse0 E); cbn [bind]; intros H; inversion H; reflexivity.
  - intros H. injection H as <-. cbn [length]. rewrite map_length. reflexivity.
Qed.

Section SP.
Context {FS ST CV MS : Type}.
Notation glmb := (glmb FS ST CV MS).
Notation hst := (hst FS ST CV MS).
Variable E : genv FS ST CV MS.
Hypothesis Hsort : rsorts (v_argsort E).
(** The references are different and valid. *)
Definition WF (x : hst) : Prop := NoDup (k_locs x) /\ forall l, In l (k_locs x) -> (l < length (k_heap x))%nat.
(** What an operation may do to the heap: grow it, change only the objects the
    filter refers to, and refer to a part of them or to new objects only. *)
Definition Frame (x x' : hst) : Prop :=
  WF x' /\ (length (k_heap x) <= length (k_heap x'))%nat /\
  (forall l, (l < length (k_heap x))%nat -> ~ In l (k_locs x) -> nth l (k_heap x') no_hyp = nth l (k_heap x) no_hyp) /\
  (forall l, In l (k_locs x') -> In l (k_locs x) \/ (length (k_heap x) <= l)%nat).
Lemma frame_refl x : WF x -> Frame x x.
Proof. intros W. repeat split; auto; try apply W. Qed.
Lemma frame_trans x y z : Frame x y -> Frame y z -> Frame x z.
Proof.
  intros [W1 [A1 [B1 C1]]] [W2 [A2 [B2 C2]]]. split; [exact W2|]. split; [lia|]. split.
  - intros l Hl Hn. rewrite B2; [apply B1; assumption|lia|]. intros Hin. destruct (C1 l Hin) as [H|H]; [contradiction|lia].
  - intros l Hl. destruct (C2 l Hl) as [H|H]; [apply C1, H|right; lia].
Qed.
(** * Fresh objects *)
Lemma fresh_frame x s : WF x -> Frame x (fresh x s) /\ habs (fresh x s) = s /\ (forall l, In l (k_locs (fresh x s)) -> (length (k_heap x) <= l)%nat) /\
  forall l, (l < length (k_heap x))%nat -> nth l (k_heap (fresh x s)) no_hyp = nth l (k_heap x) no_hyp.
Proof.
  intros W. split; [split; [|split; [|split]]|split; [|split]].
  - split; [apply seq_NoDup|]. intros l Hl. cbn [fresh k_locs k_heap] in *. apply in_seq in Hl. rewrite app_length. lia.
  - cbn [fresh k_heap]. rewrite app_length. lia.
  - intros l Hl _. cbn [fresh k_heap]. apply app_nth1, Hl.
  - intros l Hl. right. cbn [fresh k_locs] in Hl. apply in_seq in Hl. lia.
  - unfold habs. cbn [fresh k_heap k_locs k_rest]. rewrite deref_new. destruct s; reflexivity.
  - intros l Hl. cbn [fresh k_locs] in Hl. apply in_seq in Hl. lia.
  - intros l Hl. apply app_nth1, Hl.
Qed.
(** * prune and cap *)
Lemma hkeep_frame (x : hst) locs : WF x -> NoDup locs -> (forall l, In l locs -> In l (k_locs x)) ->
  Frame x (hkeep x locs) /\ habs (hkeep x locs) = with_hyps (habs x) (rescale (deref (k_heap x) locs)).
Proof.
  intros [W1 W2] ND Hi. assert (Hl : forall l, In l locs -> (l < length (k_heap x))%nat) by auto.
  assert (Hd : deref (write_all (k_heap x) locs (rescale (deref (k_heap x) locs))) locs = rescale (deref (k_heap x) locs)).
  { apply deref_write; [exact ND|exact Hl|]. rewrite rescale_len. apply deref_len. }
  split; [split; [|split; [|split]]|].
  - split; [exact ND|]. cbn [hkeep k_heap k_locs]. intros l H. rewrite write_len. auto.
  - cbn [hkeep k_heap]. rewrite write_len. lia.
  - intros l H1 H2. cbn [hkeep k_heap]. apply write_other; [exact Hl|auto].
  - intros l H. left. auto.
  - unfold habs. cbn [hkeep k_heap k_locs k_rest]. rewrite Hd. reflexivity.
Qed.
Lemma hprune_frame c (x : hst) : WF x -> Frame x (hprune c x) /\ habs (hprune c x) = prune c (habs x).
Proof.
  intros W. unfold hprune.
  destruct (hkeep_frame x (filter (fun l => if Rlt_dec (c_prune c) (h_p (nth l (k_heap x) no_hyp)) then true else false) (k_locs x)) W) as [A B].
  - apply NoDup_filter, W.
  - intros l Hl. apply filter_In in Hl. apply Hl.
  - split; [exact A|]. rewrite B. unfold prune. cbn [habs set_hyps g_hyps]. rewrite <- (deref_filter (fun h => if Rlt_dec (c_prune c) (h_p h) then true else false)). reflexivity.
Qed.
Lemma keep_nodup n (ws : list R) : NoDup (firstn n (rev (v_argsort E ws))).
Proof.
  destruct (Hsort ws) as [P _].
  assert (H : NoDup (firstn n (rev (v_argsort E ws)) ++ skipn n (rev (v_argsort E ws)))).
  { rewrite firstn_skipn. apply NoDup_rev. eapply Permutation_NoDup; [apply Permutation_sym, P|apply seq_NoDup]. }
  revert H. generalize (skipn n (rev (v_argsort E ws))) as b. generalize (firstn n (rev (v_argsort E ws))) as a. clear. induction a as [|x a IH]; intros b H; [constructor|].
  inversion H as [|? ? H1 H2]; subst. constructor; [intros Hx; apply H1, in_or_app; left; exact Hx|eapply IH, H2].
Qed.
Lemma hcap_frame c (x : hst) : WF x -> Frame x (hcap E c x) /\ habs (hcap E c x) = cap E c (habs x).
Proof.
  intros W. unfold hcap, cap. cbn [habs set_hyps g_hyps]. rewrite deref_len. destruct (c_maxh c <? length (k_locs x))%nat eqn:Hc; [|split; [apply frame_refl, W|reflexivity]].
  set (ks := firstn (c_maxh c) (rev (v_argsort E (map h_p (deref (k_heap x) (k_locs x)))))).
  assert (Hr : forall i, In i ks -> (i < length (k_locs x))%nat).
  { intros i Hi. rewrite <- (deref_len (k_heap x) (k_locs x)). apply (keep_range E c (habs x) i Hsort). exact Hi. }
  assert (Hnd : NoDup ks) by apply keep_nodup. destruct W as [W1 W2].
  destruct (hkeep_frame x (map (fun i => nth i (k_locs x) (length (k_heap x))) ks)) as [A B].
  - split; assumption.
  - apply NoDup_map_in; [exact Hnd|]. intros i j Hi Hj He. apply (proj1 (NoDup_nth (k_locs x) (length (k_heap x))) W1); auto.
  - intros l Hl. apply in_map_iff in Hl as [i [<- Hi]]. apply nth_In, Hr, Hi.
  - split; [exact A|]. rewrite B. f_equal. f_equal. unfold deref. rewrite map_map. apply map_ext_in. intros i Hi.
    pose proof (Hr i Hi) as Hi'. rewrite (nth_indep (map (fun l => nth l (k_heap x) no_hyp) (k_locs x)) {| h_p := 0; h_ts := [] |} (nth (length (k_heap x)) (k_heap x) no_hyp)) by (rewrite map_length; exact Hi').
    rewrite (map_nth (fun l => nth l (k_heap x) no_hyp) (k_locs x) (length (k_heap x)) i). reflexivity.
Qed.
(** * correct without measurements *)
Lemma hclean_spec tab heap (locs : list nat) : NoDup locs -> (forall l, In l locs -> (l < length heap)%nat) ->
  let '(tab', heap', locs') := @hclean_updates FS ST CV tab heap locs in
  clean_updates tab (deref heap locs) = (tab', deref heap' locs') /\ length heap' = length heap /\ NoDup locs' /\ (forall l, In l locs' -> In l locs) /\
  (forall l, ~ In l locs -> nth l heap' no_hyp = nth l heap no_hyp).
Proof.
  intros ND Hl. unfold hclean_updates, clean_updates. cbv zeta. set (nnz := nnz_inds tab (deref heap locs)).
  set (kept := filter _ locs).
  assert (Hk : forall l, In l kept -> In l locs) by (intros l H; apply filter_In in H; apply H).
  assert (Hkn : NoDup kept) by apply NoDup_filter, ND.
  assert (Hlen : length (flat_map (fun l => match remap nnz (nth l heap no_hyp) with Some h => [h] | None => [] end) kept) = length kept).
  { unfold kept. clearbody nnz. clear. induction locs as [|l locs IH]; [reflexivity|]. cbn [filter]. destruct (remap nnz (nth l heap no_hyp)) eqn:R; [|exact IH].
    cbn [flat_map]. rewrite R. cbn [app length]. rewrite IH. reflexivity. }
  assert (Hfm : flat_map (fun l => match remap nnz (nth l heap no_hyp) with Some h => [h] | None => [] end) kept =
                flat_map (fun h => match all_some (map (fun i => index_of i nnz) (h_ts h)) with Some ts => [{| h_p := h_p h; h_ts := ts |}] | None => [] end) (deref heap locs)).
  { unfold kept. clearbody nnz. clear. induction locs as [|l locs IH]; [reflexivity|]. cbn [filter deref map flat_map] in *. fold (deref heap locs). rewrite <- IH.
    assert (R : remap nnz (nth l heap no_hyp) = match all_some (map (fun i => index_of i nnz) (h_ts (nth l heap no_hyp))) with Some ts => Some {| h_p := h_p (nth l heap no_hyp); h_ts := ts |} | None => None end) by reflexivity.
    destruct (all_some (map (fun i => index_of i nnz) (h_ts (nth l heap no_hyp)))); rewrite R; [|reflexivity].
    cbn [flat_map]. rewrite R. reflexivity. }
  split; [|split; [apply write_len|split; [exact Hkn|split; [exact Hk|]]]].
  - f_equal. rewrite deref_write; [symmetry; exact Hfm|exact Hkn|intros l H; auto|exact Hlen].
  - intros l H. apply write_other; [intros k Hk'; auto|]. intros Hin. apply H, Hk, Hin.
Qed.
Lemma hcorrect_frame c t meas (x : hst) : WF x ->
  match hcorrect E c t meas x with
  | Ok x' => Frame x x' /\ correct E c t meas (habs x) = Ok (habs x') /\
             (meas <> [] -> (forall l, In l (k_locs x') -> (length (k_heap x) <= l)%nat) /\ forall l, (l < length (k_heap x))%nat -> nth l (k_heap x') no_hyp = nth l (k_heap x) no_hyp)
  | Err e => correct E c t meas (habs x) = Err e
  end.
Proof.
  intros W. unfold hcorrect. destruct meas as [|z meas].
  2: { destruct (correct E c t (z :: meas) (habs x)) as [s|e]; [|reflexivity]. cbn [bind]. destruct (fresh_frame x s W) as [A [B [C D]]]. split; [exact A|]. split; [rewrite B; reflexivity|]. intros _. split; assumption. }
  unfold hcorrect0, correct. cbn [habs set_hyps g_tab g_hyps]. destruct (gen_cor_tab E c t [] (g_tab (k_rest x))) as [tab ac].
  cbn [length gen_cor_hyps]. destruct (mapM (miss_hyp c (length (g_tab (k_rest x)))) (deref (k_heap x) (k_locs x))) as [vals|e] eqn:Em; [|reflexivity]. cbn [bind].
  destruct (normalise_log E vals) as [vals'|e] eqn:En; [|reflexivity]. cbn [bind].
  destruct W as [W1 W2]. set (h1 := write_all (k_heap x) (k_locs x) vals). set (h2 := write_all h1 (k_locs x) vals').
  assert (L1 : length vals = length (k_locs x)) by (rewrite <- (deref_len (k_heap x)); eapply mapM_length; exact Em).
  assert (L2 : length vals' = length (k_locs x)) by (rewrite <- L1; eapply normalise_len; exact En).
  assert (W3 : forall l, In l (k_locs x) -> (l < length h1)%nat) by (intros l H; unfold h1; rewrite write_len; auto).
  assert (W4 : forall l, In l (k_locs x) -> (l < length h2)%nat) by (intros l H; unfold h2; rewrite write_len; auto).
  assert (D2 : deref h2 (k_locs x) = vals') by (apply deref_write; assumption).
  pose proof (hclean_spec tab h2 (k_locs x) W1 W4) as Hc. destruct (hclean_updates tab h2 (k_locs x)) as [[tab' heap'] locs'].
  rewrite D2 in Hc. destruct Hc as [C1 [C2 [C3 [C4 C5]]]]. rewrite C1. split; [split; [|split; [|split]]|split].
  - split; [exact C3|]. cbn [k_heap k_locs]. intros l H. rewrite C2. auto.
  - cbn [k_heap]. rewrite C2. unfold h2, h1. rewrite !write_len. lia.
  - intros l Hl Hn. cbn [k_heap]. rewrite C5 by exact Hn. unfold h2. rewrite write_other by assumption. apply write_other; assumption.
  - intros l H. left. auto.
  - rewrite D2. reflexivity.
  - congruence.
Qed.
(** * All operations *)
Lemma hset_frame (x : hst) s : WF x -> Frame x (hset x s).
Proof. intros W. exact (frame_refl x W). Qed.
Lemma extract_hyps c u k (s : glmb) o s' : extract_states c u k s = Ok (o, s') -> g_hyps s' = g_hyps s.
Proof. intros H. apply (extract_tab _ _ _ _ _ _ H). Qed.
Lemma hextract_frame c u k (x : hst) : WF x ->
  match hextract c u k x with
  | Ok x' => Frame x x' /\ k_heap x' = k_heap x /\ k_locs x' = k_locs x /\ exists o, extract_states c u k (habs x) = Ok (o, habs x')
  | Err e => extract_states c u k (habs x) = Err e
  end.
Proof.
  intros W. unfold hextract. destruct (extract_states c u k (habs x)) as [[o s]|e] eqn:X; [|reflexivity]. cbn [bind].
  split; [apply hset_frame, W|]. split; [reflexivity|]. split; [reflexivity|]. exists o. f_equal. f_equal.
  apply extract_hyps in X. unfold habs. cbn [hset k_heap k_locs k_rest]. cbn [habs set_hyps g_hyps] in X. rewrite <- X. destruct s; reflexivity.
Qed.
Lemma hcleanup_frame c pr ca ex (x : hst) : WF x ->
  match hcleanup E c pr ca ex x with
  | Ok x' => Frame x x' /\ cleanup E c pr ca ex (habs x) = Ok (habs x') /\ (pr = false -> ca = false -> k_heap x' = k_heap x /\ k_locs x' = k_locs x)
  | Err e => cleanup E c pr ca ex (habs x) = Err e
  end.
Proof.
  intros W. unfold hcleanup, cleanup. cbv zeta.
  set (x1 := hset x (bump (k_rest x))). assert (W1 : WF x1) by exact W. assert (F1 : Frame x x1) by apply hset_frame, W.
  assert (A1 : habs x1 = bump (habs x)) by reflexivity.
  set (x2 := if pr then hprune c x1 else x1). assert (F2 : Frame x1 x2 /\ habs x2 = if pr then prune c (bump (habs x)) else bump (habs x)).
  { unfold x2. destruct pr; [|split; [apply frame_refl, W1|exact A1]]. destruct (hprune_frame c x1 W1) as [A B]. split; [exact A|]. rewrite B, A1. reflexivity. }
  destruct F2 as [F2 A2]. assert (W2 : WF x2) by apply F2.
  set (x3 := if ca then hcap E c x2 else x2). assert (F3 : Frame x2 x3 /\ habs x3 = if ca then cap E c (habs x2) else habs x2).
  { unfold x3. destruct ca; [|split; [apply frame_refl, W2|reflexivity]]. exact (hcap_frame c x2 W2). }
  destruct F3 as [F3 A3]. rewrite A2 in A3. rewrite <- A3.
  assert (F : Frame x x3) by (eapply frame_trans; [exact F1|eapply frame_trans; [exact F2|exact F3]]).
  assert (Hsame : pr = false -> ca = false -> k_heap x3 = k_heap x /\ k_locs x3 = k_locs x) by (intros -> ->; split; reflexivity).
  destruct ex; [|split; [exact F|split; [reflexivity|exact Hsame]]].
  pose proof (hextract_frame c true true x3 (proj1 F)) as X. destruct (hextract c true true x3) as [x4|e].
  - destruct X as [F4 [K1 [K2 [o X]]]]. rewrite X. cbn [bind]. split; [eapply frame_trans; [exact F|exact F4]|]. split; [reflexivity|]. rewrite K1, K2. exact Hsame.
  - rewrite X. reflexivity.
Qed.
Lemma hexec_frame c o (x : hst) : WF x ->
  match hexec E c o x with Ok x' => Frame x x' /\ exec E c o (habs x) = Ok (habs x') | Err e => exec E c o (habs x) = Err e end.
Proof.
  intros W. destruct o as [t|t meas|pr ca ex|u k]; cbn [hexec exec].
  - destruct (predict E c t (habs x)) as [s|e]; [|reflexivity]. cbn [bind]. destruct (fresh_frame x s W) as [A [B _]]. split; [exact A|congruence].
  - pose proof (hcorrect_frame c t meas x W) as H. destruct (hcorrect E c t meas x); [|exact H]. split; apply H.
  - pose proof (hcleanup_frame c pr ca ex x W) as H. destruct (hcleanup E c pr ca ex x); [|exact H]. split; apply H.
  - pose proof (hextract_frame c u k x W) as H. destruct (hextract c u k x).
    + destruct H as [A [_ [_ [o H]]]]. split; [exact A|]. rewrite H. reflexivity.
    + rewrite H. reflexivity.
Qed.
Lemma hrun_frame c os : forall x, WF x ->
  match hrun E c os x with Ok x' => Frame x x' /\ run E c os (habs x) = Ok (habs x') | Err e => run E c os (habs x) = Err e end.
Proof.
  induction os as [|o os IH]; intros x W; cbn [hrun run]; [split; [apply frame_refl, W|reflexivity]|].
  pose proof (hexec_frame c o x W) as H. destruct (hexec E c o x) as [x1|e].
  - destruct H as [F1 H]. rewrite H. cbn [bind]. specialize (IH x1 (proj1 F1)). destruct (hrun E c os x1); [|exact IH].
    destruct IH as [F2 IH]. split; [eapply frame_trans; eassumption|exact IH].
  - rewrite H. reflexivity.
Qed.
Lemma wf_new : WF hst_new.
Proof. split; cbn; [repeat constructor; intros []|intros l [<-|[]]; lia]. Qed.
End SP.
