(** C206: the coordinate frame does not matter to the GLMB filter: it never looks
    into states, covariances, saved filter states or measurements. *)
From Verif Require Import Base Lists.
From Coq Require Import Reals Permutation Lra Lia FunctionalExtensionality.
From Verif Require Import OspaModel CphdModel OspaProofs CphdSpec CphdProofs GlmbModel GlmbSpec GlmbProofs CphdProps GlmbDemo.
Open Scope R_scope.

(** ** Specification *)
Definition rmap {A B} (f : A -> B) (r : result A) : result B := match r with Ok x => Ok (f x) | Err e => Err e end.
Section Spec.
Context {FS ST CV MS FS' ST' CV' MS' : Type}.
(** How saved filter states, states, covariances and measurements are rewritten. *)
Variables (fF : FS -> FS') (fS : ST -> ST') (fC : CV -> CV') (fM : MS -> MS').
(** The inner filters agree up to the rewriting: same initial state, prediction,
    correction, likelihood and refusals; everything else is the same. *)
Record same_env (E : genv FS ST CV MS) (E' : genv FS' ST' CV' MS') : Prop := {
  se_init : forall m p, v_init E' (fS m) (fC p) = fF (v_init E m p);
  se_pred : forall t f x, v_pred E' t (fF f) (fS x) = let '(g, y, p) := v_pred E t f x in (fF g, fS y, fC p);
  se_corr : forall t z f x, v_corr E' t (fM z) (fF f) (fS x) =
    match v_corr E t z f x with Some (g, y, p, q) => Some (fF g, fS y, fC p, q) | None => None end;
  se_rnd : v_rnd E' = v_rnd E; se_kshort : v_kshort E' = v_kshort E; se_murty : v_murty E' = v_murty E;
  se_lse0 : v_lse0 E' = v_lse0 E; se_hash : v_hash E' = v_hash E; se_argsort : v_argsort E' = v_argsort E }.
(** The births' means and covariances rewritten. *)
Definition moved_birth (b : bdist ST CV) : bdist ST' CV' := {| b_m := map fS (b_m b); b_c := map fC (b_c b); b_w := b_w b |}.
Definition moved_cfg (c : gcfg ST CV) : gcfg ST' CV' :=
  {| c_births := map (fun b => (moved_birth (fst b), snd b)) (c_births c); c_ps := c_ps c; c_pd := c_pd c; c_crate := c_crate c; c_cden := c_cden c;
     c_reqb := c_reqb c; c_reqs := c_reqs c; c_requ := c_requ c; c_prune := c_prune c; c_maxh := c_maxh c; c_savecov := c_savecov c; c_savemeas := c_savemeas c |}.
Definition moved_op (o : gop MS) : gop MS' :=
  match o with OpPredict t => OpPredict t | OpCorrect t meas => OpCorrect t (map fM meas) | OpCleanup a b d => OpCleanup a b d | OpExtract u k => OpExtract u k end.
Definition moved_entry (e : entry FS ST CV) : entry FS' ST' CV' :=
  {| e_label := e_label e; e_w := e_w e; e_fs := map fF (e_fs e); e_assoc := e_assoc e; e_st := map (map fS) (e_st e);
     e_cov := map (map (option_map fC)) (e_cov e); e_time := e_time e |}.
Definition moved_hist (x : ehist ST CV) : ehist ST' CV' :=
  {| x_label := x_label x; x_meas := x_meas x; x_time := x_time x; x_st := map fS (x_st x); x_cov := map (option_map fC) (x_cov x) |}.
(** The filter: same hypotheses, cardinality, counter and labels; tracks, saved
    measurements, histories, states and covariances rewritten. *)
Definition moved_glmb (s : glmb FS ST CV MS) : glmb FS' ST' CV' MS' :=
  {| g_tab := map moved_entry (g_tab s); g_hyps := g_hyps s; g_card := g_card s; g_cnt := g_cnt s; g_meas := map (map fM) (g_meas s);
     g_ext := map moved_hist (g_ext s); g_states := map (map fS) (g_states s); g_labels := g_labels s; g_covs := map (map (option_map fC)) (g_covs s) |}.
End Spec.

(** ** Proofs *)
Lemma bind_rmap {A B C D} (f : A -> B) (g : C -> D) (r : result A) (k : A -> result C) (k' : B -> result D) :
  (forall x, k' (f x) = rmap g (k x)) -> bind (rmap f r) k' = rmap g (bind r k).
Proof. intros H. destruct r; [apply H|reflexivity]. Qed.
Lemma bind_same {A C D} (g : C -> D) (r : result A) (k : A -> result C) (k' : A -> result D) :
  (forall x, k' x = rmap g (k x)) -> bind r k' = rmap g (bind r k).
Proof. intros H. destruct r; [apply H|reflexivity]. Qed.
Lemma geti_map {A B} (f : A -> B) l i : geti (map f l) i = rmap f (geti l i).
Proof. unfold geti. rewrite nth_error_map. destruct (nth_error l i); reflexivity. Qed.
Lemma mapM_rmap {A B C D} (f : A -> B) (g : C -> D) (u : A -> result C) (v : B -> result D) l :
  (forall x, v (f x) = rmap g (u x)) -> mapM v (map f l) = rmap (map g) (mapM u l).
Proof.
  intros H. induction l as [|x l IH]; [reflexivity|]. cbn [map mapM]. rewrite H. apply bind_rmap. intros y. rewrite IH. apply bind_rmap. intros ys. reflexivity.
Qed.
Lemma mapM_gather {A B C} (g : B -> C) (u : A -> result B) (v : A -> result C) l : (forall x, v x = rmap g (u x)) -> mapM v l = rmap (map g) (mapM u l).
Proof. intros H. rewrite <- (mapM_rmap (fun x => x) g u v l H). rewrite map_id. reflexivity. Qed.
Lemma combine_map2 {A B C D} (f : A -> B) (g : C -> D) l l' : combine (map f l) (map g l') = map (fun x => (f (fst x), g (snd x))) (combine l l').
Proof. revert l'. induction l as [|x l IH]; intros [|y l']; cbn; [reflexivity..|]. f_equal. apply IH. Qed.
Lemma last_map {A B} (f : A -> B) l d : last (map f l) (f d) = f (last l d).
Proof. induction l as [|x [|y l] IH]; [reflexivity..|]. exact IH. Qed.
Lemma set_last_map {A B} (f : A -> B) l x : set_last (map f l) (f x) = map f (set_last l x).
Proof.
  unfold set_last. rewrite map_app. cbn [map]. f_equal. induction l as [|y [|z l] IH]; [reflexivity..|]. change (removelast (map f (y :: z :: l))) with (f y :: removelast (map f (z :: l))).
  rewrite IH. reflexivity.
Qed.
Lemma all_some_map {A B} (f : A -> B) l : all_some (map (option_map f) l) = option_map (map f) (all_some l).
Proof. induction l as [|[x|] l IH]; [reflexivity| |reflexivity]. cbn [map option_map all_some]. rewrite IH. destruct (all_some l); reflexivity. Qed.
(** lists of shared slots *)
Definition smap {A B} (f : A -> B) (s : slots A) : slots B := (map (option_map (map f)) (fst s), map f (snd s)).
Lemma set_nth_map {A B} (f : A -> B) i x l : set_nth i (f x) (map f l) = map f (set_nth i x l).
Proof. revert i. induction l as [|y l IH]; intros [|i]; cbn; [reflexivity..|]. f_equal. apply IH. Qed.
Lemma slot_set_map {A B} (f : A -> B) s i l : slot_set (smap f s) i (map f l) = rmap (smap f) (slot_set s i l).
Proof. unfold slot_set, smap. cbn [fst snd]. rewrite geti_map. apply bind_rmap. intros o. cbn [rmap fst snd]. rewrite <- (set_nth_map (option_map (map f)) i (Some l)). reflexivity. Qed.
Lemma slot_append_map {A B} (f : A -> B) s i x : slot_append (smap f s) i (f x) = rmap (smap f) (slot_append s i x).
Proof.
  unfold slot_append, smap. cbn [fst snd]. rewrite geti_map. apply bind_rmap. intros [o|]; cbn [rmap fst snd option_map].
  - rewrite <- (set_nth_map (option_map (map f)) i (Some (o ++ [x]))). cbn [option_map]. rewrite map_app. reflexivity.
  - rewrite map_app. reflexivity.
Qed.
Lemma slot_read_map {A B} (f : A -> B) s : slot_read (smap f s) = map (map f) (slot_read s).
Proof. unfold slot_read, smap. cbn [fst snd]. rewrite !map_map. apply map_ext. intros [o|]; reflexivity. Qed.
Lemma slots_new_map {A B} (f : A -> B) n : smap f (slots_new n) = slots_new n.
Proof. unfold slots_new, smap. cbn [fst snd map]. f_equal. induction n; cbn; congruence. Qed.
Lemma nth_map_none {A B} (f : A -> B) l i : nth i (map (option_map f) l) None = option_map f (nth i l None).
Proof. exact (map_nth (option_map f) l None i). Qed.

Section Frame.
Context {FS ST CV MS FS' ST' CV' MS' : Type}.
Variables (fF : FS -> FS') (fS : ST -> ST') (fC : CV -> CV') (fM : MS -> MS').
Variables (E : genv FS ST CV MS) (E' : genv FS' ST' CV' MS').
Hypothesis SE : same_env fF fS fC fM E E'.
Notation mc := (moved_cfg fS fC).
Notation me := (moved_entry fF fS fC).
Notation mh := (moved_hist fS fC).
Notation mg := (moved_glmb fF fS fC fM).
Implicit Types (c : gcfg ST CV) (s : glmb FS ST CV MS) (e : entry FS ST CV).
Lemma norm_eq hs : normalise_log E' hs = normalise_log E hs.
Proof. unfold normalise_log. rewrite (se_lse0 _ _ _ _ _ _ SE). reflexivity. Qed.
Lemma birth_moved c t cnt ii d : birth_entry E' (mc c) t cnt ii (moved_birth fS fC d) = me (birth_entry E c t cnt ii d).
Proof.
  unfold birth_entry, moved_entry. cbn [e_label e_w e_fs e_assoc e_st e_cov e_time b_w b_m b_c moved_birth c_savecov moved_cfg map]. rewrite (se_rnd _ _ _ _ _ _ SE). f_equal.
  - rewrite combine_map2, !map_map. apply map_ext. intros [m p]. cbn [fst snd]. apply (se_init _ _ _ _ _ _ SE).
  - destruct (c_savecov c); [|reflexivity]. rewrite !map_map. reflexivity.
Qed.
Lemma birth_tab_moved c t cnt : gen_birth_tab E' (mc c) t cnt = rmap (fun r => (map me (fst r), snd r)) (gen_birth_tab E c t cnt).
Proof.
  unfold gen_birth_tab. cbn [c_births moved_cfg]. rewrite (mapM_rmap (fun b => (moved_birth fS fC (fst b), snd b)) (fun x => x) (fun b => birth_cost (snd b)) (fun b => birth_cost (snd b))) by (intros b; cbn [snd]; destruct (birth_cost _); reflexivity).
  apply bind_rmap. intros l. rewrite map_id. cbn [rmap fst snd]. rewrite map_length. f_equal. f_equal.
  rewrite map_map. assert (G : forall (l : list (bdist ST CV * R)) k, map (fun ib => birth_entry E' (mc c) t cnt (fst ib) (fst (snd ib))) (combine (seq k (length l)) (map (fun b => (moved_birth fS fC (fst b), snd b)) l)) =
    map (fun x => me (birth_entry E c t cnt (fst x) (fst (snd x)))) (combine (seq k (length l)) l)).
  { induction l0 as [|b l0 IH]; intros k; [reflexivity|]. cbn [length seq map combine fst snd]. rewrite birth_moved, IH. reflexivity. }
  apply G.
Qed.
Lemma birth_hyps_moved c paths costs : gen_birth_hyps E' (mc c) paths costs = gen_birth_hyps E c paths costs.
Proof.
  unfold gen_birth_hyps. cbn [c_births moved_cfg].
  rewrite (mapM_rmap (fun b => (moved_birth fS fC (fst b), snd b)) (fun x => x) (fun b => lnp (1 - snd b)) (fun b => lnp (1 - snd b))) by (intros b; cbn [snd]; destruct (lnp _); reflexivity).
  destruct (mapM _ _); [|reflexivity]. cbn [rmap bind]. rewrite map_id. apply norm_eq.
Qed.
Lemma pred_moved c t e : pred_entry E' (mc c) t (me e) = me (pred_entry E c t e).
Proof.
  unfold pred_entry, moved_entry. cbn [e_label e_w e_fs e_assoc e_st e_cov e_time c_savecov moved_cfg].
  rewrite (last_map (map fS) (e_st e) [] : last (map (map fS) (e_st e)) [] = _), combine_map2, !map_app. cbn [map]. rewrite !map_map. cbn [fst snd]. f_equal.
  - apply map_ext. intros [f x]. cbn [fst snd]. rewrite (se_pred _ _ _ _ _ _ SE). destruct (v_pred E t f x) as [[g y] p]. reflexivity.
  - f_equal. f_equal. apply map_ext. intros [f x]. cbn [fst snd]. rewrite (se_pred _ _ _ _ _ _ SE). destruct (v_pred E t f x) as [[g y] p]. reflexivity.
  - f_equal. f_equal. apply map_ext. intros [f x]. cbn [fst snd]. rewrite (se_pred _ _ _ _ _ _ SE). destruct (v_pred E t f x) as [[g y] p]. destruct (c_savecov c); reflexivity.
Qed.
Lemma surv_moved c n hs : gen_surv_hyps E' (mc c) n hs = gen_surv_hyps E c n hs.
Proof.
  unfold gen_surv_hyps. replace (mapM (surv_hyp E' (mc c) n (rsum (map (fun h => sqrt (h_p h)) hs))) hs) with (mapM (surv_hyp E c n (rsum (map (fun h => sqrt (h_p h)) hs))) hs).
  - destruct (mapM _ _); [|reflexivity]. cbn [bind]. apply norm_eq.
  - generalize (rsum (map (fun h => sqrt (h_p h)) hs)). intros ss. induction hs as [|h hs IH]; [reflexivity|]. cbn [mapM]. rewrite IH. unfold surv_hyp at 1 3. rewrite (se_kshort _ _ _ _ _ _ SE). reflexivity.
Qed.
Lemma predict_moved c t s : predict E' (mc c) t (mg s) = rmap mg (predict E c t s).
Proof.
  unfold predict. cbn [moved_glmb g_tab g_hyps g_card g_cnt g_meas g_ext g_states g_labels g_covs]. rewrite birth_tab_moved. apply bind_rmap. intros [btab lcost]. cbn [fst snd].
  rewrite (se_kshort _ _ _ _ _ _ SE). change (c_reqb (mc c)) with (c_reqb c). apply bind_same. intros [paths costs]. rewrite birth_hyps_moved. apply bind_same. intros bh.
  rewrite map_length, surv_moved. apply bind_same. intros sh. cbn [rmap]. unfold moved_glmb. cbn [g_tab g_hyps g_card g_cnt g_meas g_ext g_states g_labels g_covs]. f_equal. f_equal.
  - rewrite map_app, !map_map. f_equal. apply map_ext. intros e. apply pred_moved.
  - rewrite map_length. unfold clean_predictions. rewrite (se_hash _ _ _ _ _ _ SE). reflexivity.
Qed.
Lemma cor_moved c t z e : cor_entry E' (mc c) t (fM z) (me e) = option_map (fun r => (me (fst r), snd r)) (cor_entry E c t z e).
Proof.
  unfold cor_entry. cbn [moved_entry e_label e_w e_fs e_assoc e_st e_cov e_time c_savecov moved_cfg].
  set (up := fun r : FS * ST * CV * R => let '(g, y, p, q) := r in (fF g, fS y, fC p, q)).
  assert (H : map (fun fxw : FS' * ST' * R => v_corr E' t (fM z) (fst (fst fxw)) (snd (fst fxw))) (combine (combine (map fF (e_fs e)) (last (map (map fS) (e_st e)) [])) (last (e_w e) [])) =
    map (option_map up) (map (fun fxw : FS * ST * R => v_corr E t z (fst (fst fxw)) (snd (fst fxw))) (combine (combine (e_fs e) (last (e_st e) [])) (last (e_w e) [])))).
  { rewrite (last_map (map fS) (e_st e) [] : last (map (map fS) (e_st e)) [] = _), combine_map2. rewrite <- (map_id (last (e_w e) [])) at 1. rewrite combine_map2, !map_map. apply map_ext. intros [[f x] w]. cbn [fst snd].
    rewrite (se_corr _ _ _ _ _ _ SE). destruct (v_corr E t z f x) as [[[[g y] p] q]|]; reflexivity. }
  rewrite H, all_some_map. destruct (all_some _) as [rs|]; [|reflexivity]. cbn [option_map fst snd].
  assert (HW : map (fun rw : FS' * ST' * CV' * R * R => snd rw * snd (fst rw) + feps) (combine (map up rs) (last (e_w e) [])) = map (fun rw : FS * ST * CV * R * R => snd rw * snd (fst rw) + feps) (combine rs (last (e_w e) []))).
  { rewrite <- (map_id (last (e_w e) [])) at 1. rewrite combine_map2, map_map. apply map_ext. intros [[[[g y] p] q] w]. reflexivity. }
  rewrite HW. set (cost := rsum _). cbn zeta. f_equal. f_equal. unfold moved_entry. cbn [e_label e_w e_fs e_assoc e_st e_cov e_time]. f_equal.
  - rewrite !map_map. apply map_ext. intros [[[g y] p] q]. reflexivity.
  - rewrite <- set_last_map. f_equal. rewrite !map_map. apply map_ext. intros [[[g y] p] q]. reflexivity.
  - rewrite <- set_last_map. f_equal. rewrite !map_map. apply map_ext. intros [[[g y] p] q]. cbn [up snd fst]. destruct (c_savecov c); reflexivity.
Qed.
Lemma assoc_moved a e : add_assoc a (me e) = me (add_assoc a e).
Proof. reflexivity. Qed.
Lemma cor_tab_moved c t meas tab : fst (gen_cor_tab E' (mc c) t (map fM meas) (map me tab)) = map (option_map me) (fst (gen_cor_tab E c t meas tab)).
Proof.
  unfold gen_cor_tab. cbn [fst]. rewrite !map_app, !map_map. f_equal. rewrite concat_map. f_equal. rewrite map_length.
  assert (G : forall ms k, map (fun ez : nat * MS' => map (fun n => match cor_entry E' (mc c) t (snd ez) n with Some (e', _) => Some (add_assoc (Some (fst ez)) e') | None => None end) (map me tab)) (combine (seq k (length ms)) (map fM ms)) =
    map (map (option_map me)) (map (fun ez : nat * MS => map (fun e => match cor_entry E c t (snd ez) e with Some (e', _) => Some (add_assoc (Some (fst ez)) e') | None => None end) tab) (combine (seq k (length ms)) ms))).
  { induction ms as [|z ms IH]; intros k; [reflexivity|]. cbn [length seq map combine fst snd]. f_equal; [|apply IH]. rewrite !map_map. apply map_ext. intros e. rewrite cor_moved. destruct (cor_entry E c t z e) as [[e' q]|]; reflexivity. }
  apply G.
Qed.
Lemma cor_cost_moved c t meas tab i j : snd (gen_cor_tab E' (mc c) t (map fM meas) (map me tab)) i j = snd (gen_cor_tab E c t meas tab) i j.
Proof.
  cbn [gen_cor_tab snd]. rewrite !nth_error_map. destruct (nth_error tab i) as [e|]; [|reflexivity]. cbn [option_map]. destruct (nth_error meas j) as [z|]; [|reflexivity]. cbn [option_map].
  rewrite cor_moved. destruct (cor_entry E c t z e) as [[e' q]|]; reflexivity.
Qed.
Lemma cor_hyps_moved c nm ntab ac hs : gen_cor_hyps E' (mc c) nm ntab ac hs = gen_cor_hyps E c nm ntab ac hs.
Proof.
  unfold gen_cor_hyps. destruct nm as [|nm].
  - change (mapM (miss_hyp (mc c) ntab) hs) with (mapM (miss_hyp c ntab) hs). destruct (mapM _ _); [|reflexivity]. cbn [bind]. apply norm_eq.
  - cbv zeta. generalize (rsum (map (fun h => sqrt (h_p h)) hs)). intros ss. replace (mapM (cor_hyp E' (mc c) (S nm) ntab ac ss) hs) with (mapM (cor_hyp E c (S nm) ntab ac ss) hs).
    + destruct (mapM _ _); [|reflexivity]. cbn [bind]. apply norm_eq.
    + induction hs as [|h hs IH]; [reflexivity|]. cbn [mapM]. rewrite IH. unfold cor_hyp at 1 3. rewrite (se_murty _ _ _ _ _ _ SE). reflexivity.
Qed.
Lemma clean_moved (tab : list (option (entry FS ST CV))) hs : clean_updates (map (option_map me) tab) hs = (map me (fst (clean_updates tab hs)), snd (clean_updates tab hs)).
Proof.
  unfold clean_updates. cbn [fst snd].
  assert (N : nnz_inds (map (option_map me) tab) hs = nnz_inds tab hs).
  { unfold nnz_inds. rewrite map_length. apply filter_ext. intros i. rewrite nth_map_none. destruct (nth i tab None); reflexivity. }
  rewrite N. clear N. f_equal. generalize (nnz_inds tab hs). intros l. induction l as [|i l IH]; [reflexivity|]. cbn [flat_map]. rewrite map_app, IH. f_equal. rewrite nth_map_none. destruct (nth i tab None); reflexivity.
Qed.
Lemma correct_moved c t meas s : correct E' (mc c) t (map fM meas) (mg s) = rmap mg (correct E c t meas s).
Proof.
  unfold correct. cbn [moved_glmb g_tab g_hyps g_card g_cnt g_meas g_ext g_states g_labels g_covs].
  pose proof (cor_tab_moved c t meas (g_tab s)) as HT.
  assert (HC : snd (gen_cor_tab E' (mc c) t (map fM meas) (map me (g_tab s))) = snd (gen_cor_tab E c t meas (g_tab s))).
  { apply functional_extensionality. intros i. apply functional_extensionality. intros j. apply cor_cost_moved. }
  destruct (gen_cor_tab E' (mc c) t (map fM meas) (map me (g_tab s))) as [tab' ac']. destruct (gen_cor_tab E c t meas (g_tab s)) as [tab ac]. cbn [fst snd] in HT, HC. subst tab' ac'.
  rewrite !map_length, cor_hyps_moved. apply bind_same. intros hs. rewrite clean_moved. destruct (clean_updates tab hs) as [u v]. cbn [fst snd rmap]. unfold moved_glmb. cbn [g_tab g_hyps g_card g_cnt g_meas g_ext g_states g_labels g_covs c_savemeas moved_cfg].
  f_equal. f_equal. destruct (c_savemeas c); [rewrite map_app|]; reflexivity.
Qed.
Lemma prune_moved c s : prune (mc c) (mg s) = mg (prune c s).
Proof. reflexivity. Qed.
Lemma cap_moved c s : cap E' (mc c) (mg s) = mg (cap E c s).
Proof. unfold cap. cbn [moved_glmb g_hyps c_maxh moved_cfg]. rewrite (se_argsort _ _ _ _ _ _ SE). destruct (_ <? _)%nat; reflexivity. Qed.
Lemma helper_moved c e : extract_helper (mc c) (me e) = rmap (fun r => (map fS (fst r), map (option_map fC) (snd r))) (extract_helper c e).
Proof.
  unfold extract_helper. cbn [moved_entry e_w e_st e_cov c_savecov moved_cfg].
  rewrite <- (map_id (e_w e)) at 1. rewrite !combine_map2.
  rewrite (mapM_rmap (fun x : list R * list ST * list (option CV) => ((fst (fst x), map fS (snd (fst x))), map (option_map fC) (snd x))) (fun y => (fS (fst y), option_map fC (snd y)))
    (fun wsc => let '(w, y0, cv) := wsc in do idx <- argmaxR w; do x <- geti y0 idx; do y <- (if c_savecov c then geti cv idx else Ok None); Ok (x, y))).
  - apply bind_rmap. intros l. cbn [rmap fst snd]. rewrite !map_map. reflexivity.
  - intros [[w st] cv]. cbn [fst snd]. apply bind_same. intros idx. rewrite geti_map. apply bind_rmap. intros x. destruct (c_savecov c).
    + rewrite geti_map. apply bind_rmap. intros y. reflexivity.
    + reflexivity.
Qed.
Lemma new_hists_moved c es : forall used, new_hists (mc c) (map me es) used = rmap (fun r => (map mh (fst r), snd r)) (new_hists c es used).
Proof.
  induction es as [|e es IH]; intros used; [reflexivity|]. cbn [map new_hists]. rewrite helper_moved. apply bind_rmap. intros [st cv]. cbn [fst snd].
  cbn [moved_entry e_time e_assoc e_label]. apply bind_same. intros used'. rewrite IH. apply bind_rmap. intros [hs used'']. reflexivity.
Qed.
Lemma keep_hists_moved labels used xs : keep_hists labels used (map mh xs) = rmap (map mh) (keep_hists labels used xs).
Proof.
  induction xs as [|x xs IH]; [reflexivity|]. cbn [map keep_hists]. cbn [moved_hist x_label x_time x_meas]. apply bind_same. intros d. rewrite IH. apply bind_rmap. intros r. destruct d; reflexivity.
Qed.
Lemma update_hist_moved c s idx : update_hist (mc c) (mg s) idx = rmap (map mh) (update_hist c s idx).
Proof.
  unfold update_hist. cbn [moved_glmb g_tab g_hyps g_cnt g_ext]. apply bind_same. intros h.
  rewrite (mapM_gather me (geti (g_tab s)) (geti (map me (g_tab s)))) by (intros i; apply geti_map). apply bind_rmap. intros es. rewrite new_hists_moved. apply bind_rmap. intros [news used]. cbn [fst snd].
  rewrite map_map. cbn [moved_entry e_label]. rewrite keep_hists_moved. apply bind_rmap. intros kept. cbn [rmap]. rewrite map_app. reflexivity.
Qed.
Definition mo (o : @outs ST CV) : @outs ST' CV' := {| o_st := smap fS (o_st o); o_lb := o_lb o; o_cv := smap (option_map fC) (o_cv o) |}.
Lemma put_one_moved tt x lab cv o : put_one tt (fS x) lab (option_map fC cv) (mo o) = rmap mo (put_one tt x lab cv o).
Proof.
  unfold put_one. cbn [mo o_st o_lb o_cv]. apply bind_same. intros [|l0 l].
  - rewrite (slot_set_map fS (o_st o) tt [x] : slot_set _ tt [fS x] = _). apply bind_rmap. intros a. apply bind_same. intros b.
    rewrite (slot_set_map (option_map fC) (o_cv o) tt [cv] : slot_set _ tt [option_map fC cv] = _). apply bind_rmap. intros d. reflexivity.
  - rewrite slot_append_map. apply bind_rmap. intros a. apply bind_same. intros b. rewrite slot_append_map. apply bind_rmap. intros d. reflexivity.
Qed.
Lemma put_track_moved lab sc : forall tt o, put_track lab tt (map (fun x => (fS (fst x), option_map fC (snd x))) sc) (mo o) = rmap mo (put_track lab tt sc o).
Proof.
  induction sc as [|[x cv] sc IH]; intros tt o; [reflexivity|]. cbn [map fst snd put_track]. rewrite put_one_moved. apply bind_rmap. intros o'. apply IH.
Qed.
Lemma put_all_moved xs : forall o, put_all (map mh xs) (mo o) = rmap mo (put_all xs o).
Proof.
  induction xs as [|x xs IH]; intros o; [reflexivity|]. cbn [map put_all]. cbn [moved_hist x_label x_time x_st x_cov]. rewrite combine_map2, put_track_moved. apply bind_rmap. intros o'. apply IH.
Qed.
Lemma set_out_moved s xs o : set_out (mg s) (map mh xs) (mo o) = mg (set_out s xs o).
Proof. unfold set_out, moved_glmb. cbn [g_tab g_hyps g_card g_cnt g_meas g_ext g_states g_labels g_covs mo o_st o_lb o_cv]. rewrite !slot_read_map. reflexivity. Qed.
Lemma extract_moved c u k s : extract_states (mc c) u k (mg s) = rmap (fun r => (fst r, mg (snd r))) (extract_states c u k s).
Proof.
  unfold extract_states. cbn [moved_glmb g_card g_hyps g_cnt g_ext]. apply bind_same. intros _.
  set (e0 := {| o_st := slots_new (g_cnt s); o_lb := slots_new (g_cnt s); o_cv := slots_new (g_cnt s) |} : @outs ST CV).
  replace {| o_st := slots_new (g_cnt s); o_lb := slots_new (g_cnt s); o_cv := slots_new (g_cnt s) |} with (mo e0) by (unfold mo, e0; cbn [o_st o_lb o_cv]; rewrite !slots_new_map; reflexivity).
  cbv zeta. destruct (g_hyps s) as [|h hs] eqn:Eh; [cbn [rmap fst snd]; rewrite <- set_out_moved; reflexivity|].
  change (map_index (mg s)) with (map_index s). apply bind_same. intros idx.
  assert (H1 : (if u then update_hist (mc c) (mg s) idx else Ok (map mh (g_ext s))) = rmap (map mh) (if u then update_hist c s idx else Ok (g_ext s))) by (destruct u; [apply update_hist_moved|reflexivity]).
  match goal with |- bind ?a _ = _ => replace a with (rmap (map mh) (if u then update_hist c s idx else Ok (g_ext s))) end.
  apply bind_rmap. intros xs.
  assert (H2 : (if k then put_all (map mh xs) (mo e0) else Ok (mo e0)) = rmap mo (if k then put_all xs e0 else Ok e0)) by (destruct k; [apply put_all_moved|reflexivity]).
  rewrite H2. apply bind_rmap. intros o. cbn [rmap fst snd]. f_equal. f_equal. exact (set_out_moved s xs o).
Qed.
Lemma exec_moved c o s : exec E' (mc c) (moved_op fM o) (mg s) = rmap mg (exec E c o s).
Proof.
  destruct o as [t|t meas|a b d|u k]; cbn [exec moved_op].
  - apply predict_moved.
  - apply correct_moved.
  - unfold cleanup. cbv zeta. change (bump (mg s)) with (mg (bump s)).
    replace (if a then prune (mc c) (mg (bump s)) else mg (bump s)) with (mg (if a then prune c (bump s) else bump s)) by (destruct a; reflexivity). set (s2 := if a then _ else _).
    replace (if b then cap E' (mc c) (mg s2) else mg s2) with (mg (if b then cap E c s2 else s2)) by (destruct b; [symmetry; apply cap_moved|reflexivity]). set (s3 := if b then _ else _).
    destruct d; [|reflexivity]. rewrite extract_moved. apply bind_rmap. intros [oi s4]. reflexivity.
  - rewrite extract_moved. apply bind_rmap. intros [oi s4]. reflexivity.
Qed.
Lemma run_moved c os : forall s, run E' (mc c) (map (moved_op fM) os) (mg s) = rmap mg (run E c os s).
Proof. induction os as [|o os IH]; intros s; [reflexivity|]. cbn [map run]. rewrite exec_moved. apply bind_rmap. intros s'. apply IH. Qed.
Notation mout := (fun r : list (list ST) * list (list label) * list (list (option CV)) * R => let '(a, b, d, q) := r in (map (map fS) a, b, map (map (option_map fC)) d, q)).
Lemma most_loop_moved fuel c th : forall s, most_loop fuel (mc c) th (mg s) = rmap (map mout) (most_loop fuel c th s).
Proof.
  induction fuel as [|fuel IH]; intros s; cbn [most_loop]; rewrite extract_moved; apply bind_rmap; intros [[i|] s1]; cbn [fst snd]; try reflexivity; change (g_hyps (mg s1)) with (g_hyps s1); apply bind_same; intros h.
  - destruct (Rle_dec th (h_p h)); reflexivity.
  - destruct (Rle_dec th (h_p h)); [|reflexivity]. change (zero_hyp i (mg s1)) with (mg (zero_hyp i s1)). rewrite IH. apply bind_rmap. intros rr. reflexivity.
Qed.
Lemma most_prob_moved fuel c th s : most_prob fuel (mc c) th (mg s) = rmap (map mout) (most_prob fuel c th s).
Proof.
  unfold most_prob. rewrite extract_moved. apply bind_rmap. intros [[i|] s1]; cbn [fst snd]; [|reflexivity]. change (g_hyps (mg s1)) with (g_hyps s1). apply bind_same. intros h.
  change (zero_hyp i (mg s1)) with (mg (zero_hyp i s1)). rewrite most_loop_moved. apply bind_rmap. intros r. reflexivity.
Qed.
End Frame.

(** C206: any sequence of calls, on rewritten births and measurements, gives exactly
    the rewritten filter, or the same exception. *)
Theorem C206_glmb_frame : forall {FS ST CV MS FS' ST' CV' MS' : Type} (fF : FS -> FS') (fS : ST -> ST') (fC : CV -> CV') (fM : MS -> MS')
    (E : genv FS ST CV MS) (E' : genv FS' ST' CV' MS') (c : gcfg ST CV) (os : list (gop MS)),
  same_env fF fS fC fM E E' ->
  run E' (moved_cfg fS fC c) (map (moved_op fM) os) glmb_new = rmap (moved_glmb fF fS fC fM) (run E c os glmb_new).
Proof. intros. exact (run_moved fF fS fC fM E E' H c os glmb_new). Qed.
Print Assumptions C206_glmb_frame.
(** The same for extract_most_prob_states afterwards (states, labels, covariances and
    probability of each hypothesis). *)
Theorem C206_most_prob_frame : forall {FS ST CV MS FS' ST' CV' MS' : Type} (fF : FS -> FS') (fS : ST -> ST') (fC : CV -> CV') (fM : MS -> MS')
    (E : genv FS ST CV MS) (E' : genv FS' ST' CV' MS') (c : gcfg ST CV) (os : list (gop MS)) s fuel thresh,
  same_env fF fS fC fM E E' -> run E c os glmb_new = Ok s ->
  exists s', run E' (moved_cfg fS fC c) (map (moved_op fM) os) glmb_new = Ok s' /\
    most_prob fuel (moved_cfg fS fC c) thresh s' =
    rmap (map (fun r => let '(a, b, d, q) := r in (map (map fS) a, b, map (map (option_map fC)) d, q))) (most_prob fuel c thresh s).
Proof.
  intros FS ST CV MS FS' ST' CV' MS' fF fS fC fM E E' c os s fuel th SE H. exists (moved_glmb fF fS fC fM s).
  rewrite (C206_glmb_frame fF fS fC fM E E' c os SE), H. split; [reflexivity|exact (most_prob_moved fF fS fC fM fuel c th s)].
Qed.
Print Assumptions C206_most_prob_frame.

(** A moving point on a line, in metres and in other units [k] from another origin [b]. *)
Definition line_env (k b : R) : genv R R R R :=
  {| v_rnd := fun t => Int_part t; v_init := fun m _ => m; v_pred := fun t f x => (f + k * t, x + k * t, k * k);
     v_corr := fun _ z f x => if Rlt_dec (10 * k) (Rabs (z - x)) then None else Some (f, (z + x) / 2, k * k / 2, exp (- ((z - x) / k * ((z - x) / k))));
     v_kshort := d_kshort; v_murty := d_murty; v_lse0 := Ok tt; v_hash := fun l => Z.of_nat (enc l); v_argsort := sort_ref |}.
Example C206_instance : forall k b, 0 < k -> same_env (fun x => k * x + b) (fun x => k * x + b) (fun p => k * k * p) (fun z => k * z + b) (line_env 1 0) (line_env k b).
Proof.
  intros k b Hk. constructor; try reflexivity.
  - intros t f x. cbn. f_equal; [f_equal|]; ring.
  - intros t z f x. cbn. replace (k * z + b - (k * x + b)) with (k * (z - x)) by ring. rewrite Rabs_mult, (Rabs_pos_eq k) by lra.
    destruct (Rlt_dec (10 * k) (k * Rabs (z - x))) as [H|H]; destruct (Rlt_dec (10 * 1) (Rabs (z - x))) as [H'|H'].
    + reflexivity.
    + exfalso. apply H'. apply (Rmult_lt_reg_l k); [exact Hk|lra].
    + exfalso. apply H. apply (Rmult_lt_compat_l k) in H'; [lra|exact Hk].
    + f_equal. f_equal; [f_equal; [f_equal; lra|field]|]. f_equal. field. lra.
Qed.
