(** C208: the coordinate frame does not matter to the SMC-GLMB filter: it looks into
    particles only through the survival and detection probability functions. *)
From Verif Require Import Base Lists.
From Coq Require Import Reals Permutation Lra Lia FunctionalExtensionality.
From Verif Require Import OspaModel CphdModel OspaProofs CphdSpec CphdProofs GlmbModel GlmbSpec GlmbProofs SmcModel GlmbFrame.
Open Scope R_scope.

(** ** Specification *)
Section Spec.
Context {P X ST CV MS P' X' ST' CV' MS' : Type}.
(** How particles, the rest of a particle filter's state, estimates, covariances and
    measurements are rewritten. *)
Variables (fP : P -> P') (fX : X -> X') (fS : ST -> ST') (fC : CV -> CV') (fM : MS -> MS').
Definition moved_pf (s : pfs P X) : pfs P' X' := {| p_parts := map fP (p_parts s); p_w := p_w s; p_rest := fX (p_rest s) |}.
(** The particle filters agree up to the rewriting; everything else is the same. *)
Record same_senv (Z : senv P X ST CV MS) (Z' : senv P' X' ST' CV' MS') : Prop := {
  ss_pred : forall t s, z_pred Z' t (moved_pf s) = (moved_pf (fst (z_pred Z t s)), fS (snd (z_pred Z t s)));
  ss_corr : forall t z s, z_corr Z' t (fM z) (moved_pf s) =
    match z_corr Z t z s with Some (s1, x1, l) => Some (moved_pf s1, fS x1, l) | None => None end;
  ss_cov : forall s, z_cov Z' (moved_pf s) = fC (z_cov Z s);
  ss_rnd : v_rnd (z_g Z') = v_rnd (z_g Z); ss_kshort : v_kshort (z_g Z') = v_kshort (z_g Z); ss_murty : v_murty (z_g Z') = v_murty (z_g Z);
  ss_lse0 : v_lse0 (z_g Z') = v_lse0 (z_g Z); ss_hash : v_hash (z_g Z') = v_hash (z_g Z); ss_argsort : v_argsort (z_g Z') = v_argsort (z_g Z) }.
Definition moved_sbirth (b : pfs P X * ST * CV * R) : pfs P' X' * ST' * CV' * R := let '(s, m, p, q) := b in (moved_pf s, fS m, fC p, q).
(** The calls: probability functions give rewritten particles the same values. *)
Inductive moved_sop : sop P MS -> sop P' MS' -> Prop :=
| ms_predict f f' t : (forall l, f' (map fP l) = f l) -> moved_sop (SPredict f t) (SPredict f' t)
| ms_correct f f' t meas : (forall l, f' (map fP l) = f l) -> moved_sop (SCorrect f t meas) (SCorrect f' t (map fM meas))
| ms_cleanup a b d : moved_sop (SCleanup a b d) (SCleanup a b d)
| ms_extract u k : moved_sop (SExtract u k) (SExtract u k).
End Spec.

(** ** Proofs *)
Section Frame.
Context {P X ST CV MS P' X' ST' CV' MS' : Type}.
Variables (fP : P -> P') (fX : X -> X') (fS : ST -> ST') (fC : CV -> CV') (fM : MS -> MS').
Variables (Z : senv P X ST CV MS) (Z' : senv P' X' ST' CV' MS').
Hypothesis SZ : same_senv fP fX fS fC fM Z Z'.
Notation fF := (moved_pf fP fX).
Notation mc := (moved_cfg fS fC).
Notation me := (moved_entry fF fS fC).
Notation mg := (moved_glmb fF fS fC fM).
Notation mb := (moved_sbirth fP fX fS fC).
Notation E := (z_g Z).
Notation E' := (z_g Z').
Notation entry := (entry (pfs P X) ST CV).
Implicit Types (c : gcfg ST CV) (s : glmb (pfs P X) ST CV MS).
Lemma snorm_eq hs : normalise_log E' hs = normalise_log E hs.
Proof. unfold normalise_log. rewrite (ss_lse0 _ _ _ _ _ _ _ SZ). reflexivity. Qed.
Lemma avg_moved' f f' (e : entry) : (forall l, f' (map fP l) = f l) -> avg_prob f' (me e) = avg_prob f e.
Proof. intros H. unfold avg_prob. cbn [moved_entry e_fs]. destruct (e_fs e) as [|x l]; [reflexivity|]. cbn [map moved_pf p_w p_parts]. rewrite H. reflexivity. Qed.
Lemma inner_pred_moved f f' t x y : (forall l, f' (map fP l) = f l) -> sinner_pred Z' f' t (fF x) (fS y) = rmap (fun r => (fF (fst (fst r)), fS (snd (fst r)), fC (snd r))) (sinner_pred Z f t x y).
Proof.
  intros H. unfold sinner_pred. change (p_parts (fF x)) with (map fP (p_parts x)). destruct (p_parts x) as [|p0 ps] eqn:Ep.
  - cbn [map rmap fst snd]. rewrite (ss_cov _ _ _ _ _ _ _ SZ). reflexivity.
  - cbn [map]. rewrite (ss_pred _ _ _ _ _ _ _ SZ). destruct (z_pred Z t x) as [s1 x1]. cbn [fst snd]. change (p_parts (fF s1)) with (map fP (p_parts s1)). change (p_w (fF s1)) with (p_w s1). rewrite H. cbv zeta.
    destruct (negb _); [reflexivity|]. apply bind_same. intros w. change (with_w (fF s1) w) with (fF (with_w s1 w)). rewrite (ss_cov _ _ _ _ _ _ _ SZ). reflexivity.
Qed.
Lemma pred_entry_moved f f' c t (e : entry) : (forall l, f' (map fP l) = f l) -> spred_entry Z' f' (mc c) t (me e) = rmap me (spred_entry Z f c t e).
Proof.
  intros H. unfold spred_entry. cbn [moved_entry e_label e_w e_fs e_assoc e_st e_cov e_time c_savecov moved_cfg].
  rewrite (last_map (map fS) (e_st e) [] : last (map (map fS) (e_st e)) [] = _), combine_map2.
  rewrite (mapM_rmap (fun x => (fF (fst x), fS (snd x))) (fun r => (fF (fst (fst r)), fS (snd (fst r)), fC (snd r))) (fun sx => sinner_pred Z f t (fst sx) (snd sx))) by (intros [x y]; cbn [fst snd]; apply inner_pred_moved, H).
  apply bind_rmap. intros rs. cbn [rmap]. f_equal. unfold moved_entry. cbn [e_label e_w e_fs e_assoc e_st e_cov e_time]. rewrite !map_app. cbn [map]. rewrite !map_map. cbn [fst snd]. f_equal.
  f_equal. f_equal. apply map_ext. intros r. destruct (c_savecov c); reflexivity.
Qed.
Lemma birth_entry_moved c t cnt i b : sbirth_entry Z' (mc c) t cnt i (mb b) = me (sbirth_entry Z c t cnt i b).
Proof.
  destruct b as [[[x m] p] q]. unfold sbirth_entry, moved_entry. cbn [moved_sbirth e_label e_w e_fs e_assoc e_st e_cov e_time c_savecov moved_cfg map]. rewrite (ss_rnd _ _ _ _ _ _ _ SZ). destruct (c_savecov c); reflexivity.
Qed.
Lemma birth_tab_moved' c bs t cnt : sbirth_tab Z' (mc c) (map mb bs) t cnt = map me (sbirth_tab Z c bs t cnt).
Proof.
  unfold sbirth_tab. rewrite map_length, map_map.
  assert (K : forall (l : list (pfs P X * ST * CV * R)) k, map (fun ib => sbirth_entry Z' (mc c) t cnt (fst ib) (snd ib)) (combine (seq k (length l)) (map mb l)) =
    map (fun x => me (sbirth_entry Z c t cnt (fst x) (snd x))) (combine (seq k (length l)) l)).
  { induction l as [|b l IH]; intros k; [reflexivity|]. cbn [length seq map combine fst snd]. rewrite birth_entry_moved, IH. reflexivity. }
  apply K.
Qed.
Lemma bprob_moved b : bprob (mb b) = bprob b.
Proof. destruct b as [[[x m] p] q]. reflexivity. Qed.
Lemma mapM_births {A} (f : R -> result A) bs : mapM (fun b => f (bprob b)) (map mb bs) = mapM (fun b => f (bprob b)) bs.
Proof. induction bs as [|b bs IH]; [reflexivity|]. cbn [map mapM]. rewrite bprob_moved, IH. reflexivity. Qed.
Lemma birth_hyps_moved' bs paths costs : sbirth_hyps Z' (map mb bs) paths costs = sbirth_hyps Z bs paths costs.
Proof.
  unfold sbirth_hyps. rewrite (mapM_births (fun q => lnp (1 - q))). destruct (mapM _ bs); [|reflexivity]. cbn [bind]. apply snorm_eq.
Qed.
Lemma surv_moved' c av hs : ssurv_hyps Z' (mc c) av hs = ssurv_hyps Z c av hs.
Proof.
  unfold ssurv_hyps. cbv zeta. generalize (rsum (map (fun h => sqrt (h_p h)) hs)). intros ss.
  replace (mapM (ssurv_hyp Z' (mc c) av ss) hs) with (mapM (ssurv_hyp Z c av ss) hs).
  - destruct (mapM _ _); [|reflexivity]. cbn [bind]. apply snorm_eq.
  - induction hs as [|h hs IH]; [reflexivity|]. cbn [mapM]. rewrite IH. unfold ssurv_hyp at 1 3. rewrite (ss_kshort _ _ _ _ _ _ _ SZ). reflexivity.
Qed.
Lemma mapM_avg f f' (tab : list entry) : (forall l, f' (map fP l) = f l) -> mapM (avg_prob f') (map me tab) = mapM (avg_prob f) tab.
Proof. intros H. induction tab as [|e tab IH]; [reflexivity|]. cbn [map mapM]. rewrite (avg_moved' f f' e H), IH. reflexivity. Qed.
Lemma spredict_moved f f' c bs t s : (forall l, f' (map fP l) = f l) -> spredict Z' f' (mc c) (map mb bs) t (mg s) = rmap mg (spredict Z f c bs t s).
Proof.
  intros H. unfold spredict. cbn [moved_glmb g_tab g_hyps g_card g_cnt g_meas g_ext g_states g_labels g_covs]. rewrite (mapM_births birth_cost). apply bind_same. intros lcost.
  rewrite (ss_kshort _ _ _ _ _ _ _ SZ). change (c_reqb (mc c)) with (c_reqb c). apply bind_same. intros [paths costs]. rewrite birth_hyps_moved'. apply bind_same. intros bh.
  rewrite (mapM_rmap me me (spred_entry Z f c t)) by (intros e; apply pred_entry_moved, H). apply bind_rmap. intros stab. rewrite (mapM_avg f f' _ H). apply bind_same. intros av.
  rewrite surv_moved'. apply bind_same. intros sh. cbn [rmap]. unfold moved_glmb. cbn [g_tab g_hyps g_card g_cnt g_meas g_ext g_states g_labels g_covs]. f_equal. rewrite map_app, birth_tab_moved', map_length.
  unfold clean_predictions. rewrite (ss_hash _ _ _ _ _ _ _ SZ). reflexivity.
Qed.
Notation up4 := (fun r : pfs P X * ST * CV * R => let '(g, y, p, q) := r in (fF g, fS y, fC p, q)).
Lemma inner_corr_moved f f' t z x y : (forall l, f' (map fP l) = f l) -> sinner_corr Z' f' t (fM z) (fF x) (fS y) = rmap (option_map up4) (sinner_corr Z f t z x y).
Proof.
  intros H. unfold sinner_corr. change (p_parts (fF x)) with (map fP (p_parts x)). destruct (p_parts x) as [|p0 ps] eqn:Ep.
  - cbn [map rmap option_map]. rewrite (ss_cov _ _ _ _ _ _ _ SZ). reflexivity.
  - cbn [map]. rewrite (ss_corr _ _ _ _ _ _ _ SZ). destruct (z_corr Z t z x) as [[[s1 x1] l]|]; [|reflexivity]. change (p_parts (fF s1)) with (map fP (p_parts s1)). change (p_w (fF s1)) with (p_w s1). rewrite H. cbv zeta.
    destruct (negb _); [reflexivity|]. apply bind_same. intros w. apply bind_same. intros nw. change (with_w (fF s1) w) with (fF (with_w s1 w)). rewrite (ss_cov _ _ _ _ _ _ _ SZ). reflexivity.
Qed.
Lemma cor_loop_moved f f' t z l : (forall l, f' (map fP l) = f l) -> scor_loop Z' f' t (fM z) (map (fun x => (fF (fst x), fS (snd x))) l) = rmap (option_map (map up4)) (scor_loop Z f t z l).
Proof.
  intros H. induction l as [|[x y] l IH]; [reflexivity|]. cbn [map fst snd scor_loop]. rewrite (inner_corr_moved f f' t z x y H). apply bind_rmap. intros [r|]; cbn [option_map]; [|reflexivity].
  rewrite IH. apply bind_rmap. intros [r'|]; reflexivity.
Qed.
Lemma cor_entry_moved f f' c t z (e : entry) : (forall l, f' (map fP l) = f l) -> scor_entry Z' f' (mc c) t (fM z) (me e) = rmap (option_map (fun r => (me (fst r), snd r))) (scor_entry Z f c t z e).
Proof.
  intros H. unfold scor_entry. cbn [moved_entry e_label e_w e_fs e_assoc e_st e_cov e_time c_savecov moved_cfg].
  rewrite (last_map (map fS) (e_st e) [] : last (map (map fS) (e_st e)) [] = _), combine_map2.
  assert (K : map fst (combine (map (fun x => (fF (fst x), fS (snd x))) (combine (e_fs e) (last (e_st e) []))) (last (e_w e) [])) =
              map (fun x => (fF (fst x), fS (snd x))) (map fst (combine (combine (e_fs e) (last (e_st e) [])) (last (e_w e) [])))).
  { rewrite <- (map_id (last (e_w e) [])) at 1. rewrite combine_map2, !map_map. reflexivity. }
  rewrite K, (cor_loop_moved f f' t z _ H). apply bind_rmap. intros [rs|]; cbn [option_map]; [|reflexivity].
  assert (HW : map (fun r => snd r + feps) (map up4 rs) = map (fun r => snd r + feps) rs) by (rewrite map_map; apply map_ext; intros [[[g y] p] q]; reflexivity).
  rewrite HW. cbv zeta. apply bind_same. intros w. cbn [rmap option_map fst snd]. f_equal. f_equal. f_equal. unfold moved_entry. cbn [e_label e_w e_fs e_assoc e_st e_cov e_time]. f_equal.
  - rewrite !map_map. apply map_ext. intros [[[g y] p] q]. reflexivity.
  - rewrite <- set_last_map. f_equal. rewrite !map_map. apply map_ext. intros [[[g y] p] q]. reflexivity.
  - rewrite <- set_last_map. f_equal. rewrite !map_map. apply map_ext. intros [[[g y] p] q]. cbn [snd fst]. destruct (c_savecov c); reflexivity.
Qed.
Notation mr := (map (map (option_map (fun r : entry * R => (me (fst r), snd r))))).
Lemma cor_rows_moved f f' c t meas (tab : list entry) : (forall l, f' (map fP l) = f l) -> scor_rows Z' f' (mc c) t (map fM meas) (map me tab) = rmap mr (scor_rows Z f c t meas tab).
Proof.
  intros H. unfold scor_rows. apply mapM_rmap. intros z. apply mapM_rmap. intros e. apply cor_entry_moved, H.
Qed.
Lemma cor_tab_moved' rows (tab : list entry) : scor_tab (mr rows) (map me tab) = map (option_map me) (scor_tab rows tab).
Proof.
  unfold scor_tab. rewrite !map_app, !map_map, map_length, concat_map. f_equal. f_equal.
  assert (K : forall (l : list (list (option (entry * R)))) k, map (fun jr => map (fun o => option_map (fun ec => add_assoc (Some (fst jr)) (fst ec)) o) (snd jr)) (combine (seq k (length l)) (mr l)) =
    map (map (option_map me)) (map (fun jr => map (fun o => option_map (fun ec => add_assoc (Some (fst jr)) (fst ec)) o) (snd jr)) (combine (seq k (length l)) l))).
  { induction l as [|r l IH]; intros k; [reflexivity|]. cbn [length seq map combine fst snd]. f_equal; [|apply IH]. rewrite !map_map. apply map_ext. intros [[e q]|]; reflexivity. }
  apply K.
Qed.
Lemma cor_cost_moved' rows i j : scor_cost (mr rows) i j = scor_cost rows i j.
Proof.
  unfold scor_cost. change (@nil (option (GlmbModel.entry (pfs P' X') ST' CV' * R))) with (map (option_map (fun r : entry * R => (me (fst r), snd r))) []). rewrite map_nth, nth_map_none. destruct (nth i (nth j rows []) None) as [[e q]|]; reflexivity.
Qed.
Lemma cor_hyps_moved' c nm ntab av ac hs : scor_hyps Z' (mc c) nm ntab av ac hs = scor_hyps Z c nm ntab av ac hs.
Proof.
  unfold scor_hyps. destruct nm as [|nm].
  - change (mapM (smiss_hyp (mc c) av) hs) with (mapM (smiss_hyp c av) hs). destruct (mapM _ _); [|reflexivity]. cbn [bind]. apply snorm_eq.
  - cbv zeta. generalize (rsum (map (fun h => sqrt (h_p h)) hs)). intros ss. replace (mapM (scor_hyp Z' (mc c) (S nm) ntab av ac ss) hs) with (mapM (scor_hyp Z c (S nm) ntab av ac ss) hs).
    + destruct (mapM _ _); [|reflexivity]. cbn [bind]. apply snorm_eq.
    + induction hs as [|h hs IH]; [reflexivity|]. cbn [mapM]. rewrite IH. unfold scor_hyp at 1 3. rewrite (ss_murty _ _ _ _ _ _ _ SZ). reflexivity.
Qed.
Lemma scorrect_moved f f' c t meas s : (forall l, f' (map fP l) = f l) -> scorrect Z' f' (mc c) t (map fM meas) (mg s) = rmap mg (scorrect Z f c t meas s).
Proof.
  intros H. unfold scorrect. cbn [moved_glmb g_tab g_hyps g_card g_cnt g_meas g_ext g_states g_labels g_covs]. rewrite (cor_rows_moved f f' c t meas _ H). apply bind_rmap. intros rows.
  rewrite (mapM_avg f f' _ H). apply bind_same. intros av. rewrite !map_length.
  replace (scor_cost (mr rows)) with (scor_cost rows) by (apply functional_extensionality; intros i; apply functional_extensionality; intros j; symmetry; apply cor_cost_moved').
  rewrite cor_hyps_moved'. apply bind_same. intros hs. rewrite cor_tab_moved', clean_moved. destruct (clean_updates (scor_tab rows (g_tab s)) hs) as [u v]. cbn [fst snd rmap]. unfold moved_glmb. cbn [g_tab g_hyps g_card g_cnt g_meas g_ext g_states g_labels g_covs c_savemeas moved_cfg].
  f_equal. f_equal. destruct (c_savemeas c); [rewrite map_app|]; reflexivity.
Qed.
Lemma scap_moved c s : cap E' (mc c) (mg s) = mg (cap E c s).
Proof. unfold cap. cbn [moved_glmb g_hyps c_maxh moved_cfg]. rewrite (ss_argsort _ _ _ _ _ _ _ SZ). destruct (_ <? _)%nat; reflexivity. Qed.
Lemma sexec_moved c bs o o' s : moved_sop fP fM o o' -> sexec Z' (mc c) (map mb bs) o' (mg s) = rmap mg (sexec Z c bs o s).
Proof.
  intros [f f' t H|f f' t meas H|a b d|u k]; cbn [sexec].
  - apply spredict_moved, H.
  - apply scorrect_moved, H.
  - unfold cleanup. cbv zeta. change (bump (mg s)) with (mg (bump s)).
    replace (if a then prune (mc c) (mg (bump s)) else mg (bump s)) with (mg (if a then prune c (bump s) else bump s)) by (destruct a; reflexivity). set (s2 := if a then _ else _).
    replace (if b then cap E' (mc c) (mg s2) else mg s2) with (mg (if b then cap E c s2 else s2)) by (destruct b; [symmetry; apply scap_moved|reflexivity]). set (s3 := if b then _ else _).
    destruct d; [|reflexivity]. rewrite extract_moved. apply bind_rmap. intros [oi s4]. reflexivity.
  - rewrite extract_moved. apply bind_rmap. intros [oi s4]. reflexivity.
Qed.
Lemma srun_moved c bs os os' : Forall2 (moved_sop fP fM) os os' -> forall s, srun Z' (mc c) (map mb bs) os' (mg s) = rmap mg (srun Z c bs os s).
Proof. induction 1 as [|o o' os os' Ho H IH]; intros s; [reflexivity|]. cbn [srun]. rewrite (sexec_moved c bs o o' s Ho). apply bind_rmap. intros s'. apply IH. Qed.
End Frame.

(** C208: any sequence of calls, on rewritten births, probability functions and
    measurements, gives exactly the rewritten filter, or the same exception. *)
Theorem C208_smc_glmb_frame : forall {P X ST CV MS P' X' ST' CV' MS' : Type} (fP : P -> P') (fX : X -> X') (fS : ST -> ST') (fC : CV -> CV') (fM : MS -> MS')
    (Z : senv P X ST CV MS) (Z' : senv P' X' ST' CV' MS') (c : gcfg ST CV) bs os os',
  same_senv fP fX fS fC fM Z Z' -> Forall2 (moved_sop fP fM) os os' ->
  srun Z' (moved_cfg fS fC c) (map (moved_sbirth fP fX fS fC) bs) os' glmb_new = rmap (moved_glmb (moved_pf fP fX) fS fC fM) (srun Z c bs os glmb_new).
Proof. intros P X ST CV MS P' X' ST' CV' MS' fP fX fS fC fM Z Z' c bs os os' H Ho. exact (srun_moved fP fX fS fC fM Z Z' H c bs os os' Ho glmb_new). Qed.
Print Assumptions C208_smc_glmb_frame.

(** Particles on a line, in metres and in units [k] times smaller. *)
Definition parts_env (k : R) : senv R unit R R R :=
  {| z_g := {| v_rnd := fun t => Int_part t; v_init := fun _ _ => {| p_parts := []; p_w := []; p_rest := tt |}; v_pred := fun _ s x => (s, x, 1);
               v_corr := fun _ _ _ _ => None; v_kshort := fun _ _ => Ok ([], []); v_murty := fun _ _ _ _ => Ok ([], []); v_lse0 := Ok tt; v_hash := fun _ => 0%Z; v_argsort := fun _ => [] |};
     z_pred := fun t s => let s1 := {| p_parts := map (fun x => x + k * t) (p_parts s); p_w := p_w s; p_rest := tt |} in
                          (s1, rsum (map (fun x => fst x * snd x) (combine (p_w s1) (p_parts s1))));
     z_corr := fun _ z s => Some (s, rsum (map (fun x => fst x * snd x) (combine (p_w s) (p_parts s))), map (fun x => exp (- ((z - x) / k * ((z - x) / k)))) (p_parts s));
     z_cov := fun s => rsum (map (fun x => x * x) (p_parts s)) |}.
(** Survival more likely beyond one metre. *)
Definition parts_psf (k : R) (l : list R) : list R := map (fun x => if Rlt_dec x k then 1 / 2 else 3 / 4) l.
Lemma rsum_k {A} k (f g : A -> R) l : (forall x, g x = k * f x) -> rsum (map g l) = k * rsum (map f l).
Proof. intros H. induction l as [|x l IH]; [cbn; ring|]. cbn [map]. rewrite !rsum_cons, H, IH. ring. Qed.
Lemma wmean_k k (w p : list R) : rsum (map (fun x => fst x * snd x) (combine w (map (fun x => k * x) p))) = k * rsum (map (fun x => fst x * snd x) (combine w p)).
Proof.
  revert p. induction w as [|x w IH]; intros [|y p]; cbn [map combine]; try (change (rsum []) with 0; ring). rewrite !rsum_cons, IH. cbn [fst snd]. ring.
Qed.
Example C208_instance : forall k, 0 < k ->
  same_senv (fun x => k * x) (fun u => u) (fun x => k * x) (fun p => k * k * p) (fun z => k * z) (parts_env 1) (parts_env k) /\
  Forall2 (moved_sop (fun x => k * x) (fun z => k * z))
    [SPredict (parts_psf 1) 1; SCorrect (parts_psf 1) 1 [2; 3]; SCleanup true true true] [SPredict (parts_psf k) 1; SCorrect (parts_psf k) 1 [k * 2; k * 3]; SCleanup true true true].
Proof.
  intros k Hk. split.
  - constructor; try reflexivity.
    + intros t [p w []]. unfold parts_env, moved_pf. cbn [z_pred p_parts p_w p_rest fst snd]. f_equal.
      * f_equal. rewrite !map_map. apply map_ext. intros x. ring.
      * rewrite <- wmean_k. f_equal. f_equal. f_equal. rewrite !map_map. apply map_ext. intros x. ring.
    + intros t z [p w []]. unfold parts_env, moved_pf. cbn [z_corr p_parts p_w p_rest]. f_equal. f_equal; [f_equal; apply wmean_k|].
      rewrite map_map. apply map_ext. intros x. f_equal. field. lra.
    + intros [p w []]. unfold parts_env, moved_pf. cbn [z_cov p_parts]. rewrite map_map. apply rsum_k. intros x. ring.
  - assert (H : forall l, parts_psf k (map (fun x => k * x) l) = parts_psf 1 l).
    { intros l. unfold parts_psf. rewrite map_map. apply map_ext. intros x. destruct (Rlt_dec (k * x) k) as [A|A], (Rlt_dec x 1) as [B|B]; try reflexivity; exfalso; nra. }
    constructor; [constructor; exact H|]. constructor; [apply (ms_correct _ _ (parts_psf 1) (parts_psf k) 1 [2; 3] H)|]. constructor; [constructor|constructor].
Qed.
