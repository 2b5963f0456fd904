(** Model of the SMC-GLMB filter: _SMCGLMBBase and
    SMCGeneralizedLabeledMultiBernoulli,
    src/gasur/swarm_estimator/tracker.py:3247-3430, over the real numbers.

    It inherits from the GLMB filter (GlmbModel); this file models what it
    overrides and the inherited functions that see the overriding
    (hypothesis weights with one survival or detection probability per track).
    The inner particle filter (gncpy) is external: its saved state is a list of
    particles, their weights and a rest; predict and correct are functions of
    it.  Simplifications: exact reals, so the branch for an infinite total
    (3296-3297) never fires; a total of 0 (division by zero or nan) is
    [NanErr]; the probability functions return one value per particle, another
    number of values is [ValueErr]; the likelihoods returned by correct are a
    list with one value per particle (a single number stands for the constant
    list); without save_covs the recorded covariance of a track without
    particles is None (it is never read).  Values of the probability functions
    that make an average lie outside the open unit interval are [NanErr]. *)
From Verif Require Import Base.
From Coq Require Import Reals.
From Verif Require Import OspaModel CphdModel GlmbModel.
Open Scope R_scope.

Section Smc.
Context {P X ST CV MS : Type}.
(** Saved state of the particle filter: filt_state['_particleDist'] and the rest. *)
Record pfs := { p_parts : list P; p_w : list R; p_rest : X }.
Notation glmb := (glmb pfs ST CV MS).
Notation entry := (entry pfs ST CV).
Notation gcfg := (gcfg ST CV).
(** Outside functions: those of the GLMB filter (v_init, v_pred and v_corr are
    not used), and the particle filter's predict, correct (None = one of the
    exceptions caught at 2283-2285) and cov. *)
Record senv := { z_g : genv pfs ST CV MS;
                 z_pred : R -> pfs -> pfs * ST;
                 z_corr : R -> MS -> pfs -> option (pfs * ST * list R);
                 z_cov : pfs -> CV }.
Variable Z : senv.
Notation E := (z_g Z).
(** A birth term: particle filter state made by init_from_dist, mean and
    covariance of the distribution, probability. *)
Notation birth := (pfs * ST * CV * R)%type.
Definition bprob (b : birth) : R := snd b.

(** [np.sum(np.array(weights) * p)], 3279 and 3341. *)
Definition wsum (w p : list R) : result R :=
  if (length w =? length p)%nat then Ok (rsum (map (fun x => fst x * snd x) (combine w p))) else Err ValueErr.
(** _calc_avg_prob_surv_death and _calc_avg_prob_det_mdet, 3271-3282 and
    3333-3344, for one track; [f] is the probability function with its extra
    arguments. *)
Definition avg_prob (f : list P -> list R) (e : entry) : result R :=
  match e_fs e with [] => Err IndexErr | s :: _ => wsum (p_w s) (f (p_parts s)) end.
Definition with_w (s : pfs) (w : list R) : pfs := {| p_parts := p_parts s; p_w := w; p_rest := p_rest s |}.

(** * predict *)
(** _inner_predict, 3284-3311. *)
Definition sinner_pred (psf : list P -> list R) (t : R) (s : pfs) (x : ST) : result (pfs * ST * CV) :=
  match p_parts s with
  | [] => Ok (s, x, z_cov Z s)
  | _ =>
      let '(s1, x1) := z_pred Z t s in
      let ps := psf (p_parts s1) in
      if negb (length (p_w s1) =? length ps)%nat then Err ValueErr else
      let nw := map (fun wp => fst wp * snd wp) (combine (p_w s1) ps) in
      do w <- mapM (fun x => rdiv x (rsum nw)) nw;
      let s2 := with_w s1 w in
      Ok (s2, x1, z_cov Z s2)
  end.
(** [_predict_track_tab_entry], 2086-2100, with this inner function. *)
Definition spred_entry (psf : list P -> list R) (c : gcfg) (t : R) (e : entry) : result entry :=
  do rs <- mapM (fun sx => sinner_pred psf t (fst sx) (snd sx)) (combine (e_fs e) (last (e_st e) []));
  Ok {| e_label := e_label e; e_w := e_w e ++ [last (e_w e) []]; e_fs := map (fun r => fst (fst r)) rs; e_assoc := e_assoc e;
        e_st := e_st e ++ [map (fun r => snd (fst r)) rs];
        e_cov := e_cov e ++ [map (fun r => if c_savecov c then Some (snd r) else None) rs]; e_time := e_time e |}.
(** [_gen_birth_tab], 2042-2058, with [_init_filt_states], 3259-3269. *)
Definition sbirth_entry (c : gcfg) (t : R) (cnt ii : nat) (b : birth) : entry :=
  let '(s, m, cv, _) := b in
  {| e_label := (v_rnd E t, ii); e_w := [[1]]; e_fs := [s]; e_assoc := []; e_st := [[m]];
     e_cov := [if c_savecov c then [Some cv] else []]; e_time := cnt |}.
Definition sbirth_tab (c : gcfg) (bs : list birth) (t : R) (cnt : nat) : list entry :=
  map (fun ib => sbirth_entry c t cnt (fst ib) (snd ib)) (combine (seq 0 (length bs)) bs).
(** [_gen_birth_hyps], 2060-2073. *)
Definition sbirth_hyps (bs : list birth) (paths : list (list nat)) (costs : list R) : result (list hyp) :=
  do ls <- mapM (fun b => lnp (1 - bprob b)) bs;
  normalise_log E (map (fun pc => {| h_p := rsum ls - snd pc; h_ts := fst pc |}) (combine paths costs)).
(** One hypothesis of [_gen_surv_hyps], 2116-2141; [av] are the average
    survival probabilities of the tracks. *)
Definition ssurv_hyp (c : gcfg) (av : list R) (ssum : R) (h : hyp) : result (list hyp) :=
  match h_ts h with
  | [] => do lw <- lnp (h_p h); Ok [{| h_p := lw; h_ts := [] |}]
  | _ =>
      do ps <- mapM (geti av) (h_ts h);
      do lc <- mapM (fun p => do r <- rdiv p (1 - p); do l <- lnp r; Ok (- l)) ps;
      let k := Z.to_nat (roundR (INR (c_reqs c) * sqrt (h_p h) / ssum)) in
      do (paths, costs) <- v_kshort E lc k;
      do ld <- mapM (fun p => lnp (1 - p)) ps;
      do lw <- lnp (h_p h);
      mapM (fun pc => do ts <- mapM (geti (h_ts h)) (fst pc);
              Ok {| h_p := rsum ld + lw - snd pc; h_ts := ts |}) (combine paths costs)
  end.
Definition ssurv_hyps (c : gcfg) (av : list R) (hs : list hyp) : result (list hyp) :=
  let ssum := rsum (map (fun h => sqrt (h_p h)) hs) in
  do ll <- mapM (ssurv_hyp c av ssum) hs;
  normalise_log E (concat ll).
(** [predict], 3313-3331 and 2210-2252: the survival averages are taken of the
    tracks before their prediction (self._track_tab). *)
Definition spredict (psf : list P -> list R) (c : gcfg) (bs : list birth) (t : R) (s : glmb) : result glmb :=
  do lcost <- mapM (fun b => birth_cost (bprob b)) bs;
  do (paths, costs) <- v_kshort E lcost (c_reqb c);
  do bh <- sbirth_hyps bs paths costs;
  do stab <- mapM (spred_entry psf c t) (g_tab s);
  do av <- mapM (avg_prob psf) (g_tab s);
  do sh <- ssurv_hyps c av (g_hyps s);
  Ok {| g_tab := sbirth_tab c bs t (g_cnt s) ++ stab; g_hyps := clean_predictions E (set_pred_hyps (length bs) bh sh);
        g_card := calc_card sh; g_cnt := g_cnt s; g_meas := g_meas s; g_ext := g_ext s;
        g_states := g_states s; g_labels := g_labels s; g_covs := g_covs s |}.

(** * correct *)
(** _inner_correct, 3346-3374: new state, estimate, covariance and weight. *)
Definition sinner_corr (pdf : list P -> list R) (t : R) (z : MS) (s : pfs) (x : ST) : result (option (pfs * ST * CV * R)) :=
  match p_parts s with
  | [] => Ok (Some (s, x, z_cov Z s, 0))
  | _ =>
      match z_corr Z t z s with
      | None => Ok None
      | Some (s1, x1, likely) =>
          let pd := pdf (p_parts s1) in
          if negb (length pd =? length (p_w s1))%nat then Err ValueErr else
          let pw := map (fun pq => fst pq * snd pq + feps) (combine pd (p_w s1)) in
          do w <- mapM (fun x => rdiv x (rsum pw)) pw;
          do nw <- wsum likely pw;
          let s2 := with_w s1 w in
          Ok (Some (s2, x1, z_cov Z s2, nw))
      end
  end.
(** The loop of [_correct_track_tab_entry], 2274-2286: the first failing
    component ends it. *)
Fixpoint scor_loop (pdf : list P -> list R) (t : R) (z : MS) (l : list (pfs * ST)) : result (option (list (pfs * ST * CV * R))) :=
  match l with
  | [] => Ok (Some [])
  | (s, x) :: l' =>
      do r <- sinner_corr pdf t z s x;
      match r with
      | None => Ok None
      | Some y => do r' <- scor_loop pdf t z l'; Ok (option_map (cons y) r')
      end
  end.
(** [_correct_track_tab_entry], 2267-2297. *)
Definition scor_entry (pdf : list P -> list R) (c : gcfg) (t : R) (z : MS) (e : entry) : result (option (entry * R)) :=
  do o <- scor_loop pdf t z (map fst (combine (combine (e_fs e) (last (e_st e) [])) (last (e_w e) [])));
  match o with
  | None => Ok None
  | Some rs =>
      let ws := map (fun r => snd r + feps) rs in
      let cost := rsum ws in
      do w <- mapM (fun x => rdiv x cost) ws;
      Ok (Some ({| e_label := e_label e; e_w := set_last (e_w e) w;
                   e_fs := map (fun r => fst (fst (fst r))) rs; e_assoc := e_assoc e;
                   e_st := set_last (e_st e) (map (fun r => snd (fst (fst r))) rs);
                   e_cov := set_last (e_cov e) (map (fun r => if c_savecov c then Some (snd (fst r)) else None) rs);
                   e_time := e_time e |}, cost))
  end.
(** [_gen_cor_tab], 2299-2319: the corrected entries, measurement by
    measurement, with their costs. *)
Definition scor_rows (pdf : list P -> list R) (c : gcfg) (t : R) (meas : list MS) (tab : list entry) : result (list (list (option (entry * R)))) :=
  mapM (fun z => mapM (scor_entry pdf c t z) tab) meas.
Definition scor_tab (rows : list (list (option (entry * R)))) (tab : list entry) : list (option entry) :=
  map (fun e => Some (add_assoc None e)) tab ++
  concat (map (fun jr => map (fun o => option_map (fun ec => add_assoc (Some (fst jr)) (fst ec)) o) (snd jr)) (combine (seq 0 (length rows)) rows)).
Definition scor_cost (rows : list (list (option (entry * R)))) (ii emm : nat) : R :=
  match nth ii (nth emm rows []) None with Some (_, cost) => cost | None => 0 end.
(** One hypothesis of [_gen_cor_hyps] with measurements, 2338-2384; [av] are the
    average detection probabilities of the tracks. *)
Definition scor_hyp (c : gcfg) (nm ntab : nat) (av : list R) (cost : nat -> nat -> R) (ssum : R) (h : hyp) : result (list hyp) :=
  let clutter := c_crate c * c_cden c in
  match h_ts h with
  | [] => do lcl <- lnp clutter; do lw <- lnp (h_p h);
          Ok [{| h_p := - c_crate c + INR nm * lcl + lw; h_ts := [] |}]
  | _ =>
      do pds <- mapM (geti av) (h_ts h);
      do ratio <- mapM (fun p => rdiv p (1 - p)) pds;
      do lcl <- lnp clutter;
      let cost_m := fun r j => let v := nth r ratio 0 * cost (nth r (h_ts h) 0%nat) j / clutter in if Rle_dec v 0 then feps else v in
      let m := Z.to_nat (roundR (INR (c_requ c) * sqrt (h_p h) / ssum)) in
      do (assigns, costs) <- v_murty E (length (h_ts h)) nm (fun r j => - ln (cost_m r j)) m;
      do lmd <- mapM (fun p => lnp (1 - p)) pds;
      do lw <- lnp (h_p h);
      Ok (map (fun ac => {| h_p := - c_crate c + INR nm * lcl + rsum lmd + lw - snd ac;
                            h_ts := map (fun ia => (fst ia + ntab * snd ia)%nat) (combine (h_ts h) (fst ac)) |})
              (combine assigns costs))
  end.
(** Without measurements, 2325-2331. *)
Definition smiss_hyp (c : gcfg) (av : list R) (h : hyp) : result hyp :=
  do pds <- mapM (geti av) (h_ts h);
  do lmd <- mapM (fun p => lnp (1 - p)) pds;
  do lw <- lnp (h_p h);
  Ok {| h_p := - c_crate c + rsum lmd + lw; h_ts := h_ts h |}.
Definition scor_hyps (c : gcfg) (nm ntab : nat) (av : list R) (cost : nat -> nat -> R) (hs : list hyp) : result (list hyp) :=
  match nm with
  | O => do l <- mapM (smiss_hyp c av) hs; normalise_log E l
  | _ => let ssum := rsum (map (fun h => sqrt (h_p h)) hs) in
         do ll <- mapM (scor_hyp c nm ntab av cost ssum) hs; normalise_log E (concat ll)
  end.
(** [correct], 3376-3394 and 2426-2480. *)
Definition scorrect (pdf : list P -> list R) (c : gcfg) (t : R) (meas : list MS) (s : glmb) : result glmb :=
  do rows <- scor_rows pdf c t meas (g_tab s);
  do av <- mapM (avg_prob pdf) (g_tab s);
  do hs <- scor_hyps c (length meas) (length (g_tab s)) av (scor_cost rows) (g_hyps s);
  let '(tab', hs') := clean_updates (scor_tab rows (g_tab s)) hs in
  Ok {| g_tab := tab'; g_hyps := hs'; g_card := calc_card hs; g_cnt := g_cnt s;
        g_meas := if c_savemeas c then g_meas s ++ [meas] else g_meas s;
        g_ext := g_ext s; g_states := g_states s; g_labels := g_labels s; g_covs := g_covs s |}.

(** The public operations: predict and correct carry the probability function
    applied to its extra arguments; cleanup and extract_states are inherited. *)
Inductive sop :=
| SPredict (psf : list P -> list R) (t : R)
| SCorrect (pdf : list P -> list R) (t : R) (meas : list MS)
| SCleanup (pr ca ex : bool)
| SExtract (up ca : bool).
Definition sexec (c : gcfg) (bs : list birth) (o : sop) (s : glmb) : result glmb :=
  match o with
  | SPredict psf t => spredict psf c bs t s
  | SCorrect pdf t meas => scorrect pdf c t meas s
  | SCleanup a b e => cleanup E c a b e s
  | SExtract u k => do (_, s') <- extract_states c u k s; Ok s'
  end.
Fixpoint srun (c : gcfg) (bs : list birth) (os : list sop) (s : glmb) : result glmb :=
  match os with [] => Ok s | o :: os' => do s' <- sexec c bs o s; srun c bs os' s' end.
End Smc.
Arguments pfs : clear implicits.
Arguments senv : clear implicits.
Arguments sop : clear implicits.
