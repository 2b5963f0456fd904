(** Model of the GeneralizedLabeledMultiBernoulli filter,
    src/gasur/swarm_estimator/tracker.py:1777-2749, over the real numbers.

    Simplifications: exact reals instead of floats (so no under- or overflow:
    the clamp to the largest float, 2356-2358, never fires); the inner filter
    (gncpy) is given by pure functions on its saved states, an exception of the
    kinds caught at 2283-2285 is [None]; the birth distribution's lists of means
    and covariances have equal length; the setup() copies (1825-1838) are
    values; warnings are dropped; gating is skipped by the code itself
    (2451-2458).  Probabilities outside the open unit interval, a clutter level
    of 0 or a hypothesis with probability 0 would produce infinite or nan
    logarithms and are reported as [NanErr].  Functions from other modules
    (k_shortest, murty_m_best: verified separately on rationals; log_sum_exp,
    np.argsort, hash, round) are parameters or their mathematical value. *)
From Verif Require Import Base.
From Coq Require Import Reals.
From Verif Require Import OspaModel CphdModel.
Open Scope R_scope.

(** _HypothesisHelper, tracker.py:1840-1847. *)
Record hyp := { h_p : R; h_ts : list nat }.
(** Label: rounded time of birth and index of the birth term, 1813. *)
Notation label := (Z * nat)%type.
Definition label_eqb (a b : label) : bool := (fst a =? fst b)%Z && (snd a =? snd b)%nat.

(** np.finfo(float).eps *)
Definition feps : R := / 2 ^ 52.
(** A logarithm with a positive argument. *)
Definition lnp (x : R) : result R := if Rlt_dec 0 x then Ok (ln x) else Err NanErr.
(** Reads by index. *)
Definition geti {A} (l : list A) (i : nat) : result A :=
  match nth_error l i with Some x => Ok x | None => Err IndexErr end.
(** Insertion sort of indices: sorted_inds.sort(), 2193-2194. *)
Fixpoint ins_nat (x : nat) (l : list nat) : list nat :=
  match l with [] => [x] | y :: l' => if (x <=? y)%nat then x :: y :: l' else y :: ins_nat x l' end.
Definition sort_nat (l : list nat) : list nat := fold_right ins_nat [] l.

(** [[[]] * n]: n references to one new list.  A slot is a reference to that
    shared list ([None]; its contents are the second component) or to a list of
    its own. *)
Notation slots A := (list (option (list A)) * list A)%type.
Definition slots_new {A} (n : nat) : slots A := (repeat None n, []).
Definition slot_get {A} (s : slots A) (tt : nat) : result (list A) :=
  do o <- geti (fst s) tt; Ok (match o with None => snd s | Some l => l end).
Fixpoint set_nth {A} (i : nat) (x : A) (l : list A) : list A :=
  match l, i with [], _ => [] | _ :: l', O => x :: l' | y :: l', S i' => y :: set_nth i' x l' end.
(** [lst[tt] = l] *)
Definition slot_set {A} (s : slots A) (tt : nat) (l : list A) : result (slots A) :=
  do _ <- geti (fst s) tt; Ok (set_nth tt (Some l) (fst s), snd s).
(** [lst[tt].append(x)] *)
Definition slot_append {A} (s : slots A) (tt : nat) (x : A) : result (slots A) :=
  do o <- geti (fst s) tt;
  Ok (match o with None => (fst s, snd s ++ [x]) | Some l => (set_nth tt (Some (l ++ [x])) (fst s), snd s) end).
Definition slot_read {A} (s : slots A) : list (list A) := map (fun o => match o with None => snd s | Some l => l end) (fst s).

Section Glmb.
Context {FS ST CV MS : Type}.

(** _TabEntry, tracker.py:1811-1823. *)
Record entry := { e_label : label; e_w : list (list R); e_fs : list FS; e_assoc : list (option nat);
                  e_st : list (list ST); e_cov : list (list (option CV)); e_time : nat }.
(** _ExtractHistHelper, tracker.py:1849-1855. *)
Record ehist := { x_label : label; x_meas : list (option nat); x_time : nat; x_st : list ST; x_cov : list (option CV) }.
(** A birth term's distribution. *)
Record bdist := { b_m : list ST; b_c : list CV; b_w : list R }.
(** Configuration attributes, tracker.py:1857-1867 and 62-82. *)
Record gcfg := { c_births : list (bdist * R); c_ps : R; c_pd : R; c_crate : R; c_cden : R;
                 c_reqb : nat; c_reqs : nat; c_requ : nat; c_prune : R; c_maxh : nat;
                 c_savecov : bool; c_savemeas : bool }.
(** State attributes, tracker.py:1869-1886. *)
Record glmb := { g_tab : list entry; g_hyps : list hyp; g_card : list R; g_cnt : nat;
                 g_meas : list (list MS); g_ext : list ehist;
                 g_states : list (list ST); g_labels : list (list label); g_covs : list (list (option CV)) }.
Definition glmb_new : glmb :=
  {| g_tab := []; g_hyps := [{| h_p := 1; h_ts := [] |}]; g_card := []; g_cnt := 0; g_meas := []; g_ext := [];
     g_states := []; g_labels := []; g_covs := [] |}.

(** Everything outside this class: the inner filter (initial state from mean and
    covariance; predict; correct, [None] = exception caught), rounding of a
    timestep to decimal_places, k_shortest, murty_m_best (rows: 0 = missed, c+1 =
    measurement c), log_sum_exp([]), hash of the joined decimal strings, np.argsort. *)
Record genv := {
  v_rnd : R -> Z;
  v_init : ST -> CV -> FS;
  v_pred : R -> FS -> ST -> FS * ST * CV;
  v_corr : R -> MS -> FS -> ST -> option (FS * ST * CV * R);
  v_kshort : list R -> nat -> result (list (list nat) * list R);
  v_murty : nat -> nat -> (nat -> nat -> R) -> nat -> result (list (list nat) * list R);
  v_lse0 : result unit;
  v_hash : list nat -> Z;
  v_argsort : list R -> list nat }.
Variable E : genv.
Notation rnd_t := (v_rnd E).
Notation f_init := (v_init E).
Notation f_pred := (v_pred E).
Notation f_corr := (v_corr E).
Notation kshort := (v_kshort E).
Notation murty := (v_murty E).
Notation lse_empty := (v_lse0 E).
Notation hash := (v_hash E).
Notation argsort := (v_argsort E).

(** * predict *)
(** [_gen_birth_tab], tracker.py:2042-2058, one term; [_init_filt_states],
    2025-2040. *)
Definition birth_entry (c : gcfg) (t : R) (cnt ii : nat) (d : bdist) : entry :=
  {| e_label := (rnd_t t, ii); e_w := [b_w d]; e_fs := map (fun mc => f_init (fst mc) (snd mc)) (combine (b_m d) (b_c d));
     e_assoc := []; e_st := [b_m d]; e_cov := [if c_savecov c then map Some (b_c d) else []]; e_time := cnt |}.
Definition birth_cost (p : R) : result R :=
  if Req_EM_T p 1 then Err ValueErr else do l <- lnp (p / (1 - p)); Ok (- l).
Definition gen_birth_tab (c : gcfg) (t : R) (cnt : nat) : result (list entry * list R) :=
  do costs <- mapM (fun b => birth_cost (snd b)) (c_births c);
  Ok (map (fun ib => birth_entry c t cnt (fst ib) (fst (snd ib))) (combine (seq 0 (length (c_births c))) (c_births c)), costs).
(** The normalisation by log_sum_exp, tracker.py:2069-2071, 2143-2145, 2386-2388. *)
Definition lse (l : list R) : R := ln (rsum (map exp l)).
Definition normalise_log (hs : list hyp) : result (list hyp) :=
  match hs with
  | [] => do _ <- lse_empty; Ok []
  | _ => let z := lse (map h_p hs) in Ok (map (fun h => {| h_p := exp (h_p h - z); h_ts := h_ts h |}) hs)
  end.
(** [_gen_birth_hyps], tracker.py:2060-2073. *)
Definition gen_birth_hyps (c : gcfg) (paths : list (list nat)) (costs : list R) : result (list hyp) :=
  do ls <- mapM (fun b => lnp (1 - snd b)) (c_births c);
  let tot := rsum ls in
  normalise_log (map (fun pc => {| h_p := tot - snd pc; h_ts := fst pc |}) (combine paths costs)).
(** [_inner_predict] and [_predict_track_tab_entry], tracker.py:2075-2100. *)
Definition pred_entry (c : gcfg) (t : R) (e : entry) : entry :=
  let rs := map (fun fx => f_pred t (fst fx) (snd fx)) (combine (e_fs e) (last (e_st e) [])) in
  {| e_label := e_label e; e_w := e_w e ++ [last (e_w e) []]; e_fs := map (fun r => fst (fst r)) rs; e_assoc := e_assoc e;
     e_st := e_st e ++ [map (fun r => snd (fst r)) rs];
     e_cov := e_cov e ++ [map (fun r => if c_savecov c then Some (snd r) else None) rs]; e_time := e_time e |}.
(** One hypothesis of [_gen_surv_hyps], tracker.py:2116-2141; [ntab] is the size
    of the track table, [ssum] the sum of square roots (2113-2115). *)
Definition surv_hyp (c : gcfg) (ntab : nat) (ssum : R) (h : hyp) : result (list hyp) :=
  match h_ts h with
  | [] => do lw <- lnp (h_p h); Ok [{| h_p := lw; h_ts := [] |}]
  | _ =>
      if negb (forallb (fun i => (i <? ntab)%nat) (h_ts h)) then Err IndexErr else
      do ratio <- rdiv (c_ps c) (1 - c_ps c);
      do lc <- lnp ratio;
      let k := Z.to_nat (roundR (INR (c_reqs c) * sqrt (h_p h) / ssum)) in
      do (paths, costs) <- kshort (map (fun _ => - lc) (h_ts h)) k;
      do ld <- lnp (1 - c_ps c);
      do lw <- lnp (h_p h);
      mapM (fun pc => do ts <- mapM (geti (h_ts h)) (fst pc);
              Ok {| h_p := INR (length (h_ts h)) * ld + lw - snd pc; h_ts := ts |}) (combine paths costs)
  end.
Definition gen_surv_hyps (c : gcfg) (ntab : nat) (hs : list hyp) : result (list hyp) :=
  let ssum := rsum (map (fun h => sqrt (h_p h)) hs) in
  do ll <- mapM (surv_hyp c ntab ssum) hs;
  normalise_log (concat ll).
(** [_set_pred_hyps], tracker.py:2155-2171. *)
Definition set_pred_hyps (nb : nat) (bh sh : list hyp) : list hyp :=
  let hs := flat_map (fun b => map (fun s => {| h_p := h_p b * h_p s; h_ts := h_ts b ++ map (fun x => (x + nb)%nat) (h_ts s) |}) sh) bh in
  let tot := rsum (map h_p hs) in
  map (fun h => {| h_p := h_p h / tot; h_ts := h_ts h |}) hs.
(** [_calc_card_dist], tracker.py:2173-2185. *)
Definition calc_card (hs : list hyp) : list R :=
  match hs with
  | [] => [1]
  | _ => map (fun n => rsum (map h_p (filter (fun h => (length (h_ts h) =? n)%nat) hs)))
             (seq 0 (S (list_max (map (fun h => length (h_ts h)) hs))))
  end.
(** [_clean_predictions], tracker.py:2187-2208: [used] pairs the hash with the
    kept hypothesis. *)
Fixpoint add_hyp (k : Z) (h : hyp) (used : list (Z * hyp)) : list (Z * hyp) :=
  match used with
  | [] => [(k, h)]
  | (k', h') :: u => if (k =? k')%Z then (k', {| h_p := h_p h' + h_p h; h_ts := h_ts h' |}) :: u else (k', h') :: add_hyp k h u
  end.
Definition clean_predictions (hs : list hyp) : list hyp :=
  map snd (fold_left (fun used h => add_hyp (hash (sort_nat (h_ts h))) h used) hs []).
(** [predict], tracker.py:2210-2252. *)
Definition predict (c : gcfg) (t : R) (s : glmb) : result glmb :=
  do (btab, lcost) <- gen_birth_tab c t (g_cnt s);
  do (paths, costs) <- kshort lcost (c_reqb c);
  do bh <- gen_birth_hyps c paths costs;
  let stab := map (pred_entry c t) (g_tab s) in
  do sh <- gen_surv_hyps c (length (g_tab s)) (g_hyps s);
  Ok {| g_tab := btab ++ stab; g_hyps := clean_predictions (set_pred_hyps (length btab) bh sh); g_card := calc_card sh;
        g_cnt := g_cnt s; g_meas := g_meas s; g_ext := g_ext s; g_states := g_states s; g_labels := g_labels s; g_covs := g_covs s |}.

(** * correct *)
Definition set_last {A} (l : list A) (x : A) : list A := removelast l ++ [x].
Fixpoint all_some {A} (l : list (option A)) : option (list A) :=
  match l with
  | [] => Some []
  | None :: _ => None
  | Some x :: l' => match all_some l' with Some r => Some (x :: r) | None => None end
  end.
(** [_inner_correct] and [_correct_track_tab_entry], tracker.py:2254-2297. *)
Definition cor_entry (c : gcfg) (t : R) (z : MS) (e : entry) : option (entry * R) :=
  match all_some (map (fun fxw => f_corr t z (fst (fst fxw)) (snd (fst fxw)))
          (combine (combine (e_fs e) (last (e_st e) [])) (last (e_w e) []))) with
  | None => None
  | Some rs =>
      let ws := map (fun rw => snd rw * snd (fst rw) + feps) (combine rs (last (e_w e) [])) in
      let cost := rsum ws in
      Some ({| e_label := e_label e; e_w := set_last (e_w e) (map (fun w => w / cost) ws);
               e_fs := map (fun r => fst (fst (fst r))) rs; e_assoc := e_assoc e;
               e_st := set_last (e_st e) (map (fun r => snd (fst (fst r))) rs);
               e_cov := set_last (e_cov e) (map (fun r => if c_savecov c then Some (snd (fst r)) else None) rs);
               e_time := e_time e |}, cost)
  end.
Definition add_assoc (a : option nat) (e : entry) : entry :=
  {| e_label := e_label e; e_w := e_w e; e_fs := e_fs e; e_assoc := e_assoc e ++ [a]; e_st := e_st e; e_cov := e_cov e; e_time := e_time e |}.
(** [_gen_cor_tab], tracker.py:2299-2319: the table and all_cost_m. *)
Definition gen_cor_tab (c : gcfg) (t : R) (meas : list MS) (tab : list entry) : list (option entry) * (nat -> nat -> R) :=
  let upd := map (fun ez => map (fun e => match cor_entry c t (snd ez) e with
                                          | Some (e', _) => Some (add_assoc (Some (fst ez)) e')
                                          | None => None end) tab) (combine (seq 0 (length meas)) meas) in
  (map (fun e => Some (add_assoc None e)) tab ++ concat upd,
   fun ii emm => match nth_error tab ii, nth_error meas emm with
                 | Some e, Some z => match cor_entry c t z e with Some (_, cost) => cost | None => 0 end
                 | _, _ => 0 end).
(** One hypothesis of [_gen_cor_hyps] with measurements, tracker.py:2338-2384. *)
Definition cor_hyp (c : gcfg) (nm ntab : nat) (all_cost : nat -> nat -> R) (ssum : R) (h : hyp) : result (list hyp) :=
  let clutter := c_crate c * c_cden c in
  match h_ts h with
  | [] => do lcl <- lnp clutter; do lw <- lnp (h_p h);
          Ok [{| h_p := - c_crate c + INR nm * lcl + lw; h_ts := [] |}]
  | _ =>
      if negb (forallb (fun i => (i <? ntab)%nat) (h_ts h)) then Err IndexErr else
      do ratio <- rdiv (c_pd c) (1 - c_pd c);
      do lcl <- lnp clutter;
      let cost_m := fun r j => let v := ratio * all_cost (nth r (h_ts h) 0%nat) j / clutter in if Rle_dec v 0 then feps else v in
      let m := Z.to_nat (roundR (INR (c_requ c) * sqrt (h_p h) / ssum)) in
      do (assigns, costs) <- murty (length (h_ts h)) nm (fun r j => - ln (cost_m r j)) m;
      do lmd <- lnp (1 - c_pd c);
      do lw <- lnp (h_p h);
      Ok (map (fun ac => {| h_p := - c_crate c + INR nm * lcl + INR (length (h_ts h)) * lmd + lw - snd ac;
                            h_ts := map (fun ia => (fst ia + ntab * snd ia)%nat) (combine (h_ts h) (fst ac)) |})
              (combine assigns costs))
  end.
(** [_gen_cor_hyps] without measurements, tracker.py:2325-2331. *)
Definition miss_hyp (c : gcfg) (ntab : nat) (h : hyp) : result hyp :=
  if negb (forallb (fun i => (i <? ntab)%nat) (h_ts h)) then Err IndexErr else
  do lmds <- mapM (fun _ => lnp (1 - c_pd c)) (h_ts h);
  do lw <- lnp (h_p h);
  Ok {| h_p := - c_crate c + rsum lmds + lw; h_ts := h_ts h |}.
Definition gen_cor_hyps (c : gcfg) (nm ntab : nat) (all_cost : nat -> nat -> R) (hs : list hyp) : result (list hyp) :=
  match nm with
  | O => do l <- mapM (miss_hyp c ntab) hs; normalise_log l
  | _ => let ssum := rsum (map (fun h => sqrt (h_p h)) hs) in
         do ll <- mapM (cor_hyp c nm ntab all_cost ssum) hs; normalise_log (concat ll)
  end.
(** [_clean_updates], tracker.py:2398-2424. *)
Definition used_in (hs : list hyp) (i : nat) : bool := existsb (fun h => existsb (Nat.eqb i) (h_ts h)) hs.
Definition nnz_inds (tab : list (option entry)) (hs : list hyp) : list nat :=
  filter (fun i => match nth i tab None with Some _ => used_in hs i | None => false end) (seq 0 (length tab)).
(** position of [i] in the list of kept indices: new_inds[ii] *)
Fixpoint index_of (i : nat) (l : list nat) : option nat :=
  match l with [] => None | x :: l' => if (x =? i)%nat then Some O else option_map S (index_of i l') end.
Definition clean_updates (tab : list (option entry)) (hs : list hyp) : list entry * list hyp :=
  let nnz := nnz_inds tab hs in
  (flat_map (fun i => match nth i tab None with Some e => [e] | None => [] end) nnz,
   flat_map (fun h => match all_some (map (fun i => index_of i nnz) (h_ts h)) with
                      | Some ts => [{| h_p := h_p h; h_ts := ts |}]
                      | None => [] end) hs).
(** [correct], tracker.py:2426-2480. *)
Definition correct (c : gcfg) (t : R) (meas : list MS) (s : glmb) : result glmb :=
  let '(tab, all_cost) := gen_cor_tab c t meas (g_tab s) in
  do hs <- gen_cor_hyps c (length meas) (length (g_tab s)) all_cost (g_hyps s);
  let '(tab', hs') := clean_updates tab hs in
  Ok {| g_tab := tab'; g_hyps := hs'; g_card := calc_card hs; g_cnt := g_cnt s;
        g_meas := if c_savemeas c then g_meas s ++ [meas] else g_meas s;
        g_ext := g_ext s; g_states := g_states s; g_labels := g_labels s; g_covs := g_covs s |}.

(** * cleanup *)
(** [_prune], tracker.py:2648-2669. *)
Definition rescale (hs : list hyp) : list hyp :=
  let tot := rsum (map h_p hs) in map (fun h => {| h_p := h_p h / tot; h_ts := h_ts h |}) hs.
Definition with_hyps (s : glmb) (hs : list hyp) : glmb :=
  {| g_tab := g_tab s; g_hyps := hs; g_card := calc_card hs; g_cnt := g_cnt s; g_meas := g_meas s; g_ext := g_ext s;
     g_states := g_states s; g_labels := g_labels s; g_covs := g_covs s |}.
Definition prune (c : gcfg) (s : glmb) : glmb :=
  with_hyps s (rescale (filter (fun h => if Rlt_dec (c_prune c) (h_p h) then true else false) (g_hyps s))).
(** [_cap], tracker.py:2671-2706. *)
Definition cap (c : gcfg) (s : glmb) : glmb :=
  if (c_maxh c <? length (g_hyps s))%nat then
    let keep := firstn (c_maxh c) (rev (argsort (map h_p (g_hyps s)))) in
    with_hyps s (rescale (map (fun i => nth i (g_hyps s) {| h_p := 0; h_ts := [] |}) keep))
  else s.

(** [_extract_helper], tracker.py:2482-2493. *)
Definition extract_helper (c : gcfg) (e : entry) : result (list ST * list (option CV)) :=
  do l <- mapM (fun wsc => let '(w, s, cv) := wsc in
            do idx <- argmaxR w; do x <- geti s idx;
            do y <- (if c_savecov c then geti cv idx else Ok None); Ok (x, y))
          (combine (combine (e_w e) (e_st e)) (e_cov e));
  Ok (map fst l, map snd l).
(** [_update_extract_hist], tracker.py:2495-2531.  [used_meas_inds] is a list of
    references to one list (2496), see [slots]. *)
Definition is_used (m : nat) (used : list nat) : bool := existsb (Nat.eqb m) used.
(** The loop 2511-2514 over one new track. *)
Fixpoint mark_used (tt : nat) (ms : list (option nat)) (used : slots nat) : result (slots nat) :=
  match ms with
  | [] => Ok used
  | None :: ms' => mark_used (S tt) ms' used
  | Some m :: ms' => do l <- slot_get used tt;
                     do used' <- (if is_used m l then Ok used else slot_append used tt m);
                     mark_used (S tt) ms' used'
  end.
(** The loop 2522-2526 over one existing track. *)
Fixpoint clashes (tt : nat) (ms : list (option nat)) (used : slots nat) : result bool :=
  match ms with
  | [] => Ok false
  | None :: ms' => clashes (S tt) ms' used
  | Some m :: ms' => do l <- slot_get used tt; if is_used m l then Ok true else clashes (S tt) ms' used
  end.
(** The loop 2499-2514. *)
Fixpoint new_hists (c : gcfg) (es : list entry) (used : slots nat) : result (list ehist * slots nat) :=
  match es with
  | [] => Ok ([], used)
  | e :: es' =>
      do (st, cv) <- extract_helper c e;
      do used' <- mark_used (e_time e) (e_assoc e) used;
      do (hs, used'') <- new_hists c es' used';
      Ok ({| x_label := e_label e; x_meas := e_assoc e; x_time := e_time e; x_st := st; x_cov := cv |} :: hs, used'')
  end.
(** The loop 2516-2530. *)
Fixpoint keep_hists (labels : list label) (used : slots nat) (xs : list ehist) : result (list ehist) :=
  match xs with
  | [] => Ok []
  | x :: xs' =>
      do drop <- (if existsb (label_eqb (x_label x)) labels then Ok true else clashes (x_time x) (x_meas x) used);
      do r <- keep_hists labels used xs';
      Ok (if drop then r else x :: r)
  end.
Definition update_hist (c : gcfg) (s : glmb) (idx : nat) : result (list ehist) :=
  do h <- geti (g_hyps s) idx;
  do es <- mapM (geti (g_tab s)) (h_ts h);
  do (news, used) <- new_hists c es (slots_new (g_cnt s));
  do kept <- keep_hists (map e_label es) used (g_ext s);
  Ok (kept ++ news).
(** The loop of [extract_states] with calc_states, tracker.py:2573-2585, on the
    three lists _states, _labels and _covs, each created by [[[]] * n] (2563-2565). *)
Record outs := { o_st : slots ST; o_lb : slots label; o_cv : slots (option CV) }.
Definition put_one (tt : nat) (x : ST) (lab : label) (cv : option CV) (o : outs) : result outs :=
  do l <- slot_get (o_lb o) tt;
  match l with
  | [] => do a <- slot_set (o_st o) tt [x]; do b <- slot_set (o_lb o) tt [lab]; do d <- slot_set (o_cv o) tt [cv];
          Ok {| o_st := a; o_lb := b; o_cv := d |}
  | _ => do a <- slot_append (o_st o) tt x; do b <- slot_append (o_lb o) tt lab; do d <- slot_append (o_cv o) tt cv;
         Ok {| o_st := a; o_lb := b; o_cv := d |}
  end.
Fixpoint put_track (lab : label) (tt : nat) (sc : list (ST * option CV)) (o : outs) : result outs :=
  match sc with
  | [] => Ok o
  | (x, cv) :: sc' => do o' <- put_one tt x lab cv o; put_track lab (S tt) sc' o'
  end.
Fixpoint put_all (xs : list ehist) (o : outs) : result outs :=
  match xs with
  | [] => Ok o
  | x :: xs' => do o' <- put_track (x_label x) (x_time x) (combine (x_st x) (x_cov x)) o; put_all xs' o'
  end.
(** [extract_states], tracker.py:2533-2590: the index used (None when there is
    no hypothesis) and the new state. *)
Definition map_index (s : glmb) : result nat :=
  do card <- argmaxR (g_card s);
  argmaxR (map (fun h => if (length (h_ts h) =? card)%nat then h_p h * 1 else h_p h * 0) (g_hyps s)).
Definition set_out (s : glmb) (xs : list ehist) (o : outs) : glmb :=
  {| g_tab := g_tab s; g_hyps := g_hyps s; g_card := g_card s; g_cnt := g_cnt s; g_meas := g_meas s; g_ext := xs;
     g_states := slot_read (o_st o); g_labels := slot_read (o_lb o); g_covs := slot_read (o_cv o) |}.
Definition extract_states (c : gcfg) (update calc : bool) (s : glmb) : result (option nat * glmb) :=
  do _ <- argmaxR (g_card s);
  let empty := {| o_st := slots_new (g_cnt s); o_lb := slots_new (g_cnt s); o_cv := slots_new (g_cnt s) |} in
  match g_hyps s with
  | [] => Ok (None, set_out s (g_ext s) empty)
  | _ =>
      do idx <- map_index s;
      do xs <- (if update then update_hist c s idx else Ok (g_ext s));
      do o <- (if calc then put_all xs empty else Ok empty);
      Ok (Some idx, set_out s xs o)
  end.
(** [extract_most_prob_states], tracker.py:2592-2646; works on a deep copy. *)
Fixpoint set_prob0 (i : nat) (hs : list hyp) : list hyp :=
  match hs, i with
  | [], _ => []
  | h :: hs', O => {| h_p := 0; h_ts := h_ts h |} :: hs'
  | h :: hs', S i' => h :: set_prob0 i' hs'
  end.
Definition zero_hyp (i : nat) (s : glmb) : glmb :=
  {| g_tab := g_tab s; g_hyps := set_prob0 i (g_hyps s); g_card := g_card s; g_cnt := g_cnt s; g_meas := g_meas s; g_ext := g_ext s;
     g_states := g_states s; g_labels := g_labels s; g_covs := g_covs s |}.
Notation outset := (list (list ST) * list (list label) * list (list (option CV)) * R)%type.
Fixpoint most_loop (fuel : nat) (c : gcfg) (thresh : R) (s : glmb) : result (list outset) :=
  do (oi, s1) <- extract_states c true true s;
  match oi with
  | None => Ok []
  | Some i =>
      do h <- geti (g_hyps s1) i;
      if Rle_dec thresh (h_p h) then
        match fuel with
        | O => Err OutOfFuel
        | S f => do r <- most_loop f c thresh (zero_hyp i s1);
                 Ok ((g_states s1, g_labels s1, g_covs s1, h_p h) :: r)
        end
      else Ok []
  end.
Definition most_prob (fuel : nat) (c : gcfg) (thresh : R) (s : glmb) : result (list outset) :=
  do (oi, s1) <- extract_states c true true s;
  match oi with
  | None => Ok []
  | Some i =>
      do h <- geti (g_hyps s1) i;
      do r <- most_loop fuel c thresh (zero_hyp i s1);
      Ok ((g_states s1, g_labels s1, g_covs s1, h_p h) :: r)
  end.
(** [cleanup], tracker.py:2708-2749. *)
Definition bump (s : glmb) : glmb :=
  {| g_tab := g_tab s; g_hyps := g_hyps s; g_card := g_card s; g_cnt := S (g_cnt s); g_meas := g_meas s; g_ext := g_ext s;
     g_states := g_states s; g_labels := g_labels s; g_covs := g_covs s |}.
Definition cleanup (c : gcfg) (do_prune do_cap do_extract : bool) (s : glmb) : result glmb :=
  let s1 := bump s in
  let s2 := if do_prune then prune c s1 else s1 in
  let s3 := if do_cap then cap c s2 else s2 in
  if do_extract then do (_, s4) <- extract_states c true true s3; Ok s4 else Ok s3.

(** Any sequence of public operations. *)
Inductive gop := OpPredict (t : R) | OpCorrect (t : R) (meas : list MS) | OpCleanup (pr ca ex : bool) | OpExtract (up ca : bool).
Definition exec (c : gcfg) (o : gop) (s : glmb) : result glmb :=
  match o with
  | OpPredict t => predict c t s
  | OpCorrect t meas => correct c t meas s
  | OpCleanup a b e => cleanup c a b e s
  | OpExtract u k => do (_, s') <- extract_states c u k s; Ok s'
  end.
Fixpoint run (c : gcfg) (os : list gop) (s : glmb) : result glmb :=
  match os with [] => Ok s | o :: os' => do s' <- exec c o s; run c os' s' end.
End Glmb.
Arguments genv : clear implicits.
Arguments glmb : clear implicits.
Arguments entry : clear implicits.
Arguments ehist : clear implicits.
Arguments gcfg : clear implicits.
Arguments bdist : clear implicits.
Arguments gop : clear implicits.
