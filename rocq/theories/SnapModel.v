(** Model of the object sharing behind save_filter_state of the GLMB filter,
    src/gasur/swarm_estimator/tracker.py:102-136 and 1895-1931.

    The saved dictionary holds references: the list _hypotheses (1922), whose
    elements are _HypothesisHelper objects, and the list _meas_tab (131) are the
    very objects the running filter keeps using.  This file refines GlmbModel:
    hypotheses are cells of a heap, and every operation says whether it writes
    to existing cells or creates new ones.  All other attributes are bound to
    new objects by the operations that change them (_track_tab 2248, 2422, 2477;
    _card_dist 2246, 2479, 2669, 2706; _extractable_hists 2530;
    _states, _labels, _covs 2563-2565) and are values, as in GlmbModel; the
    saved states of the inner filter are gncpy's and are values too. *)
From Verif Require Import Base.
From Coq Require Import Reals.
From Verif Require Import OspaModel CphdModel GlmbModel.
Open Scope R_scope.

Definition no_hyp : hyp := {| h_p := 0; h_ts := [] |}.
(** Reading the objects at [locs]. *)
Definition deref (heap : list hyp) (locs : list nat) : list hyp := map (fun l => nth l heap no_hyp) locs.
(** Assignments to the attributes of the objects at [locs], one after another. *)
Definition write_all (heap : list hyp) (locs : list nat) (vals : list hyp) : list hyp :=
  fold_left (fun h lv => set_nth (fst lv) (snd lv) h) (combine locs vals) heap.

Section Snap.
Context {FS ST CV MS : Type}.
Notation glmb := (glmb FS ST CV MS).
Notation gcfg := (gcfg ST CV).
Notation gop := (gop MS).
Variable E : genv FS ST CV MS.
(** The filter with its hypothesis objects: the heap, the references in
    _hypotheses, and the other attributes ([g_hyps] of it is not used). *)
Record hst := { k_heap : list hyp; k_locs : list nat; k_rest : glmb }.
Definition set_hyps (s : glmb) (hs : list hyp) : glmb :=
  {| g_tab := g_tab s; g_hyps := hs; g_card := g_card s; g_cnt := g_cnt s; g_meas := g_meas s; g_ext := g_ext s;
     g_states := g_states s; g_labels := g_labels s; g_covs := g_covs s |}.
(** What the filter looks like without the sharing. *)
Definition habs (x : hst) : glmb := set_hyps (k_rest x) (deref (k_heap x) (k_locs x)).
(** __init__, tracker.py:1876-1879. *)
Definition hst_new : hst := {| k_heap := [{| h_p := 1; h_ts := [] |}]; k_locs := [0%nat]; k_rest := glmb_new |}.
(** New objects for all hypotheses: predict (2155-2167: _set_pred_hyps creates
    every hypothesis; 2206-2207 adds to these new objects only) and correct with
    measurements (2339, 2379). *)
Definition fresh (x : hst) (s : glmb) : hst :=
  {| k_heap := k_heap x ++ g_hyps s; k_locs := seq (length (k_heap x)) (length (g_hyps s)); k_rest := s |}.
(** _clean_updates on existing objects, tracker.py:2413-2424: objects whose
    tracks are gone are dropped from the list, the others get a new track set. *)
Definition remap (nnz : list nat) (h : hyp) : option hyp :=
  match all_some (map (fun i => index_of i nnz) (h_ts h)) with Some ts => Some {| h_p := h_p h; h_ts := ts |} | None => None end.
Definition hclean_updates (tab : list (option (entry FS ST CV))) (heap : list hyp) (locs : list nat) : list (entry FS ST CV) * list hyp * list nat :=
  let hs := deref heap locs in
  let nnz := nnz_inds tab hs in
  let kept := filter (fun l => match remap nnz (nth l heap no_hyp) with Some _ => true | None => false end) locs in
  (flat_map (fun i => match nth i tab None with Some e => [e] | None => [] end) nnz,
   write_all heap kept (flat_map (fun l => match remap nnz (nth l heap no_hyp) with Some h => [h] | None => [] end) kept), kept).
(** correct without measurements, tracker.py:2325-2331 and 2386-2388: the
    objects of the previous step are changed. *)
Definition hcorrect0 (c : gcfg) (t : R) (x : hst) : result hst :=
  let s := k_rest x in
  let '(tab, all_cost) := gen_cor_tab E c t [] (g_tab s) in
  do vals <- mapM (miss_hyp c (length (g_tab s))) (deref (k_heap x) (k_locs x));
  do vals' <- normalise_log E vals;
  let heap := write_all (write_all (k_heap x) (k_locs x) vals) (k_locs x) vals' in
  let card := calc_card (deref heap (k_locs x)) in
  let '(tab', heap', locs') := hclean_updates tab heap (k_locs x) in
  Ok {| k_heap := heap'; k_locs := locs';
        k_rest := {| g_tab := tab'; g_hyps := []; g_card := card; g_cnt := g_cnt s;
                     g_meas := if c_savemeas c then g_meas s ++ [[]] else g_meas s;
                     g_ext := g_ext s; g_states := g_states s; g_labels := g_labels s; g_covs := g_covs s |} |}.
Definition hcorrect (c : gcfg) (t : R) (meas : list MS) (x : hst) : result hst :=
  match meas with
  | [] => hcorrect0 c t x
  | _ => do s <- correct E c t meas (habs x); Ok (fresh x s)
  end.
(** The end of _prune and of _cap, tracker.py:2664-2669 and 2694-2706: a new list
    of the kept objects, whose probabilities are overwritten. *)
Definition hkeep (x : hst) (locs : list nat) : hst :=
  let heap := write_all (k_heap x) locs (rescale (deref (k_heap x) locs)) in
  {| k_heap := heap; k_locs := locs; k_rest := with_hyps (k_rest x) (deref heap locs) |}.
Definition hprune (c : gcfg) (x : hst) : hst :=
  hkeep x (filter (fun l => if Rlt_dec (c_prune c) (h_p (nth l (k_heap x) no_hyp)) then true else false) (k_locs x)).
Definition hcap (c : gcfg) (x : hst) : hst :=
  if (c_maxh c <? length (k_locs x))%nat then
    hkeep x (map (fun i => nth i (k_locs x) (length (k_heap x)))
               (firstn (c_maxh c) (rev (v_argsort E (map h_p (deref (k_heap x) (k_locs x)))))))
  else x.
Definition hset (x : hst) (s : glmb) : hst := {| k_heap := k_heap x; k_locs := k_locs x; k_rest := s |}.
(** cleanup, tracker.py:2708-2749; extract_states does not write to hypotheses. *)
Definition hextract (c : gcfg) (u k : bool) (x : hst) : result hst :=
  do (_, s) <- extract_states c u k (habs x); Ok (hset x s).
Definition hcleanup (c : gcfg) (pr ca ex : bool) (x : hst) : result hst :=
  let x1 := hset x (bump (k_rest x)) in
  let x2 := if pr then hprune c x1 else x1 in
  let x3 := if ca then hcap c x2 else x2 in
  if ex then hextract c true true x3 else Ok x3.
Definition hexec (c : gcfg) (o : gop) (x : hst) : result hst :=
  match o with
  | OpPredict t => do s <- predict E c t (habs x); Ok (fresh x s)
  | OpCorrect t meas => hcorrect c t meas x
  | OpCleanup pr ca ex => hcleanup c pr ca ex x
  | OpExtract u k => hextract c u k x
  end.
Fixpoint hrun (c : gcfg) (os : list gop) (x : hst) : result hst :=
  match os with [] => Ok x | o :: os' => do x' <- hexec c o x; hrun c os' x' end.

(** save_filter_state, tracker.py:1895-1931: the references in _hypotheses
    (the list itself is never changed in place) and the other attributes. *)
Record saved := { z_locs : list nat; z_rest : glmb }.
Definition save (x : hst) : saved := {| z_locs := k_locs x; z_rest := k_rest x |}.
(** What the dictionary [z] contains when the filter is in state [x]:
    _hypotheses through the heap, _meas_tab (one list object for the whole life
    of the filter, appended to in correct, 2462-2463) as it is now. *)
Definition contents (z : saved) (x : hst) : glmb :=
  {| g_tab := g_tab (z_rest z); g_hyps := deref (k_heap x) (z_locs z); g_card := g_card (z_rest z); g_cnt := g_cnt (z_rest z);
     g_meas := g_meas (k_rest x); g_ext := g_ext (z_rest z); g_states := g_states (z_rest z);
     g_labels := g_labels (z_rest z); g_covs := g_covs (z_rest z) |}.
End Snap.
Arguments hst : clear implicits.
Arguments saved : clear implicits.
