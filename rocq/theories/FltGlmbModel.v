(** The hypothesis probabilities of the GLMB filter
    (src/gasur/swarm_estimator/tracker.py:2155-2208 and 2648-2706) in IEEE double
    precision: every operation on probabilities is rounded (rnd64).  Same
    structure and records as GlmbModel.v; comparisons, sorting and np.argmax are
    exact.  Not modelled: overflow (probabilities are at most 1), a zero
    normaliser (the theorems exclude it). *)
From Coq Require Import Reals.
From Verif Require Import Base RBase GlmbModel FltIeee FltGibbsModel FltGibbs FltOspaModel.
Local Open Scope R_scope.

(** A running sum [s = 0; s = s + x], tracker.py:2157-2162, 2178-2184, 2696-2698. *)
Definition run_sum (l : list R) : R := fold_left add64 l 0.
(** Division of all probabilities by a total, tracker.py:2169-2171, 2664-2666,
    2700-2702. *)
Definition rescale64 (sum : list R -> R) (hs : list hyp) : list hyp :=
  let tot := sum (map h_p hs) in map (fun h => {| h_p := div64 (h_p h) tot; h_ts := h_ts h |}) hs.
(** [_set_pred_hyps], tracker.py:2155-2171. *)
Definition set_pred_hyps64 (nb : nat) (bh sh : list hyp) : list hyp :=
  rescale64 run_sum (flat_map (fun b => map (fun s => {| h_p := mul64 (h_p b) (h_p s);
    h_ts := h_ts b ++ map (fun x => (x + nb)%nat) (h_ts s) |}) sh) bh).
(** [_calc_card_dist], tracker.py:2173-2185. *)
Definition calc_card64 (hs : list hyp) : list R :=
  match hs with
  | [] => [1]
  | _ => map (fun n => run_sum (map h_p (filter (fun h => (length (h_ts h) =? n)%nat) hs)))
             (seq 0 (S (list_max (map (fun h => length (h_ts h)) hs))))
  end.
(** [_clean_predictions], tracker.py:2187-2208. *)
Fixpoint add_hyp64 (k : Z) (h : hyp) (used : list (Z * hyp)) : list (Z * hyp) :=
  match used with
  | [] => [(k, h)]
  | (k', h') :: u => if (k =? k')%Z then (k', {| h_p := add64 (h_p h') (h_p h); h_ts := h_ts h' |}) :: u else (k', h') :: add_hyp64 k h u
  end.
Section G.
Context {FS ST CV MS : Type} (E : genv FS ST CV MS).
Definition clean_predictions64 (hs : list hyp) : list hyp :=
  map snd (fold_left (fun used h => add_hyp64 (v_hash E (sort_nat (h_ts h))) h used) hs []).
(** The hypotheses after [predict], tracker.py:2243-2247. *)
Definition pred_hyps64 (nb : nat) (bh sh : list hyp) : list hyp := clean_predictions64 (set_pred_hyps64 nb bh sh).
Definition with_hyps64 (s : glmb FS ST CV MS) (hs : list hyp) : glmb FS ST CV MS :=
  {| g_tab := g_tab s; g_hyps := hs; g_card := calc_card64 hs; g_cnt := g_cnt s; g_meas := g_meas s; g_ext := g_ext s;
     g_states := g_states s; g_labels := g_labels s; g_covs := g_covs s |}.
(** [_prune], tracker.py:2648-2669; np.sum adds pairwise. *)
Definition prune64 (c : gcfg ST CV) (s : glmb FS ST CV MS) : glmb FS ST CV MS :=
  with_hyps64 s (rescale64 (np_sum 0 add64) (filter (fun h => if Rlt_dec (c_prune c) (h_p h) then true else false) (g_hyps s))).
(** [_cap], tracker.py:2671-2706. *)
Definition cap64 (c : gcfg ST CV) (s : glmb FS ST CV MS) : glmb FS ST CV MS :=
  if (c_maxh c <? length (g_hyps s))%nat then
    let keep := firstn (c_maxh c) (rev (v_argsort E (map h_p (g_hyps s)))) in
    with_hyps64 s (rescale64 run_sum (map (fun i => nth i (g_hyps s) {| h_p := 0; h_ts := [] |}) keep))
  else s.
End G.
