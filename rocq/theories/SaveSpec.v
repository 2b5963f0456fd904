(** What an instance of a tracker class consists of: the attributes assigned by
    the constructors, written down from __init__ (tracker.py:59-88, 1857-1893,
    3250-3260, 3455-3457), not from save or load. *)
From Verif Require Import Base SaveModel.
From Coq Require Import String.
Open Scope string_scope.

Definition base_attrs : list string :=
  ["prob_detection"; "prob_survive"; "birth_terms"; "clutter_rate"; "clutter_den"; "inv_chi2_gate"; "save_covs"; "debug_plots"; "ospa"; "ospa_localization";
   "ospa_cardinality"; "_ospa_params"; "_states"; "_meas_tab"; "_covs"].
Definition glmb_attrs : list string :=
  ["req_births"; "req_surv"; "req_upd"; "gating_on"; "prune_threshold"; "max_hyps"; "decimal_places"; "save_measurements"; "_track_tab"; "_labels";
   "_extractable_hists"; "_filter"; "_baseFilter"; "_hypotheses"; "_card_dist"; "_time_index_cntr"; "ospa2"; "ospa2_localization"; "ospa2_cardinality"; "_ospa2_params"].
Definition smc_attrs : list string := ["compute_prob_detection"; "compute_prob_survive"; "_prob_surv_args"; "_prob_det_args"].
Definition attrs (c : cls) : list string :=
  (base_attrs ++ glmb_attrs ++
   match c with
   | CJSmc => smc_attrs ++ ["_old_track_tab"]
   | CSmc => smc_attrs
   | CJglmb | CJStm | CJGsm => ["_old_track_tab"]
   | _ => []
   end)%list.
Section S.
Context {FO CL FT : Type}.
Notation pv := (pv FO CL FT).
Notation dict := (list (string * pv)).
(** An instance of class [c]: it has all attributes; the two filters are None or
    an inner filter. *)
Definition is_filter (v : option pv) : Prop := v = Some VNone \/ exists f, v = Some (VFilt f).
Definition instance (c : cls) (o : dict) : Prop :=
  (forall a, In a (attrs c) -> exists v, look a o = Some v) /\ is_filter (look "_filter" o) /\ is_filter (look "_baseFilter" o).
(** Equality up to deep copies. *)
Fixpoint content (v : pv) : pv := match v with VCopy v' => content v' | _ => v end.
Definition same (a b : option pv) : Prop := option_map content a = option_map content b.
(** gncpy: loading a saved filter state into a new object of the same class
    gives the filter back. *)
Definition filters_ok (F : fenv FO CL FT) : Prop := forall f, f_load F (f_new F (f_type F f)) (f_save F f) = f.
End S.
