(** Model of save_filter_state and load_filter_state of all tracker classes,
    src/gasur/swarm_estimator/tracker.py:102-172, 589-606, 1895-1970, 3459-3482.

    An instance and a saved state are finite maps from names to values; a value
    is None, some other Python object (identified by a number: saving and
    loading copy references), an inner filter, a deep copy, or the pair
    (class, state) used for inner filters.  The inner filter (gncpy) is given by
    its class, its constructor without arguments, and its save and load. *)
From Verif Require Import Base.
From Coq Require Import String.
Open Scope string_scope.

Section Save.
Context {FO CL FT : Type}.
Record fenv := { f_type : FO -> CL; f_new : CL -> FO; f_save : FO -> FT; f_load : FO -> FT -> FO }.
Variable F : fenv.
Inductive pv := VNone | VObj (n : nat) | VFilt (f : FO) | VCopy (v : pv) | VPair (c : option CL) (s : option FT).
Notation dict := (list (string * pv)).
(** d[k], and self.k: the latest assignment counts. *)
Fixpoint look (k : string) (d : dict) : option pv :=
  match d with [] => None | (k', v) :: d' => if (k =? k')%string then Some v else look k d' end.
Definition item (k : string) (d : dict) : result pv := match look k d with Some v => Ok v | None => Err KeyErr end.
Definition attr (k : string) (o : dict) : result pv := match look k o with Some v => Ok v | None => Err AttributeErr end.
Definition put (k : string) (v : pv) (d : dict) : dict := (k, v) :: d.

(** The classes that can be instantiated (the Gibbs-based ones with J). *)
Inductive cls := CPhd | CCphd | CGlmb | CStm | CSmc | CGsm | CJglmb | CJStm | CJSmc | CJGsm.
Definition is_joint (c : cls) : bool := match c with CJglmb | CJStm | CJSmc | CJGsm => true | _ => false end.
Definition is_smc (c : cls) : bool := match c with CSmc | CJSmc => true | _ => false end.
Definition is_phd (c : cls) : bool := match c with CPhd | CCphd => true | _ => false end.

(** filt_state['x'] = self.y, in order: tracker.py:117-134. *)
Definition base_saves : list (string * string) :=
  [("prob_detection", "prob_detection"); ("prob_survive", "prob_survive"); ("birth_terms", "birth_terms"); ("clutter_rate", "clutter_rate");
   ("clutter_den", "clutter_den"); ("inv_chi2_gate", "inv_chi2_gate"); ("save_covs", "save_covs"); ("debug_plots", "debug_plots"); ("ospa", "ospa");
   ("ospa_localization", "ospa_localization"); ("ospa_cardinality", "ospa_cardinality"); ("_states", "_states"); ("_meas_tab", "_meas_tab");
   ("_covs", "_covs"); ("_ospa_params", "_ospa_params")].
(** tracker.py:1903-1914 *)
Definition glmb_saves1 : list (string * string) :=
  [("req_births", "req_births"); ("req_surv", "req_surv"); ("req_upd", "req_upd"); ("gating_on", "gating_on"); ("prune_threshold", "prune_threshold");
   ("max_hyps", "max_hyps"); ("decimal_places", "decimal_places"); ("save_measurements", "save_measurements"); ("_track_tab", "_track_tab");
   ("_labels", "_labels"); ("_extractable_hists", "_extractable_hists")].
(** tracker.py:1922-1929 *)
Definition glmb_saves2 : list (string * string) :=
  [("_hypotheses", "_hypotheses"); ("_card_dist", "_card_dist"); ("_time_index_cntr", "_time_index_cntr"); ("ospa2", "ospa2");
   ("ospa2_localization", "ospa2_localization"); ("ospa2_cardinality", "ospa2_cardinality"); ("_ospa2_params", "_ospa_params")].
Fixpoint save_all (l : list (string * string)) (o d : dict) : result dict :=
  match l with [] => Ok d | (k, a) :: l' => do v <- attr a o; save_all l' o (put k v d) end.
(** The pair stored for an inner filter, tracker.py:111-115 and 1916-1920. *)
Definition filt_pair (v : pv) : result pv :=
  match v with
  | VNone => Ok (VPair None None)
  | VFilt f => Ok (VPair (Some (f_type F f)) (Some (f_save F f)))
  | _ => Err AttributeErr
  end.
(** self.filter: a plain attribute of the base class, a property for GLMB
    (2010-2020; the setter also stores a deep copy as _baseFilter). *)
Definition set_filter (c : cls) (v : pv) (o : dict) : dict :=
  if is_phd c then put "filter" v o else put "_filter" v (put "_baseFilter" (match v with VFilt _ | VNone => v | _ => VCopy v end) o).
Definition get_filter (c : cls) (o : dict) : result pv := attr (if is_phd c then "filter" else "_filter") o.
(** tracker.py:110-136 *)
Definition base_save (c : cls) (o : dict) : result dict :=
  do f <- get_filter c o; do p <- filt_pair f; save_all base_saves o (put "filter" p []).
(** tracker.py:1895-1931 *)
Definition glmb_save (c : cls) (o : dict) : result dict :=
  do d <- base_save c o;
  do d <- save_all glmb_saves1 o d;
  do b <- attr "_baseFilter" o; do p <- filt_pair b;
  save_all glmb_saves2 o (put "_baseFilter" p d).
(** save_filter_state by class: not implemented for PHD and CPHD (589-596), plus
    the previous track table for the joint filters (3459-3469), otherwise the
    GLMB version. *)
Definition save (c : cls) (o : dict) : result dict :=
  if is_phd c then Err RuntimeErr else
  do d <- glmb_save c o;
  if is_joint c then do v <- attr "_old_track_tab" o; Ok (put "_old_track_tab" (VCopy v) d) else Ok d.

(** self.x = filt_state['x'], tracker.py:153-172. *)
Definition base_loads : list string :=
  ["prob_detection"; "prob_survive"; "birth_terms"; "clutter_rate"; "clutter_den"; "inv_chi2_gate"; "save_covs"; "debug_plots"; "ospa"; "ospa_localization";
   "ospa_cardinality"; "_states"; "_meas_tab"; "_covs"; "_ospa_params"].
(** tracker.py:1943-1954 *)
Definition glmb_loads1 : list string :=
  ["req_births"; "req_surv"; "req_upd"; "gating_on"; "prune_threshold"; "max_hyps"; "decimal_places"; "save_measurements"; "_track_tab"; "_labels"; "_extractable_hists"].
(** tracker.py:1963-1970 *)
Definition glmb_loads2 : list string :=
  ["_hypotheses"; "_card_dist"; "_time_index_cntr"; "ospa2"; "ospa2_localization"; "ospa2_cardinality"; "_ospa2_params"].
Fixpoint load_all (l : list string) (d o : dict) : result dict :=
  match l with [] => Ok o | k :: l' => do v <- item k d; load_all l' d (put k v o) end.
Definition revived (c : CL) (s : option FT) : result FO :=
  match s with Some st => Ok (f_load F (f_new F c) st) | None => Err TypeErr end.
(** tracker.py:146-172: without an inner filter the whole pair is assigned (151). *)
Definition base_load (c : cls) (d o : dict) : result dict :=
  do p <- item "filter" d;
  do o <- (match p with
           | VPair (Some t) s =>
               (* the setter stores the new filter twice, loading then changes the object in _filter only *)
               let o1 := set_filter c (VFilt (f_new F t)) o in
               do f <- revived t s; Ok (put (if is_phd c then "filter" else "_filter") (VFilt f) o1)
           | VPair None _ => Ok (set_filter c p o)
           | _ => Err TypeErr
           end);
  load_all base_loads d o.
(** tracker.py:1933-1970 *)
Definition glmb_load (c : cls) (d o : dict) : result dict :=
  do o <- base_load c d o;
  do o <- load_all glmb_loads1 d o;
  do p <- item "_baseFilter" d;
  do o <- (match p with
           | VPair (Some t) s => do f <- revived t s; Ok (put "_baseFilter" (VFilt f) o)
           | VPair None _ => Ok (put "_baseFilter" VNone o)
           | _ => Err TypeErr
           end);
  load_all glmb_loads2 d o.
(** load_filter_state by class, tracker.py:598-606, 3471-3482. *)
Definition load (c : cls) (d o : dict) : result dict :=
  if is_phd c then Err RuntimeErr else
  do o <- glmb_load c d o;
  if is_joint c then do v <- item "_old_track_tab" d; Ok (put "_old_track_tab" v o) else Ok o.
End Save.
Arguments fenv : clear implicits.
Arguments pv : clear implicits.
