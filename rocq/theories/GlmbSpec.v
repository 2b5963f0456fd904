(** Specification vocabulary for the GLMB filter. *)
From Verif Require Import Base.
From Coq Require Import Reals Permutation.
From Verif Require Import OspaModel CphdModel CphdSpec GlmbModel.
Open Scope R_scope.

(** * Contracts of the called functions *)
(** k_shortest: as many costs as paths; a path is a set of indices into the cost
    vector (proved of the code for rational costs: C11, C12). *)
Definition kshort_ok (f : list R -> nat -> result (list (list nat) * list R)) : Prop :=
  forall lc k paths costs, f lc k = Ok (paths, costs) ->
    length paths = length costs /\
    forall p, In p paths -> NoDup p /\ forall i, In i p -> (i < length lc)%nat.
(** k_shortest: an index of cost 0 is on no path (C15_k_shortest_zero_never). *)
Definition kshort_zero (f : list R -> nat -> result (list (list nat) * list R)) : Prop :=
  forall lc k paths costs, f lc k = Ok (paths, costs) ->
    forall p i, In p paths -> In i p -> nth i lc 0 <> 0.
(** k_shortest: nothing is returned when nothing is asked for (C11). *)
Definition kshort_none (f : list R -> nat -> result (list (list nat) * list R)) : Prop :=
  forall lc, f lc 0%nat = Ok ([], []).
(** murty_m_best: every row of the answer says for every matrix row 0 (missed) or
    a column + 1, no column twice (C04, C05). *)
Definition murty_ok (f : nat -> nat -> (nat -> nat -> R) -> nat -> result (list (list nat) * list R)) : Prop :=
  forall nr nc M m rows costs, f nr nc M m = Ok (rows, costs) ->
    length rows = length costs /\
    forall row, In row rows -> length row = nr /\ (forall v, In v row -> (v <= nc)%nat) /\
      forall r1 r2 v, nth_error row r1 = Some (S v) -> nth_error row r2 = Some (S v) -> r1 = r2.
(** Both always return. *)
Definition kshort_total (f : list R -> nat -> result (list (list nat) * list R)) : Prop := forall lc k, exists r, f lc k = Ok r.
Definition murty_total (f : nat -> nat -> (nat -> nat -> R) -> nat -> result (list (list nat) * list R)) : Prop :=
  forall nr nc M m, (0 < nr)%nat -> (0 < nc)%nat -> exists r, f nr nc M m = Ok r.
(** No collision of the hash on track sets (sorted index lists). *)
Definition hash_ok (h : list nat -> Z) : Prop := forall a b, h a = h b -> a = b.

(** * States *)
(** The hypotheses are a probability distribution. *)
Definition prob_dist (hs : list hyp) : Prop := (forall h, In h hs -> 0 < h_p h) /\ rsum (map h_p hs) = 1.
(** Total probability of the hypotheses satisfying [f]. *)
Definition mass (f : hyp -> bool) (hs : list hyp) : R := rsum (map h_p (filter f hs)).
(** [card] is the cardinality distribution of the hypotheses. *)
Definition card_matches (card : list R) (hs : list hyp) : Prop :=
  forall n, nth n card 0 = mass (fun h => (length (h_ts h) =? n)%nat) hs.
(** Every index refers to a track. *)
Definition refs_ok {A} (tab : list A) (hs : list hyp) : Prop :=
  forall h i, In h hs -> In i (h_ts h) -> (i < length tab)%nat.
(** The tracks of a hypothesis. *)
Definition tracks {A} (tab : list A) (h : hyp) : list A :=
  flat_map (fun i => match nth_error tab i with Some e => [e] | None => [] end) (h_ts h).
(** All tracks of a hypothesis exist in a table with gaps. *)
Definition usable {A} (tab : list (option A)) (h : hyp) : bool :=
  forallb (fun i => match nth i tab None with Some _ => true | None => false end) (h_ts h).

Section Spec.
Context {FS ST CV MS : Type}.
Notation entry := (entry FS ST CV).
Notation gop := (gop MS).
(** Two tracks share a measurement: both were associated with the same
    measurement index at the same time index. *)
Definition share_meas (e1 e2 : entry) : Prop :=
  exists a b m, nth_error (e_assoc e1) a = Some (Some m) /\ nth_error (e_assoc e2) b = Some (Some m) /\
                (e_time e1 + a = e_time e2 + b)%nat.
(** All histories of a track have [n] entries. *)
Definition hist_len (n : nat) (e : entry) : Prop :=
  length (e_st e) = n /\ length (e_w e) = n /\ length (e_cov e) = n /\ length (e_assoc e) = n.

(** The times passed to predict, in order. *)
Definition predict_times (os : list gop) : list R :=
  flat_map (fun o => match o with OpPredict t => [t] | _ => [] end) os.
(** The intended use: predict, correct, cleanup, again and again; extraction at
    any point.  [phase] 0: before predict, 1: before correct, 2: before cleanup. *)
Fixpoint protocol (phase : nat) (os : list gop) : option nat :=
  match os, phase with
  | [], _ => Some phase
  | OpExtract _ _ :: os', _ => protocol phase os'
  | OpPredict _ :: os', 0%nat => protocol 1 os'
  | OpCorrect _ _ :: os', 1%nat => protocol 2 os'
  | OpCleanup _ _ _ :: os', 2%nat => protocol 0 os'
  | _, _ => None
  end.
(** One step of the intended use: time, measurements, the flags of cleanup. *)
Definition cycle (x : R * list MS * (bool * bool * bool)) : list gop :=
  let '(t, meas, (pr, ca, ex)) := x in [OpPredict t; OpCorrect t meas; OpCleanup pr ca ex].
(** The inner filter never fails on a measurement of the operation list. *)
Definition never_fails (E : genv FS ST CV MS) (os : list gop) : Prop :=
  forall t meas, In (OpCorrect t meas) os -> forall z f x, In z meas -> v_corr E t z f x <> None.
(** Birth terms have at least one component and lists of equal length. *)
Definition births_ok (c : gcfg ST CV) : Prop := forall b p, In (b, p) (c_births c) ->
  (0 < length (b_m b))%nat /\ length (b_c b) = length (b_m b) /\ length (b_w b) = length (b_m b).
(** Probabilities strictly between 0 and 1, positive clutter. *)
Definition cfg_ok (c : gcfg ST CV) : Prop :=
  (forall b p, In (b, p) (c_births c) -> 0 < p < 1) /\ 0 < c_ps c < 1 /\ 0 < c_pd c < 1 /\ 0 < c_crate c /\ 0 < c_cden c.
(** Track [e] claims measurement [m] of time index [tt]. *)
Definition claims (e : entry) (tt m : nat) : Prop :=
  exists a, nth_error (e_assoc e) a = Some (Some m) /\ (e_time e + a = tt)%nat.
(** The same for an extracted history. *)
Definition xclaims (x : ehist ST CV) (tt m : nat) : Prop :=
  exists a, nth_error (x_meas x) a = Some (Some m) /\ (x_time x + a = tt)%nat.
End Spec.

(** * The GLMB recursion (Vo and Vo): what the probabilities should be *)
Definition rprod (l : list R) : R := fold_right Rmult 1 l.
(** k_shortest: the cost of a path is the total cost of its indices plus a
    constant [d] (the code: machine epsilon; true of its first path, C10). *)
Definition kshort_cost (d : R) (f : list R -> nat -> result (list (list nat) * list R)) : Prop :=
  forall lc k paths costs, f lc k = Ok (paths, costs) -> Forall2 (fun p x => x = rsum (map (fun i => nth i lc 0) p) + d) paths costs.
(** The cost of an assignment row: matrix entries of the assigned rows. *)
Definition row_total (nr : nat) (M : nat -> nat -> R) (row : list nat) : R :=
  rsum (map (fun ra => match snd ra with O => 0 | S j => M (fst ra) j end) (combine (seq 0 nr) row)).
(** murty_m_best: the costs are those of the rows (C05). *)
Definition murty_cost (f : nat -> nat -> (nat -> nat -> R) -> nat -> result (list (list nat) * list R)) : Prop :=
  forall nr nc M m rows costs, f nr nc M m = Ok (rows, costs) -> Forall2 (fun row x => x = row_total nr M row) rows costs.
(** A row assigns no column twice. *)
Definition valid_row (nr nc : nat) (row : list nat) : Prop :=
  length row = nr /\ (forall v, In v row -> (v <= nc)%nat) /\
  forall r1 r2 v, nth_error row r1 = Some (S v) -> nth_error row r2 = Some (S v) -> r1 = r2.
(** murty_m_best: at most [m] rows, none twice, and no row left out is cheaper (C06). *)
Definition murty_best (f : nat -> nat -> (nat -> nat -> R) -> nat -> result (list (list nat) * list R)) : Prop :=
  forall nr nc M m rows costs, f nr nc M m = Ok (rows, costs) -> (length rows <= m)%nat /\ NoDup rows /\
    (forall row row', In row rows -> valid_row nr nc row' -> ~ In row' rows -> row_total nr M row <= row_total nr M row') /\
    ((length rows < m)%nat -> forall row, valid_row nr nc row -> In row rows).
Section Bayes.
Context {FS ST CV MS : Type}.
Notation entry := (entry FS ST CV).
(** The share of [n] requested successors that goes to hypothesis [h]:
    proportional to the square root of its probability, rounded. *)
Definition share_of (n : nat) (hs : list hyp) (h : hyp) : nat :=
  Z.to_nat (roundR (INR n * sqrt (h_p h) / rsum (map (fun h => sqrt (h_p h)) hs))).
(** The sets of births and of survivors (positions in the track set) considered. *)
Definition birth_choices (E : genv FS ST CV MS) (c : gcfg ST CV) : list (list nat) :=
  match v_kshort E (map (fun b => - ln (snd b / (1 - snd b))) (c_births c)) (c_reqb c) with Ok (ps, _) => ps | Err _ => [] end.
Definition surv_choices (E : genv FS ST CV MS) (c : gcfg ST CV) (hs : list hyp) (h : hyp) : list (list nat) :=
  match h_ts h with
  | [] => [[]]
  | _ => match v_kshort E (map (fun _ => - ln (c_ps c / (1 - c_ps c))) (h_ts h)) (share_of (c_reqs c) hs h) with Ok (ps, _) => ps | Err _ => [] end
  end.
(** Probability that exactly the births [B] happen. *)
Definition birth_weight (c : gcfg ST CV) (B : list nat) : R :=
  rprod (map (fun i => let p := nth i (map snd (c_births c)) 0 in if existsb (Nat.eqb i) B then p else 1 - p) (seq 0 (length (c_births c)))).
(** Probability of [h] and of exactly [S] surviving. *)
Definition surv_weight (c : gcfg ST CV) (h : hyp) (S : list nat) : R :=
  h_p h * c_ps c ^ length S * (1 - c_ps c) ^ (length (h_ts h) - length S).
(** The tracks at the positions [S] of [h]. *)
Definition spicks (h : hyp) (S : list nat) : list nat := map (fun j => nth j (h_ts h) 0%nat) S.
(** The bias of the code's prediction: the constant in the costs of k_shortest,
    through which the successors of an empty hypothesis do not pass. *)
Definition bias (d : R) (h : hyp) : R := match h_ts h with [] => 1 | _ => exp (- d) end.
(** Total weight of the predicted combinations (births, hypothesis, survivors)
    whose track set satisfies [f]; the new tracks come first in the table. *)
Definition predicted_total (E : genv FS ST CV MS) (d : R) (c : gcfg ST CV) (hs : list hyp) (f : list nat -> bool) : R :=
  rsum (map (fun B => rsum (map (fun h => rsum (map (fun S =>
      if f (B ++ map (fun x => (x + length (c_births c))%nat) (spicks h S)) then birth_weight c B * (bias d h * surv_weight c h S) else 0)
    (surv_choices E c hs h))) hs)) (birth_choices E c)).
(** Likelihood of measurement [z] for track [e]: the mixture of its components'
    likelihoods (the code adds epsilon to every term). *)
Definition track_lik (E : genv FS ST CV MS) (t : R) (z : MS) (e : entry) : R :=
  rsum (map (fun fxw => match v_corr E t z (fst (fst fxw)) (snd (fst fxw)) with Some (_, q) => snd fxw * q + feps | None => 0 end)
            (combine (combine (e_fs e) (last (e_st e) [])) (last (e_w e) []))).
(** Probability of an association: missed tracks, detected tracks, everything
    else clutter (relative to all clutter). *)
Definition assoc_weight (E : genv FS ST CV MS) (c : gcfg ST CV) (t : R) (meas : list MS) (es : list entry) (row : list nat) : R :=
  rprod (map (fun ea => match snd ea with
                        | O => 1 - c_pd c
                        | S j => match nth_error meas j with
                                 | Some z => c_pd c * track_lik E t z (fst ea) / (c_crate c * c_cden c)
                                 | None => 0 end
                        end) (combine es row)).
(** The successor of a track: missed, or corrected with measurement [j]. *)
Definition successor (E : genv FS ST CV MS) (c : gcfg ST CV) (t : R) (meas : list MS) (e : entry) (a : nat) (e' : entry) : Prop :=
  e_label e' = e_label e /\ e_time e' = e_time e /\
  match a with
  | O => e_assoc e' = e_assoc e ++ [None] /\ e_w e' = e_w e /\ e_fs e' = e_fs e /\ e_st e' = e_st e /\ e_cov e' = e_cov e
  | S j => exists z rs, nth_error meas j = Some z /\ e_assoc e' = e_assoc e ++ [Some j] /\
      let comps := combine (combine (e_fs e) (last (e_st e) [])) (last (e_w e) []) in
      Forall2 (fun fxw r => v_corr E t z (fst (fst fxw)) (snd (fst fxw)) = Some r) comps rs /\
      e_fs e' = map (fun r => fst (fst (fst r))) rs /\
      e_st e' = removelast (e_st e) ++ [map (fun r => snd (fst (fst r))) rs] /\
      e_cov e' = removelast (e_cov e) ++ [map (fun r => if c_savecov c then Some (snd (fst r)) else None) rs] /\
      e_w e' = removelast (e_w e) ++ [map (fun rw => (snd rw * snd (fst rw) + feps) / track_lik E t z e) (combine rs (map snd comps))]
  end.
(** The associations considered for hypothesis [h] with tracks [es]: everything
    missed without measurements, otherwise the rows of murty_m_best on the
    negative logarithms of detection against missed detection. *)
Definition considered (E : genv FS ST CV MS) (c : gcfg ST CV) (t : R) (meas : list MS) (hs : list hyp) (h : hyp) (es : list entry) (rows : list (list nat)) : Prop :=
  match es, meas with
  | [], _ => rows = [[]]
  | _, [] => rows = [repeat 0%nat (length es)]
  | _, _ => exists M costs, v_murty E (length es) (length meas) M (share_of (c_requ c) hs h) = Ok (rows, costs) /\
      forall r j e z, nth_error es r = Some e -> nth_error meas j = Some z ->
        M r j = - ln (c_pd c * track_lik E t z e / (c_crate c * c_cden c) / (1 - c_pd c))
  end.
End Bayes.
