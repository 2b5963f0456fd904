(** Specification vocabulary for the joint GLMB filter. *)
From Verif Require Import Base.
From Coq Require Import Reals.
From Verif Require Import OspaModel CphdModel GlmbModel GlmbSpec.
Open Scope R_scope.

Notation sampler := (nat -> nat -> nat -> (nat -> nat -> R) -> nat -> result (list (list nat) * list R)).
(** The sampler on an n x m matrix with m >= 2 n, at least one iteration: at
    least one row, every row a one-to-one choice of columns, as many costs as
    rows (C20, C21; proved of the code over the reals in JglmbGibbs). *)
Definition gibbs_ok (f : sampler) : Prop :=
  forall call n m C it rows costs, (2 * n <= m)%nat -> (1 <= it)%nat -> f call n m C it = Ok (rows, costs) ->
    length rows = length costs /\ rows <> [] /\ NoDup rows /\ (length rows <= it)%nat /\
    forall row, In row rows -> length row = n /\ (forall v, In v row -> (v < m)%nat) /\ NoDup row.
(** The cost of a row is the sum of its entries. *)
Definition gibbs_cost (f : sampler) : Prop :=
  forall call n m C it rows costs, (2 * n <= m)%nat -> (1 <= it)%nat -> f call n m C it = Ok (rows, costs) ->
    Forall2 (fun row x => x = rsum (map (fun rv => C (fst rv) (snd rv)) (combine (seq 0 n) row))) rows costs.
(** It always returns. *)
Definition gibbs_total (f : sampler) : Prop :=
  forall call n m C it, (2 * n <= m)%nat -> (1 <= it)%nat -> exists r, f call n m C it = Ok r.
(** The start of the sampler, "every track survives and is missed" (row i takes
    column n + i), is one of its answers. *)
Definition gibbs_start (f : sampler) : Prop :=
  forall call n m C it rows costs, (2 * n <= m)%nat -> (1 <= it)%nat -> f call n m C it = Ok (rows, costs) -> In (seq n n) rows.

(** * The joint prediction and update: what the probabilities should be *)
Section Bayes.
Context {FS ST CV MS : Type}.
Notation entry := (entry FS ST CV).
(** The tracks a hypothesis is about after predict: all births (first in the
    table), then its own tracks. *)
Definition jtracks (nb : nat) (tab : list entry) (h : hyp) : list entry := firstn nb tab ++ tracks (skipn nb tab) h.
(** Probability that track number [r] of them exists: birth or survival. *)
Definition jsurv (c : gcfg ST CV) (r : nat) : R := nth r (map snd (c_births c)) (c_ps c).
(** Factors that are not positive are replaced by machine epsilon. *)
Definition floor_eps (x : R) : R := if Rle_dec x 0 then feps else x.
(** A sample gives for each of the [nt] tracks a column: r means track r dies,
    nt + r track r survives and is missed, 2 nt + j it is measurement j.  A column
    below 2 nt that belongs to another track means the same for this track, with
    factor epsilon. *)
Definition joint_factor (E : genv FS ST CV MS) (c : gcfg ST CV) (t : R) (meas : list MS) (nt r : nat) (e : entry) (v : nat) : R :=
  if (v <? nt)%nat then (if (v =? r)%nat then floor_eps (1 - jsurv c r) else feps)
  else if (v <? 2 * nt)%nat then (if (v =? nt + r)%nat then floor_eps (jsurv c r * (1 - c_pd c)) else feps)
  else match nth_error meas (v - 2 * nt) with
       | Some z => floor_eps (jsurv c r * c_pd c * track_lik E t z e / (c_crate c * c_cden c))
       | None => 0 end.
Definition joint_weight (E : genv FS ST CV MS) (c : gcfg ST CV) (t : R) (meas : list MS) (es : list entry) (row : list nat) : R :=
  rprod (map (fun rev => joint_factor E c t meas (length es) (fst rev) (fst (snd rev)) (snd (snd rev))) (combine (seq 0 (length es)) (combine es row))).
(** What a sample says: the labels of the surviving tracks with what they were
    associated with. *)
Definition joint_outcome (es : list entry) (row : list nat) : list (label * option nat) :=
  flat_map (fun ev => let '(e, v) := ev in
     if (v <? length es)%nat then [] else if (v <? 2 * length es)%nat then [(e_label e, None)] else [(e_label e, Some (v - 2 * length es)%nat)]) (combine es row).
(** The samples drawn for one hypothesis: one column per track, columns used once;
    "everything born or surviving and missed" is among them, no sample is repeated
    and there is at most one more than the share of the hypothesis. *)
Definition row_ok (nt m : nat) (row : list nat) : Prop := length row = nt /\ (forall v, In v row -> (v < 2 * nt + m)%nat) /\ NoDup row.
Definition rows_ok (c : gcfg ST CV) (m : nat) (tab : list entry) (hs : list hyp) (h : hyp) (rows : list (list nat)) : Prop :=
  let nt := length (jtracks (length (c_births c)) tab h) in
  In (seq nt nt) rows /\ NoDup rows /\ (length rows <= S (share_of (c_requ c) hs h))%nat /\ Forall (row_ok nt m) rows.
(** What a hypothesis says after the update. *)
Definition said (tab : list entry) (h : hyp) : list (label * option nat) :=
  map (fun e => (e_label e, last (e_assoc e) None)) (tracks tab h).
(** Total weight of the samples [rr] (for each hypothesis its rows) whose outcome
    satisfies [f]. *)
Definition sampled_total (E : genv FS ST CV MS) (c : gcfg ST CV) (t : R) (meas : list MS) (tab : list entry) (hs : list hyp) (rr : list (list (list nat))) (f : list (label * option nat) -> bool) : R :=
  rsum (map (fun hr => rsum (map (fun row =>
      let es := jtracks (length (c_births c)) tab (fst hr) in
      if f (joint_outcome es row) then h_p (fst hr) * joint_weight E c t meas es row else 0) (snd hr))) (combine hs rr)).
(** Every track takes its own column or a measurement. *)
Definition own_columns (nt : nat) (row : list nat) : Prop :=
  forall r v, nth_error row r = Some v -> v = r \/ v = (nt + r)%nat \/ (2 * nt <= v)%nat.
(** The factor of the joint prediction and update. *)
Definition exact_factor (E : genv FS ST CV MS) (c : gcfg ST CV) (t : R) (meas : list MS) (nt r : nat) (e : entry) (v : nat) : R :=
  if (v <? nt)%nat then 1 - jsurv c r
  else if (v <? 2 * nt)%nat then jsurv c r * (1 - c_pd c)
  else match nth_error meas (v - 2 * nt) with
       | Some z => jsurv c r * (c_pd c * track_lik E t z e / (c_crate c * c_cden c))
       | None => 0 end.
Definition exact_weight (E : genv FS ST CV MS) (c : gcfg ST CV) (t : R) (meas : list MS) (es : list entry) (row : list nat) : R :=
  rprod (map (fun rev => exact_factor E c t meas (length es) (fst rev) (fst (snd rev)) (snd (snd rev))) (combine (seq 0 (length es)) (combine es row))).
End Bayes.
