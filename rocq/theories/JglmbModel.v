(** Model of the JointGeneralizedLabeledMultiBernoulli filter,
    src/gasur/swarm_estimator/tracker.py:3445-3691, over the real numbers.

    It inherits from the GLMB filter (GlmbModel); this file models what it adds
    or overrides: predict, _gen_cor_tab (same table and costs as the inherited
    one), correct, and the attribute _old_track_tab, of which the code uses only
    the length (3580).  Simplifications as in GlmbModel: exact reals (the clamp of
    infinite costs, 3644-3646, never fires); a clutter level that is not positive
    or a hypothesis of probability 0 gives infinite or nan logarithms and is
    reported as [NanErr]; birth probabilities are Python floats, so p = 1 raises
    ZeroDivisionError (2046, here ValueErr), other values only warn.  The sampler
    gibbs (sampling.py) is the parameter [G]; its first argument counts the calls,
    so that every call may see different random numbers. *)
From Verif Require Import Base.
From Coq Require Import Reals.
From Verif Require Import OspaModel CphdModel GlmbModel.
Open Scope R_scope.

Section Jglmb.
Context {FS ST CV MS : Type}.
Notation glmb := (glmb FS ST CV MS).
Notation gcfg := (gcfg ST CV).
Notation gop := (gop MS).
Variable E : genv FS ST CV MS.
(** gibbs: call number, rows, columns, cost matrix, iterations. *)
Variable G : nat -> nat -> nat -> (nat -> nat -> R) -> nat -> result (list (list nat) * list R).

(** Attributes: those of the GLMB filter, len(_old_track_tab) (3456), and the
    number of calls of the sampler so far. *)
Record jst := { y_g : glmb; y_old : nat; y_calls : nat }.
Definition jst_new : jst := {| y_g := glmb_new; y_old := 0; y_calls := 0 |}.
Definition with_g (s : jst) (g : glmb) : jst := {| y_g := g; y_old := y_old s; y_calls := y_calls s |}.

(** * predict, tracker.py:3483-3511 *)
(** [_gen_birth_tab] (2042-2058) without the costs, which are not used. *)
Definition jbirth_tab (c : gcfg) (t : R) (cnt : nat) : list (entry FS ST CV) :=
  map (fun ib => birth_entry E c t cnt (fst ib) (fst (snd ib))) (combine (seq 0 (length (c_births c))) (c_births c)).
Definition set_tab (s : glmb) (tab : list (entry FS ST CV)) : glmb :=
  {| g_tab := tab; g_hyps := g_hyps s; g_card := g_card s; g_cnt := g_cnt s; g_meas := g_meas s; g_ext := g_ext s;
     g_states := g_states s; g_labels := g_labels s; g_covs := g_covs s |}.
Definition jpredict (c : gcfg) (t : R) (s : jst) : result jst :=
  do _ <- mapM (fun b => if Req_EM_T (snd b) 1 then Err ValueErr else Ok tt) (c_births c);
  Ok (with_g s (set_tab (y_g s) (jbirth_tab c t (g_cnt (y_g s)) ++ map (pred_entry E c t) (g_tab (y_g s))))).

(** * correct, tracker.py:3519-3691 *)
(** avg_surv, 3580-3587: row [i] of the table is taken for a birth when
    i < len(birth_terms). *)
Definition avg_surv (c : gcfg) (i : nat) : R := nth i (map snd (c_births c)) (c_ps c).
(** joint_cost, 3603-3608, entry (row, column).  [k] = len(avg_surv) rows; [n]
    tracks.  When n is 1 numpy repeats the single row of all_cost_m. *)
Definition joint_cost (c : gcfg) (k n : nat) (all_cost : nat -> nat -> R) (i col : nat) : R :=
  if (col <? k)%nat then (if (i =? col)%nat then 1 - avg_surv c i else 0)
  else if (col <? 2 * k)%nat then (if (i =? col - k)%nat then avg_surv c i * (1 - c_pd c) else 0)
  else avg_surv c i * c_pd c * all_cost (if (n =? 1)%nat then 0%nat else i) (col - 2 * k)%nat / (c_crate c * c_cden c).
(** tindices, 3627-3628: all births and the tracks of the hypothesis. *)
Definition tindices (c : gcfg) (h : hyp) : list nat :=
  seq 0 (length (c_births c)) ++ map (fun x => (length (c_births c) + x)%nat) (h_ts h).
(** comb_tind_cpred, 3635-3636: the column of the joint matrix behind column [j]
    of the matrix of one hypothesis (mindices is 0, 1, ... as all are gated in,
    3611-3615, 3629-3633 and 3513-3517). *)
Definition comb (n : nat) (tind : list nat) (j : nat) : nat :=
  let nt := length tind in
  if (j <? nt)%nat then nth j tind 0%nat
  else if (j <? 2 * nt)%nat then (n + nth (j - nt) tind 0)%nat
  else (2 * n + (j - 2 * nt))%nat.
(** The track set of a sample, 3658-3670 and 3673-3679: a value below num_tracks
    ends the track, below 2 num_tracks means missed, above a measurement. *)
Definition decode (n : nat) (tind row : list nat) : list nat :=
  let nt := length tind in
  flat_map (fun iv => let '(i, v) := iv in
      if (v <? nt)%nat then [] else if (v <? 2 * nt)%nat then [i] else [n * (v - 2 * nt + 1) + i]%nat) (combine tind row).
(** One hypothesis, 3622-3680.  The reads of gate_meas_indc (n rows, 3630) and of
    joint_cost (k rows, 3641) raise IndexError. *)
Definition jcor_hyp (c : gcfg) (k n m : nat) (all_cost : nat -> nat -> R) (ssum : R) (call : nat) (h : hyp) : result (list hyp) :=
  let tind := tindices c h in
  let nt := length tind in
  if negb (forallb (fun i => (i <? n)%nat && (i <? k)%nat) tind) then Err IndexErr else
  let cost_m := fun r j => let v := joint_cost c k n all_cost (nth r tind 0%nat) (comb n tind j) in if Rle_dec v 0 then feps else v in
  let iters := S (Z.to_nat (roundR (INR (c_requ c) * sqrt (h_p h) / ssum))) in
  do (rows, costs) <- G call nt (2 * nt + (if (nt =? 0)%nat then 0 else m))%nat (fun r j => - ln (cost_m r j)) iters;
  do lcl <- lnp (c_crate c * c_cden c);
  do lw <- lnp (h_p h);
  Ok (map (fun rc => {| h_p := - c_crate c + INR m * lcl + lw - snd rc; h_ts := decode n tind (fst rc) |}) (combine rows costs)).
(** All hypotheses, 3618-3680, and the normalisation, 3682-3684. *)
Definition jcor_hyps (c : gcfg) (k n m : nat) (all_cost : nat -> nat -> R) (call : nat) (hs : list hyp) : result (list hyp) :=
  let ssum := rsum (map (fun h => sqrt (h_p h)) hs) in
  do ll <- mapM (fun ch => jcor_hyp c k n m all_cost ssum (fst ch) (snd ch)) (combine (seq call (length hs)) hs);
  normalise_log E (concat ll).
(** [correct].  The shapes (3603-3608): the two diagonal blocks are k x k and
    max(k, n) x max(k, n) (or empty), so numpy raises ValueError unless k = n or
    n = 1 and k is not 1.  With gating on, the error is only constructed
    (3571) and entries have no attribute gatemeas (3613). *)
Definition jcorrect (gating : bool) (c : gcfg) (t : R) (meas : list MS) (s : jst) : result jst :=
  let g := y_g s in
  let n := length (g_tab g) in
  let k := (length (c_births c) + y_old s)%nat in
  if negb ((k =? n)%nat || (n =? 1)%nat) then Err ValueErr else
  if gating && negb (n =? 0)%nat then Err AttributeErr else
  let '(tab, all_cost) := gen_cor_tab E c t meas (g_tab g) in
  do hs <- jcor_hyps c k n (length meas) all_cost (y_calls s) (g_hyps g);
  let '(tab', hs') := clean_updates tab (clean_predictions E hs) in
  Ok {| y_g := {| g_tab := tab'; g_hyps := hs'; g_card := calc_card hs; g_cnt := g_cnt g; g_meas := g_meas g ++ [meas]; g_ext := g_ext g;
                  g_states := g_states g; g_labels := g_labels g; g_covs := g_covs g |};
        y_old := length tab'; y_calls := (y_calls s + length (g_hyps g))%nat |}.

(** The public operations; cleanup and extract_states are inherited. *)
Definition jexec (gating : bool) (c : gcfg) (o : gop) (s : jst) : result jst :=
  match o with
  | OpPredict t => jpredict c t s
  | OpCorrect t meas => jcorrect gating c t meas s
  | OpCleanup a b e => do g <- cleanup E c a b e (y_g s); Ok (with_g s g)
  | OpExtract u k => do (_, g) <- extract_states c u k (y_g s); Ok (with_g s g)
  end.
Fixpoint jrun (gating : bool) (c : gcfg) (os : list gop) (s : jst) : result jst :=
  match os with [] => Ok s | o :: os' => do s' <- jexec gating c o s; jrun gating c os' s' end.
End Jglmb.
Arguments jst : clear implicits.
