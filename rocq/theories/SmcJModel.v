(** Model of the SMC joint GLMB filter (SMCJointGeneralizedLabeledMultiBernoulli,
    src/gasur/swarm_estimator/tracker.py:3702-3708): predict and correct are those of
    the joint filter (JglmbModel) calling the overridden _init_filt_states,
    _inner_predict and _inner_correct of _SMCGLMBBase (SmcModel).  Simplifications:
    those of the two models; the inner filter is called measurement by measurement
    (SmcModel) where the joint filter goes track by track (3530-3541), which matters
    only for which of several errors is raised. *)
From Verif Require Import Base.
From Coq Require Import Reals.
From Verif Require Import OspaModel CphdModel GlmbModel SmcModel JglmbModel.
Open Scope R_scope.

Section M.
Context {P X ST CV MS : Type}.
Notation pfs := (pfs P X).
Notation gcfg := (gcfg ST CV).
Notation birth := (pfs * ST * CV * R)%type.
Notation senv := (senv P X ST CV MS).
Notation jst := (jst pfs ST CV MS).
Variable G : nat -> nat -> nat -> (nat -> nat -> R) -> nat -> result (list (list nat) * list R).

(** The attributes as the weight computation of the joint filter sees them: of the
    birth terms it uses the number and the probabilities only (3580-3587, 3624). *)
Definition sjcfg (c : gcfg) (bs : list birth) : gcfg :=
  {| c_births := map (fun b => ({| b_m := []; b_c := []; b_w := [] |}, bprob b)) bs; c_ps := c_ps c; c_pd := c_pd c; c_crate := c_crate c; c_cden := c_cden c;
     c_reqb := c_reqb c; c_reqs := c_reqs c; c_requ := c_requ c; c_prune := c_prune c; c_maxh := c_maxh c; c_savecov := c_savecov c; c_savemeas := c_savemeas c |}.
(** predict, 3313-3331 and 3483-3511; a birth probability of 1 raises
    ZeroDivisionError (2046, here ValueErr). *)
Definition sjpredict (Z : senv) (psf : list P -> list R) (c : gcfg) (bs : list birth) (t : R) (s : jst) : result jst :=
  do _ <- mapM (fun b : birth => if Req_EM_T (bprob b) 1 then Err ValueErr else Ok tt) bs;
  do stab <- mapM (spred_entry Z psf c t) (g_tab (y_g s));
  Ok (with_g s (set_tab (y_g s) (sbirth_tab Z c bs t (g_cnt (y_g s)) ++ stab))).
(** correct, 3376-3394 and 3543-3691: the particle filter corrects every track
    with every measurement; the weights of the hypotheses use the attributes
    prob_survive and prob_detection (3580-3592) and the costs of these corrections. *)
Definition sjcorrect (Z : senv) (gating : bool) (pdf : list P -> list R) (c : gcfg) (bs : list birth) (t : R) (meas : list MS) (s : jst) : result jst :=
  let g := y_g s in
  let n := length (g_tab g) in
  let k := (length bs + y_old s)%nat in
  do rows <- scor_rows Z pdf c t meas (g_tab g);
  if negb ((k =? n)%nat || (n =? 1)%nat) then Err ValueErr else
  if gating && negb (n =? 0)%nat then Err AttributeErr else
  do hs <- jcor_hyps (z_g Z) G (sjcfg c bs) k n (length meas) (scor_cost rows) (y_calls s) (g_hyps g);
  let '(tab', hs') := clean_updates (scor_tab rows (g_tab g)) (clean_predictions (z_g Z) hs) in
  Ok {| y_g := {| g_tab := tab'; g_hyps := hs'; g_card := calc_card hs; g_cnt := g_cnt g; g_meas := g_meas g ++ [meas]; g_ext := g_ext g;
                  g_states := g_states g; g_labels := g_labels g; g_covs := g_covs g |};
        y_old := length tab'; y_calls := (y_calls s + length (g_hyps g))%nat |}.
(** The public operations; cleanup and extract_states are inherited. *)
Definition sjexec (Z : senv) (gating : bool) (c : gcfg) (bs : list birth) (o : sop P MS) (s : jst) : result jst :=
  match o with
  | SPredict psf t => sjpredict Z psf c bs t s
  | SCorrect pdf t meas => sjcorrect Z gating pdf c bs t meas s
  | SCleanup a b e => do g <- cleanup (z_g Z) c a b e (y_g s); Ok (with_g s g)
  | SExtract u k => do (_, g) <- extract_states c u k (y_g s); Ok (with_g s g)
  end.
(** A history: calls one after the other, each with the attribute values, birth
    terms and particle filter of that moment. *)
Definition sjcall : Type := senv * gcfg * list birth * sop P MS.
Fixpoint sjrun (gating : bool) (vs : list sjcall) (s : jst) : result jst :=
  match vs with
  | [] => Ok s
  | (Z, c, bs, o) :: vs' => do s' <- sjexec Z gating c bs o s; sjrun gating vs' s'
  end.
End M.
Arguments sjcall : clear implicits.
