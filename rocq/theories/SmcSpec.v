(** Specification vocabulary for the SMC-GLMB filter. *)
From Verif Require Import Base.
From Coq Require Import Reals Permutation.
From Verif Require Import OspaModel CphdModel CphdSpec GlmbModel GlmbSpec SmcModel.
Open Scope R_scope.

Section Spec.
Context {P X ST CV MS : Type}.
Notation pfs := (pfs P X).
Notation entry := (entry pfs ST CV).
Notation sop := (sop P MS).
Notation birth := (pfs * ST * CV * R)%type.
Notation senv := (senv P X ST CV MS).
(** The times passed to predict, in order. *)
Definition spredict_times (os : list sop) : list R := flat_map (fun o => match o with SPredict _ t => [t] | _ => [] end) os.
(** Predict, correct and cleanup in turn, extraction at any point (phases as in
    [protocol]). *)
Fixpoint sprotocol (phase : nat) (os : list sop) : option nat :=
  match os, phase with
  | [], _ => Some phase
  | SExtract _ _ :: os', _ => sprotocol phase os'
  | SPredict _ _ :: os', 0%nat => sprotocol 1 os'
  | SCorrect _ _ _ :: os', 1%nat => sprotocol 2 os'
  | SCleanup _ _ _ :: os', 2%nat => sprotocol 0 os'
  | _, _ => None
  end.
(** The particle filter never raises one of the caught exceptions. *)
Definition snever_fails (Z : senv) (os : list sop) : Prop :=
  forall pdf t meas, In (SCorrect pdf t meas) os -> forall z s, In z meas -> z_corr Z t z s <> None.
(** Weights of a particle cloud: one per particle, not negative, sum 1. *)
Definition normalised (s : pfs) : Prop :=
  length (p_w s) = length (p_parts s) /\ (forall w, In w (p_w s) -> 0 <= w) /\ rsum (p_w s) = 1.
(** The particle filter returns non-empty clouds with one non-negative weight
    per particle when given such a cloud. *)
Definition counted (s : pfs) : Prop := p_parts s <> [] /\ length (p_w s) = length (p_parts s) /\ forall w, In w (p_w s) -> 0 <= w.
Definition pf_ok (Z : senv) : Prop :=
  (forall t s, counted s -> counted (fst (z_pred Z t s))) /\
  (forall t z s s1 x1 l, counted s -> z_corr Z t z s = Some (s1, x1, l) -> counted s1).
(** A probability function that gives non-negative values. *)
Definition nonneg (f : list P -> list R) : Prop := forall l p, In p (f l) -> 0 <= p.
Definition nonneg_ops (os : list sop) : Prop := forall o, In o os -> match o with SPredict f _ | SCorrect f _ _ => nonneg f | _ => True end.
(** The constant probability function. *)
Definition constf (p : R) (l : list P) : list R := map (fun _ => p) l.

(** Weighted average over the particles of a track. *)
Definition cloud_avg (f : list P -> list R) (e : entry) : R :=
  match e_fs e with [] => 0 | s :: _ => rsum (map (fun x => fst x * snd x) (combine (p_w s) (f (p_parts s)))) end.
(** What the code takes as likelihood of measurement [z] for a track: over the
    corrected cloud, likelihood times (detection probability times weight plus
    epsilon), plus epsilon. *)
Definition cloud_lik (Z : senv) (pdf : list P -> list R) (t : R) (z : MS) (e : entry) : R :=
  match e_fs e with
  | [] => 0
  | s :: _ => match p_parts s with
      | [] => feps
      | _ => match z_corr Z t z s with
             | Some (s1, _, likely) => rsum (map (fun x => fst x * snd x) (combine likely (map (fun pq => fst pq * snd pq + feps) (combine (pdf (p_parts s1)) (p_w s1))))) + feps
             | None => 0
             end
      end
  end.
(** Probability that exactly the indices [B] are chosen, independently. *)
Definition choice_weight (ps : list R) (B : list nat) : R :=
  rprod (map (fun i => let p := nth i ps 0 in if existsb (Nat.eqb i) B then p else 1 - p) (seq 0 (length ps))).
(** The sets of births and of survivors considered. *)
Definition log_odds (p : R) : R := - ln (p / (1 - p)).
Definition sbirth_choices (Z : senv) (c : gcfg ST CV) (bs : list birth) : list (list nat) :=
  match v_kshort (z_g Z) (map (fun b => log_odds (bprob b)) bs) (c_reqb c) with Ok (ps, _) => ps | Err _ => [] end.
Definition ssurv_choices (Z : senv) (c : gcfg ST CV) (psf : list P -> list R) (tab : list entry) (hs : list hyp) (h : hyp) : list (list nat) :=
  match h_ts h with
  | [] => [[]]
  | _ => match v_kshort (z_g Z) (map (fun e => log_odds (cloud_avg psf e)) (tracks tab h)) (share_of (c_reqs c) hs h) with Ok (ps, _) => ps | Err _ => [] end
  end.
(** Total weight of the predicted combinations whose track set satisfies [f]. *)
Definition spredicted_total (Z : senv) (d : R) (c : gcfg ST CV) (bs : list birth) (psf : list P -> list R) (tab : list entry) (hs : list hyp) (f : list nat -> bool) : R :=
  rsum (map (fun B => rsum (map (fun h => rsum (map (fun S =>
      if f (B ++ map (fun x => (x + length bs)%nat) (spicks h S))
      then choice_weight (map bprob bs) B * (bias d h * (h_p h * choice_weight (map (cloud_avg psf) (tracks tab h)) S)) else 0)
    (ssurv_choices Z c psf tab hs h))) hs)) (sbirth_choices Z c bs)).
(** Weight of an association (relative to all clutter): a missed track, a track
    detected by measurement [j]. *)
Definition sassoc_weight (Z : senv) (pdf : list P -> list R) (c : gcfg ST CV) (t : R) (meas : list MS) (es : list entry) (row : list nat) : R :=
  rprod (map (fun ea => match snd ea with
                        | O => 1 - cloud_avg pdf (fst ea)
                        | S j => match nth_error meas j with
                                 | Some z => cloud_avg pdf (fst ea) * cloud_lik Z pdf t z (fst ea) / (c_crate c * c_cden c)
                                 | None => 0 end
                        end) (combine es row)).
(** The associations considered. *)
Definition sconsidered (Z : senv) (pdf : list P -> list R) (c : gcfg ST CV) (t : R) (meas : list MS) (hs : list hyp) (h : hyp) (es : list entry) (rows : list (list nat)) : Prop :=
  match es, meas with
  | [], _ => rows = [[]]
  | _, [] => rows = [repeat 0%nat (length es)]
  | _, _ => exists M costs, v_murty (z_g Z) (length es) (length meas) M (share_of (c_requ c) hs h) = Ok (rows, costs) /\
      forall r j e z, nth_error es r = Some e -> nth_error meas j = Some z ->
        M r j = - ln (cloud_avg pdf e * cloud_lik Z pdf t z e / (c_crate c * c_cden c) / (1 - cloud_avg pdf e))
  end.
(** Successor of a track with the one cloud [s] and state [x]: missed, or
    corrected with measurement [j]. *)
Definition ssuccessor (Z : senv) (pdf : list P -> list R) (c : gcfg ST CV) (t : R) (meas : list MS) (e : entry) (a : nat) (e' : entry) : Prop :=
  e_label e' = e_label e /\ e_time e' = e_time e /\
  match a with
  | O => e_assoc e' = e_assoc e ++ [None] /\ e_w e' = e_w e /\ e_fs e' = e_fs e /\ e_st e' = e_st e /\ e_cov e' = e_cov e
  | S j => e_assoc e' = e_assoc e ++ [Some j] /\ e_w e' = removelast (e_w e) ++ [[1]] /\
      exists z s x s' x', nth_error meas j = Some z /\ e_fs e = [s] /\ last (e_st e) [] = [x] /\ e_fs e' = [s'] /\
        e_st e' = removelast (e_st e) ++ [[x']] /\ e_cov e' = removelast (e_cov e) ++ [[if c_savecov c then Some (z_cov Z s') else None]] /\
        match p_parts s with
        | [] => s' = s /\ x' = x
        | _ => exists s1 likely, z_corr Z t z s = Some (s1, x', likely) /\ p_parts s' = p_parts s1 /\ p_rest s' = p_rest s1 /\
                 let u := map (fun pq => fst pq * snd pq + feps) (combine (pdf (p_parts s1)) (p_w s1)) in p_w s' = map (fun w => w / rsum u) u
        end
  end.
(** One cloud per track. *)
Definition one_cloud (e : entry) : Prop := e_w e <> [] /\ (exists s, e_fs e = [s]) /\ (exists x, last (e_st e) [] = [x]) /\ forall w, In w (e_w e) -> w = [1].
(** A probability function with one value strictly between 0 and 1 per particle. *)
Definition prob_fun (f : list P -> list R) : Prop := forall l, length (f l) = length l /\ forall p, In p (f l) -> 0 < p < 1.
(** The particle filter works: from a cloud of positive total weight it makes such
    a cloud; correct may fail, otherwise it returns one likelihood, not negative,
    per particle. *)
Definition live (s : pfs) : Prop := counted s /\ 0 < rsum (p_w s).
Definition pf_works (Z : senv) : Prop :=
  (forall t s, live s -> live (fst (z_pred Z t s))) /\
  (forall t z s, live s -> match z_corr Z t z s with
      | Some (s1, _, l) => counted s1 /\ length l = length (p_parts s1) /\ forall q, In q l -> 0 <= q
      | None => True end).
(** Birth terms: clouds with weights of sum 1, probabilities inside the unit interval. *)
Definition sbirths_ok (bs : list birth) : Prop := forall s m cv p, In (s, m, cv, p) bs -> counted s /\ rsum (p_w s) = 1 /\ 0 < p < 1.
(** One scan: predict, correct, cleanup. *)
Definition scycle (x : (list P -> list R) * (list P -> list R) * R * list MS * (bool * bool * bool)) : list sop :=
  let '(psf, pdf, t, meas, (pr, ca, ex)) := x in [SPredict psf t; SCorrect pdf t meas; SCleanup pr ca ex].
End Spec.
