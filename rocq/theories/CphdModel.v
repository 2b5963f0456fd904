(** Model of the cardinalised PHD filter, src/gasur/swarm_estimator/tracker.py:1296-1593
    (class CardinalizedPHD), over the real numbers.

    Simplifications: exact reals instead of floats.  A float that is nan or
    +infinity makes every later result nan, so such a value is reported as
    [Err NanErr] where it is produced; -infinity is kept (np.exp maps it to 0).
    Shape errors of arrays are reported as errors without naming the numpy
    exception.  The inner filter and get_elem_sym_fnc (gncpy) are parameters.
    Warnings and the debug counters are dropped; of _card_time_hist only the
    cardinality estimate is kept (the standard deviation is for plotting). *)
From Verif Require Import Base.
From Coq Require Import Reals.
From Verif Require Import OspaModel.
Open Scope R_scope.

(** Values of np.log and sums of such values: finite, -infinity, or nan/+infinity. *)
Inductive lg := LFin (x : R) | LNinf | LBad.
(** np.log(x): -inf at 0, nan below. *)
Definition llog (x : R) : lg :=
  if Rlt_dec 0 x then LFin (ln x) else if Req_EM_T x 0 then LNinf else LBad.
(** [k * x] for a natural number k; 0 * -inf is nan. *)
Definition lmul (k : nat) (x : lg) : lg :=
  match x with
  | LFin v => LFin (INR k * v)
  | LNinf => if (k =? 0)%nat then LBad else LNinf
  | LBad => LBad
  end.
(** [-k * x]; -k * -inf is +inf or (k = 0) nan. *)
Definition lmulneg (k : nat) (x : lg) : lg :=
  match x with LFin v => LFin (- INR k * v) | _ => LBad end.
Definition ladd (x y : lg) : lg :=
  match x, y with
  | LBad, _ => LBad
  | _, LBad => LBad
  | LFin a, LFin b => LFin (a + b)
  | _, _ => LNinf
  end.
Definition lexp (x : lg) : result R :=
  match x with LFin v => Ok (exp v) | LNinf => Ok 0 | LBad => Err NanErr end.
(** np.sum(np.log(range(1, n + 1))), tracker.py:1369 and 1494. *)
Definition lnfact (n : nat) : R := rsumn n (fun k => ln (INR (S k))).
(** Sum over an index list of terms that may be nan. *)
Definition sumM (l : list nat) (f : nat -> result R) : result R :=
  do ys <- mapM f l; Ok (rsum ys).
(** x / y for floats: 0/0 and x/0 are nan or infinite. *)
Definition rdiv (x y : R) : result R := if Req_EM_T y 0 then Err NanErr else Ok (x / y).
(** range(a, b). *)
Definition range (a b : nat) : list nat := seq a (b - a).

(** np.argmax (property cardinality, tracker.py:1337-1340): first index of the largest value. *)
Fixpoint argmaxR_from (i best : nat) (bv : R) (l : list R) : nat :=
  match l with
  | [] => best
  | x :: l' => if Rlt_dec bv x then argmaxR_from (S i) i x l' else argmaxR_from (S i) best bv l'
  end.
Definition argmaxR (l : list R) : result nat :=
  match l with [] => Err ValueErr | x :: l' => Ok (argmaxR_from 1 0 x l') end.

(** Python's round: nearest integer, ties to even. *)
Definition roundR (x : R) : Z :=
  let f := Int_part x in
  if Rlt_dec (x - IZR f) (1 / 2) then f
  else if Rlt_dec (1 / 2) (x - IZR f) then (f + 1)%Z
  else if Z.even f then f else (f + 1)%Z.

Section Cphd.
Context {V M Meas : Type}.
(** Gaussian mixture, utilities/distributions.py:16-38. *)
Record rmix := { rm_w : list R; rm_m : list V; rm_p : list M }.
Definition rm_app (a b : rmix) : rmix :=
  {| rm_w := rm_w a ++ rm_w b; rm_m := rm_m a ++ rm_m b; rm_p := rm_p a ++ rm_p b |}.

(** Attributes used by the class (constructors tracker.py:59-88, 575-587,
    1313-1325).  [k_fpred m P], [k_fcorr z m P] are the inner filter; [k_esf] is
    get_elem_sym_fnc; [k_gate] the gating of the base class. *)
Record ccfg := { k_fpred : V -> M -> V * M;
                 k_fcorr : Meas -> V -> M -> V * M * R;
                 k_ps : R; k_pd : R; k_birth : list rmix;
                 k_rate : R; k_den : R;
                 k_esf : list R -> list R;
                 k_gating : bool; k_gate : list Meas -> rmix -> result (list Meas);
                 k_save_covs : bool }.

(** The object: mixture, _card_dist, max_expected_card, _card_time_hist,
    _meas_tab, _states, _covs, agents_per_state. *)
Record cphd := { cp_mix : rmix; cp_card : list R; cp_max : nat; cp_hist : list nat;
                 cp_meas : list (list Meas); cp_states : list (list V); cp_covs : list (list M);
                 cp_agents : list Z }.

(** zeros(max + 1) with entry 0 set to 1, tracker.py:1319-1320 and 1333-1334. *)
Definition init_card (mx : nat) : list R := 1 :: repeat 0 mx.
(** [__init__], tracker.py:1313-1325. *)
Definition cphd_new (mx : nat) : cphd :=
  {| cp_mix := {| rm_w := []; rm_m := []; rm_p := [] |}; cp_card := init_card mx; cp_max := mx;
     cp_hist := []; cp_meas := []; cp_states := []; cp_covs := []; cp_agents := [] |}.

(** Properties of the base class: prob_death, prob_miss_detection. *)
Definition prob_death (c : ccfg) : R := 1 - k_ps c.
Definition prob_miss (c : ccfg) : R := 1 - k_pd c.

(** The mixture part of [predict]: ProbabilityHypothesisDensity.predict,
    tracker.py:651-711. *)
Definition pred_mix (c : ccfg) (g : rmix) : rmix :=
  let l := map (fun mp => k_fpred c (fst mp) (snd mp)) (combine (rm_m g) (rm_p g)) in
  fold_left rm_app (k_birth c)
    {| rm_w := map (fun x => k_ps c * x) (rm_w g); rm_m := map fst l; rm_p := map snd l |}.

(** The term for (j, i) of the survival loop, tracker.py:1367-1374.  The third
    summand is added, as in the code. *)
Definition surv_term (c : ccfg) (rho : list R) (j i : nat) : result R :=
  do e <- lexp (ladd (ladd (ladd (ladd (LFin (lnfact i)) (LFin (- lnfact j))) (LFin (lnfact (i - j))))
                           (lmul j (llog (k_ps c)))) (lmul (i - j) (llog (prob_death c))));
  Ok (e * nth i rho 0).
(** survive_cdn_predict, tracker.py:1364-1375: j runs over range(0, max), entry
    max stays 0. *)
Definition survive (c : ccfg) (mx : nat) (rho : list R) : result (list R) :=
  do l <- mapM (fun j => sumM (range j (mx + 1)) (surv_term c rho j)) (range 0 mx);
  Ok (l ++ [0]).
(** sum of birth_terms[b].weights[0], tracker.py:1382-1385. *)
Definition birth_sum (c : ccfg) : result R :=
  do l <- mapM (fun b => match rm_w b with [] => Err IndexErr | w :: _ => Ok w end) (k_birth c);
  Ok (rsum l).
(** The term for (n, j) of the birth loop, tracker.py:1380-1388. *)
Definition birth_term (c : ccfg) (sv : list R) (n j : nat) : result R :=
  do b <- birth_sum c;
  do e <- lexp (ladd (ladd (LFin b) (lmul (n - j) (llog b))) (LFin (- lnfact (n - j))));
  Ok (e * nth j sv 0).
Definition cdn_predict (c : ccfg) (mx : nat) (sv : list R) : result (list R) :=
  mapM (fun n => sumM (range 0 (n + 1)) (birth_term c sv n)) (range 0 (mx + 1)).
(** x / np.sum(x). *)
Definition normaliseR (l : list R) : result (list R) := mapM (fun x => rdiv x (rsum l)) l.
(** The cardinality part of [predict], tracker.py:1364-1390. *)
Definition pred_card (c : ccfg) (mx : nat) (rho : list R) : result (list R) :=
  do sv <- survive c mx rho;
  do cdn <- cdn_predict c mx sv;
  normaliseR cdn.
(** [predict], tracker.py:1342-1390. *)
Definition cp_predict (c : ccfg) (s : cphd) : result cphd :=
  do rho <- pred_card c (cp_max s) (cp_card s);
  Ok {| cp_mix := pred_mix c (cp_mix s); cp_card := rho; cp_max := cp_max s; cp_hist := cp_hist s;
        cp_meas := cp_meas s; cp_states := cp_states s; cp_covs := cp_covs s; cp_agents := cp_agents s |}.

(** One summand exp(t1+t2+t3+t4+t5) * esf of the upsilon functions,
    tracker.py:1492-1498 (u = 0), 1503-1512 and 1519-1530 (u = 1); [zl] is zlen
    or zlen - 1, [es] the elementary symmetric functions used. *)
Definition ups_term (c : ccfg) (tot : R) (u zl : nat) (es : list R) (nn jj : nat) : result R :=
  let t1 := ladd (LFin (- k_rate c)) (lmul (zl - jj) (llog (k_rate c))) in
  let t2 := LFin (lnfact nn) in
  let t3 := LFin (- lnfact (nn - (jj + u))) in
  let t4 := lmul (nn - (jj + u)) (llog (prob_death c)) in
  let t5 := lmulneg (jj + u) (llog tot) in
  do e <- lexp (ladd (ladd (ladd (ladd t1 t2) t3) t4) t5);
  Ok (e * nth jj es 0).
(** ups0_E[nn], tracker.py:1490-1499. *)
Definition ups0 (c : ccfg) (tot : R) (zlen : nat) (es : list R) (nn : nat) : result R :=
  sumM (range 0 (Nat.min zlen nn + 1)) (ups_term c tot 0 zlen es nn).
(** ups1_E[nn], tracker.py:1501-1513, and one column of ups1_D[nn], 1515-1531
    (called with zlen - 1). *)
Definition ups1 (c : ccfg) (tot : R) (zl : nat) (es : list R) (nn : nat) : result R :=
  sumM (range 0 (Nat.min zl nn + 1))
    (fun jj => if (jj + 1 <=? nn)%nat then ups_term c tot 1 zl es nn jj else Ok 0).

(** np.delete(xivals, j). *)
Definition delete_at {A} (j : nat) (l : list A) : list A := firstn j l ++ skipn (S j) l.
(** np.dot of two lists. *)
Definition dot (a b : list R) : R := rsum (map (fun p => fst p * snd p) (combine a b)).

(** The inner filter applied to every component for one measurement,
    tracker.py:1454-1464. *)
Definition corr_all (c : ccfg) (g : rmix) (z : Meas) : list (V * M * R) :=
  map (fun mp => k_fcorr c z (fst mp) (snd mp)) (combine (rm_m g) (rm_p g)).
Definition qz_of (l : list (V * M * R)) : list R := map snd l.

(** [_correct_prob_density], tracker.py:1435-1557.  [cov_temp] is indexed by the
    component only: it is overwritten for every measurement, the components of
    all measurements get the covariances of the last one.  Unequal list lengths
    are errors (IndexError or shape errors), an empty mixture is an IndexError
    (means[0]), clutter_den = 0 a ZeroDivisionError. *)
Definition correct_density (c : ccfg) (mx : nat) (rho : list R) (meas : list Meas) (g : rmix)
  : result (rmix * list R) :=
  if negb ((length (rm_m g) =? length (rm_w g)) && (length (rm_p g) =? length (rm_w g)) &&
           (length rho =? mx + 1))%nat then Err ValueErr
  else match rm_m g with
  | [] => Err IndexErr
  | _ =>
    let zlen := length meas in
    let w_pred := rm_w g in
    let tab := map (corr_all c g) meas in
    let cov_temp := map (fun x => snd (fst x)) (last tab []) in
    do pdc <- rdiv (k_pd c) (k_den c);
    let xivals := map (fun col => pdc * dot w_pred (qz_of col)) tab in
    let esE := k_esf c xivals in
    let esD := map (fun j => k_esf c (delete_at j xivals)) (range 0 zlen) in
    let tot := rsum w_pred in
    let nns := range 0 (mx + 1) in
    do u0 <- mapM (ups0 c tot zlen esE) nns;
    do u1 <- mapM (ups1 c tot zlen esE) nns;
    do uD <- mapM (fun es => mapM (ups1 c tot (zlen - 1) es) nns) esD;
    do r1 <- rdiv (dot u1 rho) (dot u0 rho);
    let missed := map (fun w => r1 * prob_miss c * w) w_pred in
    do rs <- mapM (fun col => rdiv (dot col rho) (dot u0 rho)) uD;
    let det := flat_map (fun rc => map (fun wq => fst rc * (k_pd c * snd wq / k_den c * fst wq))
                                      (combine w_pred (qz_of (snd rc)))) (combine rs tab) in
    let g' := {| rm_w := missed ++ det;
                 rm_m := rm_m g ++ flat_map (fun col => map (fun x => fst (fst x)) col) tab;
                 rm_p := rm_p g ++ flat_map (fun _ => cov_temp) tab |} in
    do rho' <- normaliseR (map (fun p => fst p * snd p) (combine u0 rho));
    Ok (g', rho')
  end.

(** [correct], tracker.py:1392-1433, with the append to _card_time_hist
    (1554-1555). *)
Definition cp_correct (c : ccfg) (meas_in : list Meas) (s : cphd) : result cphd :=
  do meas <- (if k_gating c then k_gate c meas_in (cp_mix s) else Ok meas_in);
  do (g, rho) <- correct_density c (cp_max s) (cp_card s) meas (cp_mix s);
  do h <- argmaxR rho;
  Ok {| cp_mix := g; cp_card := rho; cp_max := cp_max s; cp_hist := cp_hist s ++ [h];
        cp_meas := cp_meas s ++ [meas]; cp_states := cp_states s; cp_covs := cp_covs s;
        cp_agents := cp_agents s |}.

(** The while loop of [extract_states], tracker.py:1569-1587: returns the
    (component, number of agents) pairs in the order appended. *)
Fixpoint extract_loop (ws : list R) (card : nat) (order : list nat) (tot : Z) : list (nat * Z) :=
  match order with
  | [] => []
  | idx :: order' =>
      if (tot <? Z.of_nat card)%Z then
        let n := roundR (nth idx ws 0) in
        if (n <=? 0)%Z then [] else (idx, n) :: extract_loop ws card order' (tot + n)
      else []
  end.
(** [extract_states], tracker.py:1559-1593; [argsort] is np.argsort. *)
Definition cp_extract (c : ccfg) (argsort : list R -> list nat) (s : cphd) : result cphd :=
  do card <- argmaxR (cp_card s);
  let g := cp_mix s in
  let l := extract_loop (rm_w g) card (rev (argsort (rm_w g))) 0 in
  do st <- mapM (fun p => match nth_error (rm_m g) (fst p) with Some x => Ok x | None => Err IndexErr end) l;
  do cv <- (if k_save_covs c then
              mapM (fun p => match nth_error (rm_p g) (fst p) with Some x => Ok x | None => Err IndexErr end) l
            else Ok []);
  Ok {| cp_mix := g; cp_card := cp_card s; cp_max := cp_max s; cp_hist := cp_hist s; cp_meas := cp_meas s;
        cp_states := cp_states s ++ [st];
        cp_covs := if k_save_covs c then cp_covs s ++ [cv] else cp_covs s;
        cp_agents := map snd l |}.

(** max_expected_card setter, tracker.py:1331-1335. *)
Definition cp_set_max (x : nat) (s : cphd) : cphd :=
  {| cp_mix := cp_mix s; cp_card := init_card x; cp_max := x; cp_hist := cp_hist s; cp_meas := cp_meas s;
     cp_states := cp_states s; cp_covs := cp_covs s; cp_agents := cp_agents s |}.

(** Calls of public methods.  [CClean f]: the inherited prune, merge and cap
    steps of cleanup (PhdModel.v), any function on the mixture. *)
Inductive cop := CPredict | CCorrect (meas : list Meas) | CExtract | CSetMax (x : nat)
| CClean (f : rmix -> result rmix).
Definition cstep (c : ccfg) (argsort : list R -> list nat) (o : cop) (s : cphd) : result cphd :=
  match o with
  | CPredict => cp_predict c s
  | CCorrect meas => cp_correct c meas s
  | CExtract => cp_extract c argsort s
  | CSetMax x => Ok (cp_set_max x s)
  | CClean f =>
      do g <- f (cp_mix s);
      Ok {| cp_mix := g; cp_card := cp_card s; cp_max := cp_max s; cp_hist := cp_hist s; cp_meas := cp_meas s;
            cp_states := cp_states s; cp_covs := cp_covs s; cp_agents := cp_agents s |}
  end.
Fixpoint crun (c : ccfg) (argsort : list R -> list nat) (ops : list cop) (s : cphd) : result cphd :=
  match ops with [] => Ok s | o :: os => do s1 <- cstep c argsort o s; crun c argsort os s1 end.
End Cphd.
Arguments rmix : clear implicits.
Arguments ccfg : clear implicits.
Arguments cphd : clear implicits.
Arguments cop : clear implicits.
