(** Model of the Gaussian-mixture PHD filter
    (src/gasur/swarm_estimator/tracker.py:547-930) and of the measurement gating
    of its base class (tracker.py:221-272).

    Numbers are exact rationals.  A vector is a function [nat -> Q] and a matrix
    a function [nat -> nat -> Q]; shapes and shape errors are not modelled, the
    dimension is a parameter where sums over components are taken.  References
    and in-place changes of arrays are not modelled (no array is changed in place
    by this code).  The inner filter's [predict] and [correct] are arbitrary
    functions of measurement, mean and covariance. *)
From Verif Require Import Base.

Definition vec := nat -> Q.
Definition mat := nat -> nat -> Q.
Definition vadd (u v : vec) : vec := fun i => (u i + v i)%Q.
Definition vsub (u v : vec) : vec := fun i => (u i - v i)%Q.
Definition vscale (a : Q) (v : vec) : vec := fun i => (a * v i)%Q.
Definition vdiv (v : vec) (a : Q) : vec := fun i => (v i / a)%Q.
Definition madd (u v : mat) : mat := fun i j => (u i j + v i j)%Q.
Definition mscale (a : Q) (v : mat) : mat := fun i j => (a * v i j)%Q.
Definition mdiv (v : mat) (a : Q) : mat := fun i j => (v i j / a)%Q.
Definition mtrans (u : mat) : mat := fun i j => u j i.
Definition qsumn (n : nat) (f : nat -> Q) : Q := qsum (map f (seq 0 n)).
Definition mmul (n : nat) (u v : mat) : mat := fun i j => qsumn n (fun k => u i k * v k j)%Q.
Definition mvmul (n : nat) (u : mat) (v : vec) : vec := fun i => qsumn n (fun k => u i k * v k)%Q.
(** Python's [sum(list)] of arrays, starting at 0. *)
Definition vsum (l : list vec) : vec := fold_left vadd l (fun _ => 0%Q).
Definition msum (l : list mat) : mat := fold_left madd l (fun _ _ => 0%Q).

(** GaussianMixture, src/gasur/utilities/distributions.py:16-38: three parallel
    lists, nothing keeps their lengths equal. *)
Record gmix := { gm_w : list Q; gm_m : list vec; gm_p : list mat }.
Definition gm_empty : gmix := {| gm_w := []; gm_m := []; gm_p := [] |}.
(** [weights.extend; means.extend; covariances.extend], tracker.py:675-678 and
    760-765. *)
Definition gm_app (a b : gmix) : gmix :=
  {| gm_w := gm_w a ++ gm_w b; gm_m := gm_m a ++ gm_m b; gm_p := gm_p a ++ gm_p b |}.

Section Params.
Context {Meas : Type}.
(** The inner filter: [fpredict m P] is (predicted mean, predicted covariance);
    [fcorrect z m P] is (corrected mean, corrected covariance, likelihood). *)
Record filt := { fpredict : vec -> mat -> vec * mat;
                 fcorrect : Meas -> vec -> mat -> vec * mat * Q }.

(** Attributes set by the constructors, tracker.py:59-88 and 575-587.
    [c_kappa] is clutter_rate * clutter_den. *)
Record cfg := { c_filter : filt; c_pd : Q; c_ps : Q; c_birth : list gmix; c_kappa : Q;
                c_extract : Q; c_prune : Q; c_merge : Q; c_max : nat;
                c_gating : bool; c_save_covs : bool;
                c_dim : nat;                 (* dimension of the state *)
                c_inv : mat -> result mat;   (* la.inv, may raise LinAlgError *)
                c_gate : list Meas -> gmix -> result (list Meas) (* _gate_meas *) }.

(** [_predict_prob_density], tracker.py:680-711. *)
Definition predict_density (c : cfg) (g : gmix) : gmix :=
  let l := map (fun mp => fpredict (c_filter c) (fst mp) (snd mp)) (combine (gm_m g) (gm_p g)) in
  {| gm_w := map (fun x => c_ps c * x)%Q (gm_w g); gm_m := map fst l; gm_p := map snd l |}.
(** [predict], tracker.py:651-678. *)
Definition predict (c : cfg) (g : gmix) : gmix :=
  fold_left gm_app (c_birth c) (predict_density c g).

(** The inner loop of [_correct_prob_density], tracker.py:791-800, over the
    indices of the means: [covariances[jj]] and [det_weights[jj]] raise
    IndexError when those lists are shorter. *)
Fixpoint correct_one (c : cfg) (z : Meas) (w : list Q) (m : list vec) (p : list mat) {struct m}
  : result (list (vec * mat * Q)) :=
  match m with
  | [] => Ok []
  | m0 :: m' =>
      match p, w with
      | p0 :: p', w0 :: w' =>
          let '(m1, p1, qz) := fcorrect (c_filter c) z m0 p0 in
          do r <- correct_one c z w' m' p';
          Ok ((m1, p1, (qz * (c_pd c * w0))%Q) :: r)
      | _, _ => Err IndexErr
      end
  end.
(** tracker.py:801-802; a zero denominator gives nan or ZeroDivisionError. *)
Definition normalise (kappa : Q) (w_lst : list Q) : result (list Q) :=
  let den := (kappa + qsum w_lst)%Q in
  match w_lst with
  | [] => Ok []
  | _ => if Qeq_bool den 0 then Err NanErr else Ok (map (fun x => x / den)%Q w_lst)
  end.
(** [_correct_prob_density], tracker.py:767-804. *)
Fixpoint correct_density (c : cfg) (meas : list Meas) (g : gmix) : result gmix :=
  match meas with
  | [] => Ok gm_empty
  | z :: zs =>
      do l <- correct_one c z (gm_w g) (gm_m g) (gm_p g);
      do ws <- normalise (c_kappa c) (map snd l);
      do r <- correct_density c zs g;
      Ok (gm_app {| gm_w := ws; gm_m := map (fun x => fst (fst x)) l;
                    gm_p := map (fun x => snd (fst x)) l |} r)
  end.
(** [correct], tracker.py:713-765: detections first, then missed detections.
    Returns the (gated) measurements appended to _meas_tab and the mixture. *)
Definition correct (c : cfg) (meas_in : list Meas) (g : gmix) : result (list Meas * gmix) :=
  do meas <- (if c_gating c then c_gate c meas_in g else Ok meas_in);
  let missed := {| gm_w := map (fun x => (1 - c_pd c) * x)%Q (gm_w g); gm_m := gm_m g; gm_p := gm_p g |} in
  do gm <- correct_density c meas g;
  Ok (meas, gm_app gm missed).

(** [del l[index] for index in sorted(idx, reverse=True)]: what is left are the
    positions not in [idx].  IndexError when a position does not exist. *)
Definition keep_idx {A} (drop : nat -> bool) (l : list A) : list A :=
  map snd (filter (fun p => negb (drop (fst p))) (combine (seq 0 (length l)) l)).
Definition del_idx {A} (idx : list nat) (l : list A) : result (list A) :=
  if forallb (fun i => i <? length l) idx then Ok (keep_idx (fun i => existsb (Nat.eqb i) idx) l)
  else Err IndexErr.

(** [_prune], tracker.py:806-818. *)
Definition prune (c : cfg) (g : gmix) : result gmix :=
  let idx := filter (fun i => Qltb (nth i (gm_w g) 0%Q) (c_prune c)) (seq 0 (length (gm_w g))) in
  do m <- del_idx idx (gm_m g);
  do w <- del_idx idx (gm_w g);
  do p <- del_idx idx (gm_p g);
  Ok {| gm_w := w; gm_m := m; gm_p := p |}.

(** np.argmax: the first index of the largest weight. *)
Fixpoint argmax_from (i best : nat) (bv : Q) (l : list Q) : nat :=
  match l with
  | [] => best
  | x :: l' => if Qltb bv x then argmax_from (S i) i x l' else argmax_from (S i) best bv l'
  end.
Definition argmax (l : list Q) : result nat :=
  match l with [] => Err ValueErr | x :: l' => Ok (argmax_from 1 0 x l') end.

(** [diff.T @ inv_cov @ diff], tracker.py:832-833. *)
Definition quad (n : nat) (a : mat) (d : vec) : Q :=
  qsumn n (fun i => d i * mvmul n a d i)%Q.
Fixpoint set_all (idx : list nat) (v : Q) (l : list Q) : list Q :=
  match idx with
  | [] => l
  | i :: idx' => set_all idx' v (firstn i l ++ match skipn i l with [] => [] | _ :: t => v :: t end)
  end.
(** One turn of the while loop of [_merge], tracker.py:827-850: the merged
    component, the indices left and the weights with the merged ones set to -1.
    A zero weight gives nan. *)
Definition merge_turn (c : cfg) (g : gmix) (inds : list nat) (ws : list Q)
  : result ((Q * vec * mat) * list nat * list Q) :=
  do jj <- argmax ws;
  match nth_error (gm_p g) jj, nth_error (gm_m g) jj with
  | Some pj, Some mj =>
      do ic <- c_inv c pj;
      let comp := filter (fun ii => Qle_bool (quad (c_dim c) ic (vsub (nth ii (gm_m g) (fun _ => 0%Q)) mj))
                                             (c_merge c)) inds in
      let wt ii := nth ii ws 0%Q in
      let w_new := qsum (map wt comp) in
      if Qeq_bool w_new 0 then Err NanErr else
      let m_new := vdiv (vsum (map (fun ii => vscale (wt ii) (nth ii (gm_m g) (fun _ => 0%Q))) comp)) w_new in
      let p_new := mdiv (msum (map (fun ii => mscale (wt ii) (nth ii (gm_p g) (fun _ _ => 0%Q))) comp)) w_new in
      Ok ((w_new, m_new, p_new),
          filter (fun i => negb (existsb (Nat.eqb i) comp)) inds,
          set_all comp (- 1)%Q ws)
  | _, _ => Err IndexErr
  end.
Fixpoint merge_loop (c : cfg) (g : gmix) (fuel : nat) (inds : list nat) (ws : list Q)
  : result (list (Q * vec * mat)) :=
  match inds with
  | [] => Ok []
  | _ => match fuel with
         | 0 => Err OutOfFuel
         | S f => do (new, inds', ws') <- merge_turn c g inds ws;
                  do r <- merge_loop c g f inds' ws';
                  Ok (new :: r)
         end
  end.
(** [_merge], tracker.py:820-854. *)
Definition merge_fuel (c : cfg) (fuel : nat) (g : gmix) : result gmix :=
  do l <- merge_loop c g fuel (seq 0 (length (gm_m g))) (gm_w g);
  Ok {| gm_w := map (fun x => fst (fst x)) l; gm_m := map (fun x => snd (fst x)) l; gm_p := map snd l |}.
Definition merge (c : cfg) (g : gmix) : result gmix := merge_fuel c (length (gm_m g)) g.

(** [_cap], tracker.py:856-870; [idx] is the result of np.argsort.
    [idx[0:-max_gauss]] is everything but the last max_gauss entries, except
    that it is empty when max_gauss is 0. *)
Definition cap (c : cfg) (idx : list nat) (g : gmix) : result gmix :=
  if c_max c <? length (gm_w g) then
    let w := qsum (gm_w g) in
    let drop := if c_max c =? 0 then [] else firstn (length idx - c_max c) idx in
    do m <- del_idx drop (gm_m g);
    do w1 <- del_idx drop (gm_w g);
    do p <- del_idx drop (gm_p g);
    if Qeq_bool (qsum w1) 0 then Err NanErr
    else Ok {| gm_w := map (fun x => x * (w / qsum w1))%Q w1; gm_m := m; gm_p := p |}
  else Ok g.

(** Python's round: nearest integer, ties to even. *)
Definition py_round (q : Q) : Z :=
  let f := (Qnum q / Zpos (Qden q))%Z in
  match Qcompare (q - inject_Z f) (1 # 2)%Q with
  | Lt => f
  | Gt => f + 1
  | Eq => if Z.even f then f else f + 1
  end%Z.
(** [extract_states], tracker.py:872-890: the entries appended to _states and
    (when save_covs) to _covs.  [[x] * n] is empty for n <= 0. *)
Definition extract (c : cfg) (g : gmix) : result (list vec * list mat) :=
  let inds := filter (fun i => Qle_bool (c_extract c) (nth i (gm_w g) 0%Q)) (seq 0 (length (gm_w g))) in
  let reps i := Z.to_nat (py_round (nth i (gm_w g) 0%Q)) in
  if forallb (fun i => i <? length (gm_m g)) inds &&
     (negb (c_save_covs c) || forallb (fun i => i <? length (gm_p g)) inds) then
    Ok (flat_map (fun i => repeat (nth i (gm_m g) (fun _ => 0%Q)) (reps i)) inds,
        if c_save_covs c then flat_map (fun i => repeat (nth i (gm_p g) (fun _ _ => 0%Q)) (reps i)) inds else [])
  else Err IndexErr.

(** The filter object: mixture, _states, _covs, _meas_tab. *)
Record phd := { ph_mix : gmix; ph_states : list (list vec); ph_covs : list (list mat);
                ph_meas : list (list Meas) }.
Definition phd_init : phd := {| ph_mix := gm_empty; ph_states := []; ph_covs := []; ph_meas := [] |}.

(** Calls of the public methods.  [argsort] is np.argsort. *)
Inductive op := Predict | Correct (meas : list Meas) | Extract
| Cleanup (do_prune do_cap do_merge do_extract : bool).
Definition with_mix (s : phd) (g : gmix) : phd :=
  {| ph_mix := g; ph_states := ph_states s; ph_covs := ph_covs s; ph_meas := ph_meas s |}.
Definition do_extract (c : cfg) (s : phd) : result phd :=
  do (sl, cl) <- extract c (ph_mix s);
  Ok {| ph_mix := ph_mix s; ph_states := ph_states s ++ [sl];
        ph_covs := if c_save_covs c then ph_covs s ++ [cl] else ph_covs s; ph_meas := ph_meas s |}.
(** [cleanup], tracker.py:892-929: prune, merge, cap, extract in that order. *)
Definition cleanup (c : cfg) (argsort : list Q -> list nat) (pr ca me ex : bool) (s : phd) : result phd :=
  do g1 <- (if pr then prune c (ph_mix s) else Ok (ph_mix s));
  do g2 <- (if me then merge c g1 else Ok g1);
  do g3 <- (if ca then cap c (argsort (gm_w g2)) g2 else Ok g2);
  let s1 := with_mix s g3 in
  if ex then do_extract c s1 else Ok s1.
Definition step (c : cfg) (argsort : list Q -> list nat) (o : op) (s : phd) : result phd :=
  match o with
  | Predict => Ok (with_mix s (predict c (ph_mix s)))
  | Correct meas =>
      do (ms, g) <- correct c meas (ph_mix s);
      Ok {| ph_mix := g; ph_states := ph_states s; ph_covs := ph_covs s; ph_meas := ph_meas s ++ [ms] |}
  | Extract => do_extract c s
  | Cleanup pr ca me ex => cleanup c argsort pr ca me ex s
  end.
Fixpoint run (c : cfg) (argsort : list Q -> list nat) (ops : list op) (s : phd) : result phd :=
  match ops with [] => Ok s | o :: os => do s1 <- step c argsort o s; run c argsort os s1 end.
End Params.
Arguments cfg : clear implicits.
Arguments filt : clear implicits.
Arguments phd : clear implicits.
Arguments op : clear implicits.

(** [_gate_meas], tracker.py:221-272.  [H], [est] are the inner filter's
    get_meas_mat and get_est_meas, [R] its meas_noise; [n] is the state, [d] the
    measurement dimension; [chol], [inv] are la.cholesky and la.inv. *)
Section Gate.
Context (n d : nat) (H : vec -> mat) (est : vec -> vec) (R : mat)
        (chol inv : mat -> mat) (gate : Q).
(** meas_pred_cov, tracker.py:258-259. *)
Definition meas_pred_cov (m : vec) (p : mat) : mat :=
  let s := madd (mmul n (mmul n (H m) p) (mtrans (H m))) R in
  fun i j => ((s i j + s j i) / 2)%Q.
(** dist, tracker.py:260-267. *)
Definition gate_dist (m : vec) (p : mat) (z : vec) : Q :=
  let v_s := chol (mtrans (meas_pred_cov m p)) in
  let u := mvmul d (mtrans (inv v_s)) (vsub z (est m)) in
  qsumn d (fun i => u i * u i)%Q.
(** The inner loop, tracker.py:263-269, over (index, measurement). *)
Definition gate_comp (mp : vec * mat) (meas : list vec) (valid : list nat) : list nat :=
  fold_left (fun valid iz =>
      if existsb (Nat.eqb (fst iz)) valid then valid
      else if Qltb (gate_dist (fst mp) (snd mp) (snd iz)) gate then valid ++ [fst iz] else valid)
    (combine (seq 0 (length meas)) meas) valid.
(** [valid.sort()] by insertion, tracker.py:271. *)
Fixpoint insert_nat (x : nat) (l : list nat) : list nat :=
  match l with [] => [x] | y :: l' => if x <=? y then x :: y :: l' else y :: insert_nat x l' end.
Definition gate_meas (meas : list vec) (g : gmix) : list vec :=
  match meas with
  | [] => []
  | _ => let valid := fold_left (fun valid mp => gate_comp mp meas valid)
                        (combine (gm_m g) (gm_p g)) [] in
         map (fun i => nth i meas (fun _ => 0%Q)) (fold_right insert_nat [] valid)
  end.
End Gate.

(** Construction.  The attribute [inv_chi2_gate] is assigned twice:
    ProbabilityHypothesisDensity.__init__ takes its argument (default 0) and
    assigns it (tracker.py:575-579), then calls the base constructor with the remaining keyword arguments
    (line 587); [kwargs] cannot contain inv_chi2_gate (it was bound to the
    parameter), so RandomFiniteSetBase.__init__ assigns its own default 0
    (tracker.py:59-61 and 74).  Attributes are kept as an association list, the
    latest assignment first. *)
Definition attrs := list (nat * Q).
Definition attr_gate := 0.
Definition setattr (k : nat) (v : Q) (a : attrs) : attrs := (k, v) :: a.
Fixpoint getattr (k : nat) (a : attrs) : option Q :=
  match a with [] => None | (k', v) :: a' => if k =? k' then Some v else getattr k a' end.
Definition base_init (inv_chi2_gate : option Q) (a : attrs) : attrs :=
  setattr attr_gate (match inv_chi2_gate with Some v => v | None => 0%Q end) a.
Definition phd_new (inv_chi2_gate : option Q) : attrs :=
  let a := setattr attr_gate (match inv_chi2_gate with Some v => v | None => 0%Q end) [] in
  base_init None a.
