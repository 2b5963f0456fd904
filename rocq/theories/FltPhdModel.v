(** The weights of the Gaussian mixture PHD filter
    (src/gasur/swarm_estimator/tracker.py:651-870) in IEEE double precision:
    every operation on weights is rounded (rnd64).  Same structure as
    RPhdModel.v, whose records are reused; the inner filter and la.inv are
    external and the same in both models.  [psum] is Python's sum of a list of
    floats (left to right up to Python 3.11, compensated from 3.12 on).
    Not modelled: overflow (the theorems bound the numbers). *)
From Coq Require Import Reals.
From Verif Require Import Base RBase RPhdModel FltIeee FltGibbs FltOspaModel.
Local Open Scope R_scope.

Section Phd64.
Context {Meas : Type} (psum : list R -> R).
(** clutter_rate and clutter_den. *)
Context (rate den : R).

(** [_predict_prob_density], tracker.py:700-709. *)
Definition predict_density64 (c : cfg Meas) (g : gmix) : gmix :=
  let l := map (fun mp => fpredict (c_filter c) (fst mp) (snd mp)) (combine (gm_m g) (gm_p g)) in
  {| gm_w := map (fun x => mul64 (c_ps c) x) (gm_w g); gm_m := map fst l; gm_p := map snd l |}.
(** [predict], tracker.py:651-678. *)
Definition predict64 (c : cfg Meas) (g : gmix) : gmix :=
  fold_left gm_app (c_birth c) (predict_density64 c g).

(** The inner loop of [_correct_prob_density], tracker.py:788-800; det_weights
    are rounded products, then [w = qz * det_weights[jj]]. *)
Fixpoint correct_one64 (c : cfg Meas) (z : Meas) (w : list R) (m : list vec) (p : list mat) {struct m}
  : result (list (vec * mat * R)) :=
  match m with
  | [] => Ok []
  | m0 :: m' =>
      match p, w with
      | p0 :: p', w0 :: w' =>
          let '(m1, p1, qz) := fcorrect (c_filter c) z m0 p0 in
          do r <- correct_one64 c z w' m' p';
          Ok ((m1, p1, mul64 qz (mul64 (c_pd c) w0)) :: r)
      | _, _ => Err IndexErr
      end
  end.
(** tracker.py:801-802. *)
Definition normalise64 (w_lst : list R) : result (list R) :=
  let d := add64 (mul64 rate den) (psum w_lst) in
  match w_lst with
  | [] => Ok []
  | _ => if Reqb d 0 then Err NanErr else Ok (map (fun x => div64 x d) w_lst)
  end.
(** [_correct_prob_density], tracker.py:767-804. *)
Fixpoint correct_density64 (c : cfg Meas) (meas : list Meas) (g : gmix) : result gmix :=
  match meas with
  | [] => Ok gm_empty
  | z :: zs =>
      do l <- correct_one64 c z (gm_w g) (gm_m g) (gm_p g);
      do ws <- normalise64 (map snd l);
      do r <- correct_density64 c zs g;
      Ok (gm_app {| gm_w := ws; gm_m := map (fun x => fst (fst x)) l;
                    gm_p := map (fun x => snd (fst x)) l |} r)
  end.
(** [correct], tracker.py:713-765; prob_miss_detection is 1 - prob_detection
    (tracker.py:171-174). *)
Definition correct64 (c : cfg Meas) (meas_in : list Meas) (g : gmix) : result (list Meas * gmix) :=
  do meas <- (if c_gating c then c_gate c meas_in g else Ok meas_in);
  let missed := {| gm_w := map (fun x => mul64 (sub64 1 (c_pd c)) x) (gm_w g); gm_m := gm_m g; gm_p := gm_p g |} in
  do gm <- correct_density64 c meas g;
  Ok (meas, gm_app gm missed).

(** One turn of the while loop of [_merge], tracker.py:827-850.  [minv] is la.inv,
    [within mi mj ic] the outcome of the comparison of line 834 (computed by
    numpy's matrix products).  Python's sum of arrays starts at the integer 0
    and adds from left to right. *)
Definition vsum64 (l : list vec) : vec := fun i => fold_left add64 (map (fun v => v i) l) 0.
Definition msum64 (l : list mat) : mat := fun i j => fold_left add64 (map (fun v => v i j) l) 0.
Definition merge_turn64 (minv : mat -> result mat) (within : vec -> vec -> mat -> bool) (g : gmix) (inds : list nat) (ws : list R)
  : result ((R * vec * mat) * list nat * list R) :=
  do jj <- argmax ws;
  match nth_error (gm_p g) jj, nth_error (gm_m g) jj with
  | Some pj, Some mj =>
      do ic <- minv pj;
      let comp := filter (fun ii => within (nth ii (gm_m g) (fun _ => 0)) mj ic) inds in
      let wt ii := nth ii ws 0 in
      let w_new := psum (map wt comp) in
      if Reqb w_new 0 then Err NanErr else
      let m_new := fun i => div64 (vsum64 (map (fun ii k => mul64 (wt ii) (nth ii (gm_m g) (fun _ => 0) k)) comp) i) w_new in
      let p_new := fun i j => div64 (msum64 (map (fun ii k l => mul64 (wt ii) (nth ii (gm_p g) (fun _ _ => 0) k l)) comp) i j) w_new in
      Ok ((w_new, m_new, p_new),
          filter (fun i => negb (existsb (Nat.eqb i) comp)) inds,
          set_all comp (-1) ws)
  | _, _ => Err IndexErr
  end.
Fixpoint merge_loop64 minv within (g : gmix) (fuel : nat) (inds : list nat) (ws : list R)
  : result (list (R * vec * mat)) :=
  match inds with
  | [] => Ok []
  | _ => match fuel with
         | O => Err OutOfFuel
         | S f => do (new, inds', ws') <- merge_turn64 minv within g inds ws;
                  do r <- merge_loop64 minv within g f inds' ws';
                  Ok (new :: r)
         end
  end.
(** [_merge], tracker.py:820-854. *)
Definition merge64 minv within (g : gmix) : result gmix :=
  do l <- merge_loop64 minv within g (length (gm_m g)) (seq 0 (length (gm_m g))) (gm_w g);
  Ok {| gm_w := map (fun x => fst (fst x)) l; gm_m := map (fun x => snd (fst x)) l; gm_p := map snd l |}.
(** [_cap], tracker.py:856-870; [idx] is the result of np.argsort. *)
Definition cap64 (mx : nat) (idx : list nat) (g : gmix) : result gmix :=
  if (mx <? length (gm_w g))%nat then
    let w := psum (gm_w g) in
    let drop := if (mx =? 0)%nat then [] else firstn (length idx - mx) idx in
    do m <- del_idx drop (gm_m g);
    do w1 <- del_idx drop (gm_w g);
    do p <- del_idx drop (gm_p g);
    if Reqb (psum w1) 0 then Err NanErr
    else Ok {| gm_w := map (fun x => mul64 x (div64 w (psum w1))) w1; gm_m := m; gm_p := p |}
  else Ok g.
End Phd64.
