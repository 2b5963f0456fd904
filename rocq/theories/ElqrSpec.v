(** Specification vocabulary for the controller's main loop (C146-C152). *)
From Verif Require Import Base.
From Coq Require Import Reals.
From Verif Require Import OspaModel GuidModel GuidSpec ElqrModel.
Open Scope R_scope.

(** A pass answers every call, with a feedback of as many rows as the control it
    was given. *)
Definition pass_answers (pass : pass_in -> result pass_out) : Prop :=
  forall a, exists q, pass a = Ok q /\ q_rows q = p_width a.
Definition final_answers (qf : vec -> vec -> option vec -> result (mat * mat)) : Prop :=
  forall x u g, exists r, qf x u g = Ok r.
(** The targets: a nonempty mixture with as many weights and covariances. *)
Definition good_targets (tg : gmx) : Prop := exists l, l <> [] /\ tg = mix_of l.
(** The measurement: [n] Gaussians with dynamics that fit the state. *)
Definition good_measurement (dim : nat) (mg : gmx) (dyn invd : list (list dynf)) (nin : list nat) : Prop :=
  length (t_p mg) = length (t_m mg) /\ length (t_w mg) = length (t_m mg) /\ length dyn = length (t_m mg) /\
  length invd = length (t_m mg) /\ length nin = length (t_m mg) /\
  (forall fs, In fs dyn -> (length fs <= dim)%nat) /\ forall fs, In fs invd -> (length fs <= dim)%nat.
(** No object of an earlier call is close enough to a measured mean. *)
Definition no_match (dim : nat) (inv : mat -> mat) (bound : R) (gs : list gobj) (mg : gmx) : Prop :=
  forall g, In g gs -> (2 <= length (g_means g))%nat /\ forall m, In m (t_m mg) -> bound <= mahal dim inv m g.
(** The cost has settled at turn [k]: it differs from the one before by less
    than the tolerance. *)
Definition settled (tol : R) (costs : list R) (k : nat) : Prop :=
  exists a b, (1 <= k)%nat /\ nth_error costs (k - 1) = Some a /\ nth_error costs k = Some b /\ Rabs (a - b) < tol.
(** The control law of object [i] at time [k]: feedback times state plus
    feedforward. *)
Definition law (dim : nat) (es : list eobj) (i k : nat) (x : vec) : vec :=
  match nth_error es i with
  | Some e => fun r => rsumn dim (fun j => nth k (g_fb (e_obj e)) (fun _ _ => 0) r j * x j) + nth k (g_ff (e_obj e)) (fun _ _ => 0) r 0%nat
  | None => vzero
  end.
Definition dyn_of (es : list eobj) (i : nat) : list dynf :=
  match nth_error es i with Some e => g_dyn (e_obj e) | None => [] end.
(** The states of all objects after [k] steps from [xs] when every object
    follows its law. *)
Definition closed_loop (dim : nat) (es : list eobj) (xs : list vec) (k : nat) : list vec :=
  traj (joint_move (law dim es) (dyn_of es)) xs k.

(** * What one turn does *)
(** [u] is the control of feedback [fb] and feedforward [ff] at state [x] (a
    single value is repeated). *)
Definition control_of (dim : nat) (fb ff : mat) (x u : vec) : Prop :=
  let v := fun r => rsumn dim (fun j => fb r j * x j) + ff r 0%nat in
  (forall r, u r = v r) \/ (forall r, u r = v 0%nat).
Definition row {A} (l : list A) (k : nat) (x : A) : Prop := nth_error l k = Some x.
(** The rows of the control array. *)
Definition ctl_rows (e : eobj) : list vec := match g_ctrl_input (e_obj e) with Some u => u_rows u | None => [] end.
(** The state whose components are the values of the functions [fs] at [x], [u]
    (0 where there is no function). *)
Definition stepped (fs : list dynf) (x u : vec) : vec := fun j => nth j (map (fun f => f x u) fs) 0.
(** Object [i] at time [k] of a turn.  [mids] are the trajectories of the forward
    pass, [xs] the start states.  The forward pass is called with the state, the
    control of the old law, the cost-to-come at [k] and the old cost-to-go at
    [k+1]; it yields the next state and the cost-to-come at [k+1].  The backward
    pass is called with the new state at [k+1], the control of the forward
    pass's law there, the cost-to-come at [k] and the new cost-to-go at [k+1];
    it yields the new state, law and cost-to-go at [k]. *)
Definition turn_at (dim : nat) (fwd bwd : pass_in -> result pass_out) (xs : list vec) (mids : list (list vec))
    (after : list eobj) (i k : nat) (mid : list vec) (before' after' : gobj) (ctl' : list vec) : Prop :=
  exists a q b r, fwd a = Ok q /\ bwd b = Ok r /\
    p_kk a = k /\ p_num a = i /\ row xs i (p_start a) /\ row mid k (p_x a) /\ control_of dim (p_fb a) (p_ff a) (p_x a) (p_u a) /\
    row (g_fb before') k (p_fb a) /\ row (g_ff before') k (p_ff a) /\
    row (g_ccm after') k (p_ccm a) /\ row (g_ccv after') k (p_ccv a) /\ row (g_cgm before') (S k) (p_cgm a) /\ row (g_cgv before') (S k) (p_cgv a) /\
    (forall j m, row mids j m -> nth_error (p_all a) j = nth_error m k) /\
    row mid (S k) (q_x q) /\ row (g_ccm after') (S k) (q_m q) /\ row (g_ccv after') (S k) (q_v q) /\
    p_kk b = k /\ p_num b = i /\ row xs i (p_start b) /\ row (g_means after') (S k) (p_x b) /\ control_of dim (p_fb b) (p_ff b) (p_x b) (p_u b) /\
    row ctl' k (p_u b) /\ p_fb b = q_fb q /\ p_ff b = q_ff q /\
    row (g_ccm after') k (p_ccm b) /\ row (g_ccv after') k (p_ccv b) /\ row (g_cgm after') (S k) (p_cgm b) /\ row (g_cgv after') (S k) (p_cgv b) /\
    (forall j e, row after j e -> exists x u, row (g_means (e_obj e)) (S k) x /\ row (ctl_rows e) k u /\ row (p_all b) j (stepped (g_inv (e_obj e)) x u)) /\
    row (g_means after') k (q_x r) /\ row (g_fb after') k (q_fb r) /\ row (g_ff after') k (q_ff r) /\
    row (g_cgm after') k (q_m r) /\ row (g_cgv after') k (q_v r).
(** The end of the horizon: the final cost is quadratized at the end of the
    forward trajectory for the nearest target, and the new last state minimises
    cost-to-come plus cost-to-go. *)
Definition turn_end (dim : nat) (inv : mat -> mat) (qfinal : vec -> vec -> option vec -> result (mat * mat)) (targets : list vec)
    (h : nat) (mid : list vec) (after' : gobj) : Prop :=
  exists x u M v M' v' y, row mid (h - 1) x /\ qfinal x u (find_nearest_target dim targets x) = Ok (M, v) /\
    row (g_cgm after') (h - 1) M /\ row (g_cgv after') (h - 1) v /\ row (g_ccm after') (h - 1) M' /\ row (g_ccv after') (h - 1) v' /\
    row (g_means after') (h - 1) y /\
    forall j, y j = rsumn dim (fun l => - inv (fun s t => M s t + M' s t) j l * (v l 0%nat + v' l 0%nat)).
(** One turn, from the objects [before] to the objects [after]. *)
Definition turn (dim : nat) (inv : mat -> mat) (fwd bwd : pass_in -> result pass_out) (qfinal : vec -> vec -> option vec -> result (mat * mat))
    (targets : list vec) (h : nat) (xs : list vec) (before after : list eobj) : Prop :=
  length after = length before /\
  exists mids, length mids = length before /\ forall i eb ea mid, row before i eb -> row after i ea -> row mids i mid ->
    nth_error mid 0 = nth_error (g_means (e_obj eb)) 0 /\
    turn_end dim inv qfinal targets h mid (e_obj ea) /\
    forall k, (S k < h)%nat -> turn_at dim fwd bwd xs mids after i k mid (e_obj eb) (e_obj ea) (ctl_rows ea).
