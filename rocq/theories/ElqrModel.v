(** Model of ELQRGaussian.iterate, final_cost_function and
    quadratize_non_quad_state (src/gasur/guidance.py:510-743), on top of
    GuidModel.v (initialize, density_based_cost, find_nearest_target).

    Simplifications (besides those of GuidModel.v): BaseELQR lives in gncpy and
    is not part of the repository, so forward_pass, backward_pass,
    quadratize_final_cost and the base final_cost_function are parameters; they
    do not touch the objects themselves.  get_hessian and get_jacobian are
    parameters too.  Dynamics functions are total real functions.  After an
    exception nothing is said about the half-updated objects. *)
From Verif Require Import Base.
From Coq Require Import Reals.
From Verif Require Import OspaModel GuidModel.
Open Scope R_scope.

Notation dynf := (vec -> vec -> R).

(** A GaussianObject during [iterate]: the object of GuidModel.v and the number
    of rows of each entry of feedback_lst (and feedforward_lst), which the
    matrices of GuidModel.v do not carry. *)
Record eobj := { e_obj : gobj; e_rows : list nat }.

(** What a pass is given, guidance.py:606-635 and 666-695. *)
Record pass_in := { p_x : vec; p_u : vec; p_width : nat; p_fb : mat; p_ff : mat; p_ccm : mat; p_ccv : mat;
                    p_cgm : mat; p_cgv : mat; p_kk : nat; p_start : vec; p_nom : vec; p_dyn : list dynf;
                    p_inv : list dynf; p_all : list vec; p_num : nat }.
(** What a pass returns: the state, feedback and feedforward (with [q_rows]
    rows), and the cost matrix and vector. *)
Record pass_out := { q_x : vec; q_rows : nat; q_fb : mat; q_ff : mat; q_m : mat; q_v : mat }.

(** [l[k] = v] *)
Definition setl {A} (l : list A) (k : nat) (v : A) : result (list A) :=
  if (k <? length l)%nat then Ok (firstn k l ++ v :: skipn (S k) l) else Err IndexErr.

Section Elqr.
Variable dim : nat.
Variable pdf : vec -> vec -> mat -> R.
Variables (inv : mat -> mat) (det : mat -> R).
Variable chi2_ppf : R -> nat -> R.
(** attributes: horizon_len, max_iters, cost_tol, similar_thresh, safety_factor,
    y_ref and the targets *)
Variables (h max_iters : nat) (cost_tol thresh safety y_ref : R) (tg : gmx).
(** BaseELQR *)
Variables (fwd bwd : pass_in -> result pass_out).
Variable qfinal : vec -> vec -> option vec -> result (mat * mat).
Variable fcost : vec -> option vec -> R.

(** Assignment of a squeezed [rows x 1] column to a row of [width] entries
    (lines 600-602, 657-659, 714-715): one entry is repeated, otherwise the
    sizes must agree. *)
Definition row_write (width rows : nat) (v : vec) : result vec :=
  if (rows =? width)%nat then Ok v else if (rows =? 1)%nat then Ok (fun _ => v 0%nat) else Err ValueErr.
(** feedback @ x + feedforward *)
Definition policy_val (fb ff : mat) (x : vec) : vec := fun i => rsumn dim (fun j => fb i j * x j) + ff i 0%nat.

(** An object with other trajectory, controls and lists. *)
Definition with_ctl (g : gobj) (u : ctl) : gobj :=
  {| g_means := g_means g; g_cov := g_cov g; g_w := g_w g; g_dyn := g_dyn g; g_inv := g_inv g;
     g_ctrl_inputs := g_ctrl_inputs g; g_ctrl_input := Some u; g_nom := g_nom g; g_ff := g_ff g; g_fb := g_fb g;
     g_ccm := g_ccm g; g_ccv := g_ccv g; g_cgm := g_cgm g; g_cgv := g_cgv g |}.
Definition with_lists (g : gobj) (means : list vec) (ff fb ccm ccv cgm cgv : list mat) : gobj :=
  {| g_means := means; g_cov := g_cov g; g_w := g_w g; g_dyn := g_dyn g; g_inv := g_inv g;
     g_ctrl_inputs := g_ctrl_inputs g; g_ctrl_input := g_ctrl_input g; g_nom := g_nom g; g_ff := ff; g_fb := fb;
     g_ccm := ccm; g_ccv := ccv; g_cgm := cgm; g_cgv := cgv |}.

(** gg.ctrl_input, AttributeError without it. *)
Definition ctl_of (e : eobj) : result ctl :=
  match g_ctrl_input (e_obj e) with Some u => Ok u | None => Err AttributeErr end.

(** The control update with the state in row [src], lines 600-602 ([src] = kk)
    and 657-659 ([src] = kk+1). *)
Definition update_ctl (kk src : nat) (e : eobj) : result eobj :=
  let g := e_obj e in
  do fb <- get (g_fb g) kk; do x <- get (g_means g) src; do ff <- get (g_ff g) kk; do r <- get (e_rows e) kk;
  do u <- ctl_of e;
  do _ <- get (u_rows u) kk;
  do v <- row_write (u_width u) r (policy_val fb ff x);
  do rows <- setl (u_rows u) kk v;
  Ok {| e_obj := with_ctl g {| u_rows := rows; u_width := u_width u |}; e_rows := e_rows e |}.

(** What both passes read of object [ii], lines 606-617 and 667-678; [src] is
    the row of the state. *)
Definition pass_args (kk src : nat) (x_starts all : list vec) (ii : nat) (e : eobj) : result pass_in :=
  let g := e_obj e in
  do x <- get (g_means g) src; do u <- ctl_of e; do uk <- get (u_rows u) kk;
  do fb <- get (g_fb g) kk; do ff <- get (g_ff g) kk;
  do ccm <- get (g_ccm g) kk; do ccv <- get (g_ccv g) kk;
  do cgm <- get (g_cgm g) (kk + 1); do cgv <- get (g_cgv g) (kk + 1);
  do xs <- get x_starts ii;
  Ok {| p_x := x; p_u := uk; p_width := u_width u; p_fb := fb; p_ff := ff; p_ccm := ccm; p_ccv := ccv; p_cgm := cgm;
        p_cgv := cgv; p_kk := kk; p_start := xs; p_nom := g_nom g; p_dyn := g_dyn g; p_inv := g_inv g; p_all := all;
        p_num := ii |}.

(** One object's forward pass at time [kk], lines 605-636. *)
Definition forward_obj (kk : nat) (x_starts all : list vec) (ie : nat * eobj) : result eobj :=
  let '(ii, e) := ie in
  let g := e_obj e in
  do a <- pass_args kk kk x_starts all ii e;
  do q <- fwd a;
  do fb <- setl (g_fb g) kk (q_fb q); do ff <- setl (g_ff g) kk (q_ff q); do rows <- setl (e_rows e) kk (q_rows q);
  do ccm <- setl (g_ccm g) (kk + 1) (q_m q); do ccv <- setl (g_ccv g) (kk + 1) (q_v q);
  do means <- setl (g_means g) (kk + 1) (q_x q);
  Ok {| e_obj := with_lists g means ff fb ccm ccv (g_cgm g) (g_cgv g); e_rows := rows |}.

Definition index {A} (l : list A) : list (nat * A) := combine (seq 0 (length l)) l.

(** One time step of the forward pass, lines 592-636: the states of all objects
    are read, then all controls are updated, then every object takes the pass. *)
Definition forward_step (x_starts : list vec) (es : list eobj) (kk : nat) : result (list eobj) :=
  do cur <- mapM (fun e => get (g_means (e_obj e)) kk) es;
  do es1 <- mapM (update_ctl kk kk) es;
  mapM (forward_obj kk x_starts cur) (index es1).

(** Reading and writing the last entry, [l[-1]]. *)
Definition get_last {A} (l : list A) : result A := get l (length l - 1).
Definition set_last {A} (l : list A) (v : A) : result (list A) := setl l (length l - 1) v.

(** Quadratizing the final cost for one object, lines 639-649. *)
Definition final_obj (e : eobj) : result eobj :=
  let g := e_obj e in
  do x <- get_last (g_means g); do u <- ctl_of e; do uk <- get_last (u_rows u);
  let x_end := find_nearest_target dim (t_m tg) x in
  do (M, v) <- qfinal x uk x_end;
  do cgm <- set_last (g_cgm g) M; do cgv <- set_last (g_cgv g) v;
  do M' <- get_last (g_ccm g); do v' <- get_last (g_ccv g);
  do means <- set_last (g_means g)
      (fun i => rsumn dim (fun j => - inv (mplus M M') i j * (v j 0%nat + v' j 0%nat)));
  Ok {| e_obj := with_lists g means (g_ff g) (g_fb g) (g_ccm g) (g_ccv g) cgm cgv; e_rows := e_rows e |}.

(** The first loop of the backward pass, lines 656-662, for one object: its
    control and its previous state by the inverse dynamics; a function beyond
    the state dimension has no column to write to. *)
Definition backward_prev (kk : nat) (e : eobj) : result (eobj * vec) :=
  do e1 <- update_ctl kk (kk + 1) e;
  let g := e_obj e1 in
  do x <- get (g_means g) (kk + 1); do u <- ctl_of e1; do uk <- get (u_rows u) kk;
  if (dim <? length (g_inv g))%nat then Err IndexErr else Ok (e1, last_row (g_inv g) x uk).

(** One object's backward pass at time [kk], lines 665-696. *)
Definition backward_obj (kk : nat) (x_starts all : list vec) (ie : nat * eobj) : result eobj :=
  let '(ii, e) := ie in
  let g := e_obj e in
  do a <- pass_args kk (kk + 1) x_starts all ii e;
  do q <- bwd a;
  do fb <- setl (g_fb g) kk (q_fb q); do ff <- setl (g_ff g) kk (q_ff q); do rows <- setl (e_rows e) kk (q_rows q);
  do cgm <- setl (g_cgm g) kk (q_m q); do cgv <- setl (g_cgv g) kk (q_v q);
  do means <- setl (g_means g) kk (q_x q);
  Ok {| e_obj := with_lists g means ff fb (g_ccm g) (g_ccv g) cgm cgv; e_rows := rows |}.

(** One time step of the backward pass, lines 653-696. *)
Definition backward_step (x_starts : list vec) (es : list eobj) (kk : nat) : result (list eobj) :=
  do ps <- mapM (backward_prev kk) es;
  mapM (backward_obj kk x_starts (map snd ps)) (index (map fst ps)).

(** A loop whose body may raise. *)
Fixpoint foldM {A B} (f : A -> B -> result A) (l : list B) (a : A) : result A :=
  match l with [] => Ok a | b :: l' => do a' <- f a b; foldM f l' a' end.

(** One object's move in the evaluation of the cost, lines 712-718: the state
    row is read once, [n_inputs] is the width of the array of controls; states
    without a dynamics function keep their value. *)
Definition move_obj (n_inputs kk : nat) (ex : eobj * vec) : result vec :=
  let '(e, x) := ex in
  let g := e_obj e in
  do fb <- get (g_fb g) kk; do ff <- get (g_ff g) kk; do r <- get (e_rows e) kk;
  do u <- row_write n_inputs r (policy_val fb ff x);
  if (dim <? length (g_dyn g))%nat then Err IndexErr else
  Ok (fun j => match nth_error (g_dyn g) j with Some f => f x u | None => x j end).

(** [final_cost_function], lines 728-743. *)
Definition final_cost (states : list vec) : R :=
  rsum (map (fun x => fcost x (find_nearest_target dim (t_m tg) x)) states).

(** The cost of the trajectory, lines 699-719: returns the cost and the array
    [states], which is the array x_starts itself (line 699). *)
Definition trajectory_cost (es : list eobj) (x_starts : list vec) : result (R * list vec) :=
  let ws := map (fun e => g_w (e_obj e)) es in
  let ps := map (fun e => g_cov (e_obj e)) es in
  do e0 <- get es 0;
  do n_inputs <- get (e_rows e0) 0;
  do (c, states) <- foldM (fun acc kk =>
      let '(c, states) := acc in
      do d <- density_based_cost dim pdf inv det safety y_ref tg states ws ps;
      do states' <- mapM (move_obj n_inputs kk) (combine es states);
      Ok (c + d, states')) (seq 0 (h - 1)) (0, x_starts);
  Ok (c + final_cost states, states).

(** One turn of the loop over [iteration], lines 590-719. *)
Definition sweep (es : list eobj) (x_starts : list vec) : result (list eobj * (R * list vec)) :=
  do es1 <- foldM (forward_step x_starts) (seq 0 (h - 1)) es;
  do es2 <- mapM final_obj es1;
  do es3 <- foldM (backward_step x_starts) (rev (seq 0 (h - 1))) es2;
  do r <- trajectory_cost es3 x_starts;
  Ok (es3, r).

(** np.abs(old_cost - cur_cost) < self.cost_tol, line 722; [None] is inf. *)
Definition converged (old : option R) (cur : R) : bool :=
  match old with None => false | Some o => if Rlt_dec (Rabs (o - cur)) cost_tol then true else false end.

(** What one sweep started from, what it cost and what it left behind. *)
Record sweep_rec := { s_start : list vec; s_cost : R; s_objs : list eobj; s_end : list vec }.

(** The loop of lines 588-726 with [n] turns left; the list records the turns. *)
Fixpoint iter_loop (n : nat) (old : option R) (es : list eobj) (x_starts : list vec)
  : result (list eobj * list sweep_rec) :=
  match n with
  | O => Ok (es, [])
  | S n' =>
      do (es', r) <- sweep es x_starts;
      let '(c, xs') := r in
      let rec_ := {| s_start := x_starts; s_cost := c; s_objs := es'; s_end := xs' |} in
      if converged old c then Ok (es', [rec_])
      else do (es'', t) <- iter_loop n' (Some c) es' xs'; Ok (es'', rec_ :: t)
  end.

(** [iterate], lines 557-726: the objects afterwards and the record of the
    turns.  [nomr]: the number of rows of the nominal controls, which lines
    494-495 use for feedback and feedforward; n_inputs_lst when none are given
    (line 490).  (Matched objects have no ctrl_input and do not get past the
    first control update, their entry of [e_rows] is never used.) *)
Definition iterate (gs : list gobj) (mg : gmx) (dyn invd : list (list dynf)) (nin : list nat)
    (nom : option (list vec)) (nomr : list nat) : result (list eobj * list sweep_rec) :=
  do (objs, _) <- initialize dim inv chi2_ppf h thresh gs mg dyn invd nin nom;
  let rows := match nom with None => nin | Some _ => nomr end in
  let es := map (fun ir => {| e_obj := snd ir; e_rows := repeat (nth (fst ir) rows 0%nat) h |}) (index objs) in
  match es with
  | [] => Ok ([], [])
  | _ => do xs <- mapM (fun e => get (g_means (e_obj e)) 1) es; iter_loop max_iters None es xs
  end.

(** helper of quadratize_non_quad_state, lines 529-538: the cost as a function
    of the state of object [num]. *)
Definition cost_of_state (all : list vec) (num : nat) (ws : list R) (ps : list mat) (x : vec) : result R :=
  do loc <- setl all num x;
  density_based_cost dim pdf inv det safety y_ref tg loc ws ps.
(** [quadratize_non_quad_state], lines 510-555, for the Hessian routine, the
    Jacobian routine and the eigen decomposition of la.eig. *)
Definition quadratize_non_quad_state (hessian : vec -> (vec -> result R) -> result mat)
    (jacobian : vec -> (vec -> result R) -> result vec) (eig : mat -> vec * mat)
    (all : list vec) (num : nat) (ws : list R) (ps : list mat) : result (mat * vec) :=
  do x <- get all num;
  do Q0 <- hessian x (cost_of_state all num ws ps);
  let '(lam, V) := eig Q0 in
  let Q := regularize dim inv lam V in
  do q0 <- jacobian x (cost_of_state all num ws ps);
  Ok (Q, fun i => q0 i - rsumn dim (fun j => Q i j * x j)).
End Elqr.

(** The nominal controls that [initialize] finds in its keyword arguments,
    line 414: only the key "ctrl_nom_lst" is looked up. *)
From Coq Require Import String.
Definition nominal_of {A} (kwargs : list (string * A)) : option A :=
  match find (fun kv => String.eqb (fst kv) "ctrl_nom_lst") kwargs with Some (_, v) => Some v | None => None end.
