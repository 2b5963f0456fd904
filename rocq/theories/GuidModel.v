(** Model of src/gasur/guidance.py over the real numbers.

    Simplifications: exact reals instead of floats; a vector is a function
    [nat -> R] used up to the state dimension [dim], arrays with rows are lists
    of rows, so shape errors are modelled where the code can meet them (row
    counts, missing rows, widths) and nowhere else.  An assignment of a block of
    rows needs equal shapes (numpy would also repeat a single row).  mvn.pdf,
    chi2.ppf, la.inv, la.det, la.eig and the dynamics functions are parameters;
    division by zero and logarithms of non-positive numbers follow Coq's total
    functions, the theorems do not use them.  BaseELQR (gncpy) is external. *)
From Verif Require Import Base.
From Coq Require Import Reals.
From Verif Require Import OspaModel.
Open Scope R_scope.

Notation vec := (nat -> R).
Notation mat := (nat -> nat -> R).
Definition vzero : vec := fun _ => 0.
Definition vplus (a b : vec) : vec := fun i => a i + b i.
Definition vminus (a b : vec) : vec := fun i => a i - b i.
Definition mplus (a b : mat) : mat := fun i j => a i j + b i j.

(** GaussianMixture, utilities/distributions.py:16-38. *)
Record gmx := { t_w : list R; t_m : list vec; t_p : list mat }.
Definition gmx_empty : gmx := {| t_w := []; t_m := []; t_p := [] |}.

Section Guid.
(** State dimension N. *)
Variable dim : nat.
Variable pdf : vec -> vec -> mat -> R.      (* mvn.pdf(x, mean, cov) *)
Variables (inv : mat -> mat) (det : mat -> R).
(** la.eig of a covariance: the matrix of eigenvectors sorted by eigenvalue,
    transposed (the return value of find_principal_components). *)
Variable eig_sorted_T : mat -> mat.
(** chi2.ppf(similar_thresh, df = n_states). *)
Variable chi2_ppf : R -> nat -> R.

(** np.sqrt(diff.T @ diff), guidance.py:91 and 101; la.norm, line 759. *)
Definition norm2 (d : vec) : R := sqrt (rsumn dim (fun i => d i * d i)).
(** diff.T @ M @ diff *)
Definition qform (M : mat) (d : vec) : R :=
  rsumn dim (fun j => rsumn dim (fun i => d i * M i j) * d j).

(** [DensityBased.__init__], guidance.py:37-45: ValueError for y_ref >= 1;
    otherwise the stored value. *)
Definition density_init (y_ref : R) : result R :=
  if Rle_dec 1 y_ref then Err ValueErr else Ok y_ref.
(** [ELQRGaussian.__init__], guidance.py:381-388. *)
Definition elqr_init (similar_thresh : R) : result R :=
  if Rle_dec 1 similar_thresh then Err ValueErr else Ok similar_thresh.
(** [GaussianObject.__init__], guidance.py:357-359; [None] is nan (also the
    default), for which the comparison is false. *)
Definition gaussobj_weight (w : option R) : result (option R) :=
  match w with
  | Some x => if Rle_dec x 0 then Err ValueErr else Ok w
  | None => Ok None
  end.

(** [target_center], guidance.py:261-271. *)
Definition target_center (means : list vec) : result vec :=
  match means with
  | [] => Err IndexErr
  | _ => let summed := fold_left vplus means vzero in
         Ok (fun i => summed i / INR (length means))
  end.

(** The running maximum of distances, guidance.py:88-93 and 98-103. *)
Definition max_dist (ds : list R) : R := fold_left (fun m d => if Rlt_dec m d then d else m) ds 0.
(** max(map(f, l)), guidance.py:107-110: ValueError for an empty list. *)
Definition pymax (l : list R) : result R :=
  match l with [] => Err ValueErr | x :: l' => Ok (fold_left (fun m d => if Rlt_dec m d then d else m) l' x) end.
(** float(np.max(np.diag(x))) *)
Definition max_diag (p : mat) : R :=
  match seq 0 dim with [] => 0 | i :: is => fold_left Rmax (map (fun j => p j j) is) (p i i) end.

(** Reads of a list by index. *)
Definition get {A} (l : list A) (i : nat) : result A :=
  match nth_error l i with Some x => Ok x | None => Err IndexErr end.
(** A for loop accumulating a sum. *)
Fixpoint sumL (l : list nat) (f : nat -> result R) : result R :=
  match l with [] => Ok 0 | x :: l' => do a <- f x; do b <- sumL l' f; Ok (a + b) end.

(** [density_based_cost], guidance.py:47-161.  [safety], [y_ref] are
    attributes, [tg] the targets; the columns of obj_states are [os]. *)
Definition density_based_cost (safety y_ref : R) (tg : gmx) (os : list vec) (ow : list R) (op : list mat) : result R :=
  do center <- target_center (t_m tg);
  let num_targets := length (t_m tg) in
  let num_objects := length os in
  let radius := safety * max_dist (map (fun m => norm2 (vminus m center)) (t_m tg)) in
  let shift := radius + ln (1 / y_ref - 1) in
  let md := max_dist (map (fun x => norm2 (vminus center x)) os) in
  let activator := 1 / (1 + exp (- (md - shift))) in
  do max_var_obj <- pymax (map max_diag op);
  do max_var_target <- pymax (map max_diag (t_p tg));
  do sum_obj_obj <- sumL (seq 0 num_objects) (fun o => sumL (seq 0 num_objects) (fun i =>
      do xo <- get os o; do xi <- get os i; do wo <- get ow o; do wi <- get ow i; do po <- get op o; do pi <- get op i;
      Ok (wo * wi * pdf xo xi (mplus po pi))));
  do sum_obj_target <- sumL (seq 0 num_objects) (fun o => sumL (seq 0 num_targets) (fun i =>
      do xo <- get os o; do wo <- get ow o; do po <- get op o;
      do mt <- get (t_m tg) i; do wt <- get (t_w tg) i; do pt <- get (t_p tg) i;
      Ok (wo * wt * pdf xo mt (mplus po pt))));
  do quad <- sumL (seq 0 num_objects) (fun o => sumL (seq 0 num_targets) (fun i =>
      do xo <- get os o; do wo <- get ow o; do po <- get op o;
      do mt <- get (t_m tg) i; do wt <- get (t_w tg) i; do pt <- get (t_p tg) i;
      let comb := mplus po pt in
      let log_term := ln (Rpower (2 * PI) (- (1 / 2) * INR dim) / sqrt (det comb))
                      - 1 / 2 * qform (inv comb) (vminus xo mt) in
      Ok (wo * wt * log_term)));
  do sum_target_target <- sumL (seq 0 num_targets) (fun o => sumL (seq 0 num_targets) (fun i =>
      do mo <- get (t_m tg) o; do mi <- get (t_m tg) i; do wo <- get (t_w tg) o; do wi <- get (t_w tg) i;
      do po <- get (t_p tg) o; do pi <- get (t_p tg) i;
      Ok (wo * wi * pdf mo mi (mplus po pi))));
  Ok (10 * INR num_objects * max_var_obj * (sum_obj_obj - 2 * max_var_target * INR num_targets * sum_obj_target)
      + sum_target_target + activator * quad).

(** * convert_waypoints *)
(** combined_centers, guidance.py:179-186: the waypoints and their mean. *)
Definition combined_centers (wps : list vec) : list vec :=
  wps ++ [fun i => fold_left vplus wps vzero i / INR (length wps)].
(** np.delete along the columns. *)
Definition del_col {A} (j : nat) (l : list A) : list A := firstn j l ++ skipn (S j) l.
(** The covariance of the data, guidance.py:198-209. *)
Definition data_cov (data : list vec) : mat :=
  let n := INR (length data) in
  let mean := fun i => fold_left vplus data vzero i / n in
  fun i j => rsum (map (fun d => (d i - mean i) * (d j - mean j)) data) / n.
(** find_largest_proj_dist, guidance.py:214-221: the diagonal. *)
Definition proj_vals (new_dirs : mat) (old : list vec) (i : nat) : R :=
  fold_left (fun m d => if Rlt_dec m d then d else m)
    (map (fun o => Rabs (rsumn dim (fun k => new_dirs k i * o k))) old) 0.
Definition mmulR (a b : mat) : mat := fun i j => rsumn dim (fun k => a i k * b k j).
Definition diagm (v : vec) : mat := fun i j => if (i =? j)%nat then v i else 0.
(** The covariance of wayarea [k], guidance.py:228-235. *)
Definition wp_cov (wps : list vec) (k : nat) : mat :=
  let centers := combined_centers wps in
  let ck := nth k centers vzero in
  let sample_data := del_col k centers in
  let dirs := del_col k (map (fun e => vminus e ck) centers) in
  let comps := eig_sorted_T (data_cov sample_data) in
  mmulR (mmulR comps (diagm (proj_vals comps dirs))) (inv comps).
(** [convert_waypoints], guidance.py:163-240.  No waypoint: IndexError
    (line 177).  One-dimensional states: [directions[:, wp_ind, :].squeeze()] has
    one axis left and np.delete along axis 1 raises (line 231). *)
Definition convert_waypoints (wps : list vec) : result gmx :=
  match wps with
  | [] => Err IndexErr
  | _ => if (dim =? 1)%nat then Err ValueErr
         else Ok {| t_w := map (fun _ => 1 / INR (length wps)) wps; t_m := wps;
                    t_p := map (wp_cov wps) (seq 0 (length wps)) |}
  end.

(** The loop [for m in self.targets.means: new_waypoints.append(m)],
    guidance.py:255-256.  Python iterates by position over the live list; when
    the caller passed that very list ([same]) it grows under the loop. *)
Fixpoint append_loop (same : bool) (fuel i : nat) (means new : list vec) : result (list vec) :=
  let cur := if same then new else means in
  match nth_error cur i with
  | None => Ok new
  | Some m => match fuel with
              | O => Err OutOfFuel
              | S f => append_loop same f (S i) means (new ++ [m])
              end
  end.
(** [update_targets], guidance.py:242-259: returns the caller's list after the
    call and the targets (an exception of convert_waypoints leaves the empty
    mixture, line 258).  [same]: the caller passes targets.means itself. *)
Definition update_targets (fuel : nat) (same reset : bool) (targets : gmx) (new : list vec)
  : result (list vec * result gmx) :=
  do new' <- (if reset then Ok new else append_loop same fuel 0 (t_m targets) new);
  Ok (new', convert_waypoints new').

(** [find_nearest_target], guidance.py:745-763: [None] is the initial []. *)
Fixpoint nearest_from (state : vec) (goals : list vec) (best : option (R * vec)) : option vec :=
  match goals with
  | [] => match best with Some (_, g) => Some g | None => None end
  | g :: gs =>
      let dist := norm2 (vminus state g) in
      match best with
      | None => nearest_from state gs (Some (dist, g))
      | Some (d, _) => if Rlt_dec dist d then nearest_from state gs (Some (dist, g)) else nearest_from state gs best
      end
  end.
Definition find_nearest_target (goals : list vec) (state : vec) : option vec := nearest_from state goals None.

(** * initialize *)
(** A 2-d array of controls: its rows and its width. *)
Record ctl := { u_rows : list vec; u_width : nat }.
(** np.array([[]]): one row of width 0. *)
Definition ctl_default : ctl := {| u_rows := [vzero]; u_width := 0 |}.
(** np.zeros((h, n)) *)
Definition ctl_zeros (h n : nat) : ctl := {| u_rows := repeat vzero h; u_width := n |}.
Notation dynf := (vec -> vec -> R).

(** GaussianObject, guidance.py:339-360.  [g_ctrl_input] is the attribute
    [ctrl_input] that only the code of lines 483 and 600-662 uses; objects do
    not have it unless it was assigned. *)
Record gobj := { g_means : list vec; g_cov : mat; g_w : R; g_dyn : list dynf; g_inv : list dynf;
                 g_ctrl_inputs : ctl; g_ctrl_input : option ctl; g_nom : vec;
                 g_ff : list mat; g_fb : list mat; g_ccm : list mat; g_ccv : list mat;
                 g_cgm : list mat; g_cgv : list mat }.

(** best_fit, guidance.py:425-434: first smallest criterion; IndexError when an
    object has no second row. *)
Fixpoint best_fit_from (obs : vec) (gs : list gobj) (jj : nat) (best : option (nat * R)) : result (option (nat * R)) :=
  match gs with
  | [] => Ok best
  | g :: gs' =>
      do m1 <- get (g_means g) 1;
      let fit := qform (inv (g_cov g)) (vminus obs m1) in
      best_fit_from obs gs' (S jj)
        (match best with
         | None => Some (jj, fit)
         | Some (_, b) => if Rlt_dec fit b then Some (jj, fit) else best
         end)
  end.
(** [l[1::]] followed by the append of a copy of its last entry. *)
Definition shift_last (l : list mat) : result (list mat) :=
  match skipn 1 l with [] => Err IndexErr | l' => Ok (l' ++ [last l' (fun _ _ => 0)]) end.
(** [l[1::]] followed by the append of zeros shaped like feedforward_lst[0]. *)
Definition shift_zero (ffs l : list mat) : result (list mat) :=
  match ffs with [] => Err IndexErr | _ => Ok (skipn 1 l ++ [fun _ _ => 0]) end.
(** The last row: [obj.means[-1, jj] = ff(...)] for every dynamics function,
    guidance.py:457-460; entries without a function stay 0. *)
Definition last_row (fs : list dynf) (x u : vec) : vec :=
  fun j => match nth_error fs j with Some f => f x u | None => 0 end.
(** The branch found_match, guidance.py:445-476.  [h] is horizon_len; the row
    [-2] of line 458 does not exist for h < 2 (the object has at least one
    dynamics function). *)
Definition matched_obj (h : nat) (mean : vec) (cov : mat) (w : R) (first old : gobj) : result gobj :=
  let n_inputs := u_width (g_ctrl_inputs first) in
  let src := skipn 1 (u_rows (g_ctrl_inputs old)) in
  if negb ((length src =? h - 1)%nat && (u_width (g_ctrl_inputs old) =? n_inputs)%nat) then Err ValueErr else
  let tail := skipn 2 (g_means old) in
  if negb (length tail =? h - 2)%nat then Err ValueErr else
  if (h <? 2)%nat then Err IndexErr else
  let ctrls := src ++ [vzero] in
  let pre := mean :: tail in                       (* rows 0 .. h-2 *)
  do x <- get pre (h - 2);
  do u <- get ctrls (h - 2);
  do ff <- shift_zero (g_ff old) (g_ff old);
  do fb <- shift_zero (g_ff old) (g_fb old);
  do ccm <- shift_last (g_ccm old);
  do ccv <- shift_last (g_cgv old);
  do cgm <- shift_last (g_cgm old);
  do cgv <- shift_last (g_cgv old);
  Ok {| g_means := pre ++ [last_row (g_dyn old) x u]; g_cov := cov; g_w := w; g_dyn := g_dyn old; g_inv := g_inv old;
        g_ctrl_inputs := {| u_rows := ctrls; u_width := n_inputs |}; g_ctrl_input := None; g_nom := g_nom old;
        g_ff := ff; g_fb := fb; g_ccm := ccm; g_ccv := ccv; g_cgm := cgm; g_cgv := cgv |}.
(** The other branch, guidance.py:480-503. *)
Definition fresh_obj (h : nat) (mean : vec) (cov : mat) (w : R) (n_in : nat) (fs gs : list dynf) (nom : vec) : gobj :=
  let z := repeat (fun _ _ => 0) h in
  {| g_means := repeat mean h; g_cov := cov; g_w := w; g_dyn := fs; g_inv := gs;
     g_ctrl_inputs := ctl_default; g_ctrl_input := Some (ctl_zeros h n_in); g_nom := nom;
     g_ff := z; g_fb := z; g_ccm := z; g_ccv := z; g_cgm := z; g_cgv := z |}.
(** self.gaussians.pop(ind), guidance.py:479. *)
Definition pop {A} (i : nat) (l : list A) : list A := firstn i l ++ skipn (S i) l.

(** The loop over the measurements, guidance.py:423-506: returns the new
    objects and what is left of the old list. *)
Fixpoint init_loop (h : nat) (thresh : R) (mg : gmx) (dyn invd : list (list dynf)) (nin : list nat)
    (nom : option (list vec)) (iis : list nat) (gs : list gobj) : result (list gobj * list gobj) :=
  match iis with
  | [] => Ok ([], gs)
  | ii :: iis' =>
      do mean <- get (t_m mg) ii;
      do best <- best_fit_from mean gs 0 None;
      do cov <- get (t_p mg) ii;
      do w <- get (t_w mg) ii;
      let fresh :=
        do n <- get nin ii; do fs <- get dyn ii; do is <- get invd ii;
        do un <- match nom with None => Ok vzero | Some l => get l ii end;
        Ok (fresh_obj h mean cov w n fs is un, gs) in
      do (o, gs1) <-
        match best with
        | Some (ind, fit) =>
            if Rlt_dec fit (chi2_ppf thresh dim) then
              do old <- get gs ind; do first <- get gs 0;
              do o <- matched_obj h mean cov w first old;
              Ok (o, pop ind gs)
            else fresh
        | None => fresh
        end;
      do (os, gs2) <- init_loop h thresh mg dyn invd nin nom iis' gs1;
      Ok (o :: os, gs2)
  end.
(** [initialize], guidance.py:390-508: the objects and the remainder of the old
    list object (which the caller may hold, line 384). *)
Definition initialize (h : nat) (thresh : R) (gs : list gobj) (mg : gmx) (dyn invd : list (list dynf))
    (nin : list nat) (nom : option (list vec)) : result (list gobj * list gobj) :=
  match t_m mg with
  | [] => Ok ([], gs)
  | _ => init_loop h thresh mg dyn invd nin nom (seq 0 (length (t_m mg))) gs
  end.

(** The regularisation of quadratize_non_quad_state, guidance.py:541-546, for
    the eigenvalues [lam] and the matrix of eigenvectors [V] of la.eig. *)
Definition regularize (lam : vec) (V : mat) : mat :=
  mmulR (mmulR V (diagm (fun i => if Rlt_dec (lam i) 0 then 0 else lam i))) (inv V).

(** The first control update of [iterate], guidance.py:599-602, needs the
    attribute ctrl_input of every object. *)
Definition iterate_ctrl_update (gs : list gobj) : result unit :=
  if forallb (fun g => match g_ctrl_input g with Some _ => true | None => false end) gs then Ok tt else Err AttributeErr.

(** The evaluation of the trajectory cost, guidance.py:698-719, for objects
    given by their policy [u = fb kk x + ff kk] and dynamics.  [states] is the
    array [x_starts] itself (line 699): the returned states are what x_starts
    holds afterwards.  [cost] is density_based_cost, [final] the final cost. *)
Definition real_cost (h : nat) (policy : nat -> nat -> vec -> vec) (dyn : nat -> list dynf)
    (cost : list vec -> R) (final : list vec -> R) (x_starts : list vec) : R * list vec :=
  let step acc kk :=
    let '(c, states) := acc in
    (c + cost states,
     map (fun ix => let '(i, x) := ix in
            fun j => match nth_error (dyn i) j with Some f => f x (policy i kk x) | None => x j end)
         (combine (seq 0 (length states)) states)) in
  let '(c, states) := fold_left step (seq 0 (h - 1)) (0, x_starts) in
  (c + final states, states).
End Guid.
