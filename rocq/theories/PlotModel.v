(** Model of the data drawn by the plotting methods (tracker.py): which points are
    handed to matplotlib, and which calls raise.  Not modelled: colours, labels,
    markers, legends, error ellipses, titles and the random colours. *)
From Verif Require Import Base.
From Coq Require Import Reals.
From Verif Require Import OspaModel CphdModel GlmbModel.
Open Scope R_scope.

(** np.std: root of the mean squared deviation from the mean. *)
Definition np_mean (l : list R) : R := rsum l / INR (length l).
Definition np_std (l : list R) : R := sqrt (np_mean (map (fun x => (x - np_mean l) ^ 2) l)).

(** Axes.plot and Axes.step: x and y must have the same length (ValueError). *)
Definition draw (xs ys : list R) : result (list (R * R)) :=
  if (length xs =? length ys)%nat then Ok (combine xs ys) else Err ValueErr.

(** The entry appended to _card_time_hist by correct, tracker.py:1554-1555, where
    [rho] is _card_dist after the update. *)
Definition card_entry (rho : list R) : result (nat * R) := do h <- argmaxR rho; Ok (h, np_std rho).
(** A history of calls (CphdModel.crun) keeping the whole _card_time_hist. *)
Section C.
Context {V M Meas : Type}.
Definition hstep (c : ccfg V M Meas) (argsort : list R -> list nat) (o : cop V M Meas) (sh : cphd V M Meas * list (nat * R)) : result (cphd V M Meas * list (nat * R)) :=
  do s1 <- cstep c argsort o (fst sh);
  match o with
  | CCorrect _ => do e <- card_entry (cp_card s1); Ok (s1, snd sh ++ [e])
  | _ => Ok (s1, snd sh)
  end.
Fixpoint hrun (c : ccfg V M Meas) (argsort : list R -> list nat) (os : list (cop V M Meas)) (sh : cphd V M Meas * list (nat * R)) : result (cphd V M Meas * list (nat * R)) :=
  match os with [] => Ok sh | o :: os' => do sh1 <- hstep c argsort o sh; hrun c argsort os' sh1 end.
End C.

(** What plot_card_history draws: the true cardinality, the estimate, the upper and
    lower bound; whether it warned about the length of [true_card]. *)
Record card_plot := { pl_truth : option (list (R * R)); pl_card : list (R * R); pl_band : option (list (R * R) * list (R * R)); pl_warned : bool }.
(** CardinalizedPHD.plot_card_history, tracker.py:1641-1723; RuntimeWarning (here
    RuntimeErr) on an empty history. *)
Definition plot_card_history (hist : list (nat * R)) (sig : option R) (time truth : option (list R)) : result card_plot :=
  match hist with
  | [] => Err RuntimeErr
  | _ =>
    let card := map (fun x => INR (fst x)) hist in
    let xs := match time with None => map INR (seq 0 (length card)) | Some v => v end in
    do tw <- match truth with
             | None => Ok (None, false)
             | Some v => if (length v =? length xs)%nat then do l <- draw xs v; Ok (Some l, false) else Ok (None, true)
             end;
    do l <- draw xs card;
    do b <- match sig with
            | None => Ok None
            | Some k =>
                do u <- draw xs (map (fun x => INR (fst x) + k * snd x) hist);
                do d <- draw xs (map (fun x => INR (fst x) - k * snd x) hist);
                Ok (Some (u, d))
            end;
    Ok {| pl_truth := fst tw; pl_card := l; pl_band := b; pl_warned := snd tw |}
  end.
(** plot_card_dist of both classes, tracker.py:1595-1639 and 3033-3069: the bars. *)
Definition plot_card_dist (rho : list R) : result (list (R * R)) :=
  match rho with [] => Err RuntimeErr | _ => draw (map INR (seq 0 (length rho))) rho end.

(** GeneralizedLabeledMultiBernoulli.plot_card_history, tracker.py:3071-3116 (inherited
    by the other labelled filters).  [self.card_history] (3104) is an attribute no
    class has. *)
Definition plot_glmb_card {ST} (states : list (list ST)) (time : option (list R)) : result (list (R * R)) :=
  match time with
  | None => Err AttributeErr
  | Some v => draw v (map (fun l => INR (length l)) states)
  end.

(** plot_states_labels, tracker.py:2824-2962: the lines of the labels (estimates
    only).  [dim] is the size of a state vector. *)
Section L.
Context {ST : Type}.
Variable dim : ST -> nat.
(** 2883-2887. *)
Fixpoint x_dim (sts : list (list ST)) : option nat :=
  match sts with [] => None | [] :: r => x_dim r | (x :: _) :: _ => Some (dim x) end.
(** 2889-2896: labels in the order of first appearance. *)
Definition add_label (u : list label) (l : label) : list label := if existsb (label_eqb l) u then u else u ++ [l].
Definition u_labels (lbs : list (list label)) : list label := fold_left add_label (concat lbs) [].
(** list.index *)
Fixpoint index_of (l : label) (ls : list label) : option nat :=
  match ls with [] => None | x :: r => if label_eqb x l then Some 0%nat else option_map S (index_of l r) end.
(** One column of [x], 2907-2914: None is a column of NaN. *)
Definition column (d : nat) (lbl : label) (sts : list (list ST)) (tt : nat) (lbs : list label) : result (option ST) :=
  match index_of lbl lbs with
  | None => Ok None
  | Some i => do row <- geti sts tt; do x <- geti row i; if (dim x =? d)%nat then Ok (Some x) else Err ValueErr
  end.
Definition columns (d : nat) (lbl : label) (sts : list (list ST)) (lbs : list (list label)) : result (list (option ST)) :=
  do l <- mapM (fun tl => column d lbl sts (fst tl) (snd tl)) (combine (seq 0 (length lbs)) lbs);
  Ok (l ++ repeat None (length sts - length lbs)).
(** 2958-2962: the place of the text, the first column without NaN. *)
Fixpoint first_some (l : list (option ST)) : option ST :=
  match l with [] => None | Some x :: _ => Some x | None :: r => first_some r end.
(** The line of one label: its columns and where its name is written. *)
Definition plot_states_labels (sts : list (list ST)) (lbs : list (list label)) : result (list (label * list (option ST) * ST)) :=
  mapM (fun lbl =>
    match x_dim sts with
    | None => Err TypeErr
    | Some d => do l <- columns d lbl sts lbs;
                match first_some l with None => Err IndexErr | Some p => Ok (lbl, l, p) end
    end) (u_labels lbs).
End L.
