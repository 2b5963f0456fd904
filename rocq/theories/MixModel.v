(** Model of GaussianMixture and StudentsTMixture,
    src/gasur/utilities/distributions.py:16-165.  [V] are the states (column
    vectors), [S] the matrices.  scipy's densities and numpy's generator are
    parameters; the choice of the component is modelled in full. *)
From Verif Require Import Base.
From Coq Require Import Reals.
From Verif Require Import OspaModel GibbsReal.
Open Scope R_scope.

Section M.
Context {V S : Type}.
(** The three lists, 17-42. *)
Record gmix := { gm_m : list V; gm_c : list S; gm_w : list R }.
(** One density evaluation of scipy.stats (it raises for invalid matrices). *)
Variable dens : V -> V -> S -> result R.
(** [pdf], 68-75: the loop over zip(means, covariances, weights); zip ends with the
    shortest list.  Also [StudentsTMixture.pdf], 126-132, with the density of the
    Student's t distribution and the scalings. *)
Fixpoint mloop (x : V) (p : R) (l : list (V * S * R)) : result R :=
  match l with
  | [] => Ok p
  | (m, s, w) :: l' => do d <- dens x m s; mloop x (p + w * d) l'
  end.
Definition mpdf (g : gmix) (x : V) : result R := mloop x 0 (combine (combine (gm_m g) (gm_c g)) (gm_w g)).
(** numpy.random.Generator.choice(np.arange(n), p=p): ValueError for an empty
    population, another number of probabilities, a negative one, or a sum that
    differs from 1 by more than sqrt(eps) = 2^-26; otherwise one uniform draw u in
    [0, 1) is located in the normalised cumulative sums (searchsorted, right). *)
Definition choice (n : nat) (p : list R) (u : R) : result nat :=
  if (n =? 0)%nat then Err ValueErr else
  if negb (length p =? n)%nat then Err ValueErr else
  if existsb (fun q => if Rlt_dec q 0 then true else false) p then Err ValueErr else
  if Rlt_dec (/ 2 ^ 26) (Rabs (rsum p - 1)) then Err ValueErr else
  Ok (length (filter (fun c => if Rle_dec c u then true else false) (map (fun c => c / rsum p) (rcumsum 0 p)))).
(** [GaussianMixture.sample], 44-64: [rv m s] is the draw from the component. *)
Variable rv : V -> S -> result V.
Definition msample (g : gmix) (u : R) : result V :=
  do i <- choice (length (gm_m g)) (gm_w g) u;
  match nth_error (gm_m g) i, nth_error (gm_c g) i with
  | Some m, Some s => rv m s
  | _, _ => Err IndexErr
  end.
End M.
Arguments gmix : clear implicits.
Arguments Build_gmix {V S}.

(** StudentsTMixture: the attribute dof is documented as a float, but sample also
    accepts a list of one value per component (157-160). *)
Inductive dof_t := DofNum (d : R) | DofList (l : list R).
Section T.
Context {V S : Type}.
Variable scale : R -> S -> S.
(** [covariances], 107-114: comparing a list with 2 raises TypeError. *)
Definition tcovs (d : dof_t) (scal : list S) : result (list S) :=
  match d with
  | DofList _ => Err TypeErr
  | DofNum v => if Rle_dec v 2 then Err RuntimeErr else Ok (map (scale (v / (v - 2))) scal)
  end.
(** scipy.stats.multivariate_t checks df <= 0 (ValueError; TypeError for a list). *)
Definition tdens (f : R -> V -> V -> S -> result R) (d : dof_t) (x m : V) (s : S) : result R :=
  match d with
  | DofList _ => Err TypeErr
  | DofNum v => if Rle_dec v 0 then Err ValueErr else f v x m s
  end.
(** [StudentsTMixture.sample], 134-165.  [gen] is the identity of the generator
    object (the caller's or a fresh one); the first component of the state is the
    generator that scipy's module-wide object stats.multivariate_t uses, which line
    153 sets. *)
Definition tsample (draw : R -> V -> S -> result V) (d : dof_t) (g : gmix V S) (gen : nat) (u : R) (glob : nat) : nat * result V :=
  (gen, do i <- choice (length (gm_m g)) (gm_w g) u;
        do v <- match d with DofNum v => Ok v | DofList l => match nth_error l i with Some v => Ok v | None => Err IndexErr end end;
        match nth_error (gm_m g) i, nth_error (gm_c g) i with
        | Some m, Some s => if Rle_dec v 0 then Err ValueErr else draw v m s
        | _, _ => Err IndexErr
        end).
End T.
