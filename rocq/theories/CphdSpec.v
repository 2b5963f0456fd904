(** Specification vocabulary for the CPHD filter. *)
From Verif Require Import Base.
From Coq Require Import Reals Permutation.
From Verif Require Import OspaModel CphdModel.
Open Scope R_scope.

(** [l] is a probability distribution on 0..mx. *)
Definition distribution (mx : nat) (l : list R) : Prop :=
  length l = S mx /\ (forall x, In x l -> 0 <= x) /\ rsum l = 1.
(** The mixture's lists have equal length; no negative weight. *)
Definition raligned {V M} (g : rmix V M) : Prop :=
  length (rm_m g) = length (rm_w g) /\ length (rm_p g) = length (rm_w g).
Definition rnonneg {V M} (g : rmix V M) : Prop := forall x, In x (rm_w g) -> 0 <= x.

(** [b] is the sum of the first weights of the mixtures [births]. *)
Definition first_weights {V M} (births : list (rmix V M)) (b : R) : Prop :=
  exists l, Forall2 (fun g w => nth_error (rm_w g) 0 = Some w) births l /\ b = rsum l.
(** Sum over k = a..b (0 when b < a). *)
Definition sum_ab (a b : nat) (f : nat -> R) : R := rsum (map f (seq a (S b - a))).

(** Binomial thinning of [rho] on 0..mx: probability that j objects survive. *)
Definition thinned (ps : R) (mx : nat) (rho : list R) (j : nat) : R :=
  sum_ab j mx (fun i => C i j * ps ^ j * (1 - ps) ^ (i - j) * nth i rho 0).
(** Poisson probability of k births. *)
Definition poisson (b : R) (k : nat) : R := exp (- b) * b ^ k / INR (fact k).
(** The CPHD cardinality prediction (Vo et al. 2007): survivors plus Poisson
    births, cut at mx and normalised. *)
Definition predicted (ps b : R) (mx : nat) (rho : list R) (n : nat) : R :=
  sum_ab 0 n (fun j => poisson b (n - j) * thinned ps mx rho j).
Definition predicted_norm (ps b : R) (mx : nat) (rho : list R) (n : nat) : R :=
  predicted ps b mx rho n / sum_ab 0 mx (predicted ps b mx rho).

(** Elementary symmetric function e_j of a list. *)
Fixpoint esym (l : list R) (j : nat) : R :=
  match j, l with
  | O, _ => 1
  | S _, [] => 0
  | S j', x :: l' => esym l' j + x * esym l' j'
  end.
(** Contract of get_elem_sym_fnc: e_0, ..., e_len. *)
Definition esf_ok (f : list R -> list R) : Prop :=
  forall l, f l = map (esym l) (seq 0 (S (length l))).

(** The CPHD correction (Vo et al. 2007, Poisson clutter of intensity [rate]):
    Upsilon^u[w, Z](n) with total prior weight [tot] and miss probability [q]. *)
Definition upsilon (rate tot q : R) (u : nat) (xi : list R) (n : nat) : R :=
  sum_ab 0 (Nat.min (length xi) n) (fun j =>
    if (j + u <=? n)%nat then
      exp (- rate) * rate ^ (length xi - j) * (INR (fact n) / INR (fact (n - (j + u)))) *
      q ^ (n - (j + u)) / tot ^ (j + u) * esym xi j
    else 0).
(** <f, rho> over 0..mx *)
Definition inner (mx : nat) (f : nat -> R) (rho : list R) : R := sum_ab 0 mx (fun n => f n * nth n rho 0).

(** Likelihood lists per measurement -> the values Xi; list without entry j. *)
Definition xi_of (pd den : R) (w : list R) (L : list (list R)) : list R :=
  map (fun q => pd / den * rsum (map (fun wq => fst wq * snd wq) (combine w q))) L.
Definition without {A} (j : nat) (l : list A) : list A := firstn j l ++ skipn (S j) l.
(** Corrected weights: missed detections, then one block per measurement. *)
Definition cphd_weights (rate den pd q : R) (mx : nat) (rho w : list R) (L : list (list R)) : list R :=
  let xi := xi_of pd den w L in
  let U u x := inner mx (upsilon rate (rsum w) q u x) rho in
  map (fun wi => U 1%nat xi / U 0%nat xi * (1 - pd) * wi) w ++
  flat_map (fun jl => map (fun wq => U 1%nat (without (fst jl) xi) / U 0%nat xi * (pd * snd wq / den * fst wq))
                          (combine w (snd jl))) (combine (seq 0 (length L)) L).
(** Corrected probability of n objects. *)
Definition cphd_card (rate den pd q : R) (mx : nat) (rho w : list R) (L : list (list R)) (n : nat) : R :=
  let U := upsilon rate (rsum w) q 0 (xi_of pd den w L) in
  U n * nth n rho 0 / inner mx U rho.

(** An integer nearest to [x], the even one on ties. *)
Definition nearest_even (x : R) (r : Z) : Prop :=
  IZR r - 1 / 2 <= x <= IZR r + 1 / 2 /\ (x = IZR r - 1 / 2 \/ x = IZR r + 1 / 2 -> Z.even r = true).
(** np.argsort: any order of ties. *)
Definition rsorts (argsort : list R -> list nat) : Prop := forall ws,
  Permutation (argsort ws) (seq 0 (length ws)) /\
  forall i j, (i < j < length ws)%nat -> nth (nth i (argsort ws) 0%nat) ws 0 <= nth (nth j (argsort ws) 0%nat) ws 0.
(** [m] is the (first) position of the largest entry. *)
Definition is_mode (l : list R) (m : nat) : Prop :=
  (m < length l)%nat /\ (forall k, (k < length l)%nat -> nth k l 0 <= nth m l 0) /\
  (forall k, (k < m)%nat -> nth k l 0 < nth m l 0).
(** Sum of integers. *)
Definition zsum (l : list Z) : Z := fold_right Z.add 0%Z l.
