(** Specification vocabulary for the PHD weights in double precision. *)
From Coq Require Import Reals ZArith.
From Flocq Require Import Core.
From Verif Require Import Base RBase RPhdModel FltIeee FltGibbs.
Local Open Scope R_scope.

(** [x] is [y] up to [K] relative errors of 2^-53 and an absolute error of
    2^-480 (weights that small may underflow). *)
Definition close (K : nat) (x y : R) : Prop := Rabs (x - y) <= INR K * u64 * y + bpow radix2 (-480).
(** The same components, with nonnegative double weights close to the exact
    ones. *)
Definition close_mix (K : nat) (g64 g : gmix) : Prop :=
  gm_m g64 = gm_m g /\ gm_p g64 = gm_p g /\
  Forall2 (fun x y => rep64 x /\ 0 <= x /\ close K x y) (gm_w g64) (gm_w g).
(** Two results: the same error, or values related by [P]. *)
Definition same_outcome {A B} (P : A -> B -> Prop) (a : result A) (b : result B) : Prop :=
  match a, b with Ok x, Ok y => P x y | Err e, Err e' => e = e' | _, _ => False end.

(** Doubles that cannot make a product overflow. *)
Definition weights_ok (l : list R) : Prop := forall x, In x l -> rep64 x /\ 0 <= x <= bpow radix2 300.
Definition prob64 (p : R) : Prop := rep64 p /\ 0 <= p <= 1.
Definition lik_ok {Meas} (c : cfg Meas) : Prop :=
  forall z m p, let q := snd (fcorrect (c_filter c) z m p) in rep64 q /\ 0 <= q <= bpow radix2 300.
(** clutter_rate * clutter_den is not extreme. *)
Definition clutter_ok (rate den : R) : Prop := bpow radix2 (-200) <= rate * den <= bpow radix2 300.
(** The sum is at least each of its terms. *)
Definition dominates (s : list R -> R) : Prop := forall l x, nn l -> rsum l <= bpow radix2 1000 -> In x l -> x <= s l.

(** Mixtures as they are after pruning: double weights that are not extreme and
    double entries of means and covariances of size at most [B]. *)
Definition moderate_mix (dim : nat) (B : R) (g : gmix) : Prop :=
  (forall x, In x (gm_w g) -> rep64 x /\ bpow radix2 (-900) <= x <= bpow radix2 300) /\
  (forall m i, In m (gm_m g) -> (i < dim)%nat -> rep64 (m i) /\ Rabs (m i) <= B) /\
  (forall p i j, In p (gm_p g) -> (i < dim)%nat -> (j < dim)%nat -> rep64 (p i j) /\ Rabs (p i j) <= B).
(** [x] is the weight, mean and covariance of the components [G] of [g] merged
    into one, up to [K] relative errors of 2^-53 (of the size [B] of the entries
    for mean and covariance, plus 2^-100). *)
Definition merged64 (dim K : nat) (B : R) (g : gmix) (G : list nat) (x : R * vec * mat) : Prop :=
  let w := rsum (map (fun k => nth k (gm_w g) 0) G) in
  let avg f := rsum (map (fun k => nth k (gm_w g) 0 * f k) G) / w in
  0 < w /\ rep64 (fst (fst x)) /\ Rabs (fst (fst x) - w) <= INR K * u64 * w /\
  (forall i, (i < dim)%nat -> Rabs (snd (fst x) i - avg (fun k => nth k (gm_m g) (fun _ => 0) i)) <= INR K * u64 * B + bpow radix2 (-100)) /\
  (forall i j, (i < dim)%nat -> (j < dim)%nat -> Rabs (snd x i j - avg (fun k => nth k (gm_p g) (fun _ _ => 0) i j)) <= INR K * u64 * B + bpow radix2 (-100)).
(** The groups into which merging divides the components [rest]: each group is
    what is [within] the heaviest remaining component. *)
Fixpoint grouping (minv : mat -> result mat) (within : vec -> vec -> mat -> bool) (g : gmix) (rest : list nat) (groups : list (list nat)) : Prop :=
  match groups with
  | [] => rest = []
  | G :: gs => exists jj ic, In jj rest /\ (forall k, In k rest -> nth k (gm_w g) 0 <= nth jj (gm_w g) 0) /\
      minv (nth jj (gm_p g) (fun _ _ => 0)) = Ok ic /\
      G = filter (fun i => within (nth i (gm_m g) (fun _ => 0)) (nth jj (gm_m g) (fun _ => 0)) ic) rest /\
      grouping minv within g (filter (fun i => negb (within (nth i (gm_m g) (fun _ => 0)) (nth jj (gm_m g) (fun _ => 0)) ic)) rest) gs
  end.
