(** Specification vocabulary for the PHD filter. *)
From Verif Require Import Base PhdModel.
From Coq Require Permutation.

(** The three lists of a mixture have the same length [n]. *)
Definition aligned_n (n : nat) (g : gmix) : Prop :=
  length (gm_w g) = n /\ length (gm_m g) = n /\ length (gm_p g) = n.
Definition aligned (g : gmix) : Prop := aligned_n (length (gm_w g)) g.
Definition nonneg (g : gmix) : Prop := forall x, In x (gm_w g) -> (0 <= x)%Q.
Definition positive (g : gmix) : Prop := forall x, In x (gm_w g) -> (0 < x)%Q.

(** Component [i] of a mixture. *)
Definition W (g : gmix) (i : nat) : Q := nth i (gm_w g) 0%Q.
Definition Mn (g : gmix) (i : nat) : vec := nth i (gm_m g) (fun _ => 0%Q).
Definition P (g : gmix) (i : nat) : mat := nth i (gm_p g) (fun _ _ => 0%Q).
Definition comps (g : gmix) : list (Q * vec * mat) := combine (combine (gm_w g) (gm_m g)) (gm_p g).

Definition total (g : gmix) : Q := qsum (gm_w g).
(** Sum of [f i] over the indices in [l]. *)
Definition sum_over (l : list nat) (f : nat -> Q) : Q := qsum (map f l).

(** [r] is an integer nearest to [q], the even one on ties. *)
Definition nearest_even (q : Q) (r : Z) : Prop :=
  (inject_Z r - (1 # 2) <= q)%Q /\ (q <= inject_Z r + (1 # 2))%Q /\
  ((q == inject_Z r - (1 # 2))%Q \/ (q == inject_Z r + (1 # 2))%Q -> Z.even r = true).

(** [idx] sorts the values [ws] increasingly (np.argsort, any order of ties). *)
Definition sorts (idx : list nat) (ws : list Q) : Prop :=
  Permutation.Permutation idx (seq 0 (length ws)) /\
  forall i j, i < j < length ws -> (nth (nth i idx 0%nat) ws 0 <= nth (nth j idx 0%nat) ws 0)%Q.

(** Matrices of size [n]: [a] is the inverse of [b]; [l] is the Cholesky factor
    of [s]. *)
Definition meq (n : nat) (a b : mat) : Prop := forall i j, i < n -> j < n -> (a i j == b i j)%Q.
Definition mid : mat := fun i j => if i =? j then 1%Q else 0%Q.
Definition is_inverse (n : nat) (a b : mat) : Prop := meq n (mmul n a b) mid /\ meq n (mmul n b a) mid.
Definition is_chol (n : nat) (l s : mat) : Prop :=
  meq n (mmul n l (mtrans l)) s /\ (forall i j, i < j -> j < n -> (l i j == 0)%Q) /\ (forall i, i < n -> (0 < l i i)%Q).
(** Covariance of the predicted measurement, h p h^T + r. *)
Definition innov (n : nat) (h p r : mat) : mat :=
  fun i j => (sum_over (seq 0 n) (fun k => sum_over (seq 0 n) (fun l => h i k * p k l * h j l)) + r i j)%Q.
Definition symmetric (n : nat) (a : mat) : Prop := forall i j, i < n -> j < n -> (a i j == a j i)%Q.
