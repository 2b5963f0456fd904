(** The failure of C161 bit by bit: [gibbs] with Coq's own specification of
    binary64 arithmetic (SpecFloat, no axioms). *)
From Coq Require Import ZArith SpecFloat.
From Verif Require Import Base GibbsModel FltGibbsModel GibbsSpec.

Definition b64 := spec_float.
Definition b0 : b64 := S754_zero false.
Definition badd : b64 -> b64 -> b64 := SFadd 53 1024.
Definition bdiv : b64 -> b64 -> b64 := SFdiv 53 1024.
(** k 2^e *)
Definition bin (k e : Z) : b64 := binary_normalize 53 1024 k e false.

(** Costs are given by their weights (np.exp(-cost)); the cost of a row is not
    looked at. *)
Definition bits_gibbs (ws : list (list b64)) M rnd n :=
  ggibbs b0 badd bdiv SFltb SFleb b0 (fun _ => b0) ws M (fun w => w) rnd n.

(** Weights 1 and fifteen times 2^-53, the random number is 1 - 2^-53. *)
Definition bad_weights : list (list b64) := [bin 1 0 :: repeat (bin 1 (-53)) 15].
Theorem C161_bits_raises :
  bits_gibbs bad_weights 16 (fun _ _ => bin (2 ^ 53 - 1) (-53)) 2 = Err IndexErr.
Proof. vm_compute. reflexivity. Qed.
(** np.sum gives 1 + 7 2^-52, the last element of np.cumsum is 1. *)
Example C161_bits_sums :
  np_sum b0 badd (hd [] bad_weights) = bin (2 ^ 52 + 7) (-52) /\
  last (fcumsum badd (hd [] bad_weights)) b0 = bin 1 0.
Proof. vm_compute. split; reflexivity. Qed.
(** A smaller random number is fine. *)
Example C161_bits_fine :
  bits_gibbs bad_weights 16 (fun _ _ => bin (2 ^ 53 - 16) (-53)) 2
  = Ok ([[0]; [1]], [b0; b0]).
Proof. vm_compute. reflexivity. Qed.
