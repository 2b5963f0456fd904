(** Real-number counterpart of the part of Base.v that mentions Q: costs with
    +inf, comparisons, sums.  The rest is Base.v. *)
From Verif Require Export Base.
From Coq Require Export Reals Lra.
From Verif Require OspaModel.
Open Scope nat_scope.

(** A cost: a finite number or +inf. *)
Inductive ext := Fin (q : R) | Inf.
Definition is_fin (e : ext) : bool := match e with Fin _ => true | Inf => false end.
Definition fin_val (e : ext) : R := match e with Fin q => q | Inf => 0%R end.
(** Boolean comparisons. *)
Definition Rleb (a b : R) : bool := if Rle_dec a b then true else false.
Definition Rltb (a b : R) : bool := negb (Rleb b a).
Definition Reqb (a b : R) : bool := if Req_EM_T a b then true else false.
Lemma Rleb_le a b : Rleb a b = true <-> (a <= b)%R.
Proof. unfold Rleb. destruct (Rle_dec a b); split; intros; try congruence; tauto. Qed.
Lemma Rleb_gt a b : Rleb a b = false <-> (b < a)%R.
Proof. unfold Rleb. destruct (Rle_dec a b); split; intros; try congruence; lra. Qed.
Lemma Rltb_lt a b : Rltb a b = true <-> (a < b)%R.
Proof. unfold Rltb. rewrite negb_true_iff. apply Rleb_gt. Qed.
Lemma Rltb_ge a b : Rltb a b = false <-> (b <= a)%R.
Proof. unfold Rltb. rewrite negb_false_iff. apply Rleb_le. Qed.
Lemma Reqb_eq a b : Reqb a b = true <-> a = b.
Proof. unfold Reqb. destruct (Req_EM_T a b); split; intros; congruence. Qed.
Lemma Reqb_neq a b : Reqb a b = false <-> a <> b.
Proof. unfold Reqb. destruct (Req_EM_T a b); split; intros; congruence. Qed.
(** Sums (the same as in the other real models). *)
Notation rsum := OspaModel.rsum.
Definition rsumf {A} (f : A -> R) (l : list A) : R := rsum (map f l).
