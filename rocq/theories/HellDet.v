(** Determinants of positive definite matrices by pivots: monotone under rank-one
    updates, and det A * det B <= det ((A + B) / 2) ^ 2 with equality only for A = B. *)
From Verif Require Import Base OspaModel OspaSpec OspaProofs HellSpec.
From Coq Require Import Reals List Arith Lia Lra FunctionalExtensionality.
Import ListNotations.
Local Open Scope R_scope.

Lemma rs_first n f : rsumn (S n) f = f 0%nat + rsumn n (fun i => f (S i)).
Proof. induction n as [|n IH]; [cbn; ring|]. change (rsumn (S (S n)) f) with (rsumn (S n) f + f (S n)). rewrite IH. cbn [rsumn]. ring. Qed.
Lemma rs_plus n f g : rsumn n (fun i => f i + g i) = rsumn n f + rsumn n g.
Proof. induction n as [|n IH]; cbn [rsumn]; [ring|]. rewrite IH. ring. Qed.
Lemma rs_scal n a f : rsumn n (fun i => a * f i) = a * rsumn n f.
Proof. induction n as [|n IH]; cbn [rsumn]; [ring|]. rewrite IH. ring. Qed.
Lemma rs_swap n m f : rsumn n (fun i => rsumn m (fun j => f i j)) = rsumn m (fun j => rsumn n (fun i => f i j)).
Proof.
  induction n as [|n IH]; cbn [rsumn]; [symmetry; apply rsumn_zero; reflexivity|].
  rewrite IH, <- rs_plus. reflexivity.
Qed.
Lemma rp_first n f : rprodn (S n) f = f 0%nat * rprodn n (fun i => f (S i)).
Proof. induction n as [|n IH]; [cbn; ring|]. change (rprodn (S (S n)) f) with (rprodn (S n) f * f (S n)). rewrite IH. cbn [rprodn]. ring. Qed.
Lemma rp_one n f : (forall i, (i < n)%nat -> f i = 1) -> rprodn n f = 1.
Proof. induction n as [|n IH]; intros H; cbn [rprodn]; [reflexivity|]. rewrite IH, H; [ring|lia|intros; apply H; lia]. Qed.
Lemma rp_ext n f g : (forall i, (i < n)%nat -> f i = g i) -> rprodn n f = rprodn n g.
Proof. induction n as [|n IH]; intros H; cbn [rprodn]; [reflexivity|]. rewrite IH, H; [reflexivity|lia|intros; apply H; lia]. Qed.

Definition shift (A : rmat) : rmat := fun i j => A (S i) (S j).
Definition schur (A : rmat) : rmat := fun i j => A (S i) (S j) - A (S i) 0%nat * A 0%nat (S j) / A 0%nat 0%nat.
Fixpoint piv (n : nat) (A : rmat) : R :=
  match n with O => 1 | S n' => A 0%nat 0%nat * piv n' (schur A) end.
Definition symm_on (n : nat) (A : rmat) : Prop := forall i j, (i < n)%nat -> (j < n)%nat -> A i j = A j i.

Lemma quad_first n A x : symm_on (S n) A ->
  quad (S n) A x = x 0%nat * x 0%nat * A 0%nat 0%nat + 2 * x 0%nat * rsumn n (fun i => x (S i) * A (S i) 0%nat) + quad n (shift A) (fun i => x (S i)).
Proof.
  intros HS. unfold quad. rewrite rs_first, rs_first.
  assert (E : rsumn n (fun j => rsumn (S n) (fun i => x i * A i (S j)) * x (S j)) =
    rsumn n (fun j => x 0%nat * (x (S j) * A (S j) 0%nat) + rsumn n (fun i => x (S i) * shift A i j) * x (S j))).
  { apply rsumn_ext. intros j Hj. rewrite rs_first. rewrite (HS 0%nat (S j)) by lia. unfold shift. ring. }
  rewrite E, rs_plus, rs_scal. ring.
Qed.
Lemma quad_schur n A x : symm_on (S n) A -> A 0%nat 0%nat <> 0 ->
  quad n (schur A) x = quad n (shift A) x - rsumn n (fun i => x i * A (S i) 0%nat) * rsumn n (fun i => x i * A (S i) 0%nat) / A 0%nat 0%nat.
Proof.
  intros HS Ha. set (s := rsumn n (fun i => x i * A (S i) 0%nat)). unfold quad.
  rewrite (rsumn_ext n _ (fun j => rsumn n (fun i => x i * shift A i j) * x j + (- s / A 0%nat 0%nat) * (x j * A (S j) 0%nat))).
  - rewrite rs_plus, rs_scal. fold s. field. exact Ha.
  - intros j Hj. rewrite (rsumn_ext n _ (fun i => x i * shift A i j + (- A 0%nat (S j) / A 0%nat 0%nat) * (x i * A (S i) 0%nat))).
    + rewrite rs_plus, rs_scal. fold s. rewrite (HS 0%nat (S j)) by lia. field. exact Ha.
    + intros i Hi. unfold schur, shift. field. exact Ha.
Qed.
Lemma quad_split n A x : symm_on (S n) A -> A 0%nat 0%nat <> 0 ->
  quad (S n) A x = A 0%nat 0%nat * (x 0%nat + rsumn n (fun i => x (S i) * A (S i) 0%nat) / A 0%nat 0%nat) ^ 2 + quad n (schur A) (fun i => x (S i)).
Proof. intros HS Ha. rewrite quad_first, quad_schur by assumption. field. exact Ha. Qed.
Lemma quad_ext n A B x y : (forall i j, (i < n)%nat -> (j < n)%nat -> A i j = B i j) -> (forall i, (i < n)%nat -> x i = y i) -> quad n A x = quad n B y.
Proof. intros H Hx. unfold quad. apply rsumn_ext. intros j Hj. rewrite Hx by exact Hj. f_equal. apply rsumn_ext. intros i Hi. rewrite H, Hx by assumption. reflexivity. Qed.
Lemma quad_zero n A x : (forall i, (i < n)%nat -> x i = 0) -> quad n A x = 0.
Proof. intros H. unfold quad. apply rsumn_zero. intros j Hj. rewrite (H j Hj). ring. Qed.
Lemma quad_add n A B x : quad n (fun i j => A i j + B i j) x = quad n A x + quad n B x.
Proof. unfold quad. rewrite <- rs_plus. apply rsumn_ext. intros j _. rewrite (rsumn_ext n _ (fun i => x i * A i j + x i * B i j)) by (intros; ring). rewrite rs_plus. ring. Qed.
Lemma quad_mul n a A x : quad n (fun i j => a * A i j) x = a * quad n A x.
Proof. unfold quad. rewrite <- rs_scal. apply rsumn_ext. intros j _. rewrite (rsumn_ext n _ (fun i => a * (x i * A i j))) by (intros; ring). rewrite rs_scal. ring. Qed.
Lemma quad_rank1 n c z x : quad n (fun i j => c * z i * z j) x = c * (rsumn n (fun i => x i * z i)) ^ 2.
Proof.
  unfold quad. set (s := rsumn n (fun i => x i * z i)). rewrite (rsumn_ext n _ (fun j => (c * s) * (x j * z j))).
  - rewrite rs_scal. fold s. ring.
  - intros j _. rewrite (rsumn_ext n _ (fun i => (c * z j) * (x i * z i))) by (intros; ring). rewrite rs_scal. fold s. ring.
Qed.

Lemma pd_ext n A B : (forall i j, (i < n)%nat -> (j < n)%nat -> A i j = B i j) -> positive_definite n A -> positive_definite n B.
Proof.
  intros H [HS HP]. split; [intros i j Hi Hj; rewrite <- !H by assumption; apply HS; assumption|].
  intros x Hx. rewrite <- (quad_ext n A B x x H) by reflexivity. apply HP, Hx.
Qed.
Lemma pd_pivot n A : positive_definite (S n) A -> 0 < A 0%nat 0%nat.
Proof.
  intros [HS HP]. specialize (HP (fun i => match i with O => 1 | _ => 0 end)).
  rewrite quad_first in HP by exact HS. rewrite quad_zero in HP by reflexivity. rewrite rsumn_zero in HP by (intros; ring).
  assert (X : exists i, (i < S n)%nat /\ (match i with O => 1 | _ => 0 end : R) <> 0) by (exists 0%nat; split; [lia|exact R1_neq_R0]).
  specialize (HP X). lra.
Qed.
Lemma pd_schur n A : positive_definite (S n) A -> positive_definite n (schur A).
Proof.
  intros PD. pose proof (pd_pivot n A PD) as Ha. destruct PD as [HS HP]. split.
  - intros i j Hi Hj. unfold schur. rewrite (HS (S i) (S j)), (HS (S i) 0%nat), (HS 0%nat (S j)) by lia. field. lra.
  - intros y [k [Hk Hy]]. set (s := rsumn n (fun i => y i * A (S i) 0%nat)).
    specialize (HP (fun i => match i with O => - s / A 0%nat 0%nat | S i' => y i' end)).
    rewrite quad_split in HP by (assumption || lra). cbn beta iota in HP. fold s in HP.
    replace (- s / A 0%nat 0%nat + s / A 0%nat 0%nat) with 0 in HP by (field; lra).
    assert (X : exists i, (i < S n)%nat /\ (match i with O => - s / A 0%nat 0%nat | S i' => y i' end) <> 0) by (exists (S k); split; [lia|exact Hy]).
    specialize (HP X). change (fun i => y i) with y in HP. lra.
Qed.
Lemma schur_ext n A B : (forall i j, (i < S n)%nat -> (j < S n)%nat -> A i j = B i j) -> forall i j, (i < n)%nat -> (j < n)%nat -> schur A i j = schur B i j.
Proof. intros H i j Hi Hj. unfold schur. rewrite !H by lia. reflexivity. Qed.
Lemma piv_ext n : forall A B, (forall i j, (i < n)%nat -> (j < n)%nat -> A i j = B i j) -> piv n A = piv n B.
Proof. induction n as [|n IH]; intros A B H; cbn [piv]; [reflexivity|]. rewrite (H 0%nat 0%nat) by lia. f_equal. apply IH. apply schur_ext, H. Qed.
Lemma piv_pos n : forall A, positive_definite n A -> 0 < piv n A.
Proof. induction n as [|n IH]; intros A H; cbn [piv]; [lra|]. apply Rmult_lt_0_compat; [eapply pd_pivot, H|apply IH, pd_schur, H]. Qed.

(** LU decomposition. *)
Lemma lu n : forall A, positive_definite n A -> exists L U,
  (forall i, (i < n)%nat -> L i i = 1) /\ (forall i j, (i < j < n)%nat -> L i j = 0) /\ (forall i j, (j < i < n)%nat -> U i j = 0) /\
  (forall i j, (i < n)%nat -> (j < n)%nat -> mprod n L U i j = A i j) /\ rprodn n (fun i => U i i) = piv n A.
Proof.
  induction n as [|n IH]; intros A PD.
  - exists A, A. repeat split; intros; lia.
  - pose proof (pd_pivot n A PD) as Ha. destruct (IH _ (pd_schur n A PD)) as [L [U [H1 [H2 [H3 [H4 H5]]]]]].
    set (a := A 0%nat 0%nat) in *.
    exists (fun i j => match i, j with O, O => 1 | O, S _ => 0 | S i', O => A i 0%nat / a | S i', S j' => L i' j' end),
           (fun i j => match i, j with O, _ => A 0%nat j | S _, O => 0 | S i', S j' => U i' j' end).
    split; [|split; [|split; [|split]]].
    + intros [|i] Hi; [reflexivity|apply H1; lia].
    + intros [|i] [|j] Hij; try lia; [reflexivity|apply H2; lia].
    + intros [|i] [|j] Hij; try lia; [reflexivity|apply H3; lia].
    + intros i j Hi Hj. unfold mprod. rewrite rs_first. destruct i as [|i].
      * rewrite (rsumn_zero n) by (intros; ring). ring.
      * destruct j as [|j].
        -- rewrite (rsumn_zero n) by (intros; ring). fold a. field. lra.
        -- specialize (H4 i j ltac:(lia) ltac:(lia)). unfold mprod in H4. rewrite H4. unfold schur. fold a. field. lra.
    + rewrite rp_first. cbn [piv]. fold a. rewrite H5. reflexivity.
Qed.
Lemma det_piv n det A : det_ok n det -> positive_definite n A -> det A = piv n A.
Proof.
  intros [DE [DM DT]] PD. destruct (lu n A PD) as [L [U [H1 [H2 [H3 [H4 H5]]]]]].
  rewrite <- (DE _ _ H4), DM, (DT L), (DT U) by (left + right; assumption). rewrite H5, rp_one by exact H1. ring.
Qed.

(** Rank-one updates do not decrease the determinant. *)
Lemma pd_rank1 n A c z : positive_definite n A -> 0 <= c -> positive_definite n (fun i j => A i j + c * z i * z j).
Proof.
  intros [HS HP] Hc. split; [intros i j Hi Hj; rewrite (HS i j) by assumption; ring|].
  intros x Hx. rewrite quad_add, quad_rank1. specialize (HP x Hx). pose proof (pow2_ge_0 (rsumn n (fun i => x i * z i))). pose proof (Rmult_le_pos _ _ Hc H). lra.
Qed.
Lemma mult_ge_eq a b p q : 0 < a -> a <= b -> 0 < p -> p <= q -> a * p <= b * q /\ (a * p = b * q -> a = b /\ p = q).
Proof.
  intros Ha Hab Hp Hpq. assert (H1 : 0 <= (b - a) * q) by (apply Rmult_le_pos; lra). assert (H2 : 0 <= a * (q - p)) by (apply Rmult_le_pos; lra).
  split; [lra|]. intros E. assert (E1 : (b - a) * q = 0) by lra. assert (E2 : a * (q - p) = 0) by lra.
  apply Rmult_integral in E1. apply Rmult_integral in E2. lra.
Qed.
Lemma piv_rank1 n : forall A c z, positive_definite n A -> 0 <= c ->
  piv n A <= piv n (fun i j => A i j + c * z i * z j) /\
  (0 < c -> piv n A = piv n (fun i j => A i j + c * z i * z j) -> forall i, (i < n)%nat -> z i = 0).
Proof.
  induction n as [|n IH]; intros A c z PD Hc; [cbn [piv]; split; [lra|intros; lia]|].
  cbn [piv]. pose proof (pd_pivot n A PD) as Ha. pose proof (pd_schur n A PD) as PS. destruct PD as [HS HP].
  set (a := A 0%nat 0%nat) in *. set (z0 := z 0%nat).
  assert (Hzz : 0 <= c * z0 * z0). { rewrite Rmult_assoc. apply Rmult_le_pos; [exact Hc|]. pose proof (Rle_0_sqr z0) as X. exact X. }
  assert (E : forall i j, (i < n)%nat -> (j < n)%nat ->
     schur (fun i j => A i j + c * z i * z j) i j =
     schur A i j + (c * a / (a + c * z0 * z0)) * (z (S i) - A (S i) 0%nat * z0 / a) * (z (S j) - A (S j) 0%nat * z0 / a)).
  { intros i j Hi Hj. unfold schur. fold a z0. rewrite (HS 0%nat (S j)) by lia. field. split; lra. }
  rewrite (piv_ext n _ _ E).
  assert (Hc' : 0 <= c * a / (a + c * z0 * z0)). { apply Rmult_le_pos; [apply Rmult_le_pos; lra|left; apply Rinv_0_lt_compat; lra]. }
  destruct (IH (schur A) _ (fun i => z (S i) - A (S i) 0%nat * z0 / a) PS Hc') as [I1 I2].
  pose proof (piv_pos n _ PS) as Hp.
  destruct (mult_ge_eq a (a + c * z0 * z0) (piv n (schur A)) _ Ha ltac:(lra) Hp I1) as [M1 M2].
  split; [exact M1|]. intros Hcp EQ. destruct (M2 EQ) as [Q1 Q2].
  assert (Z0 : z0 = 0). { assert (Y : c * (z0 * z0) = 0) by lra. apply Rmult_integral in Y as [Y|Y]; [lra|]. apply Rmult_integral in Y. lra. }
  intros [|i] Hi; [exact Z0|].
  assert (Hcp' : 0 < c * a / (a + c * z0 * z0)). { apply Rmult_lt_0_compat; [apply Rmult_lt_0_compat; lra|apply Rinv_0_lt_compat; lra]. }
  specialize (I2 Hcp' Q2 i ltac:(lia)). cbn beta in I2. rewrite Z0 in I2. lra.
Qed.

(** Log-concavity of the determinant at the midpoint, with its equality case. *)
Definition mid (A B : rmat) : rmat := fun i j => / 2 * (A i j + B i j).
Lemma pd_mid n A B : positive_definite n A -> positive_definite n B -> positive_definite n (mid A B).
Proof.
  intros [SA PA] [SB PB]. split; [intros i j Hi Hj; unfold mid; rewrite (SA i j), (SB i j) by assumption; reflexivity|].
  intros x Hx. unfold mid. rewrite (quad_mul n (/ 2) (fun i j => A i j + B i j)), quad_add. specialize (PA x Hx). specialize (PB x Hx). lra.
Qed.
Lemma am_gm a b : 0 < a -> 0 < b -> a * b <= (/ 2 * (a + b)) ^ 2 /\ (a * b = (/ 2 * (a + b)) ^ 2 -> a = b).
Proof.
  intros Ha Hb. pose proof (pow2_ge_0 (a - b)) as H. split; [lra|]. intros E. assert (Z : (a - b) * (a - b) = 0) by lra. apply Rmult_integral in Z. lra.
Qed.
Lemma piv_mid n : forall A B, positive_definite n A -> positive_definite n B ->
  piv n A * piv n B <= piv n (mid A B) ^ 2 /\
  (piv n A * piv n B = piv n (mid A B) ^ 2 -> forall i j, (i < n)%nat -> (j < n)%nat -> A i j = B i j).
Proof.
  induction n as [|n IH]; intros A B PA PB; [cbn [piv]; split; [lra|intros; lia]|].
  cbn [piv]. pose proof (pd_pivot n A PA) as Ha. pose proof (pd_pivot n B PB) as Hb.
  pose proof (pd_schur n A PA) as QA. pose proof (pd_schur n B PB) as QB.
  pose proof (proj1 PA) as SA. pose proof (proj1 PB) as SB.
  set (a := A 0%nat 0%nat) in *. set (b := B 0%nat 0%nat) in *.
  change (mid A B 0%nat 0%nat) with (/ 2 * (a + b)).
  set (k := a * b / (2 * (a + b))). set (z := fun i => A (S i) 0%nat / a - B (S i) 0%nat / b).
  assert (E : forall i j, (i < n)%nat -> (j < n)%nat -> schur (mid A B) i j = mid (schur A) (schur B) i j + k * z i * z j).
  { intros i j Hi Hj. unfold schur, mid. fold a b. unfold k, z. rewrite (SA 0%nat (S j)), (SB 0%nat (S j)) by lia. field. lra. }
  rewrite (piv_ext n _ _ E). destruct (IH _ _ QA QB) as [I1 I2].
  pose proof (pd_mid n _ _ QA QB) as QM.
  assert (Hk : 0 < k) by (apply Rmult_lt_0_compat; [apply Rmult_lt_0_compat; lra|apply Rinv_0_lt_compat; lra]).
  destruct (piv_rank1 n _ k z QM ltac:(lra)) as [R1 R2].
  pose proof (piv_pos n _ QA) as HA. pose proof (piv_pos n _ QB) as HB. pose proof (piv_pos n _ QM) as HM.
  set (pa := piv n (schur A)) in *. set (pb := piv n (schur B)) in *. set (pm := piv n (mid (schur A) (schur B))) in *.
  set (pr := piv n (fun i j => mid (schur A) (schur B) i j + k * z i * z j)) in *.
  destruct (am_gm a b Ha Hb) as [G1 G2].
  assert (PM : pm ^ 2 <= pr ^ 2) by (apply pow_incr; lra).
  destruct (mult_ge_eq (a * b) ((/ 2 * (a + b)) ^ 2) (pa * pb) (pr ^ 2)) as [M1 M2];
    [apply Rmult_lt_0_compat; lra|exact G1|apply Rmult_lt_0_compat; lra|lra|].
  split; [lra|]. intros EQ. destruct M2 as [N1 N2]; [lra|].
  assert (Eab : a = b) by (apply G2; exact N1).
  assert (Epm : pa * pb = pm ^ 2) by lra. assert (Epr : pm = pr).
  { destruct (Rle_lt_or_eq_dec _ _ R1) as [L|L]; [|exact L]. exfalso. assert (pm * pm < pr * pr) by (apply Rmult_le_0_lt_compat; lra). lra. }
  specialize (R2 Hk Epr). specialize (I2 Epm).
  assert (V : forall i, (i < n)%nat -> A (S i) 0%nat = B (S i) 0%nat).
  { intros i Hi. specialize (R2 i Hi). unfold z in R2. rewrite <- Eab in R2. apply (Rmult_eq_reg_r (/ a)); [unfold Rdiv in R2; lra|]. apply Rinv_neq_0_compat; lra. }
  intros [|i] [|j] Hi Hj; [exact Eab|rewrite (SA 0%nat (S j)), (SB 0%nat (S j)) by lia; apply V; lia|apply V; lia|].
  specialize (I2 i j ltac:(lia) ltac:(lia)). unfold schur in I2. fold a b in I2.
  rewrite (SA 0%nat (S j)), (SB 0%nat (S j)), !V, <- Eab in I2 by lia. lra.
Qed.

(** Quadratic form of the inverse. *)
Lemma quad_inv n inv A d : inv_ok n inv -> positive_definite n A ->
  0 <= quad n (inv A) d /\ (quad n (inv A) d = 0 -> forall i, (i < n)%nat -> d i = 0).
Proof.
  intros HI PD. set (y := fun j => rsumn n (fun i => inv A j i * d i)).
  assert (Ay : forall i, (i < n)%nat -> rsumn n (fun k => A i k * y k) = d i).
  { intros i Hi. unfold y. rewrite (rsumn_ext n _ (fun k => rsumn n (fun j => A i k * inv A k j * d j))) by (intros; rewrite <- rs_scal; apply rsumn_ext; intros; ring).
    rewrite rs_swap. rewrite (rsumn_ext n _ (fun j => (if (i =? j)%nat then 1 else 0) * d j)).
    - clear -Hi. induction n as [|n IH]; [lia|]. cbn [rsumn]. destruct (Nat.eq_dec i n) as [->|Hne].
      + rewrite Nat.eqb_refl. rewrite rsumn_zero; [ring|]. intros j Hj. destruct (Nat.eqb_spec n j); [lia|ring].
      + rewrite IH by lia. destruct (Nat.eqb_spec i n); [lia|]. ring.
    - intros j Hj. rewrite <- (HI A PD i j Hi Hj). unfold mprod. rewrite Rmult_comm, <- rs_scal. apply rsumn_ext. intros; ring. }
  assert (Q : quad n (inv A) d = quad n A y).
  { transitivity (rsumn n (fun i => d i * y i)).
    - unfold quad, y. rewrite (rsumn_ext n _ (fun j => rsumn n (fun i => d i * (inv A i j * d j)))) by (intros j _; rewrite Rmult_comm, <- rs_scal; apply rsumn_ext; intros; ring).
      rewrite rs_swap. apply rsumn_ext. intros i _. rewrite rs_scal. reflexivity.
    - unfold quad. apply rsumn_ext. intros j Hj. f_equal. rewrite <- (Ay j Hj). apply rsumn_ext. intros i Hi. rewrite (proj1 PD j i) by assumption. ring. }
  rewrite Q. destruct PD as [HS HP].
  assert (DZ : (exists i, (i < n)%nat /\ y i <> 0) \/ forall i, (i < n)%nat -> y i = 0).
  { clearbody y. clear. induction n as [|n [[i [Hi H]]|IH]]; [right; intros; lia|left; exists i; split; [lia|exact H]|].
    destruct (Req_EM_T (y n) 0) as [E|E]; [|left; exists n; split; [lia|exact E]]. right. intros i Hi. destruct (Nat.eq_dec i n) as [->|]; [exact E|apply IH; lia]. }
  destruct DZ as [X|X].
  - specialize (HP y X). split; [lra|intros; lra].
  - rewrite quad_zero by exact X. split; [lra|]. intros _ i Hi. rewrite <- (Ay i Hi). apply rsumn_zero. intros k Hk. rewrite (X k Hk). ring.
Qed.
