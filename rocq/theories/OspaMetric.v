(** OSPA with p = 1 is a metric on finite sets. *)
From Verif Require Import Base Lists OspaModel OspaSpec OspaProofs.
From Coq Require Import Reals Lra Permutation.
Open Scope R_scope.

(** ** the core distances are metrics *)
Definition pseudo_metric {A} (d : A -> A -> R) : Prop :=
  (forall x y, 0 <= d x y) /\ (forall x y, d x y = d y x) /\ (forall x y z, d x z <= d x y + d y z).

Lemma cauchy n a b : (rsumn n (fun i => a i * b i)) ^ 2 <= rsumn n (fun i => a i ^ 2) * rsumn n (fun i => b i ^ 2).
Proof.
  induction n as [|n IH]; [cbn; lra|]. cbn [rsumn].
  set (S := rsumn n (fun i => a i * b i)) in *. set (A := rsumn n (fun i => a i ^ 2)) in *. set (B := rsumn n (fun i => b i ^ 2)) in *.
  assert (HA : 0 <= A) by (apply rsumn_nonneg; intros; apply pow2_ge_0). assert (HB : 0 <= B) by (apply rsumn_nonneg; intros; apply pow2_ge_0).
  set (x := a n). set (y := b n).
  assert (2 * (S * x * y) <= A * y ^ 2 + B * x ^ 2); [|nra].
  assert (HP : 0 <= A * y ^ 2 + B * x ^ 2) by (pose proof (pow2_ge_0 x); pose proof (pow2_ge_0 y); nra).
  destruct (Rle_or_lt (2 * (S * x * y)) (A * y ^ 2 + B * x ^ 2)) as [H|H]; [exact H|exfalso].
  assert (H2 : (A * y ^ 2 + B * x ^ 2) * (A * y ^ 2 + B * x ^ 2) < (2 * (S * x * y)) * (2 * (S * x * y))) by (apply Rmult_le_0_lt_compat; assumption).
  assert (H3 : S ^ 2 * (x ^ 2 * y ^ 2) <= A * B * (x ^ 2 * y ^ 2)) by (apply Rmult_le_compat_r; [pose proof (pow2_ge_0 x); pose proof (pow2_ge_0 y); nra|exact IH]).
  pose proof (pow2_ge_0 (A * y ^ 2 - B * x ^ 2)). nra.
Qed.
Lemma rsumn_plus n f g : rsumn n (fun i => f i + g i) = rsumn n f + rsumn n g.
Proof. induction n as [|n IH]; cbn; [ring|]. rewrite IH. ring. Qed.
Lemma rsumn_scale n k f : rsumn n (fun i => k * f i) = k * rsumn n f.
Proof. induction n as [|n IH]; cbn; [ring|]. rewrite IH. ring. Qed.
Lemma rsumn_le n f g : (forall i, (i < n)%nat -> f i <= g i) -> rsumn n f <= rsumn n g.
Proof.
  induction n as [|n IH]; intros H; [right; reflexivity|]. cbn. pose proof (H n (Nat.lt_succ_diag_r n)).
  assert (rsumn n f <= rsumn n g); [|lra]. apply IH. auto.
Qed.
Lemma minkowski n a b : sqrt (rsumn n (fun i => (a i + b i) ^ 2)) <= sqrt (rsumn n (fun i => a i ^ 2)) + sqrt (rsumn n (fun i => b i ^ 2)).
Proof.
  set (A := rsumn n (fun i => a i ^ 2)). set (B := rsumn n (fun i => b i ^ 2)). set (S := rsumn n (fun i => a i * b i)).
  assert (HA : 0 <= A) by (apply rsumn_nonneg; intros; apply pow2_ge_0). assert (HB : 0 <= B) by (apply rsumn_nonneg; intros; apply pow2_ge_0).
  assert (E : rsumn n (fun i => (a i + b i) ^ 2) = A + 2 * S + B).
  { unfold A, B, S. rewrite <- rsumn_scale, <- !rsumn_plus. apply rsumn_ext. intros. ring. }
  rewrite E. pose proof (cauchy n a b) as C. fold S A B in C.
  pose proof (sqrt_pos A). pose proof (sqrt_pos B). pose proof (sqrt_sqrt A HA) as EA. pose proof (sqrt_sqrt B HB) as EB.
  rewrite <- (sqrt_square (sqrt A + sqrt B)) by lra. apply sqrt_le_1_alt.
  assert (S <= sqrt A * sqrt B); [|nra].
  assert (HP : 0 <= sqrt A * sqrt B) by (apply Rmult_le_pos; assumption).
  destruct (Rle_or_lt S (sqrt A * sqrt B)) as [H1|H1]; [exact H1|exfalso].
  assert ((sqrt A * sqrt B) * (sqrt A * sqrt B) < S * S) by (apply Rmult_le_0_lt_compat; assumption).
  replace ((sqrt A * sqrt B) * (sqrt A * sqrt B)) with ((sqrt A * sqrt A) * (sqrt B * sqrt B)) in H2 by ring. rewrite EA, EB in H2. nra.
Qed.
Lemma core_metric dim inv det me : symm me -> pseudo_metric (fun x y => val (core dim inv det me x y)).
Proof.
  intros S. split; [|split].
  - intros x y. destruct S as [->| ->]; cbn; [apply sqrt_pos|apply rsumn_nonneg; intros; apply Rabs_pos].
  - intros x y. f_equal. apply core_sym, S.
  - intros x y z. destruct S as [->| ->]; cbn [core val].
    + rewrite (rsumn_ext dim (fun i => (st z i - st x i) ^ 2) (fun i => ((st y i - st x i) + (st z i - st y i)) ^ 2)) by (intros; f_equal; ring).
      apply minkowski.
    + rewrite <- rsumn_plus. apply rsumn_le. intros i _. replace (st z i - st x i) with ((st y i - st x i) + (st z i - st y i)) by ring. apply Rabs_triang.
Qed.
Lemma core_zero dim inv det me x y : symm me -> val (core dim inv det me x y) = 0 -> forall i, (i < dim)%nat -> st x i = st y i.
Proof.
  assert (Z : forall n f, (forall i, (i < n)%nat -> 0 <= f i) -> rsumn n f = 0 -> forall i, (i < n)%nat -> f i = 0).
  { induction n as [|n IH]; intros f Hf E i Hi; [lia|]. cbn in E. pose proof (Hf n (Nat.lt_succ_diag_r n)).
    assert (0 <= rsumn n f) by (apply rsumn_nonneg; auto).
    destruct (Nat.eq_dec i n) as [->|]; [lra|]. apply IH; [auto|lra|lia]. }
  intros [->| ->]; cbn [core val]; intros E i Hi.
  - apply sqrt_eq_0 in E; [|apply rsumn_nonneg; intros; apply pow2_ge_0].
    pose proof (Z dim _ (fun i _ => pow2_ge_0 (st y i - st x i)) E i Hi) as F. cbn beta in F. nra.
  - pose proof (Z dim _ (fun i _ => Rabs_pos (st y i - st x i)) E i Hi) as F. cbn beta in F.
    destruct (Req_dec (st y i - st x i) 0) as [G|G]; [lra|]. apply Rabs_no_R0 in G. congruence.
Qed.

(** ** partial matchings *)
Definition pmatch (m n : nat) (a : list (nat * nat)) : Prop :=
  NoDup (map fst a) /\ NoDup (map snd a) /\ (forall i j, In (i, j) a -> (i < m /\ j < n)%nat).
Definition gain (c : R) (C : nat -> nat -> R) (a : list (nat * nat)) : R := rsum (map (fun ij => c - C (fst ij) (snd ij)) a).
Lemma gain_cost c C a : gain c C a = c * INR (length a) - cost C a.
Proof.
  unfold gain, cost. induction a as [|x a IH]; [cbn; ring|]. cbn [map length]. rewrite !rsum_cons, IH, S_INR. ring.
Qed.
Lemma unused l m : NoDup l -> (length l < m)%nat -> exists i, (i < m)%nat /\ ~ In i l.
Proof.
  intros Hn Hl. destruct (any_lt (fun i => negb (existsb (Nat.eqb i) l)) m) eqn:E.
  - apply any_lt_true in E as [i [Hi E]]. rewrite negb_true_iff, existsb_eqb_false in E. eauto.
  - exfalso. rewrite any_lt_false in E. assert (H : incl (seq 0 m) l).
    { intros i Hi. apply in_seq in Hi. specialize (E i ltac:(lia)). rewrite negb_false_iff, existsb_eqb in E. exact E. }
    apply NoDup_incl_length in H; [|apply seq_NoDup]. rewrite seq_length in H. lia.
Qed.
Lemma pmatch_len m n a : pmatch m n a -> (length a <= Nat.min m n)%nat.
Proof.
  intros [H1 [H2 H3]]. assert (length (map fst a) <= m /\ length (map snd a) <= n)%nat as [L1 L2].
  { split; [rewrite <- (seq_length m 0)|rewrite <- (seq_length n 0)]; apply NoDup_incl_length; try assumption; intros x Hx; apply in_map_iff in Hx as [[i j] [<- Hx]]; apply H3 in Hx; apply in_seq; cbn; lia. }
  rewrite map_length in L1, L2. lia.
Qed.
Lemma extend m n : forall k a, pmatch m n a -> (Nat.min m n - length a = k)%nat -> exists e, assignment m n (e ++ a).
Proof.
  induction k as [|k IH]; intros a Ha Hk.
  - exists []. pose proof (pmatch_len m n a Ha). destruct Ha as [H1 [H2 H3]]. repeat split; try assumption; try (apply H3 in H0; tauto). cbn. lia.
  - pose proof Ha as [H1 [H2 H3]].
    destruct (unused (map fst a) m H1) as [i [Hi Ni]]; [rewrite map_length; lia|].
    destruct (unused (map snd a) n H2) as [j [Hj Nj]]; [rewrite map_length; lia|].
    destruct (IH ((i, j) :: a)) as [e He].
    + repeat split; try (constructor; assumption); destruct H as [E|H]; try (injection E as <- <-; lia); apply H3 in H; lia.
    + cbn [length]. lia.
    + exists (e ++ [(i, j)]). rewrite <- app_assoc. exact He.
Qed.
Lemma gain_best m n c C v a : (forall i j, (i < m)%nat -> (j < n)%nat -> C i j <= c) ->
  least_cost m n C v -> pmatch m n a -> gain c C a <= c * INR (Nat.min m n) - v.
Proof.
  intros HC [_ Hm] Ha. destruct (extend m n _ a Ha eq_refl) as [e He]. specialize (Hm _ He).
  assert (G : gain c C a <= gain c C (e ++ a)).
  { unfold gain. rewrite map_app, rsum_app. assert (0 <= rsum (map (fun ij => c - C (fst ij) (snd ij)) e)); [|lra].
    apply rsum_nonneg. intros x Hx. apply in_map_iff in Hx as [[i j] [<- Hx]]. destruct He as [_ [_ [H3 _]]].
    specialize (H3 i j (in_or_app _ _ _ (or_introl Hx))). specialize (HC i j). cbn [fst snd]. intuition lra. }
  rewrite (gain_cost c C (e ++ a)) in G. destruct He as [_ [_ [_ HL]]]. rewrite HL in G. lra.
Qed.

Fixpoint lookup (j : nat) (a : list (nat * nat)) : option nat :=
  match a with [] => None | (x, y) :: a' => if Nat.eqb x j then Some y else lookup j a' end.
Lemma lookup_some j a k : lookup j a = Some k -> In (j, k) a.
Proof. induction a as [|[x y] a IH]; cbn; [discriminate|]. destruct (Nat.eqb_spec x j) as [->|]; [intros E; injection E as ->; auto|auto]. Qed.
Lemma lookup_none j a : lookup j a = None -> ~ In j (map fst a).
Proof. induction a as [|[x y] a IH]; cbn; [auto|]. destruct (Nat.eqb_spec x j) as [->|]; [discriminate|]. intros E [H|H]; [auto|apply IH; assumption]. Qed.
(** Composition: triples (i, j, k) with (i, j) in [a1] and (j, k) in [a2]. *)
Fixpoint triples (a1 a2 : list (nat * nat)) : list (nat * nat * nat) :=
  match a1 with
  | [] => []
  | (i, j) :: a1' => match lookup j a2 with Some k => [(i, j, k)] | None => [] end ++ triples a1' a2
  end.
Fixpoint rest (a1 a2 : list (nat * nat)) : list (nat * nat) :=
  match a1 with
  | [] => []
  | (i, j) :: a1' => match lookup j a2 with Some k => [] | None => [(i, j)] end ++ rest a1' a2
  end.
Definition t12 (t : nat * nat * nat) := fst t.
Definition t23 (t : nat * nat * nat) := (snd (fst t), snd t).
Definition t13 (t : nat * nat * nat) := (fst (fst t), snd t).
Lemma triples_in a1 a2 t : In t (triples a1 a2) -> In (t12 t) a1 /\ In (t23 t) a2.
Proof.
  induction a1 as [|[i j] a1 IH]; cbn [triples]; [intros []|]. destruct (lookup j a2) as [k|] eqn:E; cbn [app].
  - intros [<-|H]; [split; [left; reflexivity|apply lookup_some, E]|]. split; [right; apply IH, H|apply IH, H].
  - intros H. split; [right; apply IH, H|apply IH, H].
Qed.
Lemma triples_perm a1 a2 : Permutation a1 (map t12 (triples a1 a2) ++ rest a1 a2).
Proof.
  induction a1 as [|[i j] a1 IH]; cbn [triples rest]; [constructor|]. destruct (lookup j a2) as [k|]; cbn [app map].
  - constructor. exact IH.
  - apply Permutation_cons_app. exact IH.
Qed.
Lemma rest_in a1 a2 x : In x (rest a1 a2) -> In x a1 /\ ~ In (snd x) (map fst a2).
Proof.
  induction a1 as [|[i j] a1 IH]; cbn [rest]; [intros []|]. destruct (lookup j a2) as [k|] eqn:E; cbn [app].
  - intros H. destruct (IH H). split; [right|]; assumption.
  - intros [<-|H]; [split; [left; reflexivity|apply lookup_none, E]|]. destruct (IH H). split; [right|]; assumption.
Qed.
Lemma nodup_app_l {A} (l1 l2 : list A) : NoDup (l1 ++ l2) -> NoDup l1.
Proof. induction l1 as [|x l1 IH]; intros H; [constructor|]. cbn in H. inversion H; subst. constructor; [rewrite in_app_iff in *; tauto|auto]. Qed.
Lemma nodup_app_r {A} (l1 l2 : list A) : NoDup (l1 ++ l2) -> NoDup l2.
Proof. induction l1 as [|x l1 IH]; intros H; [exact H|]. cbn in H. inversion H; subst. auto. Qed.
Lemma nodup_app' {A} (l1 l2 : list A) : NoDup l1 -> NoDup l2 -> (forall x, In x l1 -> ~ In x l2) -> NoDup (l1 ++ l2).
Proof.
  induction 1 as [|x l1 Hx H IH]; intros H2 Hd; [exact H2|]. cbn. constructor.
  - rewrite in_app_iff. intros [Hi|Hi]; [contradiction|]. apply (Hd x); [left; reflexivity|exact Hi].
  - apply IH; [exact H2|]. intros y Hy. apply Hd. right; exact Hy.
Qed.
Lemma incl_split {A} (l1 l2 : list A) : NoDup l1 -> incl l1 l2 -> exists r, Permutation l2 (l1 ++ r).
Proof.
  revert l2. induction l1 as [|x l1 IH]; intros l2 Hn Hi; [exists l2; reflexivity|].
  inversion Hn as [|? ? Hx Hn']; subst. destruct (in_split x l2 (Hi x (or_introl eq_refl))) as [u [w ->]].
  destruct (IH (u ++ w) Hn') as [r Hr].
  { intros y Hy. specialize (Hi y (or_intror Hy)). rewrite in_app_iff in *. destruct Hi as [H|[->|H]]; [auto|contradiction|auto]. }
  exists r. cbn. rewrite <- Permutation_middle. constructor. exact Hr.
Qed.

Lemma compose l m n a1 a2 c C12 C23 C13 :
  pmatch l m a1 -> pmatch m n a2 ->
  (forall i j, 0 <= C12 i j) -> (forall i j, 0 <= C23 i j) -> 0 <= c ->
  (forall i j k, C13 i k <= C12 i j + C23 j k) ->
  exists a, pmatch l n a /\ gain c C12 a1 + gain c C23 a2 <= gain c C13 a + c * INR m.
Proof.
  intros [A1 [A2 A3]] [B1 [B2 B3]] H12 H23 Hc HT. set (T := triples a1 a2). exists (map t13 T).
  assert (P1 := triples_perm a1 a2). fold T in P1.
  assert (F1 : NoDup (map fst (map t12 T) ++ map fst (rest a1 a2))).
  { rewrite <- map_app. eapply Permutation_NoDup; [apply Permutation_map, P1|exact A1]. }
  assert (F2 : NoDup (map snd (map t12 T) ++ map snd (rest a1 a2))).
  { rewrite <- map_app. eapply Permutation_NoDup; [apply Permutation_map, P1|exact A2]. }
  assert (N23 : NoDup (map t23 T)).
  { apply (NoDup_map_inv fst). rewrite map_map. replace (map (fun x => fst (t23 x)) T) with (map snd (map t12 T)) by (rewrite map_map; reflexivity). eapply nodup_app_l, F2. }
  assert (I23 : incl (map t23 T) a2) by (intros x Hx; apply in_map_iff in Hx as [t [<- Ht]]; apply (triples_in a1 a2 t Ht)).
  destruct (incl_split _ _ N23 I23) as [r2 P2].
  split.
  - split; [|split].
    + rewrite map_map. replace (map (fun x => fst (t13 x)) T) with (map fst (map t12 T)) by (rewrite map_map; reflexivity). eapply nodup_app_l, F1.
    + rewrite map_map. replace (map (fun x => snd (t13 x)) T) with (map snd (map t23 T)) by (rewrite map_map; reflexivity).
      apply (nodup_app_l _ (map snd r2)). rewrite <- map_app. eapply Permutation_NoDup; [apply Permutation_map, P2|exact B2].
    + intros i k Hi. apply in_map_iff in Hi as [[[i' j'] k'] [E Ht]]. injection E as <- <-. apply triples_in in Ht as [Ha Hb]. unfold t12, t23 in *. cbn in Ha, Hb.
      apply A3 in Ha. apply B3 in Hb. lia.
  - (* counting *)
    assert (L : (length (rest a1 a2) + length a2 <= m)%nat).
    { rewrite <- (map_length snd (rest a1 a2)), <- (map_length fst a2), <- app_length, <- (seq_length m 0).
      apply NoDup_incl_length.
      - apply nodup_app'; [eapply nodup_app_r, F2|exact B1|]. intros x Hx. apply in_map_iff in Hx as [y [<- Hy]]. apply rest_in in Hy. tauto.
      - intros x Hx. rewrite in_app_iff in Hx. apply in_seq. destruct Hx as [Hx|Hx]; apply in_map_iff in Hx as [[u w] [<- Hy]].
        + apply rest_in in Hy as [Hy _]. apply A3 in Hy. cbn. lia.
        + apply B3 in Hy. cbn. lia. }
    assert (E1 : gain c C12 a1 = gain c C12 (map t12 T) + gain c C12 (rest a1 a2)).
    { unfold gain. rewrite <- rsum_app, <- map_app. apply rsum_perm, Permutation_map, P1. }
    assert (E2 : gain c C23 a2 = gain c C23 (map t23 T) + gain c C23 r2).
    { unfold gain. rewrite <- rsum_app, <- map_app. apply rsum_perm, Permutation_map, P2. }
    assert (G1 : forall C a, (forall i j, 0 <= C i j) -> gain c C a <= c * INR (length a)).
    { intros C a HC. rewrite gain_cost. assert (0 <= cost C a); [|lra]. apply rsum_nonneg. intros x Hx. apply in_map_iff in Hx as [y [<- _]]. apply HC. }
    pose proof (G1 C12 (rest a1 a2) H12) as G12. pose proof (G1 C23 r2 H23) as G23.
    assert (E3 : gain c C12 (map t12 T) + gain c C23 (map t23 T) <= gain c C13 (map t13 T) + c * INR (length T)).
    { unfold gain. rewrite !map_map. clear -HT. induction T as [|[[i j] k] T IH]; [cbn; lra|]. cbn [map length]. rewrite !rsum_cons, S_INR.
      unfold t12, t23, t13 in *. cbn [fst snd] in *. specialize (HT i j k). lra. }
    assert (L2 : length a2 = (length T + length r2)%nat) by (rewrite (Permutation_length P2), app_length, map_length; reflexivity).
    apply le_INR in L. rewrite L2, !plus_INR in L. rewrite E1, E2.
    assert (c * (INR (length (rest a1 a2)) + (INR (length T) + INR (length r2))) <= c * INR m) by (apply Rmult_le_compat_l; assumption). lra.
Qed.

(** ** triangle inequality for the OSPA of sets, p = 1 *)
Lemma ospa1_value m n c C v : (0 < m)%nat -> (0 < n)%nat -> 0 <= c -> (forall i j, 0 <= C i j <= c) ->
  least_cost m n C v ->
  root 1 (v / INR (Nat.max m n)) + root 1 (c ^ 1 * INR (absdiff m n) / INR (Nat.max m n)) = c - (c * INR (Nat.min m n) - v) / INR (Nat.max m n).
Proof.
  intros Hm Hn Hc HC Hv. pose proof (max_pos m n Hm) as HM.
  assert (B : 0 <= v <= INR (Nat.min m n) * c) by (apply (least_bounds _ _ _ _ _ Hv); auto).
  assert (S1 : INR (Nat.max m n) = INR (Nat.min m n) + INR (absdiff m n)) by (rewrite <- plus_INR; f_equal; unfold absdiff; lia).
  assert (Hi : 0 < / INR (Nat.max m n)) by (apply Rinv_0_lt_compat; lra). pose proof (pos_INR (absdiff m n)).
  rewrite pow_1, !root_1; [|unfold Rdiv; apply Rmult_le_pos; nra..].
  replace (INR (absdiff m n)) with (INR (Nat.max m n) - INR (Nat.min m n)) by lra. field. lra.
Qed.
Lemma gain_pos c C a : (forall i j, C i j <= c) -> 0 <= gain c C a.
Proof. intros H. apply rsum_nonneg. intros x Hx. apply in_map_iff in Hx as [y [<- _]]. specialize (H (fst y) (snd y)). lra. Qed.

Lemma frac_ineq G1 G2 g c l m n : 0 < l -> 0 < m -> 0 < n -> 0 <= c -> 0 <= g -> 0 <= G1 -> 0 <= G2 ->
  G1 <= c * Rmin l m -> G2 <= c * Rmin m n -> G1 + G2 <= g + c * m ->
  G1 / Rmax l m + G2 / Rmax m n <= c + g / Rmax l n.
Proof.
  intros Hl Hm Hn Hc Hg H1 H2 B1 B2 HS.
  assert (W : forall G1 G2 l n, 0 < l -> 0 < n -> 0 <= G1 -> 0 <= G2 -> G2 <= c * Rmin m n -> G1 + G2 <= g + c * m ->
    m <= l -> n <= l -> G1 / l + G2 / Rmax m n <= c + g / l).
  { clear -Hm Hc Hg. intros G1 G2 l n Hl Hn H1 H2 B2 HS M1 M2. set (Q := Rmax m n).
    assert (HQ : m <= Q /\ n <= Q /\ Q <= l) by (unfold Q; split; [apply Rmax_l|split; [apply Rmax_r|apply Rmax_lub; assumption]]).
    assert (HmQ : Rmin m n <= Q) by (unfold Q; apply Rle_trans with m; [apply Rmin_l|apply Rmax_l]).
    assert (Q0 : 0 < Q) by lra.
    apply Rmult_le_reg_r with l; [exact Hl|]. rewrite !Rmult_plus_distr_r. unfold Rdiv. rewrite !Rmult_assoc, !Rinv_l, !Rmult_1_r by lra.
    assert (X : G2 * (/ Q * l) <= G2 + c * (l - Q)).
    { replace (G2 * (/ Q * l)) with (G2 + G2 * / Q * (l - Q)) by (field; lra).
      assert (G2 * / Q <= c); [|nra]. apply Rmult_le_reg_r with Q; [exact Q0|]. rewrite Rmult_assoc, Rinv_l, Rmult_1_r by lra. nra. }
    nra. }
  destruct (Rle_or_lt m (Rmax l n)) as [Hm1|Hm1].
  - destruct (Rle_or_lt n l) as [Hnl|Hnl].
    + rewrite (Rmax_left l n) in * by lra. rewrite (Rmax_left l m) by lra. apply W; auto.
    + rewrite (Rmax_right l n) in * by lra. rewrite (Rmax_right m n) by lra. rewrite Rplus_comm, (Rmax_comm l m). apply (W G2 G1 n l); auto; try lra.
      rewrite Rmin_comm. exact B1.
  - assert (l < m) by (eapply Rle_lt_trans; [apply Rmax_l|exact Hm1]). assert (n < m) by (eapply Rle_lt_trans; [apply Rmax_r|exact Hm1]).
    rewrite (Rmax_right l m), (Rmax_left m n) by lra. set (M := Rmax l n) in *. assert (0 < M) by (unfold M; eapply Rlt_le_trans; [exact Hl|apply Rmax_l]).
    replace (G1 / m + G2 / m) with ((G1 + G2) / m) by (field; lra).
    apply Rle_trans with ((g + c * m) / m); [apply Rmult_le_compat_r; [left; apply Rinv_0_lt_compat; lra|exact HS]|].
    replace ((g + c * m) / m) with (c + g / m) by (field; lra). apply Rplus_le_compat_l. apply Rmult_le_compat_l; [exact Hg|]. apply Rinv_le_contravar; lra.
Qed.
Lemma INR_max m n : INR (Nat.max m n) = Rmax (INR m) (INR n).
Proof.
  destruct (le_ge_dec m n) as [H|H]; [rewrite Nat.max_r by lia; rewrite Rmax_right; [reflexivity|apply le_INR; lia]|].
  rewrite Nat.max_l by lia. rewrite Rmax_left; [reflexivity|apply le_INR; lia].
Qed.
Lemma INR_min m n : INR (Nat.min m n) = Rmin (INR m) (INR n).
Proof.
  destruct (le_ge_dec m n) as [H|H]; [rewrite Nat.min_l by lia; rewrite Rmin_left; [reflexivity|apply le_INR; lia]|].
  rewrite Nat.min_r by lia. rewrite Rmin_right; [reflexivity|apply le_INR; lia].
Qed.
Lemma Rmin_metric {A} (d : A -> A -> R) c x y z : pseudo_metric d -> 0 <= c -> Rmin (d x z) c <= Rmin (d x y) c + Rmin (d y z) c.
Proof.
  intros [H0 [_ HT]] Hc. specialize (HT x y z). pose proof (H0 x y). pose proof (H0 y z).
  unfold Rmin. destruct (Rle_dec (d x z) c), (Rle_dec (d x y) c), (Rle_dec (d y z) c); lra.
Qed.

Lemma ospa_sets_triangle d c X Y Z l1 k1 l2 k2 l3 k3 : pseudo_metric d -> 0 <= c ->
  ospa_of_sets d c 1 X Y l1 k1 -> ospa_of_sets d c 1 Y Z l2 k2 -> ospa_of_sets d c 1 X Z l3 k3 ->
  l3 + k3 <= (l1 + k1) + (l2 + k2).
Proof.
  intros Hd Hc H1 H2 H3.
  assert (NN : forall X Y l k, ospa_of_sets d c 1 X Y l k -> 0 <= l + k).
  { intros X' Y' l k H. destruct X' as [|x0 X'], Y' as [|y0 Y']; cbn in H; try (destruct H as [-> ->]; lra).
    destruct H as [v [_ [-> ->]]]. match goal with |- 0 <= root 1 ?a + root 1 ?b => pose proof (root_nonneg 1 a); pose proof (root_nonneg 1 b) end. lra. }
  assert (LE : forall X Y l k, ospa_of_sets d c 1 X Y l k -> l + k <= c).
  { intros X' Y' l k H. destruct X' as [|x0 X'], Y' as [|y0 Y']; try (destruct H as [-> ->]; lra).
    destruct H as [v [Hv [-> ->]]]. destruct Hd as [Hd0 _].
    assert (HCb : forall i j, 0 <= Rmin (d (nth i (x0 :: X') x0) (nth j (y0 :: Y') y0)) c ^ 1 <= c) by (intros; rewrite pow_1; split; [apply Rmin_glb; auto|apply Rmin_r]).
    rewrite (ospa1_value _ _ c _ v) with (5 := Hv); try assumption; try (cbn; lia).
    assert (B : 0 <= v <= INR (Nat.min (length (x0 :: X')) (length (y0 :: Y'))) * c) by (apply (least_bounds _ _ _ _ _ Hv); auto).
    assert (0 < INR (Nat.max (length (x0 :: X')) (length (y0 :: Y')))) by (apply max_pos; cbn; lia).
    assert (0 <= (c * INR (Nat.min (length (x0 :: X')) (length (y0 :: Y'))) - v) / INR (Nat.max (length (x0 :: X')) (length (y0 :: Y')))); [|lra].
    apply Rmult_le_pos; [lra|left; apply Rinv_0_lt_compat; assumption]. }
  destruct X as [|x0 X].
  { destruct Z as [|z0 Z]; [destruct H3 as [-> ->]; pose proof (NN _ _ _ _ H1); pose proof (NN _ _ _ _ H2); lra|].
    destruct H3 as [-> ->]. destruct Y as [|y0 Y]; [destruct H1 as [-> ->], H2 as [-> ->]; lra|].
    destruct H1 as [-> ->]. pose proof (NN _ _ _ _ H2). lra. }
  destruct Z as [|z0 Z].
  { destruct H3 as [-> ->]. destruct Y as [|y0 Y]; [destruct H1 as [-> ->], H2 as [-> ->]; lra|].
    destruct H2 as [-> ->]. pose proof (NN _ _ _ _ H1). lra. }
  destruct Y as [|y0 Y].
  { destruct H1 as [-> ->], H2 as [-> ->]. pose proof (LE _ _ _ _ H3). lra. }
  destruct H1 as [v1 [V1 [-> ->]]], H2 as [v2 [V2 [-> ->]]], H3 as [v3 [V3 [-> ->]]].
  set (X' := x0 :: X) in *. set (Y' := y0 :: Y) in *. set (Z' := z0 :: Z) in *. clear NN LE.
  set (C12 := fun i j => Rmin (d (nth i X' x0) (nth j Y' y0)) c ^ 1) in *.
  set (C23 := fun i j => Rmin (d (nth i Y' y0) (nth j Z' z0)) c ^ 1) in *.
  set (C13 := fun i j => Rmin (d (nth i X' x0) (nth j Z' z0)) c ^ 1) in *.
  pose proof Hd as [Hd0 _].
  assert (K12 : forall i j, 0 <= C12 i j <= c) by (intros; unfold C12; rewrite pow_1; split; [apply Rmin_glb; auto|apply Rmin_r]).
  assert (K23 : forall i j, 0 <= C23 i j <= c) by (intros; unfold C23; rewrite pow_1; split; [apply Rmin_glb; auto|apply Rmin_r]).
  assert (K13 : forall i j, 0 <= C13 i j <= c) by (intros; unfold C13; rewrite pow_1; split; [apply Rmin_glb; auto|apply Rmin_r]).
  rewrite (ospa1_value _ _ c C12 v1), (ospa1_value _ _ c C23 v2), (ospa1_value _ _ c C13 v3); try assumption; try (cbn; lia).
  pose proof V1 as [[a1 [Ha1 E1]] _]. pose proof V2 as [[a2 [Ha2 E2]] _].
  destruct (compose (length X') (length Y') (length Z') a1 a2 c C12 C23 C13) as [a [Pa Ga]].
  { destruct Ha1 as [? [? [? ?]]]; split; [assumption|split; assumption]. }
  { destruct Ha2 as [? [? [? ?]]]; split; [assumption|split; assumption]. }
  { intros; apply K12. } { intros; apply K23. } { exact Hc. }
  { intros i j k. unfold C12, C23, C13. rewrite !pow_1. apply Rmin_metric; assumption. }
  pose proof (gain_best _ _ c C13 v3 a (fun i j _ _ => proj2 (K13 i j)) V3 Pa) as GB.
  pose proof (gain_pos c C13 a (fun i j => proj2 (K13 i j))) as GP.
  rewrite (gain_cost c C12 a1), (gain_cost c C23 a2), E1, E2 in Ga.
  assert (La1 : length a1 = Nat.min (length X') (length Y')) by apply Ha1. assert (La2 : length a2 = Nat.min (length Y') (length Z')) by apply Ha2.
  rewrite La1, La2 in Ga.
  pose proof (least_bounds _ _ _ _ c V1 (fun i j _ _ => K12 i j)) as B1. pose proof (least_bounds _ _ _ _ c V2 (fun i j _ _ => K23 i j)) as B2.
  set (G1 := c * INR (Nat.min (length X') (length Y')) - v1) in *. set (G2 := c * INR (Nat.min (length Y') (length Z')) - v2) in *.
  set (G3 := c * INR (Nat.min (length X') (length Z')) - v3) in *.
  rewrite !INR_max.
  assert (PX : 0 < INR (length X')) by (apply lt_0_INR; cbn; lia). assert (PY : 0 < INR (length Y')) by (apply lt_0_INR; cbn; lia). assert (PZ : 0 < INR (length Z')) by (apply lt_0_INR; cbn; lia).
  assert (F : G1 / Rmax (INR (length X')) (INR (length Y')) + G2 / Rmax (INR (length Y')) (INR (length Z')) <= c + G3 / Rmax (INR (length X')) (INR (length Z'))).
  { apply frac_ineq; try assumption; rewrite <- ?INR_min.
    - lra.
    - unfold G1; lra.
    - unfold G2; lra.
    - unfold G1; lra.
    - unfold G2; lra.
    - lra. }
  lra.
Qed.

(** Zero OSPA means equal sets. *)
Lemma ospa_sets_zero d c p X Y l k : (forall x y, 0 <= d x y) -> 0 < c -> (1 <= p)%nat ->
  ospa_of_sets d c p X Y l k -> l + k = 0 ->
  length X = length Y /\ exists a, assignment (length X) (length Y) a /\
    forall i j x0, In (i, j) a -> d (nth i X x0) (nth j Y x0) = 0.
Proof.
  intros Hd Hc Hp H E.
  destruct X as [|x0 X], Y as [|y0 Y]; try (destruct H as [-> ->]; lra).
  - split; [reflexivity|]. exists []. split; [repeat split; try constructor; destruct H0|intros i j x []].
  - destruct H as [v [Hv [El Ek]]]. set (X' := x0 :: X) in *. set (Y' := y0 :: Y) in *.
    set (m := length X') in *. set (n := length Y') in *.
    assert (HM : 0 < INR (Nat.max m n)) by (apply max_pos; unfold m, X'; cbn; lia).
    pose proof (root_nonneg p (v / INR (Nat.max m n))) as N1. pose proof (root_nonneg p (c ^ p * INR (absdiff m n) / INR (Nat.max m n))) as N2.
    assert (Z1 : root p (v / INR (Nat.max m n)) = 0) by lra. assert (Z2 : root p (c ^ p * INR (absdiff m n) / INR (Nat.max m n)) = 0) by lra.
    assert (R0 : forall z, root p z = 0 -> z = 0).
    { intros z Hz. unfold root in Hz. destruct (Req_EM_T z 0); [assumption|]. pose proof (exp_pos (/ INR p * ln z)). unfold Rpower in Hz. lra. }
    apply R0 in Z1, Z2. assert (Iv : / INR (Nat.max m n) <> 0) by (apply Rinv_neq_0_compat; lra).
    assert (v = 0) by (unfold Rdiv in Z1; apply Rmult_integral in Z1 as [?|?]; [assumption|contradiction]).
    assert (Ea : absdiff m n = 0%nat).
    { unfold Rdiv in Z2. apply Rmult_integral in Z2 as [Z2|?]; [|contradiction]. apply Rmult_integral in Z2 as [Z2|Z2].
      - pose proof (pow_lt c p Hc). lra.
      - apply INR_eq. rewrite Z2. reflexivity. }
    split; [unfold absdiff in Ea; lia|]. destruct Hv as [[a [Ha Ec]] _]. exists a. split; [exact Ha|].
    intros i j x Hij.
    assert (NZ : forall a, (forall ij, In ij a -> 0 <= Rmin (d (nth (fst ij) X' x0) (nth (snd ij) Y' y0)) c ^ p) ->
       cost (fun i j => Rmin (d (nth i X' x0) (nth j Y' y0)) c ^ p) a = 0 -> forall ij, In ij a -> Rmin (d (nth (fst ij) X' x0) (nth (snd ij) Y' y0)) c ^ p = 0).
    { clear. induction a as [|b a IH]; intros H0 E ij Hi; [destruct Hi|]. unfold cost in *. cbn [map] in E. rewrite rsum_cons in E.
      pose proof (H0 b (or_introl eq_refl)). assert (0 <= rsum (map (fun ij => Rmin (d (nth (fst ij) X' x0) (nth (snd ij) Y' y0)) c ^ p) a)).
      { apply rsum_nonneg. intros z Hz. apply in_map_iff in Hz as [w [<- Hw]]. apply H0. right; exact Hw. }
      destruct Hi as [<-|Hi]; [lra|]. apply IH; [|lra|exact Hi]. intros w Hw. apply H0. right; exact Hw. }
    assert (Z : Rmin (d (nth i X' x0) (nth j Y' y0)) c ^ p = 0).
    { apply (NZ a) with (ij := (i, j)); [|congruence|exact Hij]. intros ij _. apply pow_le. apply Rmin_glb; [apply Hd|lra]. }
    assert (Z' : Rmin (d (nth i X' x0) (nth j Y' y0)) c = 0).
    { destruct (Req_dec (Rmin (d (nth i X' x0) (nth j Y' y0)) c) 0) as [|Hne]; [assumption|]. apply (pow_nonzero _ p) in Hne. contradiction. }
    destruct Ha as [_ [_ [Hb _]]]. apply Hb in Hij. rewrite (nth_indep X' x x0) by (apply Hij). rewrite (nth_indep Y' x y0) by (apply Hij).
    unfold Rmin in Z'. destruct (Rle_dec _ c); lra.
Qed.
