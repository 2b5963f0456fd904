(** OSPA of every order p: Minkowski's inequality, padding with dummy objects and
    the triangle inequality of the p-norm combination. *)
From Verif Require Import Base Lists OspaModel OspaSpec OspaProofs OspaMetric.
From Coq Require Import Reals Lra Permutation.
Open Scope R_scope.

(** ** roots and powers *)
Lemma root_mult p x y : 0 <= x -> 0 <= y -> root p (x * y) = root p x * root p y.
Proof.
  intros Hx Hy. unfold root. destruct (Req_EM_T x 0) as [->|Nx].
  { destruct (Req_EM_T (0 * y) 0); [ring|lra]. }
  destruct (Req_EM_T y 0) as [->|Ny].
  { destruct (Req_EM_T (x * 0) 0); [ring|lra]. }
  destruct (Req_EM_T (x * y) 0) as [E|_]; [apply Rmult_integral in E as [E|E]; contradiction|]. symmetry. apply Rpower_mult_distr; lra.
Qed.
Lemma pow_mono a b p : 0 <= a -> a <= b -> a ^ p <= b ^ p.
Proof. intros H1 H2. apply pow_incr. split; assumption. Qed.
Lemma pow_diff x y p : 0 <= x -> 0 <= y -> 0 <= (x ^ p - y ^ p) * (x - y).
Proof.
  intros Hx Hy. destruct (Rle_or_lt x y) as [H|H].
  - pose proof (pow_mono x y p Hx H). replace ((x ^ p - y ^ p) * (x - y)) with ((y ^ p - x ^ p) * (y - x)) by ring. apply Rmult_le_pos; lra.
  - pose proof (pow_mono y x p Hy ltac:(lra)). apply Rmult_le_pos; lra.
Qed.
Lemma pow_convex p x y l m : 0 <= x -> 0 <= y -> 0 <= l -> 0 <= m -> l + m = 1 -> (l * x + m * y) ^ p <= l * x ^ p + m * y ^ p.
Proof.
  intros Hx Hy Hl Hm E. induction p as [|p IH]; [cbn; lra|].
  apply Rle_trans with ((l * x + m * y) * (l * x ^ p + m * y ^ p)).
  - rewrite <- tech_pow_Rmult. apply Rmult_le_compat_l; [|exact IH]. assert (0 <= l * x) by (apply Rmult_le_pos; assumption). assert (0 <= m * y) by (apply Rmult_le_pos; assumption). lra.
  - rewrite <- !tech_pow_Rmult. pose proof (pow_diff x y p Hx Hy) as H. assert (0 <= l * m) by (apply Rmult_le_pos; assumption).
    assert (X : l * (x * x ^ p) + m * (y * y ^ p) - (l * x + m * y) * (l * x ^ p + m * y ^ p) = (l * m) * ((x ^ p - y ^ p) * (x - y))).
    { replace m with (1 - l) by lra. ring. }
    assert (0 <= (l * m) * ((x ^ p - y ^ p) * (x - y))) by (apply Rmult_le_pos; assumption). lra.
Qed.
(** Minkowski's inequality. *)
Lemma minkowski_p {A} (f g : A -> R) p T : (1 <= p)%nat -> (forall t, In t T -> 0 <= f t) -> (forall t, In t T -> 0 <= g t) ->
  rsum (map (fun t => (f t + g t) ^ p) T) <= (root p (rsum (map (fun t => f t ^ p) T)) + root p (rsum (map (fun t => g t ^ p) T))) ^ p.
Proof.
  intros Hp Hf Hg. set (SA := rsum (map (fun t => f t ^ p) T)). set (SB := rsum (map (fun t => g t ^ p) T)).
  assert (PA : 0 <= SA) by (apply rsum_nonneg; intros x Hx; apply in_map_iff in Hx as [t [<- Ht]]; apply pow_le; auto).
  assert (PB : 0 <= SB) by (apply rsum_nonneg; intros x Hx; apply in_map_iff in Hx as [t [<- Ht]]; apply pow_le; auto).
  assert (Zr : forall (h : A -> R), (forall t, In t T -> 0 <= h t) -> rsum (map (fun t => h t ^ p) T) = 0 -> forall t, In t T -> h t = 0).
  { intros h Hh E t Ht. assert (H0 : h t ^ p = 0).
    { apply in_split in Ht as [u [w E1]]. rewrite E1 in E, Hh. rewrite map_app, rsum_app in E. cbn [map] in E. rewrite rsum_cons in E.
      assert (0 <= rsum (map (fun t => h t ^ p) u)) by (apply rsum_nonneg; intros x Hx; apply in_map_iff in Hx as [y [<- Hy]]; apply pow_le, Hh, in_or_app; auto).
      assert (0 <= rsum (map (fun t => h t ^ p) w)) by (apply rsum_nonneg; intros x Hx; apply in_map_iff in Hx as [y [<- Hy]]; apply pow_le, Hh, in_or_app; right; right; exact Hy).
      assert (0 <= h t ^ p) by (apply pow_le, Hh, in_or_app; right; left; reflexivity). lra. }
    destruct (Req_dec (h t) 0) as [|Hn]; [assumption|]. apply (pow_nonzero _ p) in Hn. contradiction. }
  destruct (Req_dec SA 0) as [EA|NA].
  { rewrite EA, root_0, Rplus_0_l, pow_root by assumption. right. unfold SB. apply rsum_ext. intros t Ht. rewrite (Zr f Hf EA t Ht), Rplus_0_l. reflexivity. }
  destruct (Req_dec SB 0) as [EB|NB].
  { rewrite EB, root_0, Rplus_0_r, pow_root by assumption. right. unfold SA. apply rsum_ext. intros t Ht. rewrite (Zr g Hg EB t Ht), Rplus_0_r. reflexivity. }
  set (a := root p SA). set (b := root p SB). assert (Ea : a ^ p = SA) by (apply pow_root; assumption). assert (Eb : b ^ p = SB) by (apply pow_root; assumption).
  assert (a0 : 0 < a). { destruct (root_nonneg p SA) as [H|H]; [exact H|]. exfalso. apply NA. rewrite <- Ea. unfold a. rewrite <- H. apply pow_i. lia. }
  assert (b0 : 0 < b). { destruct (root_nonneg p SB) as [H|H]; [exact H|]. exfalso. apply NB. rewrite <- Eb. unfold b. rewrite <- H. apply pow_i. lia. }
  assert (K : forall t, In t T -> (f t + g t) ^ p <= (a + b) ^ p * (a / (a + b) * (f t ^ p / SA) + b / (a + b) * (g t ^ p / SB))).
  { intros t Ht. replace (f t + g t) with ((a + b) * (a / (a + b) * (f t / a) + b / (a + b) * (g t / b))) by (field; lra).
    rewrite Rpow_mult_distr. apply Rmult_le_compat_l; [apply pow_le; lra|].
    assert (Hfa : 0 <= f t / a) by (apply Rmult_le_pos; [auto|left; apply Rinv_0_lt_compat; lra]). assert (Hgb : 0 <= g t / b) by (apply Rmult_le_pos; [auto|left; apply Rinv_0_lt_compat; lra]).
    assert (Hs : 0 < / (a + b)) by (apply Rinv_0_lt_compat; lra).
    eapply Rle_trans; [apply (pow_convex p (f t / a) (g t / b) (a / (a + b)) (b / (a + b)) Hfa Hgb)|].
    - apply Rmult_le_pos; lra.
    - apply Rmult_le_pos; lra.
    - field; lra.
    - right. rewrite <- Ea, <- Eb. unfold Rdiv. rewrite !Rpow_mult_distr, !pow_inv. reflexivity. }
  apply Rle_trans with (rsum (map (fun t => (a + b) ^ p * (a / (a + b) * (f t ^ p / SA) + b / (a + b) * (g t ^ p / SB))) T)); [apply rsum_le; exact K|].
  assert (E : forall l, rsum (map (fun t => (a + b) ^ p * (a / (a + b) * (f t ^ p / SA) + b / (a + b) * (g t ^ p / SB))) l) =
    (a + b) ^ p * (a / (a + b) * (rsum (map (fun t => f t ^ p) l) / SA) + b / (a + b) * (rsum (map (fun t => g t ^ p) l) / SB))).
  { induction l as [|t l IH]; cbn [map]; [change (rsum []) with 0; unfold Rdiv; ring|]. rewrite !rsum_cons, IH. field. lra. }
  rewrite E. fold SA SB. right. field. lra.
Qed.

(** ** padding to a square *)
Definition padU (m n : nat) (K : R) (C : nat -> nat -> R) (i j : nat) : R :=
  if (i <? m)%nat then if (j <? n)%nat then C i j else K else if (j <? n)%nat then K else 0.
Definition padL (m n : nat) (K : R) (C : nat -> nat -> R) (i j : nat) : R :=
  if (i <? m)%nat then if (j <? n)%nat then C i j else K else K.
Lemma pigeon l m : NoDup l -> (forall i, In i l -> (i < m)%nat) -> length l = m -> forall i, (i < m)%nat -> In i l.
Proof.
  intros Hn Hb Hl i Hi. assert (I : incl (seq 0 m) l); [|apply I, in_seq; lia]. apply NoDup_length_incl; [exact Hn|rewrite seq_length; lia|]. intros x Hx. apply in_seq. specialize (Hb x Hx). lia.
Qed.
Lemma count_bound (e a : list nat) n : NoDup (e ++ a) -> (forall j, In j a -> (j < n)%nat) -> (length (filter (fun j => (j <? n)%nat) e) + length a <= n)%nat.
Proof.
  intros Hn Hb. rewrite <- app_length. apply (Nat.le_trans _ (length (seq 0 n))); [|rewrite seq_length; lia]. apply NoDup_incl_length.
  - apply nodup_app'; [apply NoDup_filter; exact (nodup_app_l _ _ Hn)|exact (nodup_app_r _ _ Hn)|].
    intros x Hx Ha. apply filter_In in Hx as [Hx _]. clear -Hn Hx Ha. induction e as [|y e IH]; [destruct Hx|]. cbn in Hn. inversion Hn; subst. destruct Hx as [<-|Hx]; [apply H1, in_or_app; auto|auto].
  - intros x Hx. apply in_app_or in Hx as [Hx|Hx]; apply in_seq; [apply filter_In in Hx as [_ Hx]; apply Nat.ltb_lt in Hx; lia|specialize (Hb x Hx); lia].
Qed.
Lemma pad_up m n N K C a : 0 <= K -> (Nat.max m n <= N)%nat -> assignment m n a ->
  exists b, assignment N N b /\ cost (padU m n K C) b <= cost C a + K * INR (absdiff m n).
Proof.
  intros HK HN [A1 [A2 [A3 A4]]]. assert (Hpm : pmatch N N a) by (split; [exact A1|split; [exact A2|intros i j H; destruct (A3 i j H); lia]]).
  destruct (extend N N _ a Hpm eq_refl) as [e He].
  exists (e ++ a). split; [exact He|]. destruct He as [B1 [B2 [B3 B4]]]. rewrite map_app in B1, B2.
  unfold cost. rewrite map_app, rsum_app.
  assert (Ea : rsum (map (fun ij => padU m n K C (fst ij) (snd ij)) a) = rsum (map (fun ij => C (fst ij) (snd ij)) a)).
  { apply rsum_ext. intros [i j] Hij. destruct (A3 i j Hij) as [Hi Hj]. unfold padU. cbn [fst snd]. apply Nat.ltb_lt in Hi, Hj. rewrite Hi, Hj. reflexivity. }
  rewrite Ea. assert (G : rsum (map (fun ij => padU m n K C (fst ij) (snd ij)) e) <= K * INR (absdiff m n)); [|lra].
  assert (Cnt : forall (q : nat -> bool) (h : nat * nat -> nat) l, rsum (map (fun ij => if q (h ij) then K else 0) l) = K * INR (length (filter q (map h l)))).
  { intros q h l. induction l as [|x l IH]; cbn [map filter]; [change (rsum []) with 0; cbn; ring|]. rewrite rsum_cons, IH. destruct (q (h x)); cbn [length]; [rewrite S_INR|]; ring. }
  destruct (le_ge_dec m n) as [Hmn|Hmn].
  - assert (Hrow : forall i j, In (i, j) e -> (m <= i)%nat).
    { intros i j Hij. destruct (le_lt_dec m i) as [|Hi]; [assumption|]. exfalso.
      assert (In i (map fst a)). { apply (pigeon (map fst a) m A1); [intros x Hx; apply in_map_iff in Hx as [[u w] [<- Hx]]; apply (A3 u w Hx)|rewrite map_length; lia|exact Hi]. }
      clear -B1 Hij H. apply (in_map fst) in Hij. cbn in Hij. apply in_split in Hij as [u [w E]]. rewrite E in B1. rewrite <- app_assoc in B1. cbn in B1. apply NoDup_remove_2 in B1. apply B1, in_or_app. right. apply in_or_app. right. exact H. }
    assert (E1 : rsum (map (fun ij => padU m n K C (fst ij) (snd ij)) e) = rsum (map (fun ij => if (snd ij <? n)%nat then K else 0) e)).
    { apply rsum_ext. intros [i j] Hij. unfold padU. cbn [fst snd]. specialize (Hrow i j Hij). apply Nat.ltb_ge in Hrow. rewrite Hrow. reflexivity. }
    rewrite E1, (Cnt (fun j => (j <? n)%nat) snd). apply Rmult_le_compat_l; [exact HK|]. apply le_INR.
    pose proof (count_bound (map snd e) (map snd a) n B2) as X. rewrite map_length in X. unfold absdiff. specialize (X ltac:(intros x Hx; apply in_map_iff in Hx as [[u w] [<- Hx]]; apply (A3 u w Hx))). lia.
  - assert (Hcol : forall i j, In (i, j) e -> (n <= j)%nat).
    { intros i j Hij. destruct (le_lt_dec n j) as [|Hj]; [assumption|]. exfalso.
      assert (In j (map snd a)). { apply (pigeon (map snd a) n A2); [intros x Hx; apply in_map_iff in Hx as [[u w] [<- Hx]]; apply (A3 u w Hx)|rewrite map_length; lia|exact Hj]. }
      clear -B2 Hij H. apply (in_map snd) in Hij. cbn in Hij. apply in_split in Hij as [u [w E]]. rewrite E in B2. rewrite <- app_assoc in B2. cbn in B2. apply NoDup_remove_2 in B2. apply B2, in_or_app. right. apply in_or_app. right. exact H. }
    assert (E1 : rsum (map (fun ij => padU m n K C (fst ij) (snd ij)) e) = rsum (map (fun ij => if (fst ij <? m)%nat then K else 0) e)).
    { apply rsum_ext. intros [i j] Hij. unfold padU. cbn [fst snd]. specialize (Hcol i j Hij). apply Nat.ltb_ge in Hcol. rewrite Hcol. reflexivity. }
    rewrite E1, (Cnt (fun j => (j <? m)%nat) fst). apply Rmult_le_compat_l; [exact HK|]. apply le_INR.
    pose proof (count_bound (map fst e) (map fst a) m B1) as X. rewrite map_length in X. unfold absdiff. specialize (X ltac:(intros x Hx; apply in_map_iff in Hx as [[u w] [<- Hx]]; apply (A3 u w Hx))). lia.
Qed.
Lemma pad_low m n N K C v b : (forall i j, (i < m)%nat -> (j < n)%nat -> C i j <= K) -> least_cost m n C v -> pmatch N N b ->
  K * INR (length b) - (K * INR (Nat.min m n) - v) <= cost (padL m n K C) b.
Proof.
  intros HC Hv [B1 [B2 B3]]. set (a := filter (fun ij => (fst ij <? m)%nat && (snd ij <? n)%nat)%bool b).
  assert (Ha : pmatch m n a).
  { split; [|split].
    - unfold a. clear -B1. induction b as [|x b IH]; [constructor|]. cbn [map filter] in *. inversion B1; subst. destruct (_ && _)%bool; [|auto]. cbn [map]. constructor; [|auto].
      intros Hx. apply H1. apply in_map_iff in Hx as [y [E Hy]]. apply filter_In in Hy as [Hy _]. rewrite <- E. apply in_map, Hy.
    - unfold a. clear -B2. induction b as [|x b IH]; [constructor|]. cbn [map filter] in *. inversion B2; subst. destruct (_ && _)%bool; [|auto]. cbn [map]. constructor; [|auto].
      intros Hx. apply H1. apply in_map_iff in Hx as [y [E Hy]]. apply filter_In in Hy as [Hy _]. rewrite <- E. apply in_map, Hy.
    - intros i j Hij. apply filter_In in Hij as [_ Hij]. cbn in Hij. apply andb_true_iff in Hij as [H1 H2]. apply Nat.ltb_lt in H1, H2. auto. }
  pose proof (gain_best m n K C v a HC Hv Ha) as G.
  assert (E : gain K (padL m n K C) b = gain K C a).
  { unfold gain, a. clear. induction b as [|[i j] b IH]; [reflexivity|]. cbn [map filter fst snd]. rewrite rsum_cons, IH. unfold padL at 1. destruct (i <? m)%nat eqn:Ei, (j <? n)%nat eqn:Ej; cbn [andb map fst snd]; rewrite ?rsum_cons; cbn [fst snd]; lra. }
  rewrite <- E, gain_cost in G. lra.
Qed.
(** Composition of two full assignments. *)
Lemma compose_full N b1 b2 : assignment N N b1 -> assignment N N b2 ->
  let T := triples b1 b2 in
  (forall F, cost F b1 = rsum (map (fun t => F (fst (t12 t)) (snd (t12 t))) T)) /\
  (forall F, cost F b2 = rsum (map (fun t => F (fst (t23 t)) (snd (t23 t))) T)) /\
  pmatch N N (map t13 T) /\ length T = N /\ (forall t, In t T -> (fst (fst t) < N /\ snd (fst t) < N /\ snd t < N)%nat).
Proof.
  intros [A1 [A2 [A3 A4]]] [B1 [B2 [B3 B4]]] T. rewrite Nat.min_id in A4, B4.
  assert (R0 : rest b1 b2 = []).
  { destruct (rest b1 b2) as [|[i j] r] eqn:E; [reflexivity|]. exfalso. destruct (rest_in b1 b2 (i, j)) as [H1 H2]; [rewrite E; left; reflexivity|]. apply H2. cbn [snd].
    apply (pigeon (map fst b2) N B1); [intros x Hx; apply in_map_iff in Hx as [[u w] [<- Hx]]; apply (B3 u w Hx)|rewrite map_length; exact B4|apply (A3 i j H1)]. }
  pose proof (triples_perm b1 b2) as P1. rewrite R0, app_nil_r in P1. fold T in P1.
  assert (LT : length T = N) by (rewrite <- (map_length t12), <- (Permutation_length P1); exact A4).
  assert (N23 : NoDup (map t23 T)).
  { apply (NoDup_map_inv fst). rewrite map_map. replace (map (fun x => fst (t23 x)) T) with (map snd (map t12 T)) by (rewrite map_map; reflexivity). eapply Permutation_NoDup; [apply Permutation_map, P1|exact A2]. }
  assert (P2 : Permutation (map t23 T) b2).
  { apply NoDup_Permutation_bis; [exact N23|rewrite map_length; lia|]. intros x Hx. apply in_map_iff in Hx as [t [<- Ht]]. apply (triples_in b1 b2 t Ht). }
  split; [|split; [|split; [|split; [exact LT|]]]].
  - intros F. unfold cost. rewrite (rsum_perm _ _ (Permutation_map _ P1)), map_map. reflexivity.
  - intros F. unfold cost. rewrite <- (rsum_perm _ _ (Permutation_map _ P2)), map_map. reflexivity.
  - split; [|split].
    + rewrite map_map. replace (map (fun x => fst (t13 x)) T) with (map fst (map t12 T)) by (rewrite map_map; reflexivity). eapply Permutation_NoDup; [apply Permutation_map, P1|exact A1].
    + rewrite map_map. replace (map (fun x => snd (t13 x)) T) with (map snd (map t23 T)) by (rewrite map_map; reflexivity). eapply Permutation_NoDup; [apply Permutation_map, Permutation_sym, P2|exact B2].
    + intros i k Hi. apply in_map_iff in Hi as [[[i' j'] k'] [E Ht]]. injection E as <- <-. apply triples_in in Ht as [Ha Hb]. unfold t12, t23 in *. cbn in Ha, Hb. apply A3 in Ha. apply B3 in Hb. lia.
  - intros [[i j] k] Ht. apply triples_in in Ht as [Ha Hb]. unfold t12, t23 in *. cbn in *. apply A3 in Ha. apply B3 in Hb. lia.
Qed.

(** ** the p-norm combination of the two components *)
Definition pnorm (p : nat) (l k : R) : R := root p (l ^ p + k ^ p).
Lemma pnorm_value p c m n v : (1 <= p)%nat -> 0 <= c -> (0 < m)%nat -> 0 <= v ->
  pnorm p (root p (v / INR (Nat.max m n))) (root p (c ^ p * INR (absdiff m n) / INR (Nat.max m n))) = root p ((v + c ^ p * INR (absdiff m n)) / INR (Nat.max m n)).
Proof.
  intros Hp Hc Hm Hv. pose proof (max_pos m n Hm) as HM. assert (Hi : 0 < / INR (Nat.max m n)) by (apply Rinv_0_lt_compat; lra). pose proof (pos_INR (absdiff m n)). pose proof (pow_le c p Hc).
  unfold pnorm. rewrite !pow_root; [|exact Hp|unfold Rdiv; apply Rmult_le_pos; [apply Rmult_le_pos; assumption|lra]|exact Hp|unfold Rdiv; apply Rmult_le_pos; lra]. f_equal. field. lra.
Qed.
Lemma le_root_max p c m n v : (1 <= p)%nat -> 0 <= c -> (0 < m)%nat -> 0 <= v <= INR (Nat.min m n) * c ^ p -> root p ((v + c ^ p * INR (absdiff m n)) / INR (Nat.max m n)) <= c.
Proof.
  intros Hp Hc Hm Hv. pose proof (max_pos m n Hm) as HM. pose proof (pow_le c p Hc) as HK. rewrite <- (root_pow p c Hp Hc) at 2. pose proof (pos_INR (absdiff m n)).
  assert (S1 : INR (Nat.max m n) = INR (Nat.min m n) + INR (absdiff m n)) by (rewrite <- plus_INR; f_equal; unfold absdiff; lia).
  apply root_le.
  - unfold Rdiv. apply Rmult_le_pos; [|left; apply Rinv_0_lt_compat; lra]. assert (0 <= c ^ p * INR (absdiff m n)) by (apply Rmult_le_pos; assumption). lra.
  - apply Rmult_le_reg_r with (INR (Nat.max m n)); [exact HM|]. unfold Rdiv. rewrite Rmult_assoc, Rinv_l, Rmult_1_r by lra. rewrite S1. replace (c ^ p * (INR (Nat.min m n) + INR (absdiff m n))) with (INR (Nat.min m n) * c ^ p + c ^ p * INR (absdiff m n)) by ring. lra.
Qed.
Lemma pow0 p : (1 <= p)%nat -> 0 ^ p = 0.
Proof. intros H. apply pow_i. lia. Qed.
Lemma order_triangle p c l m n A12 A23 A13 v1 v2 v3 : (1 <= p)%nat -> 0 <= c -> (0 < l)%nat -> (0 < m)%nat -> (0 < n)%nat ->
  (forall i j, 0 <= A12 i j <= c) -> (forall i j, 0 <= A23 i j <= c) -> (forall i j, 0 <= A13 i j <= c) ->
  (forall i j k, A13 i k <= A12 i j + A23 j k) ->
  least_cost l m (fun i j => A12 i j ^ p) v1 -> least_cost m n (fun i j => A23 i j ^ p) v2 -> least_cost l n (fun i j => A13 i j ^ p) v3 ->
  root p ((v3 + c ^ p * INR (absdiff l n)) / INR (Nat.max l n)) <=
  root p ((v1 + c ^ p * INR (absdiff l m)) / INR (Nat.max l m)) + root p ((v2 + c ^ p * INR (absdiff m n)) / INR (Nat.max m n)).
Proof.
  intros Hp Hc Hl Hm Hn K12 K23 K13 HT V1 V2 V3. set (N := Nat.max l (Nat.max m n)). set (K := c ^ p). assert (HK : 0 <= K) by (apply pow_le, Hc).
  pose proof V1 as [[a1 [Ha1 E1]] _]. pose proof V2 as [[a2 [Ha2 E2]] _].
  destruct (pad_up l m N K (fun i j => A12 i j ^ p) a1 HK ltac:(unfold N; lia) Ha1) as [b1 [Hb1 C1]]. destruct (pad_up m n N K (fun i j => A23 i j ^ p) a2 HK ltac:(unfold N; lia) Ha2) as [b2 [Hb2 C2]].
  rewrite E1 in C1. rewrite E2 in C2. destruct (compose_full N b1 b2 Hb1 Hb2) as [F1 [F2 [PM [LT BT]]]]. set (T := triples b1 b2) in *.
  rewrite F1 in C1. rewrite F2 in C2.
  pose (u := fun t : nat * nat * nat => padU l m c A12 (fst (t12 t)) (snd (t12 t))). pose (w := fun t : nat * nat * nat => padU m n c A23 (fst (t23 t)) (snd (t23 t))).
  assert (PU : forall m n A i j, padU m n K (fun i j => A i j ^ p) i j = padU m n c A i j ^ p).
  { intros m' n' A i j. unfold padU. destruct (i <? m')%nat, (j <? n')%nat; try reflexivity. symmetry. apply pow0, Hp. }
  assert (PL : forall m n A i j, padL m n K (fun i j => A i j ^ p) i j = padL m n c A i j ^ p).
  { intros m' n' A i j. unfold padL. destruct (i <? m')%nat, (j <? n')%nat; reflexivity. }
  set (S1 := rsum (map (fun t => u t ^ p) T)). set (S2 := rsum (map (fun t => w t ^ p) T)).
  assert (Q1 : S1 <= v1 + K * INR (absdiff l m)). { unfold S1. rewrite (rsum_ext _ (fun t => padU l m K (fun i j => A12 i j ^ p) (fst (t12 t)) (snd (t12 t)))); [exact C1|]. intros t _. symmetry. apply PU. }
  assert (Q2 : S2 <= v2 + K * INR (absdiff m n)). { unfold S2. rewrite (rsum_ext _ (fun t => padU m n K (fun i j => A23 i j ^ p) (fst (t23 t)) (snd (t23 t)))); [exact C2|]. intros t _. symmetry. apply PU. }
  assert (NN : forall m n A i j, (forall i j, 0 <= A i j <= c) -> 0 <= padU m n c A i j).
  { intros m' n' A i j HA. unfold padU. destruct (i <? m')%nat, (j <? n')%nat; try lra. apply HA. }
  assert (Hu : forall t, 0 <= u t) by (intros t; apply NN, K12). assert (Hw : forall t, 0 <= w t) by (intros t; apply NN, K23).
  pose proof (minkowski_p u w p T Hp (fun t _ => Hu t) (fun t _ => Hw t)) as MK. fold S1 S2 in MK.
  pose proof (pad_low l n N K (fun i j => A13 i j ^ p) v3 (map t13 T)) as LOW. specialize (LOW ltac:(intros i j _ _; apply pow_mono; apply K13) V3 PM). rewrite map_length, LT in LOW.
  assert (S3 : cost (padL l n K (fun i j => A13 i j ^ p)) (map t13 T) <= rsum (map (fun t => (u t + w t) ^ p) T)).
  { unfold cost. rewrite map_map. apply rsum_le. intros [[i j] k] Ht. destruct (BT _ Ht) as [Bi [Bj Bk]]. cbn [fst snd] in Bi, Bj, Bk. cbn [t13 fst snd]. rewrite PL. apply pow_mono.
    - unfold padL. destruct (i <? l)%nat, (k <? n)%nat; try lra. apply K13.
    - unfold padL, u, w, padU, t12, t23. cbn [fst snd]. specialize (HT i j k). pose proof (K12 i j). pose proof (K23 j k). pose proof (K13 i k).
      destruct (Nat.ltb_spec i l), (Nat.ltb_spec j m), (Nat.ltb_spec k n); try lra. unfold N in *. lia. }
  assert (HN : 0 < INR N) by (apply lt_0_INR; unfold N; lia).
  pose proof (least_bounds _ _ _ _ K V1 ltac:(intros i j _ _; split; [apply pow_le; apply K12|apply pow_mono; apply K12])) as B1.
  pose proof (least_bounds _ _ _ _ K V2 ltac:(intros i j _ _; split; [apply pow_le; apply K23|apply pow_mono; apply K23])) as B2.
  pose proof (least_bounds _ _ _ _ K V3 ltac:(intros i j _ _; split; [apply pow_le; apply K13|apply pow_mono; apply K13])) as B3.
  assert (P1 : 0 <= S1) by (apply rsum_nonneg; intros x Hx; apply in_map_iff in Hx as [t [<- _]]; apply pow_le, Hu).
  assert (P2 : 0 <= S2) by (apply rsum_nonneg; intros x Hx; apply in_map_iff in Hx as [t [<- _]]; apply pow_le, Hw).
  assert (DIV : forall S v a b, 0 <= S -> S <= v + K * INR (absdiff a b) -> 0 <= v -> (0 < a)%nat -> (Nat.max a b <= N)%nat -> root p (S / INR N) <= root p ((v + K * INR (absdiff a b)) / INR (Nat.max a b))).
  { intros S v a b HS HSv Hv Ha Hab. pose proof (max_pos a b Ha) as HM. apply root_le; [unfold Rdiv; apply Rmult_le_pos; [exact HS|left; apply Rinv_0_lt_compat; lra]|].
    unfold Rdiv. apply Rmult_le_compat; [exact HS|left; apply Rinv_0_lt_compat; lra|exact HSv|]. apply Rinv_le_contravar; [exact HM|apply le_INR; exact Hab]. }
  eapply Rle_trans; [|apply Rplus_le_compat; [apply (DIV S1 v1 l m P1 Q1 (proj1 B1) Hl); unfold N; lia|apply (DIV S2 v2 m n P2 Q2 (proj1 B2) Hm); unfold N; lia]].
  assert (INN : 0 <= / INR N) by (left; apply Rinv_0_lt_compat; lra). unfold Rdiv at 2 3. rewrite !root_mult by assumption. rewrite <- Rmult_plus_distr_r.
  set (q := root p S1 + root p S2) in *. assert (Hq : 0 <= q) by (unfold q; pose proof (root_nonneg p S1); pose proof (root_nonneg p S2); lra).
  rewrite <- (root_pow p q Hp Hq) at 1. rewrite <- root_mult; [|apply pow_le; exact Hq|exact INN].
  pose proof (max_pos l n Hl) as HM. assert (HS : INR (Nat.max l n) = INR (Nat.min l n) + INR (absdiff l n)) by (rewrite <- plus_INR; f_equal; unfold absdiff; lia). pose proof (pos_INR (absdiff l n)).
  apply root_le.
  - unfold Rdiv. apply Rmult_le_pos; [|left; apply Rinv_0_lt_compat; lra]. assert (0 <= K * INR (absdiff l n)) by (apply Rmult_le_pos; assumption). lra.
  - set (G := K * INR (Nat.min l n) - v3) in *. assert (HG : 0 <= G) by (unfold G; lra).
    apply Rle_trans with ((K * INR N - G) * / INR N).
    + replace ((v3 + K * INR (absdiff l n)) / INR (Nat.max l n)) with (K - G * / INR (Nat.max l n)).
      2: { unfold G. replace (INR (absdiff l n)) with (INR (Nat.max l n) - INR (Nat.min l n)) by lra. field. lra. }
      replace ((K * INR N - G) * / INR N) with (K - G * / INR N) by (field; lra).
      assert (G * / INR N <= G * / INR (Nat.max l n)); [|lra]. apply Rmult_le_compat_l; [exact HG|]. apply Rinv_le_contravar; [exact HM|apply le_INR; unfold N; lia].
    + apply Rmult_le_compat_r; [exact INN|]. lra.
Qed.

(** ** sets of objects *)
Lemma sets_pnorm_le d c p X Y l k : (1 <= p)%nat -> 0 <= c -> (forall x y, 0 <= d x y) -> ospa_of_sets d c p X Y l k -> 0 <= l /\ 0 <= k /\ pnorm p l k <= c.
Proof.
  intros Hp Hc Hd H. assert (P0 : pnorm p 0 0 = 0) by (unfold pnorm; rewrite pow0 by exact Hp; rewrite Rplus_0_r; apply root_0).
  assert (Pc : pnorm p 0 c = c) by (unfold pnorm; rewrite pow0 by exact Hp; rewrite Rplus_0_l; apply root_pow; assumption).
  destruct X as [|x0 X], Y as [|y0 Y]; try (destruct H as [-> ->]; rewrite ?P0, ?Pc; lra).
  destruct H as [v [Hv [-> ->]]]. split; [apply root_nonneg|]. split; [apply root_nonneg|].
  assert (B : 0 <= v <= INR (Nat.min (length (x0 :: X)) (length (y0 :: Y))) * c ^ p).
  { apply (least_bounds _ _ _ _ _ Hv). intros i j _ _. assert (0 <= Rmin (d (nth i (x0 :: X) x0) (nth j (y0 :: Y) y0)) c <= c) as [H1 H2] by (split; [apply Rmin_glb; auto|apply Rmin_r]). split; [apply pow_le, H1|apply pow_mono; assumption]. }
  rewrite pnorm_value; [|exact Hp|exact Hc|cbn; lia|apply B]. apply le_root_max; [exact Hp|exact Hc|cbn; lia|exact B].
Qed.
Lemma ospa_sets_order_triangle d c p X Y Z l1 k1 l2 k2 l3 k3 : (1 <= p)%nat -> pseudo_metric d -> 0 <= c ->
  ospa_of_sets d c p X Y l1 k1 -> ospa_of_sets d c p Y Z l2 k2 -> ospa_of_sets d c p X Z l3 k3 -> pnorm p l3 k3 <= pnorm p l1 k1 + pnorm p l2 k2.
Proof.
  intros Hp Hd Hc H1 H2 H3. assert (NN : forall a b, 0 <= pnorm p a b) by (intros; apply root_nonneg).
  assert (P0 : pnorm p 0 0 = 0) by (unfold pnorm; rewrite pow0 by exact Hp; rewrite Rplus_0_r; apply root_0).
  assert (Pc : pnorm p 0 c = c) by (unfold pnorm; rewrite pow0 by exact Hp; rewrite Rplus_0_l; apply root_pow; assumption).
  destruct (sets_pnorm_le _ _ _ _ _ _ _ Hp Hc (proj1 Hd) H3) as [_ [_ L3]]. pose proof (NN l1 k1). pose proof (NN l2 k2).
  destruct X as [|x0 X].
  { destruct Z as [|z0 Z]; [destruct H3 as [-> ->]; lra|]. destruct Y as [|y0 Y]; [destruct H2 as [-> ->]; rewrite Pc in *; lra|destruct H1 as [-> ->]; rewrite Pc in *; lra]. }
  destruct Z as [|z0 Z].
  { destruct Y as [|y0 Y]; [destruct H1 as [-> ->]; rewrite Pc in *; lra|destruct H2 as [-> ->]; rewrite Pc in *; lra]. }
  destruct Y as [|y0 Y]; [destruct H1 as [-> ->]; rewrite Pc in *; lra|].
  destruct H1 as [v1 [V1 [-> ->]]], H2 as [v2 [V2 [-> ->]]], H3 as [v3 [V3 [-> ->]]]. pose proof (proj1 Hd) as Hd0.
  assert (PP : forall a b, 0 <= Rmin (d a b) c ^ p) by (intros; apply pow_le, Rmin_glb; auto).
  rewrite !pnorm_value; try exact Hp; try exact Hc; try (cbn; lia).
  2-4: match goal with |- 0 <= ?v => match goal with H : least_cost _ _ _ v |- _ => destruct H as [[? [_ <-]] _]; apply rsum_nonneg; intros y Hy; apply in_map_iff in Hy as [? [<- _]]; apply PP end end.
  apply (order_triangle p c _ _ _ (fun i j => Rmin (d (nth i (x0 :: X) x0) (nth j (y0 :: Y) y0)) c) (fun i j => Rmin (d (nth i (y0 :: Y) y0) (nth j (z0 :: Z) z0)) c)
    (fun i j => Rmin (d (nth i (x0 :: X) x0) (nth j (z0 :: Z) z0)) c)); try assumption; try (cbn; lia); try (intros; split; [apply Rmin_glb; auto|apply Rmin_r]).
  intros i j k. apply Rmin_metric; assumption.
Qed.
(** The reported sum against the p-norm. *)
Lemma sum_pnorm p l k : (1 <= p)%nat -> 0 <= l -> 0 <= k -> pnorm p l k <= l + k /\ (l + k) ^ p <= 2 ^ (p - 1) * pnorm p l k ^ p.
Proof.
  intros Hp Hl Hk. pose proof (pow_le l p Hl). pose proof (pow_le k p Hk). split.
  - rewrite <- (root_pow p (l + k) Hp ltac:(lra)). apply root_le; [lra|]. clear -Hl Hk Hp. induction p as [|p IH]; [lia|]. destruct p as [|p]; [cbn; lra|]. specialize (IH ltac:(lia)).
    rewrite <- !(tech_pow_Rmult _ (S p)). pose proof (pow_le l (S p) Hl). pose proof (pow_le k (S p) Hk).
    assert ((l + k) * (l ^ S p + k ^ S p) <= (l + k) * (l + k) ^ S p) by (apply Rmult_le_compat_l; lra).
    assert (0 <= l * k ^ S p) by (apply Rmult_le_pos; assumption). assert (0 <= k * l ^ S p) by (apply Rmult_le_pos; assumption). lra.
  - unfold pnorm. rewrite pow_root by (exact Hp || lra). pose proof (pow_convex p l k (/ 2) (/ 2) Hl Hk ltac:(lra) ltac:(lra) ltac:(lra)) as C.
    replace (/ 2 * l + / 2 * k) with (/ 2 * (l + k)) in C by ring. rewrite Rpow_mult_distr in C. replace p with (S (p - 1)) in C at 1 by lia. cbn [pow] in C. rewrite pow_inv in C.
    assert (P2 : 0 < 2 ^ (p - 1)) by (apply pow_lt; lra). apply (Rmult_le_compat_l (2 * 2 ^ (p - 1))) in C; [|lra].
    replace (2 * 2 ^ (p - 1) * (/ 2 * / 2 ^ (p - 1) * (l + k) ^ p)) with ((l + k) ^ p) in C by (field; lra). replace (2 * 2 ^ (p - 1) * (/ 2 * l ^ p + / 2 * k ^ p)) with (2 ^ (p - 1) * (l ^ p + k ^ p)) in C by field. exact C.
Qed.
