(** The order of the measurements in the CPHD filter (C198). *)
From Verif Require Import Base Lists.
From Coq Require Import Reals Permutation Lra Lia.
From Verif Require Import OspaModel CphdModel OspaProofs CphdSpec CphdProofs CphdProps GlmbBayes.
Open Scope R_scope.

(** ** specification *)
(** The components: weight, mean, covariance. *)
Definition rcomps {V M} (g : rmix V M) : list (R * V * M) := combine (combine (rm_w g) (rm_m g)) (rm_p g).

(** ** proofs *)
Lemma esym_0 l : esym l 0 = 1.
Proof. destruct l; reflexivity. Qed.
Lemma esym_perm l l' : Permutation l l' -> forall j, esym l j = esym l' j.
Proof.
  induction 1 as [|x l l' _ IH|x y l|l1 l2 l3 _ IH1 _ IH2]; intros j.
  - reflexivity.
  - destruct j as [|j]; [reflexivity|]. cbn [esym]. rewrite (IH (S j)), (IH j). reflexivity.
  - destruct j as [|[|j]]; [reflexivity| |].
    + cbn [esym]. rewrite !esym_0. ring.
    + cbn [esym]. ring.
  - rewrite IH1. apply IH2.
Qed.
Lemma upsilon_perm rate tot q u xi xi' n : Permutation xi xi' -> upsilon rate tot q u xi n = upsilon rate tot q u xi' n.
Proof.
  intros H. unfold upsilon. rewrite (Permutation_length H). unfold sum_ab. apply rsum_ext. intros j _. rewrite (esym_perm xi xi' H j). reflexivity.
Qed.
Lemma inner_perm mx rate tot q u xi xi' rho : Permutation xi xi' -> inner mx (upsilon rate tot q u xi) rho = inner mx (upsilon rate tot q u xi') rho.
Proof. intros H. unfold inner, sum_ab. apply rsum_ext. intros n _. rewrite (upsilon_perm rate tot q u xi xi' n H). reflexivity. Qed.
(** Removing one occurrence of a value. *)
Fixpoint rem1 (x : R) (l : list R) : list R :=
  match l with [] => [] | y :: l' => if Req_EM_T x y then l' else y :: rem1 x l' end.
Lemma rem1_perm x l : In x l -> Permutation (x :: rem1 x l) l.
Proof.
  induction l as [|y l IH]; intros H; [destruct H|]. cbn [rem1]. destruct (Req_EM_T x y) as [-> |N]; [reflexivity|].
  destruct H as [E|H]; [congruence|]. rewrite perm_swap. constructor. apply IH, H.
Qed.
Lemma without_perm {A} j (l : list A) d : (j < length l)%nat -> Permutation (nth j l d :: without j l) l.
Proof.
  revert j. induction l as [|x l IH]; intros j H; [cbn in H; lia|]. destruct j as [|j]; [reflexivity|].
  cbn in H. change (without (S j) (x :: l)) with (x :: without j l). cbn [nth]. rewrite perm_swap. constructor. apply IH. lia.
Qed.
Lemma without_rem1 j l : (j < length l)%nat -> Permutation (without j l) (rem1 (nth j l 0) l).
Proof.
  intros H. apply (Permutation_cons_inv (a := nth j l 0)). rewrite (without_perm j l 0 H). symmetry. apply rem1_perm, nth_In, H.
Qed.
Lemma combine_app {A B} (a a' : list A) (b b' : list B) : length a = length b -> combine (a ++ a') (b ++ b') = combine a b ++ combine a' b'.
Proof. revert b. induction a as [|x a IH]; intros [|y b] E; try discriminate; [reflexivity|]. cbn. f_equal. apply IH. cbn in E. lia. Qed.

Section Weights.
Variables (rate den pd q : R) (mx : nat) (rho w : list R).
Definition xi1 (r : list R) : R := pd / den * rsum (map (fun wq => fst wq * snd wq) (combine w r)).
Definition det_block (xi : list R) (r : list R) : list R :=
  map (fun wq => inner mx (upsilon rate (rsum w) q 1 (rem1 (xi1 r) xi)) rho / inner mx (upsilon rate (rsum w) q 0 xi) rho * (pd * snd wq / den * fst wq)) (combine w r).
Lemma blocks_by_row L : 
  flat_map (fun jl => map (fun wq => inner mx (upsilon rate (rsum w) q 1 (without (fst jl) (xi_of pd den w L))) rho / inner mx (upsilon rate (rsum w) q 0 (xi_of pd den w L)) rho * (pd * snd wq / den * fst wq))
                          (combine w (snd jl))) (combine (seq 0 (length L)) L) = flat_map (det_block (xi_of pd den w L)) L.
Proof.
  set (xi := xi_of pd den w L).
  assert (K : forall k L0, (forall j, (j < length L0)%nat -> (k + j < length xi)%nat /\ nth (k + j) xi 0 = xi1 (nth j L0 [])) ->
    flat_map (fun jl => map (fun wq => inner mx (upsilon rate (rsum w) q 1 (without (fst jl) xi)) rho / inner mx (upsilon rate (rsum w) q 0 xi) rho * (pd * snd wq / den * fst wq)) (combine w (snd jl))) (combine (seq k (length L0)) L0)
    = flat_map (det_block xi) L0).
  { intros k L0. revert k. induction L0 as [|r L0 IH]; intros k H; [reflexivity|]. cbn [length seq combine flat_map fst snd]. f_equal.
    - destruct (H 0%nat) as [H1 H2]; [cbn; lia|]. rewrite Nat.add_0_r in H1, H2. cbn [nth] in H2. unfold det_block. rewrite <- H2. 
      rewrite (inner_perm mx rate (rsum w) q 1 _ _ rho (without_rem1 k xi H1)). reflexivity.
    - apply IH. intros j Hj. destruct (H (S j)) as [H1 H2]; [cbn; lia|]. rewrite Nat.add_succ_r in H1, H2. cbn [nth] in H2. split; [exact H1|exact H2]. }
  apply K. intros j Hj. unfold xi, xi_of. rewrite map_length. split; [exact Hj|].
  rewrite (nth_indep _ 0 (xi1 [])) by (rewrite map_length; exact Hj). apply (map_nth xi1).
Qed.
End Weights.

(** ** theorems *)
(** If the inner filter's covariance does not depend on the measurement (Kalman
    filter), the order in which a scan is listed does not matter. *)
Theorem C198_cphd_measurement_order_partial : forall {V M Meas} (c : ccfg V M Meas) s meas meas' s1,
  esf_ok (k_esf c) -> 0 < k_ps c < 1 -> 0 <= k_pd c <= 1 -> 0 < k_rate c -> 0 < k_den c -> k_gating c = false ->
  (forall z m p, 0 <= snd (k_fcorr c z m p)) ->
  raligned (cp_mix s) -> rnonneg (cp_mix s) -> 0 < rsum (rm_w (cp_mix s)) -> distribution (cp_max s) (cp_card s) ->
  (forall z z' m p, snd (fst (k_fcorr c z m p)) = snd (fst (k_fcorr c z' m p))) ->
  Permutation meas meas' -> cp_correct c meas s = Ok s1 ->
  exists s2, cp_correct c meas' s = Ok s2 /\ Permutation (rcomps (cp_mix s1)) (rcomps (cp_mix s2)) /\ cp_card s2 = cp_card s1.
Proof.
  intros V M Meas c s meas meas' s1 He Hps Hpd Hr Hd Hg Hl Ha Hn Ht Hdist Hcov Pm H.
  destruct (C41_cphd_correct_total c s meas' He Hps Hpd Hr Hd Hg Hl Ha Hn Ht Hdist) as (s2 & E2 & _).
  exists s2. split; [exact E2|].
  destruct (C45_cphd_correct_actual c s meas s1 He Hps Hpd Hr Hd Hg Hl Ha Hn Ht Hdist H) as [W1 K1].
  destruct (C45_cphd_correct_actual c s meas' s2 He Hps Hpd Hr Hd Hg Hl Ha Hn Ht Hdist E2) as [W2 K2].
  destruct (C75_cphd_components_partial c s meas s1 He Hps Hpd Hr Hd Hg Hl Ha Hn Ht Hdist Hcov H) as [M1 P1].
  destruct (C75_cphd_components_partial c s meas' s2 He Hps Hpd Hr Hd Hg Hl Ha Hn Ht Hdist Hcov E2) as [M2 P2].
  set (cs := combine (rm_m (cp_mix s)) (rm_p (cp_mix s))) in *.
  set (row := fun z => map (fun mp => snd (k_fcorr c z (fst mp) (snd mp))) cs) in *.
  set (w := rm_w (cp_mix s)) in *.
  change (map (fun z => map (fun mp => snd (k_fcorr c z (fst mp) (snd mp))) cs) meas) with (map row meas) in W1, K1.
  change (map (fun z => map (fun mp => snd (k_fcorr c z (fst mp) (snd mp))) cs) meas') with (map row meas') in W2, K2.
  set (xi := xi_of (k_pd c) (k_den c) w (map row meas)) in *. set (xi' := xi_of (k_pd c) (k_den c) w (map row meas')) in *.
  assert (Px : Permutation xi xi') by (apply Permutation_map, Permutation_map, Pm).
  assert (Lc : length cs = length w) by (unfold cs; rewrite combine_length; destruct Ha; unfold w; lia).
  split.
  - unfold cphd_weights in W1, W2. fold xi in W1. fold xi' in W2. unfold xi in W1 at 3 4. unfold xi' in W2 at 3 4.
    rewrite blocks_by_row in W1, W2. fold xi in W1. fold xi' in W2.
    set (mw := fun x => map (fun wi => inner (cp_max s) (upsilon (k_rate c) (rsum w) (1 - k_ps c) 1 x) (cp_card s) / inner (cp_max s) (upsilon (k_rate c) (rsum w) (1 - k_ps c) 0 x) (cp_card s) * (1 - k_pd c) * wi) w).
    change (rm_w (cp_mix s1) = mw xi ++ flat_map (det_block (k_rate c) (k_den c) (k_pd c) (1 - k_ps c) (cp_max s) (cp_card s) w xi) (map row meas)) in W1.
    change (rm_w (cp_mix s2) = mw xi' ++ flat_map (det_block (k_rate c) (k_den c) (k_pd c) (1 - k_ps c) (cp_max s) (cp_card s) w xi') (map row meas')) in W2.
    assert (Emw : mw xi' = mw xi) by (unfold mw; apply map_ext; intros wi; rewrite !(inner_perm _ _ _ _ _ xi' xi _ (Permutation_sym Px)); reflexivity).
    set (blk := fun x z => combine (combine (det_block (k_rate c) (k_den c) (k_pd c) (1 - k_ps c) (cp_max s) (cp_card s) w x (row z)) (map (fun mp => fst (fst (k_fcorr c z (fst mp) (snd mp)))) cs)) (map (fun mp => snd (fst (k_fcorr c z (fst mp) (snd mp)))) cs)).
    assert (F : forall x l, combine (combine (flat_map (det_block (k_rate c) (k_den c) (k_pd c) (1 - k_ps c) (cp_max s) (cp_card s) w x) (map row l)) (flat_map (fun z => map (fun mp => fst (fst (k_fcorr c z (fst mp) (snd mp)))) cs) l))
        (flat_map (fun z => map (fun mp => snd (fst (k_fcorr c z (fst mp) (snd mp)))) cs) l) = flat_map (blk x) l).
    { intros x l. induction l as [|z l IH]; [reflexivity|]. cbn [map flat_map].
      assert (Lb : length (det_block (k_rate c) (k_den c) (k_pd c) (1 - k_ps c) (cp_max s) (cp_card s) w x (row z)) = length cs) by (unfold det_block, row; rewrite map_length, combine_length, map_length; lia).
      rewrite combine_app by (rewrite map_length; exact Lb). rewrite combine_app by (rewrite combine_length, !map_length, Lb; lia). rewrite IH. reflexivity. }
    assert (Lm : forall x, length (mw x) = length w) by (intros x; apply map_length). destruct Ha as [A1 A2]. fold w in A1, A2.
    unfold rcomps. rewrite W1, M1, P1, W2, M2, P2, Emw.
    rewrite !combine_app by (rewrite ?combine_length, Lm; lia). rewrite !F. apply Permutation_app_head.
    assert (Eb : forall z, blk xi' z = blk xi z).
    { intros z. unfold blk, det_block. do 2 f_equal. apply map_ext_in. intros wq Hwq. rewrite (inner_perm _ _ _ _ _ xi' xi _ (Permutation_sym Px)). do 2 f_equal.
      assert (D : In (xi1 (k_den c) (k_pd c) w (row z)) xi \/ ~ In (xi1 (k_den c) (k_pd c) w (row z)) xi) by apply Classical_Prop.classic.
      destruct D as [D|D].
      - apply inner_perm. apply (Permutation_cons_inv (a := xi1 (k_den c) (k_pd c) w (row z))). rewrite rem1_perm by (apply (Permutation_in _ Px), D). rewrite rem1_perm by exact D. symmetry. exact Px.
      - assert (R1 : forall x l, ~ In x l -> rem1 x l = l).
        { intros x l. induction l as [|y l IH]; intros N; [reflexivity|]. cbn [rem1]. destruct (Req_EM_T x y) as [-> |N']; [exfalso; apply N; left; reflexivity|]. f_equal. apply IH. intros I0. apply N. right. exact I0. }
        rewrite !R1; [apply inner_perm, Permutation_sym, Px|exact D|]. intros I0. apply D, (Permutation_in _ (Permutation_sym Px)), I0. }
    rewrite (flat_map_ext _ _ Eb). apply Permutation_flat_map, Pm.
  - rewrite K1, K2. apply map_ext. intros n. unfold cphd_card. fold xi xi'. rewrite (upsilon_perm _ _ _ _ xi' xi n (Permutation_sym Px)), (inner_perm _ _ _ _ _ xi' xi _ (Permutation_sym Px)). reflexivity.
Qed.

(** In general the covariances depend on it: all detections carry the one of the
    measurement listed last. *)
Theorem C198_cphd_measurement_order_refuted : exists s1 s2,
  cp_correct (ex_c (1/2) (1/2) 1 ex_birth) [5; 7]%nat (ex_s 1 [1/2; 1/2] ex_g1) = Ok s1 /\
  cp_correct (ex_c (1/2) (1/2) 1 ex_birth) [7; 5]%nat (ex_s 1 [1/2; 1/2] ex_g1) = Ok s2 /\
  rm_p (cp_mix s1) = [0; 7; 7]%nat /\ rm_p (cp_mix s2) = [0; 5; 5]%nat.
Proof.
  assert (D : distribution 1 [1/2; 1/2]).
  { split; [reflexivity|]. split; [intros x [<-|[<-|[]]]; lra|cbn; field]. }
  assert (K : forall a b, exists s', cp_correct (ex_c (1/2) (1/2) 1 ex_birth) [a; b] (ex_s 1 [1/2; 1/2] ex_g1) = Ok s' /\ rm_p (cp_mix s') = [0; b; b]%nat).
  { intros a b. unfold cp_correct. cbn [k_gating ex_c bind ex_s cp_max cp_card cp_mix].
    rewrite (correct_density_val (ex_c (1/2) (1/2) 1 ex_birth) 1 [1/2; 1/2] [a; b] ex_g1); try (cbn; lra).
    - cbn [bind]. match goal with |- context [argmaxR ?l] => destruct (argmaxR l) as [h|e] eqn:Eh end; [|cbn in Eh; discriminate].
      cbn [bind]. eexists. split; [reflexivity|]. reflexivity.
    - exact esf_ref_ok.
    - split; reflexivity.
    - discriminate.
    - intros x [<-|[]]; lra.
    - intros q x Hq Hx. destruct Hq as [<-|[<-|[]]]; destruct Hx as [<-|[]]; cbn; lra.
    - exact D. }
  destruct (K 5%nat 7%nat) as (s1 & E1 & P1). destruct (K 7%nat 5%nat) as (s2 & E2 & P2). exists s1, s2. auto.
Qed.

(** A filter meeting the hypotheses of the partial theorem: the covariance does not
    look at the measurement. *)
Definition order_c : ccfg nat nat nat :=
  {| k_fpred := fun m p => (m, p); k_fcorr := fun z m p => (z, p, 1); k_ps := 1/2; k_pd := 1/2;
     k_birth := ex_birth; k_rate := 1; k_den := 1; k_esf := esf_ref; k_gating := false;
     k_gate := fun ms _ => Ok ms; k_save_covs := true |}.
Example C198_instance : exists s1 s2,
  cp_correct order_c [5; 7]%nat (ex_s 1 [1/2; 1/2] ex_g1) = Ok s1 /\
  cp_correct order_c [7; 5]%nat (ex_s 1 [1/2; 1/2] ex_g1) = Ok s2 /\
  Permutation (rcomps (cp_mix s1)) (rcomps (cp_mix s2)) /\ cp_card s2 = cp_card s1.
Proof.
  assert (D : distribution 1 [1/2; 1/2]).
  { split; [reflexivity|]. split; [intros x [<-|[<-|[]]]; lra|cbn; field]. }
  assert (A : raligned ex_g1) by (split; reflexivity).
  assert (N : rnonneg ex_g1) by (intros x [<-|[]]; lra).
  assert (T : 0 < rsum (rm_w ex_g1)) by (cbn; lra).
  assert (L : forall z m p, 0 <= snd (k_fcorr order_c z m p)) by (intros; cbn; lra).
  assert (P1 : 0 < k_ps order_c < 1) by (cbn; lra). assert (P2 : 0 <= k_pd order_c <= 1) by (cbn; lra).
  assert (P3 : 0 < k_rate order_c) by (cbn; lra). assert (P4 : 0 < k_den order_c) by (cbn; lra).
  destruct (C41_cphd_correct_total order_c (ex_s 1 [1/2; 1/2] ex_g1) [5; 7]%nat esf_ref_ok P1 P2 P3 P4 eq_refl L A N T D) as (s1 & E1 & _).
  exists s1.
  destruct (C198_cphd_measurement_order_partial order_c (ex_s 1 [1/2; 1/2] ex_g1) [5; 7]%nat [7; 5]%nat s1
    esf_ref_ok P1 P2 P3 P4 eq_refl L A N T D (fun z z' m p => eq_refl) (perm_swap 7%nat 5%nat []) E1) as (s2 & E2 & R).
  exists s2. auto.
Qed.

Print Assumptions C198_cphd_measurement_order_partial.
Print Assumptions C198_cphd_measurement_order_refuted.
