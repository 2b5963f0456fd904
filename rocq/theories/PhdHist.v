(** Histories of calls on a PHD filter whose attributes may be re-assigned between
    calls: no call raises, the expected number of objects is bounded by births and
    measurements, the number of components and of reported states is bounded
    (C139-C141). *)
From Verif Require Import Base Lists PhdModel PhdSpec PhdProofs PhdProps.
From Coq Require Import Permutation Sorting.Sorted Lqa.

(** ** specification *)
(** A history: each call with the attribute values at that time. *)
Fixpoint hrun {Meas} (argsort : list Q -> list nat) (l : list (cfg Meas * op Meas)) (s : phd Meas) : result (phd Meas) :=
  match l with [] => Ok s | (c, o) :: l' => do s1 <- step c argsort o s; hrun argsort l' s1 end.

(** A class of covariances closed under weighted averages (and under equality of
    the entries), such as the positive definite matrices. *)
Definition cov_class (good : mat -> Prop) : Prop :=
  forall (l : list (Q * mat)) (a : Q) (r : mat), l <> [] ->
    (forall w p, In (w, p) l -> (0 < w)%Q /\ good p) ->
    (a == qsum (map fst l))%Q -> (forall i j, (a * r i j == qsum (map (fun wp => fst wp * snd wp i j) l))%Q) -> good r.
Definition pos_def (n : nat) (p : mat) : Prop := forall d, ~ (forall i, i < n -> (d i == 0)%Q) -> (0 < quad n p d)%Q.

(** Attribute values: probabilities are probabilities, there is clutter, births
    are mixtures with nonnegative weights, the inner filter returns nonnegative
    likelihoods and keeps covariances in the class, la.inv inverts them, gating (if
    on) returns normally, thresholds are sensible. *)
Record phd_ok {Meas} (good : mat -> Prop) (c : cfg Meas) : Prop := {
  ok_ps : (0 <= c_ps c <= 1)%Q; ok_pd : (0 <= c_pd c <= 1)%Q; ok_kappa : (0 < c_kappa c)%Q;
  ok_births : forall b, In b (c_birth c) -> aligned b /\ nonneg b /\ forall p, In p (gm_p b) -> good p;
  ok_lik : forall z m p, (0 <= snd (fcorrect (c_filter c) z m p))%Q;
  ok_fpred : forall m p, good p -> good (snd (fpredict (c_filter c) m p));
  ok_fcorr : forall z m p, good p -> good (snd (fst (fcorrect (c_filter c) z m p)));
  ok_inv : forall p, good p -> exists ic, c_inv c p = Ok ic;
  ok_gate : c_gating c = true -> forall ms g, exists ms', c_gate c ms g = Ok ms';
  ok_prune : (0 < c_prune c)%Q; ok_merge : (0 <= c_merge c)%Q; ok_max : 1 <= c_max c }.
(** Merging and capping are used together with pruning. *)
Definition careful {Meas} (o : op Meas) : Prop :=
  match o with Cleanup pr ca me _ => pr = true \/ (ca = false /\ me = false) | _ => True end.

(** Number of predict calls times births, and number of stored measurements. *)
Definition born {Meas} (l : list (cfg Meas * op Meas)) : Q :=
  qsum (map (fun co => match snd co with Predict => qsum (map total (c_birth (fst co))) | _ => 0%Q end) l).
Definition seen {Meas} (s : phd Meas) : nat := length (concat (ph_meas s)).

(** ** proofs *)
Section H.
Context {Meas : Type} (good : mat -> Prop) (Hgood : cov_class good).
Definition covs_good (g : gmix) : Prop := forall p, In p (gm_p g) -> good p.

Lemma predict_good (c : cfg Meas) g : phd_ok good c -> aligned g -> covs_good g -> covs_good (predict c g).
Proof.
  intros O Ha Hg p Hp. assert (L : length (gm_m g) = length (gm_p g)) by (destruct Ha as [_ [A1 A2]]; lia).
  destruct (predict_spec c g L) as [_ [_ E]]. rewrite E in Hp. apply in_app_or in Hp as [Hp|Hp].
  - apply in_map_iff in Hp as [i [<- Hi]]. apply in_seq in Hi. apply (ok_fpred _ _ O), Hg. apply nth_In. lia.
  - apply in_concat in Hp as [x [Hx Hp]]. apply in_map_iff in Hx as [b [<- Hb]]. apply (ok_births _ _ O b Hb). exact Hp.
Qed.
Lemma correct_total' (c : cfg Meas) g meas : phd_ok good c -> mix_ok g -> covs_good g ->
  exists ms g', correct c meas g = Ok (ms, g') /\ mix_ok g' /\ covs_good g'.
Proof.
  intros O Hm Hg. pose proof Hm as [Ha Hn].
  assert (exists ms, (if c_gating c then c_gate c meas g else Ok meas) = Ok ms) as [ms Em] by (destruct (c_gating c) eqn:E; [apply (ok_gate _ _ O E)|eauto]).
  destruct (correct_density_total c g ms Ha) as [gm Eg].
  { intros z _. apply Qnot_eq_sym, Qlt_not_eq. pose proof (dsum_nonneg c (ok_pd _ _ O) (ok_lik _ _ O) g z Hm). pose proof (ok_kappa _ _ O). lra. }
  assert (E : correct c meas g = Ok (ms, gm_app gm {| gm_w := map (fun x => (1 - c_pd c) * x)%Q (gm_w g); gm_m := gm_m g; gm_p := gm_p g |})).
  { unfold correct. rewrite Em. cbn [bind]. rewrite Eg. reflexivity. }
  eexists ms, _. split; [exact E|]. split; [exact (correct_ok c (ok_pd _ _ O) (Qlt_le_weak _ _ (ok_kappa _ _ O)) (ok_lik _ _ O) g meas ms _ Hm E)|].
  intros p Hp. cbn [gm_app gm_p] in Hp. apply in_app_or in Hp as [Hp|Hp]; [|apply Hg; exact Hp].
  destruct (correct_density_spec c g ms gm Ha Eg) as [_ [_ [C _]]]. rewrite C in Hp. apply in_flat_map in Hp as [z [_ Hp]]. apply in_map_iff in Hp as [i [<- Hi]].
  apply in_seq in Hi. apply (ok_fcorr _ _ O), Hg. destruct Ha as [_ [_ A2]]. apply nth_In. lia.
Qed.
Lemma prune_total (c : cfg Meas) g : phd_ok good c -> mix_ok g -> covs_good g -> exists g', prune c g = Ok g' /\ mix_ok g' /\ positive g' /\ covs_good g' /\ (total g' <= total g)%Q.
Proof.
  intros O Hm Hg. pose proof Hm as [Ha Hn]. destruct (prune_spec c g Ha) as [g' [E [Ha' C]]]. exists g'. split; [exact E|]. split; [exact (prune_ok c g g' Hm E)|].
  assert (Wc : forall g, aligned g -> gm_w g = map (fun t => fst (fst t)) (comps g)).
  { intros h Hh. rewrite (comps_nth h Hh), map_map. cbn [fst]. symmetry. apply (map_nth_seq (gm_w h) 0%Q). }
  assert (Pc : forall g, aligned g -> gm_p g = map snd (comps g)).
  { intros h Hh. rewrite (comps_nth h Hh), map_map. cbn [snd]. symmetry. destruct Hh as [_ [_ B]]. rewrite <- B. apply (map_nth_seq (gm_p h) (fun _ _ => 0%Q)). }
  split; [|split].
  - intros x Hx. rewrite (Wc g' Ha'), C in Hx. apply in_map_iff in Hx as [t [<- Ht]]. apply filter_In in Ht as [_ Ht]. apply Qleb_le in Ht. pose proof (ok_prune _ _ O). lra.
  - intros p Hp. rewrite (Pc g' Ha'), C in Hp. apply in_map_iff in Hp as [t [<- Ht]]. apply filter_In in Ht as [Ht _]. apply Hg. rewrite (Pc g Ha). apply in_map. exact Ht.
  - unfold total. rewrite (Wc g' Ha'), C, (Wc g Ha). assert (NN : forall t, In t (comps g) -> (0 <= fst (fst t))%Q) by (intros t Ht; apply Hn; rewrite (Wc g Ha); apply (in_map (fun t => fst (fst t))); exact Ht).
    revert NN. generalize (comps g). clear. induction l as [|t l IH]; intros NN; [apply Qle_refl|]. specialize (IH (fun t Ht => NN t (or_intror Ht))). pose proof (NN t (or_introl eq_refl)).
    cbn [map filter]. destruct (Qle_bool _ _); cbn [map]; rewrite ?qs_cons; lra.
Qed.
Lemma merge_total (c : cfg Meas) g : phd_ok good c -> mix_ok g -> positive g -> covs_good g -> exists g', merge c g = Ok g' /\ mix_ok g' /\ positive g' /\ covs_good g' /\ (total g' == total g)%Q.
Proof.
  intros O Hm Hp Hg. pose proof Hm as [Ha Hn]. destruct (C35_phd_merge Meas c g Ha Hp (ok_merge _ _ O)) as [g' [gs [E [Al [Pm [T [_ G]]]]]]].
  { intros p Hin. apply (ok_inv _ _ O), Hg, Hin. }
  exists g'. split; [exact E|]. split; [exact (merge_ok c g g' Hm E)|]. destruct Al as [L1 [L2 L3]].
  assert (GI : forall k i, k < length gs -> In i (nth k gs []) -> i < length (gm_w g)).
  { intros k i Hk Hi. assert (In i (seq 0 (length (gm_w g)))) by (apply (Permutation_in _ Pm), in_concat; exists (nth k gs []); split; [apply nth_In; exact Hk|exact Hi]). apply in_seq in H. lia. }
  assert (NE : forall k, k < length gs -> nth k gs [] <> []).
  { intros k Hk E0. destruct (G k Hk) as [_ [_ [_ [jj [ic [Hj _]]]]]]. rewrite E0 in Hj. destruct Hj. }
  split; [|split; [|exact T]].
  - intros x Hx. apply (In_nth _ _ 0%Q) in Hx as [k [Hk <-]]. rewrite L1 in Hk. destruct (G k Hk) as [Ek _]. change (nth k (gm_w g') 0%Q) with (W g' k). rewrite Ek.
    apply qs_pos; [destruct (nth k gs []) eqn:E0; [exact (fun _ => NE k Hk E0)|discriminate]|]. intros y Hy. apply in_map_iff in Hy as [i [<- Hi]]. apply Hp, nth_In, (GI k i Hk Hi).
  - intros p Hin. apply (In_nth _ _ (fun _ _ => 0%Q)) in Hin as [k [Hk <-]]. change (k < length (gm_p g')) in Hk. rewrite L3 in Hk. destruct (G k Hk) as [Ek [_ [Ep _]]]. change (nth k (gm_p g') (fun _ _ : nat => 0%Q)) with (P g' k).
    apply (Hgood (map (fun i => (W g i, P g i)) (nth k gs [])) (W g' k) (P g' k)).
    + destruct (nth k gs []) eqn:E0; [exact (fun _ => NE k Hk E0)|discriminate].
    + intros w p Hwp. apply in_map_iff in Hwp as [i [Ei Hi]]. injection Ei as <- <-. specialize (GI k i Hk Hi). destruct Ha as [_ [_ A2]]. split; [apply Hp, nth_In, GI|apply Hg, nth_In; lia].
    + rewrite Ek, map_map. reflexivity.
    + intros i j. rewrite Ep, map_map. reflexivity.
Qed.
Lemma cap_total (c : cfg Meas) idx g : phd_ok good c -> sorts idx (gm_w g) -> mix_ok g -> positive g -> covs_good g ->
  exists g', cap c idx g = Ok g' /\ mix_ok g' /\ covs_good g' /\ (total g' == total g)%Q /\ length (gm_w g') <= c_max c.
Proof.
  intros O Hs Hm Hp Hg. pose proof Hm as [Ha Hn]. destruct (C37_phd_cap Meas c idx g Ha Hp (ok_max _ _ O) Hs) as [g' [E [T [L D]]]].
  exists g'. split; [exact E|]. split; [exact (cap_ok c idx g g' Hm E)|]. split; [|split; [exact T|exact L]].
  destruct D as [[_ ->]|[_ [kept [_ [_ [K [_ [_ [Ep _]]]]]]]]]; [exact Hg|]. intros p Hin. rewrite Ep in Hin. apply in_map_iff in Hin as [i [<- Hi]]. apply Hg, nth_In. destruct Ha as [_ [_ A2]]. rewrite A2. exact (K i Hi).
Qed.
Lemma extract_total (c : cfg Meas) s : aligned (ph_mix s) -> exists s', do_extract c s = Ok s' /\ ph_mix s' = ph_mix s /\ ph_meas s' = ph_meas s.
Proof. intros Ha. destruct (C38_phd_extract Meas c s Ha) as [s' [r [E [E1 [E2 _]]]]]. exists s'. auto. Qed.

Definition HInv (s : phd Meas) : Prop := mix_ok (ph_mix s) /\ covs_good (ph_mix s).
Context (argsort : list Q -> list nat) (Hsort : forall ws, sorts (argsort ws) ws).
Lemma cleanup_total (c : cfg Meas) pr ca me ex s : phd_ok good c -> pr = true \/ (ca = false /\ me = false) -> HInv s ->
  exists s', cleanup c argsort pr ca me ex s = Ok s' /\ HInv s' /\ (total (ph_mix s') <= total (ph_mix s))%Q /\ ph_meas s' = ph_meas s /\
    (ca = true -> length (gm_w (ph_mix s')) <= c_max c).
Proof.
  intros O Hc [Hm Hg]. unfold cleanup.
  assert (exists g3, (do g1 <- (if pr then prune c (ph_mix s) else Ok (ph_mix s)); do g2 <- (if me then merge c g1 else Ok g1); (if ca then cap c (argsort (gm_w g2)) g2 else Ok g2)) = Ok g3 /\
    mix_ok g3 /\ covs_good g3 /\ (total g3 <= total (ph_mix s))%Q /\ (ca = true -> length (gm_w g3) <= c_max c)) as [g3 [E3 [M3 [G3 [T3 L3]]]]].
  { destruct Hc as [-> | [-> ->]].
    - destruct (prune_total c _ O Hm Hg) as [g1 [E1 [M1 [P1 [G1 T1]]]]]. rewrite E1. cbn [bind].
      assert (exists g2, (if me then merge c g1 else Ok g1) = Ok g2 /\ mix_ok g2 /\ positive g2 /\ covs_good g2 /\ (total g2 == total g1)%Q) as [g2 [E2 [M2 [P2 [G2 T2]]]]].
      { destruct me; [exact (merge_total c g1 O M1 P1 G1)|]. exists g1. split; [reflexivity|]. split; [exact M1|]. split; [exact P1|]. split; [exact G1|reflexivity]. }
      rewrite E2. cbn [bind]. destruct ca.
      + destruct (cap_total c (argsort (gm_w g2)) g2 O (Hsort _) M2 P2 G2) as [g3 [E3 [M3 [G3 [T3 L3]]]]]. exists g3. split; [exact E3|]. split; [exact M3|]. split; [exact G3|]. split; [lra|]. intros _; exact L3.
      + exists g2. split; [reflexivity|]. split; [exact M2|]. split; [exact G2|]. split; [lra|]. discriminate.
    - destruct pr.
      + destruct (prune_total c _ O Hm Hg) as [g1 [E1 [M1 [P1 [G1 T1]]]]]. rewrite E1. cbn [bind]. exists g1. split; [reflexivity|]. split; [exact M1|]. split; [exact G1|]. split; [exact T1|]. discriminate.
      + cbn [bind]. exists (ph_mix s). split; [reflexivity|]. split; [exact Hm|]. split; [exact Hg|]. split; [apply Qle_refl|]. discriminate. }
  apply bind_ok in E3 as [g1 [E1 E3]]. apply bind_ok in E3 as [g2 [E2 E3]]. rewrite E1. cbn [bind]. rewrite E2. cbn [bind]. rewrite E3. cbn [bind].
  destruct ex.
  - destruct (extract_total c (with_mix s g3) (proj1 M3)) as [s' [Es [Em Ez]]]. exists s'. split; [exact Es|]. cbn [with_mix ph_mix ph_meas] in Em, Ez. unfold HInv. rewrite Em, Ez. auto.
  - exists (with_mix s g3). split; [reflexivity|]. unfold HInv. cbn [with_mix ph_mix ph_meas]. auto.
Qed.
Lemma step_total (c : cfg Meas) o s : phd_ok good c -> careful o -> HInv s -> exists s', step c argsort o s = Ok s' /\ HInv s'.
Proof.
  intros O Hc HI. pose proof HI as [Hm Hg]. destruct o as [|meas| |pr ca me ex]; cbn [step].
  - eexists. split; [reflexivity|]. split; cbn [with_mix ph_mix]; [|apply predict_good; [exact O|apply Hm|exact Hg]].
    apply predict_ok; [apply O| |exact Hm]. intros b Hb. destruct (ok_births _ _ O b Hb) as [A [B _]]. split; assumption.
  - destruct (correct_total' c (ph_mix s) meas O Hm Hg) as [ms [g' [E [M' G']]]]. rewrite E. cbn [bind]. eexists. split; [reflexivity|]. split; assumption.
  - destruct (extract_total c s (proj1 Hm)) as [s' [E [E1 _]]]. exists s'. split; [exact E|]. split; rewrite E1; assumption.
  - destruct (cleanup_total c pr ca me ex s O Hc HI) as [s' [E [I' _]]]. exists s'. auto.
Qed.
Lemma hinv_init : HInv (@phd_init Meas).
Proof. split; [split; [repeat split|intros x []]|intros p []]. Qed.
Lemma hrun_total (l : list (cfg Meas * op Meas)) : forall s, (forall c o, In (c, o) l -> phd_ok good c /\ careful o) -> HInv s -> exists s', hrun argsort l s = Ok s' /\ HInv s'.
Proof.
  induction l as [|[c o] l IH]; intros s H HI; [exists s; split; [reflexivity|exact HI]|]. cbn [hrun]. destruct (H c o (or_introl eq_refl)) as [O Hc].
  destruct (step_total c o s O Hc HI) as [s1 [E1 I1]]. rewrite E1. cbn [bind]. apply IH; [|exact I1]. intros c' o' Hi. apply H. right; exact Hi.
Qed.
End H.

(** Positive definite matrices are such a class. *)
Lemma quad_eq n a d : (quad n a d == qsum (map (fun i => qsum (map (fun k => d i * a i k * d k) (seq 0 n))) (seq 0 n)))%Q.
Proof.
  unfold quad, mvmul, qsumn. apply qs_ext. intros i _. rewrite <- qs_scalef. apply qs_ext. intros k _. ring.
Qed.
Lemma swap_sums {A B} (f : A -> B -> Q) l1 l2 : (qsum (map (fun a => qsum (map (f a) l2)) l1) == qsum (map (fun b => qsum (map (fun a => f a b) l1)) l2))%Q.
Proof.
  induction l1 as [|a l1 IH]; cbn [map].
  - rewrite qs_zero; [reflexivity|]. intros; reflexivity.
  - rewrite qs_cons, IH, <- qs_plus. apply qs_ext. intros b _. rewrite qs_cons. reflexivity.
Qed.
Lemma pos_def_class n : cov_class (pos_def n).
Proof.
  intros l a r Hne Hl Ha Hr d Hd.
  assert (A0 : (0 < a)%Q). { rewrite Ha. apply qs_pos; [destruct l; [congruence|discriminate]|]. intros x Hx. apply in_map_iff in Hx as [[w p] [<- Hin]]. apply (Hl w p Hin). }
  assert (S : (a * quad n r d == qsum (map (fun wp => fst wp * quad n (snd wp) d) l))%Q).
  { rewrite quad_eq, <- qs_scalef.
    rewrite (qs_ext (fun wp : Q * mat => fst wp * quad n (snd wp) d)%Q (fun wp => qsum (map (fun i => qsum (map (fun k => fst wp * (d i * snd wp i k * d k)) (seq 0 n))) (seq 0 n)))%Q).
    2: { intros wp _. rewrite quad_eq, <- qs_scalef. apply qs_ext. intros i _. rewrite <- qs_scalef. reflexivity. }
    rewrite swap_sums. apply qs_ext. intros i _. rewrite <- qs_scalef, swap_sums. apply qs_ext. intros k _.
    setoid_replace (a * (d i * r i k * d k))%Q with (d i * d k * (a * r i k))%Q by ring. rewrite Hr, <- qs_scalef. apply qs_ext. intros [w p] _. cbn [fst snd]. ring. }
  assert (0 < a * quad n r d)%Q. { rewrite S. apply qs_pos; [destruct l; [congruence|discriminate]|]. intros x Hx. apply in_map_iff in Hx as [[w p] [<- Hin]]. destruct (Hl w p Hin) as [Hw Hp]. apply Qmult_lt_0_compat; [exact Hw|apply Hp, Hd]. }
  apply Qmult_lt_l with a; [exact A0|]. setoid_replace (a * 0)%Q with 0%Q by ring. exact H.
Qed.

(** ** theorems *)
(** C139 *)
Theorem C139_phd_history_total : forall (Meas : Type) good argsort (l : list (cfg Meas * op Meas)),
  cov_class good -> (forall ws, sorts (argsort ws) ws) ->
  (forall c o, In (c, o) l -> phd_ok good c /\ careful o) ->
  exists s, hrun argsort l phd_init = Ok s /\ aligned (ph_mix s) /\ nonneg (ph_mix s) /\ forall p, In p (gm_p (ph_mix s)) -> good p.
Proof.
  intros Meas good argsort l Hg Hs H. destruct (hrun_total good Hg argsort Hs l phd_init H (hinv_init good)) as [s [E [[A B] C]]]. exists s. auto.
Qed.

(** C140: the expected number of objects and the number of reported states. *)
Section Mass.
Context {Meas : Type} (good : mat -> Prop) (Hgood : cov_class good) (argsort : list Q -> list nat) (Hsort : forall ws, sorts (argsort ws) ws).
Notation zq n := (inject_Z (Z.of_nat n)).
Lemma zq_add a b : (zq (a + b) == zq a + zq b)%Q.
Proof. rewrite Nat2Z.inj_add, inject_Z_plus. reflexivity. Qed.
Lemma zq_nonneg a : (0 <= zq a)%Q.
Proof. change 0%Q with (inject_Z 0). rewrite <- Zle_Qle. lia. Qed.
(** Reported lists are at most twice as long as the bound [B]. *)
Definition reports_le (B : Q) (s : phd Meas) : Prop := forall x, In x (ph_states s) -> (zq (length x) <= 2 * B)%Q.
Definition MInv (B : Q) (s : phd Meas) : Prop := (total (ph_mix s) <= B + zq (seen s))%Q /\ reports_le (B + zq (seen s)) s.
Lemma extract_len (c : cfg Meas) s s' : mix_ok (ph_mix s) -> do_extract c s = Ok s' -> exists x, ph_states s' = ph_states s ++ [x] /\ (zq (length x) <= 2 * total (ph_mix s))%Q /\ ph_mix s' = ph_mix s /\ ph_meas s' = ph_meas s.
Proof.
  intros [Ha Hn] E. destruct (C38_phd_extract Meas c s Ha) as [s1 [r [E1 [E2 [E3 [R [E4 _]]]]]]]. rewrite E in E1. injection E1 as <-.
  eexists. split; [exact E4|]. split; [|split; [exact E2|exact E3]]. set (g := ph_mix s) in *.
  set (inds := filter (fun i => Qle_bool (c_extract c) (W g i)) (seq 0 (length (gm_w g)))).
  assert (L1 : (zq (length (flat_map (fun i => repeat (Mn g i) (Z.to_nat (r i))) inds)) <= 2 * qsum (map (W g) inds))%Q).
  { assert (Hi : forall i, In i inds -> (0 <= W g i)%Q) by (intros i Hi; apply filter_In in Hi as [Hi _]; apply in_seq in Hi; apply Hn, nth_In; lia).
    revert Hi. generalize inds. induction inds0 as [|i l IH]; intros Hi; [cbn; discriminate|]. cbn [flat_map map]. rewrite app_length, repeat_length, zq_add, qs_cons. specialize (IH (fun j Hj => Hi j (or_intror Hj))).
    pose proof (Hi i (or_introl eq_refl)) as Wi. destruct (R i) as [R1 _].
    assert (zq (Z.to_nat (r i)) <= 2 * W g i)%Q; [|lra]. destruct (Z_lt_le_dec 0 (r i)) as [Hp|Hp].
    - rewrite Z2Nat.id by lia. assert (1 <= inject_Z (r i))%Q by (change 1%Q with (inject_Z 1); rewrite <- Zle_Qle; lia). lra.
    - replace (Z.to_nat (r i)) with 0 by lia. change (zq 0) with 0%Q. lra. }
  eapply Qle_trans; [exact L1|]. assert (qsum (map (W g) inds) <= total g)%Q; [|lra]. unfold total. rewrite <- (map_nth_seq (gm_w g) 0%Q). unfold inds.
  assert (Hs : forall i, In i (seq 0 (length (gm_w g))) -> (0 <= W g i)%Q) by (intros i Hi; apply in_seq in Hi; apply Hn, nth_In; lia).
  revert Hs. generalize (seq 0 (length (gm_w g))). induction l as [|i l IH]; intros Hi; [apply Qle_refl|]. specialize (IH (fun j Hj => Hi j (or_intror Hj))). pose proof (Hi i (or_introl eq_refl)). unfold W in *.
  cbn [filter map]. destruct (Qle_bool _ _); cbn [map]; rewrite ?qs_cons; lra.
Qed.
Lemma reports_mono B B' s : (B <= B')%Q -> reports_le B s -> reports_le B' s.
Proof. intros H H1 x Hx. specialize (H1 x Hx). lra. Qed.
Lemma step_mass (c : cfg Meas) o s s' B : phd_ok good c -> careful o -> HInv good s -> MInv B s -> step c argsort o s = Ok s' ->
  MInv (B + match o with Predict => qsum (map total (c_birth c)) | _ => 0%Q end) s'.
Proof.
  intros O Hc HI [M1 M2] E. pose proof HI as [Hm Hg]. pose proof Hm as [Ha Hn]. pose proof (zq_nonneg (seen s)) as Z0.
  assert (T0 : (0 <= total (ph_mix s))%Q) by (apply qs_nonneg; exact Hn).
  assert (Hex : forall s s', HInv good s -> MInv B s -> do_extract c s = Ok s' -> MInv (B + 0) s').
  { clear -O. intros s s' [Hm _] [M1 M2] E. destruct (extract_len c s s' Hm E) as [x [E1 [E2 [E3 E4]]]]. unfold MInv, seen. rewrite E3, E4. fold (seen s). split; [lra|].
    intros y Hy. rewrite E1 in Hy. apply in_app_or in Hy as [Hy|[<-|[]]]; [specialize (M2 y Hy)|]; lra. }
  destruct o as [|meas| |pr ca me ex]; cbn [step] in E.
  - injection E as <-. destruct (C31_phd_predict Meas c (ph_mix s) Ha) as [T _]. unfold MInv, seen. cbn [with_mix ph_mix ph_meas]. fold (seen s). rewrite T. destruct (ok_ps _ _ O) as [P0 P1].
    assert (B0 : (0 <= qsum (map total (c_birth c)))%Q) by (apply qs_nonneg; intros y Hy; apply in_map_iff in Hy as [b [<- Hb]]; apply qs_nonneg, (ok_births _ _ O b Hb)).
    assert (c_ps c * total (ph_mix s) <= total (ph_mix s))%Q. { assert (0 <= (1 - c_ps c) * total (ph_mix s))%Q by (apply Qmult_le_0_compat; lra). lra. }
    split; [lra|]. apply (reports_mono (B + zq (seen s))%Q); [lra|]. exact M2.
  - apply bind_ok in E as [[ms g'] [E E1]]. injection E1 as <-. destruct (C32_phd_correct Meas c (ph_mix s) meas ms g' Ha E) as [_ [_ [_ [_ [_ T]]]]]. destruct (T (Qlt_le_weak _ _ (ok_kappa _ _ O)) (ok_pd _ _ O) Hn (ok_lik _ _ O)) as [_ T1]. clear T.
    assert (S' : seen {| ph_mix := g'; ph_states := ph_states s; ph_covs := ph_covs s; ph_meas := ph_meas s ++ [ms] |} = seen s + length ms) by (unfold seen; cbn [ph_meas]; rewrite concat_app, app_length; cbn [concat]; rewrite app_nil_r; reflexivity).
    unfold MInv. rewrite S'. pose proof (zq_add (seen s) (length ms)) as ZA. cbn [ph_mix]. pose proof (zq_nonneg (length ms)). destruct (ok_pd _ _ O) as [P0 P1].
    assert ((1 - c_pd c) * total (ph_mix s) <= total (ph_mix s))%Q. { assert (0 <= c_pd c * total (ph_mix s))%Q by (apply Qmult_le_0_compat; lra). lra. }
    split; [lra|]. apply (reports_mono (B + zq (seen s))%Q); [lra|]. exact M2.
  - apply (Hex s s' HI (conj M1 M2) E).
  - destruct (cleanup_total good Hgood argsort Hsort c pr ca me false s O Hc HI) as [s1 [E1 [I1 [T1 [Z1 _]]]]].
    assert (St : ph_states s1 = ph_states s). { unfold cleanup in E1. apply bind_ok in E1 as [? [_ E1]]. apply bind_ok in E1 as [? [_ E1]]. apply bind_ok in E1 as [? [_ E1]]. injection E1 as <-. reflexivity. }
    assert (M' : MInv B s1). { unfold MInv, seen. rewrite Z1. fold (seen s). split; [lra|]. intros x Hx. rewrite St in Hx. exact (M2 x Hx). }
    destruct ex.
    + apply (Hex s1 s' I1 M'). unfold cleanup in E, E1. destruct (if pr then prune c (ph_mix s) else Ok (ph_mix s)) as [g|]; [|discriminate]. cbn [bind] in E, E1. destruct (if me then merge c g else Ok g) as [g0|]; [|discriminate]. cbn [bind] in E, E1. destruct (if ca then cap c (argsort (gm_w g0)) g0 else Ok g0); [|discriminate]. cbn [bind] in E, E1. injection E1 as <-. exact E.
    + rewrite E in E1. injection E1 as ->. destruct M' as [X Y]. split; [lra|]. apply (reports_mono (B + zq (seen s1))%Q); [lra|exact Y].
Qed.
Lemma hrun_mass (l : list (cfg Meas * op Meas)) : forall B s s', (forall c o, In (c, o) l -> phd_ok good c /\ careful o) -> HInv good s -> MInv B s -> hrun argsort l s = Ok s' -> MInv (B + born l) s'.
Proof.
  induction l as [|[c o] l IH]; intros B s s' H HI HM E; cbn [hrun] in E.
  - injection E as <-. unfold born. cbn [map]. change (qsum []) with 0%Q. destruct HM as [X Y]. split; [lra|]. apply (reports_mono (B + zq (seen s))%Q); [lra|exact Y].
  - apply bind_ok in E as [s1 [E1 E]]. destruct (H c o (or_introl eq_refl)) as [O Hc]. destruct (step_total good Hgood argsort Hsort c o s O Hc HI) as [s1' [E1' I1]]. rewrite E1 in E1'. injection E1' as <-.
    pose proof (step_mass c o s s1 B O Hc HI HM E1) as M1. specialize (IH _ s1 s' (fun c' o' Hi => H c' o' (or_intror Hi)) I1 M1 E).
    unfold born. cbn [map snd fst]. set (q := match o with Predict => qsum (map total (c_birth c)) | _ => 0%Q end) in *. destruct IH as [X Y]. fold (born l).
    assert (Q1 : (qsum (q :: map (fun co => match snd co with Predict => qsum (map total (c_birth (fst co))) | _ => 0%Q end) l) == q + born l)%Q) by (rewrite qs_cons; reflexivity).
    split; [rewrite Q1; lra|]. apply (reports_mono (B + q + born l + zq (seen s'))%Q); [rewrite Q1; lra|exact Y].
Qed.
End Mass.
Theorem C140_phd_mass_bounded : forall (Meas : Type) good argsort (l : list (cfg Meas * op Meas)) s,
  cov_class good -> (forall ws, sorts (argsort ws) ws) ->
  (forall c o, In (c, o) l -> phd_ok good c /\ careful o) ->
  hrun argsort l phd_init = Ok s ->
  let bound := (born l + inject_Z (Z.of_nat (length (concat (ph_meas s)))))%Q in
  (total (ph_mix s) <= bound)%Q /\
  forall x, In x (ph_states s) -> (inject_Z (Z.of_nat (length x)) <= 2 * bound)%Q.
Proof.
  intros Meas good argsort l s Hg Hs H E. cbn zeta.
  destruct (hrun_mass good Hg argsort Hs l 0%Q phd_init s H (hinv_init good)) as [X Y]; [|exact E|].
  - split; [cbn; discriminate|intros x []].
  - fold (seen s). split; [lra|]. intros x Hx. specialize (Y x Hx). lra.
Qed.

(** C141: memory.  The number of components. *)
Lemma hrun_app {Meas} argsort (l1 l2 : list (cfg Meas * op Meas)) : forall s, hrun argsort (l1 ++ l2) s = (do s1 <- hrun argsort l1 s; hrun argsort l2 s1).
Proof. induction l1 as [|[c o] l1 IH]; intros s; [reflexivity|]. cbn [app hrun]. destruct (step c argsort o s); [apply IH|reflexivity]. Qed.
Theorem C141_phd_component_bound : forall (Meas : Type) good argsort (l : list (cfg Meas * op Meas)) c me ex s,
  cov_class good -> (forall ws, sorts (argsort ws) ws) ->
  (forall c o, In (c, o) l -> phd_ok good c /\ careful o) -> phd_ok good c ->
  hrun argsort (l ++ [(c, Cleanup true true me ex)]) phd_init = Ok s ->
  length (gm_w (ph_mix s)) <= c_max c /\
  (** and during the next scan *)
  forall c1 c2 z s2, phd_ok good c1 -> phd_ok good c2 -> hrun argsort [(c1, Predict); (c2, Correct z)] s = Ok s2 ->
    exists used, ph_meas s2 = ph_meas s ++ [used] /\
      length (gm_w (ph_mix s2)) <= (c_max c + length (concat (map gm_w (c_birth c1)))) * (1 + length used).
Proof.
  intros Meas good argsort l c me ex s Hg Hs H O E. rewrite hrun_app in E. apply bind_ok in E as [s1 [E1 E]].
  destruct (hrun_total good Hg argsort Hs l phd_init H (hinv_init good)) as [s1' [E1' I1]]. rewrite E1 in E1'. injection E1' as <-.
  cbn [hrun] in E. apply bind_ok in E as [s0 [E0 E]]. injection E as <-. cbn [step] in E0.
  destruct (cleanup_total good Hg argsort Hs c true true me ex s1 O (or_introl eq_refl) I1) as [s0' [E0' [I0 [_ [_ L]]]]]. rewrite E0 in E0'. injection E0' as <-. specialize (L eq_refl).
  split; [exact L|]. intros c1 c2 z s2 O1 O2 E2. cbn [hrun step bind] in E2. apply bind_ok in E2 as [s3 [E3 E2]]. injection E2 as <-. apply bind_ok in E3 as [[used g'] [E3 E4]]. injection E4 as <-. cbn [with_mix ph_mix ph_meas] in *.
  exists used. split; [reflexivity|]. destruct I0 as [Hm Hc]. pose proof (predict_ok c1 (proj1 (ok_ps _ _ O1)) (fun b Hb => conj (proj1 (ok_births _ _ O1 b Hb)) (proj1 (proj2 (ok_births _ _ O1 b Hb)))) (ph_mix s0) Hm) as Hm'.
  destruct (C32_phd_correct Meas c2 _ z used g' (proj1 Hm') E3) as [_ [Al _]]. destruct Al as [L1 _]. rewrite L1.
  destruct (C31_phd_predict Meas c1 (ph_mix s0) (proj1 Hm)) as [_ [EW _]]. rewrite EW, app_length, map_length. rewrite Nat.mul_comm. apply Nat.mul_le_mono; lia.
Qed.

(** ** a concrete filter meeting all the hypotheses *)
Definition h_cfg (ps : Q) : cfg nat :=
  {| c_filter := {| fpredict := fun m p => (m, p); fcorrect := fun _ m p => (m, p, 1%Q) |};
     c_pd := 9 # 10; c_ps := ps; c_birth := [ex_mix]; c_kappa := 1; c_extract := 1 # 2; c_prune := 1 # 100; c_merge := 4;
     c_max := 10; c_gating := false; c_save_covs := true; c_dim := 1;
     c_inv := fun p => if Qeq_bool (p 0 0)%nat 0 then Err ValueErr else Ok (fun _ _ => / p 0 0)%nat%Q;
     c_gate := fun m _ => Ok m |}.
Lemma pd1 (p : mat) : pos_def 1 p -> (0 < p 0%nat 0%nat)%Q.
Proof. intros H. specialize (H (fun _ => 1%Q)). unfold quad, mvmul, qsumn in H. cbn [seq map] in H. rewrite !qs_cons in H. change (qsum []) with 0%Q in H. assert (~ (forall i, i < 1 -> (1 == 0)%Q)) by (intros X; specialize (X 0 ltac:(lia)); discriminate). specialize (H H0). lra. Qed.
Lemma h_ok ps : (0 <= ps <= 1)%Q -> phd_ok (pos_def 1) (h_cfg ps).
Proof.
  intros Hp. constructor; cbn [h_cfg c_ps c_pd c_kappa c_birth c_filter c_gating c_prune c_merge c_max c_inv fpredict fcorrect fst snd]; try lra; try lia; try (intros; assumption); try discriminate.
  - intros b [<-|[]]. split; [repeat split|]. split; [intros x [<-|[<-|[]]]; discriminate|]. intros p Hin d Hd. assert (E : p = (fun _ _ => 1%Q)) by (destruct Hin as [<-|[<-|[]]]; reflexivity). subst p.
    unfold quad, mvmul, qsumn. cbn [seq map]. rewrite !qs_cons. change (qsum []) with 0%Q.
    assert (~ (d 0%nat == 0)%Q) by (intros X; apply Hd; intros i Hi; replace i with 0 by lia; exact X).
    assert (0 < d 0%nat * d 0%nat)%Q; [|lra]. destruct (Qlt_le_dec 0 (d 0%nat)) as [Hlt|Hle]; [apply Qmult_lt_0_compat; assumption|]. setoid_replace (d 0%nat * d 0%nat)%Q with ((- d 0%nat) * (- d 0%nat))%Q by ring. assert (d 0%nat < 0)%Q by (apply Qle_lteq in Hle as [Hle|Hle]; [exact Hle|contradiction]). apply Qmult_lt_0_compat; lra.
  - intros p Hpd. apply pd1 in Hpd. destruct (Qeq_bool (p 0%nat 0%nat) 0) eqn:E; [apply Qeq_bool_iff in E; lra|]. eauto.
Qed.
Fixpoint ins_idx (ws : list Q) (i : nat) (l : list nat) : list nat :=
  match l with [] => [i] | j :: l' => if Qle_bool (nth i ws 0%Q) (nth j ws 0%Q) then i :: l else j :: ins_idx ws i l' end.
Definition q_argsort (ws : list Q) : list nat := fold_right (ins_idx ws) [] (seq 0 (length ws)).
Lemma q_argsort_ok ws : sorts (q_argsort ws) ws.
Proof.
  assert (Pi : forall i l, Permutation (ins_idx ws i l) (i :: l)).
  { intros i l. induction l as [|j l IH]; [reflexivity|]. cbn [ins_idx]. destruct (Qle_bool _ _); [reflexivity|]. rewrite IH. apply perm_swap. }
  assert (Si : forall i l, StronglySorted (fun a b => (nth a ws 0%Q <= nth b ws 0%Q)%Q) l -> StronglySorted (fun a b => (nth a ws 0%Q <= nth b ws 0%Q)%Q) (ins_idx ws i l)).
  { intros i l. induction 1 as [|j l S IH F]; cbn [ins_idx]; [repeat constructor|]. destruct (Qle_bool _ _) eqn:E.
    - apply Qle_bool_iff in E. constructor; [constructor; assumption|]. constructor; [exact E|]. eapply Forall_impl; [|exact F]. intros a Ha. cbn in Ha. eapply Qle_trans; eassumption.
    - constructor; [exact IH|]. apply Forall_forall. intros a Ha. apply (Permutation_in _ (Pi i l)) in Ha as [<-|Ha]; [|rewrite Forall_forall in F; apply F; exact Ha].
      apply Qlt_le_weak, Qnot_le_lt. intros X. apply Qle_bool_iff in X. congruence. }
  assert (G : forall l, Permutation (fold_right (ins_idx ws) [] l) l /\ StronglySorted (fun a b => (nth a ws 0%Q <= nth b ws 0%Q)%Q) (fold_right (ins_idx ws) [] l)).
  { induction l as [|i l [A B]]; cbn [fold_right]; [split; constructor|]. split; [rewrite Pi, A; reflexivity|apply Si; exact B]. }
  destruct (G (seq 0 (length ws))) as [A B]. split; [exact A|]. intros i j Hij. fold (q_argsort ws) in A, B.
  assert (L : length (q_argsort ws) = length ws) by (rewrite (Permutation_length A), seq_length; reflexivity).
  assert (Gen : forall k, StronglySorted (fun a b => (nth a ws 0%Q <= nth b ws 0%Q)%Q) k -> forall i j, i < j < length k -> (nth (nth i k 0%nat) ws 0 <= nth (nth j k 0%nat) ws 0)%Q).
  { clear. induction 1 as [|a k S IH F]; intros i j Hij; [cbn in Hij; lia|]. cbn [length] in Hij. destruct i as [|i]; destruct j as [|j]; try lia; cbn [nth].
    - rewrite Forall_forall in F. apply F, nth_In. lia.
    - apply IH. lia. }
  apply (Gen _ B). lia.
Qed.
Definition h_ops : list (cfg nat * op nat) :=
  [(h_cfg 1, Predict); (h_cfg 1, Correct [1; 2]); (h_cfg (1 # 2), Cleanup true true true true); (h_cfg (1 # 2), Predict); (h_cfg 0, Correct []); (h_cfg 1, Extract)].
Example C139_hypotheses_ex : cov_class (pos_def 1) /\ (forall ws, sorts (q_argsort ws) ws) /\ (forall c o, In (c, o) h_ops -> phd_ok (pos_def 1) c /\ careful o) /\
  exists s, hrun q_argsort h_ops phd_init = Ok s /\ length (ph_states s) = 2 /\ (1 # 10 < total (ph_mix s))%Q.
Proof.
  split; [apply pos_def_class|]. split; [apply q_argsort_ok|]. split.
  - intros c o Hi. repeat (destruct Hi as [Hi|Hi]; [injection Hi as <- <-; split; [apply h_ok; lra|cbn; auto]|]). destruct Hi.
  - eexists. split; [vm_compute; reflexivity|]. split; [reflexivity|]. vm_compute. reflexivity.
Qed.
Print Assumptions C139_phd_history_total.
Print Assumptions C140_phd_mass_bounded.
Print Assumptions C141_phd_component_bound.
