(** The order of measurements and of components in the PHD filter (C196). *)
From Coq Require Import List Lia Bool Arith ZArith Permutation.
From Verif Require Import RBase RLists RPhdModel RPhdSpec RPhdProofs RPhdProps.
From Coq Require Import Reals Lra.
Import ListNotations.
Open Scope R_scope.

(** ** specification *)
(** Two mixtures with the same components, in any order. *)
Definition same_mix (g g' : gmix) : Prop := aligned g /\ aligned g' /\ Permutation (comps g) (comps g').
(** A gate that does not look at the order of measurements or components. *)
Definition order_blind {Meas} (c : cfg Meas) : Prop := c_gating c = true -> forall m m' g g' r,
  Permutation m m' -> same_mix g g' -> c_gate c m g = Ok r -> exists r', c_gate c m' g' = Ok r' /\ Permutation r r'.
(** The same calls, measurements possibly listed in another order; no capping, no merging. *)
Inductive reordered {Meas} : op Meas -> op Meas -> Prop :=
| re_predict : reordered Predict Predict
| re_correct m m' : Permutation m m' -> reordered (Correct m) (Correct m')
| re_extract : reordered Extract Extract
| re_cleanup pr ex : reordered (Cleanup pr false false ex) (Cleanup pr false false ex).
(** The estimates of one call: states with their covariances. *)
Definition estimates {Meas} (s : phd Meas) : list (list (vec * mat)) := map (fun sc => combine (fst sc) (snd sc)) (combine (ph_states s) (ph_covs s)).

(** ** proofs *)
Lemma flat_map_perm {A B} (f h : A -> list B) l l' : Permutation l l' -> (forall x, In x l -> Permutation (f x) (h x)) ->
  Permutation (flat_map f l) (flat_map h l').
Proof.
  intros P H. transitivity (flat_map h l).
  - clear P. induction l as [|x l IH]; [constructor|]. cbn [flat_map]. apply Permutation_app; [apply H; left; reflexivity|]. apply IH. intros y Hy. apply H. right. exact Hy.
  - clear H. apply Permutation_flat_map, P.
Qed.
Lemma filter_perm {A} (p : A -> bool) l l' : Permutation l l' -> Permutation (filter p l) (filter p l').
Proof.
  induction 1 as [|x l l' _ IH|x y l|l1 l2 l3 _ IH1 _ IH2]; cbn [filter].
  - constructor.
  - destruct (p x); [constructor|]; exact IH.
  - destruct (p x), (p y); try reflexivity. apply perm_swap.
  - etransitivity; eassumption.
Qed.
Lemma rsum_perm l l' : Permutation l l' -> rsum l = rsum l'.
Proof.
  induction 1 as [|x l l' _ IH|x y l|l1 l2 l3 _ IH1 _ IH2]; [reflexivity| | |congruence].
  - change (x + rsum l = x + rsum l'). rewrite IH. reflexivity.
  - change (y + (x + rsum l) = x + (y + rsum l)). ring.
Qed.
Lemma combine_app {A B} (a a' : list A) (b b' : list B) : length a = length b -> combine (a ++ a') (b ++ b') = combine a b ++ combine a' b'.
Proof. revert b. induction a as [|x a IH]; intros [|y b] E; try discriminate; [reflexivity|]. cbn. f_equal. apply IH. cbn in E. lia. Qed.
Lemma combine_maps {A B C} (f : A -> B) (h : A -> C) l : combine (map f l) (map h l) = map (fun x => (f x, h x)) l.
Proof. induction l as [|x l IH]; [reflexivity|]. cbn. rewrite IH. reflexivity. Qed.
Lemma combine_flats {A X B C} (f : X -> A -> B) (h : X -> A -> C) (l : list A) m :
  combine (flat_map (fun z => map (f z) l) m) (flat_map (fun z => map (h z) l) m) = flat_map (fun z => map (fun x => (f z x, h z x)) l) m.
Proof.
  induction m as [|z m IH]; [reflexivity|]. cbn [flat_map]. rewrite combine_app by (rewrite !map_length; reflexivity). rewrite IH, combine_maps. reflexivity.
Qed.
Lemma comps_app a b : aligned a -> comps (gm_app a b) = comps a ++ comps b.
Proof.
  intros [_ [H1 H2]]. unfold comps. cbn [gm_app gm_w gm_m gm_p]. rewrite combine_app by lia. apply combine_app. rewrite combine_length. lia.
Qed.
Lemma app_aligned a b : aligned a -> aligned b -> aligned (gm_app a b).
Proof. intros [_ [A1 A2]] [_ [B1 B2]]. unfold aligned, aligned_n. cbn [gm_app gm_w gm_m gm_p]. rewrite !app_length. lia. Qed.
Lemma comps_length g : aligned g -> length (comps g) = length (gm_w g).
Proof. intros [_ [H1 H2]]. unfold comps. rewrite !combine_length. lia. Qed.
(** [map] over positions is [map] over components. *)
Lemma by_comps {B} (f : R * vec * mat -> B) g : aligned g -> map (fun i => f (W g i, Mn g i, P g i)) (seq 0 (length (gm_w g))) = map f (comps g).
Proof. intros H. rewrite (comps_nth g H), map_map. reflexivity. Qed.

Section Order.
Context {Meas : Type} (c : cfg Meas).
Definition weight (x : R * vec * mat) : R := fst (fst x).
Definition mean_ (x : R * vec * mat) : vec := snd (fst x).
Definition upd (z : Meas) (x : R * vec * mat) := fcorrect (c_filter c) z (mean_ x) (snd x).
Definition term (z : Meas) (x : R * vec * mat) : R := snd (upd z x) * (c_pd c * weight x).
Definition den (cs : list (R * vec * mat)) (z : Meas) : R := c_kappa c + rsum (map (term z) cs).
Definition detect (d : R) (z : Meas) (x : R * vec * mat) : R * vec * mat := (term z x / d, fst (fst (upd z x)), snd (fst (upd z x))).
Definition misses (x : R * vec * mat) : R * vec * mat := ((1 - c_pd c) * weight x, mean_ x, snd x).

Lemma dsum_den g z : aligned g -> c_kappa c + dsum c g z = den (comps g) z.
Proof. intros H. unfold den, dsum. rewrite <- (by_comps (term z) g H). reflexivity. Qed.
Lemma correct_comps meas ms g g' : aligned g -> correct c meas g = Ok (ms, g') ->
  aligned g' /\ comps g' = flat_map (fun z => map (detect (den (comps g) z) z) (comps g)) ms ++ map misses (comps g) /\
  (comps g <> [] -> forall z, In z ms -> den (comps g) z <> 0).
Proof.
  intros Ha H. unfold correct in H. apply bind_ok in H. destruct H as [m0 [_ H]]. apply bind_ok in H. destruct H as [gm [E H]].
  assert (Em : m0 = ms) by congruence. assert (Eg : gm_app gm {| gm_w := map (fun x => (1 - c_pd c) * x) (gm_w g); gm_m := gm_m g; gm_p := gm_p g |} = g') by congruence.
  subst m0 g'. clear H. destruct (correct_density_spec c g ms gm Ha E) as (E1 & E2 & E3 & E4). pose proof Ha as [_ [H1 H2]].
  assert (A1 : aligned gm).
  { unfold aligned, aligned_n. rewrite E1, E2, E3. split; [reflexivity|]. split.
    - clear. induction ms as [|z ms IH]; [reflexivity|]. cbn [flat_map]. rewrite !app_length, !map_length, IH. reflexivity.
    - clear. induction ms as [|z ms IH]; [reflexivity|]. cbn [flat_map]. rewrite !app_length, !map_length, IH. reflexivity. }
  assert (A2 : aligned {| gm_w := map (fun x => (1 - c_pd c) * x) (gm_w g); gm_m := gm_m g; gm_p := gm_p g |}).
  { unfold aligned, aligned_n. cbn [gm_w gm_m gm_p]. rewrite map_length. auto. }
  split; [apply app_aligned; assumption|]. split.
  - rewrite (comps_app _ _ A1). f_equal.
    + unfold comps at 1. rewrite E1, E2, E3, combine_flats, combine_flats.
      assert (K : forall z, map (fun x => (dw c g z x / (c_kappa c + dsum c g z), fst (fst (fcorrect (c_filter c) z (Mn g x) (P g x))), snd (fst (fcorrect (c_filter c) z (Mn g x) (P g x))))) (seq 0 (length (gm_w g)))
        = map (detect (den (comps g) z) z) (comps g)).
      { intros z. rewrite (dsum_den g z Ha), <- (by_comps (detect (den (comps g) z) z) g Ha). reflexivity. }
      induction ms as [|z ms' IH]; [reflexivity|]. cbn [flat_map]. rewrite K. f_equal. clear - K. induction ms' as [|z' ms' IH]; [reflexivity|]. cbn [flat_map]. rewrite K, IH. reflexivity.
    + unfold comps. cbn [gm_w gm_m gm_p]. clear - H1 H2. revert H1 H2. generalize (gm_w g) (gm_m g) (gm_p g). intros w. induction w as [|x w IH]; intros [|m l] [|p q] H1 H2; try discriminate; [reflexivity|].
      cbn [map combine]. f_equal. apply IH; cbn in H1, H2; lia.
  - intros Hn z Hz. rewrite <- (dsum_den g z Ha). apply E4; [|exact Hz]. intros E0. apply Hn. apply length_zero_iff_nil. rewrite (comps_length g Ha). exact E0.
Qed.
Lemma correct_step meas meas' ms g g1 g2 : order_blind c -> Permutation meas meas' -> same_mix g g2 -> correct c meas g = Ok (ms, g1) ->
  exists ms' g1', correct c meas' g2 = Ok (ms', g1') /\ Permutation ms ms' /\ same_mix g1 g1'.
Proof.
  intros Hb Hp (Ha & Ha2 & Pg) H. destruct (correct_comps meas ms g g1 Ha H) as (A1 & C1 & D1).
  assert (G : exists ms', (if c_gating c then c_gate c meas' g2 else Ok meas') = Ok ms' /\ Permutation ms ms').
  { unfold correct in H. apply bind_ok in H. destruct H as [m0 [Hg H]]. apply bind_ok in H. destruct H as [gm [_ H]]. assert (m0 = ms) by congruence. subst m0.
    destruct (c_gating c) eqn:Eg.
    - apply (Hb Eg meas meas' g g2 ms Hp); [exact (conj Ha (conj Ha2 Pg))|exact Hg].
    - exists meas'. split; [reflexivity|]. congruence. }
  destruct G as (ms' & Eg & Pm).
  assert (Hden : forall z, den (comps g2) z = den (comps g) z).
  { intros z. unfold den. f_equal. apply rsum_perm, Permutation_map. symmetry. exact Pg. }
  assert (Hd : exists gm, correct_density c ms' g2 = Ok gm).
  { destruct (comps g2) as [|x l] eqn:E2.
    - assert (L : length (gm_w g2) = 0%nat) by (rewrite <- (comps_length g2 Ha2), E2; reflexivity). pose proof Ha2 as [_ [L1 L2]].
      clear - L L1 L2. assert (Em : gm_m g2 = []) by (apply length_zero_iff_nil; lia).
      induction ms' as [|z ms' [gm IH]]; [eexists; reflexivity|]. cbn [correct_density]. rewrite Em. cbn [correct_one bind map normalise]. rewrite IH. eexists. reflexivity.
    - apply correct_density_total; [exact Ha2|]. intros z Hz. rewrite (dsum_den g2 z Ha2), E2, Hden. apply D1.
      + intros E. rewrite E in Pg. apply Permutation_nil in Pg. congruence.
      + apply (Permutation_in _ (Permutation_sym Pm)), Hz. }
  destruct Hd as [gm Hd].
  assert (Ec : exists g1', correct c meas' g2 = Ok (ms', g1')) by (unfold correct; rewrite Eg; cbn [bind]; rewrite Hd; eexists; reflexivity).
  destruct Ec as [g1' Ec]. exists ms', g1'. split; [exact Ec|]. split; [exact Pm|].
  destruct (correct_comps meas' ms' g2 g1' Ha2 Ec) as (A2 & C2 & _). split; [exact A1|]. split; [exact A2|].
  rewrite C1, C2. apply Permutation_app; [|apply Permutation_map, Pg].
  apply flat_map_perm; [exact Pm|]. intros z _. rewrite Hden. apply Permutation_map, Pg.
Qed.

Lemma predict_comps g : aligned g -> (forall b, In b (c_birth c) -> aligned b) ->
  aligned (predict c g) /\
  comps (predict c g) = map (fun x => (c_ps c * weight x, fst (fpredict (c_filter c) (mean_ x) (snd x)), snd (fpredict (c_filter c) (mean_ x) (snd x)))) (comps g) ++ flat_map comps (c_birth c).
Proof.
  intros Ha Hb. unfold predict.
  assert (A0 : aligned (predict_density c g)).
  { destruct Ha as [_ [H1 H2]]. unfold aligned, aligned_n, predict_density. cbn [gm_w gm_m gm_p]. rewrite !map_length, combine_length. lia. }
  assert (C0 : comps (predict_density c g) = map (fun x => (c_ps c * weight x, fst (fpredict (c_filter c) (mean_ x) (snd x)), snd (fpredict (c_filter c) (mean_ x) (snd x)))) (comps g)).
  { unfold comps, predict_density. cbn [gm_w gm_m gm_p]. destruct Ha as [_ [H1 H2]]. revert H1 H2. generalize (gm_w g) (gm_m g) (gm_p g). intros w. induction w as [|x w IH]; intros [|m l] [|p q] H1 H2; try discriminate; [reflexivity|].
    cbn [combine map fst snd]. rewrite IH by (cbn in H1, H2; lia). reflexivity. }
  rewrite <- C0. clear C0. revert A0 Hb. generalize (predict_density c g) (c_birth c). intros g0 bs. revert g0. induction bs as [|b bs IH]; intros g0 A0 Hb.
  - cbn [fold_left flat_map]. rewrite app_nil_r. auto.
  - cbn [fold_left flat_map]. destruct (IH (gm_app g0 b)) as [A1 C1].
    + apply app_aligned; [exact A0|]. apply Hb. left. reflexivity.
    + intros b' H'. apply Hb. right. exact H'.
    + split; [exact A1|]. rewrite C1, (comps_app g0 b A0), app_assoc. reflexivity.
Qed.
Lemma predict_step g g2 : (forall b, In b (c_birth c) -> aligned b) -> same_mix g g2 -> same_mix (predict c g) (predict c g2).
Proof.
  intros Hb (Ha & Ha2 & Pg). destruct (predict_comps g Ha Hb) as [A1 C1]. destruct (predict_comps g2 Ha2 Hb) as [A2 C2].
  split; [exact A1|]. split; [exact A2|]. rewrite C1, C2. apply Permutation_app; [apply Permutation_map, Pg|reflexivity].
Qed.
Lemma prune_step g g1 g2 : same_mix g g2 -> prune c g = Ok g1 -> exists g1', prune c g2 = Ok g1' /\ same_mix g1 g1'.
Proof.
  intros (Ha & Ha2 & Pg) H. destruct (prune_spec c g Ha) as (h & Eh & A1 & C1). destruct (prune_spec c g2 Ha2) as (h2 & Eh2 & A2 & C2).
  assert (h = g1) by congruence. subst h. exists h2. split; [exact Eh2|]. split; [exact A1|]. split; [exact A2|]. rewrite C1, C2. apply filter_perm, Pg.
Qed.
Definition reps (x : R * vec * mat) : nat := Z.to_nat (py_round (weight x)).
Definition loud (cs : list (R * vec * mat)) := filter (fun x => Rleb (c_extract c) (weight x)) cs.
Lemma filter_map {A B} (f : A -> B) p l : filter p (map f l) = map f (filter (fun x => p (f x)) l).
Proof. induction l as [|x l IH]; [reflexivity|]. cbn. destruct (p (f x)); cbn; rewrite IH; reflexivity. Qed.
Lemma flat_map_map {A B C} (f : A -> B) (h : B -> list C) l : flat_map h (map f l) = flat_map (fun x => h (f x)) l.
Proof. induction l as [|x l IH]; [reflexivity|]. cbn. rewrite IH. reflexivity. Qed.
Lemma extract_comps g : aligned g -> extract c g = Ok (flat_map (fun x => repeat (mean_ x) (reps x)) (loud (comps g)),
  if c_save_covs c then flat_map (fun x => repeat (snd x) (reps x)) (loud (comps g)) else []).
Proof.
  intros Ha. rewrite (extract_spec c g Ha). unfold loud. rewrite (comps_nth g Ha), filter_map, !flat_map_map. reflexivity.
Qed.
Lemma combine_reps (l : list (R * vec * mat)) : combine (flat_map (fun x => repeat (mean_ x) (reps x)) l) (flat_map (fun x => repeat (snd x) (reps x)) l)
  = flat_map (fun x => repeat (mean_ x, snd x) (reps x)) l.
Proof.
  induction l as [|x l IH]; [reflexivity|]. cbn [flat_map]. rewrite combine_app by (rewrite !repeat_length; reflexivity). rewrite IH. f_equal.
  induction (reps x) as [|n IHn]; [reflexivity|]. cbn. rewrite IHn. reflexivity.
Qed.

(** Related filter states. *)
Definition sim (s s' : phd Meas) : Prop :=
  same_mix (ph_mix s) (ph_mix s') /\
  Forall2 (@Permutation vec) (ph_states s) (ph_states s') /\ Forall2 (@Permutation mat) (ph_covs s) (ph_covs s') /\
  Forall2 (@Permutation (vec * mat)) (estimates s) (estimates s') /\ Forall2 (@Permutation Meas) (ph_meas s) (ph_meas s') /\
  (c_save_covs c = true -> length (ph_states s) = length (ph_covs s)) /\ (c_save_covs c = false -> ph_covs s = []).
Lemma F2_length {A B} (Rel : A -> B -> Prop) l l' : Forall2 Rel l l' -> length l = length l'.
Proof. induction 1 as [|x y l l' _ _ IH]; [reflexivity|]. cbn. rewrite IH. reflexivity. Qed.
Lemma combine_nil_r {A B} (l : list A) : combine l (@nil B) = [].
Proof. destruct l; reflexivity. Qed.
Lemma extract_step s s1 s2 : sim s s2 -> do_extract c s = Ok s1 -> exists s1', do_extract c s2 = Ok s1' /\ sim s1 s1'.
Proof.
  intros (Hm & H1 & H2 & H3 & H4 & L1 & L2) H. pose proof Hm as (Ha & Ha2 & Pg). unfold do_extract in *. rewrite (extract_comps _ Ha) in H. rewrite (extract_comps _ Ha2). cbn [bind] in *.
  eexists. split; [reflexivity|]. assert (E := f_equal (fun r => match r with Ok x => x | _ => s1 end) H). cbn beta iota in E. rewrite <- E. clear E H.
  assert (PL : Permutation (loud (comps (ph_mix s))) (loud (comps (ph_mix s2)))) by apply filter_perm, Pg.
  assert (PS : Permutation (flat_map (fun x => repeat (mean_ x) (reps x)) (loud (comps (ph_mix s)))) (flat_map (fun x => repeat (mean_ x) (reps x)) (loud (comps (ph_mix s2))))) by apply Permutation_flat_map, PL.
  unfold sim, estimates. cbn [ph_mix ph_states ph_covs ph_meas].
  split; [exact Hm|]. split; [apply Forall2_app; [exact H1|constructor; [exact PS|constructor]]|].
  destruct (c_save_covs c) eqn:Es.
  - assert (N1 := L1 eq_refl). assert (N2 : length (ph_states s2) = length (ph_covs s2)).
    { rewrite <- (F2_length _ _ _ H1), <- (F2_length _ _ _ H2). exact N1. }
    split; [apply Forall2_app; [exact H2|constructor; [apply Permutation_flat_map, PL|constructor]]|].
    split; [|split; [exact H4|split; [intros _; rewrite !app_length; cbn [length]; lia|discriminate]]].
    rewrite !combine_app by assumption. rewrite !map_app. apply Forall2_app; [exact H3|]. cbn [combine map fst snd]. constructor; [|constructor].
    rewrite !combine_reps. apply Permutation_flat_map, PL.
  - split; [exact H2|]. assert (Z := L2 eq_refl). rewrite Z in *. inversion H2 as [Z2|]. rewrite !combine_nil_r. split; [constructor|]. split; [exact H4|]. split; [discriminate|reflexivity].
Qed.
Lemma with_mix_sim s s2 g g2 : sim s s2 -> same_mix g g2 -> sim (with_mix s g) (with_mix s2 g2).
Proof. intros (_ & H) Hm. split; [exact Hm|exact H]. Qed.
Lemma step_sim argsort o o' s s1 s2 : order_blind c -> (forall b, In b (c_birth c) -> aligned b) -> reordered o o' -> sim s s2 ->
  step c argsort o s = Ok s1 -> exists s1', step c argsort o' s2 = Ok s1' /\ sim s1 s1'.
Proof.
  intros Hb Hbi Ho Hs H. destruct Ho as [|m m' Pm| |pr ex]; cbn [step] in *.
  - eexists. split; [reflexivity|]. assert (E : with_mix s (predict c (ph_mix s)) = s1) by congruence. rewrite <- E. apply with_mix_sim; [exact Hs|]. apply predict_step; [exact Hbi|apply Hs].
  - apply bind_ok in H. destruct H as [[ms g] [E H]]. destruct (correct_step m m' ms (ph_mix s) g (ph_mix s2) Hb Pm (proj1 Hs) E) as (ms' & g' & E' & Pms & Hm).
    rewrite E'. cbn [bind]. eexists. split; [reflexivity|]. assert (E1 := f_equal (fun r => match r with Ok x => x | _ => s1 end) H). cbn beta iota in E1. rewrite <- E1. clear E1 H.
    destruct Hs as (_ & H1 & H2 & H3 & H4 & L1 & L2). unfold sim, estimates. cbn [ph_mix ph_states ph_covs ph_meas].
    repeat (split; [assumption|]). split; [apply Forall2_app; [exact H4|constructor; [exact Pms|constructor]]|]. split; assumption.
  - apply (extract_step s s1 s2 Hs H).
  - unfold cleanup in *. cbn [bind] in *.
    assert (G : forall g1, (if pr then prune c (ph_mix s) else Ok (ph_mix s)) = Ok g1 -> exists g1', (if pr then prune c (ph_mix s2) else Ok (ph_mix s2)) = Ok g1' /\ same_mix g1 g1').
    { intros g1 E. destruct pr; [apply (prune_step (ph_mix s)); [apply Hs|exact E]|]. exists (ph_mix s2). split; [reflexivity|]. assert (ph_mix s = g1) by congruence. subst g1. apply Hs. }
    apply bind_ok in H. destruct H as [g1 [E H]]. destruct (G g1 E) as (g1' & E' & Hm). rewrite E'. cbn [bind] in *.
    pose proof (with_mix_sim s s2 g1 g1' Hs Hm) as W1. destruct ex; [apply (extract_step _ s1 _ W1 H)|]. eexists. split; [reflexivity|]. assert (with_mix s g1 = s1) by congruence. subst s1. exact W1.
Qed.
Lemma run_sim argsort ops ops' : order_blind c -> (forall b, In b (c_birth c) -> aligned b) -> Forall2 reordered ops ops' -> forall s s2 s1, sim s s2 ->
  run c argsort ops s = Ok s1 -> exists s1', run c argsort ops' s2 = Ok s1' /\ sim s1 s1'.
Proof.
  intros Hb Hbi HF. induction HF as [|o o' ops ops' Ho HF IH]; intros s s2 s1 Hs H.
  - exists s2. split; [reflexivity|]. change (Ok s = Ok s1) in H. assert (s = s1) by congruence. subst. exact Hs.
  - change ((do t <- step c argsort o s; run c argsort ops t) = Ok s1) in H. apply bind_ok in H. destruct H as [t [E H]].
    destruct (step_sim argsort o o' s t s2 Hb Hbi Ho Hs E) as (t' & E' & Ht). destruct (IH t t' s1 Ht H) as (s1' & E1 & H1).
    exists s1'. split; [|exact H1]. change ((do t <- step c argsort o' s2; run c argsort ops' t) = Ok s1'). rewrite E'. exact E1.
Qed.
End Order.

(** The filter's own gate is such a gate. *)
Lemma gate_blind n d H est Rcov chol inv gate m m' g g' : Permutation m m' -> same_mix g g' ->
  Permutation (gate_meas n d H est Rcov chol inv gate m g) (gate_meas n d H est Rcov chol inv gate m' g').
Proof.
  intros Pm (Ha & Ha' & Pg). rewrite !C39_gate_filter_real.
  assert (E : forall z, existsb (fun mp => Rltb (gate_dist n d H est Rcov chol inv (fst mp) (snd mp) z) gate) (combine (gm_m g) (gm_p g))
                      = existsb (fun mp => Rltb (gate_dist n d H est Rcov chol inv (fst mp) (snd mp) z) gate) (combine (gm_m g') (gm_p g'))).
  { intros z. assert (K : forall h, aligned h -> combine (gm_m h) (gm_p h) = map (fun x => (mean_ x, snd x)) (comps h)).
    { intros h [_ [H1 H2]]. unfold comps. revert H1 H2. generalize (gm_w h) (gm_m h) (gm_p h). intros w. induction w as [|x w IH]; intros [|a l] [|b q] H1 H2; try discriminate; [reflexivity|].
      cbn [combine map]. rewrite IH by (cbn in H1, H2; lia). reflexivity. }
    rewrite (K g Ha), (K g' Ha'). apply eq_true_iff_eq. rewrite !existsb_exists. split; intros (x & Hx & B); exists x; (split; [|exact B]).
    - apply (Permutation_in _ (Permutation_map _ Pg)), Hx.
    - apply (Permutation_in _ (Permutation_map _ (Permutation_sym Pg))), Hx. }
  rewrite (filter_ext _ _ E). apply filter_perm, Pm.
Qed.

(** ** theorems *)
(** Listing the measurements of any scans in another order changes nothing but the
    order of components, estimates and stored measurements. *)
Theorem C196_phd_measurement_order : forall (Meas : Type) (c : cfg Meas) argsort ops ops' s,
  order_blind c -> (forall b, In b (c_birth c) -> aligned b) -> Forall2 reordered ops ops' ->
  run c argsort ops (phd_init) = Ok s ->
  exists s', run c argsort ops' (phd_init) = Ok s' /\ Permutation (comps (ph_mix s)) (comps (ph_mix s')) /\
    Forall2 (@Permutation vec) (ph_states s) (ph_states s') /\ Forall2 (@Permutation mat) (ph_covs s) (ph_covs s') /\
    Forall2 (@Permutation (vec * mat)) (estimates s) (estimates s') /\ Forall2 (@Permutation Meas) (ph_meas s) (ph_meas s').
Proof.
  intros Meas c argsort ops ops' s Hb Hbi HF H.
  assert (S0 : sim c phd_init phd_init).
  { assert (A : aligned gm_empty) by (repeat split). repeat split; try constructor; try exact A. }
  destruct (run_sim c argsort ops ops' Hb Hbi HF _ _ s S0 H) as (s' & E & Hm & H1 & H2 & H3 & H4 & _).
  exists s'. split; [exact E|]. split; [apply Hm|]. repeat (split; [assumption|]). assumption.
Qed.
(** The same for the order of the components before one call (a mixture set by the user). *)
Theorem C196_phd_component_order : forall (Meas : Type) (c : cfg Meas) argsort ops ops' s s1 s2,
  order_blind c -> (forall b, In b (c_birth c) -> aligned b) -> Forall2 reordered ops ops' ->
  aligned (ph_mix s1) -> aligned (ph_mix s2) -> Permutation (comps (ph_mix s1)) (comps (ph_mix s2)) ->
  ph_states s1 = [] -> ph_covs s1 = [] -> ph_states s2 = [] -> ph_covs s2 = [] -> ph_meas s1 = ph_meas s2 ->
  run c argsort ops s1 = Ok s ->
  exists s', run c argsort ops' s2 = Ok s' /\ Permutation (comps (ph_mix s)) (comps (ph_mix s')) /\
    Forall2 (@Permutation vec) (ph_states s) (ph_states s') /\
    Forall2 (@Permutation (vec * mat)) (estimates s) (estimates s') /\ Forall2 (@Permutation Meas) (ph_meas s) (ph_meas s').
Proof.
  intros Meas c argsort ops ops' s s1 s2 Hb Hbi HF A1 A2 Pm S1 C1 S2 C2 Em H.
  assert (S0 : sim c s1 s2).
  { unfold sim, estimates. rewrite S1, C1, S2, C2, Em. split; [exact (conj A1 (conj A2 Pm))|]. split; [constructor|]. split; [constructor|]. split; [constructor|].
    split; [|split; reflexivity]. clear. induction (ph_meas s2); constructor; [reflexivity|assumption]. }
  destruct (run_sim c argsort ops ops' Hb Hbi HF _ _ s S0 H) as (s' & E & Hm & H1 & H2 & H3 & H4 & _).
  exists s'. split; [exact E|]. split; [apply Hm|]. repeat (split; [assumption|]). assumption.
Qed.
(** The gate the filter uses meets [order_blind]. *)
Theorem C196_gate_order_blind : forall c n d H est Rcov chol inv gate,
  (forall m g, c_gate c m g = Ok (gate_meas n d H est Rcov chol inv gate m g)) -> order_blind c.
Proof.
  intros c n d H est Rcov chol inv gate E _ m m' g g' r Pm Hs Hr. rewrite E in Hr. eexists. split; [apply E|].
  assert (gate_meas n d H est Rcov chol inv gate m g = r) by congruence. subst r. apply gate_blind; assumption.
Qed.

Print Assumptions C196_phd_measurement_order.
Print Assumptions C196_phd_component_order.
Print Assumptions C196_gate_order_blind.

(** Instance of the hypotheses: a history that returns, with one scan in two orders. *)
Definition oc : cfg R :=
  {| c_filter := {| fpredict := fun m p => (m, p); fcorrect := fun z m p => (fun _ => z, p, 1) |};
     c_pd := 1/2; c_ps := 1; c_birth := [{| gm_w := [1]; gm_m := [fun _ => 0]; gm_p := [fun _ _ => 1] |}]; c_kappa := 1;
     c_extract := 1/4; c_prune := 1/10; c_merge := 1; c_max := 10%nat; c_gating := false; c_save_covs := true; c_dim := 1%nat;
     c_inv := fun p => Ok (fun _ _ => / p 0%nat 0%nat); c_gate := fun ms _ => Ok ms |}.
Example C196_ex : order_blind oc /\ (forall b, In b (c_birth oc) -> aligned b) /\
  Forall2 reordered [Predict; Correct [1; 2]; Cleanup true false false true] [Predict; Correct [2; 1]; Cleanup true false false true] /\
  exists s, run oc (fun _ => []) [Predict; Correct [1; 2]; Cleanup true false false true] phd_init = Ok s.
Proof.
  split; [intros E; discriminate|]. split; [intros b [<-|[]]; repeat split|]. split.
  { repeat constructor. }
  set (g := predict oc gm_empty).
  assert (A : aligned g) by (repeat split).
  destruct (correct_density_total oc g [1; 2] A) as [gm E].
  { intros z _. unfold dsum, dw. cbn. lra. }
  assert (Ec : exists g1, correct oc [1; 2] g = Ok ([1; 2], g1)).
  { unfold correct. cbn [c_gating oc bind]. rewrite E. eexists. reflexivity. }
  destruct Ec as [g1 Ec]. destruct (correct_comps oc [1; 2] [1; 2] g g1 A Ec) as (A1 & _ & _).
  destruct (prune_spec oc g1 A1) as (g2 & Ep & A2 & _).
  cbn [run step bind with_mix ph_mix phd_init]. fold g. rewrite Ec. cbn [bind]. unfold cleanup. cbn [ph_mix]. rewrite Ep. cbn [bind]. unfold do_extract. cbn [ph_mix with_mix].
  rewrite (extract_comps oc g2 A2). cbn [bind]. eexists. reflexivity.
Qed.
