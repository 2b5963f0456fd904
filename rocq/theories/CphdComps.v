(** C211: the order of the components in the CPHD filter. *)
From Verif Require Import Base Lists.
From Coq Require Import Reals Permutation Lra Lia List Sorting.Sorted.
From Verif Require Import OspaModel CphdModel OspaProofs CphdSpec.
Import ListNotations.
Open Scope R_scope.

(** ** Specification *)
Section S.
Context {V M Meas : Type}.
(** The mixture with the given components: weight, mean, covariance. *)
Definition mix_of (l : list (R * V * M)) : rmix V M :=
  {| rm_w := map (fun x => fst (fst x)) l; rm_m := map (fun x => snd (fst x)) l; rm_p := map snd l |}.
(** Two mixtures with the same components, listed in any order. *)
Definition same_comps (g g' : rmix V M) : Prop := exists l l', g = mix_of l /\ g' = mix_of l' /\ Permutation l l'.
(** Two filters that differ in the order of the components only. *)
Definition same_but_order (s s' : cphd V M Meas) : Prop :=
  same_comps (cp_mix s) (cp_mix s') /\ cp_card s' = cp_card s /\ cp_max s' = cp_max s /\ cp_hist s' = cp_hist s /\ cp_meas s' = cp_meas s /\
  cp_states s' = cp_states s /\ cp_covs s' = cp_covs s /\ cp_agents s' = cp_agents s.
Definition both {A} (P : A -> A -> Prop) (r r' : result A) : Prop :=
  match r, r' with Ok a, Ok b => P a b | Err e, Err e' => e = e' | _, _ => False end.
(** The same calls; clean-up steps and gate that do not look at the order. *)
Inductive same_call : cop V M Meas -> cop V M Meas -> Prop :=
| sa_predict : same_call CPredict CPredict
| sa_correct ms : same_call (CCorrect ms) (CCorrect ms)
| sa_max x : same_call (CSetMax x) (CSetMax x)
| sa_clean f : (forall g g', same_comps g g' -> both same_comps (f g) (f g')) -> same_call (CClean f) (CClean f).
Definition gate_blind (c : ccfg V M Meas) : Prop := forall ms g g', same_comps g g' -> k_gate c ms g' = k_gate c ms g.
Definition births_ok (c : ccfg V M Meas) : Prop := forall b, In b (k_birth c) -> exists l, b = mix_of l.
(** No two components have the same weight. *)
Definition distinct_weights (g : rmix V M) : Prop := NoDup (rm_w g).

(** ** Proofs *)
Lemma mix_app l l' : rm_app (mix_of l) (mix_of l') = mix_of (l ++ l').
Proof. unfold rm_app, mix_of. cbn [rm_w rm_m rm_p]. rewrite !map_app. reflexivity. Qed.
Lemma combine_maps {A B C} (f : A -> B) (h : A -> C) l : combine (map f l) (map h l) = map (fun x => (f x, h x)) l.
Proof. induction l as [|x l IH]; [reflexivity|]. cbn. rewrite IH. reflexivity. Qed.
Lemma rperm l l' : Permutation l l' -> rsum l = rsum l'.
Proof.
  induction 1 as [|x l l' _ IH|x y l|l1 l2 l3 _ IH1 _ IH2]; [reflexivity| | |congruence].
  - change (x + rsum l = x + rsum l'). rewrite IH. reflexivity.
  - change (y + (x + rsum l) = x + (y + rsum l)). ring.
Qed.
Variable c : ccfg V M Meas.
Definition pred_comp (x : R * V * M) : R * V * M :=
  let '(m, p) := k_fpred c (snd (fst x)) (snd x) in (k_ps c * fst (fst x), m, p).
Lemma pred_mix_of : births_ok c -> exists lb, forall l, pred_mix c (mix_of l) = mix_of (map pred_comp l ++ lb).
Proof.
  intros Hb. unfold births_ok in Hb.
  assert (K : exists lb, forall l, fold_left rm_app (k_birth c) (mix_of l) = mix_of (l ++ lb)).
  { induction (k_birth c) as [|b bs IH]; [exists []; intros l; rewrite app_nil_r; reflexivity|].
    destruct (Hb b (or_introl eq_refl)) as [l0 ->]. destruct IH as [lb IH]; [intros b' Hb'; apply Hb; right; exact Hb'|].
    exists (l0 ++ lb). intros l. cbn [fold_left]. rewrite mix_app, IH, app_assoc. reflexivity. }
  destruct K as [lb K]. exists lb. intros l. unfold pred_mix. cbv zeta. cbn [mix_of rm_w rm_m rm_p]. rewrite combine_maps, !map_map. cbn [fst snd]. rewrite <- K. f_equal. unfold mix_of. rewrite !map_map.
  f_equal; apply map_ext; intros x; unfold pred_comp; destruct (k_fpred c (snd (fst x)) (snd x)); reflexivity.
Qed.
Lemma pred_sim g g' : births_ok c -> same_comps g g' -> same_comps (pred_mix c g) (pred_mix c g').
Proof.
  intros Hb (l & l' & -> & -> & P). destruct (pred_mix_of Hb) as [lb E]. rewrite !E. eexists _, _. split; [reflexivity|]. split; [reflexivity|].
  apply Permutation_app_tail, Permutation_map, P.
Qed.
(** correct on [mix_of l]: everything but the mixture itself depends on sums over the components. *)
Notation fc := (fun z (x : R * V * M) => k_fcorr c z (snd (fst x)) (snd x)).
Lemma corr_all_of l z : corr_all c (mix_of l) z = map (fc z) l.
Proof. unfold corr_all. cbn [mix_of rm_m rm_p]. rewrite combine_maps, map_map. reflexivity. Qed.
Lemma dot_of l z : dot (map (fun x => fst (fst x)) l) (qz_of (corr_all c (mix_of l) z)) = rsum (map (fun x : R * V * M => fst (fst x) * snd (fc z x)) l).
Proof. rewrite corr_all_of. unfold dot, qz_of. rewrite map_map, combine_maps, map_map. reflexivity. Qed.
Definition det_comps (ms : list Meas) (l : list (R * V * M)) (rz : R * Meas) : list (R * V * M) :=
  map (fun x => (fst rz * (k_pd c * snd (fc (snd rz) x) / k_den c * fst (fst x)), fst (fst (fc (snd rz) x)), snd (fst (fc (last ms (snd rz)) x)))) l.
Lemma last_some {A} (l : list A) d d' : l <> [] -> last l d = last l d'.
Proof. induction l as [|x [|y l] IH]; intros N; [contradiction|reflexivity|]. exact (IH ltac:(discriminate)). Qed.
Lemma dets_of ms l rs : length rs = length ms ->
  let tab := map (corr_all c (mix_of l)) ms in
  let cov := map (fun x => snd (fst x)) (last tab []) in
  let det := flat_map (fun rc => map (fun wq => fst rc * (k_pd c * snd wq / k_den c * fst wq)) (combine (map (fun x => fst (fst x)) l) (qz_of (snd rc)))) (combine rs tab) in
  {| rm_w := det; rm_m := flat_map (fun col => map (fun x => fst (fst x)) col) tab; rm_p := flat_map (fun _ : list (V * M * R) => cov) tab |} =
  mix_of (flat_map (det_comps ms l) (combine rs ms)).
Proof.
  intros E tab cov det. destruct ms as [|z0 ms0].
  { destruct rs; [reflexivity|discriminate]. }
  assert (Ec : forall d, cov = map (fun x => snd (fst (fc (last (z0 :: ms0) d) x))) l).
  { intros d. unfold cov, tab. rewrite (last_some (z0 :: ms0) d z0) by discriminate.
    replace (last (map (corr_all c (mix_of l)) (z0 :: ms0)) []) with (corr_all c (mix_of l) (last (z0 :: ms0) z0)).
    - rewrite corr_all_of, map_map. reflexivity.
    - clear. revert z0. induction ms0 as [|z1 ms IH]; intros z0; [reflexivity|]. change (last (z0 :: z1 :: ms) z0) with (last (z1 :: ms) z0).
      rewrite (last_some (z1 :: ms) z0 z1) by discriminate. exact (IH z1). }
  generalize dependent cov. intros cov Ec. revert det. unfold tab. clear tab.
  assert (K : forall mm rs0 d0, length rs0 = length mm -> (forall d, cov = map (fun x => snd (fst (fc (last (z0 :: ms0) d) x))) l) ->
    {| rm_w := flat_map (fun rc => map (fun wq => fst rc * (k_pd c * snd wq / k_den c * fst wq)) (combine (map (fun x => fst (fst x)) l) (qz_of (snd rc)))) (combine rs0 (map (corr_all c (mix_of l)) mm));
       rm_m := flat_map (fun col => map (fun x => fst (fst x)) col) (map (corr_all c (mix_of l)) mm); rm_p := flat_map (fun _ : list (V * M * R) => cov) (map (corr_all c (mix_of l)) mm) |} =
    mix_of (flat_map (det_comps (z0 :: ms0) l) (combine rs0 mm)) /\ d0 = d0 :> nat).
  { induction mm as [|z mm IH]; intros [|r rs0] d0 E0 Ecv; try discriminate; [split; reflexivity|].
    destruct (IH rs0 d0 ltac:(cbn in E0; lia) Ecv) as [I _]. split; [|reflexivity]. cbn [map combine flat_map fst snd]. rewrite <- mix_app, <- I, !corr_all_of. unfold rm_app. cbn [rm_w rm_m rm_p fst snd].
    f_equal; f_equal; cbn [mix_of rm_w rm_m rm_p]; unfold det_comps; cbn [fst snd].
    - unfold qz_of. rewrite map_map, combine_maps, !map_map. reflexivity.
    - rewrite !map_map. reflexivity.
    - rewrite (Ecv z), map_map. reflexivity. }
  exact (proj1 (K (z0 :: ms0) rs 0%nat E Ec)).
Qed.
Lemma mapM_len {A B} (f : A -> result B) l r : mapM f l = Ok r -> length r = length l.
Proof.
  revert r. induction l as [|x l IH]; intros r E; cbn [mapM] in E; [injection E as <-; reflexivity|]. destruct (f x); [|discriminate]. cbn [bind] in E. destruct (mapM f l) as [y|]; [|discriminate]. cbn [bind] in E. injection E as <-. cbn. rewrite (IH y eq_refl). reflexivity.
Qed.
Definition sim_out (a b : rmix V M * list R) : Prop := same_comps (fst a) (fst b) /\ snd b = snd a.
Lemma density_sim mx rho ms g g' : same_comps g g' -> both sim_out (correct_density c mx rho ms g) (correct_density c mx rho ms g').
Proof.
  intros (l & l' & -> & -> & P). unfold correct_density.
  assert (EL : length (rm_w (mix_of l')) = length (rm_w (mix_of l))) by (cbn [mix_of rm_w]; rewrite !map_length; symmetry; apply Permutation_length, P).
  assert (EM : length (rm_m (mix_of l')) = length (rm_m (mix_of l))) by (cbn [mix_of rm_m]; rewrite !map_length; symmetry; apply Permutation_length, P).
  assert (EP : length (rm_p (mix_of l')) = length (rm_p (mix_of l))) by (cbn [mix_of rm_p]; rewrite !map_length; symmetry; apply Permutation_length, P).
  rewrite EL, EM, EP. destruct (negb _); [reflexivity|].
  destruct (rm_m (mix_of l)) as [|m0 ml] eqn:E0, (rm_m (mix_of l')) as [|m0' ml'] eqn:E0'; cbn [length] in EM; try discriminate; [reflexivity|]. rewrite <- E0, <- E0'. clear m0 ml m0' ml' E0 E0' EL EM EP. cbv zeta.
  destruct (rdiv (k_pd c) (k_den c)) as [pdc|]; [|reflexivity]. cbn [bind].
  assert (EX : map (fun col => pdc * dot (rm_w (mix_of l')) (qz_of col)) (map (corr_all c (mix_of l')) ms) = map (fun col => pdc * dot (rm_w (mix_of l)) (qz_of col)) (map (corr_all c (mix_of l)) ms)).
  { rewrite !map_map. apply map_ext. intros z. f_equal. cbn [mix_of rm_w]. rewrite !dot_of. symmetry. apply rperm, Permutation_map, P. }
  assert (ET : rsum (rm_w (mix_of l')) = rsum (rm_w (mix_of l))) by (symmetry; apply rperm; cbn [mix_of rm_w]; apply Permutation_map, P).
  rewrite EX, ET. set (xiv := map (fun col => pdc * dot (rm_w (mix_of l)) (qz_of col)) _).
  destruct (mapM (ups0 c _ _ _) _) as [u0|]; [|reflexivity]. cbn [bind]. destruct (mapM (ups1 c _ (length ms) _) _) as [u1|]; [|reflexivity]. cbn [bind].
  destruct (mapM (fun es => mapM _ _) _) as [uD|] eqn:ED; [|reflexivity]. cbn [bind].
  destruct (rdiv (dot u1 rho) (dot u0 rho)) as [r1|]; [|reflexivity]. cbn [bind].
  destruct (mapM (fun col => rdiv _ _) uD) as [rs|] eqn:ER; [|reflexivity]. cbn [bind].
  assert (EN : length rs = length ms).
  { rewrite (mapM_len _ _ _ ER), (mapM_len _ _ _ ED), map_length. unfold range. rewrite seq_length. lia. }
  destruct (normaliseR _) as [rho'|]; [|reflexivity]. cbn [bind both]. split; [|reflexivity]. cbn [fst snd].
  assert (F : forall l0, {| rm_w := map (fun w => r1 * prob_miss c * w) (rm_w (mix_of l0)) ++ flat_map (fun rc => map (fun wq => fst rc * (k_pd c * snd wq / k_den c * fst wq)) (combine (rm_w (mix_of l0)) (qz_of (snd rc)))) (combine rs (map (corr_all c (mix_of l0)) ms));
     rm_m := rm_m (mix_of l0) ++ flat_map (fun col => map (fun x => fst (fst x)) col) (map (corr_all c (mix_of l0)) ms);
     rm_p := rm_p (mix_of l0) ++ flat_map (fun _ : list (V * M * R) => map (fun x => snd (fst x)) (last (map (corr_all c (mix_of l0)) ms) [])) (map (corr_all c (mix_of l0)) ms) |} =
     mix_of (map (fun x => (r1 * prob_miss c * fst (fst x), snd (fst x), snd x)) l0 ++ flat_map (det_comps ms l0) (combine rs ms))).
  { intros l0. rewrite <- mix_app, <- (dets_of ms l0 rs EN). unfold rm_app. cbn [rm_w rm_m rm_p]. cbn [mix_of rm_w rm_m rm_p]. rewrite !map_map. reflexivity. }
  rewrite !F. eexists _, _. split; [reflexivity|]. split; [reflexivity|]. apply Permutation_app; [apply Permutation_map, P|].
  clear F. generalize (combine rs ms). intros Q0. induction Q0 as [|rz rzs IH]; [constructor|]. cbn [flat_map]. apply Permutation_app; [apply Permutation_map, P|exact IH].
Qed.
Lemma step_sim argsort o o' s s' : births_ok c -> gate_blind c -> same_call o o' -> same_but_order s s' -> both same_but_order (cstep c argsort o s) (cstep c argsort o' s').
Proof.
  intros Hb Hg Ho (S1 & S2 & S3 & S4 & S5 & S6 & S7 & S8). destruct Ho as [|ms|x|f Hf]; cbn [cstep].
  - unfold cp_predict. rewrite S2, S3. destruct (pred_card c (cp_max s) (cp_card s)); [|reflexivity]. cbn [bind both]. split; [apply pred_sim; assumption|]. cbn [cp_card cp_max cp_hist cp_meas cp_states cp_covs cp_agents]. tauto.
  - unfold cp_correct. rewrite S2, S3, (Hg ms _ _ S1). destruct (if k_gating c then k_gate c ms (cp_mix s) else Ok ms) as [ms1|]; [|reflexivity]. cbn [bind].
    pose proof (density_sim (cp_max s) (cp_card s) ms1 _ _ S1) as D. destruct (correct_density c (cp_max s) (cp_card s) ms1 (cp_mix s)) as [[g rho]|e], (correct_density c (cp_max s) (cp_card s) ms1 (cp_mix s')) as [[g' rho']|e']; cbn [both] in D; try contradiction; [|subst e'; reflexivity].
    destruct D as [D1 D2]. cbn [fst snd] in D1, D2. subst rho'. cbn [bind]. destruct (argmaxR rho); [|reflexivity]. cbn [bind both]. split; [exact D1|]. cbn [cp_card cp_max cp_hist cp_meas cp_states cp_covs cp_agents]. rewrite S4, S5. tauto.
  - cbn [both]. split; [exact S1|]. unfold cp_set_max. cbn [cp_card cp_max cp_hist cp_meas cp_states cp_covs cp_agents]. tauto.
  - pose proof (Hf _ _ S1) as D. destruct (f (cp_mix s)) as [g|e], (f (cp_mix s')) as [g'|e']; cbn [both] in D; try contradiction; [|subst e'; reflexivity]. cbn [bind both]. split; [exact D|]. cbn [cp_card cp_max cp_hist cp_meas cp_states cp_covs cp_agents]. tauto.
Qed.
End S.

(** *** extraction *)
Lemma sorted_unique {A} (w : A -> R) l l' : StronglySorted (fun x y => w y < w x) l -> StronglySorted (fun x y => w y < w x) l' -> Permutation l l' -> l = l'.
Proof.
  revert l'. induction l as [|x l IH]; intros l' S S' P; [apply Permutation_nil in P; congruence|]. destruct l' as [|y l']; [symmetry in P; apply Permutation_nil in P; discriminate|].
  apply StronglySorted_inv in S. apply StronglySorted_inv in S'. destruct S as [S F], S' as [S' F']. rewrite Forall_forall in F, F'.
  assert (E : x = y).
  { pose proof (Permutation_in x P (or_introl eq_refl)) as I1. symmetry in P. pose proof (Permutation_in y P (or_introl eq_refl)) as I2.
    destruct I1 as [I1|I1]; [congruence|]. destruct I2 as [I2|I2]; [congruence|]. pose proof (F _ I2). pose proof (F' _ I1). lra. }
  subst y. f_equal. apply IH; [assumption|assumption|]. apply (Permutation_cons_inv P).
Qed.
Lemma sorted_nth {A} (Q : A -> A -> Prop) l d : (forall i j, (i < j < length l)%nat -> Q (nth i l d) (nth j l d)) -> StronglySorted Q l.
Proof.
  induction l as [|x l IH]; intros H; [constructor|]. constructor.
  - apply IH. intros i j Hij. apply (H (S i) (S j)). cbn. lia.
  - apply Forall_forall. intros y Hy. destruct (In_nth l y d Hy) as (n & Hn & <-). apply (H 0%nat (S n)). cbn. lia.
Qed.
Section E.
Context {V M Meas : Type}.
Implicit Types (l : list (R * V * M)).
Notation wt := (fun x : R * V * M => fst (fst x)).
(** The estimates in terms of the components in the order visited. *)
Fixpoint visit l (card : nat) (tot : Z) : list ((R * V * M) * Z) :=
  match l with
  | [] => []
  | x :: l' => if (tot <? Z.of_nat card)%Z then let n := roundR (wt x) in if (n <=? 0)%Z then [] else (x, n) :: visit l' card (tot + n) else []
  end.
Lemma loop_visit l d order card : forall tot, (forall i, In i order -> (i < length l)%nat) ->
  map (fun p => (nth (fst p) l d, snd p)) (extract_loop (map wt l) card order tot) = visit (map (fun i => nth i l d) order) card tot /\
  (forall p, In p (extract_loop (map wt l) card order tot) -> (fst p < length l)%nat).
Proof.
  induction order as [|i order IH]; intros tot H; [split; [reflexivity|intros p []]|]. cbn [extract_loop map visit].
  assert (E : nth i (map wt l) 0 = wt (nth i l d)).
  { rewrite (nth_indep _ 0 (wt d)) by (rewrite map_length; apply H; left; reflexivity). apply (map_nth wt). }
  rewrite E. cbv zeta. destruct (tot <? Z.of_nat card)%Z; [|split; [reflexivity|intros p []]]. destruct (roundR (wt (nth i l d)) <=? 0)%Z; [split; [reflexivity|intros p []]|].
  destruct (IH (tot + roundR (wt (nth i l d)))%Z (fun j Hj => H j (or_intror Hj))) as [I1 I2]. split.
  - cbn [map fst snd]. rewrite I1. reflexivity.
  - intros p [<-|Hp]; [apply H; left; reflexivity|apply I2, Hp].
Qed.
Lemma mapM_picks {Y} (f : R * V * M -> Y) l d ps : (forall p, In p ps -> (fst p < length l)%nat) ->
  mapM (fun p : nat * Z => match nth_error (map f l) (fst p) with Some x => Ok x | None => Err IndexErr end) ps = Ok (map (fun p => f (nth (fst p) l d)) ps).
Proof.
  induction ps as [|p ps IH]; intros H; [reflexivity|]. cbn [mapM map]. rewrite nth_error_map, (nth_error_nth' l d) by (apply H; left; reflexivity). cbn [option_map bind].
  rewrite IH by (intros q Hq; apply H; right; exact Hq). reflexivity.
Qed.
Lemma order_eq argsort l l' d : rsorts argsort -> Permutation l l' -> NoDup (map wt l) ->
  map (fun i => nth i l d) (rev (argsort (map wt l))) = map (fun i => nth i l' d) (rev (argsort (map wt l'))).
Proof.
  intros HA P ND.
  assert (K : forall l0, NoDup (map wt l0) -> StronglySorted (fun x y => wt y < wt x) (map (fun i => nth i l0 d) (rev (argsort (map wt l0)))) /\ Permutation (map (fun i => nth i l0 d) (rev (argsort (map wt l0)))) l0).
  { intros l0 N0. destruct (HA (map wt l0)) as [A1 A2]. rewrite map_length in A1, A2.
    assert (Ln : length (argsort (map wt l0)) = length l0) by (rewrite (Permutation_length A1), seq_length; reflexivity).
    assert (Rg : forall i, (i < length l0)%nat -> (nth i (argsort (map wt l0)) 0 < length l0)%nat).
    { intros i Hi. assert (I : In (nth i (argsort (map wt l0)) 0%nat) (seq 0 (length l0))) by (apply (Permutation_in _ A1), nth_In; lia). apply in_seq in I. lia. }
    split.
    - apply (sorted_nth _ _ (nth 0 l0 d)). rewrite map_length, rev_length, Ln. intros i j Hij.
      rewrite !(map_nth (fun i => nth i l0 d)). rewrite !rev_nth by lia. rewrite Ln. set (a := argsort (map wt l0)) in *.
      pose proof (A2 (length l0 - S j)%nat (length l0 - S i)%nat ltac:(lia)) as L.
      assert (Ew : forall k, (k < length l0)%nat -> nth (nth k a 0%nat) (map wt l0) 0 = wt (nth (nth k a 0%nat) l0 d)).
      { intros k Hk. rewrite (nth_indep _ 0 (wt d)) by (rewrite map_length; apply Rg, Hk). apply (map_nth wt). }
      rewrite !Ew in L by lia. destruct L as [L|L]; [exact L|]. exfalso.
      assert (Q : nth (length l0 - S j) a 0%nat = nth (length l0 - S i) a 0%nat).
      { apply (proj1 (NoDup_nth (map wt l0) 0) N0); rewrite ?map_length; [apply Rg; lia|apply Rg; lia|]. rewrite !Ew by lia. exact L. }
      assert (Na : NoDup a) by (apply (Permutation_NoDup (l := seq 0 (length l0))); [symmetry; exact A1|apply seq_NoDup]).
      apply (proj1 (NoDup_nth a 0%nat) Na) in Q; lia.
    - transitivity (map (fun i => nth i l0 d) (seq 0 (length l0))).
      + apply Permutation_map. transitivity (argsort (map wt l0)); [symmetry; apply Permutation_rev|exact A1].
      + rewrite map_nth_seq. reflexivity. }
  destruct (K l ND) as [S1 P1]. destruct (K l') as [S2 P2]; [apply (Permutation_NoDup (Permutation_map wt P) ND)|].
  apply (sorted_unique wt); [exact S1|exact S2|]. rewrite P1, P2. exact P.
Qed.
End E.
(** C211: extract_states chooses the same estimates in the same order when no two
    components have the same weight. *)
Theorem C211_extract_order : forall {V M Meas} (c : ccfg V M Meas) argsort s s', rsorts argsort ->
  distinct_weights (cp_mix s) -> same_but_order s s' -> both same_but_order (cp_extract c argsort s) (cp_extract c argsort s').
Proof.
  intros V M Meas c argsort s s' HA ND ((l & l' & E1 & E2 & P) & S2 & S3 & S4 & S5 & S6 & S7 & S8). unfold cp_extract. rewrite S2. destruct (argmaxR (cp_card s)) as [card|]; [|reflexivity]. cbn [bind]. cbv zeta.
  unfold distinct_weights in ND. rewrite E1 in *. rewrite E2.
  destruct l as [|d l0] eqn:El.
  { apply Permutation_nil in P. subst l'. clear E1 E2. set (q := extract_loop _ _ _ _). destruct (mapM _ q); [|reflexivity]. cbn [bind]. destruct (if k_save_covs c then _ else _); [|reflexivity]. cbn [bind both]. rewrite S6, S7.
    split; [exists [], []; auto|]. cbn [cp_card cp_max cp_hist cp_meas cp_states cp_covs cp_agents]. tauto. }
  rewrite <- El in *. pose proof (order_eq argsort l l' d HA P ND) as EO.
  assert (X : forall l1, Permutation l l1 -> let q := extract_loop (rm_w (mix_of l1)) card (rev (argsort (rm_w (mix_of l1)))) 0 in
    let v := visit (map (fun i => nth i l1 d) (rev (argsort (map (fun x => fst (fst x)) l1)))) card 0 in
    mapM (fun p : nat * Z => match nth_error (rm_m (mix_of l1)) (fst p) with Some x => Ok x | None => Err IndexErr end) q = Ok (map (fun x => snd (fst (fst x))) v) /\
    mapM (fun p : nat * Z => match nth_error (rm_p (mix_of l1)) (fst p) with Some x => Ok x | None => Err IndexErr end) q = Ok (map (fun x => snd (fst x)) v) /\ map snd q = map snd v).
  { intros l1 P1 q v. destruct (HA (map (fun x => fst (fst x)) l1)) as [A1 _]. rewrite map_length in A1.
    destruct (loop_visit l1 d (rev (argsort (map (fun x => fst (fst x)) l1))) card 0) as [L1 L2].
    { intros i Hi. apply in_rev in Hi. apply (Permutation_in _ A1) in Hi. apply in_seq in Hi. lia. }
    unfold q, v. cbn [mix_of rm_w rm_m rm_p]. rewrite <- L1. rewrite !(mapM_picks _ l1 d) by exact L2. rewrite !map_map. cbn [fst snd]. auto. }
  destruct (X l ltac:(reflexivity)) as (X1 & X2 & X3). destruct (X l' P) as (Y1 & Y2 & Y3). cbv zeta in X1, X2, X3, Y1, Y2, Y3. rewrite <- EO in Y1, Y2, Y3.
  rewrite X1, Y1. cbn [bind]. rewrite X2, Y2, X3, Y3. destruct (k_save_covs c); cbn [bind both]; (split; [exists l, l'; auto|]); cbn [cp_card cp_max cp_hist cp_meas cp_states cp_covs cp_agents]; rewrite ?S6, ?S7; tauto.
Qed.
(** C211: the calls predict, correct, cleanup and the setter of max_expected_card give the
    same components in another order, the same cardinality distribution and history,
    or the same exception. *)
Theorem C211_cphd_component_order : forall {V M Meas} (c : ccfg V M Meas) argsort os os' s s',
  births_ok c -> gate_blind c -> Forall2 same_call os os' -> same_but_order s s' ->
  both same_but_order (crun c argsort os s) (crun c argsort os' s').
Proof.
  intros V M Meas c argsort os os' s s' Hb Hg F. revert s s'. induction F as [|o o' os os' Ho F IH]; intros s s' S; [exact S|]. cbn [crun].
  pose proof (step_sim c argsort o o' s s' Hb Hg Ho S) as D.
  destruct (cstep c argsort o s) as [s1|e], (cstep c argsort o' s') as [s1'|e']; cbn [both] in D; try contradiction; [|subst e'; reflexivity]. cbn [bind]. apply IH, D.
Qed.
Print Assumptions C211_cphd_component_order.
Print Assumptions C211_extract_order.
(** The hypotheses are met: two components listed both ways, one birth, pruning by
    weight as the clean-up step, and a gate. *)
Definition two_ccfg : ccfg R R R :=
  {| k_fpred := fun m p => (m + 1, p + 1); k_fcorr := fun z m p => ((m + z) / 2, p / 2, exp (- (z - m) ^ 2));
     k_ps := 1 / 2; k_pd := 9 / 10; k_birth := [{| rm_w := [1]; rm_m := [3]; rm_p := [4] |}]; k_rate := 1; k_den := 1;
     k_esf := fun l => 1 :: l; k_gating := true; k_gate := fun ms g => Ok (filter (fun z => if Rlt_dec z (rsum (rm_w g)) then true else false) ms); k_save_covs := true |}.
Definition two_mix (l : list (R * R * R)) : cphd R R R :=
  {| cp_mix := mix_of l; cp_card := [0; 0; 1]; cp_max := 2; cp_hist := []; cp_meas := []; cp_states := []; cp_covs := []; cp_agents := [] |}.
Definition drop_light (g : rmix R R) : result (rmix R R) :=
  Ok (mix_of (filter (fun x => if Rlt_dec (fst (fst x)) (1 / 10) then false else true) (combine (combine (rm_w g) (rm_m g)) (rm_p g)))).
Example C211_instance : births_ok two_ccfg /\ gate_blind two_ccfg /\
  Forall2 same_call [CPredict; CCorrect [2; 5]; CClean drop_light] [CPredict; CCorrect [2; 5]; CClean drop_light] /\
  same_but_order (two_mix [(1, 2, 3); (2, 4, 5)]) (two_mix [(2, 4, 5); (1, 2, 3)]) /\ distinct_weights (cp_mix (two_mix [(1, 2, 3); (2, 4, 5)])).
Proof.
  assert (CM : forall l : list (R * R * R), combine (combine (map (fun x => fst (fst x)) l) (map (fun x => snd (fst x)) l)) (map snd l) = l).
  { induction l as [|[[a b] d] l IH]; [reflexivity|]. cbn [map combine fst snd]. rewrite IH. reflexivity. }
  split; [|split; [|split; [|split]]].
  - intros b [<-|[]]. exists [(1, 3, 4)]. reflexivity.
  - intros ms g g' (l & l' & -> & -> & P). cbn [two_ccfg k_gate]. rewrite (rperm (rm_w (mix_of l')) (rm_w (mix_of l))); [reflexivity|]. cbn [mix_of rm_w]. apply Permutation_map. symmetry. exact P.
  - constructor; [constructor|]. constructor; [constructor|]. constructor; [|constructor]. constructor. intros g g' (l & l' & -> & -> & P). 
    assert (DL : forall l0 : list (R * R * R), drop_light (mix_of l0) = Ok (mix_of (filter (fun x => if Rlt_dec (fst (fst x)) (1 / 10) then false else true) l0))).
    { intros l0. unfold drop_light. change (rm_w (mix_of l0)) with (map (fun x : R * R * R => fst (fst x)) l0). change (rm_m (mix_of l0)) with (map (fun x : R * R * R => snd (fst x)) l0).
      change (rm_p (mix_of l0)) with (map (@snd (R * R) R) l0). rewrite CM. reflexivity. }
    rewrite !DL. cbn [both]. clear DL. eexists _, _. split; [reflexivity|]. split; [reflexivity|]. clear CM. induction P; cbn [filter]; repeat match goal with |- context [if ?b then _ else _] => destruct b end; try constructor; try assumption; try reflexivity; etransitivity; eassumption.
  - split; [|cbn; tauto]. exists [(1, 2, 3); (2, 4, 5)], [(2, 4, 5); (1, 2, 3)]. split; [reflexivity|]. split; [reflexivity|]. apply perm_swap.
  - unfold distinct_weights. cbn. constructor; [intros [E|[]]; lra|]. constructor; [intros []|constructor].
Qed.
