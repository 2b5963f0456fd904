(** Properties C41-C45, C75, C76 of the CPHD filter. *)
From Verif Require Import Base Lists.
From Coq Require Import Reals Permutation Lra.
From Verif Require Import OspaModel OspaProofs CphdModel CphdSpec CphdProofs.
Open Scope R_scope.

(** A concrete filter over naturals used by the examples: survival ps, one birth
    of weight 1, clutter rate 1, density 1. *)
Definition esf_ref (l : list R) : list R := map (esym l) (seq 0 (S (length l))).
Definition ex_c (ps pd rate : R) (birth : list (rmix nat nat)) : ccfg nat nat nat :=
  {| k_fpred := fun m p => (m, p); k_fcorr := fun z m p => (z, z, 1); k_ps := ps; k_pd := pd;
     k_birth := birth; k_rate := rate; k_den := 1; k_esf := esf_ref; k_gating := false;
     k_gate := fun ms _ => Ok ms; k_save_covs := true |}.
Definition ex_birth : list (rmix nat nat) := [{| rm_w := [1]; rm_m := [0%nat]; rm_p := [0%nat] |}].
Definition ex_s (mx : nat) (rho : list R) (g : rmix nat nat) : cphd nat nat nat :=
  {| cp_mix := g; cp_card := rho; cp_max := mx; cp_hist := []; cp_meas := []; cp_states := []; cp_covs := []; cp_agents := [] |}.
Lemma esf_ref_ok : esf_ok esf_ref.
Proof. intros l. reflexivity. Qed.
Lemma ex_cfg_ok ps pd rate : 0 <= ps -> 0 <= pd <= 1 -> cfg_ok (ex_c ps pd rate ex_birth).
Proof.
  intros Hps Hpd. split; [exact esf_ref_ok|]. split; [exact Hps|]. split; [exact Hpd|]. cbn. split; [lra|]. split.
  - intros b [<-|[]]. split; [split; reflexivity|]. intros x [<-|[]]. lra.
  - intros. lra.
Qed.
Lemma ex_birth_sum ps pd rate : first_weights (k_birth (ex_c ps pd rate ex_birth)) 1.
Proof. apply birth_sum_iff. unfold birth_sum. cbn. f_equal. ring. Qed.

(** C41: after any sequence of calls that returns, the cardinality distribution
    has max_expected_card + 1 non-negative entries adding up to 1 ... *)
Theorem C41_cphd_distribution : forall {V M Meas} (c : ccfg V M Meas) argsort ops mx s,
  esf_ok (k_esf c) -> 0 <= k_ps c -> 0 <= k_pd c <= 1 -> 0 <= k_den c ->
  (forall b, In b (k_birth c) -> raligned b /\ rnonneg b) ->
  (forall z m p, 0 <= snd (k_fcorr c z m p)) ->
  (forall f g g', In (CClean f) ops -> raligned g -> rnonneg g -> f g = Ok g' -> raligned g' /\ rnonneg g') ->
  crun c argsort ops (cphd_new mx) = Ok s ->
  distribution (cp_max s) (cp_card s) /\ raligned (cp_mix s) /\ rnonneg (cp_mix s).
Proof.
  intros V M Meas c argsort ops mx s He Hps Hpd Hd Hb Hl Hf H.
  apply (crun_inv c argsort ops (cphd_new mx)); [repeat split; try assumption; try tauto; apply Hb; assumption| |apply cphd_new_inv|exact H].
  intros o Ho. destruct o as [| | | |f]; cbn; try exact I. intros g g'. apply Hf, Ho.
Qed.
(** ... and with 0 < ps < 1, births and clutter, predict and correct do return. *)
Theorem C41_cphd_predict_total : forall {V M Meas} (c : ccfg V M Meas) s b,
  0 < k_ps c < 1 -> first_weights (k_birth c) b -> 0 < b -> (0 < cp_max s)%nat -> distribution (cp_max s) (cp_card s) ->
  exists s', cp_predict c s = Ok s' /\ cp_max s' = cp_max s /\ distribution (cp_max s') (cp_card s').
Proof.
  intros V M Meas c s b Hps Hb Hpos Hm Hd. apply birth_sum_iff in Hb. unfold cp_predict.
  pose proof (pred_card_val c (cp_max s) (cp_card s) b Hps Hb Hpos Hd Hm) as E. rewrite E. cbn [bind].
  eexists. split; [reflexivity|]. split; [reflexivity|]. cbn. eapply pred_card_dist; [|exact E]. apply Hd.
Qed.
Theorem C41_cphd_correct_total : forall {V M Meas} (c : ccfg V M Meas) s meas,
  esf_ok (k_esf c) -> 0 < k_ps c < 1 -> 0 <= k_pd c <= 1 -> 0 < k_rate c -> 0 < k_den c -> k_gating c = false ->
  (forall z m p, 0 <= snd (k_fcorr c z m p)) ->
  raligned (cp_mix s) -> rnonneg (cp_mix s) -> 0 < rsum (rm_w (cp_mix s)) -> distribution (cp_max s) (cp_card s) ->
  exists s', cp_correct c meas s = Ok s' /\ distribution (cp_max s') (cp_card s') /\
    cp_meas s' = cp_meas s ++ [meas] /\ length (cp_hist s') = S (length (cp_hist s)) /\
    raligned (cp_mix s') /\ rnonneg (cp_mix s') /\
    length (rm_w (cp_mix s')) = (S (length meas) * length (rm_w (cp_mix s)))%nat.
Proof.
  intros V M Meas c s meas He Hps Hpd Hr Hd Hg Hl Ha Hn Ht Hdist. unfold cp_correct. rewrite Hg. cbn [bind].
  assert (Hc : cfg_ok {| k_fpred := k_fpred c; k_fcorr := k_fcorr c; k_ps := k_ps c; k_pd := k_pd c; k_birth := []; k_rate := k_rate c;
     k_den := k_den c; k_esf := k_esf c; k_gating := k_gating c; k_gate := k_gate c; k_save_covs := k_save_covs c |}).
  { split; [exact He|]. cbn. split; [lra|]. split; [exact Hpd|]. split; [lra|]. split; [intros b []|exact Hl]. }
  assert (Hne : rm_w (cp_mix s) <> []) by (intros E; rewrite E in Ht; cbn in Ht; lra).
  pose proof (correct_density_val c (cp_max s) (cp_card s) meas (cp_mix s) He Hps (proj1 Hpd) Hr Hd Ha Hne Hn Ht) as E.
  rewrite E; [|intros q x Hq Hx; unfold lik in Hq; apply in_map_iff in Hq; destruct Hq as [z [<- _]];
    unfold qz_of, corr_all in Hx; rewrite map_map in Hx; apply in_map_iff in Hx; destruct Hx as [mp [<- _]]; apply Hl|exact Hdist].
  assert (E' := E). specialize (E ltac:(intros q x Hq Hx; unfold lik in Hq; apply in_map_iff in Hq; destruct Hq as [z [<- _]];
    unfold qz_of, corr_all in Hx; rewrite map_map in Hx; apply in_map_iff in Hx; destruct Hx as [mp [<- _]]; apply Hl) Hdist). clear E'.
  cbn [bind].
  destruct (correct_density_inv _ (cp_max s) (cp_card s) meas (cp_mix s) _ _ Hc Hn (proj1 (proj2 Hdist)) E) as (A & B & C & D).
  eexists. split; [reflexivity|]. cbn. split; [exact A|]. split; [reflexivity|]. split; [rewrite app_length; cbn; lia|].
  split; [exact B|]. split; [exact C|exact D].
Qed.

(** C42 is false: the predicted distribution is not binomial thinning plus
    Poisson births.  First witness: all mass on the largest cardinality - the
    loop leaves out its survival ... *)
Ltac nz := repeat split; try (apply Rgt_not_eq; lra).
Ltac evalsums := unfold inner, predicted_norm, predicted, predicted_code, thinned, survived, poisson, sum_ab, C;
  cbn [seq map rsum fold_right Nat.sub Nat.ltb Nat.leb nth pow fact Nat.mul Nat.add INR].
Theorem C42_cphd_binomial_refuted : exists (c : ccfg nat nat nat) s s' n,
  0 < k_ps c < 1 /\ first_weights (k_birth c) 1 /\ distribution (cp_max s) (cp_card s) /\
  cp_predict c s = Ok s' /\ (n <= cp_max s)%nat /\
  nth n (cp_card s') 0 <> predicted_norm (k_ps c) 1 (cp_max s) (cp_card s) n.
Proof.
  set (g := {| rm_w := []; rm_m := []; rm_p := [] |} : rmix nat nat).
  assert (D : distribution 1 [0; 1]).
  { split; [reflexivity|]. split; [intros x [<-|[<-|[]]]; lra|cbn; ring]. }
  assert (H : 0 < k_ps (ex_c (1/2) 1 1 ex_birth) < 1) by (cbn; lra).
  exists (ex_c (1/2) 1 1 ex_birth), (ex_s 1 [0; 1] g). eexists. exists 0%nat. split; [exact H|]. split; [apply ex_birth_sum|]. split; [exact D|].
  split. { unfold cp_predict. cbn [ex_s cp_max cp_card]. rewrite (pred_card_val _ 1 [0; 1] 1 H (proj2 (birth_sum_iff _ _) (ex_birth_sum _ _ _)) Rlt_0_1 D (Nat.lt_0_1)).
    cbn [bind]. reflexivity. }
  split; [cbn; lia|]. cbn [cp_card seq map nth cp_max ex_s k_ps ex_c]. evalsums.
  pose proof (exp_pos 1) as P1. pose proof (exp_pos (Ropp 1)) as P2.
  intros E. match type of E with ?a = ?b => assert (Ea : a = 1/2) by (field; nz); assert (Eb : b = 1/3) by (field; nz) end.
  rewrite Ea, Eb in E. lra.
Qed.
(** ... second witness: no mass there; two dead objects are weighted by an extra 2!. *)
Theorem C42_cphd_factorial_refuted : exists (c : ccfg nat nat nat) s s' n,
  0 < k_ps c < 1 /\ first_weights (k_birth c) 1 /\ distribution (cp_max s) (cp_card s) /\ nth (cp_max s) (cp_card s) 0 = 0 /\
  cp_predict c s = Ok s' /\ (n <= cp_max s)%nat /\
  nth n (cp_card s') 0 <> predicted_norm (k_ps c) 1 (cp_max s) (cp_card s) n.
Proof.
  set (g := {| rm_w := []; rm_m := []; rm_p := [] |} : rmix nat nat).
  assert (D : distribution 3 [0; 0; 1; 0]).
  { split; [reflexivity|]. split; [intros x [<-|[<-|[<-|[<-|[]]]]]; lra|cbn; ring]. }
  assert (H : 0 < k_ps (ex_c (1/2) 1 1 ex_birth) < 1) by (cbn; lra).
  exists (ex_c (1/2) 1 1 ex_birth), (ex_s 3 [0; 0; 1; 0] g). eexists. exists 0%nat. split; [exact H|]. split; [apply ex_birth_sum|]. split; [exact D|].
  split; [reflexivity|].
  split. { unfold cp_predict. cbn [ex_s cp_max cp_card]. rewrite (pred_card_val _ 3 [0; 0; 1; 0] 1 H (proj2 (birth_sum_iff _ _) (ex_birth_sum _ _ _)) Rlt_0_1 D (Nat.lt_0_succ _)).
    cbn [bind]. reflexivity. }
  split; [cbn; lia|]. cbn [cp_card seq map nth cp_max ex_s k_ps ex_c]. evalsums.
  pose proof (exp_pos 1) as P1. pose proof (exp_pos (Ropp 1)) as P2.
  intros E. match type of E with ?a = ?b => assert (Ea : a = 12/53) by (field; nz); assert (Eb : b = 3/29) by (field; nz) end.
  rewrite Ea, Eb in E. lra.
Qed.
(** What holds: with at most one object a priori (and room for two) the
    prediction is the textbook one. *)
Theorem C42_cphd_predict_partial : forall {V M Meas} (c : ccfg V M Meas) s b,
  0 < k_ps c < 1 -> first_weights (k_birth c) b -> 0 < b -> (2 <= cp_max s)%nat -> distribution (cp_max s) (cp_card s) ->
  (forall i, (2 <= i)%nat -> nth i (cp_card s) 0 = 0) ->
  exists s', cp_predict c s = Ok s' /\ length (cp_card s') = S (cp_max s) /\
    forall n, (n <= cp_max s)%nat -> nth n (cp_card s') 0 = predicted_norm (k_ps c) b (cp_max s) (cp_card s) n.
Proof.
  intros V M Meas c s b Hps Hb Hpos Hm Hd H2. apply birth_sum_iff in Hb. set (mx := cp_max s) in *. set (rho := cp_card s) in *.
  unfold cp_predict. fold mx rho. rewrite (pred_card_val c mx rho b Hps Hb Hpos Hd ltac:(lia)). cbn [bind].
  eexists. split; [reflexivity|]. cbn [cp_card]. split; [rewrite map_length, seq_length; reflexivity|].
  intros n Hn. rewrite (nth_map_seq (fun n => _)) by lia.
  assert (Hsv : forall j, survived (k_ps c) mx rho j = thinned (k_ps c) mx rho j).
  { intros j. unfold survived, thinned. apply sum_ab_ext. intros i Hi. destruct (le_lt_dec 2 i) as [Hi2|Hi2]; [rewrite (H2 i Hi2); ring|].
    assert (F : INR (fact (i - j)) = 1) by (destruct (i - j)%nat as [|[|k]] eqn:Ek; [reflexivity|reflexivity|lia]).
    unfold C. rewrite F. field. apply Rgt_not_eq, fact_pos. }
  assert (Hlast : thinned (k_ps c) mx rho mx = 0).
  { unfold thinned, sum_ab. replace (S mx - mx)%nat with 1%nat by lia. cbn [seq map rsum fold_right]. rewrite (H2 mx Hm). ring. }
  assert (Hcode : forall k, (k <= mx)%nat -> predicted_code (k_ps c) b mx rho k = exp (b + b) * predicted (k_ps c) b mx rho k).
  { intros k Hk. unfold predicted_code, predicted. rewrite <- sum_ab_scale. apply sum_ab_ext. intros j Hj.
    assert (E : (if (j <? mx)%nat then survived (k_ps c) mx rho j else 0) = thinned (k_ps c) mx rho j).
    { destruct (j <? mx)%nat eqn:Ej; [apply Hsv|]. apply Nat.ltb_ge in Ej. replace j with mx by lia. symmetry. exact Hlast. }
    rewrite E. unfold poisson. replace (exp b) with (exp (b + b) * exp (- b)) by (rewrite <- exp_plus; f_equal; ring).
    field. apply Rgt_not_eq, fact_pos. }
  rewrite (Hcode n Hn). unfold predicted_norm. rewrite (sum_ab_ext 0 mx _ _ (fun k Hk => Hcode k (proj2 Hk))), sum_ab_scale.
  assert (Hs : 0 < sum_ab 0 mx (predicted_code (k_ps c) b mx rho)).
  { apply (sum_ab_pos _ _ _ 0%nat); [|lia|apply predicted_code0_pos; (assumption || lia)].
    intros k _. apply predicted_code_nonneg; [lra|exact Hpos|apply Hd]. }
  rewrite (sum_ab_ext 0 mx _ _ (fun k Hk => Hcode k (proj2 Hk))), sum_ab_scale in Hs.
  pose proof (exp_pos (b + b)). field. split; [|lra]. intros E. rewrite E, Rmult_0_r in Hs. lra.
Qed.

(** C43 is false: with prob_survive = 1 (the class default; also with 0) every
    prediction is nan ... *)
Theorem C43_cphd_certain_survival_refuted : forall {V M Meas} (c : ccfg V M Meas) s,
  k_ps c = 1 \/ k_ps c = 0 -> (0 < cp_max s)%nat -> exists e, cp_predict c s = Err e.
Proof.
  intros V M Meas c s H Hm. destruct (survive_nan c (cp_max s) (cp_card s) H Hm) as [e E]. exists e.
  unfold cp_predict, pred_card. rewrite E. reflexivity.
Qed.
(** ... and so is every prediction without births. *)
Theorem C43_cphd_no_births_refuted : forall {V M Meas} (c : ccfg V M Meas) s,
  k_birth c = [] -> exists e, cp_predict c s = Err e.
Proof.
  intros V M Meas c s H. unfold cp_predict, pred_card. destruct (survive c (cp_max s) (cp_card s)) as [sv|e]; [|exists e; reflexivity].
  destruct (cdn_nan c (cp_max s) sv) as [e E]; [unfold birth_sum; rewrite H; reflexivity|]. exists e. cbn [bind]. rewrite E. reflexivity.
Qed.

(** C44: extraction.  [order] lists the components by decreasing weight; the
    first [k] are reported, with their rounded weights as agent numbers; before
    each one the estimate was not reached, and the loop stops when it is, when
    the components are used up or when a rounded weight is not positive. *)
Theorem C44_cphd_extract : forall {V M Meas} (c : ccfg V M Meas) argsort s (v0 : V) (p0 : M),
  rsorts argsort -> raligned (cp_mix s) -> cp_card s <> [] ->
  let g := cp_mix s in
  exists s' order k card num,
    cp_extract c argsort s = Ok s' /\ is_mode (cp_card s) card /\
    Permutation order (seq 0 (length (rm_w g))) /\
    (forall a b, (a < b < length order)%nat -> nth (nth b order 0%nat) (rm_w g) 0 <= nth (nth a order 0%nat) (rm_w g) 0) /\
    (forall i, nearest_even (nth i (rm_w g) 0) (num i)) /\ (k <= length order)%nat /\
    cp_agents s' = map num (firstn k order) /\
    cp_states s' = cp_states s ++ [map (fun i => nth i (rm_m g) v0) (firstn k order)] /\
    cp_covs s' = (if k_save_covs c then cp_covs s ++ [map (fun i => nth i (rm_p g) p0) (firstn k order)] else cp_covs s) /\
    (forall n, In n (cp_agents s') -> (0 < n)%Z) /\
    (forall m, (m < k)%nat -> (zsum (map num (firstn m order)) < Z.of_nat card)%Z) /\
    (k = length order \/ (Z.of_nat card <= zsum (cp_agents s'))%Z \/ (num (nth k order 0%nat) <= 0)%Z) /\
    cp_mix s' = g /\ cp_card s' = cp_card s /\ cp_max s' = cp_max s.
Proof.
  intros V M Meas c argsort s v0 p0 Hso [Ha1 Ha2] Hne g. unfold cp_extract. fold g. fold g in Ha1, Ha2.
  destruct (argmaxR (cp_card s)) as [card|e] eqn:Ec; [|destruct (cp_card s); [contradiction|discriminate]].
  cbn [bind]. destruct (Hso (rm_w g)) as [Hp Hs]. set (order := rev (argsort (rm_w g))).
  assert (Hpo : Permutation order (seq 0 (length (rm_w g)))) by (eapply perm_trans; [symmetry; apply Permutation_rev|exact Hp]).
  assert (Lo : length order = length (rm_w g)) by (rewrite (Permutation_length Hpo), seq_length; reflexivity).
  destruct (extract_loop_spec (rm_w g) card order 0) as (k & Hk & He & Hpos & Hm & Hst). rewrite He.
  set (num := fun i => roundR (nth i (rm_w g) 0)) in *.
  change (map (fun i => (i, roundR (nth i (rm_w g) 0))) (firstn k order)) with (map (fun i => (i, num i)) (firstn k order)).
  assert (Hin : forall i, In i (firstn k order) -> (i < length (rm_w g))%nat).
  { intros i Hi. assert (Hio : In i order) by (rewrite <- (firstn_skipn k order); apply in_or_app; left; exact Hi).
    apply (Permutation_in _ Hpo) in Hio. apply in_seq in Hio. lia. }
  assert (Est : mapM (fun p : nat * Z => match nth_error (rm_m g) (fst p) with Some x => Ok x | None => Err IndexErr end)
                  (map (fun i => (i, num i)) (firstn k order)) = Ok (map (fun i => nth i (rm_m g) v0) (firstn k order))).
  { rewrite <- (mapM_ext (fun i => match nth_error (rm_m g) i with Some x => Ok x | None => Err IndexErr end)) by reflexivity.
    apply mapM_map. intros i Hi. specialize (Hin i Hi). rewrite (nth_error_nth' _ v0) by (rewrite Ha1; exact Hin). reflexivity. }
  rewrite Est. cbn [bind]. clear Est.
  assert (Ecv : mapM (fun p : nat * Z => match nth_error (rm_p g) (fst p) with Some x => Ok x | None => Err IndexErr end)
                  (map (fun i => (i, num i)) (firstn k order)) = Ok (map (fun i => nth i (rm_p g) p0) (firstn k order))).
  { rewrite <- (mapM_ext (fun i => match nth_error (rm_p g) i with Some x => Ok x | None => Err IndexErr end)) by reflexivity.
    apply mapM_map. intros i Hi. specialize (Hin i Hi). rewrite (nth_error_nth' _ p0) by (rewrite Ha2; exact Hin). reflexivity. }
  rewrite Ecv. clear Ecv.
  exists {| cp_mix := g; cp_card := cp_card s; cp_max := cp_max s; cp_hist := cp_hist s; cp_meas := cp_meas s;
    cp_states := cp_states s ++ [map (fun i => nth i (rm_m g) v0) (firstn k order)];
    cp_covs := if k_save_covs c then cp_covs s ++ [map (fun i => nth i (rm_p g) p0) (firstn k order)] else cp_covs s;
    cp_agents := map num (firstn k order) |}, order, k, card, num.
  cbn [cp_mix cp_card cp_max cp_states cp_covs cp_agents].
  split. { rewrite map_map. destruct (k_save_covs c); reflexivity. }
  split; [apply argmaxR_spec, Ec|]. split; [exact Hpo|]. split.
  { intros a b Hab. rewrite Lo in Hab. unfold order. assert (La : length (argsort (rm_w g)) = length (rm_w g))
      by (rewrite (Permutation_length Hp), seq_length; reflexivity).
    rewrite !rev_nth by lia. apply Hs. lia. }
  split; [intros i; apply roundR_spec|]. split; [exact Hk|]. split; [reflexivity|]. split; [reflexivity|]. split; [reflexivity|].
  split; [intros n Hn; apply in_map_iff in Hn; destruct Hn as [i [<- Hi]]; apply Hpos, Hi|].
  split; [intros m Hmk; specialize (Hm m Hmk); rewrite Z.add_0_l in Hm; exact Hm|].
  split; [rewrite Z.add_0_l in Hst; exact Hst|]. repeat split.
Qed.

(** C45 is false: two filters that differ only in prob_survive correct the same
    state with the same measurements to different cardinality distributions. *)
Theorem C45_cphd_correct_survival_refuted : exists ps1 ps2 (s s1 s2 : cphd nat nat nat) meas,
  0 < ps1 < 1 /\ 0 < ps2 < 1 /\ distribution (cp_max s) (cp_card s) /\
  cp_correct (ex_c ps1 (1/2) 1 ex_birth) meas s = Ok s1 /\
  cp_correct (ex_c ps2 (1/2) 1 ex_birth) meas s = Ok s2 /\
  nth 0 (cp_card s1) 0 <> nth 0 (cp_card s2) 0 /\ nth 0 (rm_w (cp_mix s1)) 0 <> nth 0 (rm_w (cp_mix s2)) 0.
Proof.
  set (g := {| rm_w := [1]; rm_m := [0%nat]; rm_p := [0%nat] |} : rmix nat nat).
  assert (D : distribution 1 [1/2; 1/2]).
  { split; [reflexivity|]. split; [intros x [<-|[<-|[]]]; lra|cbn; field]. }
  assert (X : forall ps, 0 < ps < 1 -> exists s', cp_correct (ex_c ps (1/2) 1 ex_birth) [] (ex_s 1 [1/2; 1/2] g) = Ok s' /\
     nth 0 (cp_card s') 0 = 1 / (2 - ps) /\ nth 0 (rm_w (cp_mix s')) 0 = 1 / (2 * (2 - ps))).
  { intros ps Hps. unfold cp_correct. cbn [k_gating ex_c bind ex_s cp_max cp_card cp_mix].
    rewrite (correct_density_val (ex_c ps (1/2) 1 ex_birth) 1 [1/2; 1/2] [] g); try (cbn; lra).
    - cbn [bind]. match goal with |- context [argmaxR ?l] => destruct (argmaxR l) as [h|e] eqn:Eh end; [|cbn in Eh; discriminate].
      cbn [bind]. eexists. split; [reflexivity|]. cbn [cp_card cp_mix rm_w seq map nth].
      unfold cphd_weights, cphd_card, inner, upsilon, xi_of, sum_ab, lik, prob_death.
      cbn [g rm_w map seq length Nat.min Nat.sub rsum fold_right Nat.leb Nat.add fact Nat.mul INR pow nth esym app k_ps k_pd k_rate k_den ex_c].
      pose proof (exp_pos (Ropp 1)). pose proof (Rmult_lt_0_compat _ (1 - ps) H ltac:(lra)). split; field; nz.
    - exact esf_ref_ok.
    - split; reflexivity.
    - discriminate.
    - intros x [<-|[]]; lra.
    - intros q x [].
    - exact D. }
  destruct (X (1/2) ltac:(lra)) as (s1 & E1 & C1 & W1). destruct (X (1/4) ltac:(lra)) as (s2 & E2 & C2 & W2).
  exists (1/2), (1/4), (ex_s 1 [1/2; 1/2] g), s1, s2, []. split; [lra|]. split; [lra|]. split; [exact D|].
  split; [exact E1|]. split; [exact E2|]. rewrite C1, C2, W1, W2. lra.
Qed.
(** What correct computes: the textbook CPHD update with 1 - prob_survive in
    the place of the probability of a missed detection (the leading factor
    1 - pd of the missed components is right). *)
Theorem C45_cphd_correct_actual : forall {V M Meas} (c : ccfg V M Meas) s meas s',
  esf_ok (k_esf c) -> 0 < k_ps c < 1 -> 0 <= k_pd c <= 1 -> 0 < k_rate c -> 0 < k_den c -> k_gating c = false ->
  (forall z m p, 0 <= snd (k_fcorr c z m p)) ->
  raligned (cp_mix s) -> rnonneg (cp_mix s) -> 0 < rsum (rm_w (cp_mix s)) -> distribution (cp_max s) (cp_card s) ->
  cp_correct c meas s = Ok s' ->
  let w := rm_w (cp_mix s) in
  let L := map (fun z => map (fun mp => snd (k_fcorr c z (fst mp) (snd mp))) (combine (rm_m (cp_mix s)) (rm_p (cp_mix s)))) meas in
  rm_w (cp_mix s') = cphd_weights (k_rate c) (k_den c) (k_pd c) (1 - k_ps c) (cp_max s) (cp_card s) w L /\
  cp_card s' = map (cphd_card (k_rate c) (k_den c) (k_pd c) (1 - k_ps c) (cp_max s) (cp_card s) w L) (seq 0 (S (cp_max s))).
Proof.
  intros V M Meas c s meas s' He Hps Hpd Hr Hd Hg Hl Ha Hn Ht Hdist H w L. unfold cp_correct in H. rewrite Hg in H. cbn [bind] in H.
  assert (Hne : rm_w (cp_mix s) <> []) by (intros E; rewrite E in Ht; cbn in Ht; lra).
  rewrite (correct_density_val c (cp_max s) (cp_card s) meas (cp_mix s)) in H; try assumption; try lra.
  - cbn [bind] in H. apply bind_ok in H. destruct H as [h [_ H]]. injection H as <-. cbn [cp_mix cp_card rm_w].
    assert (EL : lik c (cp_mix s) meas = L).
    { unfold lik, L, qz_of, corr_all. apply map_ext. intros z. rewrite map_map. reflexivity. }
    rewrite EL. split; reflexivity.
  - intros q x Hq Hx. unfold lik in Hq. apply in_map_iff in Hq. destruct Hq as [z [<- _]].
    unfold qz_of, corr_all in Hx. rewrite map_map in Hx. apply in_map_iff in Hx. destruct Hx as [mp [<- _]]. apply Hl.
Qed.

(** C75 is false: a corrected component does not carry the covariance the inner
    filter computed for its measurement, but the one for the last measurement. *)
Definition ex_g1 : rmix nat nat := {| rm_w := [1]; rm_m := [0%nat]; rm_p := [0%nat] |}.
Theorem C75_cphd_covariance_refuted : exists s',
  cp_correct (ex_c (1/2) (1/2) 1 ex_birth) [5; 7]%nat (ex_s 1 [1/2; 1/2] ex_g1) = Ok s' /\
  rm_m (cp_mix s') = [0; 5; 7]%nat /\ rm_p (cp_mix s') = [0; 7; 7]%nat /\
  snd (fst (k_fcorr (ex_c (1/2) (1/2) 1 ex_birth) 5%nat 0%nat 0%nat)) = 5%nat.
Proof.
  assert (D : distribution 1 [1/2; 1/2]).
  { split; [reflexivity|]. split; [intros x [<-|[<-|[]]]; lra|cbn; field]. }
  unfold cp_correct. cbn [k_gating ex_c bind ex_s cp_max cp_card cp_mix].
  rewrite (correct_density_val (ex_c (1/2) (1/2) 1 ex_birth) 1 [1/2; 1/2] [5; 7]%nat ex_g1); try (cbn; lra).
  - cbn [bind]. match goal with |- context [argmaxR ?l] => destruct (argmaxR l) as [h|e] eqn:Eh end; [|cbn in Eh; discriminate].
    cbn [bind]. eexists. split; [reflexivity|]. repeat split.
  - exact esf_ref_ok.
  - split; reflexivity.
  - discriminate.
  - intros x [<-|[]]; lra.
  - intros q x Hq Hx. destruct Hq as [<-|[<-|[]]]; destruct Hx as [<-|[]]; cbn; lra.
  - exact D.
Qed.
(** It holds for inner filters whose covariance does not depend on the
    measurement (the Kalman filter). *)
Theorem C75_cphd_components_partial : forall {V M Meas} (c : ccfg V M Meas) s meas s',
  esf_ok (k_esf c) -> 0 < k_ps c < 1 -> 0 <= k_pd c <= 1 -> 0 < k_rate c -> 0 < k_den c -> k_gating c = false ->
  (forall z m p, 0 <= snd (k_fcorr c z m p)) ->
  raligned (cp_mix s) -> rnonneg (cp_mix s) -> 0 < rsum (rm_w (cp_mix s)) -> distribution (cp_max s) (cp_card s) ->
  (forall z z' m p, snd (fst (k_fcorr c z m p)) = snd (fst (k_fcorr c z' m p))) ->
  cp_correct c meas s = Ok s' ->
  let comps := combine (rm_m (cp_mix s)) (rm_p (cp_mix s)) in
  rm_m (cp_mix s') = rm_m (cp_mix s) ++ flat_map (fun z => map (fun mp => fst (fst (k_fcorr c z (fst mp) (snd mp)))) comps) meas /\
  rm_p (cp_mix s') = rm_p (cp_mix s) ++ flat_map (fun z => map (fun mp => snd (fst (k_fcorr c z (fst mp) (snd mp)))) comps) meas.
Proof.
  intros V M Meas c s meas s' He Hps Hpd Hr Hd Hg Hl Ha Hn Ht Hdist Hcov H comps. unfold cp_correct in H. rewrite Hg in H. cbn [bind] in H.
  assert (Hne : rm_w (cp_mix s) <> []) by (intros E; rewrite E in Ht; cbn in Ht; lra).
  rewrite (correct_density_val c (cp_max s) (cp_card s) meas (cp_mix s)) in H; try assumption; try lra.
  - cbn [bind] in H. apply bind_ok in H. destruct H as [h [_ H]]. injection H as <-. cbn [cp_mix rm_m rm_p].
    split; f_equal.
    + apply flat_map_ext. intros z. unfold corr_all. rewrite map_map. reflexivity.
    + destruct meas as [|z0 meas']; [reflexivity|].
      assert (HL : forall l d, (l : list (list (V * M * R))) <> [] -> In (last l d) l).
      { clear. induction l as [|a l IH]; intros d Hne; [contradiction|]. destruct l as [|b l]; [left; reflexivity|].
        right. apply IH. discriminate. }
      specialize (HL (map (corr_all c (cp_mix s)) (z0 :: meas')) [] ltac:(discriminate)).
      apply in_map_iff in HL. destruct HL as [zl [EL _]]. rewrite <- EL. apply flat_map_ext. intros z.
      unfold corr_all. rewrite map_map. apply map_ext. intros mp. apply Hcov.
  - intros q x Hq Hx. unfold lik in Hq. apply in_map_iff in Hq. destruct Hq as [z [<- _]].
    unfold qz_of, corr_all in Hx. rewrite map_map in Hx. apply in_map_iff in Hx. destruct Hx as [mp [<- _]]. apply Hl.
Qed.

(** C76 is false: with clutter_rate = 0 (the class default) every correction is
    nan (or fails). *)
Lemma ups_zero_rate {V M Meas} (c : ccfg V M Meas) tot zl es nn jj y : k_rate c = 0 ->
  ups_term c tot 0 zl es nn jj = Ok y -> (jj < zl)%nat /\ y = 0.
Proof.
  intros Hr H. unfold ups_term in H. rewrite Hr, llog_zero in H.
  destruct (zl - jj)%nat as [|k] eqn:Ek.
  - cbn [lmul Nat.eqb ladd lexp bind] in H. discriminate.
  - split; [lia|]. cbn [lmul Nat.eqb ladd] in H.
    destruct (lmul (nn - (jj + 0)) (llog (prob_death c))) as [x| |]; cbn [ladd lexp bind] in H;
    destruct (lmulneg (jj + 0) (llog tot)) as [x'| |]; cbn [ladd lexp bind] in H; try discriminate; injection H as <-; ring.
Qed.
Theorem C76_cphd_no_clutter_refuted : forall {V M Meas} (c : ccfg V M Meas) s meas,
  k_rate c = 0 -> exists e, cp_correct c meas s = Err e.
Proof.
  intros V M Meas c s meas Hr. destruct (cp_correct c meas s) as [s'|e] eqn:E; [exfalso|exists e; reflexivity].
  apply bind_ok in E. destruct E as [ms [_ E]]. apply bind_ok in E. destruct E as [[g rho] [E _]].
  unfold correct_density in E. destruct (negb _); [discriminate|]. destruct (rm_m (cp_mix s)); [discriminate|]. cbn zeta in E.
  apply bind_ok in E. destruct E as [pdc [_ E]]. apply bind_ok in E. destruct E as [u0 [Hu0 E]].
  apply bind_ok in E. destruct E as [u1 [_ E]]. apply bind_ok in E. destruct E as [uD [_ E]].
  apply bind_ok in E. destruct E as [r1 [Hr1 _]]. apply rdiv_ok in Hr1. destruct Hr1 as [Hn _]. apply Hn.
  assert (Z : forall x, In x u0 -> x = 0).
  { intros x Hx. destruct (mapM_in _ _ _ _ Hu0 Hx) as [n [_ En]]. apply bind_ok in En. destruct En as [ys [Hys En]]. injection En as <-.
    assert (G : forall y, In y ys -> y = 0).
    { intros y Hy. destruct (mapM_in _ _ _ _ Hys Hy) as [j [_ Ej]]. apply ups_zero_rate in Ej; [tauto|exact Hr]. }
    clear - G. induction ys as [|y ys IH]; [reflexivity|]. rewrite rsum_cons, (G y) by (left; reflexivity).
    rewrite IH by (intros y' Hy'; apply G; right; exact Hy'). ring. }
  unfold dot. clear - Z. generalize (cp_card s). induction u0 as [|x u0 IH]; intros rho; [reflexivity|]. destruct rho as [|r rho]; [reflexivity|].
  cbn [combine map]. rewrite rsum_cons. cbn [fst snd]. rewrite (Z x) by (left; reflexivity).
  rewrite IH by (intros y Hy; apply Z; right; exact Hy). ring.
Qed.

(** C77: the predicted mixture: survivors (weights times ps, propagated), then
    the birth components in order; and nothing else of the object but the
    cardinality distribution changes. *)
Theorem C77_cphd_predict_mixture : forall {V M Meas} (c : ccfg V M Meas) s s',
  raligned (cp_mix s) -> cp_predict c s = Ok s' ->
  let g := cp_mix s in
  rm_w (cp_mix s') = map (fun x => k_ps c * x) (rm_w g) ++ flat_map rm_w (k_birth c) /\
  rm_m (cp_mix s') = map (fun mp => fst (k_fpred c (fst mp) (snd mp))) (combine (rm_m g) (rm_p g)) ++ flat_map rm_m (k_birth c) /\
  rm_p (cp_mix s') = map (fun mp => snd (k_fpred c (fst mp) (snd mp))) (combine (rm_m g) (rm_p g)) ++ flat_map rm_p (k_birth c) /\
  cp_states s' = cp_states s /\ cp_covs s' = cp_covs s /\ cp_agents s' = cp_agents s /\ cp_meas s' = cp_meas s /\ cp_hist s' = cp_hist s.
Proof.
  intros V M Meas c s s' Ha H g. apply bind_ok in H. destruct H as [rho [_ H]]. injection H as <-. cbn [cp_mix cp_states cp_covs cp_agents cp_meas cp_hist].
  assert (F : forall l (a : rmix V M), rm_w (fold_left rm_app l a) = rm_w a ++ flat_map rm_w l /\
    rm_m (fold_left rm_app l a) = rm_m a ++ flat_map rm_m l /\ rm_p (fold_left rm_app l a) = rm_p a ++ flat_map rm_p l).
  { induction l as [|b l IH]; intros a; cbn [fold_left flat_map]; [rewrite !app_nil_r; repeat split|].
    destruct (IH (rm_app a b)) as (A & B & D). rewrite A, B, D. cbn. rewrite !app_assoc. repeat split. }
  unfold pred_mix. match goal with |- context [fold_left rm_app ?l ?a] => destruct (F l a) as (A & B & D) end.
  rewrite A, B, D. cbn [rm_w rm_m rm_p]. rewrite !map_map. repeat split.
Qed.
(** C78: gating: correct with gating is correct of the gated measurements, and
    the gated measurements are what is recorded. *)
Theorem C78_cphd_gating : forall {V M Meas} (c c0 : ccfg V M Meas) s meas ms s',
  k_gating c = true -> k_gate c meas (cp_mix s) = Ok ms ->
  c0 = {| k_fpred := k_fpred c; k_fcorr := k_fcorr c; k_ps := k_ps c; k_pd := k_pd c; k_birth := k_birth c; k_rate := k_rate c;
          k_den := k_den c; k_esf := k_esf c; k_gating := false; k_gate := k_gate c; k_save_covs := k_save_covs c |} ->
  (cp_correct c meas s = Ok s' <-> cp_correct c0 ms s = Ok s') /\
  (cp_correct c meas s = Ok s' -> cp_meas s' = cp_meas s ++ [ms]).
Proof.
  intros V M Meas c c0 s meas ms s' Hg Hm ->. unfold cp_correct. cbn [k_gating]. rewrite Hg, Hm. cbn [bind]. split; [reflexivity|].
  intros H. apply bind_ok in H. destruct H as [[g rho] [_ H]]. apply bind_ok in H. destruct H as [h [_ H]]. injection H as <-. reflexivity.
Qed.

Print Assumptions C41_cphd_distribution.
Print Assumptions C41_cphd_predict_total.
Print Assumptions C41_cphd_correct_total.
Print Assumptions C42_cphd_binomial_refuted.
Print Assumptions C42_cphd_factorial_refuted.
Print Assumptions C42_cphd_predict_partial.
Print Assumptions C43_cphd_certain_survival_refuted.
Print Assumptions C43_cphd_no_births_refuted.
Print Assumptions C44_cphd_extract.
Print Assumptions C45_cphd_correct_survival_refuted.
Print Assumptions C45_cphd_correct_actual.
Print Assumptions C75_cphd_covariance_refuted.
Print Assumptions C75_cphd_components_partial.
Print Assumptions C76_cphd_no_clutter_refuted.
Print Assumptions C77_cphd_predict_mixture.
Print Assumptions C78_cphd_gating.

(** Instances of the hypotheses: a run that predicts and then corrects. *)
Example C41_ex : exists s, crun (ex_c (1/2) (1/2) 1 ex_birth) (fun ws => seq 0 (length ws))
  [CPredict; CCorrect [3%nat]] (cphd_new 2) = Ok s.
Proof.
  cbn [crun cstep].
  destruct (C41_cphd_predict_total (ex_c (1/2) (1/2) 1 ex_birth) (cphd_new 2) 1) as (s1 & E1 & M1 & D1);
    [cbn; lra|apply ex_birth_sum|lra|cbn; lia|apply init_card_dist|].
  assert (Em : cp_mix s1 = pred_mix (ex_c (1/2) (1/2) 1 ex_birth) {| rm_w := []; rm_m := []; rm_p := [] |}).
  { unfold cp_predict in E1. apply bind_ok in E1. destruct E1 as [rho [_ E1]]. injection E1 as <-. reflexivity. }
  destruct (C41_cphd_correct_total (ex_c (1/2) (1/2) 1 ex_birth) s1 [3%nat]) as (s2 & E2 & _);
    [exact esf_ref_ok|cbn; lra..|reflexivity|intros; cbn; lra| | | |exact D1|].
  - rewrite Em. split; reflexivity.
  - rewrite Em. intros x [<-|[]]. lra.
  - rewrite Em. cbn [pred_mix fold_left ex_c k_birth ex_birth rm_app rm_w map app rsum fold_right cphd_new cp_mix]. lra.
  - exists s2. rewrite E1. cbn [bind]. rewrite E2. reflexivity.
Qed.
Example C42_ex : distribution 2 [1/2; 1/2; 0] /\ forall i, (2 <= i)%nat -> nth i [1/2; 1/2; 0] 0 = 0.
Proof.
  split; [split; [reflexivity|split; [intros x [<-|[<-|[<-|[]]]]; lra|cbn; field]]|].
  intros [|[|[|i]]] Hi; try lia; [reflexivity|destruct i; reflexivity].
Qed.
(** A sorting function meeting the contract exists for any list (insertion of indices). *)
Fixpoint ins (ws : list R) (i : nat) (l : list nat) : list nat :=
  match l with [] => [i] | j :: l' => if Rle_dec (nth i ws 0) (nth j ws 0) then i :: j :: l' else j :: ins ws i l' end.
Definition sort_ref (ws : list R) : list nat := fold_right (ins ws) [] (seq 0 (length ws)).
Example C44_ex : rsorts sort_ref.
Proof.
  intros ws. unfold sort_ref.
  assert (P1 : forall i l, Permutation (ins ws i l) (i :: l)).
  { intros i l. induction l as [|j l IH]; [apply Permutation_refl|]. cbn. destruct (Rle_dec _ _); [apply Permutation_refl|].
    eapply perm_trans; [apply perm_skip, IH|apply perm_swap]. }
  assert (P : forall l, Permutation (fold_right (ins ws) [] l) l).
  { induction l as [|i l IH]; [apply Permutation_refl|]. cbn. eapply perm_trans; [apply P1|apply perm_skip, IH]. }
  split; [apply P|].
  assert (S1 : forall i l, Sorted.StronglySorted (fun a b => nth a ws 0 <= nth b ws 0) l ->
                 Sorted.StronglySorted (fun a b => nth a ws 0 <= nth b ws 0) (ins ws i l)).
  { intros i l H. induction H as [|j l Hl IH Hj]; [repeat constructor|]. cbn. destruct (Rle_dec _ _) as [Hle|Hle].
    - constructor; [constructor; assumption|]. constructor; [exact Hle|]. eapply Forall_impl; [|exact Hj]. cbn. intros a Ha. lra.
    - constructor; [exact IH|]. eapply Permutation_Forall; [symmetry; apply P1|]. constructor; [lra|exact Hj]. }
  assert (S : forall l, Sorted.StronglySorted (fun a b => nth a ws 0 <= nth b ws 0) (fold_right (ins ws) [] l)).
  { induction l as [|i l IH]; [constructor|]. cbn. apply S1, IH. }
  specialize (S (seq 0 (length ws))). intros i j Hij.
  assert (L : length (fold_right (ins ws) [] (seq 0 (length ws))) = length ws) by (rewrite (Permutation_length (P _)), seq_length; reflexivity).
  rewrite <- L in Hij. clear L. revert i j Hij. induction S as [|a l Hl IH Ha]; intros i j Hij; [cbn in Hij; lia|].
  destruct j as [|j]; [lia|]. destruct i as [|i].
  - cbn [nth]. cbn in Hij. rewrite Forall_forall in Ha. apply Ha, nth_In. lia.
  - cbn [nth]. cbn in Hij. apply IH. lia.
Qed.
Example C45_ex : raligned ex_g1 /\ rnonneg ex_g1 /\ 0 < rsum (rm_w ex_g1).
Proof. split; [split; reflexivity|]. split; [intros x [<-|[]]; lra|cbn; lra]. Qed.
