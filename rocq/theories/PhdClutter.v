(** The PHD correction without clutter (C142): exactly when it is defined. *)
From Verif Require Import Base Lists PhdModel PhdSpec PhdProofs PhdProps.
From Coq Require Import Permutation Lqa.

(** C142: with aligned lists, correct returns normally exactly when the mixture is
    empty or, for every (gated) measurement z, the denominator kappa +
    sum_i pd w_i q_i(z) is not 0. *)
Theorem C142_phd_correct_iff_partial : forall (Meas : Type) (c : cfg Meas) g meas, aligned g -> c_gating c = false ->
  (exists r, correct c meas g = Ok r) <->
  (gm_w g = [] \/ forall z, In z meas -> ~ (c_kappa c + sum_over (seq 0 (length (gm_w g))) (fun i => snd (fcorrect (c_filter c) z (Mn g i) (P g i)) * (c_pd c * W g i)) == 0)%Q).
Proof.
  intros Meas c g meas Ha G. unfold correct. rewrite G. cbn [bind]. split.
  - intros [r E]. apply bind_ok in E as [gm [E _]]. destruct (gm_w g) as [|w ws] eqn:Ew; [left; reflexivity|]. right. rewrite <- Ew in *.
    destruct (correct_density_spec c g meas gm Ha E) as [_ [_ [_ D]]]. apply D. rewrite Ew. discriminate.
  - intros [E|H].
    + assert (X : exists gm, correct_density c meas g = Ok gm).
      { destruct Ha as [_ [H1 H2]]. rewrite E in H1, H2. destruct (gm_m g) as [|] eqn:Em; [|discriminate].
        induction meas as [|z zs [gm IH]]; cbn [correct_density]; [eauto|]. rewrite Em. cbn [correct_one bind map normalise]. rewrite IH. cbn [bind]. eauto. }
      destruct X as [gm ->]. cbn [bind]. eauto.
    + destruct (correct_density_total c g meas Ha H) as [gm ->]. cbn [bind]. eauto.
Qed.
(** ... false without clutter (the class default clutter_rate = 0), whenever no
    component explains some measurement (all likelihoods 0, or pd = 0). *)
Theorem C142_phd_no_clutter_refuted : forall (Meas : Type) (c : cfg Meas) g meas z, aligned g -> c_gating c = false ->
  gm_w g <> [] -> In z meas -> (c_kappa c == 0)%Q ->
  (forall i, i < length (gm_w g) -> (snd (fcorrect (c_filter c) z (Mn g i) (P g i)) * (c_pd c * W g i) == 0)%Q) ->
  exists e, correct c meas g = Err e.
Proof.
  intros Meas c g meas z Ha G Hne Hz Hk H0. destruct (correct c meas g) as [r|e] eqn:E; [|eauto]. exfalso.
  destruct (proj1 (C142_phd_correct_iff_partial Meas c g meas Ha G) (ex_intro _ r E)) as [X|X]; [contradiction|].
  apply (X z Hz). assert (Y : (sum_over (seq 0 (length (gm_w g))) (fun i => snd (fcorrect (c_filter c) z (Mn g i) (P g i)) * (c_pd c * W g i)) == 0)%Q).
  { apply qs_zero. intros i Hi. apply in_seq in Hi. apply H0. lia. }
  lra.
Qed.
(** With clutter 0 but a positive likelihood everywhere (exact Gaussian
    densities), pd > 0 and positive total weight it is defined. *)
Theorem C142_phd_no_clutter_partial : forall (Meas : Type) (c : cfg Meas) g meas, aligned g -> nonneg g -> c_gating c = false ->
  (0 <= c_kappa c)%Q -> (0 < c_pd c)%Q -> (0 < total g)%Q -> (forall z m p, (0 < snd (fcorrect (c_filter c) z m p))%Q) ->
  exists r, correct c meas g = Ok r.
Proof.
  intros Meas c g meas Ha Hn G Hk Hp Ht Hl. apply (C142_phd_correct_iff_partial Meas c g meas Ha G). right. intros z Hz E.
  set (f := fun i => (snd (fcorrect (c_filter c) z (Mn g i) (P g i)) * (c_pd c * W g i))%Q) in E.
  assert (Wn : forall i, i < length (gm_w g) -> (0 <= W g i)%Q) by (intros i Hi; apply Hn, nth_In, Hi).
  assert (Fn : forall i, i < length (gm_w g) -> (0 <= f i)%Q).
  { intros i Hi. unfold f. apply Qmult_le_0_compat; [apply Qlt_le_weak, Hl|]. apply Qmult_le_0_compat; [apply Qlt_le_weak, Hp|apply Wn, Hi]. }
  assert (S0 : (sum_over (seq 0 (length (gm_w g))) f == 0)%Q).
  { assert (0 <= sum_over (seq 0 (length (gm_w g))) f)%Q; [|lra]. apply qs_nonneg. intros x Hx. apply in_map_iff in Hx as [i [<- Hi]]. apply in_seq in Hi. apply Fn. lia. }
  assert (Z : forall i, i < length (gm_w g) -> (W g i == 0)%Q).
  { assert (K : forall l, (forall i, In i l -> (0 <= f i)%Q) -> (qsum (map f l) == 0)%Q -> forall i, In i l -> (f i == 0)%Q).
    { clear. induction l as [|a l IH]; intros Hf Hs i Hi; [destruct Hi|]. cbn [map] in Hs. rewrite qs_cons in Hs.
      assert (0 <= qsum (map f l))%Q by (apply qs_nonneg; intros x Hx; apply in_map_iff in Hx as [j [<- Hj]]; apply Hf; right; exact Hj).
      pose proof (Hf a (or_introl eq_refl)). destruct Hi as [<-|Hi]; [lra|]. apply IH; [intros j Hj; apply Hf; right; exact Hj|lra|exact Hi]. }
    intros i Hi. assert (F0 := K (seq 0 (length (gm_w g))) (fun j Hj => Fn j (proj2 (proj1 (in_seq _ _ _) Hj))) S0 i ltac:(apply in_seq; lia)).
    unfold f in F0. apply Qmult_integral in F0 as [F0|F0]; [pose proof (Hl z (Mn g i) (P g i)); lra|]. apply Qmult_integral in F0 as [F0|F0]; [lra|exact F0]. }
  assert (T0 : (total g == 0)%Q); [|lra]. unfold total. rewrite <- (map_nth_seq (gm_w g) 0%Q). apply qs_zero. intros i Hi. apply in_seq in Hi. apply Z. lia.
Qed.
Print Assumptions C142_phd_correct_iff_partial.
Print Assumptions C142_phd_no_clutter_refuted.
Print Assumptions C142_phd_no_clutter_partial.
(** Instances: a measurement no component explains; one that is explained. *)
Definition nc_cfg (q : Q) : cfg nat :=
  {| c_filter := {| fpredict := fun m p => (m, p); fcorrect := fun _ m p => (m, p, q) |};
     c_pd := 9 # 10; c_ps := 1; c_birth := []; c_kappa := 0; c_extract := 1 # 2; c_prune := 1 # 100; c_merge := 4;
     c_max := 10; c_gating := false; c_save_covs := true; c_dim := 1; c_inv := fun p => Ok p; c_gate := fun m _ => Ok m |}.
Example C142_ex : aligned ex_mix /\ nonneg ex_mix /\ (0 < total ex_mix)%Q /\ correct (nc_cfg 0) [5] ex_mix = Err NanErr /\ exists r, correct (nc_cfg (1 # 3)) [5] ex_mix = Ok r.
Proof. split; [repeat split|]. split; [intros x [<-|[<-|[]]]; discriminate|]. split; [reflexivity|]. split; [vm_compute; reflexivity|]. eexists. vm_compute. reflexivity. Qed.
