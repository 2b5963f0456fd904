(** C75: exactly which components a CPHD correction produces. *)
From Verif Require Import Base Lists.
From Coq Require Import Reals Lra Lia.
From Verif Require Import OspaModel CphdModel OspaProofs CphdSpec CphdProofs CphdProps.
Open Scope R_scope.

(** After the unchanged missed-detection components there follow, measurement
    by measurement, the means of the inner filter for that measurement, all
    with the covariances of the LAST measurement. *)
Theorem C75_cphd_components_exact : forall {V M Meas} (c : ccfg V M Meas) s meas s',
  esf_ok (k_esf c) -> 0 < k_ps c < 1 -> 0 <= k_pd c <= 1 -> 0 < k_rate c -> 0 < k_den c -> k_gating c = false ->
  (forall z m p, 0 <= snd (k_fcorr c z m p)) ->
  raligned (cp_mix s) -> rnonneg (cp_mix s) -> 0 < rsum (rm_w (cp_mix s)) -> distribution (cp_max s) (cp_card s) ->
  cp_correct c meas s = Ok s' ->
  let comps := combine (rm_m (cp_mix s)) (rm_p (cp_mix s)) in
  rm_m (cp_mix s') = rm_m (cp_mix s) ++ flat_map (fun z => map (fun mp => fst (fst (k_fcorr c z (fst mp) (snd mp)))) comps) meas /\
  rm_p (cp_mix s') = rm_p (cp_mix s) ++ flat_map (fun z => map (fun mp => snd (fst (k_fcorr c (last meas z) (fst mp) (snd mp)))) comps) meas.
Proof.
  intros V M Meas c s meas s' He Hps Hpd Hr Hd Hg Hl Ha Hn Ht Hdist H comps. unfold cp_correct in H. rewrite Hg in H. cbn [bind] in H.
  assert (Hne : rm_w (cp_mix s) <> []) by (intros E; rewrite E in Ht; cbn in Ht; lra).
  rewrite (correct_density_val c (cp_max s) (cp_card s) meas (cp_mix s)) in H; try assumption; try lra.
  - cbn [bind] in H. apply bind_ok in H. destruct H as [h [_ H]]. injection H as <-. cbn [cp_mix rm_m rm_p].
    split; f_equal.
    + apply flat_map_ext. intros z. unfold corr_all. rewrite map_map. reflexivity.
    + destruct meas as [|z0 meas']; [reflexivity|].
      assert (HL : forall z, last (map (corr_all c (cp_mix s)) (z0 :: meas')) [] = corr_all c (cp_mix s) (last (z0 :: meas') z)).
      { intro z. clear. revert z0. induction meas' as [|z1 l IH]; intro z0; [reflexivity|].
        change (last (map (corr_all c (cp_mix s)) (z1 :: l)) [] = corr_all c (cp_mix s) (last (z1 :: l) z)). apply IH. }
      apply flat_map_ext. intros z. rewrite (HL z). unfold corr_all. rewrite map_map. reflexivity.
  - intros q x Hq Hx. unfold lik in Hq. apply in_map_iff in Hq. destruct Hq as [z [<- _]].
    unfold qz_of, corr_all in Hx. rewrite map_map in Hx. apply in_map_iff in Hx. destruct Hx as [mp [<- _]]. apply Hl.
Qed.
(** The run of the counterexample meets the hypotheses. *)
Example C75_exact_ex : exists s', cp_correct (ex_c (1/2) (1/2) 1 ex_birth) [5; 7]%nat (ex_s 1 [1/2; 1/2] ex_g1) = Ok s' /\
  esf_ok (k_esf (ex_c (1/2) (1/2) 1 ex_birth)) /\ distribution 1 [1/2; 1/2] /\ raligned ex_g1 /\ rnonneg ex_g1 /\ 0 < rsum (rm_w ex_g1).
Proof.
  destruct C75_cphd_covariance_refuted as [s' [H _]]. exists s'. split; [exact H|]. split; [exact esf_ref_ok|].
  split; [split; [reflexivity|]; split; [intros x [<-|[<-|[]]]; lra|cbn; field]|]. split; [split; reflexivity|]. split; [intros x [<-|[]]; lra|cbn; lra].
Qed.
Print Assumptions C75_cphd_components_exact.
