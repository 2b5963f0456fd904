(** Merging depends on the order of the measurements (C197). *)
From Verif Require Import Base Lists PhdModel PhdSpec PhdProofs.
From Coq Require Import QArith Permutation.

(** A filter on the line: one birth at 0; a correction moves the component to the
    measurement; every object is detected, no clutter; components within distance 1
    are merged. *)
Definition line_cfg : cfg Q :=
  {| c_filter := {| fpredict := fun m p => (m, p); fcorrect := fun z m p => (fun _ => z, p, 1%Q) |};
     c_pd := 1; c_ps := 1; c_birth := [{| gm_w := [1%Q]; gm_m := [fun _ => 0%Q]; gm_p := [fun _ _ => 1%Q] |}]; c_kappa := 0;
     c_extract := (1 # 2); c_prune := (1 # 10); c_merge := 1; c_max := 10%nat; c_gating := false; c_save_covs := true; c_dim := 1%nat;
     c_inv := fun p => if Qeq_bool (p 0%nat 0%nat) 0 then Err ValueErr else Ok (fun _ _ => / p 0%nat 0%nat)%Q;
     c_gate := fun ms _ => Ok ms |}.
(** predict, correct and the default cleanup, for two orders of the same scan. *)
Theorem C197_phd_measurement_order_refuted : forall argsort, exists s s',
  run line_cfg argsort [Predict; Correct [0; 1; 2]%Q; Cleanup true true true true] phd_init = Ok s /\
  run line_cfg argsort [Predict; Correct [1; 0; 2]%Q; Cleanup true true true true] phd_init = Ok s' /\
  length (gm_w (ph_mix s)) = 2%nat /\ length (gm_w (ph_mix s')) = 1%nat /\
  map (map (fun v => Qred (v 0%nat))) (ph_states s) = [[1 # 2; 1 # 2; 2]]%Q /\
  map (map (fun v => Qred (v 0%nat))) (ph_states s') = [[1; 1; 1]]%Q.
Proof.
  intros argsort. eexists. eexists. split; [vm_compute; reflexivity|]. split; [vm_compute; reflexivity|]. vm_compute. repeat split; reflexivity.
Qed.
Print Assumptions C197_phd_measurement_order_refuted.
