(** Theorems C64-C70 and C79-C87 about guidance.py. *)
From Verif Require Import Base Lists.
From Coq Require Import Reals Lra Lia Permutation.
From Verif Require Import OspaModel OspaProofs OspaMetric GuidModel GuidSpec GuidProofs.
Open Scope R_scope.

(** * C64 *)
Theorem C64_target_center means :
  (means = [] -> target_center means = Err IndexErr) /\
  (means <> [] -> exists c, target_center means = Ok c /\ forall i, c i = mean_of means i) /\
  (forall means' c, Permutation means means' -> target_center means = Ok c ->
     exists c', target_center means' = Ok c' /\ forall i, c' i = c i).
Proof.
  split; [now intros ->|]. split; [apply target_center_ok|].
  intros means' c Hp Hc. assert (Hn : means <> []) by (intros ->; discriminate).
  assert (Hn' : means' <> []) by (intros ->; apply Permutation_sym, Permutation_nil in Hp; easy).
  destruct (target_center_ok _ Hn) as [c1 [E1 H1]]. destruct (target_center_ok _ Hn') as [c2 [E2 H2]].
  exists c2. split; [exact E2|]. intro i. rewrite E1 in Hc. injection Hc as <-. rewrite H1, H2. symmetry. now apply mean_of_perm.
Qed.
Example C64_ex : exists c, target_center ([(fun _ => 1) : vec; (fun _ => 3) : vec; (fun _ => 8) : vec]) = Ok c /\ c 0%nat = 4.
Proof. eexists. split; [reflexivity|]. unfold vplus, vzero. cbn. lra. Qed.

(** * C65, C79, C80 *)
Theorem C65_targets_after_update_partial dim inv eig targets (new : list vec) (reset : bool) fuel : dim <> 1%nat -> (length (t_m targets) <= fuel)%nat ->
  let wanted := if reset then new else new ++ t_m targets in
  wanted <> [] ->
  exists list_after g, update_targets dim inv eig fuel false reset targets new = Ok (list_after, Ok g) /\
    t_m g = wanted /\ length (t_w g) = length wanted /\ length (t_p g) = length wanted /\
    (forall w, In w (t_w g) -> w = 1 / INR (length wanted)) /\ rsum (t_w g) = 1.
Proof.
  intros Hd Hf wanted Hw. unfold update_targets.
  assert (E : (if reset then Ok new else append_loop false fuel 0 (t_m targets) new) = Ok wanted).
  { unfold wanted. destruct reset; [reflexivity|]. rewrite append_loop_ok by lia. reflexivity. }
  rewrite E. cbn [bind].
  exists wanted, {| t_w := map (fun _ => 1 / INR (length wanted)) wanted; t_m := wanted;
                    t_p := map (wp_cov dim inv eig wanted) (seq 0 (length wanted)) |}.
  split.
  - f_equal. f_equal. unfold convert_waypoints. destruct wanted eqn:Ew; [easy|]. destruct (Nat.eqb_spec dim 1); [easy|reflexivity].
  - cbn [t_m t_w t_p]. split; [reflexivity|]. rewrite !map_length, seq_length. split; [reflexivity|]. split; [reflexivity|].
    split; [|now apply weights_sum]. intros w Hin. now apply in_map_iff in Hin as [? [<- _]].
Qed.
(** REFUTED: without reset the caller's list grows by the old targets. *)
Theorem C65_caller_list_changed_refuted dim inv eig targets new fuel : (length (t_m targets) <= fuel)%nat -> t_m targets <> [] ->
  exists r, update_targets dim inv eig fuel false false targets new = Ok (new ++ t_m targets, r) /\ new ++ t_m targets <> new.
Proof.
  intros Hf Hn. unfold update_targets. rewrite append_loop_ok by lia. cbn [bind skipn]. eexists. split; [reflexivity|].
  intro H. apply (f_equal (@length _)) in H. rewrite app_length in H. destruct (t_m targets); [easy|]. cbn in H. lia.
Qed.
(** With reset the caller's list is left alone. *)
Theorem C65_reset_keeps_caller_list dim inv eig targets new fuel same :
  exists r, update_targets dim inv eig fuel same true targets new = Ok (new, r).
Proof. unfold update_targets. cbn [bind]. now eexists. Qed.
(** REFUTED termination: passing the filter's own list of target means never returns. *)
Theorem C79_own_list_diverges_refuted dim inv eig targets : t_m targets <> [] ->
  forall fuel, update_targets dim inv eig fuel true false targets (t_m targets) = Err OutOfFuel.
Proof.
  intros Hn fuel. unfold update_targets. rewrite append_loop_same; [reflexivity|]. destruct (t_m targets); [easy|cbn; lia].
Qed.
(** REFUTED: one-dimensional waypoints are never converted. *)
Theorem C80_one_dimensional_refuted inv eig wps : exists e, convert_waypoints 1 inv eig wps = Err e.
Proof. destruct wps; eexists; reflexivity. Qed.
Theorem C80_other_dimensions dim inv eig wps : dim <> 1%nat -> wps <> [] ->
  exists g, convert_waypoints dim inv eig wps = Ok g /\ t_m g = wps.
Proof. intros Hd Hw. destruct wps; [easy|]. unfold convert_waypoints. destruct (Nat.eqb_spec dim 1); [easy|]. now eexists. Qed.

(** * C81-C83: the covariances of wayareas *)
(** If la.eig returns orthonormal eigenvectors and la.inv an inverse, every
    covariance is symmetric positive semidefinite. *)
Theorem C81_wayarea_cov_psd dim inv eig wps g :
  (forall C, forall i j, (i < dim)%nat -> (j < dim)%nat -> rsumn dim (fun k => eig C k i * eig C k j) = if (i =? j)%nat then 1 else 0) ->
  (forall C, inverse_of dim (eig C) (inv (eig C))) ->
  convert_waypoints dim inv eig wps = Ok g -> forall P, In P (t_p g) -> psd dim P.
Proof.
  intros Ho Hi H P HP. unfold convert_waypoints in H. destruct wps as [|w0 wps]; [easy|]. destruct (dim =? 1)%nat; [easy|].
  injection H as <-. cbn [t_p] in HP. change (In P (map (wp_cov dim inv eig (w0 :: wps)) (seq 0 (length (w0 :: wps))))) in HP. apply in_map_iff in HP as [k [<- _]]. unfold wp_cov. apply congruence_psd.
  - intros a b Ha Hb. eapply inv_transpose; [apply Ho|apply Hi|assumption|assumption].
  - intros a _. apply proj_vals_nonneg.
Qed.
Definition idm : mat := fun i j => if (i =? j)%nat then 1 else 0.
Lemma idm_orth dim i j : (i < dim)%nat -> (j < dim)%nat -> rsumn dim (fun k => idm k i * idm k j) = if (i =? j)%nat then 1 else 0.
Proof.
  intros Hi Hj. unfold idm. now rewrite (rsumn_delta dim (fun k => if (k =? i)%nat then 1 else 0)), Nat.eqb_sym.
Qed.
Example C81_ex : (forall i j, (i < 3)%nat -> (j < 3)%nat -> rsumn 3 (fun k => idm k i * idm k j) = if (i =? j)%nat then 1 else 0)
  /\ inverse_of 3 idm idm.
Proof.
  split; [apply idm_orth|]. intros i j Hi Hj. rewrite <- (idm_orth 3) by assumption. apply rsumn_ext. intros k _. unfold idm. now rewrite (Nat.eqb_sym k i).
Qed.
(** REFUTED positive definiteness: a single waypoint gets the zero covariance. *)
Theorem C82_single_waypoint_singular_refuted dim inv eig w : dim <> 1%nat ->
  exists g P, convert_waypoints dim inv eig [w] = Ok g /\ t_p g = [P] /\ forall i j, P i j = 0.
Proof.
  intro Hd. unfold convert_waypoints. destruct (Nat.eqb_spec dim 1); [easy|]. eexists. eexists. split; [reflexivity|].
  cbn [t_p map length seq]. split; [reflexivity|]. intros i j. unfold wp_cov. rewrite mmul_diag.
  apply rsumn_zero. intros k Hk.
  assert (E : proj_vals dim (eig (data_cov (del_col 0 (combined_centers [w])))) (del_col 0 (map (fun e => vminus e (nth 0 (combined_centers [w]) vzero)) (combined_centers [w]))) k = 0).
  { unfold proj_vals, del_col, combined_centers. cbn [app map firstn skipn nth length fold_left].
    rewrite rsumn_zero; [rewrite Rabs_R0; destruct (Rlt_dec 0 0); lra|].
    intros a _. unfold vminus, vplus, vzero. cbn [INR]. field_simplify. lra. }
  rewrite E. ring.
Qed.

(** REFUTED orientation: the wayarea is not aligned with the principal axes of
    the other centres: the matrix of eigenvectors is transposed once too often.
    Waypoints (0,0) and (3,4): the only direction of spread is (3,4). *)
Definition wpA : vec := fun _ => 0.
Definition wpB : vec := fun i => match i with O => 3 | 1%nat => 4 | _ => 0 end.
Definition eigAB : mat := fun r c => match r, c with O, O => 3 / 5 | O, 1%nat => 4 / 5 | 1%nat, O => - (4 / 5) | 1%nat, 1%nat => 3 / 5 | _, _ => 0 end.
Definition invAB : mat := fun r c => eigAB c r.
Definition lamAB (r : nat) : R := match r with O => 25 / 16 | _ => 0 end.
Ltac two i := destruct i as [|[|i]]; [| |lia].
Theorem C83_wayarea_orientation_refuted :
  exists wps k V W lam, length wps = 2%nat /\ (k < 2)%nat /\
    eigen_rows 2 (data_cov (del_col k (combined_centers wps))) V lam /\ inverse_of 2 V W /\
    forall eig inv g, (forall C, eig C = V) -> (forall C, inv C = W) -> convert_waypoints 2 inv eig wps = Ok g ->
      exists P, nth_error (t_p g) k = Some P /\ ~ exists mu, forall i, (i < 2)%nat -> mapply 2 P (V 0%nat) i = mu * V 0%nat i.
Proof.
  exists [wpA; wpB], 0%nat, eigAB, invAB, lamAB. split; [reflexivity|]. split; [lia|]. split; [split; [|split]|split].
  - intros r i Hr Hi. two r; two i; unfold mapply, data_cov, del_col, combined_centers, wpA, wpB, vplus, vzero, eigAB, lamAB, rsum;
      cbn -[Rdiv Rplus Rminus Rmult Ropp]; field.
  - intros r s Hr Hs. two r; two s; unfold eigAB; cbn; field.
  - intros r s Hs. unfold lamAB. two s; two r; first [lra | exfalso; lia].
  - intros i j Hi Hj. two i; two j; unfold invAB, eigAB; cbn; field.
  - intros eig inv g He Hi Hg. unfold convert_waypoints in Hg. cbn [Nat.eqb] in Hg. injection Hg as <-. cbn [t_p map seq length nth_error].
    eexists. split; [reflexivity|]. intros [mu Hmu].
    assert (E : forall i, (i < 2)%nat -> proj_vals 2 eigAB (del_col 0 (map (fun e => vminus e (nth 0 (combined_centers [wpA; wpB]) vzero)) (combined_centers [wpA; wpB]))) i
                 = match i with O => 7 / 5 | _ => 24 / 5 end).
    { intros i Hlt. unfold proj_vals, del_col, combined_centers. cbn [app map firstn skipn nth length fold_left].
      unfold vminus, vplus, vzero, wpA, wpB. two i; unfold eigAB; cbn [rsumn INR]; replace (1 + 1) with 2 by ring.
      - rewrite (Rabs_left (0 + _ + _)) by lra. rewrite (Rabs_left (0 + _ + _)) by lra.
        destruct (Rlt_dec 0 _) as [_|N]; [|exfalso; apply N; lra]. destruct (Rlt_dec _ _) as [N|_]; [exfalso; lra|]. lra.
      - rewrite (Rabs_right (0 + _ + _)) by lra. rewrite (Rabs_right (0 + _ + _)) by lra.
        destruct (Rlt_dec 0 _) as [_|N]; [|exfalso; apply N; lra]. destruct (Rlt_dec _ _) as [N|_]; [exfalso; lra|]. lra. }
    assert (M : forall i, (i < 2)%nat -> mapply 2 (wp_cov 2 inv eig [wpA; wpB] 0) (eigAB 0) i =
      rsumn 2 (fun j => rsumn 2 (fun k => eigAB i k * (match k with O => 7 / 5 | _ => 24 / 5 end) * invAB k j) * eigAB 0 j)).
    { intros i Hlt. unfold mapply. apply rsumn_ext. intros j Hj. f_equal. unfold wp_cov. rewrite mmul_diag.
      apply rsumn_ext. intros k Hk. rewrite He, Hi, E by assumption. reflexivity. }
    assert (H0 := Hmu 0%nat ltac:(lia)). assert (H1 := Hmu 1%nat ltac:(lia)). rewrite M in H0, H1 by lia.
    unfold invAB, eigAB in H0, H1. cbn [rsumn] in H0, H1. lra.
Qed.

(** * C66 *)
Theorem C66_nearest_target dim goals state :
  (find_nearest_target dim goals state = None <-> goals = []) /\
  forall g, find_nearest_target dim goals state = Some g ->
    exists l1 l2, goals = l1 ++ g :: l2 /\
      (forall k, In k l1 -> edist dim state g < edist dim state k) /\ (forall k, In k goals -> edist dim state g <= edist dim state k).
Proof.
  unfold find_nearest_target. assert (H := nearest_from_spec dim state goals None). destruct (nearest_from dim state goals None) as [g|].
  - destruct H as [l1 [l2 [-> [H1 H2]]]]. split; [split; [easy|now destruct l1]|].
    intros g' E. injection E as <-. exists l1, l2. split; [reflexivity|]. split; [exact H1|].
    intros k Hk. apply in_app_iff in Hk as [Hk|[<-|Hk]]; [now apply Rlt_le, H1|lra|now apply H2].
  - split; [tauto|easy].
Qed.

(** * C67 *)
Lemma filter_all {A} (f : A -> bool) l : (forall x, f x = true) -> filter f l = l.
Proof. intro H. induction l as [|x l IH]; [reflexivity|]. cbn [filter]. now rewrite H, IH. Qed.
Theorem C67_initialize dim inv chi2_ppf h thresh gs mg dyn invd nin nom objs rest : (1 <= h)%nat ->
  initialize dim inv chi2_ppf h thresh gs mg dyn invd nin nom = Ok (objs, rest) ->
  length objs = length (t_m mg) /\
  (forall i o, nth_error objs i = Some o ->
     nth_error (g_means o) 0 = nth_error (t_m mg) i /\ Some (g_cov o) = nth_error (t_p mg) i /\ Some (g_w o) = nth_error (t_w mg) i /\
     length (g_means o) = h) /\
  exists src, length src = length objs /\
    greedy (length gs) (fun i j => mahal dim inv (nth i (t_m mg) vzero) (nth j gs g0)) (chi2_ppf thresh dim) src /\
    rest = map (fun j => nth j gs g0) (filter (fun j => negb (existsb (takes j) src)) (seq 0 (length gs))) /\
    (forall i j, nth_error src i = Some (Some j) -> exists o, nth_error objs i = Some o /\
       g_dyn o = g_dyn (nth j gs g0) /\ g_inv o = g_inv (nth j gs g0) /\ g_nom o = g_nom (nth j gs g0) /\
       forall k, (1 <= k < h - 1)%nat -> nth_error (g_means o) k = nth_error (g_means (nth j gs g0)) (S k)) /\
    (forall i, nth_error src i = Some None -> exists o, nth_error objs i = Some o /\
       g_means o = repeat (nth i (t_m mg) vzero) h /\ Some (g_dyn o) = nth_error dyn i /\ Some (g_inv o) = nth_error invd i).
Proof.
  intros Hh. unfold initialize. destruct (t_m mg) as [|m0 ms] eqn:Em.
  { intro H. injection H as <- <-. split; [reflexivity|]. split; [now intros [|i]|]. exists []. split; [reflexivity|].
    split; [intros i Hi; cbn in Hi; lia|]. split; [|split; now intros [|i]].
    rewrite (filter_all _ (seq 0 (length gs))); [|reflexivity].
    symmetry. apply map_nth_seq. }
  rewrite <- Em. intro H.
  assert (Hg : gs = map (fun j => nth j gs g0) (seq 0 (length gs))) by (symmetry; apply map_nth_seq).
  rewrite Hg in H at 1. apply init_loop_spec in H as [src [L1 [L2 [L3 L4]]]];
    [|apply seq_NoDup|intros j Hj; apply in_seq in Hj; lia].
  rewrite seq_length in L1, L2.
  assert (Hidx : forall i, (i < length (t_m mg))%nat -> nth_error (seq 0 (length (t_m mg))) i = Some i).
  { intros i Hi. rewrite nth_error_nth' with (d := 0%nat) by now rewrite seq_length. now rewrite seq_nth. }
  split; [exact L2|]. split.
  - intros i o Ho. assert (Hi : (i < length (t_m mg))%nat) by (rewrite <- L2; apply nth_error_Some; congruence).
    destruct (L4 i i (Hidx i Hi)) as [mean [cov [w [o' [M1 [M2 [M3 [M4 M5]]]]]]]]. rewrite Ho in M4. injection M4 as <-.
    rewrite M1, M2, M3. destruct (nth i src None) as [j|].
    + destruct M5 as [_ [_ [_ [first Hm]]]]. apply matched_fields in Hm. destruct Hm as [F1 [F2 [F3 [F4 [F5 _]]]]].
      now rewrite F2, F3, F4, F5.
    + destruct M5 as [_ [n [fs [is [un [-> _]]]]]]. cbn [fresh_obj g_means g_cov g_w]. rewrite repeat_length.
      destruct h; [lia|]. now cbn.
  - exists src. split; [now rewrite L1, L2|]. split; [|split; [exact L3|]].
    + intros i Hi. rewrite L1 in Hi. destruct (L4 i i (Hidx i Hi)) as [mean [cov [w [o' [M1 [M2 [M3 [M4 M5]]]]]]]].
      assert (Em' : nth i (t_m mg) vzero = mean) by now apply nth_error_nth. rewrite Em'.
      assert (Hf : forall j, mahal dim inv mean (nth j gs g0) = fitc dim inv mean (nth j gs g0)) by (intro; apply fitc_mahal).
      assert (Hav : forall j, available (length gs) src i j <-> avail_in (seq 0 (length gs)) src i j).
      { intro j. unfold available, avail_in. rewrite in_seq. cbn. intuition lia. }
      destruct (nth i src None) as [j|].
      * destruct M5 as [N1 [N2 [N3 _]]]. split; [now apply Hav|]. rewrite !Hf. split; [exact N2|]. intros j' Hj'. rewrite Hf. apply N3. now apply Hav.
      * destruct M5 as [N1 _]. intros j' Hj'. rewrite Hf. apply N1. now apply Hav.
    + split.
      * intros i j Hi. assert (Hlt : (i < length (t_m mg))%nat) by (rewrite <- L1; apply nth_error_Some; congruence).
        destruct (L4 i i (Hidx i Hlt)) as [mean [cov [w [o' [M1 [M2 [M3 [M4 M5]]]]]]]].
        rewrite (nth_error_nth _ _ _ Hi) in M5. destruct M5 as [_ [_ [_ [first Hm]]]]. apply matched_fields in Hm.
        exists o'. split; [exact M4|]. tauto.
      * intros i Hi. assert (Hlt : (i < length (t_m mg))%nat) by (rewrite <- L1; apply nth_error_Some; congruence).
        destruct (L4 i i (Hidx i Hlt)) as [mean [cov [w [o' [M1 [M2 [M3 [M4 M5]]]]]]]].
        rewrite (nth_error_nth _ _ _ Hi) in M5. destruct M5 as [_ [n [fs [is [un [-> [_ [H1 [H2 _]]]]]]]]].
        eexists. split; [exact M4|]. cbn [fresh_obj g_means g_dyn g_inv]. rewrite (nth_error_nth _ _ _ M1). now rewrite H1, H2.
Qed.

(** * C68 *)
Theorem C68_cost_closed_form dim pdf inv det safety y_ref tgts objs sg sd rho delta :
  (0 < dim)%nat -> objs <> [] -> tgts <> [] ->
  (forall x m P, pdf x m P = gauss dim inv det x m P) ->
  (forall o t, In o objs -> In t tgts -> 0 < det (mplus (gp t) (gp o))) ->
  greatest (variances dim objs) sg -> greatest (variances dim tgts) sd ->
  greatest (map (fun t => edist dim (gm t) (mean_of (map gm tgts))) tgts) rho ->
  greatest (map (fun o => edist dim (gm o) (mean_of (map gm tgts))) objs) delta ->
  density_based_cost dim pdf inv det safety y_ref (mix_of tgts) (map gm objs) (map gw objs) (map gp objs)
  = Ok (doc_cost 2 (fun a b => gauss dim inv det (gm a) (gm b) (mplus (gp a) (gp b))) objs tgts sg sd
         (1 / (1 + exp (- (delta - (safety * rho + ln (1 / y_ref - 1))))))).
Proof. intros. now apply cost_closed. Qed.
Lemma variances_perm dim l l' : Permutation l l' -> forall x, In x (variances dim l) <-> In x (variances dim l').
Proof.
  intros H x. unfold variances. rewrite !in_flat_map. split; intros [g [H1 H2]]; exists g; (split; [|exact H2]); (eapply Permutation_in; [|exact H1]); [exact H|now apply Permutation_sym].
Qed.
Lemma variances_nonnil dim l : (0 < dim)%nat -> l <> [] -> variances dim l <> [].
Proof. intros Hd Hl. destruct l as [|g l]; [easy|]. destruct dim; [lia|]. now cbn. Qed.
Lemma map_nonnil {A B} (f : A -> B) l : l <> [] -> map f l <> [].
Proof. now destruct l. Qed.
Theorem C68_order_irrelevant dim pdf inv det safety y_ref tgts tgts' objs objs' :
  (0 < dim)%nat -> objs <> [] -> tgts <> [] ->
  (forall x m P, pdf x m P = gauss dim inv det x m P) ->
  (forall o t, In o objs -> In t tgts -> 0 < det (mplus (gp t) (gp o))) ->
  Permutation tgts tgts' -> Permutation objs objs' ->
  density_based_cost dim pdf inv det safety y_ref (mix_of tgts') (map gm objs') (map gw objs') (map gp objs')
  = density_based_cost dim pdf inv det safety y_ref (mix_of tgts) (map gm objs) (map gw objs) (map gp objs).
Proof.
  intros Hd Ho Ht Hpdf Hdet Pt Po.
  destruct (greatest_exists (variances dim objs)) as [sg Hsg]; [now apply variances_nonnil|].
  destruct (greatest_exists (variances dim tgts)) as [sd Hsd]; [now apply variances_nonnil|].
  destruct (greatest_exists (map (fun t => edist dim (gm t) (mean_of (map gm tgts))) tgts)) as [rho Hrho]; [now apply map_nonnil|].
  destruct (greatest_exists (map (fun t => edist dim (gm t) (mean_of (map gm tgts))) objs)) as [delta Hdelta]; [now apply map_nonnil|].
  rewrite (cost_closed dim pdf inv det safety y_ref tgts objs sg sd rho delta) by assumption.
  assert (Hne : forall (l l' : list wg), Permutation l l' -> l <> [] -> l' <> []).
  { intros l l' P H ->. apply Permutation_sym, Permutation_nil in P. easy. }
  assert (Hm : forall t, edist dim (gm t) (mean_of (map gm tgts')) = edist dim (gm t) (mean_of (map gm tgts))).
  { intro t. apply edist_ext; [reflexivity|]. intro i. apply mean_of_perm, Permutation_map. now apply Permutation_sym. }
  assert (Hin : forall (l l' : list wg), Permutation l l' -> forall x,
     In x (map (fun t => edist dim (gm t) (mean_of (map gm tgts))) l) <-> In x (map (fun t => edist dim (gm t) (mean_of (map gm tgts'))) l')).
  { intros l l' P x. rewrite (map_ext _ _ Hm). split; apply Permutation_in, Permutation_map; [exact P|now apply Permutation_sym]. }
  rewrite (cost_closed dim pdf inv det safety y_ref tgts' objs' sg sd rho delta); try assumption.
  - f_equal. apply doc_cost_perm; now apply Permutation_sym.
  - now apply (Hne objs).
  - now apply (Hne tgts).
  - intros o t H1 H2. apply Hdet; [apply (Permutation_in _ (Permutation_sym Po) H1)|apply (Permutation_in _ (Permutation_sym Pt) H2)].
  - eapply greatest_perm; [|exact Hsg]. now apply variances_perm.
  - eapply greatest_perm; [|exact Hsd]. now apply variances_perm.
  - eapply greatest_perm; [|exact Hrho]. now apply Hin.
  - eapply greatest_perm; [|exact Hdelta]. now apply Hin.
Qed.
(** REFUTED: the documented factor is 20, the code uses 2; for positive weights
    and variances the value always differs from the documented one. *)
Theorem C68_documented_factor_refuted dim pdf inv det safety y_ref tgts objs sg sd rho delta :
  (0 < dim)%nat -> objs <> [] -> tgts <> [] ->
  (forall x m P, pdf x m P = gauss dim inv det x m P) ->
  (forall o t, In o objs -> In t tgts -> 0 < det (mplus (gp t) (gp o)) /\ 0 < gw o /\ 0 < gw t) ->
  greatest (variances dim objs) sg -> greatest (variances dim tgts) sd -> 0 < sg -> 0 < sd ->
  greatest (map (fun t => edist dim (gm t) (mean_of (map gm tgts))) tgts) rho ->
  greatest (map (fun o => edist dim (gm o) (mean_of (map gm tgts))) objs) delta ->
  density_based_cost dim pdf inv det safety y_ref (mix_of tgts) (map gm objs) (map gw objs) (map gp objs)
  <> Ok (doc_cost 20 (fun a b => gauss dim inv det (gm a) (gm b) (mplus (gp a) (gp b))) objs tgts sg sd
         (1 / (1 + exp (- (delta - (safety * rho + ln (1 / y_ref - 1))))))).
Proof.
  intros Hd Ho Ht Hpdf Hall Hsg Hsd Psg Psd Hrho Hdelta.
  rewrite (cost_closed dim pdf inv det safety y_ref tgts objs sg sd rho delta); try assumption; [|intros o t H1 H2; now apply Hall].
  intro E. injection E as E. unfold doc_cost in E.
  set (S := pairsum tgts objs (fun j i => gw j * gw i * gauss dim inv det (gm j) (gm i) (mplus (gp j) (gp i)))) in *.
  assert (HS : 0 < S).
  { apply pairsum_pos; [assumption|assumption|]. intros t o H1 H2. destruct (Hall o t H2 H1) as [A [B C]].
    apply Rmult_lt_0_compat; [now apply Rmult_lt_0_compat|]. now apply gauss_pos. }
  assert (Hno : 0 < INR (length objs)) by (apply lt_0_INR; destruct objs; [easy|cbn; lia]).
  assert (Hnt : 0 < INR (length tgts)) by (apply lt_0_INR; destruct tgts; [easy|cbn; lia]).
  assert (0 < INR (length objs) * sg * sd * INR (length tgts) * S) by (repeat apply Rmult_lt_0_compat; assumption).
  nra.
Qed.
(** Concrete instance of the hypotheses: one object and two targets in one
    dimension, determinant and inverse of a 1 x 1 matrix. *)
Definition det1 (P : mat) : R := P 0%nat 0%nat.
Definition inv1 (P : mat) : mat := fun i j => / P i j.
Definition ex_o : wg := {| gw := 1; gm := fun _ => 0; gp := fun _ _ => 1 |}.
Definition ex_t (c : R) : wg := {| gw := 1 / 2; gm := fun _ => c; gp := fun _ _ => 2 |}.
Example C68_ex : exists sg sd rho delta,
  (forall o t, In o [ex_o] -> In t [ex_t 1; ex_t 3] -> 0 < det1 (mplus (gp t) (gp o)) /\ 0 < gw o /\ 0 < gw t) /\
  greatest (variances 1 [ex_o]) sg /\ greatest (variances 1 [ex_t 1; ex_t 3]) sd /\ 0 < sg /\ 0 < sd /\
  greatest (map (fun t => edist 1 (gm t) (mean_of (map gm [ex_t 1; ex_t 3]))) [ex_t 1; ex_t 3]) rho /\
  greatest (map (fun o => edist 1 (gm o) (mean_of (map gm [ex_t 1; ex_t 3]))) [ex_o]) delta.
Proof.
  destruct (greatest_exists (map (fun t => edist 1 (gm t) (mean_of (map gm [ex_t 1; ex_t 3]))) [ex_t 1; ex_t 3])) as [rho Hrho]; [discriminate|].
  destruct (greatest_exists (map (fun t => edist 1 (gm t) (mean_of (map gm [ex_t 1; ex_t 3]))) [ex_o])) as [delta Hdelta]; [discriminate|].
  exists 1, 2, rho, delta. repeat split; try (apply Hrho || apply Hdelta); try lra.
  - destruct H as [<-|[]]. destruct H0 as [<-|[<-|[]]]; unfold det1, mplus; cbn; lra.
  - destruct H as [<-|[]]. cbn. lra.
  - destruct H0 as [<-|[<-|[]]]; cbn; lra.
  - cbn. now left.
  - cbn. intros x [<-|[]]. lra.
  - cbn. now left.
  - cbn. intros x [<-|[<-|[]]]; lra.
Qed.

(** * C69 *)
Theorem C69_constructor_validation x :
  (density_init x = Err ValueErr <-> 1 <= x) /\ (x < 1 -> density_init x = Ok x) /\
  (elqr_init x = Err ValueErr <-> 1 <= x) /\ (x < 1 -> elqr_init x = Ok x) /\
  (gaussobj_weight (Some x) = Err ValueErr <-> x <= 0) /\ (0 < x -> gaussobj_weight (Some x) = Ok (Some x)) /\
  gaussobj_weight None = Ok None.
Proof.
  unfold density_init, elqr_init, gaussobj_weight.
  repeat split; try (destruct (Rle_dec _ _); [try easy; lra|try easy; lra]).
Qed.

(** * C70, C84, C85 *)
(** REFUTED: objects made by an earlier initialize have an empty array of
    control inputs, so as soon as the first measurement matches one of them the
    next initialize raises, whatever iterate did to their other fields. *)
Theorem C70_reinitialise_raises_refuted dim inv chi2_ppf h thresh gs mg dyn invd nin nom m ms c cs w ws : (2 <= h)%nat ->
  (forall g, In g gs -> length (g_means g) = h /\ g_ctrl_inputs g = ctl_default) ->
  t_m mg = m :: ms -> t_p mg = c :: cs -> t_w mg = w :: ws ->
  (exists g, In g gs /\ mahal dim inv m g < chi2_ppf thresh dim) ->
  initialize dim inv chi2_ppf h thresh gs mg dyn invd nin nom = Err ValueErr.
Proof.
  intros Hh Hg Em Ec Ew [g [Hin Hfit]]. rewrite fitc_mahal in Hfit. unfold initialize. rewrite Em. cbn [length seq init_loop]. rewrite Em, Ec, Ew. cbn [get nth_error bind].
  destruct (best_fit_total dim inv m gs 0 None) as [best Hb]; [intros x Hx; apply Hg in Hx; lia|]. rewrite Hb. cbn [bind].
  apply best_fit_spec in Hb as [_ Hb]. destruct best as [[ind f]|]; [|destruct Hb as [_ ->]; easy].
  destruct Hb as [[Hb|[Hind [x [Hx Hf]]]] [Hmin _]]; [easy|]. rewrite Nat.sub_0_r in Hx.
  assert (Hl : f < chi2_ppf thresh dim) by (specialize (Hmin g Hin); lra).
  destruct (Rlt_dec f _) as [_|N]; [|easy]. unfold get at 1. rewrite Hx. cbn [bind].
  destruct gs as [|g1 gs]; [easy|]. unfold get at 1. cbn [nth_error bind].
  assert (Hx' := nth_error_In _ _ Hx). apply Hg in Hx' as [_ Hx']. unfold matched_obj at 1. rewrite Hx'. cbn [u_rows ctl_default skipn length].
  destruct (Nat.eqb_spec 0 (h - 1)); [lia|]. reflexivity.
Qed.
(** A first initialize on an empty controller yields objects of that kind. *)
Theorem C70_first_initialize_objects dim inv chi2_ppf h thresh mg dyn invd nin nom objs rest : (1 <= h)%nat ->
  initialize dim inv chi2_ppf h thresh [] mg dyn invd nin nom = Ok (objs, rest) ->
  forall g, In g objs -> length (g_means g) = h /\ g_ctrl_inputs g = ctl_default.
Proof.
  intros Hh H g Hg. unfold initialize in H. destruct (t_m mg) as [|m ms] eqn:Em; [injection H as <- <-; easy|]. rewrite <- Em in H.
  change (@nil gobj) with (map (fun j => nth j (@nil gobj) g0) (@nil nat)) in H.
  apply init_loop_spec in H as [src [L1 [L2 [L3 L4]]]]; [|constructor|easy]. rewrite seq_length in L1, L2.
  apply In_nth_error in Hg as [i Hi]. assert (Hlt : (i < length (t_m mg))%nat) by (rewrite <- L2; apply nth_error_Some; congruence).
  destruct (L4 i i) as [mean [cov [w [o' [M1 [M2 [M3 [M4 M5]]]]]]]].
  { rewrite nth_error_nth' with (d := 0%nat) by now rewrite seq_length. now rewrite seq_nth. }
  rewrite Hi in M4. injection M4 as <-. destruct (nth i src None) as [j|]; [destruct M5 as [[[] _] _]|].
  destruct M5 as [_ [n [fs [is [un [-> _]]]]]]. cbn [fresh_obj g_means g_ctrl_inputs]. now rewrite repeat_length.
Qed.
(** What does hold: an object with a full array of control inputs that is
    matched hands over its controls shifted by one step, the last one zero. *)
Theorem C70_controls_carried_over_partial h mean cov w first old o : matched_obj h mean cov w first old = Ok o ->
  length (u_rows (g_ctrl_inputs o)) = h /\
  (forall k, (k < h - 1)%nat -> nth_error (u_rows (g_ctrl_inputs o)) k = nth_error (u_rows (g_ctrl_inputs old)) (S k)) /\
  nth_error (u_rows (g_ctrl_inputs o)) (h - 1) = Some vzero.
Proof.
  intro H. apply matched_fields in H. destruct H as [Hh [_ [_ [_ [_ [_ [E [L _]]]]]]]]. rewrite E.
  destruct (u_rows (g_ctrl_inputs old)) as [|u us]; cbn [length] in L; [lia|]. cbn [tl]. rewrite app_length. cbn [length].
  split; [lia|]. split.
  - intros k Hk. rewrite nth_error_app1 by lia. reflexivity.
  - rewrite nth_error_app2 by lia. replace (h - 1 - length us)%nat with 0%nat by lia. reflexivity.
Qed.
(** ... and its planned means shifted by one step, starting at the new mean; the
    last state is its dynamics applied to the state and control before it. *)
Theorem C70_means_carried_over_partial h mean cov w first old o : matched_obj h mean cov w first old = Ok o ->
  length (g_means o) = h /\ nth_error (g_means o) 0 = Some mean /\
  (forall k, (1 <= k < h - 1)%nat -> nth_error (g_means o) k = nth_error (g_means old) (S k)) /\
  exists x u y, nth_error (g_means o) (h - 2) = Some x /\ nth_error (u_rows (g_ctrl_inputs o)) (h - 2) = Some u /\ nth_error (g_means o) (h - 1) = Some y /\
    (forall j f, nth_error (g_dyn old) j = Some f -> y j = f x u) /\ (forall j, (length (g_dyn old) <= j)%nat -> y j = 0).
Proof.
  intro H. pose proof (matched_fields _ _ _ _ _ _ _ H) as [Hh [L [M0 [_ [_ [_ [_ [_ [K _]]]]]]]]].
  split; [exact L|]. split; [exact M0|]. split; [exact K|]. clear K M0.
  unfold matched_obj in H. remember (skipn 2 (g_means old)) as tail eqn:Et. remember (skipn 1 (u_rows (g_ctrl_inputs old))) as src eqn:Es.
  destruct (negb _) eqn:E1; [easy|]. destruct (negb (length tail =? _)%nat) eqn:E2; [easy|]. destruct (Nat.ltb_spec h 2) as [|_]; [easy|].
  apply negb_false_iff in E2. apply Nat.eqb_eq in E2.
  apply bind_ok in H as [x [Hx H]]. apply bind_ok in H as [u [Hu H]].
  apply bind_ok in H as [ff [_ H]]. apply bind_ok in H as [fb [_ H]]. apply bind_ok in H as [ccm [_ H]].
  apply bind_ok in H as [ccv [_ H]]. apply bind_ok in H as [cgm [_ H]]. apply bind_ok in H as [cgv [_ H]].
  injection H as <-. cbn [g_means g_ctrl_inputs u_rows] in *.
  assert (Hx' : nth_error (mean :: tail) (h - 2) = Some x) by (unfold get in Hx; destruct (nth_error (mean :: tail) (h - 2)); [injection Hx as ->; reflexivity|discriminate]).
  assert (Hu' : nth_error (src ++ [vzero]) (h - 2) = Some u) by (unfold get in Hu; destruct (nth_error (src ++ [vzero]) (h - 2)); [injection Hu as ->; reflexivity|discriminate]).
  exists x, u, (last_row (g_dyn old) x u). split; [|split; [exact Hu'|split; [|split]]].
  - change (mean :: tail ++ [last_row (g_dyn old) x u]) with ((mean :: tail) ++ [last_row (g_dyn old) x u]). rewrite nth_error_app1; [exact Hx'|]. cbn [length]. lia.
  - change (mean :: tail ++ [last_row (g_dyn old) x u]) with ((mean :: tail) ++ [last_row (g_dyn old) x u]). rewrite nth_error_app2 by (cbn [length]; lia).
    replace (h - 1 - length (mean :: tail))%nat with 0%nat by (cbn [length]; lia). reflexivity.
  - intros j f Hf. unfold last_row. rewrite Hf. reflexivity.
  - intros j Hj. unfold last_row. apply nth_error_None in Hj. rewrite Hj. reflexivity.
Qed.
Print Assumptions C70_means_carried_over_partial.
Definition ex_old : gobj :=
  {| g_means := [fun _ => 0; fun _ => 1; fun _ => 2]; g_cov := idm; g_w := 1; g_dyn := [fun x u => x 0%nat + u 0%nat]; g_inv := [];
     g_ctrl_inputs := {| u_rows := [fun _ => 1; fun _ => 2; fun _ => 3]; u_width := 1 |}; g_ctrl_input := None; g_nom := vzero;
     g_ff := [idm; idm; idm]; g_fb := [idm; idm; idm]; g_ccm := [idm; idm; idm]; g_ccv := [idm; idm; idm];
     g_cgm := [idm; idm; idm]; g_cgv := [idm; (fun _ _ => 0); idm] |}.
Example C70_ex : exists o, matched_obj 3 (fun _ => 1) idm 1 ex_old ex_old = Ok o.
Proof. eexists. reflexivity. Qed.

(** REFUTED: an object re-initialised from a match cannot be iterated: it has
    no attribute ctrl_input. *)
Theorem C84_matched_not_iterable_refuted dim inv chi2_ppf h thresh gs mg dyn invd nin nom objs rest : (1 <= h)%nat ->
  initialize dim inv chi2_ppf h thresh gs mg dyn invd nin nom = Ok (objs, rest) ->
  (exists g, In g gs /\ ~ In g rest) ->
  iterate_ctrl_update objs = Err AttributeErr.
Proof.
  intros Hh H [g [Hin Hnot]]. unfold initialize in H. destruct (t_m mg) as [|m ms] eqn:Em; [injection H as <- <-; easy|]. rewrite <- Em in H.
  assert (Hg : gs = map (fun j => nth j gs g0) (seq 0 (length gs))) by (symmetry; apply map_nth_seq).
  rewrite Hg in H. apply init_loop_spec in H as [src [L1 [L2 [L3 L4]]]]; [|apply seq_NoDup|intros j Hj; apply in_seq in Hj; lia].
  rewrite seq_length in L1, L2.
  apply In_nth_error in Hin as [j Hj]. assert (Hjl : (j < length gs)%nat) by (apply nth_error_Some; congruence).
  destruct (existsb (takes j) src) eqn:Et.
  - apply existsb_exists in Et as [s [Hs Ht]]. destruct s as [x|]; [|easy]. apply Nat.eqb_eq in Ht. subst x.
    apply In_nth_error in Hs as [i Hi]. assert (Hlt : (i < length (t_m mg))%nat) by (rewrite <- L1; apply nth_error_Some; congruence).
    destruct (L4 i i) as [mean [cov [w [o' [M1 [M2 [M3 [M4 M5]]]]]]]].
    { rewrite nth_error_nth' with (d := 0%nat) by now rewrite seq_length. now rewrite seq_nth. }
    rewrite (nth_error_nth _ _ _ Hi) in M5. destruct M5 as [_ [_ [_ [first Hm]]]]. apply matched_fields in Hm.
    destruct Hm as [_ [_ [_ [_ [_ [Hc _]]]]]]. unfold iterate_ctrl_update.
    destruct (forallb _ objs) eqn:Ef; [|reflexivity]. rewrite forallb_forall in Ef. specialize (Ef o' (nth_error_In _ _ M4)). now rewrite Hc in Ef.
  - exfalso. apply Hnot. rewrite L3. apply in_map_iff. exists j. split; [now apply nth_error_nth|].
    apply filter_In. split; [apply in_seq; lia|]. now rewrite Et.
Qed.

(** A concrete run with one match and one fresh object: old object with second
    mean 1 and unit covariance, measurements 1 and 9, bound 5. *)
Definition ex_mg : gmx := {| t_w := [1; 1]; t_m := [fun _ => 1; fun _ => 9]; t_p := [idm; idm] |}.
Example C67_ex : exists objs, initialize 1 (fun M => M) (fun _ _ => 5) 3 (1 / 2) [ex_old] ex_mg [[]; []] [[]; []] [1%nat; 1%nat] None = Ok (objs, [])
  /\ length objs = 2%nat.
Proof.
  unfold initialize, ex_mg. cbn [t_m length seq init_loop t_p t_w]. cbn [get nth_error bind]. cbn [best_fit_from get nth_error bind g_means ex_old g_cov].
  destruct (Rlt_dec _ _) as [_|N].
  - cbn -[matched_obj fresh_obj]. unfold matched_obj. cbn -[fresh_obj last_row]. eexists. split; reflexivity.
  - exfalso. apply N. unfold qform, vminus, idm. cbn. lra.
Qed.
Example C84_ex : exists objs, initialize 1 (fun M => M) (fun _ _ => 5) 3 (1 / 2) [ex_old] ex_mg [[]; []] [[]; []] [1%nat; 1%nat] None = Ok (objs, [])
  /\ (exists g, In g [ex_old] /\ ~ In g []) /\ iterate_ctrl_update objs = Err AttributeErr.
Proof.
  destruct C67_ex as [objs [H _]]. exists objs. split; [exact H|]. assert (E : exists g, In g [ex_old] /\ ~ In g []) by (exists ex_old; cbn; tauto).
  split; [exact E|]. eapply C84_matched_not_iterable_refuted; [|exact H|exact E]. lia.
Qed.
(** Objects of a first initialize, then a matching measurement. *)
Example C70_refuted_ex : exists objs, initialize 1 (fun M => M) (fun _ _ => 5) 3 (1 / 2) [] ex_mg [[]; []] [[]; []] [1%nat; 1%nat] None = Ok (objs, [])
  /\ initialize 1 (fun M => M) (fun _ _ => 5) 3 (1 / 2) objs ex_mg [[]; []] [[]; []] [1%nat; 1%nat] None = Err ValueErr.
Proof.
  eexists. split; [reflexivity|].
  eapply C70_reinitialise_raises_refuted; [lia| |reflexivity|reflexivity|reflexivity|].
  - intros g [<-|[<-|[]]]; now split.
  - eexists. split; [now left|]. unfold mahal, idm. cbn. lra.
Qed.

(** REFUTED: the cost-to-come vectors of a match are replaced by the
    cost-to-go vectors. *)
Theorem C85_cost_to_come_vec_refuted : exists h mean cov w first old o, matched_obj h mean cov w first old = Ok o /\
  length (g_ccv old) = h /\ nth_error (g_ccv o) 0 <> nth_error (g_ccv old) 1.
Proof.
  exists 3%nat, (fun _ => 1), idm, 1, ex_old, ex_old. eexists. split; [reflexivity|]. split; [reflexivity|]. cbn.
  intro H. injection H as H. apply (f_equal (fun m => m 0%nat 0%nat)) in H. unfold idm in H. cbn in H. lra.
Qed.
Theorem C85_costs_carried_over_partial h mean cov w first old o : matched_obj h mean cov w first old = Ok o ->
  (forall k, (S k < length (g_ccm old))%nat -> nth_error (g_ccm o) k = nth_error (g_ccm old) (S k)) /\
  (forall k, (S k < length (g_cgm old))%nat -> nth_error (g_cgm o) k = nth_error (g_cgm old) (S k)) /\
  (forall k, (S k < length (g_cgv old))%nat -> nth_error (g_cgv o) k = nth_error (g_cgv old) (S k)) /\
  (forall k, (S k < length (g_cgv old))%nat -> nth_error (g_ccv o) k = nth_error (g_cgv old) (S k)) /\
  (forall k, (S k < length (g_ff old))%nat -> nth_error (g_ff o) k = nth_error (g_ff old) (S k)) /\
  (forall k, (S k < length (g_fb old))%nat -> nth_error (g_fb o) k = nth_error (g_fb old) (S k)).
Proof.
  intro H. apply matched_fields in H. destruct H as [_ [_ [_ [_ [_ [_ [_ [_ [_ [_ [_ [_ [E1 [E2 [E3 [E4 [E5 E6]]]]]]]]]]]]]]]]].
  assert (T : forall (l r : list mat) k, (S k < length l)%nat -> nth_error (tl l ++ r) k = nth_error l (S k)).
  { intros [|x l] r k Hk; cbn [length] in Hk; [lia|]. cbn [tl nth_error]. apply nth_error_app1. lia. }
  rewrite E1, E2, E3, E4, E5, E6. repeat split; intros k Hk; now apply T.
Qed.

(** * C86 *)
Theorem C86_trajectory_cost_partial h policy dyn cost final x_starts :
  let tr := traj (joint_move policy dyn) x_starts in
  real_cost h policy dyn cost final x_starts
  = (rsum (map (fun k => cost (tr k)) (seq 0 (h - 1))) + final (tr (h - 1)%nat), tr (h - 1)%nat).
Proof.
  intro tr. unfold real_cost.
  set (step := fun (acc : R * list vec) kk => let '(c, states) := acc in _).
  assert (Hs : forall c xs k, step (c, xs) k = (c + cost xs, joint_move policy dyn k xs)).
  { intros c xs k. unfold step. f_equal. unfold joint_move. rewrite (combine_seq xs vzero), map_map. reflexivity. }
  assert (G : forall n, fold_left step (seq 0 n) (0, x_starts) = (rsum (map (fun k => cost (tr k)) (seq 0 n)), tr n)).
  { induction n as [|n IH]; [reflexivity|]. rewrite seq_S, fold_left_app, IH. cbn [fold_left]. rewrite Hs. cbn [Nat.add].
    f_equal. rewrite map_app, rsum_app. cbn [map]. rewrite rsum_cons. unfold rsum at 3. cbn. lra. }
  rewrite G. reflexivity.
Qed.
(** REFUTED: the start states used by the next iteration are not the start
    states: evaluating the cost overwrites them. *)
Theorem C86_start_states_overwritten_refuted : exists h policy dyn cost final x_starts,
  exists i x y, nth_error x_starts i = Some x /\ nth_error (snd (real_cost h policy dyn cost final x_starts)) i = Some y /\ y 0%nat <> x 0%nat.
Proof.
  exists 2%nat, (fun _ _ _ => vzero), (fun _ => [fun x _ => x 0%nat + 1]), (fun _ => 0), (fun _ => 0), [fun _ => 5].
  exists 0%nat. eexists. eexists. split; [reflexivity|]. split; [reflexivity|]. cbn. lra.
Qed.

(** * C87 *)
(** The regularised quadratic term is symmetric positive semidefinite for
    orthonormal eigenvectors, and unchanged when no eigenvalue is negative. *)
Theorem C87_regularised_psd dim inv V lam :
  (forall i j, (i < dim)%nat -> (j < dim)%nat -> rsumn dim (fun k => V k i * V k j) = if (i =? j)%nat then 1 else 0) ->
  inverse_of dim V (inv V) ->
  psd dim (regularize dim inv lam V) /\
  ((forall i, (i < dim)%nat -> 0 <= lam i) -> forall i j, regularize dim inv lam V i j = rsumn dim (fun k => V i k * lam k * inv V k j)).
Proof.
  intros Ho Hi. split.
  - apply congruence_psd.
    + intros. eapply inv_transpose; [apply Ho|apply Hi|assumption|assumption].
    + intros k _. destruct (Rlt_dec (lam k) 0); lra.
  - intros Hl i j. unfold regularize. rewrite mmul_diag. apply rsumn_ext. intros k Hk. destruct (Rlt_dec (lam k) 0); [specialize (Hl k Hk); lra|reflexivity].
Qed.

Print Assumptions C64_target_center.
Print Assumptions C65_targets_after_update_partial.
Print Assumptions C79_own_list_diverges_refuted.
Print Assumptions C81_wayarea_cov_psd.
Print Assumptions C83_wayarea_orientation_refuted.
Print Assumptions C66_nearest_target.
Print Assumptions C67_initialize.
Print Assumptions C68_order_irrelevant.
Print Assumptions C68_documented_factor_refuted.
Print Assumptions C69_constructor_validation.
Print Assumptions C70_reinitialise_raises_refuted.
Print Assumptions C84_matched_not_iterable_refuted.
Print Assumptions C86_trajectory_cost_partial.
Print Assumptions C87_regularised_psd.
