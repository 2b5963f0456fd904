(** Generated by mk_real.py from PhdProps.v: the same over the real numbers. *)
(** Property theorems about the PHD filter (C31-C40, C73). *)
From Verif Require Import RBase RLists RPhdModel RPhdSpec RPhdProofs.
From Coq Require Import Permutation Sorted.

(** C31: predict.  The survivors come first, in their old order, with the inner
    filter's predictions and weights times prob_survive; then the births. *)
Theorem C31_phd_predict_real : forall (Meas : Type) (c : cfg Meas) g, aligned g ->
  (total (predict c g) = c_ps c * total g + rsum (map total (c_birth c)))%R /\
  gm_w (predict c g) = map (fun x => c_ps c * x)%R (gm_w g) ++ concat (map gm_w (c_birth c)) /\
  gm_m (predict c g) = map (fun i => fst (fpredict (c_filter c) (Mn g i) (P g i))) (seq 0 (length (gm_w g)))
                       ++ concat (map gm_m (c_birth c)) /\
  gm_p (predict c g) = map (fun i => snd (fpredict (c_filter c) (Mn g i) (P g i))) (seq 0 (length (gm_w g)))
                       ++ concat (map gm_p (c_birth c)).
Proof.
  intros Meas c g [_ [H1 H2]]. destruct (predict_spec c g) as [A [B C]]; [lia|].
  rewrite H1 in B, C. split; [|split; [exact A|split; [exact B|exact C]]].
  unfold total. rewrite A, qs_app, qs_scale, qs_concat, map_map. reflexivity.
Qed.

(** C32: correct.  With N (gated) measurements and n components there are
    (N+1)*n components: for each measurement the corrected components with weight
    q_i*pd*w_i / (clutter + sum_j q_j*pd*w_j), then the n missed ones with
    (1-pd)*w_i and their old state.  The weights of one measurement add to
    S/(clutter+S) <= 1, so the total is at most (1-pd)*W + N. *)
Theorem C32_phd_correct_real : forall (Meas : Type) (c : cfg Meas) g meas_in meas g',
  aligned g -> correct c meas_in g = Ok (meas, g') ->
  let n := length (gm_w g) in
  let cor z i := fcorrect (c_filter c) z (Mn g i) (P g i) in
  let w z i := (snd (cor z i) * (c_pd c * W g i))%R in
  let S z := sum_over (seq 0 n) (w z) in
  (c_gating c = false -> meas = meas_in) /\
  aligned_n ((length meas + 1) * n) g' /\
  gm_w g' = flat_map (fun z => map (fun i => w z i / (c_kappa c + S z))%R (seq 0 n)) meas
            ++ map (fun x => (1 - c_pd c) * x)%R (gm_w g) /\
  gm_m g' = flat_map (fun z => map (fun i => fst (fst (cor z i))) (seq 0 n)) meas ++ gm_m g /\
  gm_p g' = flat_map (fun z => map (fun i => snd (fst (cor z i))) (seq 0 n)) meas ++ gm_p g /\
  ((0 <= c_kappa c)%R -> (0 <= c_pd c <= 1)%R -> nonneg g -> (forall z m p, (0 <= snd (fcorrect (c_filter c) z m p))%R) ->
   (forall z, In z meas ->
      (sum_over (seq 0 n) (fun i => w z i / (c_kappa c + S z)) = S z / (c_kappa c + S z))%R /\
      (S z / (c_kappa c + S z) <= 1)%R) /\
   (total g' <= (1 - c_pd c) * total g + IZR (Z.of_nat (length meas)))%R).
Proof.
  intros Meas c g meas_in meas g' Ha E n cor w S.
  unfold correct in E. apply bind_ok in E as [ms [Em E]]. apply bind_ok in E as [gm [Eg E]].
  injection E as E1 E2. subst ms g'. pose proof Ha as [_ [H1 H2]].
  destruct (correct_density_spec c g meas gm Ha Eg) as [A [B [C D]]].
  change (forall z, sum_over (seq 0 n) (w z) = dsum c g z) with (forall z, S z = dsum c g z).
  assert (L : forall (X : Type) (f : Meas -> nat -> X) l, length (flat_map (fun z => map (f z) (seq 0 n)) l) = length l * n).
  { intros X f l. induction l as [|z l IH]; [reflexivity|]. cbn [flat_map length]. rewrite app_length, map_length, seq_length, IH. lia. }
  split; [intros Hg; rewrite Hg in Em; inversion Em; reflexivity|].
  cbn [gm_app gm_w gm_m gm_p]. split.
  { unfold aligned_n. cbn [gm_app gm_w gm_m gm_p]. rewrite A, B, C, !app_length, map_length, H1, H2.
    rewrite (L R (fun z i => dw c g z i / (c_kappa c + dsum c g z))%R).
    rewrite (L vec (fun z i => fst (fst (cor z i)))), (L mat (fun z i => snd (fst (cor z i)))). fold n. lia. }
  split; [rewrite A; reflexivity|]. split; [rewrite B; reflexivity|]. split; [rewrite C; reflexivity|].
  intros Hk Hpd Hn Hq.
  assert (HS : forall z, (0 <= S z)%R).
  { intros z. apply qs_nonneg. intros x Hx. apply in_map_iff in Hx as [i [<- Hi]]. apply in_seq in Hi.
    apply Rmult_le_pos; [apply Hq|]. apply Rmult_le_pos; [apply Hpd|]. apply Hn, nth_In. unfold n in Hi. lia. }
  assert (H1z : forall z, In z meas -> (sum_over (seq 0 n) (fun i => w z i / (c_kappa c + S z)) = S z / (c_kappa c + S z))%R /\
      (S z / (c_kappa c + S z) <= 1)%R).
  { intros z Hz. split.
    - unfold sum_over, Rdiv. rewrite (qs_ext (fun i => w z i * / (c_kappa c + S z))%R (fun i => / (c_kappa c + S z) * w z i)%R) by (intros; ring).
      rewrite qs_scalef. fold (sum_over (seq 0 n) (w z)). fold (S z). ring.
    - destruct (Nat.eq_dec n 0) as [Hn0|Hn0].
      + assert (S z = 0)%R by (unfold S; rewrite Hn0; reflexivity). rewrite H. unfold Rdiv. rewrite Rmult_0_l. lra.
      + pose proof (D Hn0 z Hz) as Hd. change (dsum c g z) with (S z) in Hd. pose proof (HS z).
        apply Rle_shift_div_r_; lra. }
  split; [exact H1z|]. unfold total. cbn [gm_app gm_w]. rewrite A, qs_app, qs_flat_map, qs_scale.
  assert (HB : (rsum (map (fun z => rsum (map (fun i => dw c g z i / (c_kappa c + dsum c g z))%R (seq 0 n))) meas) <= rsum (map (fun _ => 1%R) meas))%R).
  { apply qs_le. intros z Hz. destruct (H1z z Hz) as [X Y]. unfold sum_over in X.
    change (rsum (map (fun i => w z i / (c_kappa c + S z)) (seq 0 n)) <= 1)%R. rewrite X. exact Y. }
  rewrite qs_const in HB. fold n. lra.
Qed.
(** Correct succeeds when there is clutter. *)
Theorem C32_phd_correct_total_real : forall (Meas : Type) (c : cfg Meas) g meas,
  aligned g -> nonneg g -> c_gating c = false -> (0 < c_kappa c)%R -> (0 <= c_pd c)%R ->
  (forall z m p, (0 <= snd (fcorrect (c_filter c) z m p))%R) ->
  exists g', correct c meas g = Ok (meas, g').
Proof.
  intros Meas c g meas Ha Hn Hg Hk Hpd Hq. unfold correct. rewrite Hg. cbn [bind].
  destruct (correct_density_total c g meas Ha) as [gm Eg].
  - intros z _. apply not_eq_sym, Rlt_not_eq. assert (0 <= dsum c g z)%R; [|lra].
    apply qs_nonneg. intros x Hx. apply in_map_iff in Hx as [i [<- Hi]]. apply in_seq in Hi.
    apply Rmult_le_pos; [apply Hq|]. apply Rmult_le_pos; [exact Hpd|]. apply Hn, nth_In. lia.
  - rewrite Eg. cbn [bind]. eauto.
Qed.

(** C33: under every sequence of calls that raises nothing, the three lists have
    equal length and the weights are non-negative; the extracted covariances, if
    saved, are aligned with the extracted states. *)
Theorem C33_phd_aligned_real : forall (Meas : Type) (c : cfg Meas) argsort ops s,
  (0 <= c_ps c)%R -> (0 <= c_pd c <= 1)%R -> (0 <= c_kappa c)%R ->
  (forall b, In b (c_birth c) -> aligned b /\ nonneg b) ->
  (forall z m p, (0 <= snd (fcorrect (c_filter c) z m p))%R) ->
  run c argsort ops phd_init = Ok s ->
  aligned (ph_mix s) /\ nonneg (ph_mix s) /\
  (c_save_covs c = true -> length (ph_covs s) = length (ph_states s) /\
     forall k, k < length (ph_states s) -> length (nth k (ph_covs s) []) = length (nth k (ph_states s) [])).
Proof.
  intros Meas c argsort ops s H1 H2 H3 H4 H5 E.
  destruct (run_ok c argsort H1 H2 H3 H4 H5 ops phd_init s) as [[A B] [C _]]; [|exact E|auto].
  split; [split; [repeat split|intros x []]|]. split; [|reflexivity]. intros _. split; [reflexivity|]. intros k Hk. cbn in Hk. lia.
Qed.

(** C34: prune keeps exactly the components with weight >= threshold, in order. *)
Theorem C34_phd_prune_real : forall (Meas : Type) (c : cfg Meas) g, aligned g ->
  exists g', prune c g = Ok g' /\ aligned g' /\
    comps g' = filter (fun t => Rleb (c_prune c) (fst (fst t))) (comps g).
Proof. intros Meas c g H. exact (prune_spec c g H). Qed.

(** C35: merge terminates; its output components are the weighted means of the
    groups of a partition of the input components; the total weight and the
    weighted sum of means are preserved.  Each group consists of the components,
    among those not in an earlier group, within the threshold of the heaviest. *)
Theorem C35_phd_merge_real : forall (Meas : Type) (c : cfg Meas) g,
  aligned g -> positive g -> (0 <= c_merge c)%R ->
  (forall p, In p (gm_p g) -> exists ic, c_inv c p = Ok ic) ->
  exists g' groups, merge c g = Ok g' /\ aligned_n (length groups) g' /\
    Permutation (concat groups) (seq 0 (length (gm_w g))) /\
    (total g' = total g)%R /\
    (forall i, (sum_over (seq 0 (length groups)) (fun k => W g' k * Mn g' k i) =
                sum_over (seq 0 (length (gm_w g))) (fun k => W g k * Mn g k i))%R) /\
    (forall k, k < length groups ->
       let G := nth k groups [] in
       (W g' k = sum_over G (W g))%R /\
       (forall i, (W g' k * Mn g' k i = sum_over G (fun j => W g j * Mn g j i))%R) /\
       (forall i j, (W g' k * P g' k i j = sum_over G (fun l => W g l * P g l i j))%R) /\
       exists jj ic, In jj G /\ c_inv c (P g jj) = Ok ic /\
         (forall l, In l (concat (skipn k groups)) ->
            (W g l <= W g jj)%R /\
            (In l G <-> (quad (c_dim c) ic (fun a => Mn g l a - Mn g jj a) <= c_merge c)%R))).
Proof.
  intros Meas c g Ha Hp Ht Hi.
  assert (Hn : nonneg g) by (intros x Hx; apply Rlt_le, Hp; exact Hx).
  assert (L : length (gm_m g) = length (gm_w g)) by apply Ha.
  destruct (loop_total c g Ha Hn Hp Ht Hi (length (gm_w g)) (seq 0 (length (gm_w g))) (gm_w g) (init_winv g)) as [l El].
  { rewrite seq_length. lia. }
  destruct (loop_spec c g Ha Hn _ _ _ _ (init_winv g) El) as [gs Hgs].
  destruct (all_merged_perm c g _ _ _ Hgs) as [Lg Pg].
  set (g' := {| gm_w := map (fun x => fst (fst x)) l; gm_m := map (fun x => snd (fst x)) l; gm_p := map snd l |}).
  exists g', gs. split; [unfold merge, merge_fuel; rewrite L, El; reflexivity|].
  assert (Hper : forall k, k < length gs ->
       let G := nth k gs [] in
       (W g' k = sum_over G (W g))%R /\
       (forall i, (W g' k * Mn g' k i = sum_over G (fun j => W g j * Mn g j i))%R) /\
       (forall i j, (W g' k * P g' k i j = sum_over G (fun l => W g l * P g l i j))%R) /\
       exists jj ic, In jj G /\ c_inv c (P g jj) = Ok ic /\
         (forall l, In l (concat (skipn k gs)) ->
            (W g l <= W g jj)%R /\
            (In l G <-> (quad (c_dim c) ic (fun a => Mn g l a - Mn g jj a) <= c_merge c)%R))).
  { intros k Hk. cbn zeta. destruct (all_merged_nth c g gs _ l k Hgs Hk) as [rest [Hr [M1 [M2 [M3 [M4 [jj [ic [J1 [J2 [J3 J4]]]]]]]]]]].
    assert (Hkl : k < length l) by lia.
    pose (x0 := (0%R, (fun _ => 0%R) : vec, (fun _ _ => 0%R) : mat)).
    assert (EW : W g' k = fst (fst (nth k l x0))) by (unfold W, g'; cbn [gm_w]; apply (nth_map' (fun x : R * vec * mat => fst (fst x)) l k _ x0 Hkl)).
    assert (EM : Mn g' k = snd (fst (nth k l x0))) by (unfold Mn, g'; cbn [gm_m]; apply (nth_map' (fun x : R * vec * mat => snd (fst x)) l k _ x0 Hkl)).
    assert (EP : P g' k = snd (nth k l x0)) by (unfold P, g'; cbn [gm_p]; apply (nth_map' (fun x : R * vec * mat => snd x) l k _ x0 Hkl)).
    rewrite EW, EM, EP.
    split; [exact M1|]. split; [exact M3|]. split; [exact M4|]. exists jj, ic. split.
    { rewrite J4. apply filter_In. split; [exact J1|]. unfold within. apply Rleb_le. rewrite quad_zero; [exact Ht|]. intros a. unfold vsub. ring. }
    split; [exact J3|]. intros a Hin. apply (Permutation_in _ Hr) in Hin. split; [apply J2; exact Hin|].
    rewrite J4, filter_In. unfold within. rewrite Rleb_le. unfold vsub. tauto. }
  split; [split; [|split]; cbn [gm_w gm_m gm_p g']; rewrite map_length; lia|]. split; [exact Pg|].
  assert (Hsum : forall f, (sum_over (seq 0 (length gs)) (fun k => sum_over (nth k gs []) f) = sum_over (seq 0 (length (gm_w g))) f)%R).
  { intros f. unfold sum_over at 3. rewrite <- (qs_perm _ _ (Permutation_map f Pg)). rewrite concat_map, qs_concat, map_map.
    unfold sum_over. transitivity (rsum (map (fun x => rsum (map f x)) (map (fun i => nth i gs []) (seq 0 (length gs))))).
    - rewrite map_map. reflexivity.
    - rewrite map_nth_seq. reflexivity. }
  split; [|split; [|exact Hper]].
  - unfold total. rewrite <- (map_nth_seq (gm_w g') 0%R). cbn [gm_w g']. rewrite map_length, <- Lg.
    rewrite (qs_ext _ (fun k => sum_over (nth k gs []) (W g))).
    2:{ intros k Hk. apply in_seq in Hk. destruct (Hper k ltac:(lia)) as [X _]. exact X. }
    fold (sum_over (seq 0 (length gs)) (fun k => sum_over (nth k gs []) (W g))). rewrite Hsum. unfold sum_over, W. rewrite map_nth_seq. reflexivity.
  - intros i. rewrite <- Hsum. apply qs_ext. intros k Hk. apply in_seq in Hk. destruct (Hper k ltac:(lia)) as [_ [X _]]. apply X.
Qed.

(** C37: cap.  At most max_gauss components remain, the heaviest ones, in their
    old order, with states unchanged and the total weight unchanged. *)
Theorem C37_phd_cap_real : forall (Meas : Type) (c : cfg Meas) idx g,
  aligned g -> positive g -> 1 <= c_max c -> sorts idx (gm_w g) ->
  exists g', cap c idx g = Ok g' /\ (total g' = total g)%R /\ length (gm_w g') <= c_max c /\
  ((length (gm_w g) <= c_max c /\ g' = g) \/
   (c_max c < length (gm_w g) /\ exists kept,
     StronglySorted lt kept /\ length kept = c_max c /\ (forall i, In i kept -> i < length (gm_w g)) /\
     (forall i j, In i kept -> j < length (gm_w g) -> ~ In j kept -> (W g j <= W g i)%R) /\
     gm_m g' = map (Mn g) kept /\ gm_p g' = map (P g) kept /\
     gm_w g' = map (fun i => W g i * (total g / sum_over kept (W g)))%R kept)).
Proof.
  intros Meas c idx g Ha Hp Hm Hs.
  assert (Ex : exists g', cap c idx g = Ok g').
  { unfold cap. destruct (Nat.ltb_spec (c_max c) (length (gm_w g))) as [Hlt|Hge]; [|eauto].
    pose proof Hs as [Hperm _]. pose proof Ha as [_ [H1 H2]].
    assert (Ec : (c_max c =? 0) = false) by (apply Nat.eqb_neq; lia). rewrite Ec.
    assert (Li : length idx = length (gm_w g)) by (rewrite (Permutation_length Hperm), seq_length; reflexivity).
    assert (Hd : forall i, In i (firstn (length idx - c_max c) idx) -> i < length (gm_w g)).
    { intros i Hi. assert (Hi' : In i idx) by (rewrite <- (firstn_skipn (length idx - c_max c) idx); apply in_or_app; left; exact Hi).
      apply (Permutation_in _ Hperm) in Hi'. apply in_seq in Hi'. lia. }
    rewrite !del_idx_ok; try (intros i Hx; rewrite ?H1, ?H2; apply Hd; exact Hx). cbn [bind].
    match goal with |- context [Reqb ?q 0] => assert (Hz : Reqb q 0 = false) end; [|rewrite Hz; eauto].
    apply Reqb_neq, not_eq_sym, Rlt_not_eq, qs_pos.
    - rewrite (keep_idx_spec _ _ 0%R). intros E. apply map_eq_nil in E.
      set (K := fun i => negb (existsb (Nat.eqb i) (firstn (length idx - c_max c) idx))) in E.
      assert (Hin : In (nth (length idx - c_max c) idx 0) (filter K (seq 0 (length (gm_w g))))); [|rewrite E in Hin; destruct Hin].
      apply filter_In. split; [apply (Permutation_in _ Hperm), nth_In; lia|]. unfold K. apply negb_true_iff, existsb_eqb_false.
      intros Hin. apply (In_nth _ _ 0) in Hin as [a [La Ea]]. rewrite firstn_length in La. rewrite nth_firstn' in Ea by lia.
      assert (ND : NoDup idx) by (eapply Permutation_NoDup; [symmetry; exact Hperm|apply seq_NoDup]).
      rewrite NoDup_nth in ND. specialize (ND a (length idx - c_max c) ltac:(lia) ltac:(lia) Ea). lia.
    - intros x Hx. apply keep_idx_in in Hx. apply Hp. exact Hx. }
  destruct Ex as [g' E]. exists g'. split; [exact E|].
  destruct (cap_spec c idx g g' Ha Hm Hs E) as [[HL ->]|[HL [kept [K1 [K2 [K3 [K4 [K5 [K6 [K7 K8]]]]]]]]]].
  - split; [reflexivity|]. split; [exact HL|]. left. auto.
  - split; [|split; [rewrite K8, map_length; lia|right; split; [exact HL|exists kept; repeat (split; [assumption|]); assumption]]].
    unfold total at 1. rewrite K8.
    rewrite (qs_ext _ (fun i => (total g / sum_over kept (W g)) * W g i)%R) by (intros; ring). rewrite qs_scalef.
    fold (sum_over kept (W g)). field. exact K7.
Qed.

(** C38: extraction appends one entry per call that repeats each component with
    weight >= threshold round(weight) times (ties to even), in order, and the
    covariances likewise; a component with weight > 1/2 is reported at least
    once. *)
Theorem C38_phd_extract_real : forall (Meas : Type) (c : cfg Meas) s, aligned (ph_mix s) ->
  let g := ph_mix s in
  let inds := filter (fun i => Rleb (c_extract c) (W g i)) (seq 0 (length (gm_w g))) in
  exists s' r, do_extract c s = Ok s' /\ ph_mix s' = g /\ ph_meas s' = ph_meas s /\
    (forall i, nearest_even (W g i) (r i)) /\
    ph_states s' = ph_states s ++ [flat_map (fun i => repeat (Mn g i) (Z.to_nat (r i))) inds] /\
    ph_covs s' = (if c_save_covs c then ph_covs s ++ [flat_map (fun i => repeat (P g i) (Z.to_nat (r i))) inds] else ph_covs s) /\
    (forall i, i < length (gm_w g) -> (c_extract c <= W g i)%R -> (1 / 2 < W g i)%R ->
       In (Mn g i) (last (ph_states s') [])).
Proof.
  intros Meas c s Ha g inds.
  exists {| ph_mix := g; ph_states := ph_states s ++ [flat_map (fun i => repeat (Mn g i) (Z.to_nat (py_round (W g i)))) inds];
            ph_covs := if c_save_covs c then ph_covs s ++ [flat_map (fun i => repeat (P g i) (Z.to_nat (py_round (W g i)))) inds] else ph_covs s;
            ph_meas := ph_meas s |}, (fun i => py_round (W g i)).
  split.
  { unfold do_extract. rewrite (extract_spec c _ Ha). cbn [bind]. destruct (c_save_covs c); reflexivity. }
  cbn [ph_mix ph_states ph_covs ph_meas]. split; [reflexivity|]. split; [reflexivity|].
  split; [intros i; apply py_round_spec|]. split; [reflexivity|]. split; [reflexivity|].
  intros i Hi He Hw. rewrite last_last. apply in_flat_map. exists i. split.
  - apply filter_In. split; [apply in_seq; lia|apply Rleb_le; exact He].
  - destruct (py_round_spec (W g i)) as [R1 [R2 _]]. assert (H : (0 < py_round (W g i))%Z).
    { apply lt_IZR. lra. }
    destruct (Z.to_nat (py_round (W g i))) eqn:Ez; [lia|]. left. reflexivity.
Qed.
(** C39: gating is a filter: the measurements within the gate of at least one
    component, in their order. *)
Theorem C39_gate_filter_real : forall n d H est Rcov chol inv gate meas g,
  gate_meas n d H est Rcov chol inv gate meas g =
  filter (fun z => existsb (fun mp => Rltb (gate_dist n d H est Rcov chol inv (fst mp) (snd mp) z) gate)
                     (combine (gm_m g) (gm_p g))) meas.
Proof. exact gate_meas_filter. Qed.

(** The matrix S in question: the symmetric part of the covariance of the
    predicted measurement, which is that covariance when p and Rcov are symmetric. *)
Theorem C40_innovation_covariance_real : forall n d H Rcov m p i j,
  (meas_pred_cov n H Rcov m p i j = (innov n (H m) p Rcov i j + innov n (H m) p Rcov j i) / 2)%R /\
  (symmetric n p -> symmetric d Rcov -> i < d -> j < d -> (meas_pred_cov n H Rcov m p i j = innov n (H m) p Rcov i j)%R).
Proof.
  intros n d H Rcov m p.
  assert (E : forall i j, (madd (mmul n (mmul n (H m) p) (mtrans (H m))) Rcov i j = innov n (H m) p Rcov i j)%R).
  { intros i j. unfold madd, innov. apply plus_comp; [|reflexivity].
    change (rsumn_ n (fun l => rsumn_ n (fun k => H m i k * p k l) * H m j l) = rsumn_ n (fun k => rsumn_ n (fun l => H m i k * p k l * H m j l)))%R.
    rewrite qsumn_swap. apply qsumn_ext. intros l _. rewrite (qsumn_scale_r n (H m j l) (fun k => H m i k * p k l)%R). reflexivity. }
  intros i j. assert (E1 : (meas_pred_cov n H Rcov m p i j = (innov n (H m) p Rcov i j + innov n (H m) p Rcov j i) / 2)%R).
  { unfold meas_pred_cov. rewrite (E i j), (E j i). reflexivity. }
  split; [exact E1|]. intros Sp SR Hi Hj. rewrite E1.
  assert (E2 : (innov n (H m) p Rcov j i = innov n (H m) p Rcov i j)%R).
  { unfold innov. rewrite (SR j i Hj Hi). apply plus_comp; [|reflexivity].
    change (rsumn_ n (fun k => rsumn_ n (fun l => H m j k * p k l * H m i l)) = rsumn_ n (fun k => rsumn_ n (fun l => H m i k * p k l * H m j l)))%R.
    rewrite qsumn_swap. apply qsumn_ext. intros l Hl. apply qsumn_ext. intros k Hk. rewrite (Sp k l Hk Hl). ring. }
  rewrite E2. field.
Qed.
(** What the statistic really is: the quadratic form of the inverse of L^T L,
    with L the Cholesky factor (S = L L^T). *)
Theorem C40_gate_distance_actual_real : forall n d H est Rcov chol inv m p z,
  let L := chol (mtrans (meas_pred_cov n H Rcov m p)) in
  is_inverse d (inv L) L ->
  exists X, is_inverse d X (mmul d (mtrans L) L) /\
    (gate_dist n d H est Rcov chol inv m p z = quad d X (fun i => z i - est m i))%R.
Proof.
  intros n d H est Rcov chol inv m p z L HL. exists (mmul d (inv L) (mtrans (inv L))). split; [apply gram_inverse; exact HL|].
  apply (gate_dist_quad n d H est Rcov chol inv m p z).
Qed.
(** It is right for scalar measurements. *)
Theorem C40_gate_distance_scalar_real : forall n H est Rcov chol inv m p z Si,
  let S := meas_pred_cov n H Rcov m p in
  is_chol 1 (chol (mtrans S)) S -> is_inverse 1 (inv (chol (mtrans S))) (chol (mtrans S)) -> is_inverse 1 Si S ->
  (gate_dist n 1 H est Rcov chol inv m p z = quad 1 Si (fun i => z i - est m i))%R.
Proof.
  intros n H est Rcov chol inv m p z Si S [C1 _] [I1 _] [S1 _]. rewrite gate_dist_quad. fold S.
  set (L := chol (mtrans S)) in *. specialize (C1 0 0 ltac:(lia) ltac:(lia)). specialize (I1 0 0 ltac:(lia) ltac:(lia)).
  specialize (S1 0 0 ltac:(lia) ltac:(lia)). unfold mmul, mtrans, mid in *. cbn [Nat.eqb] in *.
  unfold quad, mvmul, mmul, mtrans, vsub in *. rewrite qsumn_S, qsumn_0 in C1, I1, S1. rewrite !qsumn_S, !qsumn_0.
  set (x := (z 0%nat - est m 0%nat)%R). set (l := L 0%nat 0%nat) in *. set (li := inv L 0%nat 0%nat) in *.
  set (si := Si 0%nat 0%nat) in *. set (s := S 0%nat 0%nat) in *.
  assert (E : (si = li * li)%R).
  { assert (E1 : (li * l = 1)%R) by lra. assert (E2 : (si * s = 1)%R) by lra. assert (E3 : (l * l = s)%R) by lra.
    setoid_replace si with (si * ((li * l) * (li * l)))%R by (rewrite E1; ring).
    setoid_replace (si * ((li * l) * (li * l)))%R with (si * (l * l) * (li * li))%R by ring. rewrite E3, E2. ring. }
  rewrite E. ring.
Qed.

Print Assumptions C31_phd_predict_real.
Print Assumptions C32_phd_correct_real.
Print Assumptions C32_phd_correct_total_real.
Print Assumptions C33_phd_aligned_real.
Print Assumptions C34_phd_prune_real.
Print Assumptions C35_phd_merge_real.
Print Assumptions C37_phd_cap_real.
Print Assumptions C38_phd_extract_real.
Print Assumptions C39_gate_filter_real.
Print Assumptions C40_gate_distance_actual_real.
Print Assumptions C40_gate_distance_scalar_real.

Print Assumptions C40_innovation_covariance_real.
