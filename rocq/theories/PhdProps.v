(** Property theorems about the PHD filter (C31-C40, C73). *)
From Verif Require Import Base Lists PhdModel PhdSpec PhdProofs.
From Coq Require Import Permutation Sorted.

(** C31: predict.  The survivors come first, in their old order, with the inner
    filter's predictions and weights times prob_survive; then the births. *)
Theorem C31_phd_predict : forall (Meas : Type) (c : cfg Meas) g, aligned g ->
  (total (predict c g) == c_ps c * total g + qsum (map total (c_birth c)))%Q /\
  gm_w (predict c g) = map (fun x => c_ps c * x)%Q (gm_w g) ++ concat (map gm_w (c_birth c)) /\
  gm_m (predict c g) = map (fun i => fst (fpredict (c_filter c) (Mn g i) (P g i))) (seq 0 (length (gm_w g)))
                       ++ concat (map gm_m (c_birth c)) /\
  gm_p (predict c g) = map (fun i => snd (fpredict (c_filter c) (Mn g i) (P g i))) (seq 0 (length (gm_w g)))
                       ++ concat (map gm_p (c_birth c)).
Proof.
  intros Meas c g [_ [H1 H2]]. destruct (predict_spec c g) as [A [B C]]; [lia|].
  rewrite H1 in B, C. split; [|split; [exact A|split; [exact B|exact C]]].
  unfold total. rewrite A, qs_app, qs_scale, qs_concat, map_map. reflexivity.
Qed.

(** C32: correct.  With N (gated) measurements and n components there are
    (N+1)*n components: for each measurement the corrected components with weight
    q_i*pd*w_i / (clutter + sum_j q_j*pd*w_j), then the n missed ones with
    (1-pd)*w_i and their old state.  The weights of one measurement add to
    S/(clutter+S) <= 1, so the total is at most (1-pd)*W + N. *)
Theorem C32_phd_correct : forall (Meas : Type) (c : cfg Meas) g meas_in meas g',
  aligned g -> correct c meas_in g = Ok (meas, g') ->
  let n := length (gm_w g) in
  let cor z i := fcorrect (c_filter c) z (Mn g i) (P g i) in
  let w z i := (snd (cor z i) * (c_pd c * W g i))%Q in
  let S z := sum_over (seq 0 n) (w z) in
  (c_gating c = false -> meas = meas_in) /\
  aligned_n ((length meas + 1) * n) g' /\
  gm_w g' = flat_map (fun z => map (fun i => w z i / (c_kappa c + S z))%Q (seq 0 n)) meas
            ++ map (fun x => (1 - c_pd c) * x)%Q (gm_w g) /\
  gm_m g' = flat_map (fun z => map (fun i => fst (fst (cor z i))) (seq 0 n)) meas ++ gm_m g /\
  gm_p g' = flat_map (fun z => map (fun i => snd (fst (cor z i))) (seq 0 n)) meas ++ gm_p g /\
  ((0 <= c_kappa c)%Q -> (0 <= c_pd c <= 1)%Q -> nonneg g -> (forall z m p, (0 <= snd (fcorrect (c_filter c) z m p))%Q) ->
   (forall z, In z meas ->
      (sum_over (seq 0 n) (fun i => w z i / (c_kappa c + S z)) == S z / (c_kappa c + S z))%Q /\
      (S z / (c_kappa c + S z) <= 1)%Q) /\
   (total g' <= (1 - c_pd c) * total g + inject_Z (Z.of_nat (length meas)))%Q).
Proof.
  intros Meas c g meas_in meas g' Ha E n cor w S.
  unfold correct in E. apply bind_ok in E as [ms [Em E]]. apply bind_ok in E as [gm [Eg E]].
  injection E as E1 E2. subst ms g'. pose proof Ha as [_ [H1 H2]].
  destruct (correct_density_spec c g meas gm Ha Eg) as [A [B [C D]]].
  change (forall z, sum_over (seq 0 n) (w z) = dsum c g z) with (forall z, S z = dsum c g z).
  assert (L : forall (X : Type) (f : Meas -> nat -> X) l, length (flat_map (fun z => map (f z) (seq 0 n)) l) = length l * n).
  { intros X f l. induction l as [|z l IH]; [reflexivity|]. cbn [flat_map length]. rewrite app_length, map_length, seq_length, IH. lia. }
  split; [intros Hg; rewrite Hg in Em; inversion Em; reflexivity|].
  cbn [gm_app gm_w gm_m gm_p]. split.
  { unfold aligned_n. cbn [gm_app gm_w gm_m gm_p]. rewrite A, B, C, !app_length, map_length, H1, H2.
    rewrite (L Q (fun z i => dw c g z i / (c_kappa c + dsum c g z))%Q).
    rewrite (L vec (fun z i => fst (fst (cor z i)))), (L mat (fun z i => snd (fst (cor z i)))). fold n. lia. }
  split; [rewrite A; reflexivity|]. split; [rewrite B; reflexivity|]. split; [rewrite C; reflexivity|].
  intros Hk Hpd Hn Hq.
  assert (HS : forall z, (0 <= S z)%Q).
  { intros z. apply qs_nonneg. intros x Hx. apply in_map_iff in Hx as [i [<- Hi]]. apply in_seq in Hi.
    apply Qmult_le_0_compat; [apply Hq|]. apply Qmult_le_0_compat; [apply Hpd|]. apply Hn, nth_In. unfold n in Hi. lia. }
  assert (H1z : forall z, In z meas -> (sum_over (seq 0 n) (fun i => w z i / (c_kappa c + S z)) == S z / (c_kappa c + S z))%Q /\
      (S z / (c_kappa c + S z) <= 1)%Q).
  { intros z Hz. split.
    - unfold sum_over, Qdiv. rewrite (qs_ext (fun i => w z i * / (c_kappa c + S z))%Q (fun i => / (c_kappa c + S z) * w z i)%Q) by (intros; ring).
      rewrite qs_scalef. fold (sum_over (seq 0 n) (w z)). fold (S z). ring.
    - destruct (Nat.eq_dec n 0) as [Hn0|Hn0].
      + assert (S z == 0)%Q by (unfold S; rewrite Hn0; reflexivity). rewrite H. unfold Qdiv. rewrite Qmult_0_l. lra.
      + pose proof (D Hn0 z Hz) as Hd. change (dsum c g z) with (S z) in Hd. pose proof (HS z).
        apply Qle_shift_div_r; lra. }
  split; [exact H1z|]. unfold total. cbn [gm_app gm_w]. rewrite A, qs_app, qs_flat_map, qs_scale.
  assert (HB : (qsum (map (fun z => qsum (map (fun i => dw c g z i / (c_kappa c + dsum c g z))%Q (seq 0 n))) meas) <= qsum (map (fun _ => 1%Q) meas))%Q).
  { apply qs_le. intros z Hz. destruct (H1z z Hz) as [X Y]. unfold sum_over in X.
    change (qsum (map (fun i => w z i / (c_kappa c + S z)) (seq 0 n)) <= 1)%Q. rewrite X. exact Y. }
  rewrite qs_const in HB. fold n. lra.
Qed.
(** Correct succeeds when there is clutter. *)
Theorem C32_phd_correct_total : forall (Meas : Type) (c : cfg Meas) g meas,
  aligned g -> nonneg g -> c_gating c = false -> (0 < c_kappa c)%Q -> (0 <= c_pd c)%Q ->
  (forall z m p, (0 <= snd (fcorrect (c_filter c) z m p))%Q) ->
  exists g', correct c meas g = Ok (meas, g').
Proof.
  intros Meas c g meas Ha Hn Hg Hk Hpd Hq. unfold correct. rewrite Hg. cbn [bind].
  destruct (correct_density_total c g meas Ha) as [gm Eg].
  - intros z _. apply Qnot_eq_sym, Qlt_not_eq. assert (0 <= dsum c g z)%Q; [|lra].
    apply qs_nonneg. intros x Hx. apply in_map_iff in Hx as [i [<- Hi]]. apply in_seq in Hi.
    apply Qmult_le_0_compat; [apply Hq|]. apply Qmult_le_0_compat; [exact Hpd|]. apply Hn, nth_In. lia.
  - rewrite Eg. cbn [bind]. eauto.
Qed.

(** C33: under every sequence of calls that raises nothing, the three lists have
    equal length and the weights are non-negative; the extracted covariances, if
    saved, are aligned with the extracted states. *)
Theorem C33_phd_aligned : forall (Meas : Type) (c : cfg Meas) argsort ops s,
  (0 <= c_ps c)%Q -> (0 <= c_pd c <= 1)%Q -> (0 <= c_kappa c)%Q ->
  (forall b, In b (c_birth c) -> aligned b /\ nonneg b) ->
  (forall z m p, (0 <= snd (fcorrect (c_filter c) z m p))%Q) ->
  run c argsort ops phd_init = Ok s ->
  aligned (ph_mix s) /\ nonneg (ph_mix s) /\
  (c_save_covs c = true -> length (ph_covs s) = length (ph_states s) /\
     forall k, k < length (ph_states s) -> length (nth k (ph_covs s) []) = length (nth k (ph_states s) [])).
Proof.
  intros Meas c argsort ops s H1 H2 H3 H4 H5 E.
  destruct (run_ok c argsort H1 H2 H3 H4 H5 ops phd_init s) as [[A B] [C _]]; [|exact E|auto].
  split; [split; [repeat split|intros x []]|]. split; [|reflexivity]. intros _. split; [reflexivity|]. intros k Hk. cbn in Hk. lia.
Qed.

(** C34: prune keeps exactly the components with weight >= threshold, in order. *)
Theorem C34_phd_prune : forall (Meas : Type) (c : cfg Meas) g, aligned g ->
  exists g', prune c g = Ok g' /\ aligned g' /\
    comps g' = filter (fun t => Qle_bool (c_prune c) (fst (fst t))) (comps g).
Proof. intros Meas c g H. exact (prune_spec c g H). Qed.

(** C35: merge terminates; its output components are the weighted means of the
    groups of a partition of the input components; the total weight and the
    weighted sum of means are preserved.  Each group consists of the components,
    among those not in an earlier group, within the threshold of the heaviest. *)
Theorem C35_phd_merge : forall (Meas : Type) (c : cfg Meas) g,
  aligned g -> positive g -> (0 <= c_merge c)%Q ->
  (forall p, In p (gm_p g) -> exists ic, c_inv c p = Ok ic) ->
  exists g' groups, merge c g = Ok g' /\ aligned_n (length groups) g' /\
    Permutation (concat groups) (seq 0 (length (gm_w g))) /\
    (total g' == total g)%Q /\
    (forall i, (sum_over (seq 0 (length groups)) (fun k => W g' k * Mn g' k i) ==
                sum_over (seq 0 (length (gm_w g))) (fun k => W g k * Mn g k i))%Q) /\
    (forall k, k < length groups ->
       let G := nth k groups [] in
       (W g' k == sum_over G (W g))%Q /\
       (forall i, (W g' k * Mn g' k i == sum_over G (fun j => W g j * Mn g j i))%Q) /\
       (forall i j, (W g' k * P g' k i j == sum_over G (fun l => W g l * P g l i j))%Q) /\
       exists jj ic, In jj G /\ c_inv c (P g jj) = Ok ic /\
         (forall l, In l (concat (skipn k groups)) ->
            (W g l <= W g jj)%Q /\
            (In l G <-> (quad (c_dim c) ic (fun a => Mn g l a - Mn g jj a) <= c_merge c)%Q))).
Proof.
  intros Meas c g Ha Hp Ht Hi.
  assert (Hn : nonneg g) by (intros x Hx; apply Qlt_le_weak, Hp; exact Hx).
  assert (L : length (gm_m g) = length (gm_w g)) by apply Ha.
  destruct (loop_total c g Ha Hn Hp Ht Hi (length (gm_w g)) (seq 0 (length (gm_w g))) (gm_w g) (init_winv g)) as [l El].
  { rewrite seq_length. lia. }
  destruct (loop_spec c g Ha Hn _ _ _ _ (init_winv g) El) as [gs Hgs].
  destruct (all_merged_perm c g _ _ _ Hgs) as [Lg Pg].
  set (g' := {| gm_w := map (fun x => fst (fst x)) l; gm_m := map (fun x => snd (fst x)) l; gm_p := map snd l |}).
  exists g', gs. split; [unfold merge, merge_fuel; rewrite L, El; reflexivity|].
  assert (Hper : forall k, k < length gs ->
       let G := nth k gs [] in
       (W g' k == sum_over G (W g))%Q /\
       (forall i, (W g' k * Mn g' k i == sum_over G (fun j => W g j * Mn g j i))%Q) /\
       (forall i j, (W g' k * P g' k i j == sum_over G (fun l => W g l * P g l i j))%Q) /\
       exists jj ic, In jj G /\ c_inv c (P g jj) = Ok ic /\
         (forall l, In l (concat (skipn k gs)) ->
            (W g l <= W g jj)%Q /\
            (In l G <-> (quad (c_dim c) ic (fun a => Mn g l a - Mn g jj a) <= c_merge c)%Q))).
  { intros k Hk. cbn zeta. destruct (all_merged_nth c g gs _ l k Hgs Hk) as [rest [Hr [M1 [M2 [M3 [M4 [jj [ic [J1 [J2 [J3 J4]]]]]]]]]]].
    assert (Hkl : k < length l) by lia.
    pose (x0 := (0%Q, (fun _ => 0%Q) : vec, (fun _ _ => 0%Q) : mat)).
    assert (EW : W g' k = fst (fst (nth k l x0))) by (unfold W, g'; cbn [gm_w]; apply (nth_map' (fun x : Q * vec * mat => fst (fst x)) l k _ x0 Hkl)).
    assert (EM : Mn g' k = snd (fst (nth k l x0))) by (unfold Mn, g'; cbn [gm_m]; apply (nth_map' (fun x : Q * vec * mat => snd (fst x)) l k _ x0 Hkl)).
    assert (EP : P g' k = snd (nth k l x0)) by (unfold P, g'; cbn [gm_p]; apply (nth_map' (fun x : Q * vec * mat => snd x) l k _ x0 Hkl)).
    rewrite EW, EM, EP.
    split; [exact M1|]. split; [exact M3|]. split; [exact M4|]. exists jj, ic. split.
    { rewrite J4. apply filter_In. split; [exact J1|]. unfold within. apply Qleb_le. rewrite quad_zero; [exact Ht|]. intros a. unfold vsub. ring. }
    split; [exact J3|]. intros a Hin. apply (Permutation_in _ Hr) in Hin. split; [apply J2; exact Hin|].
    rewrite J4, filter_In. unfold within. rewrite Qleb_le. unfold vsub. tauto. }
  split; [split; [|split]; cbn [gm_w gm_m gm_p g']; rewrite map_length; lia|]. split; [exact Pg|].
  assert (Hsum : forall f, (sum_over (seq 0 (length gs)) (fun k => sum_over (nth k gs []) f) == sum_over (seq 0 (length (gm_w g))) f)%Q).
  { intros f. unfold sum_over at 3. rewrite <- (qs_perm _ _ (Permutation_map f Pg)). rewrite concat_map, qs_concat, map_map.
    unfold sum_over. transitivity (qsum (map (fun x => qsum (map f x)) (map (fun i => nth i gs []) (seq 0 (length gs))))).
    - rewrite map_map. reflexivity.
    - rewrite map_nth_seq. reflexivity. }
  split; [|split; [|exact Hper]].
  - unfold total. rewrite <- (map_nth_seq (gm_w g') 0%Q). cbn [gm_w g']. rewrite map_length, <- Lg.
    rewrite (qs_ext _ (fun k => sum_over (nth k gs []) (W g))).
    2:{ intros k Hk. apply in_seq in Hk. destruct (Hper k ltac:(lia)) as [X _]. exact X. }
    fold (sum_over (seq 0 (length gs)) (fun k => sum_over (nth k gs []) (W g))). rewrite Hsum. unfold sum_over, W. rewrite map_nth_seq. reflexivity.
  - intros i. rewrite <- Hsum. apply qs_ext. intros k Hk. apply in_seq in Hk. destruct (Hper k ltac:(lia)) as [_ [X _]]. apply X.
Qed.

(** C36 is false: the second moment sum_k w_k (P_k + m_k m_k^T) is not preserved;
    the merged covariance ignores the spread of the means.  One dimension, two
    components at 0 and 1. *)
Definition ex_cfg (thr : Q) (mx : nat) : cfg nat :=
  {| c_filter := {| fpredict := fun m p => (m, p); fcorrect := fun _ m p => (m, p, 1%Q) |};
     c_pd := 9 # 10; c_ps := 1; c_birth := []; c_kappa := 1; c_extract := 1 # 2; c_prune := 1 # 100; c_merge := thr;
     c_max := mx; c_gating := false; c_save_covs := true; c_dim := 1;
     c_inv := fun p => if Qeq_bool (p 0 0)%nat 0 then Err ValueErr else Ok (fun _ _ => / p 0 0)%nat%Q;
     c_gate := fun m _ => Ok m |}.
Definition ex_mix : gmix :=
  {| gm_w := [1; 1]%Q; gm_m := [(fun _ => 0%Q); (fun _ => 1%Q)]; gm_p := [(fun _ _ => 1%Q); (fun _ _ => 1%Q)] |}.
Theorem C36_phd_merge_moment_refuted : exists (c : cfg nat) g g',
  aligned g /\ positive g /\ (0 <= c_merge c)%Q /\ merge c g = Ok g' /\
  ~ (sum_over (seq 0 (length (gm_w g'))) (fun k => W g' k * (P g' k 0%nat 0%nat + Mn g' k 0%nat * Mn g' k 0%nat)) ==
     sum_over (seq 0 (length (gm_w g))) (fun k => W g k * (P g k 0%nat 0%nat + Mn g k 0%nat * Mn g k 0%nat)))%Q.
Proof.
  exists (ex_cfg 4 10), ex_mix. eexists. split; [repeat split|]. split.
  - intros x [<-|[<-|[]]]; reflexivity.
  - split; [discriminate|]. split; [reflexivity|]. vm_compute. discriminate.
Qed.

(** C37: cap.  At most max_gauss components remain, the heaviest ones, in their
    old order, with states unchanged and the total weight unchanged. *)
Theorem C37_phd_cap : forall (Meas : Type) (c : cfg Meas) idx g,
  aligned g -> positive g -> 1 <= c_max c -> sorts idx (gm_w g) ->
  exists g', cap c idx g = Ok g' /\ (total g' == total g)%Q /\ length (gm_w g') <= c_max c /\
  ((length (gm_w g) <= c_max c /\ g' = g) \/
   (c_max c < length (gm_w g) /\ exists kept,
     StronglySorted lt kept /\ length kept = c_max c /\ (forall i, In i kept -> i < length (gm_w g)) /\
     (forall i j, In i kept -> j < length (gm_w g) -> ~ In j kept -> (W g j <= W g i)%Q) /\
     gm_m g' = map (Mn g) kept /\ gm_p g' = map (P g) kept /\
     gm_w g' = map (fun i => W g i * (total g / sum_over kept (W g)))%Q kept)).
Proof.
  intros Meas c idx g Ha Hp Hm Hs.
  assert (Ex : exists g', cap c idx g = Ok g').
  { unfold cap. destruct (Nat.ltb_spec (c_max c) (length (gm_w g))) as [Hlt|Hge]; [|eauto].
    pose proof Hs as [Hperm _]. pose proof Ha as [_ [H1 H2]].
    assert (Ec : (c_max c =? 0) = false) by (apply Nat.eqb_neq; lia). rewrite Ec.
    assert (Li : length idx = length (gm_w g)) by (rewrite (Permutation_length Hperm), seq_length; reflexivity).
    assert (Hd : forall i, In i (firstn (length idx - c_max c) idx) -> i < length (gm_w g)).
    { intros i Hi. assert (Hi' : In i idx) by (rewrite <- (firstn_skipn (length idx - c_max c) idx); apply in_or_app; left; exact Hi).
      apply (Permutation_in _ Hperm) in Hi'. apply in_seq in Hi'. lia. }
    rewrite !del_idx_ok; try (intros i Hx; rewrite ?H1, ?H2; apply Hd; exact Hx). cbn [bind].
    match goal with |- context [Qeq_bool ?q 0] => assert (Hz : Qeq_bool q 0 = false) end; [|rewrite Hz; eauto].
    apply Qeqb_neq, Qnot_eq_sym, Qlt_not_eq, qs_pos.
    - rewrite (keep_idx_spec _ _ 0%Q). intros E. apply map_eq_nil in E.
      set (K := fun i => negb (existsb (Nat.eqb i) (firstn (length idx - c_max c) idx))) in E.
      assert (Hin : In (nth (length idx - c_max c) idx 0) (filter K (seq 0 (length (gm_w g))))); [|rewrite E in Hin; destruct Hin].
      apply filter_In. split; [apply (Permutation_in _ Hperm), nth_In; lia|]. unfold K. apply negb_true_iff, existsb_eqb_false.
      intros Hin. apply (In_nth _ _ 0) in Hin as [a [La Ea]]. rewrite firstn_length in La. rewrite nth_firstn' in Ea by lia.
      assert (ND : NoDup idx) by (eapply Permutation_NoDup; [symmetry; exact Hperm|apply seq_NoDup]).
      rewrite NoDup_nth in ND. specialize (ND a (length idx - c_max c) ltac:(lia) ltac:(lia) Ea). lia.
    - intros x Hx. apply keep_idx_in in Hx. apply Hp. exact Hx. }
  destruct Ex as [g' E]. exists g'. split; [exact E|].
  destruct (cap_spec c idx g g' Ha Hm Hs E) as [[HL ->]|[HL [kept [K1 [K2 [K3 [K4 [K5 [K6 [K7 K8]]]]]]]]]].
  - split; [reflexivity|]. split; [exact HL|]. left. auto.
  - split; [|split; [rewrite K8, map_length; lia|right; split; [exact HL|exists kept; repeat (split; [assumption|]); assumption]]].
    unfold total at 1. rewrite K8.
    rewrite (qs_ext _ (fun i => (total g / sum_over kept (W g)) * W g i)%Q) by (intros; ring). rewrite qs_scalef.
    fold (sum_over kept (W g)). field. exact K7.
Qed.

(** C38: extraction appends one entry per call that repeats each component with
    weight >= threshold round(weight) times (ties to even), in order, and the
    covariances likewise; a component with weight > 1/2 is reported at least
    once. *)
Theorem C38_phd_extract : forall (Meas : Type) (c : cfg Meas) s, aligned (ph_mix s) ->
  let g := ph_mix s in
  let inds := filter (fun i => Qle_bool (c_extract c) (W g i)) (seq 0 (length (gm_w g))) in
  exists s' r, do_extract c s = Ok s' /\ ph_mix s' = g /\ ph_meas s' = ph_meas s /\
    (forall i, nearest_even (W g i) (r i)) /\
    ph_states s' = ph_states s ++ [flat_map (fun i => repeat (Mn g i) (Z.to_nat (r i))) inds] /\
    ph_covs s' = (if c_save_covs c then ph_covs s ++ [flat_map (fun i => repeat (P g i) (Z.to_nat (r i))) inds] else ph_covs s) /\
    (forall i, i < length (gm_w g) -> (c_extract c <= W g i)%Q -> (1 # 2 < W g i)%Q ->
       In (Mn g i) (last (ph_states s') [])).
Proof.
  intros Meas c s Ha g inds.
  exists {| ph_mix := g; ph_states := ph_states s ++ [flat_map (fun i => repeat (Mn g i) (Z.to_nat (py_round (W g i)))) inds];
            ph_covs := if c_save_covs c then ph_covs s ++ [flat_map (fun i => repeat (P g i) (Z.to_nat (py_round (W g i)))) inds] else ph_covs s;
            ph_meas := ph_meas s |}, (fun i => py_round (W g i)).
  split.
  { unfold do_extract. rewrite (extract_spec c _ Ha). cbn [bind]. destruct (c_save_covs c); reflexivity. }
  cbn [ph_mix ph_states ph_covs ph_meas]. split; [reflexivity|]. split; [reflexivity|].
  split; [intros i; apply py_round_spec|]. split; [reflexivity|]. split; [reflexivity|].
  intros i Hi He Hw. rewrite last_last. apply in_flat_map. exists i. split.
  - apply filter_In. split; [apply in_seq; lia|apply Qleb_le; exact He].
  - destruct (py_round_spec (W g i)) as [R1 [R2 _]]. assert (H : (0 < py_round (W g i))%Z).
    { rewrite Zlt_Qlt. change (inject_Z 0) with 0%Q. lra. }
    destruct (Z.to_nat (py_round (W g i))) eqn:Ez; [lia|]. left. reflexivity.
Qed.
(** C38's last clause is false at the default threshold: weight 0.5 is rounded
    to 0, the component is not reported. *)
Theorem C38_phd_extract_half_refuted : exists (c : cfg nat) s s' i,
  aligned (ph_mix s) /\ i < length (gm_w (ph_mix s)) /\ (c_extract c <= W (ph_mix s) i)%Q /\
  do_extract c s = Ok s' /\ last (ph_states s') [] = [].
Proof.
  exists (ex_cfg 4 10), {| ph_mix := {| gm_w := [1 # 2]%Q; gm_m := [(fun _ => 3%Q)]; gm_p := [(fun _ _ => 1%Q)] |};
    ph_states := []; ph_covs := []; ph_meas := [] |}. eexists. exists 0.
  split; [repeat split|]. split; [cbn; lia|]. split; [discriminate|]. split; [reflexivity|]. reflexivity.
Qed.

(** C39: gating is a filter: the measurements within the gate of at least one
    component, in their order. *)
Theorem C39_gate_filter : forall n d H est R chol inv gate meas g,
  gate_meas n d H est R chol inv gate meas g =
  filter (fun z => existsb (fun mp => Qltb (gate_dist n d H est R chol inv (fst mp) (snd mp) z) gate)
                     (combine (gm_m g) (gm_p g))) meas.
Proof. exact gate_meas_filter. Qed.

(** C40 is false: with a correct Cholesky factor and a correct inverse the
    gating statistic is not (z-est)^T S^-1 (z-est), and a measurement inside the
    gate is dropped. *)
Definition ex_S : mat := fun i j => match i, j with 1, 1 => 2%Q | _, _ => 1%Q end.
Definition ex_L : mat := fun i j => match i, j with 0, 1 => 0%Q | _, _ => 1%Q end.
Definition ex_Li : mat := fun i j => match i, j with 0, 1 => 0%Q | 1, 0 => (-1)%Q | _, _ => 1%Q end.
Definition ex_Si : mat := fun i j => match i, j with 0, 0 => 2%Q | 1, 1 => 1%Q | _, _ => (-1)%Q end.
Ltac all2 := intros i j; destruct i as [|[|i]]; destruct j as [|[|j]]; intros ? ?; try lia; reflexivity.
Theorem C40_gate_distance_refuted : exists H est R chol inv gate m p z Si,
  let S := meas_pred_cov 2 H R m p in
  is_chol 2 (chol (mtrans S)) S /\ is_inverse 2 (inv (chol (mtrans S))) (chol (mtrans S)) /\ is_inverse 2 Si S /\
  ~ (gate_dist 2 2 H est R chol inv m p z == quad 2 Si (fun i => z i - est m i))%Q /\
  (quad 2 Si (fun i => z i - est m i) < gate)%Q /\
  gate_meas 2 2 H est R chol inv gate [z] {| gm_w := [1%Q]; gm_m := [m]; gm_p := [p] |} = [].
Proof.
  exists (fun _ => mid), (fun m => m), ex_S, (fun _ => ex_L), (fun _ => ex_Li), (3 # 2)%Q,
    (fun _ => 0%Q), (fun _ _ => 0%Q), (fun i => match i with 1 => 1%Q | _ => 0%Q end), ex_Si.
  cbn zeta. split; [|split; [|split; [|split; [|split]]]].
  - split; [all2|]. split.
    + intros i j Hij Hj. destruct j as [|[|j]]; [lia| |lia]. destruct i; [reflexivity|lia].
    + intros i Hi. destruct i as [|[|i]]; [reflexivity|reflexivity|lia].
  - split; all2.
  - split; all2.
  - vm_compute. discriminate.
  - vm_compute. reflexivity.
  - reflexivity.
Qed.
(** The matrix S in question: the symmetric part of the covariance of the
    predicted measurement, which is that covariance when p and R are symmetric. *)
Theorem C40_innovation_covariance : forall n d H R m p i j,
  (meas_pred_cov n H R m p i j == (innov n (H m) p R i j + innov n (H m) p R j i) / 2)%Q /\
  (symmetric n p -> symmetric d R -> i < d -> j < d -> (meas_pred_cov n H R m p i j == innov n (H m) p R i j)%Q).
Proof.
  intros n d H R m p.
  assert (E : forall i j, (madd (mmul n (mmul n (H m) p) (mtrans (H m))) R i j == innov n (H m) p R i j)%Q).
  { intros i j. unfold madd, innov. apply plus_comp; [|reflexivity].
    change (qsumn n (fun l => qsumn n (fun k => H m i k * p k l) * H m j l) == qsumn n (fun k => qsumn n (fun l => H m i k * p k l * H m j l)))%Q.
    rewrite qsumn_swap. apply qsumn_ext. intros l _. rewrite (qsumn_scale_r n (H m j l) (fun k => H m i k * p k l)%Q). reflexivity. }
  intros i j. assert (E1 : (meas_pred_cov n H R m p i j == (innov n (H m) p R i j + innov n (H m) p R j i) / 2)%Q).
  { unfold meas_pred_cov. rewrite (E i j), (E j i). reflexivity. }
  split; [exact E1|]. intros Sp SR Hi Hj. rewrite E1.
  assert (E2 : (innov n (H m) p R j i == innov n (H m) p R i j)%Q).
  { unfold innov. rewrite (SR j i Hj Hi). apply plus_comp; [|reflexivity].
    change (qsumn n (fun k => qsumn n (fun l => H m j k * p k l * H m i l)) == qsumn n (fun k => qsumn n (fun l => H m i k * p k l * H m j l)))%Q.
    rewrite qsumn_swap. apply qsumn_ext. intros l Hl. apply qsumn_ext. intros k Hk. rewrite (Sp k l Hk Hl). ring. }
  rewrite E2. field.
Qed.
(** What the statistic really is: the quadratic form of the inverse of L^T L,
    with L the Cholesky factor (S = L L^T). *)
Theorem C40_gate_distance_actual : forall n d H est R chol inv m p z,
  let L := chol (mtrans (meas_pred_cov n H R m p)) in
  is_inverse d (inv L) L ->
  exists X, is_inverse d X (mmul d (mtrans L) L) /\
    (gate_dist n d H est R chol inv m p z == quad d X (fun i => z i - est m i))%Q.
Proof.
  intros n d H est R chol inv m p z L HL. exists (mmul d (inv L) (mtrans (inv L))). split; [apply gram_inverse; exact HL|].
  apply (gate_dist_quad n d H est R chol inv m p z).
Qed.
(** It is right for scalar measurements. *)
Theorem C40_gate_distance_scalar : forall n H est R chol inv m p z Si,
  let S := meas_pred_cov n H R m p in
  is_chol 1 (chol (mtrans S)) S -> is_inverse 1 (inv (chol (mtrans S))) (chol (mtrans S)) -> is_inverse 1 Si S ->
  (gate_dist n 1 H est R chol inv m p z == quad 1 Si (fun i => z i - est m i))%Q.
Proof.
  intros n H est R chol inv m p z Si S [C1 _] [I1 _] [S1 _]. rewrite gate_dist_quad. fold S.
  set (L := chol (mtrans S)) in *. specialize (C1 0 0 ltac:(lia) ltac:(lia)). specialize (I1 0 0 ltac:(lia) ltac:(lia)).
  specialize (S1 0 0 ltac:(lia) ltac:(lia)). unfold mmul, mtrans, mid in *. cbn [Nat.eqb] in *.
  unfold quad, mvmul, mmul, mtrans, vsub in *. rewrite qsumn_S, qsumn_0 in C1, I1, S1. rewrite !qsumn_S, !qsumn_0.
  set (x := (z 0%nat - est m 0%nat)%Q). set (l := L 0%nat 0%nat) in *. set (li := inv L 0%nat 0%nat) in *.
  set (si := Si 0%nat 0%nat) in *. set (s := S 0%nat 0%nat) in *.
  assert (E : (si == li * li)%Q).
  { assert (E1 : (li * l == 1)%Q) by lra. assert (E2 : (si * s == 1)%Q) by lra. assert (E3 : (l * l == s)%Q) by lra.
    setoid_replace si with (si * ((li * l) * (li * l)))%Q by (rewrite E1; ring).
    setoid_replace (si * ((li * l) * (li * l)))%Q with (si * (l * l) * (li * li))%Q by ring. rewrite E3, E2. ring. }
  rewrite E. ring.
Qed.

(** C73 is false: the gate given to the constructor is overwritten with 0 ... *)
Theorem C73_phd_ctor_gate_refuted : exists v, getattr attr_gate (phd_new (Some v)) <> Some v.
Proof. exists 9%Q. discriminate. Qed.
(** ... whatever is given, and a filter with this gate drops every measurement. *)
Theorem C73_phd_ctor_gate_drops : forall arg gate n d H est R chol inv meas g,
  getattr attr_gate (phd_new arg) = Some gate ->
  gate = 0%Q /\ gate_meas n d H est R chol inv gate meas g = [].
Proof.
  intros arg gate n d H est R chol inv meas g E. cbn in E. inversion E. split; [reflexivity|].
  rewrite gate_meas_filter. induction meas as [|z zs IH]; [reflexivity|]. cbn [filter].
  match goal with |- context [existsb ?f ?l] => assert (Ef : existsb f l = false) end; [|rewrite Ef; exact IH].
  clear IH. induction (combine (gm_m g) (gm_p g)) as [|mp l IHl]; [reflexivity|]. cbn [existsb]. rewrite IHl, orb_false_r.
  apply Qltb_ge. apply gate_dist_nonneg.
Qed.

Print Assumptions C31_phd_predict.
Print Assumptions C32_phd_correct.
Print Assumptions C32_phd_correct_total.
Print Assumptions C33_phd_aligned.
Print Assumptions C34_phd_prune.
Print Assumptions C35_phd_merge.
Print Assumptions C36_phd_merge_moment_refuted.
Print Assumptions C37_phd_cap.
Print Assumptions C38_phd_extract.
Print Assumptions C38_phd_extract_half_refuted.
Print Assumptions C39_gate_filter.
Print Assumptions C40_gate_distance_refuted.
Print Assumptions C40_gate_distance_actual.
Print Assumptions C40_gate_distance_scalar.
Print Assumptions C73_phd_ctor_gate_refuted.
Print Assumptions C73_phd_ctor_gate_drops.

(** Instances of the hypotheses. *)
Definition ex_mix3 : gmix :=
  {| gm_w := [1 # 2; 2; 1 # 1000]%Q; gm_m := [(fun _ => 0%Q); (fun _ => 1%Q); (fun _ => 9%Q)];
     gm_p := [(fun _ _ => 1%Q); (fun _ _ => 2%Q); (fun _ _ => 1%Q)] |}.
Example C31_ex : aligned ex_mix3 /\ positive ex_mix3 /\ nonneg ex_mix3.
Proof.
  split; [repeat split|]. split; intros x [<-|[<-|[<-|[]]]]; [reflexivity..|discriminate|discriminate|discriminate].
Qed.
Example C32_ex : exists g', correct (ex_cfg 4 10) [7; 8] ex_mix3 = Ok ([7; 8], g') /\ length (gm_w g') = 9.
Proof. eexists. split; reflexivity. Qed.
Example C33_ex : exists s, run (ex_cfg 4 2) (fun ws => seq 0 (length ws))
  [Predict; Correct [1]; Cleanup true true true true; Predict; Extract] phd_init = Ok s.
Proof. eexists. reflexivity. Qed.
Example C35_ex : exists g', merge (ex_cfg 4 10) ex_mix3 = Ok g' /\ length (gm_w g') = 2 /\
  (forall p, In p (gm_p ex_mix3) -> exists ic, c_inv (ex_cfg 4 10) p = Ok ic).
Proof.
  eexists. split; [reflexivity|]. split; [reflexivity|]. intros p [<-|[<-|[<-|[]]]]; eexists; reflexivity.
Qed.
Example C37_ex : sorts [2; 0; 1] (gm_w ex_mix3) /\ exists g', cap (ex_cfg 4 2) [2; 0; 1] ex_mix3 = Ok g' /\ length (gm_w g') = 2.
Proof.
  split; [split; [cbn; apply perm_trans with [0; 2; 1]; [apply perm_swap|apply perm_skip, perm_swap]|]|eexists; split; reflexivity].
  intros i j [H1 H2]. cbn in H2. destruct i as [|[|[|i]]], j as [|[|[|j]]]; try lia; cbn; discriminate.
Qed.
Example C40_scalar_ex : let S := meas_pred_cov 1 (fun _ => mid) (fun _ _ => 4%Q) (fun _ => 0%Q) (fun _ _ => 0%Q) in
  is_chol 1 (fun _ _ => 2%Q) S /\ is_inverse 1 (fun _ _ => 1 # 2)%Q (fun _ _ => 2%Q) /\ is_inverse 1 (fun _ _ => 1 # 4)%Q S.
Proof.
  cbn zeta. split; [split; [|split]|split; split]; try (intros i j; destruct i as [|i]; destruct j as [|j]; intros ? ?; try lia; reflexivity).
  intros i Hi. reflexivity.
Qed.
Print Assumptions C40_innovation_covariance.
