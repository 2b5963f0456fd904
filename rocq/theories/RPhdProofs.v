(** Generated by mk_real.py from PhdProofs.v: the same over the real numbers. *)
(** Proofs about the PHD model. *)
From Verif Require Import RBase RLists RPhdModel RPhdSpec.
From Coq Require Import Permutation Sorted Lia.

(** ** Deletion by index *)
Lemma keep_idx_spec {A} drop (l : list A) d :
  keep_idx drop l = map (fun i => nth i l d) (filter (fun i => negb (drop i)) (seq 0 (length l))).
Proof. unfold keep_idx. rewrite (combine_seq l d), filter_map, map_map. reflexivity. Qed.
Lemma del_idx_ok {A} idx (l : list A) : (forall i, In i idx -> i < length l) ->
  del_idx idx l = Ok (keep_idx (fun i => existsb (Nat.eqb i) idx) l).
Proof.
  intros H. unfold del_idx. assert (E : forallb (fun i => i <? length l) idx = true).
  { apply forallb_forall. intros i Hi. apply Nat.ltb_lt. auto. } rewrite E. reflexivity.
Qed.
Lemma del_idx_inv {A} idx (l l' : list A) : del_idx idx l = Ok l' ->
  l' = keep_idx (fun i => existsb (Nat.eqb i) idx) l /\ forall i, In i idx -> i < length l.
Proof.
  unfold del_idx. destruct (forallb (fun i => i <? length l) idx) eqn:E; [|discriminate].
  intros H. inversion H. split; [reflexivity|]. rewrite forallb_forall in E. intros i Hi. apply Nat.ltb_lt. auto.
Qed.
Lemma keep_idx_length {A B} drop (l : list A) (l' : list B) : length l = length l' ->
  length (keep_idx drop l) = length (keep_idx drop l').
Proof.
  intros H. unfold keep_idx. rewrite !map_length.
  revert l' H. generalize 0. induction l as [|x l IH]; intros s l' H; destruct l' as [|y l']; try discriminate; [reflexivity|].
  cbn in H. cbn [length seq combine filter fst]. destruct (negb (drop s)); cbn [length]; [f_equal|]; apply IH; lia.
Qed.
Lemma keep_idx_in {A} drop (l : list A) x : In x (keep_idx drop l) -> In x l.
Proof.
  unfold keep_idx. intros H. apply in_map_iff in H as [p [<- H]]. apply filter_In in H as [H _].
  destruct p as [i y]. apply in_combine_r in H. exact H.
Qed.

Lemma comps_nth g : aligned g -> comps g = map (fun i => (W g i, Mn g i, P g i)) (seq 0 (length (gm_w g))).
Proof.
  intros [_ [H1 H2]]. unfold comps. rewrite (combine_nth2 (gm_w g) (gm_m g) 0%R (fun _ => 0%R)) by lia.
  rewrite <- (map_nth_seq (gm_p g) (fun _ _ => 0%R)). rewrite H2. apply combine_map2.
Qed.

(** ** predict *)
Lemma fold_gm_app l : forall g, fold_left gm_app l g =
  {| gm_w := gm_w g ++ concat (map gm_w l); gm_m := gm_m g ++ concat (map gm_m l); gm_p := gm_p g ++ concat (map gm_p l) |}.
Proof.
  induction l as [|b l IH]; intros g; cbn [fold_left map concat].
  - rewrite !app_nil_r. destruct g; reflexivity.
  - rewrite IH. cbn [gm_app gm_w gm_m gm_p]. rewrite !app_assoc. reflexivity.
Qed.
Lemma predict_spec {M} (c : cfg M) g : length (gm_m g) = length (gm_p g) ->
  gm_w (predict c g) = map (fun x => c_ps c * x)%R (gm_w g) ++ concat (map gm_w (c_birth c)) /\
  gm_m (predict c g) = map (fun i => fst (fpredict (c_filter c) (Mn g i) (P g i))) (seq 0 (length (gm_m g)))
                       ++ concat (map gm_m (c_birth c)) /\
  gm_p (predict c g) = map (fun i => snd (fpredict (c_filter c) (Mn g i) (P g i))) (seq 0 (length (gm_m g)))
                       ++ concat (map gm_p (c_birth c)).
Proof.
  intros H. unfold predict. rewrite fold_gm_app. cbn [gm_w gm_m gm_p predict_density].
  split; [reflexivity|].
  rewrite (combine_nth2 (gm_m g) (gm_p g) (fun _ => 0%R) (fun _ _ => 0%R) H), !map_map.
  split; reflexivity.
Qed.

(** ** correct *)
Lemma correct_one_spec {M} (c : cfg M) z m : forall w p, length w = length m -> length p = length m ->
  correct_one c z w m p = Ok (map (fun i =>
     let r := fcorrect (c_filter c) z (nth i m (fun _ => 0%R)) (nth i p (fun _ _ => 0%R)) in
     (fst r, (snd r * (c_pd c * nth i w 0))%R)) (seq 0 (length m))).
Proof.
  induction m as [|m0 m IH]; intros w p Hw Hp; [reflexivity|].
  destruct w as [|w0 w]; [discriminate|]. destruct p as [|p0 p]; [discriminate|].
  cbn [correct_one]. cbn in Hw, Hp. destruct (fcorrect (c_filter c) z m0 p0) as [[m1 p1] qz] eqn:E.
  rewrite IH by lia. cbn [bind length seq map nth]. rewrite E. cbn [fst snd].
  do 2 f_equal. rewrite <- seq_shift, map_map. reflexivity.
Qed.

Section Correct.
Context {Meas : Type} (c : cfg Meas) (g : gmix).
Notation n := (length (gm_w g)).
(** Likelihood times detection weight of component [i] for measurement [z]. *)
Definition dw (z : Meas) (i : nat) : R :=
  (snd (fcorrect (c_filter c) z (Mn g i) (P g i)) * (c_pd c * W g i))%R.
Definition dsum (z : Meas) : R := rsum (map (dw z) (seq 0 n)).

Lemma correct_density_spec meas gm : aligned g -> correct_density c meas g = Ok gm ->
  gm_w gm = flat_map (fun z => map (fun i => dw z i / (c_kappa c + dsum z))%R (seq 0 n)) meas /\
  gm_m gm = flat_map (fun z => map (fun i => fst (fst (fcorrect (c_filter c) z (Mn g i) (P g i)))) (seq 0 n)) meas /\
  gm_p gm = flat_map (fun z => map (fun i => snd (fst (fcorrect (c_filter c) z (Mn g i) (P g i)))) (seq 0 n)) meas /\
  (n <> 0 -> forall z, In z meas -> ~ (c_kappa c + dsum z = 0)%R).
Proof.
  intros [_ [H1 H2]]. revert gm. induction meas as [|z zs IH]; intros gm E; cbn [correct_density] in E.
  { inversion E. cbn. repeat split; try reflexivity. intros _ z []. }
  rewrite correct_one_spec in E by lia. cbn [bind] in E.
  apply bind_ok in E as [ws [E1 E]]. apply bind_ok in E as [r [E2 E]]. inversion E as [Eg]. clear E.
  destruct (IH r E2) as [A [B [C D]]]. cbn [gm_app gm_w gm_m gm_p flat_map]. rewrite A, B, C.
  rewrite !map_map, H1. cbn [fst snd]. split; [|split; [reflexivity|split; [reflexivity|]]].
  - f_equal. unfold normalise in E1. rewrite map_map, H1 in E1. cbn [snd] in E1.
    change (map (fun x => snd (fcorrect (c_filter c) z (nth x (gm_m g) (fun _ => 0)) (nth x (gm_p g) (fun _ _ => 0)))
              * (c_pd c * nth x (gm_w g) 0))%R (seq 0 n)) with (map (dw z) (seq 0 n)) in E1.
    fold (dsum z) in E1. destruct (map (dw z) (seq 0 n)) as [|q l] eqn:El.
    + apply map_eq_nil in El. rewrite El. inversion E1. reflexivity.
    + rewrite <- El in E1. destruct (Reqb (c_kappa c + dsum z) 0); [discriminate|]. inversion E1.
      rewrite map_map. reflexivity.
  - intros Hn z' [<-|Hz]; [|apply D; assumption].
    unfold normalise in E1. rewrite map_map, H1 in E1. cbn [snd] in E1.
    change (map (fun x => snd (fcorrect (c_filter c) z (nth x (gm_m g) (fun _ => 0)) (nth x (gm_p g) (fun _ _ => 0)))
              * (c_pd c * nth x (gm_w g) 0))%R (seq 0 n)) with (map (dw z) (seq 0 n)) in E1.
    fold (dsum z) in E1. destruct (map (dw z) (seq 0 n)) as [|q l] eqn:El.
    { apply map_eq_nil in El. destruct n; [congruence|discriminate]. }
    destruct (Reqb (c_kappa c + dsum z) 0) eqn:Eq; [discriminate|]. apply Reqb_neq in Eq. exact Eq.
Qed.

Lemma correct_density_total meas : aligned g -> (forall z, In z meas -> ~ (c_kappa c + dsum z = 0)%R) ->
  exists gm, correct_density c meas g = Ok gm.
Proof.
  intros [_ [H1 H2]]. induction meas as [|z zs IH]; intros H; cbn [correct_density]; [eauto|].
  rewrite correct_one_spec by lia. cbn [bind]. rewrite map_map, H1. cbn [snd].
  change (map (fun x => snd (fcorrect (c_filter c) z (nth x (gm_m g) (fun _ => 0)) (nth x (gm_p g) (fun _ _ => 0)))
              * (c_pd c * nth x (gm_w g) 0))%R (seq 0 n)) with (map (dw z) (seq 0 n)).
  unfold normalise. fold (dsum z). destruct IH as [r Er]; [intros y Hy; apply H; right; exact Hy|].
  assert (Hz : Reqb (c_kappa c + dsum z) 0 = false) by (apply Reqb_neq, H; left; reflexivity).
  rewrite Hz. destruct (map (dw z) (seq 0 n)); cbn [bind]; rewrite Er; cbn [bind]; eauto.
Qed.
End Correct.

(** ** prune *)
Lemma prune_spec {M} (c : cfg M) g : aligned g -> exists g', prune c g = Ok g' /\ aligned g' /\
  comps g' = filter (fun t => Rleb (c_prune c) (fst (fst t))) (comps g).
Proof.
  intros Ha. pose proof Ha as [_ [H1 H2]]. unfold prune.
  set (idx := filter (fun i => Rltb (nth i (gm_w g) 0%R) (c_prune c)) (seq 0 (length (gm_w g)))).
  assert (Hi : forall i, In i idx -> i < length (gm_w g)).
  { intros i Hi. apply filter_In in Hi as [Hi _]. apply in_seq in Hi. lia. }
  rewrite !del_idx_ok; try (intros i Hx; rewrite ?H1, ?H2; apply Hi; exact Hx).
  cbn [bind]. eexists. split; [reflexivity|].
  set (K := fun i => existsb (Nat.eqb i) idx).
  assert (Ha' : aligned {| gm_w := keep_idx K (gm_w g); gm_m := keep_idx K (gm_m g); gm_p := keep_idx K (gm_p g) |}).
  { unfold aligned, aligned_n. cbn [gm_w gm_m gm_p].
    rewrite (keep_idx_length K (gm_m g) (gm_w g)), (keep_idx_length K (gm_p g) (gm_w g)) by lia. auto. }
  split; [exact Ha'|]. unfold comps. cbn [gm_w gm_m gm_p].
  rewrite (keep_idx_spec K (gm_w g) 0%R), (keep_idx_spec K (gm_m g) (fun _ => 0%R)), (keep_idx_spec K (gm_p g) (fun _ _ => 0%R)).
  rewrite H1, H2, !combine_map2. fold (comps g). rewrite (comps_nth g Ha), filter_map. f_equal.
  apply filter_ext_seq. intros i Hi'. cbn [fst]. unfold K.
  destruct (Rleb (c_prune c) (W g i)) eqn:E.
  - apply negb_true_iff, existsb_eqb_false. intros Hin. apply filter_In in Hin as [_ Hin].
    apply Rltb_lt in Hin. apply Rleb_le in E. unfold W in E. lra.
  - apply negb_false_iff, existsb_eqb. apply filter_In. split; [apply in_seq; lia|].
    apply Rltb_lt. apply Rleb_gt in E. exact E.
Qed.

(** ** cap *)
Lemma cap_spec {M} (c : cfg M) idx g g' : aligned g -> 1 <= c_max c -> sorts idx (gm_w g) -> cap c idx g = Ok g' ->
  (length (gm_w g) <= c_max c /\ g' = g) \/
  (c_max c < length (gm_w g) /\ exists kept,
     StronglySorted lt kept /\ length kept = c_max c /\ (forall i, In i kept -> i < length (gm_w g)) /\
     (forall i j, In i kept -> j < length (gm_w g) -> ~ In j kept -> (W g j <= W g i)%R) /\
     gm_m g' = map (Mn g) kept /\ gm_p g' = map (P g) kept /\
     ~ (sum_over kept (W g) = 0)%R /\
     gm_w g' = map (fun i => W g i * (total g / sum_over kept (W g)))%R kept).
Proof.
  intros Ha Hm [Hp Hs]. pose proof Ha as [_ [H1 H2]]. unfold cap.
  destruct (Nat.ltb_spec (c_max c) (length (gm_w g))) as [Hlt|Hge]; [|intros E; injection E as E; left; split; [exact Hge|symmetry; exact E]].
  intros E. right. split; [exact Hlt|]. set (n := length (gm_w g)) in *.
  assert (Ec : (c_max c =? 0) = false) by (apply Nat.eqb_neq; lia). rewrite Ec in E.
  set (drop := firstn (length idx - c_max c) idx) in *.
  assert (Ln : length idx = n) by (rewrite (Permutation_length Hp), seq_length; reflexivity).
  assert (Hin : forall i, In i idx <-> i < n).
  { intros i. split; intros H; [apply (Permutation_in _ Hp) in H; apply in_seq in H; lia|].
    apply (Permutation_in _ (Permutation_sym Hp)). apply in_seq. lia. }
  assert (Hd : forall i, In i drop -> i < n).
  { intros i Hi. apply Hin. unfold drop in Hi. rewrite <- (firstn_skipn (length idx - c_max c) idx). apply in_or_app. left; exact Hi. }
  assert (ND : NoDup idx) by (eapply Permutation_NoDup; [symmetry; exact Hp|apply seq_NoDup]).
  rewrite !del_idx_ok in E; try (intros i Hx; rewrite ?H1, ?H2; apply Hd; exact Hx). cbn [bind] in E.
  set (K := fun i => existsb (Nat.eqb i) drop) in *.
  set (kept := filter (fun i => negb (K i)) (seq 0 n)).
  rewrite (keep_idx_spec K (gm_w g) 0%R) in E. fold n in E. fold kept in E.
  rewrite (keep_idx_spec K (gm_m g) (fun _ => 0%R)), (keep_idx_spec K (gm_p g) (fun _ _ => 0%R)), H1, H2 in E. fold n kept in E.
  assert (Hk : forall i, In i kept <-> i < n /\ ~ In i drop).
  { intros i. unfold kept, K. rewrite filter_In, in_seq, negb_true_iff, existsb_eqb_false. intuition lia. }
  exists kept. split; [apply ss_filter, ss_seq|].
  assert (NDs : NoDup (drop ++ skipn (length idx - c_max c) idx)) by (unfold drop; rewrite firstn_skipn; exact ND).
  assert (Hk2 : forall i, In i kept <-> In i (skipn (length idx - c_max c) idx)).
  { intros i. rewrite Hk, <- Hin. rewrite <- (firstn_skipn (length idx - c_max c) idx) at 1. fold drop. rewrite in_app_iff.
    split; [tauto|]. intros H. split; [right; exact H|]. intros Hi. clear - NDs Hi H.
    induction drop as [|a l IH]; [destruct Hi|]. cbn in NDs. inversion NDs as [|? ? N1 N2]; subst. destruct Hi as [->|Hi]; [|auto].
    apply N1. apply in_or_app. right; exact H. }
  split.
  { assert (Pk : Permutation kept (skipn (length idx - c_max c) idx)).
    { apply NoDup_Permutation; [apply ss_nodup, ss_filter, ss_seq| |exact Hk2].
      clear - NDs. induction drop as [|a l IH]; [exact NDs|]. inversion NDs; auto. }
    rewrite (Permutation_length Pk), skipn_length. lia. }
  split; [intros i Hi; apply Hk in Hi; tauto|]. split.
  { intros i j Hi Hj Hnj. assert (Hjd : In j drop).
    { destruct (in_dec Nat.eq_dec j drop) as [H|H]; [exact H|]. exfalso. apply Hnj, Hk. auto. }
    apply Hk2 in Hi. apply (In_nth _ _ 0) in Hi as [a [La Ea]]. apply (In_nth _ _ 0) in Hjd as [b [Lb Eb]].
    rewrite skipn_length in La. unfold drop in Lb. rewrite firstn_length in Lb.
    rewrite nth_skipn' in Ea. unfold drop in Eb. rewrite nth_firstn' in Eb by lia.
    unfold W. rewrite <- Ea, <- Eb. apply Hs. lia. }
  destruct (Reqb (rsum (map (fun i => nth i (gm_w g) 0%R) kept)) 0) eqn:Eq; [discriminate|]. apply Reqb_neq in Eq.
  inversion E. cbn [gm_m gm_p gm_w]. split; [reflexivity|]. split; [reflexivity|]. split; [exact Eq|].
  rewrite map_map. reflexivity.
Qed.

(** ** merge *)
Lemma argmax_from_max pre : forall l best bv, best < length pre -> bv = nth best pre 0%R ->
  (forall k, k < length pre -> (nth k pre 0 <= bv)%R) ->
  let r := argmax_from (length pre) best bv l in
  r < length (pre ++ l) /\ forall k, k < length (pre ++ l) -> (nth k (pre ++ l) 0 <= nth r (pre ++ l) 0)%R.
Proof.
  intros l. revert pre. induction l as [|x l IH]; intros pre best bv Hb Hv Hm; cbn [argmax_from].
  - rewrite app_nil_r. split; [exact Hb|]. rewrite <- Hv. exact Hm.
  - replace (pre ++ x :: l) with ((pre ++ [x]) ++ l) by (rewrite <- app_assoc; reflexivity).
    assert (L : length (pre ++ [x]) = S (length pre)) by (rewrite app_length; cbn; lia).
    destruct (Rltb bv x) eqn:E; rewrite <- L.
    + apply Rltb_lt in E. apply IH.
      * lia.
      * rewrite app_nth2, Nat.sub_diag by lia. reflexivity.
      * intros k Hk. rewrite L in Hk. destruct (Nat.eq_dec k (length pre)) as [->|Hne].
        -- rewrite app_nth2, Nat.sub_diag by lia. apply Rle_refl.
        -- rewrite app_nth1 by lia. apply Rle_trans with bv; [apply Hm; lia|apply Rlt_le; exact E].
    + apply Rltb_ge in E. apply IH.
      * lia.
      * rewrite app_nth1 by lia. exact Hv.
      * intros k Hk. rewrite L in Hk. destruct (Nat.eq_dec k (length pre)) as [->|Hne].
        -- rewrite app_nth2, Nat.sub_diag by lia. exact E.
        -- rewrite app_nth1 by lia. apply Hm. lia.
Qed.
Lemma argmax_spec l j : argmax l = Ok j -> j < length l /\ forall k, k < length l -> (nth k l 0 <= nth j l 0)%R.
Proof.
  destruct l as [|x l]; [discriminate|]. cbn [argmax]. intros E. inversion E as [Ej].
  apply (argmax_from_max [x] l 0 x); [cbn; lia|reflexivity|]. intros k Hk. cbn in Hk. replace k with 0 by lia. apply Rle_refl.
Qed.

Lemma set_one_nth (l : list R) i v k : nth k (firstn i l ++ match skipn i l with [] => [] | _ :: t => v :: t end) 0%R
  = if (k =? i) && (i <? length l) then v else nth k l 0%R.
Proof.
  revert i k. induction l as [|x l IH]; intros i k.
  - rewrite firstn_nil, skipn_nil. cbn. rewrite andb_false_r. reflexivity.
  - destruct i as [|i]; cbn [firstn skipn app].
    + destruct k; reflexivity.
    + destruct k as [|k]; [reflexivity|]. cbn [nth]. rewrite IH. reflexivity.
Qed.
Lemma set_one_length (l : list R) i v : length (firstn i l ++ match skipn i l with [] => [] | _ :: t => v :: t end) = length l.
Proof.
  revert i. induction l as [|x l IH]; intros i; [rewrite firstn_nil, skipn_nil; reflexivity|].
  destruct i as [|i]; [reflexivity|]. cbn [firstn skipn app length]. f_equal. apply IH.
Qed.
Lemma set_all_spec idx v : forall l, (forall i, In i idx -> i < length l) ->
  length (set_all idx v l) = length l /\
  forall k, nth k (set_all idx v l) 0%R = if existsb (Nat.eqb k) idx then v else nth k l 0%R.
Proof.
  induction idx as [|i idx IH]; intros l H; cbn [set_all existsb]; [split; reflexivity|].
  destruct (IH (firstn i l ++ match skipn i l with [] => [] | _ :: t => v :: t end)) as [A B].
  { intros j Hj. rewrite set_one_length. apply H. right; exact Hj. }
  rewrite set_one_length in A. split; [exact A|]. intros k. rewrite B, set_one_nth.
  assert (Hi : (i <? length l) = true) by (apply Nat.ltb_lt, H; left; reflexivity). rewrite Hi, andb_true_r.
  destruct (existsb (Nat.eqb k) idx); [rewrite orb_true_r; reflexivity|]. rewrite orb_false_r. reflexivity.
Qed.

Lemma vsum_at l i : (vsum l i = rsum (map (fun v => v i) l))%R.
Proof.
  unfold vsum. assert (H : forall l a, (fold_left vadd l a i = a i + rsum (map (fun v => v i) l))%R).
  { clear. induction l as [|v l IH]; intros a; cbn [fold_left map].
    - change (rsum []) with 0%R. ring.
    - rewrite IH, qs_cons. unfold vadd. ring. }
  rewrite H. ring.
Qed.
Lemma msum_at l i j : (msum l i j = rsum (map (fun v => v i j) l))%R.
Proof.
  unfold msum. assert (H : forall l a, (fold_left madd l a i j = a i j + rsum (map (fun v => v i j) l))%R).
  { clear. induction l as [|v l IH]; intros a; cbn [fold_left map].
    - change (rsum []) with 0%R. ring.
    - rewrite IH, qs_cons. unfold madd. ring. }
  rewrite H. ring.
Qed.
Lemma quad_zero n a d : (forall i, (d i = 0)%R) -> (quad n a d = 0)%R.
Proof. intros H. unfold quad, rsumn_. apply qs_zero. intros i _. rewrite H. ring. Qed.

Section Merge.
Context {Meas : Type} (c : cfg Meas) (g : gmix).
Notation n := (length (gm_w g)).
Context (Ha : aligned g) (Hnn : nonneg g).

Definition winv (inds : list nat) (ws : list R) : Prop :=
  length ws = n /\ (forall i, In i inds -> i < n) /\
  forall i, i < n -> nth i ws 0%R = if existsb (Nat.eqb i) inds then W g i else (-1)%R.

(** What one merged component is. *)
Definition within (ic : mat) (jj ii : nat) : bool := Rleb (quad (c_dim c) ic (vsub (Mn g ii) (Mn g jj))) (c_merge c).
Definition merged (G rest : list nat) (x : R * vec * mat) : Prop :=
  (fst (fst x) = sum_over G (W g))%R /\ ~ (sum_over G (W g) = 0)%R /\
  (forall i, (fst (fst x) * snd (fst x) i = sum_over G (fun k => W g k * Mn g k i))%R) /\
  (forall i j, (fst (fst x) * snd x i j = sum_over G (fun k => W g k * P g k i j))%R) /\
  exists jj ic, In jj rest /\ (forall k, In k rest -> (W g k <= W g jj)%R) /\ c_inv c (P g jj) = Ok ic /\
    G = filter (within ic jj) rest.

Lemma W_in i : i < n -> In (W g i) (gm_w g).
Proof. intros H. apply nth_In. exact H. Qed.

Lemma turn_spec inds ws new inds' ws' : inds <> [] -> winv inds ws ->
  merge_turn c g inds ws = Ok (new, inds', ws') ->
  exists G, merged G inds new /\ Permutation (G ++ inds') inds /\ winv inds' ws'.
Proof.
  intros Hne [L [Hb Hw]] E. unfold merge_turn in E. apply bind_ok in E as [jj [Ej E]].
  apply argmax_spec in Ej as [Hj Hmax]. pose proof Ha as [_ [H1 H2]].
  assert (Hjin : In jj inds).
  { destruct (existsb (Nat.eqb jj) inds) eqn:Ex; [apply existsb_eqb; exact Ex|].
    destruct inds as [|i0 inds0] eqn:Ei; [congruence|]. rewrite <- Ei in *.
    assert (Hi0 : In i0 inds) by (rewrite Ei; left; reflexivity).
    pose proof (Hb i0 Hi0) as Hi0n. assert (Hle := Hmax i0 ltac:(lia)). rewrite !Hw in Hle by lia.
    assert (T : existsb (Nat.eqb i0) inds = true) by (apply existsb_eqb; exact Hi0). rewrite T, Ex in Hle.
    pose proof (Hnn _ (W_in i0 Hi0n)). lra. }
  assert (Hjn : jj < n) by (apply Hb; exact Hjin).
  assert (E1 : nth_error (gm_p g) jj = Some (P g jj)) by (unfold P; apply nth_error_nth'; lia).
  assert (E2 : nth_error (gm_m g) jj = Some (Mn g jj)) by (unfold Mn; apply nth_error_nth'; lia).
  rewrite E1, E2 in E. apply bind_ok in E as [ic [Eic E]].
  set (G := filter (within ic jj) inds).
  change (filter (fun ii => Rleb (quad (c_dim c) ic (vsub (nth ii (gm_m g) (fun _ => 0%R)) (Mn g jj))) (c_merge c)) inds) with G in E.
  assert (HG : forall i, In i G -> In i inds) by (intros i Hi; apply filter_In in Hi; tauto).
  assert (Ewt : forall i, In i G -> nth i ws 0%R = W g i).
  { intros i Hi. apply HG in Hi. rewrite Hw by (apply Hb; exact Hi).
    assert (T : existsb (Nat.eqb i) inds = true) by (apply existsb_eqb; exact Hi). rewrite T. reflexivity. }
  assert (Em : map (fun ii => nth ii ws 0%R) G = map (W g) G) by (apply map_ext_in; exact Ewt).
  rewrite Em in E.
  destruct (Reqb (rsum (map (W g) G)) 0) eqn:Eq; [discriminate|]. apply Reqb_neq in Eq.
  injection E as E3 E4 E5. exists G. split; [|split].
  - subst new. unfold merged. cbn [fst snd]. split; [reflexivity|]. split; [exact Eq|]. split; [|split].
    + intros i. unfold vdiv. rewrite vsum_at, map_map.
      rewrite Rmult_div_r_ by exact Eq. unfold sum_over. apply qs_ext. intros k Hk. unfold vscale. rewrite (Ewt k Hk). reflexivity.
    + intros i j. unfold mdiv. rewrite msum_at, map_map.
      rewrite Rmult_div_r_ by exact Eq. unfold sum_over. apply qs_ext. intros k Hk. unfold mscale. rewrite (Ewt k Hk). reflexivity.
    + exists jj, ic. split; [exact Hjin|]. split; [|split; [exact Eic|reflexivity]].
      intros k Hk. assert (Hkn := Hb k Hk). assert (Hle := Hmax k ltac:(lia)). rewrite !Hw in Hle by assumption.
      assert (T : existsb (Nat.eqb k) inds = true) by (apply existsb_eqb; exact Hk).
      assert (T' : existsb (Nat.eqb jj) inds = true) by (apply existsb_eqb; exact Hjin). rewrite T, T' in Hle. exact Hle.
  - subst inds'. replace (filter (fun i => negb (existsb (Nat.eqb i) G)) inds)
      with (filter (fun i => negb (within ic jj i)) inds); [apply filter_partition_perm|].
    apply filter_ext_in. intros i Hi. f_equal. unfold G. destruct (within ic jj i) eqn:Ew.
    + symmetry. apply existsb_eqb. apply filter_In. auto.
    + symmetry. apply existsb_eqb_false. intros Hx. apply filter_In in Hx as [_ Hx]. congruence.
  - subst inds' ws'. destruct (set_all_spec G (-1)%R ws) as [SL SN].
    { intros i Hi. rewrite L. apply Hb, HG. exact Hi. }
    split; [lia|]. split; [intros i Hi; apply filter_In in Hi as [Hi _]; apply Hb; exact Hi|].
    intros i Hi. rewrite SN, Hw by exact Hi. destruct (existsb (Nat.eqb i) G) eqn:Ex.
    + assert (T : existsb (Nat.eqb i) (filter (fun i0 => negb (existsb (Nat.eqb i0) G)) inds) = false); [|rewrite T; reflexivity].
      apply existsb_eqb_false. intros Hx. apply filter_In in Hx as [_ Hx]. rewrite Ex in Hx. discriminate.
    + assert (T : existsb (Nat.eqb i) (filter (fun i0 => negb (existsb (Nat.eqb i0) G)) inds) = existsb (Nat.eqb i) inds); [|rewrite T; reflexivity].
      destruct (existsb (Nat.eqb i) inds) eqn:Ei.
      * apply existsb_eqb. apply filter_In. split; [apply existsb_eqb; exact Ei|rewrite Ex; reflexivity].
      * apply existsb_eqb_false. intros Hx. apply filter_In in Hx as [Hx _]. apply existsb_eqb_false in Ei. contradiction.
Qed.

Fixpoint all_merged (groups : list (list nat)) (inds : list nat) (l : list (R * vec * mat)) : Prop :=
  match groups, l with
  | [], [] => inds = []
  | G :: gs, x :: l' => merged G inds x /\ exists inds', Permutation (G ++ inds') inds /\ all_merged gs inds' l'
  | _, _ => False
  end.
Lemma loop_spec fuel : forall inds ws l, winv inds ws -> merge_loop c g fuel inds ws = Ok l ->
  exists groups, all_merged groups inds l.
Proof.
  induction fuel as [|f IH]; intros inds ws l Hw E.
  - destruct inds; cbn in E; [|discriminate]. inversion E. exists []. reflexivity.
  - destruct inds as [|i inds0] eqn:Ei; cbn [merge_loop] in E.
    { inversion E. exists []. reflexivity. }
    rewrite <- Ei in *. apply bind_ok in E as [[[new inds'] ws'] [E1 E]]. apply bind_ok in E as [r [E2 E]].
    inversion E. apply turn_spec in E1 as [G [A [B C]]]; [|rewrite Ei; discriminate|exact Hw].
    destruct (IH _ _ _ C E2) as [gs Hgs]. exists (G :: gs). cbn [all_merged]. split; [exact A|]. eauto.
Qed.
Lemma all_merged_perm groups : forall inds l, all_merged groups inds l ->
  length groups = length l /\ Permutation (concat groups) inds.
Proof.
  induction groups as [|G gs IH]; intros inds l H; destruct l as [|x l]; cbn in H; try tauto.
  - subst. split; [reflexivity|constructor].
  - destruct H as [_ [inds' [Hp H]]]. apply IH in H as [L Hp']. split; [cbn; lia|]. cbn [concat].
    rewrite Hp'. exact Hp.
Qed.
Lemma all_merged_nth groups : forall inds l k, all_merged groups inds l -> k < length groups ->
  exists rest, Permutation (concat (skipn k groups)) rest /\
    merged (nth k groups []) rest (nth k l (0%R, fun _ => 0%R, fun _ _ => 0%R)).
Proof.
  induction groups as [|G gs IH]; intros inds l k H Hk; [cbn in Hk; lia|].
  destruct l as [|x l]; [destruct H|]. pose proof (all_merged_perm _ _ _ H) as [_ Hp]. destruct H as [Hm [inds' [Hp1 H]]].
  destruct k as [|k].
  - exists inds. split; [exact Hp|exact Hm].
  - cbn in Hk. apply (IH _ _ k H). lia.
Qed.

Lemma init_winv : winv (seq 0 n) (gm_w g).
Proof.
  split; [reflexivity|]. split; [intros i Hi; apply in_seq in Hi; lia|]. intros i Hi.
  assert (T : existsb (Nat.eqb i) (seq 0 n) = true) by (apply existsb_eqb, in_seq; lia). rewrite T. reflexivity.
Qed.

(** Termination and success. *)
Lemma loop_total : positive g -> (0 <= c_merge c)%R -> (forall p, In p (gm_p g) -> exists ic, c_inv c p = Ok ic) ->
  forall fuel inds ws, winv inds ws -> length inds <= fuel -> exists l, merge_loop c g fuel inds ws = Ok l.
Proof.
  intros Hpos Hthr Hinv. pose proof Ha as [_ [H1 H2]].
  induction fuel as [|f IH]; intros inds ws Hw Hf.
  { destruct inds; [|cbn in Hf; lia]. exists []. reflexivity. }
  destruct inds as [|i inds0] eqn:Ei; [exists []; reflexivity|]. rewrite <- Ei in *. cbn [merge_loop].
  assert (exists new inds' ws', merge_turn c g inds ws = Ok (new, inds', ws') /\ length inds' < length inds) as [new [inds' [ws' [E Hlt]]]].
  { pose proof Hw as [L [Hb Hwt]]. unfold merge_turn. assert (Hi : In i inds) by (rewrite Ei; left; reflexivity).
    assert (exists jj, argmax ws = Ok jj) as [jj Ej].
    { destruct ws; [|eexists; reflexivity]. apply Hb in Hi. cbn in L. lia. }
    rewrite Ej. cbn [bind]. apply argmax_spec in Ej as [Hj Hmax].
    assert (Hjin : In jj inds).
    { destruct (existsb (Nat.eqb jj) inds) eqn:Ex; [apply existsb_eqb; exact Ex|].
      pose proof (Hb i Hi) as Hin. assert (Hle := Hmax i ltac:(lia)). rewrite !Hwt in Hle by lia.
      assert (T : existsb (Nat.eqb i) inds = true) by (apply existsb_eqb; exact Hi). rewrite T, Ex in Hle.
      pose proof (Hnn _ (W_in i Hin)). lra. }
    assert (Hjn : jj < n) by (apply Hb; exact Hjin).
    assert (E1 : nth_error (gm_p g) jj = Some (P g jj)) by (unfold P; apply nth_error_nth'; lia).
    assert (E2 : nth_error (gm_m g) jj = Some (Mn g jj)) by (unfold Mn; apply nth_error_nth'; lia).
    rewrite E1, E2. destruct (Hinv (P g jj)) as [ic Eic]; [apply nth_In; lia|]. rewrite Eic. cbn [bind].
    set (G := filter (fun ii => Rleb (quad (c_dim c) ic (vsub (nth ii (gm_m g) (fun _ => 0%R)) (Mn g jj))) (c_merge c)) inds).
    assert (HjG : In jj G).
    { apply filter_In. split; [exact Hjin|]. apply Rleb_le. rewrite quad_zero; [exact Hthr|]. intros k. unfold vsub, Mn. ring. }
    assert (HG : forall k, In k G -> In k inds) by (intros k Hk; apply filter_In in Hk; tauto).
    assert (Hz : Reqb (rsum (map (fun ii => nth ii ws 0%R) G)) 0 = false).
    { apply Reqb_neq. apply not_eq_sym, Rlt_not_eq, qs_pos; [destruct G; [destruct HjG|discriminate]|].
      intros x Hx. apply in_map_iff in Hx as [k [<- Hk]]. apply HG in Hk. rewrite Hwt by (apply Hb; exact Hk).
      assert (T : existsb (Nat.eqb k) inds = true) by (apply existsb_eqb; exact Hk). rewrite T. apply Hpos, W_in, Hb. exact Hk. }
    rewrite Hz. eexists _, _, _. split; [reflexivity|].
    apply (filter_len_lt _ _ jj Hjin). apply negb_false_iff, existsb_eqb. exact HjG. }
  rewrite E. cbn [bind]. apply turn_spec in E as [G [_ [_ Hw']]]; [|rewrite Ei; discriminate|exact Hw].
  destruct (IH inds' ws' Hw' ltac:(lia)) as [l El]. rewrite El. cbn [bind]. rewrite Ei. eexists. reflexivity.
Qed.
End Merge.

(** ** extract *)
Lemma py_round_spec q : nearest_even q (py_round q).
Proof.
  destruct (base_Int_part q) as [H1 H2]. unfold py_round, nearest_even. generalize dependent (Int_part q). intros f H1 H2.
  destruct (Rlt_dec (q - IZR f) (1 / 2)) as [E|E]; [split; [lra|]; split; [lra|]; intros [H|H]; lra|].
  destruct (Rlt_dec (1 / 2) (q - IZR f)) as [E'|E'].
  - rewrite plus_IZR. split; [lra|]. split; [lra|]. intros [H|H]; lra.
  - destruct (Z.even f) eqn:Ev; [split; [lra|]; split; [lra|]; auto|].
    rewrite plus_IZR. split; [lra|]. split; [lra|]. intros _. rewrite Z.even_add, Ev. reflexivity.
Qed.
Lemma nearest_even_unique q r r' : nearest_even q r -> nearest_even q r' -> r = r'.
Proof.
  intros [A1 [A2 A3]] [B1 [B2 B3]].
  assert (H : (IZR r <= IZR r' + 1)%R) by lra. assert (H' : (IZR r' <= IZR r + 1)%R) by lra.
  change 1%R with (IZR 1) in H, H'. rewrite <- plus_IZR in H, H'. apply le_IZR in H; apply le_IZR in H'.
  destruct (Z.eq_dec r r') as [->|Hne]; [reflexivity|].
  assert (r' = r + 1 \/ r = r' + 1)%Z as [->| ->] by lia; rewrite plus_IZR in *; change (IZR 1) with 1%R in *.
  - assert (Q1 : (q = IZR r + (1 / 2))%R) by lra. assert (Q2 : (q = IZR r + 1 - (1 / 2))%R) by lra.
    assert (E1 := A3 (or_intror Q1)). assert (E2 := B3 (or_introl Q2)). rewrite Z.even_add, E1 in E2. discriminate.
  - assert (Q1 : (q = IZR r' + (1 / 2))%R) by lra. assert (Q2 : (q = IZR r' + 1 - (1 / 2))%R) by lra.
    assert (E1 := A3 (or_introl Q2)). assert (E2 := B3 (or_intror Q1)). rewrite Z.even_add, E2 in E1. discriminate.
Qed.
Lemma extract_spec {M} (c : cfg M) g : aligned g ->
  let inds := filter (fun i => Rleb (c_extract c) (W g i)) (seq 0 (length (gm_w g))) in
  let reps i := Z.to_nat (py_round (W g i)) in
  extract c g = Ok (flat_map (fun i => repeat (Mn g i) (reps i)) inds,
                    if c_save_covs c then flat_map (fun i => repeat (P g i) (reps i)) inds else []).
Proof.
  intros [_ [H1 H2]]. cbn zeta. unfold extract. rewrite H1, H2.
  assert (E : forallb (fun i => i <? length (gm_w g)) (filter (fun i => Rleb (c_extract c) (W g i)) (seq 0 (length (gm_w g)))) = true).
  { apply forallb_forall. intros i Hi. apply filter_In in Hi as [Hi _]. apply in_seq in Hi. apply Nat.ltb_lt. lia. }
  unfold W in *. rewrite E, orb_true_r. reflexivity.
Qed.

(** ** gating *)
Section Gate.
Context (n d : nat) (H : vec -> mat) (est : vec -> vec) (Rcov : mat) (chol inv : mat -> mat) (gate : R).
Notation near := (fun mp z => Rltb (gate_dist n d H est Rcov chol inv (fst mp) (snd mp) z) gate).
Lemma gate_comp_spec mp meas valid : NoDup valid ->
  NoDup (gate_comp n d H est Rcov chol inv gate mp meas valid) /\
  forall i, In i (gate_comp n d H est Rcov chol inv gate mp meas valid) <->
    In i valid \/ (i < length meas /\ near mp (nth i meas (fun _ => 0%R)) = true).
Proof.
  intros ND. unfold gate_comp. rewrite (combine_seq meas (fun _ => 0%R)).
  assert (G : forall l v, NoDup v ->
    let r := fold_left (fun valid iz =>
      if existsb (Nat.eqb (fst iz)) valid then valid
      else if Rltb (gate_dist n d H est Rcov chol inv (fst mp) (snd mp) (snd iz)) gate then valid ++ [fst iz] else valid)
      (map (fun i => (i, nth i meas (fun _ => 0%R))) l) v in
    NoDup r /\ forall i, In i r <-> In i v \/ (In i l /\ near mp (nth i meas (fun _ => 0%R)) = true)).
  { induction l as [|a l IH]; intros v Hv; cbn [map fold_left].
    - split; [exact Hv|]. intros i. cbn. tauto.
    - cbn [fst snd]. destruct (existsb (Nat.eqb a) v) eqn:Ea.
      + destruct (IH v Hv) as [A B]. split; [exact A|]. intros i. rewrite B. cbn [In]. apply existsb_eqb in Ea. intuition (subst; auto).
      + apply existsb_eqb_false in Ea. destruct (Rltb (gate_dist n d H est Rcov chol inv (fst mp) (snd mp) (nth a meas (fun _ => 0%R))) gate) eqn:En.
        * destruct (IH (v ++ [a])) as [A B].
          { eapply Permutation_NoDup; [apply Permutation_cons_append|]. constructor; assumption. }
          split; [exact A|]. intros i. rewrite B, in_app_iff. cbn [In]. intuition (subst; auto).
        * destruct (IH v Hv) as [A B]. split; [exact A|]. intros i. rewrite B. cbn [In]. split; [intuition|].
          intros [Hi|[[<-|Hi] Hn]]; [left; exact Hi|congruence|right; auto]. }
  destruct (G (seq 0 (length meas)) valid ND) as [A B]. split; [exact A|]. intros i. rewrite B, in_seq.
  intuition lia.
Qed.
Lemma gate_fold_spec meas comps : forall valid, NoDup valid ->
  let r := fold_left (fun valid mp => gate_comp n d H est Rcov chol inv gate mp meas valid) comps valid in
  NoDup r /\ forall i, In i r <-> In i valid \/ (i < length meas /\ existsb (fun mp => near mp (nth i meas (fun _ => 0%R))) comps = true).
Proof.
  induction comps as [|mp comps IH]; intros valid ND; cbn [fold_left].
  - split; [exact ND|]. intros i. cbn. intuition congruence.
  - destruct (gate_comp_spec mp meas valid ND) as [A B]. destruct (IH _ A) as [C D]. split; [exact C|].
    intros i. rewrite D, B. cbn [existsb]. rewrite orb_true_iff. tauto.
Qed.
Lemma insert_nat_in x l y : In y (insert_nat x l) <-> y = x \/ In y l.
Proof.
  induction l as [|a l IH]; cbn; [intuition|]. destruct (x <=? a); cbn; [intuition|]. rewrite IH. tauto.
Qed.
Lemma insert_nat_sorted x l : StronglySorted lt l -> ~ In x l -> StronglySorted lt (insert_nat x l).
Proof.
  induction 1 as [|a l S IH F]; intros Hx; cbn [insert_nat]; [repeat constructor|].
  destruct (Nat.leb_spec x a) as [Hle|Hgt].
  - assert (x <> a) by (intros ->; apply Hx; left; reflexivity). constructor; [constructor; assumption|].
    constructor; [lia|]. rewrite Forall_forall in *. intros y Hy. specialize (F y Hy). lia.
  - constructor; [apply IH; intros Hin; apply Hx; right; exact Hin|].
    rewrite Forall_forall in *. intros y Hy. apply insert_nat_in in Hy as [->|Hy]; [lia|auto].
Qed.
Lemma sort_nat_spec l : NoDup l -> StronglySorted lt (fold_right insert_nat [] l) /\ forall i, In i (fold_right insert_nat [] l) <-> In i l.
Proof.
  induction 1 as [|a l Ha ND [S I]]; cbn [fold_right]; [split; [constructor|tauto]|]. split.
  - apply insert_nat_sorted; [exact S|]. rewrite I. exact Ha.
  - intros i. rewrite insert_nat_in, I. cbn. intuition.
Qed.
Lemma gate_meas_filter meas g :
  gate_meas n d H est Rcov chol inv gate meas g =
  filter (fun z => existsb (fun mp => near mp z) (combine (gm_m g) (gm_p g))) meas.
Proof.
  assert (E : gate_meas n d H est Rcov chol inv gate meas g =
    map (fun i => nth i meas (fun _ => 0%R)) (fold_right insert_nat []
      (fold_left (fun valid mp => gate_comp n d H est Rcov chol inv gate mp meas valid) (combine (gm_m g) (gm_p g)) []))).
  { destruct meas as [|z zs]; [|reflexivity]. cbn [gate_meas].
    assert (Hn : fold_left (fun valid mp => gate_comp n d H est Rcov chol inv gate mp [] valid) (combine (gm_m g) (gm_p g)) [] = []).
    { induction (combine (gm_m g) (gm_p g)) as [|mp l IH]; [reflexivity|]. exact IH. }
    rewrite Hn. reflexivity. }
  rewrite E, (filter_nth_seq _ meas (fun _ => 0%R)). f_equal.
  destruct (gate_fold_spec meas (combine (gm_m g) (gm_p g)) [] (NoDup_nil _)) as [ND I].
  destruct (sort_nat_spec _ ND) as [S I2]. apply ss_unique; [exact S|apply ss_filter, ss_seq|].
  intros i. rewrite I2, I, filter_In, in_seq. cbn [In]. intuition lia.
Qed.
End Gate.

(** ** Invariant over operation sequences *)
Definition mix_ok (g : gmix) : Prop := aligned g /\ nonneg g.
Section Run.
Context {Meas : Type} (c : cfg Meas) (argsort : list R -> list nat).
Context (Hps : (0 <= c_ps c)%R) (Hpd : (0 <= c_pd c <= 1)%R) (Hk : (0 <= c_kappa c)%R)
        (Hb : forall b, In b (c_birth c) -> mix_ok b)
        (Hq : forall z m p, (0 <= snd (fcorrect (c_filter c) z m p))%R)
        (Hsort : forall ws, sorts (argsort ws) ws).

Lemma gm_app_ok a b : mix_ok a -> mix_ok b -> mix_ok (gm_app a b).
Proof.
  intros [[_ [A1 A2]] A3] [[_ [B1 B2]] B3]. split.
  - unfold aligned, aligned_n. cbn [gm_app gm_w gm_m gm_p]. rewrite !app_length. lia.
  - intros x Hx. cbn [gm_app gm_w] in Hx. apply in_app_iff in Hx as [Hx|Hx]; auto.
Qed.
Lemma fold_app_ok l : forall g, mix_ok g -> (forall b, In b l -> mix_ok b) -> mix_ok (fold_left gm_app l g).
Proof.
  induction l as [|b l IH]; intros g Hg Hl; [exact Hg|]. cbn [fold_left]. apply IH.
  - apply gm_app_ok; [exact Hg|]. apply Hl. left; reflexivity.
  - intros x Hx. apply Hl. right; exact Hx.
Qed.
Lemma predict_ok g : mix_ok g -> mix_ok (predict c g).
Proof.
  intros [[_ [A1 A2]] A3]. apply fold_app_ok; [|exact Hb]. split.
  - unfold aligned, aligned_n, predict_density. cbn [gm_w gm_m gm_p]. rewrite !map_length, combine_length. lia.
  - intros x Hx. apply in_map_iff in Hx as [y [<- Hy]]. apply Rmult_le_pos; [exact Hps|apply A3; exact Hy].
Qed.
Lemma dsum_nonneg g z : mix_ok g -> (0 <= dsum c g z)%R.
Proof.
  intros [_ A3]. apply qs_nonneg. intros x Hx. apply in_map_iff in Hx as [i [<- Hi]]. apply in_seq in Hi.
  unfold dw. apply Rmult_le_pos; [apply Hq|]. apply Rmult_le_pos; [apply Hpd|]. apply A3, nth_In. lia.
Qed.
Lemma correct_ok g meas ms g' : mix_ok g -> correct c meas g = Ok (ms, g') -> mix_ok g'.
Proof.
  intros Hg E. pose proof Hg as [Ha Hn]. unfold correct in E. apply bind_ok in E as [m [Em E]]. apply bind_ok in E as [gm [Eg E]].
  inversion E. apply gm_app_ok.
  - destruct (correct_density_spec c g m gm Ha Eg) as [A [B [C D]]]. split.
    + unfold aligned, aligned_n. rewrite A, B, C.
      assert (L : forall (X : Type) (f : Meas -> nat -> X) l, length (flat_map (fun z => map (f z) (seq 0 (length (gm_w g)))) l) = length l * length (gm_w g)).
      { intros X f l. induction l as [|z l IH]; [reflexivity|]. cbn [flat_map length]. rewrite app_length, map_length, seq_length, IH. lia. }
      rewrite (L R (fun z i => dw c g z i / (c_kappa c + dsum c g z))%R).
      rewrite (L vec (fun z i => fst (fst (fcorrect (c_filter c) z (Mn g i) (P g i))))).
      rewrite (L mat (fun z i => snd (fst (fcorrect (c_filter c) z (Mn g i) (P g i))))). auto.
    + intros x Hx. rewrite A in Hx. apply in_flat_map in Hx as [z [Hz Hx]]. apply in_map_iff in Hx as [i [<- Hi]]. apply in_seq in Hi.
      assert (Hd : ~ (c_kappa c + dsum c g z = 0)%R) by (apply D; [lia|exact Hz]).
      pose proof (dsum_nonneg g z Hg). apply Rle_shift_div_l_; [lra|]. setoid_replace (0 * (c_kappa c + dsum c g z))%R with 0%R by ring.
      unfold dw. apply Rmult_le_pos; [apply Hq|]. apply Rmult_le_pos; [apply Hpd|]. apply Hn, nth_In. lia.
  - destruct Ha as [_ [A1 A2]]. split.
    + unfold aligned, aligned_n. cbn [gm_w gm_m gm_p]. rewrite map_length. lia.
    + intros x Hx. apply in_map_iff in Hx as [y [<- Hy]]. apply Rmult_le_pos; [lra|apply Hn; exact Hy].
Qed.
Lemma prune_ok g g' : mix_ok g -> prune c g = Ok g' -> mix_ok g'.
Proof.
  intros [Ha Hn] E. destruct (prune_spec c g Ha) as [g1 [E1 [Ha1 _]]]. rewrite E in E1. inversion E1; subst g1. split; [exact Ha1|].
  unfold prune in E. apply bind_ok in E as [m [_ E]]. apply bind_ok in E as [w [Ew E]]. apply bind_ok in E as [p [_ E]].
  inversion E. apply del_idx_inv in Ew as [-> _]. intros x Hx. apply keep_idx_in in Hx. apply Hn; exact Hx.
Qed.
Lemma merge_ok g g' : mix_ok g -> merge c g = Ok g' -> mix_ok g'.
Proof.
  intros [Ha Hn] E. unfold merge, merge_fuel in E. apply bind_ok in E as [l [El E]]. inversion E. clear E.
  assert (L : length (gm_m g) = length (gm_w g)) by apply Ha. rewrite L in El.
  destruct (loop_spec c g Ha Hn _ _ _ _ (init_winv g) El) as [gs Hgs]. split.
  - unfold aligned, aligned_n. cbn [gm_w gm_m gm_p]. rewrite !map_length. auto.
  - cbn [gm_w]. intros x Hx. apply in_map_iff in Hx as [y [<- Hy]].
    apply (In_nth _ _ (0%R, fun _ => 0%R, fun _ _ => 0%R)) in Hy as [k [Hk' Ek]].
    destruct (all_merged_perm c g _ _ _ Hgs) as [Lg Pg].
    assert (Hkg : k < length gs) by (rewrite Lg; exact Hk').
    destruct (all_merged_nth c g gs _ l k Hgs Hkg) as [rest [Hr [H1 _]]].
    match type of H1 with ?a = _ => replace (fst (fst y)) with a by (f_equal; f_equal; exact Ek) end. rewrite H1.
    apply qs_nonneg. intros v Hv. apply in_map_iff in Hv as [i [<- Hi]]. apply Hn, nth_In.
    assert (In i (seq 0 (length (gm_w g)))).
    { apply (Permutation_in _ Pg). apply in_concat. exists (nth k gs []). split; [apply nth_In; exact Hkg|exact Hi]. }
    apply in_seq in H. lia.
Qed.
Lemma cap_ok idx g g' : mix_ok g -> cap c idx g = Ok g' -> mix_ok g'.
Proof.
  intros [Ha Hn] E. unfold cap in E. destruct (c_max c <? length (gm_w g)); [|inversion E; subst; split; assumption].
  apply bind_ok in E as [m [Em E]]. apply bind_ok in E as [w [Ew E]]. apply bind_ok in E as [p [Ep E]].
  apply del_idx_inv in Em as [-> _]. apply del_idx_inv in Ew as [-> _]. apply del_idx_inv in Ep as [-> _].
  destruct (Reqb _ 0) eqn:Eq in E; [discriminate|]. inversion E. clear E. apply Reqb_neq in Eq.
  destruct Ha as [_ [A1 A2]]. split.
  - unfold aligned, aligned_n. cbn [gm_w gm_m gm_p]. rewrite map_length.
    rewrite (keep_idx_length _ (gm_m g) (gm_w g)), (keep_idx_length _ (gm_p g) (gm_w g)) by lia. auto.
  - cbn [gm_w]. intros x Hx. apply in_map_iff in Hx as [y [<- Hy]].
    match type of Hy with In y ?l => assert (Hl : forall v, In v l -> (0 <= v)%R) by (intros v Hv; apply keep_idx_in in Hv; apply Hn; exact Hv);
      pose proof (qs_nonneg l Hl) end.
    apply Rmult_le_pos; [apply Hl; exact Hy|]. apply Rle_shift_div_l_; [lra|].
    assert (0 <= rsum (gm_w g))%R by (apply qs_nonneg; exact Hn). lra.
Qed.

Definition st_ok (s : phd Meas) : Prop :=
  mix_ok (ph_mix s) /\
  (c_save_covs c = true -> length (ph_covs s) = length (ph_states s) /\
     forall k, k < length (ph_states s) -> length (nth k (ph_covs s) []) = length (nth k (ph_states s) [])) /\
  (c_save_covs c = false -> ph_covs s = []).
Lemma flat_repeat_length {A B} (f : nat -> A) (h : nat -> B) (r : nat -> nat) l :
  length (flat_map (fun i => repeat (f i) (r i)) l) = length (flat_map (fun i => repeat (h i) (r i)) l).
Proof. induction l as [|x l IH]; [reflexivity|]. cbn [flat_map]. rewrite !app_length, !repeat_length, IH. reflexivity. Qed.
Lemma extract_ok s s' : st_ok s -> do_extract c s = Ok s' -> st_ok s'.
Proof.
  intros [Hg [Hc1 Hc0]] E. unfold do_extract in E. destruct Hg as [Ha Hn]. rewrite (extract_spec c _ Ha) in E. cbn [bind] in E.
  inversion E. clear E. unfold st_ok. cbn [ph_mix ph_states ph_covs]. split; [split; assumption|]. split.
  - intros Hs. rewrite Hs. destruct (Hc1 Hs) as [L A]. split; [rewrite !app_length; cbn; lia|].
    intros k Hk'. rewrite app_length in Hk'. cbn in Hk'. destruct (Nat.lt_ge_cases k (length (ph_states s))) as [Hlt|Hge].
    + rewrite !app_nth1 by lia. apply A. exact Hlt.
    + rewrite !app_nth2 by lia. rewrite L. replace (k - length (ph_states s)) with 0 by lia. cbn [nth]. apply flat_repeat_length.
  - intros Hs. rewrite Hs. auto.
Qed.
Lemma step_ok o s s' : st_ok s -> step c argsort o s = Ok s' -> st_ok s'.
Proof.
  intros Hs E. pose proof Hs as [Hg [Hc1 Hc0]]. destruct o as [|meas| |pr ca me ex]; cbn [step] in E.
  - inversion E. unfold st_ok. cbn. split; [apply predict_ok; exact Hg|]. auto.
  - apply bind_ok in E as [[ms g] [E1 E]]. inversion E. unfold st_ok. cbn. split; [eapply correct_ok; eassumption|]. auto.
  - eapply extract_ok; eassumption.
  - unfold cleanup in E. apply bind_ok in E as [g1 [E1 E]]. apply bind_ok in E as [g2 [E2 E]]. apply bind_ok in E as [g3 [E3 E]].
    assert (H1 : mix_ok g1) by (destruct pr; [eapply prune_ok; eassumption|inversion E1; subst; exact Hg]).
    assert (H2 : mix_ok g2) by (destruct me; [eapply merge_ok; eassumption|inversion E2; subst; exact H1]).
    assert (H3 : mix_ok g3) by (destruct ca; [eapply cap_ok; eassumption|inversion E3; subst; exact H2]).
    assert (H4 : st_ok (with_mix s g3)) by (unfold st_ok; cbn; auto).
    destruct ex; [eapply extract_ok; eassumption|inversion E; subst; exact H4].
Qed.
Lemma run_ok ops : forall s s', st_ok s -> run c argsort ops s = Ok s' -> st_ok s'.
Proof.
  induction ops as [|o ops IH]; intros s s' Hs E; cbn [run] in E; [inversion E; subst; exact Hs|].
  apply bind_ok in E as [s1 [E1 E]]. eapply IH; [eapply step_ok; eassumption|exact E].
Qed.
End Run.

(** ** Small matrix algebra *)
Lemma plus_comp a b c d : (a = b)%R -> (c = d)%R -> (a + c = b + d)%R.
Proof. intros H1 H2. rewrite H1, H2. reflexivity. Qed.
Lemma qsumn_ext n f h : (forall i, i < n -> (f i = h i)%R) -> (rsumn_ n f = rsumn_ n h)%R.
Proof. intros E. apply qs_ext. intros i Hi. apply in_seq in Hi. apply E. lia. Qed.
Lemma qsumn_S n f : (rsumn_ (S n) f = rsumn_ n f + f n)%R.
Proof. unfold rsumn_. rewrite seq_S, map_app, qs_app. cbn [map Nat.add]. rewrite qs_cons. change (rsum []) with 0%R. ring. Qed.
Lemma qsumn_0 f : rsumn_ 0 f = 0%R.
Proof. reflexivity. Qed.
Lemma qsumn_scale n a f : (rsumn_ n (fun i => a * f i) = a * rsumn_ n f)%R.
Proof. unfold rsumn_. apply qs_scalef. Qed.
Lemma qsumn_scale_r n a f : (rsumn_ n (fun i => f i * a) = rsumn_ n f * a)%R.
Proof. rewrite (qsumn_ext n _ (fun i => a * f i)%R) by (intros; ring). rewrite qsumn_scale. ring. Qed.
Lemma qsumn_plus n f h : (rsumn_ n (fun i => f i + h i) = rsumn_ n f + rsumn_ n h)%R.
Proof. unfold rsumn_. apply qs_plus. Qed.
Lemma qsumn_zero n : (rsumn_ n (fun _ => 0) = 0)%R.
Proof. unfold rsumn_. apply qs_zero. intros; reflexivity. Qed.
Lemma qsumn_swap n m f : (rsumn_ n (fun i => rsumn_ m (fun j => f i j)) = rsumn_ m (fun j => rsumn_ n (fun i => f i j)))%R.
Proof.
  induction n as [|n IH].
  - rewrite qsumn_0. symmetry. rewrite (qsumn_ext m _ (fun _ => 0%R)); [apply qsumn_zero|]. intros j _. rewrite qsumn_0. reflexivity.
  - rewrite qsumn_S, IH, <- qsumn_plus. apply qsumn_ext. intros j _. rewrite qsumn_S. reflexivity.
Qed.
Lemma mmul_assoc n a b c i j : (mmul n (mmul n a b) c i j = mmul n a (mmul n b c) i j)%R.
Proof.
  unfold mmul. rewrite (qsumn_ext n _ (fun k => rsumn_ n (fun l => a i l * b l k * c k j)))%R.
  2:{ intros k _. rewrite <- qsumn_scale_r. apply qsumn_ext. intros; ring. }
  rewrite qsumn_swap. apply qsumn_ext. intros l _. rewrite <- qsumn_scale. apply qsumn_ext. intros; ring.
Qed.
Lemma qsumn_delta n i f : i < n -> (rsumn_ n (fun k => mid i k * f k) = f i)%R.
Proof.
  induction n as [|n IH]; intros H; [lia|]. rewrite qsumn_S. unfold mid at 2.
  destruct (Nat.eqb_spec i n) as [->|Hne].
  - rewrite (qsumn_ext n _ (fun _ => 0%R)), qsumn_zero; [ring|]. intros k Hk. unfold mid.
    destruct (Nat.eqb_spec n k); [lia|ring].
  - rewrite IH by lia. ring.
Qed.
Lemma mmul_id_l n a b : meq n a mid -> meq n (mmul n a b) b.
Proof.
  intros H i j Hi Hj. unfold mmul. rewrite (qsumn_ext n _ (fun k => mid i k * b k j)%R).
  - apply (qsumn_delta n i (fun k => b k j)). exact Hi.
  - intros k Hk. rewrite (H i k Hi Hk). reflexivity.
Qed.
Lemma mmul_meq n a a' b b' : meq n a a' -> meq n b b' -> meq n (mmul n a b) (mmul n a' b').
Proof. intros Ha Hb i j Hi Hj. unfold mmul. apply qsumn_ext. intros k Hk. rewrite (Ha i k), (Hb k j) by assumption. reflexivity. Qed.
Lemma meq_trans n a b c : meq n a b -> meq n b c -> meq n a c.
Proof. intros H1 H2 i j Hi Hj. rewrite (H1 i j), (H2 i j) by assumption. reflexivity. Qed.
Lemma meq_refl n a : meq n a a.
Proof. intros i j _ _. reflexivity. Qed.
Lemma mmul_trans n a b : meq n (mmul n (mtrans a) (mtrans b)) (mtrans (mmul n b a)).
Proof. intros i j _ _. unfold mmul, mtrans. apply qsumn_ext. intros; ring. Qed.
Lemma mid_trans n : meq n (mtrans mid) mid.
Proof. intros i j _ _. unfold mtrans, mid. rewrite Nat.eqb_sym. reflexivity. Qed.
Lemma mtrans_meq n a b : meq n a b -> meq n (mtrans a) (mtrans b).
Proof. intros H i j Hi Hj. apply H; assumption. Qed.
(** (A^-1 A^-T)(A^T A) = I and (A^T A)(A^-1 A^-T) = I. *)
Lemma gram_inverse n a ai : is_inverse n ai a -> is_inverse n (mmul n ai (mtrans ai)) (mmul n (mtrans a) a).
Proof.
  intros [H1 H2].
  assert (T1 : meq n (mmul n (mtrans ai) (mtrans a)) mid).
  { eapply meq_trans; [apply mmul_trans|]. eapply meq_trans; [apply mtrans_meq; exact H2|apply mid_trans]. }
  assert (T2 : meq n (mmul n (mtrans a) (mtrans ai)) mid).
  { eapply meq_trans; [apply mmul_trans|]. eapply meq_trans; [apply mtrans_meq; exact H1|apply mid_trans]. }
  split.
  - assert (S1 : meq n (mmul n (mtrans ai) (mmul n (mtrans a) a)) a).
    { intros i j Hi Hj. rewrite <- mmul_assoc. apply (mmul_id_l n _ a T1); assumption. }
    intros i j Hi Hj. rewrite mmul_assoc. rewrite (mmul_meq n ai ai _ a (meq_refl n ai) S1 i j Hi Hj). apply H1; assumption.
  - assert (S1 : meq n (mmul n a (mmul n ai (mtrans ai))) (mtrans ai)).
    { intros i j Hi Hj. rewrite <- mmul_assoc. apply (mmul_id_l n _ (mtrans ai) H2); assumption. }
    intros i j Hi Hj. rewrite mmul_assoc. rewrite (mmul_meq n (mtrans a) (mtrans a) _ (mtrans ai) (meq_refl n _) S1 i j Hi Hj).
    apply T2; assumption.
Qed.
Lemma gate_dist_quad n d H est Rcov chol inv m p z :
  let li := inv (chol (mtrans (meas_pred_cov n H Rcov m p))) in
  (gate_dist n d H est Rcov chol inv m p z = quad d (mmul d li (mtrans li)) (vsub z (est m)))%R.
Proof.
  cbn zeta. unfold gate_dist. set (li := inv (chol (mtrans (meas_pred_cov n H Rcov m p)))). generalize (vsub z (est m)). intros x.
  unfold quad, mvmul, mmul, mtrans.
  (* lhs: sum_i (sum_k li k i x k)^2 *)
  rewrite (qsumn_ext d _ (fun i => rsumn_ d (fun a => rsumn_ d (fun b => x a * (li a i * li b i * x b))))%R).
  2:{ intros i _. rewrite <- qsumn_scale_r. apply qsumn_ext. intros a _.
      rewrite <- qsumn_scale. apply qsumn_ext. intros b _. ring. }
  rewrite qsumn_swap. apply qsumn_ext. intros a _.
  rewrite qsumn_swap. rewrite <- qsumn_scale. apply qsumn_ext. intros b _.
  rewrite <- qsumn_scale_r, <- qsumn_scale. apply qsumn_ext. intros i _. ring.
Qed.
Lemma gate_dist_nonneg n d H est Rcov chol inv m p z : (0 <= gate_dist n d H est Rcov chol inv m p z)%R.
Proof.
  unfold gate_dist, rsumn_. apply qs_nonneg. intros x Hx. apply in_map_iff in Hx as [i [<- _]].
  generalize (mvmul d (mtrans (inv (chol (mtrans (meas_pred_cov n H Rcov m p))))) (vsub z (est m)) i). intros y.
  destruct (Rlt_le_dec y 0); [setoid_replace (y * y)%R with ((-y) * (-y))%R by ring|]; apply Rmult_le_pos; lra.
Qed.
