(** Proofs about the predicted GLMB hypotheses in double precision. *)
From Coq Require Import Reals ZArith Lia Lra Permutation.
From Flocq Require Import Core Relative.
From Verif Require Import Base RBase GlmbModel FltIeee FltGibbsModel FltGibbs FltGibbsProps FltNear FltOspaModel FltOspa FltOspaStep FltPhdSpec FltPhd FltPhdMerge FltPhdProps FltGlmbModel FltGlmbSpec FltGlmb.
Local Open Scope R_scope.

Lemma near_nears_trans a b e z x y : 0 <= e -> near a z x -> nears b e x y -> nears (a + b) (e * g a) z y.
Proof.
  intros He [A1 A2] [B1 B2]. pose proof (g_pos a) as Ga. assert (Gb : 1 <= g b). { pose proof (g_ge b) as G. pose proof (pos_INR b). pose proof u64_pos. assert (0 <= INR b * u64) by (apply Rmult_le_pos; lra). lra. }
  unfold nears. rewrite g_plus. split.
  - apply Rle_trans with ((y * g b + e) * g a); [|right; ring]. eapply Rle_trans; [exact A1|]. apply Rmult_le_compat_r; lra.
  - assert (x * g b <= z * g a * g b) by (apply Rmult_le_compat_r; lra).
    assert (e * 1 <= e * g a). { apply Rmult_le_compat_l; [exact He|]. pose proof (g_ge a) as G. pose proof (pos_INR a). pose proof u64_pos. assert (0 <= INR a * u64) by (apply Rmult_le_pos; lra). lra. }
    lra.
Qed.
Lemma f2_imp {X Y} (P Q : X -> Y -> Prop) a b : (forall x y, P x y -> Q x y) -> Forall2 P a b -> Forall2 Q a b.
Proof. intros H. induction 1; constructor; [apply H; assumption|assumption]. Qed.
Lemma add_near x y : fn x -> fn y -> near 2 (add64 x y) (x + y).
Proof.
  intros [Fx Px] [Fy Py]. apply (near_rel 1); [lra|cbn [INR]; pose proof u64_small; lra|].
  pose proof (add_err x y Fx Fy) as E. rewrite (Rabs_pos_eq (x + y)) in E by lra. cbn [INR]. lra.
Qed.
Lemma g_one k : 1 <= g k.
Proof. pose proof (g_ge k) as G. pose proof (pos_INR k). pose proof u64_pos. assert (0 <= INR k * u64) by (apply Rmult_le_pos; lra). lra. Qed.
Lemma g_mono a b : (a <= b)%nat -> g a <= g b.
Proof. intros H. replace b with (a + (b - a))%nat by lia. rewrite g_plus. pose proof (g_one a). pose proof (g_one (b - a)). assert (g a * 1 <= g a * g (b - a)) by (apply Rmult_le_compat_l; lra). lra. Qed.

(** ** Merging hypotheses with the same tracks *)
Section Clean.
Context {FS ST CV MS : Type} (E : genv FS ST CV MS) (A : nat) (e : R) (He : 0 <= e).
(** Entries after [j] additions. *)
Definition upair (j : nat) (x y : Z * hyp) : Prop :=
  fst x = fst y /\ h_ts (snd x) = h_ts (snd y) /\ fn (h_p (snd x)) /\ 0 <= h_p (snd y) <= INR j /\
  nears (A + 2 * j) (INR j * e * g (2 * j)) (h_p (snd x)) (h_p (snd y)).
Lemma slack_mono j k : (j <= k)%nat -> INR j * e * g (2 * j) <= INR k * e * g (2 * k).
Proof.
  intros H. apply le_INR in H as H'. pose proof (pos_INR j). pose proof (g_one (2 * j)).
  apply Rmult_le_compat; [apply Rmult_le_pos; lra|lra|apply Rmult_le_compat_r; lra|apply g_mono; lia].
Qed.
Lemma upair_weaken j x y : upair j x y -> upair (S j) x y.
Proof.
  intros [K [T [F [[P0 P1] N]]]]. repeat split; try assumption; try apply F.
  - rewrite S_INR. lra.
  - eapply nears_weaken in N; [exact (proj1 N)|lia|apply slack_mono; lia|apply F|exact P0].
  - eapply nears_weaken in N; [exact (proj2 N)|lia|apply slack_mono; lia|apply F|exact P0].
Qed.
Lemma add_hyp_pairs j k x y u64l ul : ppair A e x y -> Forall2 (upair j) u64l ul ->
  Forall2 (upair (S j)) (add_hyp64 k x u64l) (add_hyp k y ul).
Proof.
  intros P F. induction F as [|[k1 a] [k2 b] u1 u2 U F IH]; cbn [add_hyp64 add_hyp].
  - constructor; [|constructor]. destruct P as [T [R [X [Y N]]]]. unfold upair. cbn [fst snd]. rewrite S_INR. pose proof (pos_INR j) as Pj.
    split; [reflexivity|]. split; [exact T|]. split; [split; [apply rep64_fmt, R|lra]|]. split; [lra|].
    revert N. apply nears_weaken; [lia| |lra|lra]. pose proof (g_one (2 * S j)) as G.
    assert (0 <= INR j * e) by (apply Rmult_le_pos; lra).
    assert ((INR j + 1) * e * 1 <= (INR j + 1) * e * g (2 * S j)) by (apply Rmult_le_compat_l; lra). lra.
  - pose proof U as U'. destruct U' as [Ek [T [Fa [[B0 B1] N]]]]. cbn [fst snd] in *. subst k2. destruct (k =? k1)%Z.
    + constructor; [|exact (f2_imp _ _ _ _ (upair_weaken j) F)].
      destruct P as [T' [R [X [Y N']]]]. unfold upair. cbn [fst snd h_p h_ts]. pose proof (pos_INR j) as Pj.
      assert (Fx : fn (h_p x)) by (split; [apply rep64_fmt, R|lra]). rewrite S_INR.
      split; [reflexivity|]. split; [exact T|]. split; [apply fn_add; assumption|]. split; [lra|].
      assert (Q : nears (A + 2 * j) (INR j * e * g (2 * j) + e) (h_p a + h_p x) (h_p b + h_p y)).
      { apply nears_plus; [exact N|]. revert N'. apply nears_weaken; [lia|lra|apply X|apply Y]. }
      assert (Z0 : 0 <= INR j * e * g (2 * j)) by (apply Rmult_le_pos; [apply Rmult_le_pos; lra|pose proof (g_one (2 * j)); lra]).
      assert (Z : 0 <= INR j * e * g (2 * j) + e) by lra.
      pose proof (near_nears_trans 2 _ _ _ _ _ Z (add_near _ _ Fa Fx) Q) as W.
      revert W. apply nears_weaken; [lia| |apply fn_add; assumption|lra].
      replace (2 * S j)%nat with (2 + 2 * j)%nat by lia. rewrite g_plus. pose proof (g_one 2). pose proof (g_one (2 * j)) as G1.
      assert (e * 1 <= e * g (2 * j)) by (apply Rmult_le_compat_l; lra).
      apply Rle_trans with ((INR j * e * g (2 * j) + e * g (2 * j)) * g 2); [apply Rmult_le_compat_r; lra|right; ring].
    + constructor; [apply upair_weaken, U|exact IH].
Qed.
Lemma fold_pairs l64 l : Forall2 (ppair A e) l64 l -> forall j u1 u2, Forall2 (upair j) u1 u2 ->
  Forall2 (upair (j + length l))
    (fold_left (fun used h => add_hyp64 (v_hash E (sort_nat (h_ts h))) h used) l64 u1)
    (fold_left (fun used h => add_hyp (v_hash E (sort_nat (h_ts h))) h used) l u2).
Proof.
  induction 1 as [|x y l64 l P F IH]; intros j u1 u2 U; cbn [fold_left length].
  - rewrite Nat.add_0_r. exact U.
  - replace (j + S (length l))%nat with (S j + length l)%nat by lia. apply IH. destruct P as [T P]. rewrite T. apply add_hyp_pairs; [split; assumption|exact U].
Qed.
Lemma clean_pairs l64 l : Forall2 (ppair A e) l64 l -> INR (2 * (A + 2 * length l)) * u64 <= / 4 -> INR (length l) * e * 2 <= bp (-500) ->
  Forall2 (close_hyp (2 * (A + 2 * length l))) (clean_predictions64 E l64) (clean_predictions E l).
Proof.
  intros F Hn Hb. pose proof (fold_pairs _ _ F 0 [] [] (Forall2_nil _)) as U. rewrite Nat.add_0_l in U. unfold clean_predictions64, clean_predictions.
  set (n := length l) in *. clearbody n. revert U.
  assert (G : g (A + 2 * n) <= 2) by (apply g_le_2; revert Hn; apply u_mono; lia).
  assert (G2 : g (2 * n) <= 2) by (apply g_le_2; revert Hn; apply u_mono; lia).
  assert (Sl : INR n * e * g (2 * n) <= bp (-500)).
  { eapply Rle_trans; [|exact Hb]. apply Rmult_le_compat_l; [apply Rmult_le_pos; [apply pos_INR|exact He]|exact G2]. }
  assert (n51 : INR n <= bp 51) by (apply nat_le_51; revert Hn; apply u_mono; lia).
  assert (KEY : forall x y, upair n x y -> close_hyp (2 * (A + 2 * n)) (snd x) (snd y)).
  { intros x y [_ [T [[Fx Px] [[Y0 Y1] N]]]]. unfold close_hyp. split; [exact T|].
    assert (XB : h_p (snd x) <= bp 53).
    { destruct N as [N _]. eapply Rle_trans; [exact N|]. assert (h_p (snd y) * g (A + 2 * n) <= bp 51 * 2) by (apply Rmult_le_compat; [exact Y0|pose proof (g_one (A + 2 * n)); lra|lra|exact G]).
      pose proof (bp_dbl 51) as D1. pose proof (bp_dbl 52) as D2. change (51 + 1)%Z with 52%Z in D1. change (52 + 1)%Z with 53%Z in D2.
      assert (bp (-500) <= bp 52) by (apply bp_le; lia). lra. }
    split; [split; [exact Fx|rewrite Rabs_pos_eq by exact Px; apply Rle_trans with (bp 53); [exact XB|apply fmax_ge; lia]]|]. split; [exact Px|].
    eapply Rle_trans; [apply (nears_err (A + 2 * n) (INR n * e * g (2 * n))); [exact Y0| | |exact N]|lra].
    - apply Rmult_le_pos; [apply Rmult_le_pos; [apply pos_INR|exact He]|pose proof (g_one (2 * n)); lra].
    - assert (INR (A + 2 * n) * u64 <= / 4) by (revert Hn; apply u_mono; lia). lra. }
  induction 1; cbn [map]; constructor; [apply KEY; assumption|assumption].
Qed.
End Clean.

(** ** The products *)
Definition prods (f : R -> R -> R) (nb : nat) (bh sh : list hyp) : list hyp :=
  flat_map (fun b => map (fun s => {| h_p := f (h_p b) (h_p s); h_ts := h_ts b ++ map (fun x => (x + nb)%nat) (h_ts s) |}) sh) bh.
Lemma set_pred64_eq nb bh sh : set_pred_hyps64 nb bh sh = rescale64 run_sum (prods mul64 nb bh sh).
Proof. reflexivity. Qed.
Lemma set_pred_eq nb bh sh : set_pred_hyps nb bh sh = rescale (prods Rmult nb bh sh).
Proof. reflexivity. Qed.
Lemma prods_len f nb bh sh : length (prods f nb bh sh) = (length bh * length sh)%nat.
Proof. induction bh as [|b bh IH]; [reflexivity|]. unfold prods in *. cbn [flat_map length]. rewrite app_length, map_length, IH. lia. Qed.
Lemma prods_pairs nb bh sh : probs64 bh -> probs64 sh -> Forall2 (ppair 2 tiny) (prods mul64 nb bh sh) (prods Rmult nb bh sh).
Proof.
  intros Hb Hs. unfold prods. induction bh as [|b bh IH]; cbn [flat_map]; [constructor|].
  apply Forall2_app; [|apply IH; intros h Hh; apply Hb; right; exact Hh]. clear IH.
  destruct (Hb b (or_introl eq_refl)) as [Rb Pb]. clear Hb. induction sh as [|s sh IH]; cbn [map]; constructor; [|apply IH; intros h Hh; apply Hs; right; exact Hh].
  destruct (Hs s (or_introl eq_refl)) as [Rs Ps]. unfold ppair. cbn [h_p h_ts].
  assert (P0 : 0 <= h_p b * h_p s) by (apply Rmult_le_pos; lra).
  assert (P1 : h_p b * h_p s <= 1) by (rewrite <- (Rmult_1_l 1); apply Rmult_le_compat; lra).
  split; [reflexivity|]. split; [apply rnd_rep; [exact P0|apply Rle_trans with (bp 0); [exact P1|apply fmax_ge; lia]]|].
  split; [split; [apply rnd_nonneg, P0|unfold mul64; rewrite <- (rnd_exact 1 one64); apply rnd64_mono, P1]|]. split; [split; assumption|]. apply nears_rnd, P0.
Qed.
Lemma scale_sum (c : R) (f : hyp -> hyp) sh : (forall x, h_p (f x) = c * h_p x) -> rsum (map h_p (map f sh)) = c * rsum (map h_p sh).
Proof.
  intros H. induction sh as [|s sh IH]; cbn [map]; [change (rsum []) with 0; ring|].
  change (rsum (h_p (f s) :: map h_p (map f sh))) with (h_p (f s) + rsum (map h_p (map f sh))). change (rsum (h_p s :: map h_p sh)) with (h_p s + rsum (map h_p sh)). rewrite IH, H. ring.
Qed.
Lemma prods_sum nb bh sh : rsum (map h_p (prods Rmult nb bh sh)) = rsum (map h_p bh) * rsum (map h_p sh).
Proof.
  unfold prods. induction bh as [|b bh IH]; cbn [flat_map]; [cbn [map]; change (rsum []) with 0; ring|].
  rewrite map_app, OspaProofs.rsum_app, IH. cbn [map]. change (rsum (h_p b :: map h_p bh)) with (h_p b + rsum (map h_p bh)).
  rewrite (scale_sum (h_p b)) by reflexivity. ring.
Qed.

(** ** Totals *)
Lemma add_hyp_total k h u : rsum (map (fun x => h_p (snd x)) (add_hyp k h u)) = rsum (map (fun x => h_p (snd x)) u) + h_p h.
Proof.
  induction u as [|[k' h'] u IH]; cbn [add_hyp map snd].
  - change (rsum [h_p h]) with (h_p h + 0). change (rsum []) with 0. ring.
  - destruct (k =? k')%Z; cbn [map snd h_p].
    + change (rsum (h_p h' + h_p h :: map (fun x => h_p (snd x)) u)) with (h_p h' + h_p h + rsum (map (fun x => h_p (snd x)) u)).
      change (rsum (h_p h' :: map (fun x => h_p (snd x)) u)) with (h_p h' + rsum (map (fun x => h_p (snd x)) u)). ring.
    + change (rsum (h_p h' :: map (fun x => h_p (snd x)) (add_hyp k h u))) with (h_p h' + rsum (map (fun x => h_p (snd x)) (add_hyp k h u))).
      change (rsum (h_p h' :: map (fun x => h_p (snd x)) u)) with (h_p h' + rsum (map (fun x => h_p (snd x)) u)). rewrite IH. ring.
Qed.
Section Tot.
Context {FS ST CV MS : Type} (E : genv FS ST CV MS).
Lemma clean_total hs : rsum (map h_p (clean_predictions E hs)) = rsum (map h_p hs).
Proof.
  unfold clean_predictions. rewrite map_map. rewrite <- (Rplus_0_l (rsum (map h_p hs))). change 0 with (rsum (map (fun x : Z * hyp => h_p (snd x)) [])) at 1. generalize (@nil (Z * hyp)).
  induction hs as [|h hs IH]; intros u; cbn [fold_left map]; [change (rsum []) with 0; ring|].
  rewrite IH, add_hyp_total. change (rsum (h_p h :: map h_p hs)) with (h_p h + rsum (map h_p hs)). ring.
Qed.
Lemma add_hyp_len k h u : (length (add_hyp k h u) <= S (length u))%nat.
Proof. induction u as [|[k' h'] u IH]; cbn [add_hyp length]; [lia|]. destruct (k =? k')%Z; cbn [length]; lia. Qed.
Lemma clean_len hs : (length (clean_predictions E hs) <= length hs)%nat.
Proof.
  unfold clean_predictions. rewrite map_length. change (length hs) with (length (@nil (Z * hyp)) + length hs)%nat. generalize (@nil (Z * hyp)).
  induction hs as [|h hs IH]; intros u; cbn [fold_left length]; [lia|]. eapply Nat.le_trans; [apply IH|]. pose proof (add_hyp_len (v_hash E (sort_nat (h_ts h))) h u). lia.
Qed.
End Tot.
Lemma rescale_total hs : rsum (map h_p hs) <> 0 -> rsum (map h_p (rescale hs)) = 1.
Proof. intros H. unfold rescale. cbn zeta. rewrite (scale_sum (/ rsum (map h_p hs))); [apply Rinv_l, H|]. intros x. cbn [h_p]. unfold Rdiv. ring. Qed.
(** Pairwise close hypotheses have close totals. *)
Lemma close_totals K a b : Forall2 (close_hyp K) a b -> Rabs (rsum (map h_p a) - rsum (map h_p b)) <= INR K * u64 * rsum (map h_p b) + INR (length b) * bp (-500).
Proof.
  induction 1 as [|x y a b P F IH]; cbn [map length].
  - change (rsum []) with 0. cbn [INR]. rewrite Rminus_0_r, Rabs_R0. lra.
  - change (rsum (h_p x :: map h_p a)) with (h_p x + rsum (map h_p a)). change (rsum (h_p y :: map h_p b)) with (h_p y + rsum (map h_p b)).
    destruct P as [_ [_ [_ P]]]. rewrite S_INR. replace (h_p x + rsum (map h_p a) - (h_p y + rsum (map h_p b))) with ((h_p x - h_p y) + (rsum (map h_p a) - rsum (map h_p b))) by ring.
    eapply Rle_trans; [apply Rabs_triang|]. lra.
Qed.
Lemma slack_u n : INR n * u64 <= / 4 -> INR n * bp (-500) <= u64.
Proof.
  intros H. apply nat_le_51 in H. apply Rle_trans with (bp 51 * bp (-500)); [apply Rmult_le_compat_r; [apply bpow_ge_0|exact H]|].
  rewrite bp_mul. unfold u64. apply bp_le. lia.
Qed.
Lemma near_one K a b : Forall2 (close_hyp K) a b -> rsum (map h_p b) = 1 -> INR (length b) * u64 <= / 4 -> Rabs (rsum (map h_p a) - 1) <= INR (S K) * u64.
Proof.
  intros F T H. pose proof (close_totals _ _ _ F) as C. rewrite T in C. pose proof (slack_u _ H). rewrite S_INR. lra.
Qed.

(** ** The predicted hypotheses *)
Section Pred.
Context {FS ST CV MS : Type} (E : genv FS ST CV MS).
Lemma pred_close nb bh sh : probs64 bh -> probs64 sh -> bp (-400) <= rsum (map h_p bh) * rsum (map h_p sh) ->
  INR (length bh * length sh) <= bp 47 ->
  Forall2 (close_hyp (8 * (length bh * length sh) + 14)) (pred_hyps64 E nb bh sh) (clean_predictions E (set_pred_hyps nb bh sh)) /\
  rsum (map h_p (clean_predictions E (set_pred_hyps nb bh sh))) = 1 /\
  (length (clean_predictions E (set_pred_hyps nb bh sh)) <= length bh * length sh)%nat.
Proof.
  intros Hb Hs Ht Hn. set (N := (length bh * length sh)%nat) in *. pose proof (few_u _ Hn) as U.
  assert (LN : length (prods Rmult nb bh sh) = N) by apply prods_len.
  unfold pred_hyps64. rewrite set_pred64_eq, set_pred_eq.
  assert (Tp : 0 <= tiny) by (pose proof tiny_pos; lra).
  assert (R : Forall2 (ppair (2 * N + 7) (bp (-590))) (rescale64 run_sum (prods mul64 nb bh sh)) (rescale (prods Rmult nb bh sh))).
  { pose proof (rescale_pairs run_sum seq_sum_good C168_left_to_right_dominates 2 tiny _ _ (prods_pairs nb bh sh Hb Hs) Tp) as R.
    rewrite LN in R. specialize (R U ltac:(lia)). replace (2 * N + 2 * 2 + 3)%nat with (2 * N + 7)%nat in R by lia. apply R.
    right. split; [apply bp_le; lia|]. rewrite prods_sum. exact Ht. }
  assert (RL : length (rescale (prods Rmult nb bh sh)) = N) by (unfold rescale; cbn zeta; rewrite map_length; exact LN).
  split; [|split].
  - pose proof (clean_pairs E (2 * N + 7) (bp (-590)) (bpow_ge_0 _ _) _ _ R) as C. rewrite RL in C.
    replace (2 * (2 * N + 7 + 2 * N))%nat with (8 * N + 14)%nat in C by lia. apply C; [revert U; apply u_mono; lia|].
    apply Rle_trans with (bp 47 * bp (-590) * 2); [apply Rmult_le_compat_r; [lra|]; apply Rmult_le_compat_r; [apply bpow_ge_0|exact Hn]|].
    rewrite bp_mul. rewrite Rmult_comm, <- bp_dbl. apply bp_le. lia.
  - rewrite clean_total. apply rescale_total. rewrite prods_sum. pose proof (bp_pos (-400)). lra.
  - rewrite <- RL. apply clean_len.
Qed.
End Pred.
