(** Property theorems about shortest paths in double precision (C173-C175). *)
From Coq Require Import Reals ZArith Lia Lra Permutation Sorted.
From Flocq Require Import Core Relative.
From Verif Require Import RBase RLists RBfmModel RBfmSpec RBfmProofs RKShortModel RKShortSpec RKShortProofs
  FltIeee FltGibbs FltGibbsProps FltNear FltOspa FltPhd FltPhdMerge FltBfmModel FltBfmSpec FltBfm FltKShort FltBfmErr.
Local Open Scope R_scope.

(** C173: with non-negative link costs or forward links only, the search ends,
    the reported distance is the double precision sum along the returned path,
    and no path has a smaller double precision sum. *)
Theorem C173_bfm_double : forall n G s d fuel, (2 <= n)%nat -> (s < n)%nat -> (d < n)%nat -> (n <= fuel)%nat ->
  well_scaled n G -> forward_links n G \/ nonneg_links n G ->
  exists res, bfmf add64 fuel n G s d = Ok res /\ shortest_by_sums add64 n G s d res.
Proof.
  intros n G s d fuel Hn Hs Hd Hf Hw Hg. exact (bfmf_spec add64 fmt cost64 n G s Hs (no_shrink64 n G Hg) Hw fuel d Hd Hn Hf).
Qed.

(** C174: accuracy. *)
Theorem C174_bfm_double_accuracy : forall n G s d fuel q p, (2 <= n)%nat -> (s < n)%nat -> (d < n)%nat -> (n <= fuel)%nat ->
  well_scaled n G -> forward_links n G \/ nonneg_links n G ->
  (forall u v w, (u < n)%nat -> (v < n)%nat -> G u v = Fin w -> rep64 w) -> INR n * u64 <= / 4 ->
  bfmf add64 fuel n G s d = Ok (Fin q, p) ->
  Rabs (q - path_cost G p) <= 2 * (INR n * u64) * path_abs G p /\
  (forall l, is_path n G s d l -> (length l <= n)%nat ->
     path_cost G p <= path_cost G l + 2 * (INR n * u64) * (path_abs G p + path_abs G l)) /\
  (nonneg_links n G -> forall l, is_path n G s d l -> path_cost G p <= (1 + 8 * (INR n * u64)) * path_cost G l).
Proof.
  intros n G s d fuel q p Hn Hs Hd Hf Hw Hg Hrep Hu E.
  destruct (C173_bfm_double n G s d fuel Hn Hs Hd Hf Hw Hg) as [res [E' K]]. rewrite E in E'. injection E' as <-.
  unfold shortest_by_sums in K. cbn [fst snd] in K. destruct K as [K1 [K2 [K3 K4]]].
  assert (Hlin : forall l, is_path n G s d l -> (length l <= n)%nat ->
     Rabs (walk_sum add64 0 G l - path_cost G l) <= 2 * (INR n * u64) * path_abs G l).
  { intros l [Hl _] Hlen. apply ws_err_lin; [eapply doubles_fmt_links; eassumption|exact Hlen|exact Hu]. }
  pose proof (Hlin p K1 K2) as Hp. rewrite K3 in Hp. split; [exact Hp|].
  assert (Hopt : forall l, is_path n G s d l -> (length l <= n)%nat ->
     path_cost G p <= path_cost G l + 2 * (INR n * u64) * (path_abs G p + path_abs G l)).
  { intros l Hl Hlen. specialize (K4 l Hl). specialize (Hlin l Hl Hlen).
    apply Rabs_le_inv in Hp. apply Rabs_le_inv in Hlin. lra. }
  split; [exact Hopt|]. intros Hnn l Hl.
  destruct (shorten n G s d (nonneg_nnc n G Hnn) (length l) l (le_n _) Hl) as [l' [L1 [L2 L3]]].
  specialize (Hopt l' L1 L2).
  assert (A : forall m, is_path n G s d m -> path_abs G m = path_cost G m) by (intros m [Hm _]; apply (nonneg_abs n G Hnn m Hm)).
  rewrite (A p K1), (A l' L1) in Hopt. pose proof (path_abs_nonneg G p) as P1. rewrite (A p K1) in P1.
  pose proof (path_abs_nonneg G l') as P2. rewrite (A l' L1) in P2.
  pose proof u64_pos as U. pose proof (pos_INR n) as PN. assert (T0 : 0 <= INR n * u64) by (apply Rmult_le_pos; lra).
  set (t := INR n * u64) in *. set (P := path_cost G p) in *. set (L := path_cost G l') in *. set (L0 := path_cost G l) in *.
  clearbody t P L L0. clear - Hopt P1 P2 T0 Hu L3.
  (* P (1 - 2t) <= L (1 + 2t) and (1 + 2t) <= (1 + 8t)(1 - 2t) *)
  assert (H1 : P * (1 - 2 * t) <= (1 + 8 * t) * L * (1 - 2 * t)).
  { assert (Q : 0 <= L * (t * (1 - 4 * t))) by (apply Rmult_le_pos; [lra|apply Rmult_le_pos; lra]).
    replace ((1 + 8 * t) * L * (1 - 2 * t)) with (L * (1 + 2 * t) + 4 * (L * (t * (1 - 4 * t)))) by ring. lra. }
  apply Rmult_le_reg_r in H1; [|lra]. eapply Rle_trans; [exact H1|]. apply Rmult_le_compat_l; lra.
Qed.

(** ** C175: k_shortest *)
Lemma rsum_sublist (f : nat -> R) : (forall i, 0 <= f i) -> forall s l, NoDup s -> incl s l -> rsum (map f s) <= rsum (map f l).
Proof.
  intros Hf. induction s as [|x s IH]; intros l Hnd Hin.
  - change (rsum (map f [])) with 0. induction l as [|y l IHl]; [apply Rle_refl|]. cbn [map].
    change (rsum (f y :: map f l)) with (f y + rsum (map f l)). specialize (Hf y).
    assert (0 <= rsum (map f l)) by (apply IHl; intros z []). lra.
  - inversion Hnd as [|? ? Hx Hnd']; subst. destruct (in_split x l (Hin x (or_introl eq_refl))) as [l1 [l2 ->]].
    assert (Hi : incl s (l1 ++ l2)).
    { intros y Hy. specialize (Hin y (or_intror Hy)). apply in_app_iff in Hin. apply in_app_iff.
      destruct Hin as [H|[->|H]]; [left; exact H|contradiction|right; exact H]. }
    specialize (IH _ Hnd' Hi). rewrite (qsum_perm (map f (l1 ++ x :: l2)) (map f (x :: l1 ++ l2))).
    + cbn [map]. change (rsum (f x :: map f s)) with (f x + rsum (map f s)).
      change (rsum (f x :: map f (l1 ++ l2))) with (f x + rsum (map f (l1 ++ l2))). lra.
    + apply Permutation_map. symmetry. apply Permutation_middle.
Qed.
Lemma subset_magnitude c s : subset c s -> rsum (map (fun i => Rabs (fin_val (entry c i))) s) + machine_eps <= magnitude c.
Proof.
  intros [Hnd Hr]. unfold magnitude. apply Rplus_le_compat_r.
  replace (map (fun e => Rabs (fin_val e)) c) with (map (fun i => Rabs (fin_val (entry c i))) (seq 0 (length c))).
  - apply rsum_sublist; [intros i; apply Rabs_pos|exact Hnd|]. intros x Hx. rewrite Forall_forall in Hr. apply in_seq. specialize (Hr x Hx). lia.
  - rewrite <- (map_nth_seq c (Fin 0)) at 2. rewrite map_map. reflexivity.
Qed.
Lemma eps_fmt : fmt eps.
Proof. replace eps with (bpow radix2 (-52)) by (unfold eps; cbn; lra). apply bpow_format. lia. Qed.

Section K.
Context (c : list ext) (si : list nat).
Hypothesis Hsc : vec_scaled c.
Hypothesis Hsi : Permutation si (seq 0 (length c)).
Local Notation n := (length c).
Local Notation G := (cost_pad (length c) (map (vec c) si)).

Lemma nth_shift : map (fun v => nth (v - 1) si 0%nat) (seq 1 n) = si.
Proof.
  transitivity (map (fun i => nth i si 0%nat) (seq 0 (length si))); [|apply map_nth_seq].
  rewrite (si_len c si Hsi), <- seq_shift, map_map. apply map_ext. intros i.
  cbn [Nat.sub]. rewrite Nat.sub_0_r. reflexivity.
Qed.
Lemma mid_filter f : map (fun v => nth (v - 1) si 0%nat) (mid_of c si (filter f si)) = filter (nzs c) (filter f si).
Proof.
  unfold mid_of.
  transitivity (filter (fun i => existsb (Nat.eqb i) (filter f si) && nzs c i)
                  (map (fun v => nth (v - 1) si 0%nat) (seq 1 n))).
  { generalize (seq 1 n). clear. induction l as [|v l IH]; [reflexivity|]. cbn [map filter].
    destruct (existsb (Nat.eqb (nth (v - 1) si 0%nat)) (filter f si) && nzs c (nth (v - 1) si 0%nat)); [cbn [map]; rewrite IH; reflexivity|exact IH]. }
  rewrite nth_shift.
  assert (H : forall l, incl l si -> filter (fun i => existsb (Nat.eqb i) (filter f si) && nzs c i) l = filter (nzs c) (filter f l)).
  { induction l as [|i l IH]; intros Hl; [reflexivity|]. cbn [filter].
    rewrite IH by (intros y Hy; apply Hl; right; exact Hy).
    assert (Hb : existsb (Nat.eqb i) (filter f si) = f i).
    { destruct (f i) eqn:Ef.
      - apply existsb_exists. exists i. split; [|apply Nat.eqb_refl]. apply filter_In. split; [apply Hl; left; reflexivity|exact Ef].
      - apply Bool.not_true_is_false. intros H. apply existsb_exists in H as [j [Hj Ej]]. apply Nat.eqb_eq in Ej. subst j.
        apply filter_In in Hj as [_ Hj]. congruence. }
    rewrite Hb. destruct (f i); cbn [andb filter]; destruct (nzs c i); reflexivity. }
  apply H, incl_refl.
Qed.
Lemma filter_subset f : subset c (filter f si).
Proof.
  split; [apply NoDup_filter, (si_NoDup c si Hsi)|]. apply Forall_forall. intros x Hx. apply filter_In in Hx as [Hx _].
  eapply Permutation_in in Hx; [|exact Hsi]. apply in_seq in Hx. lia.
Qed.
Lemma fold_nzs : forall s z, available c s -> fmt z ->
  fold_left add64 (map (fun i => fin_val (entry c i)) (filter (nzs c) s)) z = fold_left add64 (map (fun i => fin_val (entry c i)) s) z.
Proof.
  induction s as [|i s IH]; intros z Ha Hz; [reflexivity|]. inversion Ha as [|? ? [q Eq] Ha']; subst.
  cbn [filter map fold_left]. destruct (nzs c i) eqn:E; [cbn [map fold_left]; apply IH; [exact Ha'|apply rnd_fmt]|].
  unfold nzs in E. rewrite Eq in E |- *. apply Bool.negb_false_iff, Reqb_eq in E. subst q. cbn [fin_val].
  rewrite add64_zero by exact Hz. apply IH; assumption.
Qed.
Lemma mid_of_incr s : incr (0%nat :: mid_of c si s ++ [S n]).
Proof.
  constructor.
  - apply incr_app. split; [apply filter_incr, (seq_incr c)|]. split; [repeat constructor|].
    intros x y Hx [<-|[]]. apply filter_In in Hx as [Hx _]. apply in_seq in Hx. lia.
  - apply Forall_app. split; [|apply Forall_cons; [lia|apply Forall_nil]]. apply Forall_forall. intros x Hx.
    apply filter_In in Hx as [Hx _]. apply in_seq in Hx. lia.
Qed.
Lemma G_fmt : (forall i q, (i < n)%nat -> entry c i = Fin q -> rep64 q) ->
  forall p, Forall (fun v => (v < n + 2)%nat) p -> fmt_links G p.
Proof.
  intros Hrep. assert (Hg : forall u v, fmt (fin_val (G u v))).
  { intros u v. unfold cost_pad. destruct (v =? S n)%nat; [destruct (u <=? n)%nat; [exact eps_fmt|apply generic_format_0]|].
    destruct (Nat.leb_spec 1 v) as [H1|]; cbn [andb]; [|apply generic_format_0].
    destruct (Nat.leb_spec v n) as [H2|]; cbn [andb]; [|apply generic_format_0].
    destruct (u <? v)%nat; [|apply generic_format_0]. rewrite (lc_vec c si Hsi) by lia.
    destruct (entry c (nth (v - 1) si 0%nat)) as [q|] eqn:E; cbn [fin_val]; [|apply generic_format_0].
    apply rep64_fmt, (Hrep (nth (v - 1) si 0%nat)); [apply (si_nth_lt c si Hsi); lia|exact E]. }
  induction p as [|u [|v t] IH]; intros Hf; [exact Logic.I|exact Logic.I|]. split; [apply Hg|]. apply IH. inversion Hf; assumption.
Qed.
Lemma path_err p mid : (forall i q, (i < n)%nat -> entry c i = Fin q -> rep64 q) -> INR (n + 2) * u64 <= / 4 ->
  is_path (n + 2) G 0 (S n) p -> p = 0%nat :: mid ++ [S n] -> incr p -> (length mid <= n)%nat ->
  subset c (map (fun x => nth (x - 1) si 0%nat) mid) ->
  Rabs (walk_sum add64 0 G p - path_cost G p) <= 2 * (INR (n + 2) * u64) * magnitude c.
Proof.
  intros Hrep Hu Hp -> Hi Hl Hs. eapply Rle_trans; [apply (ws_err_lin G _ (n + 2))|].
  - apply (G_fmt Hrep). apply Hp.
  - cbn [length]. rewrite app_length. cbn [length]. lia.
  - exact Hu.
  - apply Rmult_le_compat_l.
    + pose proof u64_pos. pose proof (pos_INR (n + 2)). apply Rmult_le_pos; [lra|]. apply Rmult_le_pos; lra.
    + rewrite (mid_abs c si Hsi) by (auto; lia). eapply Rle_trans; [|exact (subset_magnitude c _ Hs)].
      rewrite map_map. apply Rle_refl.
Qed.
End K.

Theorem C175_k_shortest_double : forall c si k, vec_scaled c -> sorts_desc c si -> (1 <= k)%nat ->
  exists p cost ps costs, k_shortestf add64 si c k = Ok (p :: ps, Fin cost :: costs) /\
    length ps = length costs /\ (S (length ps) <= k)%nat /\
    (forall s, In s (p :: ps) -> subset c s /\ forall i, In i s -> exists q, entry c i = Fin q /\ q <> 0) /\
    cost = listed_total64 c p /\
    (forall f, available c (filter f si) -> cost <= listed_total64 c (filter f si)).
Proof.
  intros c si k Hsc [Hsi _] Hk.
  destruct (k_shortest_ok add64 fmt cost64 c si Hsc Hsi k Hk) as [path [q [paths [costs [E [Hg [H1 [H2 [H3 [H4 [H5 [H6 H7]]]]]]]]]]]].
  destruct (path_mid c si path H1) as [mid [-> [Hi [_ Ep]]]].
  exists (post c si (0%nat :: mid ++ [S (length c)])), q, (map (post c si) paths), costs.
  split; [exact E|]. rewrite map_length. split; [symmetry; exact H6|]. split; [exact H7|]. split; [|split].
  - intros s Hs. assert (Hgs : exists x, good c si x /\ s = post c si x).
    { destruct Hs as [<-|Hs]; [eauto|]. apply in_map_iff in Hs as [x [<- Hx]]. rewrite Forall_forall in H5. eauto. }
    destruct Hgs as [x [Hx ->]]. split; [apply (good_post c si Hsi), Hx|]. intros i Hin. apply (good_live c si x i Hx Hin).
  - rewrite Ep, <- H3, (mid_ws c si Hsi) by (auto; lia). unfold listed_total64. rewrite map_map. reflexivity.
  - intros f Ha. destruct (mid_of_path c si Hsi (filter f si) Ha (filter_subset c si Hsi f)) as [M _].
    specialize (H4 _ M). rewrite (mid_ws c si Hsi) in H4 by (apply mid_of_incr || lia). unfold listed_total64.
    rewrite <- (fold_nzs c (filter f si) 0 Ha (generic_format_0 _ _)), <- (mid_filter c si Hsi f), map_map. exact H4.
Qed.

Theorem C175_k_shortest_double_accuracy : forall c si k p ps cost costs, vec_scaled c -> sorts_desc c si ->
  (forall i q, (i < length c)%nat -> entry c i = Fin q -> rep64 q) -> INR (length c + 2) * u64 <= / 4 ->
  k_shortestf add64 si c k = Ok (p :: ps, Fin cost :: costs) ->
  Rabs (cost - (total c p + machine_eps)) <= 2 * (INR (length c + 2) * u64) * magnitude c /\
  (forall s, subset c s -> available c s -> total c p <= total c s + 4 * (INR (length c + 2) * u64) * magnitude c).
Proof.
  intros c si k p ps cost costs Hsc [Hsi _] Hrep Hu E.
  assert (Hk : (1 <= k)%nat) by (destruct k; [discriminate|lia]).
  destruct (k_shortest_ok add64 fmt cost64 c si Hsc Hsi k Hk) as [path [q [paths [costs' [E' [Hg [H1 [H2 [H3 [H4 _]]]]]]]]]].
  rewrite E in E'. injection E' as Ep1 _ Eq _. subst p cost.
  destruct (path_read c si Hsi path (path_cost _ path) H1 H2 eq_refl) as [Hs [_ Hc]].
  destruct (path_mid c si path H1) as [mid [Em [Hi [Hl Ep]]]].
  assert (Hsub : subset c (map (fun x => nth (x - 1) si 0%nat) mid)) by (rewrite <- Ep; exact Hs).
  pose proof (path_err c si Hsi path mid Hrep Hu H1 Em H2 Hl Hsub) as Err. rewrite H3 in Err.
  change machine_eps with eps.
  split; [rewrite <- Hc; exact Err|]. intros s Ss Sa.
  destruct (mid_of_path c si Hsi s Sa Ss) as [M1 M2]. specialize (H4 _ M1).
  destruct (path_mid c si _ M1) as [mid' [Em' [Hi' [Hl' Ep']]]].
  assert (Hinc : incr (0%nat :: mid_of c si s ++ [S (length c)])) by apply mid_of_incr.
  destruct (path_read c si Hsi _ _ M1 Hinc eq_refl) as [Hs' _].
  assert (Hsub' : subset c (map (fun x => nth (x - 1) si 0%nat) mid')) by (rewrite <- Ep'; exact Hs').
  pose proof (path_err c si Hsi _ mid' Hrep Hu M1 Em' Hinc Hl' Hsub') as Err'. rewrite M2 in Err'.
  rewrite Hc in Err. apply Rabs_le_inv in Err. apply Rabs_le_inv in Err'. lra.
Qed.

(** ** The loop that never ends *)
(** Links 0 -> 1 (cost 1), 1 -> 2 (2^54), 2 -> 1 (-2^54).  The cycle 1, 2, 1 has
    cost 0, but 1 + 2^54 is rounded to 2^54, so going round it seems to save 1:
    nodes 1 and 2 become each other's predecessor. *)
Definition big54 : R := bpow radix2 54.
Definition loopG (u v : nat) : ext :=
  match u, v with
  | 0%nat, 1%nat => Fin 1
  | 1%nat, 2%nat => Fin big54
  | 2%nat, 1%nat => Fin (- big54)
  | _, _ => Fin 0
  end.
Lemma big54_val : big54 = 18014398509481984.
Proof. reflexivity. Qed.
Lemma absorb54 : add64 1 big54 = big54.
Proof.
  unfold add64, rnd64, round, scaled_mantissa.
  assert (Hc : cexp radix2 fexp64 (1 + big54) = 2%Z).
  { unfold cexp. replace (mag radix2 (1 + big54) : Z) with 55%Z; [reflexivity|]. symmetry. apply mag_unique.
    rewrite big54_val, Rabs_pos_eq by lra. split; cbn; lra. }
  rewrite Hc. replace (ZnearestE ((1 + big54) * bpow radix2 (- (2)))) with (2 ^ 52)%Z.
  - unfold F2R. cbn [Fnum Fexp]. rewrite big54_val. cbn. lra.
  - symmetry. apply Znearest_imp. rewrite big54_val. replace (bpow radix2 (-(2))) with (/ 4) by (cbn; lra).
    replace (IZR (2 ^ 52)) with 4503599627370496 by reflexivity. rewrite Rabs_pos_eq by lra. lra.
Qed.
Lemma cancel54 : add64 big54 (- big54) = 0.
Proof. unfold add64. rewrite Rplus_opp_r. apply round_0, valid_rnd_N. Qed.
Lemma fmt_1 : fmt 1. Proof. change 1 with (bpow radix2 0). apply bpow_format. lia. Qed.
Lemma fmt_54 : fmt big54. Proof. apply bpow_format. lia. Qed.
Lemma arcs_loop : arcs 3 loopG = [(0%nat, 1%nat, Fin 1); (2%nat, 1%nat, Fin (- big54)); (1%nat, 2%nat, Fin big54)].
Proof.
  unfold arcs. cbn [seq flat_map app]. cbn [filter loopG is_arc].
  assert (E0 : Rleb eps (Rabs 0) = false) by (apply Rleb_gt; rewrite Rabs_R0; unfold eps; lra).
  assert (E1 : Rleb eps (Rabs 1) = true) by (apply Rleb_le; rewrite Rabs_pos_eq by lra; unfold eps; lra).
  assert (E2 : Rleb eps (Rabs big54) = true) by (apply Rleb_le; rewrite Rabs_pos_eq; rewrite big54_val; unfold eps; lra).
  assert (E3 : Rleb eps (Rabs (- big54)) = true) by (rewrite Rabs_Ropp; exact E2).
  rewrite ?E0, ?E1, ?E2, ?E3. cbn [filter loopG is_arc map app]. rewrite ?E0, ?E1, ?E2, ?E3. reflexivity.
Qed.
Lemma relax_new p D o u v a w : D u = Fin a -> D v = Inf ->
  relaxf add64 (p, D, o) (u, v, Fin w) = (upd p v u, upd D v (Fin (add64 a w)), false).
Proof. intros E1 E2. unfold relaxf. rewrite E1, E2. reflexivity. Qed.
Lemma relax_less p D o u v a b w : D u = Fin a -> D v = Fin b -> add64 a w < b ->
  relaxf add64 (p, D, o) (u, v, Fin w) = (upd p v u, upd D v (Fin (add64 a w)), false).
Proof. intros E1 E2 H. unfold relaxf. rewrite E1, E2. cbn [eaddf egt]. apply Rltb_lt in H. rewrite H. reflexivity. Qed.
Lemma relax_keep p D o u v a b w : D u = Fin a -> D v = Fin b -> b <= add64 a w ->
  relaxf add64 (p, D, o) (u, v, Fin w) = (p, D, o).
Proof. intros E1 E2 H. unfold relaxf. rewrite E1, E2. cbn [eaddf egt]. apply Rltb_ge in H. rewrite H. reflexivity. Qed.
Lemma relax_unreached p D o u v w : D u = Inf -> relaxf add64 (p, D, o) (u, v, Fin w) = (p, D, o).
Proof. intros E1. unfold relaxf. rewrite E1. destruct (D v); reflexivity. Qed.
Lemma loop_trace p : p 1%nat = 2%nat -> p 2%nat = 1%nat -> forall fuel acc,
  trace fuel p 0 1 acc = Err OutOfFuel /\ trace fuel p 0 2 acc = Err OutOfFuel.
Proof.
  intros H1 H2. induction fuel as [|f IH]; intros acc; [split; reflexivity|].
  split; cbn [trace Nat.eqb]; [rewrite H1|rewrite H2]; apply IH.
Qed.
Lemma loop_run fuel : bfmf add64 fuel 3 loopG 0 1 = Err OutOfFuel.
Proof.
  assert (Hw : well_scaled 3 loopG).
  { intros u v q Hu Hv E.
    assert (H : forall x, Fin x = Fin q -> x = 0 \/ eps <= Rabs x -> q = 0 \/ eps <= Rabs q) by (intros x [= <-]; auto).
    assert (E1 : eps <= Rabs 1) by (rewrite Rabs_pos_eq by lra; unfold eps; lra).
    assert (E2 : eps <= Rabs big54) by (rewrite Rabs_pos_eq; rewrite big54_val; unfold eps; lra).
    assert (E3 : eps <= Rabs (- big54)) by (rewrite Rabs_Ropp; exact E2).
    destruct u as [|[|[|u]]]; [| | |lia]; (destruct v as [|[|[|v]]]; [| | |lia]); cbn [loopG] in E; eapply H; try exact E; auto. }
  assert (F1 : add64 0 1 = 1) by (unfold add64; rewrite Rplus_0_l; apply rnd_fix, fmt_1).
  assert (F2 : add64 0 big54 = big54) by (unfold add64; rewrite Rplus_0_l; apply rnd_fix, fmt_54).
  unfold bfmf, bfm_helperf. cbn [Nat.leb Nat.eqb].
  rewrite (count_arcs 3 loopG 0 ltac:(lia) Hw), Nat.ltb_irrefl. cbn [bind].
  rewrite arcs_loop. change (3 - 1)%nat with 2%nat. cbn [roundsf fold_left].
  rewrite (relax_new _ _ _ _ _ 0) by reflexivity. rewrite F1.
  rewrite relax_unreached by reflexivity.
  rewrite (relax_new _ _ _ _ _ 1) by reflexivity. rewrite absorb54.
  cbn [roundsf fold_left].
  rewrite (relax_keep _ _ _ _ _ 0 1) by (reflexivity || (rewrite F1; apply Rle_refl)).
  rewrite (relax_less _ _ _ _ _ big54 1) by (reflexivity || (rewrite cancel54; lra)).
  rewrite cancel54.
  rewrite (relax_keep _ _ _ _ _ 0 big54) by (reflexivity || (rewrite F2; apply Rle_refl)).
  cbn [upd Nat.eqb bind Nat.leb].
  rewrite (proj1 (loop_trace _ eq_refl eq_refl fuel [])). reflexivity.
Qed.

Lemma loop_cycles v p : is_path 3 loopG v v p -> 0 <= path_cost loopG p.
Proof.
  intros Hp. apply (potential_no_negative_cycle 3 loopG (fun x => match x with 2%nat => big54 | 0%nat => -1 | _ => 0 end)) with (v := v); [|exact Hp].
  intros a b w Ha Hb E Hw. assert (B : 0 < big54) by (rewrite big54_val; lra).
  destruct a as [|[|[|a]]]; [| | |lia]; (destruct b as [|[|[|b]]]; [| | |lia]); cbn [loopG] in E; injection E as <-; try lra; exfalso; apply Hw; reflexivity.
Qed.

Lemma rep_1 : rep64 1.
Proof. split; [exact fmt_1|]. rewrite Rabs_pos_eq by lra. eapply Rle_trans; [|exact fmax64_big]. change 1 with (bpow radix2 0). apply bpow_le. lia. Qed.
Lemma rep_54 : rep64 big54.
Proof. split; [exact fmt_54|]. rewrite Rabs_pos_eq by (rewrite big54_val; lra). eapply Rle_trans; [|exact fmax64_big]. apply bpow_le. lia. Qed.
Lemma rep_opp x : rep64 x -> rep64 (- x).
Proof. intros [H1 H2]. split; [apply generic_format_opp, H1|rewrite Rabs_Ropp; exact H2]. Qed.
Lemma loop_scaled : well_scaled 3 loopG.
Proof.
  intros u v q Hu Hv E.
  assert (H : forall x, Fin x = Fin q -> x = 0 \/ eps <= Rabs x -> q = 0 \/ eps <= Rabs q) by (intros x [= <-]; auto).
  assert (E1 : eps <= Rabs 1) by (rewrite Rabs_pos_eq by lra; unfold eps; lra).
  assert (E2 : eps <= Rabs big54) by (rewrite Rabs_pos_eq; rewrite big54_val; unfold eps; lra).
  assert (E3 : eps <= Rabs (- big54)) by (rewrite Rabs_Ropp; exact E2).
  destruct u as [|[|[|u]]]; [| | |lia]; (destruct v as [|[|[|v]]]; [| | |lia]); cbn [loopG] in E; eapply H; try exact E; auto.
Qed.
(** C173 is false of graphs that only have no negative cycle: the
    reconstruction of the path can run for ever, although the destination can
    be reached and exact arithmetic finds a shortest path. *)
Theorem C173_bfm_double_refuted : exists n G s d, (s < n)%nat /\ (d < n)%nat /\ well_scaled n G /\
  (forall u v w, (u < n)%nat -> (v < n)%nat -> G u v = Fin w -> rep64 w) /\ no_negative_cycle n G /\
  (exists q p, bfm n G s d = Ok (Fin q, p) /\ is_path n G s d p) /\
  forall fuel, bfmf add64 fuel n G s d = Err OutOfFuel.
Proof.
  exists 3%nat, loopG, 0%nat, 1%nat. split; [lia|]. split; [lia|]. split; [exact loop_scaled|]. split; [|split; [exact loop_cycles|split; [|exact loop_run]]].
  - intros u v w Hu Hv E. assert (H : forall x, Fin x = Fin w -> rep64 x -> rep64 w) by (intros x [= <-]; auto).
    pose proof rep_1. pose proof rep_54. pose proof (rep_opp _ rep_54). pose proof rep64_0.
    destruct u as [|[|[|u]]]; [| | |lia]; (destruct v as [|[|[|v]]]; [| | |lia]); cbn [loopG] in E; eapply H; try exact E; auto.
  - assert (H0 : (0 < 3)%nat) by lia. assert (H1 : (1 < 3)%nat) by lia. assert (H2 : (2 <= 3)%nat) by lia.
    destruct (bfm_spec 3 loopG 0 H0 loop_cycles loop_scaled 1 H1 H2) as [d [p [E K]]]. destruct d as [q|].
    + exists q, p. split; [exact E|apply K].
    + exfalso. destruct K as [_ K]. apply (K [0; 1]%nat). split; [repeat constructor|]. split; [|split; reflexivity].
      split; [|exact Logic.I]. exists 1. split; [reflexivity|lra].
Qed.

(** Accumulated costs stay finite doubles when the magnitudes add up to at most
    2^1002. *)
Theorem C174_no_overflow : forall n G s d l, (forall u v w, (u < n)%nat -> (v < n)%nat -> G u v = Fin w -> rep64 w) ->
  INR n * u64 <= / 4 -> is_path n G s d l -> (length l <= n)%nat -> path_abs G l <= bpow radix2 1002 ->
  rep64 (walk_sum add64 0 G l).
Proof.
  intros n G s d l Hrep Hu [Hl _] Hlen Hb. split; [apply (ws_ok add64 fmt cost64), generic_format_0|].
  pose proof (ws_err_lin G l n (doubles_fmt_links n G Hrep l Hl) Hlen Hu) as E.
  assert (Hc : Rabs (path_cost G l) <= path_abs G l).
  { clear. induction l as [|u [|v t] IH]; [change (Rabs 0 <= 0); rewrite Rabs_R0; lra|change (Rabs 0 <= 0); rewrite Rabs_R0; lra|].
    change (path_cost G (u :: v :: t)) with (fin_val (G u v) + path_cost G (v :: t)).
    change (path_abs G (u :: v :: t)) with (Rabs (fin_val (G u v)) + path_abs G (v :: t)).
    pose proof (Rabs_triang (fin_val (G u v)) (path_cost G (v :: t))). lra. }
  pose proof (path_abs_nonneg G l) as P.
  assert (H1 : 2 * (INR n * u64) * path_abs G l <= 1 * path_abs G l) by (apply Rmult_le_compat_r; lra).
  eapply Rle_trans; [|exact fmax64_big].
  replace (bpow radix2 1003) with (2 * bpow radix2 1002) by (change 1003%Z with (1 + 1002)%Z; rewrite bpow_plus; reflexivity).
  replace (walk_sum add64 0 G l) with ((walk_sum add64 0 G l - path_cost G l) + path_cost G l) by ring.
  eapply Rle_trans; [apply Rabs_triang|]. set (B := bpow radix2 1002) in *. clearbody B. lra.
Qed.
(** An entry that is nonzero but below machine epsilon ends in IndexError, in
    double precision too. *)
Theorem C175_k_shortest_small_entry : forall c si k, sorts_desc c si -> (1 <= k)%nat ->
  (exists i q, (i < length c)%nat /\ entry c i = Fin q /\ q <> 0 /\ Rabs q < machine_eps) ->
  k_shortestf add64 si c k = Err IndexErr.
Proof.
  intros c si k [Hsi _] Hk [i [q [Hi [Ei [Hq Hs]]]]]. unfold k_shortestf. destruct (Nat.eqb_spec k 0) as [|_]; [lia|].
  cbn zeta. unfold k_helperf, bfmf, bfm_helperf.
  destruct (Nat.leb_spec (length c + 2) 0) as [|_]; [lia|]. destruct (Nat.eqb_spec (length c + 2) 1) as [|_]; [lia|].
  assert (Hin : In i si). { eapply Permutation_in; [symmetry; exact Hsi|]. apply in_seq. lia. }
  apply In_nth with (d := 0%nat) in Hin as [j [Hj Ej]]. rewrite (si_len c si Hsi) in Hj.
  assert (Hov : (length (arcs (length c + 2) (cost_pad (length c) (map (vec c) si)))
      < count_nonzero (length c + 2) (cost_pad (length c) (map (vec c) si)))%nat).
  { apply (small_entry_overrun _ _ 0 (S j) q); [lia|lia| |exact Hq|exact Hs].
    rewrite (G_state c si Hsi) by lia. cbn [Nat.sub]. rewrite Nat.sub_0_r, Ej. exact Ei. }
  apply Nat.ltb_lt in Hov. rewrite Hov. reflexivity.
Qed.

(** ** The hypotheses are met *)
Definition triG (u v : nat) : ext :=
  match u, v with
  | 0%nat, 1%nat => Fin 1
  | 1%nat, 2%nat => Fin 1
  | 0%nat, 2%nat => Fin 2
  | 1%nat, 0%nat => Inf
  | _, _ => Fin 0
  end.
Lemma rep_2 : rep64 2.
Proof. split; [change 2 with (bpow radix2 1); apply bpow_format; lia|]. rewrite Rabs_pos_eq by lra. eapply Rle_trans; [|exact fmax64_big]. change 2 with (bpow radix2 1). apply bpow_le. lia. Qed.
Lemma small3 m : (m <= 8)%nat -> INR m * u64 <= / 4.
Proof.
  intros H. apply le_INR in H. replace (INR 8) with 8 in H by (rewrite INR_IZR_INZ; reflexivity).
  pose proof u64_pos as U. assert (u64 <= / 32). { unfold u64. replace (/ 32) with (bpow radix2 (-5)) by (cbn; lra). apply bpow_le. lia. }
  assert (INR m * u64 <= 8 * / 32) by (apply Rmult_le_compat; lra || apply pos_INR). lra.
Qed.
Lemma tri_nonneg : nonneg_links 3 triG.
Proof.
  intros u v w Hu Hv E. destruct u as [|[|[|u]]]; [| | |lia]; (destruct v as [|[|[|v]]]; [| | |lia]); cbn [triG] in E; try discriminate; injection E as <-; lra.
Qed.
Lemma tri_scaled : well_scaled 3 triG.
Proof.
  intros u v w Hu Hv E.
  assert (E1 : eps <= Rabs 1) by (rewrite Rabs_pos_eq by lra; unfold eps; lra).
  assert (E2 : eps <= Rabs 2) by (rewrite Rabs_pos_eq by lra; unfold eps; lra).
  destruct u as [|[|[|u]]]; [| | |lia]; (destruct v as [|[|[|v]]]; [| | |lia]); cbn [triG] in E; try discriminate; injection E as <-; auto.
Qed.
Lemma tri_rep u v w : (u < 3)%nat -> (v < 3)%nat -> triG u v = Fin w -> rep64 w.
Proof.
  intros Hu Hv E. pose proof rep_1. pose proof rep_2. pose proof rep64_0.
  destruct u as [|[|[|u]]]; [| | |lia]; (destruct v as [|[|[|v]]]; [| | |lia]); cbn [triG] in E; try discriminate; injection E as <-; assumption.
Qed.
Lemma tri_path : is_path 3 triG 0 2 [0; 1; 2]%nat.
Proof.
  split; [repeat constructor|]. split; [|split; reflexivity].
  split; [exists 1; split; [reflexivity|lra]|]. split; [exists 1; split; [reflexivity|lra]|exact Logic.I].
Qed.
Example C173_hypotheses_met : exists q p, bfmf add64 3 3 triG 0 2 = Ok (Fin q, p) /\ q <= walk_sum add64 0 triG [0; 1; 2]%nat.
Proof.
  destruct (C173_bfm_double 3 triG 0 2 3 ltac:(lia) ltac:(lia) ltac:(lia) ltac:(lia) tri_scaled (or_intror tri_nonneg)) as [[[q|] p] [E K]];
    unfold shortest_by_sums in K; cbn [fst snd] in K.
  - exists q, p. split; [exact E|]. destruct K as [_ [_ [_ K]]]. apply K, tri_path.
  - exfalso. destruct K as [_ K]. exact (K _ tri_path).
Qed.
Example C174_hypotheses_met : exists q p, bfmf add64 3 3 triG 0 2 = Ok (Fin q, p) /\
  path_cost triG p <= (1 + 8 * (INR 3 * u64)) * path_cost triG [0; 1; 2]%nat.
Proof.
  destruct C173_hypotheses_met as [q [p [E _]]]. exists q, p. split; [exact E|].
  assert (H3 : (3 <= 8)%nat) by lia.
  destruct (C174_bfm_double_accuracy 3 triG 0 2 3 q p ltac:(lia) ltac:(lia) ltac:(lia) ltac:(lia) tri_scaled (or_intror tri_nonneg) tri_rep (small3 3 H3) E) as [_ [_ H]].
  apply H; [exact tri_nonneg|exact tri_path].
Qed.
Definition ex_c : list ext := [Fin (-1); Fin 2; Inf].
Lemma ex_c_scaled : vec_scaled ex_c.
Proof.
  assert (E1 : machine_eps <= Rabs 1) by (rewrite Rabs_pos_eq by lra; unfold machine_eps; lra).
  assert (E2 : machine_eps <= Rabs 2) by (rewrite Rabs_pos_eq by lra; unfold machine_eps; lra).
  intros i q Hi E. cbn in Hi. destruct i as [|[|[|i]]]; [| | |lia]; cbn in E; try discriminate; injection E as <-; right; [|exact E2].
  rewrite <- Rabs_Ropp. replace (- (-1)) with 1 by lra. exact E1.
Qed.
Lemma ex_c_sorts : sorts_desc ex_c [2; 1; 0]%nat.
Proof.
  split; [symmetry; apply (Permutation_rev [0; 1; 2]%nat)|].
  constructor; [repeat constructor|]. constructor; [repeat constructor; cbn; lra|]. repeat constructor.
Qed.
Lemma ex_c_rep i q : (i < length ex_c)%nat -> entry ex_c i = Fin q -> rep64 q.
Proof.
  intros Hi E. cbn in Hi. destruct i as [|[|[|i]]]; [| | |lia]; cbn in E; try discriminate; injection E as <-; [|exact rep_2].
  apply (rep_opp 1 rep_1).
Qed.
Example C175_hypotheses_met : exists p cost ps costs, k_shortestf add64 [2; 1; 0]%nat ex_c 2 = Ok (p :: ps, Fin cost :: costs) /\
  cost <= listed_total64 ex_c [0%nat] /\ total ex_c p <= -1 + 4 * (INR (3 + 2) * u64) * magnitude ex_c.
Proof.
  destruct (C175_k_shortest_double ex_c [2; 1; 0]%nat 2 ex_c_scaled ex_c_sorts ltac:(lia)) as [p [cost [ps [costs [E [_ [_ [_ [_ H]]]]]]]]].
  exists p, cost, ps, costs. split; [exact E|]. assert (H5 : (5 <= 8)%nat) by lia. split.
  - apply (H (Nat.eqb 0)). repeat constructor. exists (-1). reflexivity.
  - destruct (C175_k_shortest_double_accuracy ex_c _ _ _ _ _ _ ex_c_scaled ex_c_sorts ex_c_rep (small3 5 H5) E) as [_ T].
    eapply Rle_trans; [apply (T [0%nat])|apply Req_le].
    + split; repeat constructor; auto.
    + repeat constructor. exists (-1). reflexivity.
    + unfold total. cbn [map]. change (fin_val (entry ex_c 0)) with (-1). change (rsum [-1]) with (-1 + 0). change (length ex_c + 2)%nat with (3 + 2)%nat. ring.
Qed.

Print Assumptions C173_bfm_double.
Print Assumptions C173_bfm_double_refuted.
Print Assumptions C174_bfm_double_accuracy.
Print Assumptions C174_no_overflow.
Print Assumptions C175_k_shortest_double.
Print Assumptions C175_k_shortest_double_accuracy.
Print Assumptions C175_k_shortest_small_entry.
