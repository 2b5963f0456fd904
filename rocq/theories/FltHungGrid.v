(** [assign_opt] in double precision on costs that are multiples of a common
    power of two and not too large (for instance integers): no step rounds. *)
From Coq Require Import Reals List ZArith Lra Lia Bool.
From Flocq Require Import Core.
From Verif Require Import RBase RHungModel RHungSpec RHungProofs FltIeee FltGibbs FltGibbsProps FltNear FltPhd FltPhdMerge FltHungModel FltHungGen FltHungErr FltHungTop.
Import ListNotations.
Local Open Scope R_scope.

(** [x] is a multiple of 2^e. *)
Definition grid (e : Z) (x : R) : Prop := exists z : Z, x = IZR z * bp e.
Lemma grid_add e x y : grid e x -> grid e y -> grid e (x + y).
Proof. intros [a ->] [b ->]. exists (a + b)%Z. rewrite plus_IZR. ring. Qed.
Lemma grid_sub e x y : grid e x -> grid e y -> grid e (x - y).
Proof. intros [a ->] [b ->]. exists (a - b)%Z. rewrite minus_IZR. ring. Qed.
Lemma grid_fmt e x : (-1074 <= e)%Z -> grid e x -> 0 <= x -> x < bp 53 * bp e -> fmt x.
Proof.
  intros He [z ->] H0 H1. apply dyad_format; [|exact He].
  assert (P : 0 < bp e) by apply bpow_gt_0.
  assert (A : 0 <= IZR z) by (apply Rmult_le_reg_r with (bp e); lra).
  assert (B : IZR z < bp 53) by (apply Rmult_lt_reg_r with (bp e); lra).
  change (bp 53) with (IZR (2 ^ 53)) in B. apply lt_IZR in B. apply le_IZR in A. lia.
Qed.

Section G.
Variables nr nc : nat.
Variable e : Z.
Variable M : R.
Variable C : nat -> nat -> R.
Notation md := (Nat.min nr nc).
Notation K := (hung_fuel nr nc).
Notation inr r c := ((r < nr)%nat /\ (c < nc)%nat).
Hypothesis He : (-1074 <= e)%Z.
Hypothesis HC : forall r c, inr r c -> grid e (C r c) /\ 0 <= C r c <= M.
Hypothesis HM : M * (1 + INR md) < bp 53 * bp e.
Hypothesis HMf : bp 53 * bp e <= fmax64.
Hypothesis Hnr : (0 < nr)%nat.
Hypothesis Hnc : (0 < nc)%nat.

Definition Pg (H : R) (dist : nat -> nat -> R) (u v : nat -> R) (C' : nat -> nat -> R) (k : nat) : Prop :=
  0 <= H /\
  (forall r c, inr r c -> C' r c = C r c /\ grid e (dist r c) /\ 0 <= dist r c <= C r c + H) /\
  forall b, plist_ok nr nc b -> length b = md -> H <= dsum u v b.

Lemma dg_costM (D : nat -> nat -> R) : (forall r c, inr r c -> 0 <= D r c <= M) -> pcost D (dg nr nc) <= INR md * M.
Proof.
  intros HD. destruct (dg_ok nr nc) as [D1 D2]. pose proof (pcost_bounds D 0%R M (dg nr nc)) as P.
  destruct P as [_ P]; [intros r c Hrc; apply HD; apply (proj2 (proj2 D1) r c Hrc)|].
  rewrite D2 in P. unfold Rn in P. rewrite <- INR_IZR_INZ in P. lra.
Qed.
(** [H] is at most the cost of any full matching. *)
Lemma H_grid H dist u v : duals nr nc C dist u v -> (forall b, plist_ok nr nc b -> length b = md -> H <= dsum u v b) -> H <= INR md * M.
Proof.
  intros HD Hs. destruct (dg_ok nr nc) as [D1 D2]. specialize (Hs _ D1 D2).
  pose proof (pcost_duals nr nc C dist u v _ HD D1) as E.
  assert (Z : 0 <= pcost dist (dg nr nc)).
  { apply qsum_nonneg. intros x Hx. apply in_map_iff in Hx as [[r c] [<- Hx]]. cbn [fst snd].
    apply HD; apply (proj2 (proj2 D1) r c Hx). }
  pose proof (dg_costM C (fun r c Hrc => proj2 (HC r c Hrc))). unfold dsum in Hs. lra.
Qed.

Definition d5 (st : hst) (h : R) (r c : nat) : R :=
  let d1 := if h_rcov st r then h_dist st r c + h else h_dist st r c in if h_ccov st c then d1 else d1 - h.

Lemma M0 : 0 <= M.
Proof. destruct (HC 0%nat 0%nat (conj Hnr Hnc)) as [_ A]. lra. Qed.
Lemma step5_grid st u v hist C' k : inv nr nc C' st u v hist -> (exists H, Pg H (h_dist st) u v C' k) ->
  (nstars nr nc (h_star st) < md)%nat -> (k < K)%nat ->
  exists st' u' v' C'', step5f nr nc st = Ok st' /\ inv nr nc C'' st' u' v' hist /\
    h_star st' = h_star st /\ unc_zero nr nc st' = true /\ exists H, Pg H (h_dist st') u' v' C'' (S k).
Proof.
  intros Hinv [H [H0 [Hd Hs]]] Hlt Hk. pose proof M0 as HM0.
  assert (HDC : duals nr nc C (h_dist st) u v).
  { intros r c Hr Hc. destruct Hinv as [HD _]. destruct (HD r c Hr Hc) as [A B]. split; [|exact B].
    destruct (Hd r c (conj Hr Hc)) as [E _]. rewrite <- E. exact A. }
  pose proof (H_grid H _ u v HDC Hs) as HHM.
  assert (Hf : forall r c, inr r c -> fmt (h_dist st r c)).
  { intros r c Hrc. destruct (Hd r c Hrc) as [_ [G [D0 D1]]]. destruct (HC r c Hrc) as [_ [C0 C1]].
    apply (grid_fmt e); try assumption. lra. }
  destruct (step5_inv nr nc C' st u v hist Hinv Hlt Hf) as [h [Em [Hh [Hfh [Hmin Hst]]]]].
  destruct (Hst _ eq_refl) as [Hinv' Hz]. set (st' := {| h_dist := step5_sub st h; h_star := h_star st; h_prime := h_prime st;
                         h_ccov := h_ccov st; h_rcov := h_rcov st |}) in *.
  assert (Hgh : grid e h).
  { pose proof (step5_min_spec nr nc C' st) as Q. rewrite Em in Q. destruct Q as [[r [c [Hr [Hc [_ [_ ->]]]]]] _]. apply Hd; auto. }
  assert (HD5 : duals nr nc C (d5 st h) (u5 st h u) (v5 st h v)).
  { intros r c Hr Hc. destruct (HDC r c Hr Hc) as [A B]. specialize (Hmin r c (conj Hr Hc)). unfold d5, u5, v5.
    destruct (h_rcov st r), (h_ccov st c); split; try lra; specialize (Hmin eq_refl eq_refl); lra. }
  assert (Hs5 : forall b, plist_ok nr nc b -> length b = md -> H + h <= dsum (u5 st h u) (v5 st h v) b).
  { intros b Hb Hlb. pose proof (dual_gain nr nc C' st u v hist h b Hinv Hlt Hh Hb Hlb). specialize (Hs b Hb Hlb). lra. }
  pose proof (H_grid (H + h) _ _ _ HD5 Hs5) as HHM'.
  assert (Hadd : forall r c, inr r c -> step5_add st h r c = (if h_rcov st r then h_dist st r c + h else h_dist st r c) /\
     grid e (step5_add st h r c) /\ 0 <= step5_add st h r c <= M * (1 + INR md)).
  { intros r c Hrc. destruct (Hd r c Hrc) as [_ [G [D0 D1]]]. destruct (HC r c Hrc) as [_ [C0 C1]]. unfold step5_add.
    destruct (h_rcov st r).
    - assert (G2 : grid e (h_dist st r c + h)) by (apply grid_add; assumption).
      assert (E : add64 (h_dist st r c) h = h_dist st r c + h).
      { unfold add64. apply rnd_fix. apply (grid_fmt e); try assumption; lra. }
      rewrite E. split; [reflexivity|]. split; [exact G2|]. lra.
    - split; [reflexivity|]. split; [exact G|]. lra. }
  assert (Hsub : forall r c, inr r c -> step5_sub st h r c = d5 st h r c /\ grid e (d5 st h r c) /\ 0 <= d5 st h r c <= M * (1 + INR md)).
  { intros r c Hrc. destruct (Hadd r c Hrc) as [E [G [A0 A1]]]. destruct (HD5 r c (proj1 Hrc) (proj2 Hrc)) as [_ P].
    revert P. unfold step5_sub, d5. cbn zeta. rewrite <- E. destruct (h_ccov st c); intros P.
    - split; [reflexivity|]. split; [exact G|lra].
    - assert (G2 : grid e (step5_add st h r c - h)) by (apply grid_sub; assumption).
      split; [|split; [exact G2|lra]]. unfold sub64. apply rnd_fix. apply (grid_fmt e); try assumption. lra. }
  exists st', (u5 st h u), (v5 st h v), (fun r c => step5_sub st h r c + u5 st h u r + v5 st h v c).
  split; [|split; [exact Hinv'|split; [reflexivity|split; [exact Hz|]]]].
  - unfold step5f. rewrite Em.
    assert (Hall : all_lt (fun r => all_lt (fun c => fits (step5_add st h r c) && fits (step5_sub st h r c)) nc) nr = true).
    { apply all_lt_true. intros r Hr. apply all_lt_true. intros c Hc.
      destruct (Hadd r c (conj Hr Hc)) as [_ [_ A]]. destruct (Hsub r c (conj Hr Hc)) as [E [_ S]]. rewrite E.
      unfold fits. rewrite andb_true_iff, !Rleb_le, !Rabs_pos_eq by lra. lra. }
    rewrite Hall. reflexivity.
  - exists (H + h). split; [lra|]. split; [|exact Hs5]. intros r c Hrc. cbn [h_dist st'].
    destruct (Hsub r c Hrc) as [E [G [S0 S1]]]. rewrite E. destruct (HD5 r c (proj1 Hrc) (proj2 Hrc)) as [P _].
    split; [lra|]. split; [exact G|]. split; [exact S0|].
    destruct (Hd r c Hrc) as [_ [_ [D0 D1]]]. unfold d5. destruct (h_rcov st r), (h_ccov st c); lra.
Qed.

Theorem solvef_grid : exists star, solvef nr nc C = Ok star /\
  ended nr nc K (fun dist u v C' k => exists H, Pg H dist u v C' k) star.
Proof.
  pose proof M0 as HM0. apply solvef_spec; auto.
  - exact step5_grid.
  - intros dist u v Hd Hu Hv. exists (fun r c => dist r c + u r + v c). split.
    + intros r c Hr Hc. split; [ring|]. destruct (Hd r c Hr Hc) as [m [Hm [_ [-> _]]]]. apply sub64_nonneg. lra.
    + exists 0. split; [lra|]. split.
      * intros r c Hrc. destruct (Hd r c (proj1 Hrc) (proj2 Hrc)) as [m [Hm [[r' [c' [Hr' [Hc' Em]]]] [E Es]]]].
        destruct (HC r c Hrc) as [G [C0 C1]]. assert (Gm : grid e m) by (rewrite Em; apply HC; auto).
        assert (G2 : grid e (C r c - m)) by (apply grid_sub; assumption).
        assert (E2 : sub64 (C r c) m = C r c - m).
        { unfold sub64. apply rnd_fix. apply (grid_fmt e); try assumption; [lra|].
          assert (0 <= M * INR md) by (apply Rmult_le_pos; [lra|apply pos_INR]). lra. }
        rewrite E, E2. split; [lra|]. split; [exact G2|lra].
      * intros b [B1 [B2 B3]] Hb. unfold dsum.
        assert (0 <= rsum (map u (map fst b))) by (apply qsum_nonneg; intros x Hx; rewrite map_map in Hx; apply in_map_iff in Hx as [[r c] [<- Hx]]; apply Hu, (B3 r c Hx)).
        assert (0 <= rsum (map v (map snd b))) by (apply qsum_nonneg; intros x Hx; rewrite map_map in Hx; apply in_map_iff in Hx as [[r c] [<- Hx]]; apply Hv, (B3 r c Hx)).
        lra.
  - intros r c Hr Hc. apply HC; auto.
Qed.
Theorem grid_opt star l b : ended nr nc K (fun dist u v C' k => exists H, Pg H dist u v C' k) star ->
  plist_ok nr nc l -> (forall r c, In (r, c) l <-> star r c = true) -> length l = md ->
  plist_ok nr nc b -> length b = md -> pcost C l <= pcost C b.
Proof.
  intros [dist [u [v [C' [k [[H HP] [Hk [HD [HMm [HS HN]]]]]]]]]] Hl Hls Hll Hb Hlb.
  assert (HD2 : duals nr nc C dist u v).
  { intros r c Hr Hc. destruct (HD r c Hr Hc) as [A B]. split; [|exact B]. destruct HP as [_ [HP _]].
    destruct (HP r c (conj Hr Hc)) as [E _]. rewrite <- E. exact A. }
  assert (Hso : solved nr nc C star) by (exists dist, u, v; auto).
  exact (solved_optimal nr nc C star l b Hso Hl Hls Hb Hlb Hll).
Qed.
(** Running sums on the grid are exact. *)
Lemma fold_grid l : forall s, grid e s -> 0 <= s -> (forall x, In x l -> grid e x /\ 0 <= x) -> s + rsum l < bp 53 * bp e ->
  fold_left add64 l s = s + rsum l.
Proof.
  clear -He. induction l as [|x l IH]; intros s Gs S0 Hl Hb; cbn [fold_left]; [cbn; lra|].
  change (rsum (x :: l)) with (x + rsum l) in *. destruct (Hl x (or_introl eq_refl)) as [Gx X0].
  assert (R0 : 0 <= rsum l) by (apply qsum_nonneg; intros y Hy; apply Hl; right; exact Hy).
  assert (Gs2 : grid e (s + x)) by (apply grid_add; assumption).
  assert (E : add64 s x = s + x) by (unfold add64; apply rnd_fix; apply (grid_fmt e); try assumption; lra).
  rewrite E, IH; [lra|exact Gs2|lra|intros y Hy; apply Hl; right; exact Hy|lra].
Qed.
End G.
