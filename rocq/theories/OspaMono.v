(** C200: OSPA and OSPA(2) grow with the cut-off and with the order. *)
From Verif Require Import Base OspaModel OspaSpec OspaProofs OspaMetric OspaProps OspaFrame.
From Coq Require Import Reals Lra Lia List.
Import ListNotations.
Open Scope R_scope.

(** ** The power mean grows with the order *)
Lemma tangent p x t : 0 <= x -> 0 <= t -> 0 <= INR p * x ^ S p - INR (S p) * t * x ^ p + t ^ S p.
Proof.
  intros Hx Ht. induction p as [|p IH]; [cbn; lra|].
  rewrite S_INR in IH. rewrite !S_INR. cbn [pow] in *.
  assert (H1 : 0 <= (INR p + 1) * x ^ p * (x - t) ^ 2).
  { apply Rmult_le_pos; [apply Rmult_le_pos; [pose proof (pos_INR p); lra|apply pow_le; exact Hx]|apply pow2_ge_0]. }
  assert (H2 : 0 <= t * (INR p * (x * x ^ p) - (INR p + 1) * t * x ^ p + t * t ^ p)) by (apply Rmult_le_pos; assumption).
  cbn [pow] in H1. lra.
Qed.
Lemma tangent_sum p t l : 0 <= t -> (forall x, In x l -> 0 <= x) ->
  INR (S p) * t * rsum (map (fun x => x ^ p) l) <= INR p * rsum (map (fun x => x ^ S p) l) + INR (length l) * t ^ S p.
Proof.
  intros Ht. induction l as [|x l IH]; intros H; [cbn [map length]; change (rsum []) with 0; change (INR 0) with 0; lra|].
  cbn [map]. rewrite !rsum_cons. change (length (x :: l)) with (S (length l)). rewrite (S_INR (length l)).
  specialize (IH (fun y Hy => H y (or_intror Hy))). pose proof (tangent p x t (H x (or_introl eq_refl)) Ht). lra.
Qed.
Lemma sum_pow_nonneg p l : (forall x, In x l -> 0 <= x) -> 0 <= rsum (map (fun x => x ^ p) l).
Proof. intros H. apply rsum_nonneg. intros y Hy. apply in_map_iff in Hy as [x [<- Hx]]. apply pow_le, H, Hx. Qed.
Lemma mean_step n p l : (1 <= p)%nat -> (length l <= n)%nat -> (forall x, In x l -> 0 <= x) ->
  root p (rsum (map (fun x => x ^ p) l) / INR n) <= root (S p) (rsum (map (fun x => x ^ S p) l) / INR n).
Proof.
  intros Hp Hn H. destruct n as [|n].
  - destruct l; [|cbn in Hn; lia]. cbn [map]. change (rsum []) with 0. unfold Rdiv. rewrite !Rmult_0_l, !root_0. lra.
  - pose proof (sum_pow_nonneg p l H) as A. pose proof (sum_pow_nonneg (S p) l H) as B. assert (N : 0 < INR (S n)) by (apply lt_0_INR; lia).
    set (a := rsum (map (fun x => x ^ p) l)) in *. set (b := rsum (map (fun x => x ^ S p) l)) in *. set (t := root p (a / INR (S n))).
    assert (Ht : 0 <= t) by apply root_nonneg.
    assert (Et : a = INR (S n) * t ^ p) by (unfold t; rewrite pow_root; [field; lra|exact Hp|apply frac_nonneg, A]).
    pose proof (tangent_sum p t l Ht H) as T. fold a b in T.
    assert (L : INR (length l) * t ^ S p <= INR (S n) * t ^ S p) by (apply Rmult_le_compat_r; [apply pow_le; exact Ht|apply le_INR; exact Hn]).
    rewrite Et in T. rewrite (S_INR p) in T. assert (P : 0 < INR p) by (apply lt_0_INR; lia).
    assert (Q : INR p * (INR (S n) * t ^ S p) <= INR p * b) by (cbn [pow] in *; lra).
    apply Rmult_le_reg_l in Q; [|exact P].
    rewrite <- (root_pow (S p) t) by (lia || exact Ht). apply root_le; [apply pow_le; exact Ht|].
    apply (Rmult_le_reg_l (INR (S n))); [exact N|]. unfold Rdiv. rewrite (Rmult_comm b), <- Rmult_assoc, Rinv_r by lra. lra.
Qed.
Lemma mean_mono n p q l : (1 <= p)%nat -> (p <= q)%nat -> (length l <= n)%nat -> (forall x, In x l -> 0 <= x) ->
  root p (rsum (map (fun x => x ^ p) l) / INR n) <= root q (rsum (map (fun x => x ^ q) l) / INR n).
Proof.
  intros Hp Hq Hn H. induction Hq as [|q Hq IH]; [right; reflexivity|]. eapply Rle_trans; [exact IH|]. apply mean_step; [lia|exact Hn|exact H].
Qed.
Lemma frac_mono a b n : 0 <= a -> a <= b -> 0 <= a / INR n <= b / INR n.
Proof.
  intros Ha Hb. split; [apply frac_nonneg, Ha|]. destruct n as [|n]; [cbn; unfold Rdiv; rewrite Rinv_0; lra|].
  apply Rmult_le_compat_r; [|exact Hb]. left. apply Rinv_0_lt_compat, lt_0_INR. lia.
Qed.
Lemma opt_mono m n N C C2 p q v v2 : (1 <= p)%nat -> (p <= q)%nat -> (Nat.min m n <= N)%nat ->
  (forall i j, (i < m)%nat -> (j < n)%nat -> 0 <= C i j <= C2 i j) ->
  least_cost m n (fun i j => C i j ^ p) v -> least_cost m n (fun i j => C2 i j ^ q) v2 ->
  root p (v / INR N) <= root q (v2 / INR N).
Proof.
  intros Hp Hq HN HC [[a1 [Ha1 Ev]] Hv] [[a [Ha <-]] _].
  assert (In_a : forall ij, In ij a -> 0 <= C (fst ij) (snd ij) <= C2 (fst ij) (snd ij)).
  { intros [i j] Hi. destruct Ha as [_ [_ [B _]]]. apply B in Hi. apply HC; tauto. }
  assert (V0 : 0 <= v).
  { rewrite <- Ev. apply rsum_nonneg. intros x Hx. apply in_map_iff in Hx as [[i j] [<- Hi]]. cbn [fst snd]. destruct Ha1 as [_ [_ [B _]]]. apply B in Hi. apply pow_le, HC; tauto. }
  set (l := map (fun ij => C2 (fst ij) (snd ij)) a).
  assert (V : v <= rsum (map (fun x => x ^ p) l)).
  { eapply Rle_trans; [apply Hv, Ha|]. unfold l. rewrite map_map. apply rsum_le. intros ij Hi. apply pow_incr, In_a, Hi. }
  destruct (frac_mono _ _ N V0 V) as [F1 F2]. eapply Rle_trans; [apply root_le; [exact F1|exact F2]|].
  eapply Rle_trans; [apply (mean_mono N p q l Hp Hq)|].
  - unfold l. rewrite map_length. destruct Ha as [_ [_ [_ ->]]]. exact HN.
  - intros x Hx. apply in_map_iff in Hx as [ij [<- Hi]]. pose proof (In_a ij Hi). lra.
  - unfold l. rewrite map_map. right. reflexivity.
Qed.
Lemma card_mono c c2 p q k n : 0 <= c -> c <= c2 -> (1 <= p)%nat -> (p <= q)%nat -> (k <= n)%nat ->
  root p (c ^ p * INR k / INR n) <= root q (c2 ^ q * INR k / INR n).
Proof.
  intros Hc Hc2 Hp Hq Hk.
  assert (E : forall x r, x ^ r * INR k = rsum (map (fun y => y ^ r) (repeat x k))).
  { intros x r. replace (map (fun y => y ^ r) (repeat x k)) with (map (fun _ => x ^ r) (repeat x k)).
    - rewrite rsum_const, repeat_length. ring.
    - apply map_ext_in. intros y Hy. apply repeat_spec in Hy. congruence. }
  assert (I0 : 0 <= c ^ p * INR k) by (apply Rmult_le_pos; [apply pow_le; exact Hc|apply pos_INR]).
  assert (I1 : c ^ p * INR k <= c2 ^ p * INR k) by (apply Rmult_le_compat_r; [apply pos_INR|apply pow_incr; lra]).
  destruct (frac_mono _ _ n I0 I1) as [F1 F2]. eapply Rle_trans; [apply root_le; [exact F1|exact F2]|].
  rewrite !E. apply mean_mono; [exact Hp|exact Hq|rewrite repeat_length; exact Hk|]. intros x Hx. apply repeat_spec in Hx. lra.
Qed.

Section Mono.
Variable dim : nat.
Variable inv : rmat -> rmat.
Variable det : rmat -> R.
Variable lsa : nat -> nat -> (nat -> nat -> option R) -> result (list (nat * nat)).
Hypothesis Hlsa : lsa_ok lsa.
Variable me : method.
Hypothesis Hme : me <> Hellinger.
Variables (c c2 : R) (p q : nat).
Hypothesis Hc : 0 <= c.
Hypothesis Hc2 : c <= c2.
Hypothesis Hp : (1 <= p)%nat.
Hypothesis Hq : (p <= q)%nat.

(** The entry for the larger cut-off exists exactly when the other does, and is
    not smaller. *)
Lemma de_mono ue e t : match dist_entry dim inv det me c ue e t with
  | Some v => exists w, dist_entry dim inv det me c2 ue e t = Some w /\ 0 <= v <= w
  | None => dist_entry dim inv det me c2 ue e t = None
  end.
Proof.
  pose proof (fun x y v => core_nonneg dim inv det me x y v Hme) as Cn.
  unfold dist_entry. destruct e as [x|], t as [y|].
  - destruct (core dim inv det me x y) as [v|] eqn:E; [|reflexivity]. cbn [nan_min]. eexists. split; [reflexivity|]. apply Cn in E. split; [apply Rmin_glb; assumption|]. apply Rle_min_compat_l; exact Hc2.
  - cbn [nan_min]. eexists. split; [reflexivity|]. rewrite !Rmin_left by lra. lra.
  - cbn [nan_min]. eexists. split; [reflexivity|]. rewrite !Rmin_left by lra. lra.
  - destruct ue; [|reflexivity]. cbn [nan_min]. eexists. split; [reflexivity|]. rewrite !Rmin_left by lra. lra.
Qed.
Definition below (x y : R * R) : Prop := fst x <= fst y /\ snd x <= snd y.
Lemma step_mono ue es ts r : ospa_step dim inv det lsa me c p ue es ts = Ok r ->
  exists r2, ospa_step dim inv det lsa me c2 q ue es ts = Ok r2 /\ below r r2.
Proof.
  destruct (step_cases dim inv det lsa Hlsa me c p ue es ts) as [[H E]|[[H E]|[[H [N E]]|[H [N [v [Hv E]]]]]]]; intros X; rewrite E in X; try discriminate; injection X as <-.
  - exists (0, 0). rewrite step_00 by tauto. split; [reflexivity|]. split; cbn; lra.
  - exists (0, c2). rewrite step_one by exact H. split; [reflexivity|]. split; cbn; lra.
  - assert (D : forall i j, (i < count es)%nat -> (j < count ts)%nat -> exists a b, dmat dim inv det me c ue es ts i j = Some a /\ dmat dim inv det me c2 ue es ts i j = Some b /\ 0 <= a <= b).
    { intros i j Hi Hj. specialize (N i j Hi Hj). unfold dmat in *. pose proof (de_mono ue (nth i es None) (nth j ts None)) as M.
      destruct (dist_entry dim inv det me c ue (nth i es None) (nth j ts None)) as [a|]; [|congruence]. destruct M as [b [E2 M]]. eauto. }
    destruct (step_ok dim inv det lsa Hlsa me c2 q ue es ts) as [v2 [Hv2 E2]]; [tauto|tauto| |].
    + intros i j Hi Hj K. destruct (D i j Hi Hj) as [a [b [_ [E2 _]]]]. congruence.
    + eexists. split; [exact E2|]. split; cbn [fst snd].
      * refine (opt_mono (count es) (count ts) _ _ _ p q v v2 Hp Hq _ _ Hv Hv2); [lia|]. intros i j Hi Hj. destruct (D i j Hi Hj) as [a [b [E1 [E3 B]]]]. rewrite E1, E3. exact B.
      * apply card_mono; try assumption. unfold absdiff. lia.
Qed.
Lemma nanmean_mono (g h : nat -> slot) win :
  0 <= nanmean0 (map (fun t => dist_entry dim inv det me c false (g t) (h t)) win) <=
       nanmean0 (map (fun t => dist_entry dim inv det me c2 false (g t) (h t)) win).
Proof.
  set (A := map (fun t => dist_entry dim inv det me c false (g t) (h t)) win). set (B := map (fun t => dist_entry dim inv det me c2 false (g t) (h t)) win).
  assert (F : length (somes A) = length (somes B) /\ 0 <= rsum (somes A) <= rsum (somes B)).
  { unfold A, B. clear A B. induction win as [|t w IH]; [cbn; split; [reflexivity|lra]|]. cbn [map].
    pose proof (de_mono false (g t) (h t)) as M. destruct (dist_entry dim inv det me c false (g t) (h t)) as [a|].
    - destruct M as [b [-> M]]. cbn [somes flat_map app]. change (length (a :: ?x)) with (S (length x)). change (length (b :: ?x)) with (S (length x)).
      rewrite !rsum_cons. destruct IH as [IH1 IH2]. unfold somes in IH1, IH2. split; [cbn [length]; f_equal; exact IH1|lra].
    - rewrite M. exact IH. }
  assert (G : forall o : list (option R), nanmean0 o = rsum (somes o) / INR (length (somes o))).
  { intros o. unfold nanmean0. destruct (somes o); [cbn; unfold Rdiv; ring|reflexivity]. }
  rewrite !G. destruct F as [<- F]. apply frac_mono; tauto.
Qed.
Lemma step2_mono est tru ne nt win r : ospa2_step dim inv det lsa me c p est tru ne nt win = Ok r ->
  exists r2, ospa2_step dim inv det lsa me c2 q est tru ne nt win = Ok r2 /\ below r r2.
Proof.
  unfold ospa2_step. cbv zeta. set (rows := filter _ (seq 0 ne)). set (cols := filter _ (seq 0 nt)).
  destruct (Nat.eqb (length cols) 0 && Nat.eqb (length rows) 0)%bool; [intros X; injection X as <-; eexists; split; [reflexivity|]; split; cbn; lra|].
  assert (K : root p (c ^ p * INR (absdiff (length rows) (length cols)) / INR (Nat.max (length cols) (length rows))) <=
    root q (c2 ^ q * INR (absdiff (length rows) (length cols)) / INR (Nat.max (length cols) (length rows)))) by (apply card_mono; try assumption; unfold absdiff; lia).
  destruct (Nat.eqb (length cols) 0 || Nat.eqb (length rows) 0)%bool.
  - cbn [bind]. intros X; injection X as <-. eexists. split; [reflexivity|]. split; cbn [fst snd]; [|exact K]. unfold Rdiv. rewrite !Rmult_0_l, !root_0. lra.
  - match goal with |- bind (bind (lsa _ _ ?t) _) _ = _ -> _ => set (td := t) end.
    match goal with |- context [bind (bind (lsa _ _ (fun a b => Some (nanmean0 (map _ win) ^ q))) _) _] => idtac end.
    set (td2 := fun a b : nat => Some (nanmean0 (map (fun t => dist_entry dim inv det me c2 false (slot_at est t (nth a rows 0%nat)) (slot_at tru t (nth b cols 0%nat))) win) ^ q)).
    destruct (lsa_least lsa (length rows) (length cols) td Hlsa) as [a [Ea La]]; [intros i j _ _; discriminate|].
    destruct (lsa_least lsa (length rows) (length cols) td2 Hlsa) as [a2 [Ea2 La2]]; [intros i j _ _; discriminate|].
    rewrite Ea, Ea2. cbn [bind]. intros X; injection X as <-. eexists. split; [reflexivity|]. split; cbn [fst snd]; [|exact K].
    refine (opt_mono (length rows) (length cols) _ (fun a b => nanmean0 (map (fun t => dist_entry dim inv det me c false (slot_at est t (nth a rows 0%nat)) (slot_at tru t (nth b cols 0%nat))) win)) (fun a b => nanmean0 (map (fun t => dist_entry dim inv det me c2 false (slot_at est t (nth a rows 0%nat)) (slot_at tru t (nth b cols 0%nat))) win)) p q _ _ Hp Hq _ _ La La2); [lia|].
    intros i j _ _. apply nanmean_mono.
Qed.
Lemma mapM_mono {A} (g g2 : A -> result (R * R)) l r : mapM g l = Ok r ->
  (forall x y, g x = Ok y -> exists y2, g2 x = Ok y2 /\ below y y2) -> exists r2, mapM g2 l = Ok r2 /\ Forall2 below r r2.
Proof.
  intros E H. revert r E. induction l as [|x l IH]; intros r E; cbn [mapM] in *; [injection E as <-; eexists; split; [reflexivity|constructor]|].
  apply bind_ok in E as [y [Ey E]]. apply bind_ok in E as [ys [Eys E]]. injection E as <-.
  destruct (H x y Ey) as [y2 [-> B]]. destruct (IH ys Eys) as [r2 [-> F]]. cbn [bind]. eexists. split; [reflexivity|]. constructor; assumption.
Qed.
End Mono.

(** C200: for a larger cut-off and a larger order both components at every time are
    at least as large (and a call that succeeds still succeeds). *)
Theorem C200_ospa_monotone : forall dim inv det lsa est tru c c2 p q ue me tcov ecov r me' c',
  lsa_ok lsa -> me <> Some Hellinger -> 0 <= c -> c <= c2 -> (1 <= p)%nat -> (p <= q)%nat ->
  calculate_ospa dim inv det lsa est tru c p ue me tcov ecov = Ok (r, me', c') ->
  exists r2, calculate_ospa dim inv det lsa est tru c2 q ue me tcov ecov = Ok (r2, me', c2) /\
    length r2 = length r /\
    forall t, (t < length r)%nat -> fst (nth t r (0, 0)) <= fst (nth t r2 (0, 0)) /\ snd (nth t r (0, 0)) <= snd (nth t r2 (0, 0)).
Proof.
  intros dim inv det lsa est tru c c2 p q ue me tcov ecov r me' c' L Hm Hc Hc2 Hp Hq E.
  assert (Hn : ospa_method me tcov ecov <> Hellinger).
  { destruct me as [[]|]; cbn; try discriminate; try congruence. destruct ecov; discriminate. }
  unfold calculate_ospa in *. rewrite !cut_id in * by exact Hn. apply bind_ok in E as [r0 [E0 E]].
  destruct (length est <? length tru)%nat; [discriminate|]. injection E as <- <- <-.
  destruct (mapM_mono _ (fun et => ospa_step dim inv det lsa (ospa_method me tcov ecov) c2 q ue (fst et) (snd et)) _ _ E0) as [r2 [E2 F]].
  - intros et y. apply step_mono; assumption.
  - rewrite E2. cbn [bind]. exists r2. split; [reflexivity|]. apply Forall2_nth in F as [Ln F]. split; [congruence|]. intros t Ht. apply (F t (0, 0) (0, 0) Ht).
Qed.
Theorem C200_ospa2_monotone : forall dim inv det lsa est tru ne nt c c2 p q w me tcov ecov r me' c',
  lsa_ok lsa -> me <> Some Hellinger -> 0 <= c -> c <= c2 -> (1 <= p)%nat -> (p <= q)%nat ->
  calculate_ospa2 dim inv det lsa est tru ne nt c p w me tcov ecov = Ok (r, me', c') ->
  exists r2, calculate_ospa2 dim inv det lsa est tru ne nt c2 q w me tcov ecov = Ok (r2, me', c2) /\
    length r2 = length r /\
    forall t, (t < length r)%nat -> fst (nth t r (0, 0)) <= fst (nth t r2 (0, 0)) /\ snd (nth t r (0, 0)) <= snd (nth t r2 (0, 0)).
Proof.
  intros dim inv det lsa est tru ne nt c c2 p q w me tcov ecov r me' c' L Hm Hc Hc2 Hp Hq E.
  assert (Hn : ospa_method me tcov ecov <> Hellinger).
  { destruct me as [[]|]; cbn; try discriminate; try congruence. destruct ecov; discriminate. }
  unfold calculate_ospa2 in *. apply bind_ok in E as [[[r0 m0] c0] [E0 E]].
  destruct (C200_ospa_monotone _ _ _ _ _ _ _ c2 1 1 _ _ _ _ _ _ _ L Hm Hc Hc2 (le_n 1) (le_n 1) E0) as [r02 [E02 _]]. rewrite E02. cbn [bind].
  apply calc_ok in E0 as [-> [-> _]]. rewrite cut_id in E by exact Hn. apply bind_ok in E as [r1 [E1 E]]. injection E as <- <- <-.
  destruct (mapM_mono _ (fun tt => ospa2_step dim inv det lsa (ospa_method me tcov ecov) c2 q est tru ne nt (win_idx tt w)) _ _ E1) as [r2 [E2 F]].
  - intros t y. apply step2_mono; assumption.
  - rewrite E2. cbn [bind]. exists r2. split; [reflexivity|]. apply Forall2_nth in F as [Ln F]. split; [congruence|]. intros t Ht. apply (F t (0, 0) (0, 0) Ht).
Qed.
Print Assumptions C200_ospa_monotone.
Print Assumptions C200_ospa2_monotone.

(** One estimate at 0 and truths at 3 and 8 on the line: a call that succeeds, so
    the hypotheses are met for the cut-offs 2 and 5 and the orders 1 and 3. *)
Definition at_ (x : R) : slot := Some {| st := fun _ => x; cv := None |}.
Example C200_instance : exists r r2,
  calculate_ospa 1 (fun m => m) (fun _ => 1) brute_lsa [[at_ 0]] [[at_ 3; at_ 8]] 2 1 true None false false = Ok (r, Euclidean, 2) /\
  calculate_ospa 1 (fun m => m) (fun _ => 1) brute_lsa [[at_ 0]] [[at_ 3; at_ 8]] 5 3 true None false false = Ok (r2, Euclidean, 5) /\
  length r = 1%nat /\ fst (nth 0 r (0, 0)) <= fst (nth 0 r2 (0, 0)) /\ snd (nth 0 r (0, 0)) <= snd (nth 0 r2 (0, 0)).
Proof.
  destruct (C24_ospa_total 1 (fun m => m) (fun _ => 1) brute_lsa [[at_ 0]] [[at_ 3; at_ 8]] 2 1 None false false brute_lsa_ok (or_introl eq_refl) (le_n 1)) as [r [m [c [E Ln]]]].
  pose proof (calc_ok _ _ _ _ _ _ _ _ _ _ _ _ _ _ _ E) as [Em [Ec _]]. cbn in Em, Ec. subst m c.
  destruct (C200_ospa_monotone 1 (fun m => m) (fun _ => 1) brute_lsa [[at_ 0]] [[at_ 3; at_ 8]] 2 5 1 3 true None false false r Euclidean 2 brute_lsa_ok) as [r2 [E2 [L2 H]]]; [discriminate|lra|lra|lia|lia|exact E|].
  exists r, r2. split; [exact E|]. split; [exact E2|]. split; [exact Ln|]. apply H. rewrite Ln. cbn. lia.
Qed.
