(** C199: OSPA and OSPA(2) do not depend on the coordinate frame and scale with
    the unit of length. *)
From Verif Require Import Base OspaModel OspaSpec OspaProofs OspaMetric OspaProps.
From Coq Require Import Reals Lra Lia List FunctionalExtensionality.
Import ListNotations.
Open Scope R_scope.

(** ** Specification *)
(** The distances the docstring names. *)
Definition euclid (dim : nat) (x y : rvec) : R := sqrt (rsumn dim (fun i => (y i - x i) ^ 2)).
Definition manhattan (dim : nat) (x y : rvec) : R := rsumn dim (fun i => Rabs (y i - x i)).
Definition base_dist (me : option method) : nat -> rvec -> rvec -> R :=
  match me with Some Manhattan => manhattan | _ => euclid end.
(** Every state of every object at every time written in other coordinates;
    covariances unchanged. *)
Definition moved (f : rvec -> rvec) (a : arr) : arr :=
  map (map (option_map (fun o => {| st := f (st o); cv := cv o |}))) a.
(** The same result with every distance [s] times as large. *)
Definition scaled (s : R) (x : result (list (R * R) * method * R)) : result (list (R * R) * method * R) :=
  match x with
  | Ok (r, me, c) => Ok (map (fun lc => (s * fst lc, s * snd lc)) r, me, s * c)
  | Err e => Err e
  end.

(** ** Proofs *)
Definition mvo (f : rvec -> rvec) (o : slot) : slot := option_map (fun o => {| st := f (st o); cv := cv o |}) o.
Lemma mvo_some f o : is_some (mvo f o) = is_some o.
Proof. destruct o; reflexivity. Qed.
Lemma mv_count f l : count (map (mvo f) l) = count l.
Proof. unfold count. induction l as [|o l IH]; [reflexivity|]. cbn [map filter]. rewrite mvo_some. destruct (is_some o); cbn [length]; rewrite IH; reflexivity. Qed.
Lemma mv_nth f l i : nth i (map (mvo f) l) None = mvo f (nth i l None).
Proof. change None with (mvo f None) at 1. apply map_nth. Qed.
Lemma mv_slot f a t i : slot_at (moved f a) t i = mvo f (slot_at a t i).
Proof.
  unfold slot_at, moved. change (@nil slot) with (map (mvo f) []) at 1. rewrite (map_nth (map (mvo f))). apply mv_nth.
Qed.
Lemma root_scale p s x : (1 <= p)%nat -> 0 <= s -> 0 <= x -> root p (s ^ p * x) = s * root p x.
Proof.
  intros Hp Hs Hx. pose proof (root_nonneg p x) as Hr. rewrite <- (pow_root p x) at 1 by assumption.
  rewrite <- Rpow_mult_distr. apply root_pow; [exact Hp|]. apply Rmult_le_pos; assumption.
Qed.
Lemma Rmin_scale s a b : 0 <= s -> Rmin (s * a) (s * b) = s * Rmin a b.
Proof. intros H. unfold Rmin. destruct (Rle_dec a b) as [L|L], (Rle_dec (s * a) (s * b)) as [L'|L']; try reflexivity; [exfalso; apply L'; apply Rmult_le_compat_l; assumption|]. apply Rle_antisym; [exact L'|]. apply Rmult_le_compat_l; lra. Qed.
Lemma rsum_mul {A} s (g : A -> R) l : rsum (map (fun x => s * g x) l) = s * rsum (map g l).
Proof. induction l as [|x l IH]; [cbn; ring|]. cbn [map]. rewrite !rsum_cons, IH. ring. Qed.
Lemma least_scale m n C C' s v : 0 <= s -> (forall i j, (i < m)%nat -> (j < n)%nat -> C' i j = s * C i j) ->
  least_cost m n C v -> least_cost m n C' (s * v).
Proof.
  intros Hs E [[a [Ha <-]] Hm].
  assert (K : forall b, assignment m n b -> cost C' b = s * cost C b).
  { intros b [_ [_ [Hb _]]]. unfold cost. rewrite <- rsum_mul. apply rsum_ext. intros [i j] Hi. apply Hb in Hi. apply E; tauto. }
  split; [exists a; split; [exact Ha|apply K, Ha]|]. intros b Hb. rewrite (K b Hb). apply Rmult_le_compat_l; [exact Hs|]. apply Hm, Hb.
Qed.
Definition sc2 (s : R) (x : result (R * R)) : result (R * R) :=
  match x with Ok lc => Ok (s * fst lc, s * snd lc) | Err e => Err e end.
Lemma mapM_sc {A B} s (g : A -> result (R * R)) (g' : B -> result (R * R)) h l :
  (forall x, In x l -> g' (h x) = sc2 s (g x)) ->
  mapM g' (map h l) = match mapM g l with Ok r => Ok (map (fun lc => (s * fst lc, s * snd lc)) r) | Err e => Err e end.
Proof.
  induction l as [|x l IH]; intros H; [reflexivity|]. cbn [map mapM]. rewrite (H x (or_introl eq_refl)).
  destruct (g x) as [y|e]; [|reflexivity]. cbn [sc2 bind]. rewrite IH by (intros z Hz; apply H; right; exact Hz).
  destruct (mapM g l) as [r|e]; reflexivity.
Qed.
Lemma combine_map2 {A B C D} (g : A -> C) (h : B -> D) l l' : combine (map g l) (map h l') = map (fun xy => (g (fst xy), h (snd xy))) (combine l l').
Proof. revert l'. induction l as [|x l IH]; intros [|y l']; try reflexivity. cbn. f_equal. apply IH. Qed.

Section Scale.
Variable dim : nat.
Variable inv : rmat -> rmat.
Variable det : rmat -> R.
Variable lsa : nat -> nat -> (nat -> nat -> option R) -> result (list (nat * nat)).
Hypothesis Hlsa : lsa_ok lsa.
Variable me : method.
Hypothesis Hme : me <> Hellinger.
Variable f : rvec -> rvec.
Variable s : R.
Hypothesis Hs : 0 < s.
Hypothesis Hcore : forall x y : obj, core dim inv det me {| st := f (st x); cv := cv x |} {| st := f (st y); cv := cv y |} =
  option_map (Rmult s) (core dim inv det me x y).

Lemma de_scale c ue e t : dist_entry dim inv det me (s * c) ue (mvo f e) (mvo f t) = option_map (Rmult s) (dist_entry dim inv det me c ue e t).
Proof.
  unfold dist_entry. destruct e as [x|], t as [y|]; cbn [mvo option_map].
  - rewrite Hcore. destruct (core dim inv det me x y) as [v|]; [|reflexivity]. cbn [option_map nan_min]. f_equal. apply Rmin_scale. lra.
  - cbn [nan_min option_map]. f_equal. apply Rmin_scale. lra.
  - cbn [nan_min option_map]. f_equal. apply Rmin_scale. lra.
  - destruct ue; [|reflexivity]. cbn [nan_min option_map]. f_equal. rewrite <- Rmin_scale by lra. f_equal. ring.
Qed.
Lemma dm_scale c ue es ts i j : dmat dim inv det me (s * c) ue (map (mvo f) es) (map (mvo f) ts) i j = option_map (Rmult s) (dmat dim inv det me c ue es ts i j).
Proof. unfold dmat. rewrite !mv_nth. apply de_scale. Qed.
Lemma frac_nonneg a n : 0 <= a -> 0 <= a / INR n.
Proof. intros H. destruct n as [|n]; [cbn; unfold Rdiv; rewrite Rinv_0; lra|]. apply Rmult_le_pos; [exact H|]. left. apply Rinv_0_lt_compat, lt_0_INR. lia. Qed.
Lemma step_scale c p ue es ts : 0 <= c -> (1 <= p)%nat ->
  ospa_step dim inv det lsa me (s * c) p ue (map (mvo f) es) (map (mvo f) ts) = sc2 s (ospa_step dim inv det lsa me c p ue es ts).
Proof.
  intros Hc Hp.
  destruct (step_cases dim inv det lsa Hlsa me c p ue es ts) as [[H E]|[[H E]|[[H [[i [j [Hi [Hj N]]]] E]]|[H [N [v [Hv E]]]]]]]; rewrite E; cbn [sc2 fst snd].
  - rewrite step_00 by (rewrite mv_count; tauto). f_equal. f_equal; ring.
  - rewrite step_one by (rewrite !mv_count; exact H). f_equal. f_equal; ring.
  - rewrite (step_nan dim inv det lsa Hlsa); [reflexivity|rewrite mv_count; tauto|rewrite mv_count; tauto|].
    exists i, j. rewrite !mv_count. split; [exact Hi|]. split; [exact Hj|]. rewrite dm_scale, N. reflexivity.
  - destruct (step_ok dim inv det lsa Hlsa me (s * c) p ue (map (mvo f) es) (map (mvo f) ts)) as [v' [Hv' E']].
    + rewrite mv_count; tauto.
    + rewrite mv_count; tauto.
    + rewrite !mv_count. intros i j Hi Hj K. rewrite dm_scale in K. apply (N i j Hi Hj). destruct (dmat dim inv det me c ue es ts i j); [discriminate|reflexivity].
    + rewrite !mv_count in Hv', E'. rewrite E'. cbn [sc2 fst snd].
      assert (L : least_cost (count es) (count ts) (fun i j => val (dmat dim inv det me (s * c) ue (map (mvo f) es) (map (mvo f) ts) i j) ^ p) (s ^ p * v)).
      { refine (least_scale _ _ _ _ _ _ _ _ Hv); [apply pow_le; lra|]. intros i j Hi Hj. rewrite dm_scale. specialize (N i j Hi Hj).
        destruct (dmat dim inv det me c ue es ts i j) as [w|]; [|congruence]. cbn [option_map val]. apply Rpow_mult_distr. }
      rewrite (least_cost_unique _ _ _ _ _ _ (fun i j _ _ => eq_refl) Hv' L).
      assert (V : 0 <= v).
      { eapply (least_bounds _ _ _ v (c ^ p) Hv). intros i j Hi Hj. specialize (N i j Hi Hj). destruct (dmat dim inv det me c ue es ts i j) as [w|] eqn:W; [|congruence].
        cbn [val]. apply pow_bounds. eapply de_bounds; [exact Hme|exact Hc|exact W]. }
      f_equal. f_equal.
      * replace (s ^ p * v / INR (Nat.max (count es) (count ts))) with (s ^ p * (v / INR (Nat.max (count es) (count ts)))) by (unfold Rdiv; ring).
        apply root_scale; [exact Hp|lra|]. apply frac_nonneg, V.
      * rewrite Rpow_mult_distr.
        replace (s ^ p * c ^ p * INR (absdiff (count es) (count ts)) / INR (Nat.max (count es) (count ts))) with (s ^ p * (c ^ p * INR (absdiff (count es) (count ts)) / INR (Nat.max (count es) (count ts)))) by (unfold Rdiv; ring).
        apply root_scale; [exact Hp|lra|]. apply frac_nonneg. apply Rmult_le_pos; [apply pow_le; exact Hc|apply pos_INR].
Qed.
Lemma somes_scale (l : list (option R)) : somes (map (option_map (Rmult s)) l) = map (Rmult s) (somes l).
Proof. unfold somes. induction l as [|[x|] l IH]; cbn [map flat_map option_map app]; [reflexivity|f_equal; exact IH|exact IH]. Qed.
Lemma nanmean_scale l : nanmean0 (map (option_map (Rmult s)) l) = s * nanmean0 l.
Proof.
  assert (G : forall k : list R, nanmean0 (map Some k) = rsum k / INR (length k)).
  { intros [|x k]; [cbn; unfold Rdiv; ring|]. unfold nanmean0. replace (somes (map Some (x :: k))) with (x :: k); [reflexivity|].
    symmetry. induction (x :: k) as [|y k' IH]; [reflexivity|]. cbn. f_equal. exact IH. }
  assert (N : forall o : list (option R), nanmean0 o = nanmean0 (map Some (somes o))).
  { intros o. unfold nanmean0. replace (somes (map Some (somes o))) with (somes o); [reflexivity|].
    induction (somes o) as [|y k' IH]; [reflexivity|]. cbn. f_equal. exact IH. }
  rewrite (N (map _ l)), (N l), somes_scale, !G, map_length.
  pose proof (rsum_mul s (fun x => x) (somes l)) as K. rewrite map_id in K. unfold Rdiv. rewrite <- Rmult_assoc. f_equal. exact K.
Qed.
Lemma nanmean_nonneg c ue (g h : nat -> slot) win : 0 <= c ->
  0 <= nanmean0 (map (fun t => dist_entry dim inv det me c ue (g t) (h t)) win).
Proof.
  intros Hc. unfold nanmean0. destruct (somes (map (fun t => dist_entry dim inv det me c ue (g t) (h t)) win)) as [|x r] eqn:E; [lra|].
  apply frac_nonneg, rsum_nonneg. intros y Hy. rewrite <- E in Hy. unfold somes in Hy. apply in_flat_map in Hy as [o [Ho Hy]].
  apply in_map_iff in Ho as [t [<- _]]. destruct (dist_entry dim inv det me c ue (g t) (h t)) as [w|] eqn:W; [|destruct Hy]. destruct Hy as [<-|[]].
  exact (proj1 (de_bounds _ _ _ _ _ _ _ _ _ Hme Hc W)).
Qed.
Lemma step2_scale c p est tru ne nt win : 0 <= c -> (1 <= p)%nat ->
  ospa2_step dim inv det lsa me (s * c) p (moved f est) (moved f tru) ne nt win = sc2 s (ospa2_step dim inv det lsa me c p est tru ne nt win).
Proof.
  intros Hc Hp. unfold ospa2_step.
  assert (F : forall a n, filter (fun i => existsb (fun t => is_some (slot_at (moved f a) t i)) win) (seq 0 n) = filter (fun i => existsb (fun t => is_some (slot_at a t i)) win) (seq 0 n)).
  { intros a n. apply filter_ext. intros i. induction win as [|t w IH]; [reflexivity|]. cbn [existsb]. rewrite mv_slot, mvo_some, IH. reflexivity. }
  rewrite !F. cbv zeta.
  set (rows := filter _ (seq 0 ne)). set (cols := filter _ (seq 0 nt)).
  destruct (Nat.eqb (length cols) 0 && Nat.eqb (length rows) 0)%bool; [cbn [sc2 fst snd]; f_equal; f_equal; ring|].
  assert (C2 : root p ((s * c) ^ p * INR (absdiff (length rows) (length cols)) / INR (Nat.max (length cols) (length rows))) =
    s * root p (c ^ p * INR (absdiff (length rows) (length cols)) / INR (Nat.max (length cols) (length rows)))).
  { rewrite Rpow_mult_distr.
    replace (s ^ p * c ^ p * INR (absdiff (length rows) (length cols)) / INR (Nat.max (length cols) (length rows))) with (s ^ p * (c ^ p * INR (absdiff (length rows) (length cols)) / INR (Nat.max (length cols) (length rows)))) by (unfold Rdiv; ring).
    apply root_scale; [exact Hp|lra|]. apply frac_nonneg. apply Rmult_le_pos; [apply pow_le; exact Hc|apply pos_INR]. }
  destruct (Nat.eqb (length cols) 0 || Nat.eqb (length rows) 0)%bool.
  - cbn [bind sc2 fst snd]. rewrite C2. unfold Rdiv. rewrite !Rmult_0_l, root_0. f_equal. f_equal. ring.
  - match goal with |- context [lsa _ _ ?t] => set (td' := t) end.
    match goal with |- _ = sc2 s (bind (bind (lsa _ _ ?t) _) _) => set (td := t) end.
    destruct (lsa_least lsa (length rows) (length cols) td' Hlsa) as [a' [Ea' La']]; [intros i j _ _; discriminate|].
    destruct (lsa_least lsa (length rows) (length cols) td Hlsa) as [a [Ea La]]; [intros i j _ _; discriminate|].
    rewrite Ea, Ea'. cbn [bind sc2 fst snd]. rewrite C2.
    assert (T : forall i j, val (td' i j) = s ^ p * val (td i j)).
    { intros i j. unfold td', td. cbn [val]. rewrite <- Rpow_mult_distr. f_equal. rewrite <- nanmean_scale, map_map. f_equal. apply map_ext. intros t. rewrite !mv_slot. apply de_scale. }
    assert (L : least_cost (length rows) (length cols) (fun i j => val (td' i j)) (s ^ p * acost td a)) by (refine (least_scale _ _ _ _ _ _ _ _ La); [apply pow_le; lra|intros i j _ _; apply T]).
    rewrite (least_cost_unique _ _ _ _ _ _ (fun i j _ _ => eq_refl) La' L). f_equal. f_equal.
    replace (s ^ p * acost td a / INR (Nat.max (length cols) (length rows))) with (s ^ p * (acost td a / INR (Nat.max (length cols) (length rows)))) by (unfold Rdiv; ring).
    apply root_scale; [exact Hp|lra|]. apply frac_nonneg, rsum_nonneg. intros x Hx. apply in_map_iff in Hx as [[i j] [<- _]]. cbn [fst snd]. unfold td. cbn [val]. apply pow_le, nanmean_nonneg, Hc.
Qed.
Lemma calc_scale o est tru c p ue tcov ecov : ospa_method o tcov ecov = me -> 0 <= c -> (1 <= p)%nat ->
  calculate_ospa dim inv det lsa (moved f est) (moved f tru) (s * c) p ue o tcov ecov =
  scaled s (calculate_ospa dim inv det lsa est tru c p ue o tcov ecov).
Proof.
  intros Eo Hc Hp. unfold calculate_ospa. rewrite Eo, !cut_id by exact Hme.
  unfold moved. rewrite !map_length. rewrite (combine_map2 (map (mvo f)) (map (mvo f))).
  rewrite (mapM_sc s (fun et => ospa_step dim inv det lsa me c p ue (fst et) (snd et))) by (intros [e t] _; apply step_scale; assumption).
  destruct (mapM _ (combine est tru)) as [r|e]; [|reflexivity]. cbn [bind]. destruct (length est <? length tru)%nat; reflexivity.
Qed.
Lemma calc2_scale o est tru ne nt c p w tcov ecov : ospa_method o tcov ecov = me -> 0 <= c -> (1 <= p)%nat ->
  calculate_ospa2 dim inv det lsa (moved f est) (moved f tru) ne nt (s * c) p w o tcov ecov =
  scaled s (calculate_ospa2 dim inv det lsa est tru ne nt c p w o tcov ecov).
Proof.
  intros Eo Hc Hp. unfold calculate_ospa2. rewrite (calc_scale o) by (assumption || lia).
  destruct (calculate_ospa dim inv det lsa est tru c 1 false o tcov ecov) as [[[r0 m0] c0]|e] eqn:E; [|reflexivity]. cbn [scaled bind].
  apply calc_ok in E as [-> [-> _]]. rewrite Eo, cut_id by exact Hme.
  unfold moved at 3. rewrite map_length. rewrite <- (map_id (seq 0 (length tru))) at 1.
  rewrite (mapM_sc s (fun tt => ospa2_step dim inv det lsa me c p est tru ne nt (win_idx tt w))) by (intros t _; apply step2_scale; assumption).
  destruct (mapM _ (seq 0 (length tru))) as [r|e]; reflexivity.
Qed.
End Scale.

Lemma core_of_dist dim inv det me tcov ecov f s : norm_core me ->
  (forall x y, base_dist me dim (f x) (f y) = s * base_dist me dim x y) ->
  forall x y : obj, core dim inv det (ospa_method me tcov ecov) {| st := f (st x); cv := cv x |} {| st := f (st y); cv := cv y |} =
    option_map (Rmult s) (core dim inv det (ospa_method me tcov ecov) x y).
Proof. intros [-> |[-> | ->]] H x y; cbn [ospa_method core st option_map]; f_equal; apply H. Qed.
Lemma norm_not_hell me tcov ecov : norm_core me -> ospa_method me tcov ecov <> Hellinger.
Proof. intros [-> |[-> | ->]]; discriminate. Qed.

(** C199: any change of coordinates that multiplies all distances by [s] (a rigid
    motion when [s = 1], a change of the unit otherwise) multiplies both components
    at every time by [s]; the cut-off is given in the new unit. *)
Theorem C199_ospa_frame : forall dim inv det lsa f s est tru c p ue me tcov ecov,
  lsa_ok lsa -> norm_core me -> 0 < s -> (forall x y, base_dist me dim (f x) (f y) = s * base_dist me dim x y) ->
  0 <= c -> (1 <= p)%nat ->
  calculate_ospa dim inv det lsa (moved f est) (moved f tru) (s * c) p ue me tcov ecov =
  scaled s (calculate_ospa dim inv det lsa est tru c p ue me tcov ecov).
Proof.
  intros dim inv det lsa f s est tru c p ue me tcov ecov L Hm Hs Hf Hc Hp.
  apply (calc_scale dim inv det lsa L (ospa_method me tcov ecov) (norm_not_hell _ _ _ Hm) f s Hs); try assumption; [|reflexivity].
  apply core_of_dist; assumption.
Qed.
Theorem C199_ospa2_frame : forall dim inv det lsa f s est tru ne nt c p w me tcov ecov,
  lsa_ok lsa -> norm_core me -> 0 < s -> (forall x y, base_dist me dim (f x) (f y) = s * base_dist me dim x y) ->
  0 <= c -> (1 <= p)%nat ->
  calculate_ospa2 dim inv det lsa (moved f est) (moved f tru) ne nt (s * c) p w me tcov ecov =
  scaled s (calculate_ospa2 dim inv det lsa est tru ne nt c p w me tcov ecov).
Proof.
  intros dim inv det lsa f s est tru ne nt c p w me tcov ecov L Hm Hs Hf Hc Hp.
  apply (calc2_scale dim inv det lsa L (ospa_method me tcov ecov) (norm_not_hell _ _ _ Hm) f s Hs); try assumption; [|reflexivity].
  apply core_of_dist; assumption.
Qed.

(** Shifts and changes of unit are such changes of coordinates for both distances. *)
Theorem C199_shift_unit : forall me dim s (t : rvec), norm_core me -> 0 < s ->
  forall x y, base_dist me dim (fun i => s * x i + t i) (fun i => s * y i + t i) = s * base_dist me dim x y.
Proof.
  intros me dim s t Hm Hs x y.
  assert (E : euclid dim (fun i => s * x i + t i) (fun i => s * y i + t i) = s * euclid dim x y).
  { unfold euclid. rewrite (rsumn_ext _ _ (fun i => s ^ 2 * (y i - x i) ^ 2)) by (intros; ring).
    assert (K : forall n g, rsumn n (fun i => s ^ 2 * g i) = s ^ 2 * rsumn n g) by (induction n as [|n IH]; intros g; cbn [rsumn]; [ring|rewrite IH; ring]).
    rewrite K, sqrt_mult; [|apply pow_le; lra|apply rsumn_nonneg; intros; apply pow2_ge_0]. f_equal. apply sqrt_pow2. lra. }
  assert (M : manhattan dim (fun i => s * x i + t i) (fun i => s * y i + t i) = s * manhattan dim x y).
  { unfold manhattan. rewrite (rsumn_ext _ _ (fun i => s * Rabs (y i - x i))).
    - assert (K : forall n g, rsumn n (fun i => s * g i) = s * rsumn n g) by (induction n as [|n IH]; intros g; cbn [rsumn]; [ring|rewrite IH; ring]). apply K.
    - intros i _. rewrite <- (Rabs_pos_eq s) at 3 by lra. rewrite <- Rabs_mult. f_equal. ring. }
  destruct Hm as [-> |[-> | ->]]; cbn [base_dist]; assumption.
Qed.

(** Rotations, reflections and shifts are for the Euclidean distance: [Q] has
    orthonormal columns. *)
Definition orthogonal (dim : nat) (Q : rmat) : Prop := forall i j, (i < dim)%nat -> (j < dim)%nat ->
  rsumn dim (fun k => Q k i * Q k j) = if Nat.eqb i j then 1 else 0.
Definition rotate (dim : nat) (Q : rmat) (t : rvec) (x : rvec) : rvec := fun i => rsumn dim (fun j => Q i j * x j) + t i.
Lemma sumn_mul n a g : rsumn n (fun i => a * g i) = a * rsumn n g.
Proof. induction n as [|n IH]; cbn [rsumn]; [ring|rewrite IH; ring]. Qed.
Lemma sumn_plus n g h : rsumn n (fun i => g i + h i) = rsumn n g + rsumn n h.
Proof. induction n as [|n IH]; cbn [rsumn]; [ring|rewrite IH; ring]. Qed.
Lemma sumn_swap n m (g : nat -> nat -> R) : rsumn n (fun i => rsumn m (fun j => g i j)) = rsumn m (fun j => rsumn n (fun i => g i j)).
Proof. induction n as [|n IH]; cbn [rsumn]; [symmetry; apply rsumn_zero; reflexivity|]. rewrite IH, <- sumn_plus. reflexivity. Qed.
Lemma sumn_delta n i g : (i < n)%nat -> rsumn n (fun j => (if Nat.eqb i j then 1 else 0) * g j) = g i.
Proof.
  induction n as [|n IH]; intros H; [lia|]. cbn [rsumn]. destruct (Nat.eqb_spec i n) as [-> |N].
  - rewrite rsumn_zero; [ring|]. intros j Hj. destruct (Nat.eqb_spec n j); [lia|ring].
  - rewrite IH by lia. ring.
Qed.
Theorem C199_rotation : forall dim Q t, orthogonal dim Q -> forall x y, euclid dim (rotate dim Q t x) (rotate dim Q t y) = 1 * euclid dim x y.
Proof.
  intros dim Q t HQ x y. rewrite Rmult_1_l. unfold euclid. f_equal. set (d := fun j => y j - x j).
  rewrite (rsumn_ext _ _ (fun k => rsumn dim (fun i => rsumn dim (fun j => d i * d j * (Q k i * Q k j))))).
  - rewrite sumn_swap. apply rsumn_ext. intros i Hi. rewrite sumn_swap.
    rewrite (rsumn_ext _ _ (fun j => (if Nat.eqb i j then 1 else 0) * (d i * d j))).
    + rewrite sumn_delta by exact Hi. unfold d. ring.
    + intros j Hj. rewrite sumn_mul, (HQ i j Hi Hj). ring.
  - intros k _. unfold rotate.
    replace (rsumn dim (fun j => Q k j * y j) + t k - (rsumn dim (fun j => Q k j * x j) + t k)) with (rsumn dim (fun j => Q k j * d j)).
    + rewrite (rsumn_ext _ (fun i => rsumn dim (fun j => d i * d j * (Q k i * Q k j))) (fun i => rsumn dim (fun j => Q k j * d j) * (Q k i * d i))).
      * rewrite sumn_mul. ring.
      * intros i _. rewrite (rsumn_ext _ _ (fun j => (Q k i * d i) * (Q k j * d j))) by (intros; ring). rewrite sumn_mul. ring.
    + rewrite (rsumn_ext _ _ (fun j => Q k j * y j + (-1) * (Q k j * x j))) by (intros; unfold d; ring). rewrite sumn_plus, sumn_mul. ring.
Qed.

(** A shift changes nothing with any core distance, Hellinger and Mahalanobis
    included, and whatever the assignment solver does. *)
Theorem C199_ospa_shift : forall dim inv det lsa (t : rvec) est tru c p ue me tcov ecov,
  calculate_ospa dim inv det lsa (moved (fun x i => x i + t i) est) (moved (fun x i => x i + t i) tru) c p ue me tcov ecov =
  calculate_ospa dim inv det lsa est tru c p ue me tcov ecov.
Proof.
  intros dim inv det lsa t est tru c p ue me tcov ecov. set (f := fun x i => x i + t i).
  assert (Hc : forall m (x y : obj), core dim inv det m {| st := f (st x); cv := cv x |} {| st := f (st y); cv := cv y |} = core dim inv det m x y).
  { intros m x y. unfold core. cbn [st cv].
    assert (E : forall a b : obj, (fun i => f (st a) i - f (st b) i) = (fun i => st a i - st b i)) by (intros a b; apply functional_extensionality; intros i; unfold f; ring).
    rewrite E. destruct m; try reflexivity.
    - f_equal. apply rsumn_ext. intros i _. f_equal. unfold f. ring.
    - do 2 f_equal. apply rsumn_ext. intros i _. unfold f. ring. }
  assert (D : forall m k u es ts, dmat dim inv det m k u (map (mvo f) es) (map (mvo f) ts) = dmat dim inv det m k u es ts).
  { intros m k u es ts. apply functional_extensionality. intros i. apply functional_extensionality. intros j. unfold dmat. rewrite !mv_nth. unfold dist_entry.
    destruct (nth i es None) as [x|], (nth j ts None) as [y|]; cbn [mvo option_map]; try reflexivity. rewrite Hc. reflexivity. }
  unfold calculate_ospa, moved. rewrite !map_length, (combine_map2 (map (mvo f)) (map (mvo f))).
  rewrite <- (mapM_ext (fun et => ospa_step dim inv det lsa (ospa_method me tcov ecov) (ospa_cut (ospa_method me tcov ecov) c) p ue (fst et) (snd et))); [reflexivity|].
  intros [e u]. cbn [fst snd]. unfold ospa_step. rewrite !mv_count, D. reflexivity.
Qed.
Print Assumptions C199_ospa_frame.
Print Assumptions C199_ospa2_frame.
Print Assumptions C199_shift_unit.
Print Assumptions C199_rotation.
Print Assumptions C199_ospa_shift.

(** A quarter turn of the plane is orthogonal, and a turned and shifted pair of
    states keeps its distance 5. *)
Definition quarter : rmat := fun i j => match i, j with 0%nat, 1%nat => -1 | 1%nat, 0%nat => 1 | _, _ => 0 end.
Example C199_quarter_orthogonal : orthogonal 2 quarter.
Proof. intros i j Hi Hj. destruct i as [|[|i]], j as [|[|j]]; try lia; cbn; ring. Qed.
Example C199_quarter_distance :
  euclid 2 (rotate 2 quarter (fun _ => 7) (fun _ => 0)) (rotate 2 quarter (fun _ => 7) (fun i => match i with 0%nat => 3 | _ => 4 end)) = 5.
Proof.
  rewrite C199_rotation by exact C199_quarter_orthogonal. rewrite Rmult_1_l. unfold euclid. cbn [rsumn].
  replace (0 + (3 - 0) ^ 2 + (4 - 0) ^ 2) with (5 ^ 2) by ring. apply sqrt_pow2. lra.
Qed.
