(** C202: OSPA(2) is OSPA when nothing moves within the window, in particular for
    a window of one time step. *)
From Verif Require Import Base OspaModel OspaSpec OspaProofs OspaMetric OspaProps OspaFrame.
From Coq Require Import Reals Lra Lia List.
Import ListNotations.
Open Scope R_scope.

Lemma filter_all {A} (f : A -> bool) l : (forall x, In x l -> f x = true) -> filter f l = l.
Proof. induction l as [|x l IH]; intros H; [reflexivity|]. cbn [filter]. rewrite (H x (or_introl eq_refl)), IH; [reflexivity|]. intros y Hy. apply H. right. exact Hy. Qed.
Lemma filter_none {A} (f : A -> bool) l : (forall x, In x l -> f x = false) -> filter f l = [].
Proof. induction l as [|x l IH]; intros H; [reflexivity|]. cbn [filter]. rewrite (H x (or_introl eq_refl)). apply IH. intros y Hy. apply H. right. exact Hy. Qed.
Lemma exists_const {A} (f : A -> bool) b l : l <> [] -> (forall x, In x l -> f x = b) -> existsb f l = b.
Proof.
  intros Hn H. destruct b.
  - destruct l as [|x l]; [congruence|]. cbn [existsb]. rewrite (H x (or_introl eq_refl)). reflexivity.
  - clear Hn. induction l as [|x l IH]; [reflexivity|]. cbn [existsb]. rewrite (H x (or_introl eq_refl)). apply IH. intros y Hy. apply H. right. exact Hy.
Qed.
Lemma rows_static (a : arr) win l n X k : win <> [] -> (forall s, In s win -> nth s a [] = l) -> l = map Some X ++ repeat None k -> length l = n ->
  filter (fun i => existsb (fun s => is_some (slot_at a s i)) win) (seq 0 n) = seq 0 (length X).
Proof.
  intros Hw Hs -> <-.
  assert (E : forall i, existsb (fun s => is_some (slot_at a s i)) win = is_some (nth i (map Some X ++ repeat None k) (@None obj))).
  { intros i. apply exists_const; [exact Hw|]. intros s Hi. unfold slot_at. rewrite (Hs s Hi). reflexivity. }
  rewrite (filter_ext _ _ E), app_length, map_length, repeat_length, seq_app, filter_app. cbn [plus].
  rewrite filter_all, filter_none, app_nil_r; [reflexivity| |].
  - intros i Hi. apply in_seq in Hi. rewrite app_nth2 by (rewrite map_length; lia). destruct (nth_in_or_default (i - length (map Some X)) (repeat (@None obj) k) None) as [H| ->]; [|reflexivity]. apply repeat_spec in H. rewrite H. reflexivity.
  - intros i Hi. apply in_seq in Hi. destruct X as [|x0 X']; [cbn in Hi; lia|]. rewrite (nth_prefix (x0 :: X') k i x0) by lia. reflexivity.
Qed.
Lemma nanmean_const {A} (v : R) (w : list A) : w <> [] -> nanmean0 (map (fun _ => Some v) w) = v.
Proof.
  intros Hw. assert (E : somes (map (fun _ => Some v) w) = map (fun _ => v) w).
  { clear Hw. induction w as [|x w IH]; [reflexivity|]. unfold somes in *. cbn [map flat_map app]. f_equal. exact IH. }
  unfold nanmean0. rewrite E. destruct w as [|x w]; [congruence|]. cbn [map]. change (v :: map (fun _ => v) w) with (map (fun _ => v) (x :: w)). rewrite rsum_const, map_length. field. apply not_0_INR. discriminate.
Qed.

Section Static.
Variable dim : nat.
Variable inv : rmat -> rmat.
Variable det : rmat -> R.
Variable lsa : nat -> nat -> (nat -> nat -> option R) -> result (list (nat * nat)).
Hypothesis Hlsa : lsa_ok lsa.
Lemma static_step me c p ue est tru ne nt win es ts : symm me -> 0 <= c -> (1 <= p)%nat -> win <> [] ->
  (forall s, In s win -> nth s est [] = es) -> (forall s, In s win -> nth s tru [] = ts) ->
  prefix_slots es -> prefix_slots ts -> length es = ne -> length ts = nt ->
  ospa2_step dim inv det lsa me c p est tru ne nt win = ospa_step dim inv det lsa me c p ue es ts.
Proof.
  intros Hm Hc Hp Hw He Ht [X [k Ex]] [Y [l Ey]] Le Lt. unfold ospa2_step.
  rewrite (rows_static est win es ne X k Hw He Ex Le), (rows_static tru win ts nt Y l Hw Ht Ey Lt). cbv zeta. rewrite !seq_length.
  assert (Cx : count es = length X) by (rewrite count_present, Ex, present_prefix; reflexivity).
  assert (Cy : count ts = length Y) by (rewrite count_present, Ey, present_prefix; reflexivity).
  destruct (Nat.eqb_spec (length Y) 0) as [Y0|Y0], (Nat.eqb_spec (length X) 0) as [X0|X0]; cbn [andb orb].
  - symmetry. apply step_00; lia.
  - rewrite step_one by lia. cbn [bind]. f_equal. f_equal; [unfold Rdiv; rewrite Rmult_0_l; apply root_0|].
    rewrite <- (root_pow p c) at 2 by assumption. f_equal. rewrite Y0. replace (absdiff (length X) 0) with (length X) by (unfold absdiff; lia). rewrite Nat.max_0_l. field. apply not_0_INR. exact X0.
  - rewrite step_one by lia. cbn [bind]. f_equal. f_equal; [unfold Rdiv; rewrite Rmult_0_l; apply root_0|].
    rewrite <- (root_pow p c) at 2 by assumption. f_equal. rewrite X0. replace (absdiff 0 (length Y)) with (length Y) by (unfold absdiff; lia). rewrite Nat.max_0_r. field. apply not_0_INR. exact Y0.
  - set (td := fun a b : nat => Some (nanmean0 (map (fun s => dist_entry dim inv det me c false (slot_at est s (nth a (seq 0 (length X)) 0%nat)) (slot_at tru s (nth b (seq 0 (length Y)) 0%nat))) win) ^ p)).
    destruct (lsa_least lsa (length X) (length Y) td Hlsa) as [a [Ea La]]; [intros i j _ _; discriminate|]. rewrite Ea. cbn [bind].
    assert (D : forall u i j, (i < length X)%nat -> (j < length Y)%nat -> exists v, dmat dim inv det me c u es ts i j = Some v /\ val (td i j) = v ^ p).
    { intros u i j Hi Hj. destruct X as [|x0 X']; [cbn in X0; lia|]. destruct Y as [|y0 Y']; [cbn in Y0; lia|].
      assert (Ni : nth i es None = Some (nth i (x0 :: X') x0)) by (rewrite Ex; apply nth_prefix, Hi). assert (Nj : nth j ts None = Some (nth j (y0 :: Y') y0)) by (rewrite Ey; apply nth_prefix, Hj).
      destruct (de_some dim inv det me c (nth i es None) (nth j ts None) Hm) as [v Ev].
      assert (Eu : forall u, dist_entry dim inv det me c u (nth i es None) (nth j ts None) = Some v) by (intros u'; rewrite Ni, Nj in *; exact Ev).
      exists v. split; [apply Eu|]. unfold td. cbn [val]. f_equal. rewrite !seq_nth by assumption. cbn [plus].
      rewrite (map_ext_in _ (fun _ => Some v)); [apply nanmean_const, Hw|]. intros s Hs. unfold slot_at. rewrite (He s Hs), (Ht s Hs). apply Eu. }
    destruct (step_ok dim inv det lsa Hlsa me c p ue es ts) as [v [Hv ->]]; [lia|lia| |].
    + rewrite Cx, Cy. intros i j Hi Hj K. destruct (D ue i j Hi Hj) as [w [Ew _]]. congruence.
    + rewrite Cx, Cy in *. assert (acost td a = v).
      { refine (least_cost_unique _ _ _ _ _ _ _ La Hv). intros i j Hi Hj. destruct (D ue i j Hi Hj) as [w [Ew ->]]. rewrite Ew. reflexivity. }
      rewrite H, (Nat.max_comm (length Y)). reflexivity.
Qed.
End Static.

(** C202: at a time where, throughout the window, the slots of estimates and truth
    are those of the last time, OSPA(2) gives the components of OSPA. *)
Theorem C202_ospa2_static : forall dim inv det lsa est tru ne nt c p w ue me tcov ecov r2 me2 c2 r me' c' t,
  lsa_ok lsa -> norm_core me -> 0 <= c -> (1 <= p)%nat -> (1 <= w)%nat ->
  calculate_ospa2 dim inv det lsa est tru ne nt c p w me tcov ecov = Ok (r2, me2, c2) ->
  calculate_ospa dim inv det lsa est tru c p ue me tcov ecov = Ok (r, me', c') ->
  (t < length tru)%nat -> rect ne est -> rect nt tru ->
  prefix_slots (nth t est []) -> prefix_slots (nth t tru []) ->
  (forall s, (t < s + w)%nat -> (s <= t)%nat -> nth s est [] = nth t est [] /\ nth s tru [] = nth t tru []) ->
  nth t r2 (0, 0) = nth t r (0, 0).
Proof.
  intros dim inv det lsa est tru ne nt c p w ue me tcov ecov r2 me2 c2 r me' c' t L Hm Hc Hp Hw E2 E Ht Re Rt Pe Pt Hs.
  pose proof (ospa_method_symm me tcov ecov Hm) as S.
  unfold calculate_ospa2 in E2. apply bind_ok in E2 as [[[r0 m0] c0] [E0 E2]]. apply calc_ok in E0 as [-> [-> [Hl _]]].
  rewrite (symm_cut _ c S) in E2. apply bind_ok in E2 as [r1 [E1 E2]]. injection E2 as <- _ _.
  apply calc_ok in E as [-> [-> [_ [_ H]]]]. rewrite (symm_cut _ c S) in H. specialize (H t (0, 0) Ht).
  apply mapM_ok, Forall2_nth in E1 as [_ H1]. rewrite seq_length in H1. specialize (H1 t 0%nat (0, 0) Ht). rewrite seq_nth in H1 by exact Ht. cbn [plus] in H1.
  rewrite (static_step dim inv det lsa L _ c p ue est tru ne nt (win_idx t w) (nth t est []) (nth t tru [])) in H1; try assumption.
  - congruence.
  - unfold win_idx. destruct (t + 1 - (t + 1 - w))%nat as [|n] eqn:N; [lia|discriminate].
  - intros s Hi. unfold win_idx in Hi. apply in_seq in Hi. apply Hs; lia.
  - intros s Hi. unfold win_idx in Hi. apply in_seq in Hi. apply Hs; lia.
  - apply Re, nth_In. lia.
  - apply Rt, nth_In. exact Ht.
Qed.
Theorem C202_ospa2_window_one : forall dim inv det lsa est tru ne nt c p me tcov ecov,
  lsa_ok lsa -> norm_core me -> 0 <= c -> (1 <= p)%nat -> length est = length tru -> rect ne est -> rect nt tru ->
  (forall l, In l est -> prefix_slots l) -> (forall l, In l tru -> prefix_slots l) ->
  forall r2 me2 c2, calculate_ospa2 dim inv det lsa est tru ne nt c p 1 me tcov ecov = Ok (r2, me2, c2) ->
  calculate_ospa dim inv det lsa est tru c p true me tcov ecov = Ok (r2, me2, c2).
Proof.
  intros dim inv det lsa est tru ne nt c p me tcov ecov L Hm Hc Hp Hl Re Rt Pe Pt r2 me2 c2 E2.
  destruct (C24_ospa_total dim inv det lsa est tru c p me tcov ecov L Hm ltac:(lia)) as [r [m [c' [E Ln]]]].
  pose proof (calc2_ok _ _ _ _ _ _ _ _ _ _ _ _ _ _ _ _ _ L Hm E2) as [-> [-> [L2 _]]].
  rewrite E. pose proof (calc_ok _ _ _ _ _ _ _ _ _ _ _ _ _ _ _ E) as [-> [-> _]]. rewrite (symm_cut _ c (ospa_method_symm me tcov ecov Hm)).
  f_equal. f_equal. f_equal. apply (nth_ext _ _ (0, 0) (0, 0)); [congruence|]. intros t Ht. symmetry.
  apply (C202_ospa2_static dim inv det lsa est tru ne nt c p 1 true me tcov ecov r2 _ _ r _ _ t L Hm Hc Hp (le_n 1) E2 E); try assumption.
  - congruence.
  - apply Pe, nth_In. lia.
  - apply Pt, nth_In. lia.
  - intros s H1 H2. assert (s = t) by lia. subst s. auto.
Qed.
Print Assumptions C202_ospa2_static.
Print Assumptions C202_ospa2_window_one.

(** Two time steps, the second with one object more: rectangular, first slots used. *)
Definition static_pt (x : R) : slot := Some {| st := fun _ => x; cv := None |}.
Example C202_shape : let est := [[static_pt 0; None]; [static_pt 0; static_pt 4]] in
  rect 2 est /\ (forall l, In l est -> prefix_slots l).
Proof.
  split; [intros l [<-|[<-|[]]]; reflexivity|]. intros l [<-|[<-|[]]].
  - exists [{| st := fun _ => 0; cv := None |}], 1%nat. reflexivity.
  - exists [{| st := fun _ => 0; cv := None |}; {| st := fun _ => 4; cv := None |}], 0%nat. reflexivity.
Qed.
