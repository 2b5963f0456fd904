(** Lemmas about the GLMB model. *)
From Verif Require Import Base Lists.
From Coq Require Import Reals Permutation Sorting.Sorted Lra.
From Verif Require Import OspaModel CphdModel OspaProofs CphdSpec CphdProofs GlmbModel GlmbSpec.
Open Scope R_scope.

Lemma rsum_div {A} (f : A -> R) k l : rsum (map (fun x => f x / k) l) = rsum (map f l) / k.
Proof. rewrite <- (rsum_ext (fun x => / k * f x)); [rewrite rsum_scale; unfold Rdiv; ring|]. intros; unfold Rdiv; ring. Qed.
Lemma rsum_allpos {A} (f : A -> R) l : l <> [] -> (forall x, In x l -> 0 < f x) -> 0 < rsum (map f l).
Proof.
  intros Hl H. destruct l as [|x l]; [congruence|]. apply rsum_pos.
  - intros y Hy. apply in_map_iff in Hy as [z [<- Hz]]. left. auto.
  - exists (f x). split; [left; reflexivity|]. apply H; left; reflexivity.
Qed.
Lemma rescale_dist hs : hs <> [] -> (forall h, In h hs -> 0 < h_p h) -> prob_dist (rescale hs).
Proof.
  intros Hn Hp. assert (Ht : 0 < rsum (map h_p hs)) by (apply rsum_allpos; auto).
  split.
  - intros h Hh. apply in_map_iff in Hh as [x [<- Hx]]. cbn. apply Rdiv_lt_0_compat; auto.
  - unfold rescale. rewrite map_map. cbn. rewrite rsum_div. field. apply Rgt_not_eq; lra.
Qed.
Lemma pd_nonempty hs : prob_dist hs -> hs <> [].
Proof. intros [_ H] ->. cbn in H. lra. Qed.

Lemma F2_impl {A B} (P Q : A -> B -> Prop) l l' : (forall a b, In a l -> P a b -> Q a b) -> Forall2 P l l' -> Forall2 Q l l'.
Proof.
  intros HI H. induction H as [|a b l l' Hab _ IH]; constructor; [apply HI; [left; reflexivity|exact Hab]|].
  apply IH. intros x y Hx. apply HI. right. exact Hx.
Qed.
Section P.
Context {FS ST CV MS : Type}.
Variable E : genv FS ST CV MS.
Notation entry := (entry FS ST CV).
Notation gcfg := (gcfg ST CV).
Notation glmb := (glmb FS ST CV MS).
Implicit Types (c : gcfg) (s : glmb).

Lemma normalise_cases hs r : normalise_log E hs = Ok r ->
  (hs = [] /\ r = [] /\ v_lse0 E = Ok tt) \/ (hs <> [] /\ r = map (fun h => {| h_p := exp (h_p h - lse (map h_p hs)); h_ts := h_ts h |}) hs).
Proof.
  unfold normalise_log. destruct hs as [|h hs].
  - intros H. apply bind_ok in H as [[] [H1 H2]]. inversion H2. auto.
  - intros H. inversion H. right. split; [discriminate|reflexivity].
Qed.
Lemma normalise_dist hs r : normalise_log E hs = Ok r -> r <> [] -> prob_dist r.
Proof.
  intros H Hn. destruct (normalise_cases _ _ H) as [[_ [? _]]|[Hh ->]]; [congruence|]. split.
  - intros h Hi. apply in_map_iff in Hi as [x [<- _]]. apply exp_pos.
  - rewrite map_map. cbn. unfold lse. rewrite map_map.
    assert (Ht : 0 < rsum (map (fun h => exp (h_p h)) hs)) by (apply rsum_allpos; auto using exp_pos).
    rewrite (rsum_ext _ (fun h => exp (h_p h) / rsum (map (fun h => exp (h_p h)) hs))).
    + rewrite rsum_div. field. apply Rgt_not_eq; lra.
    + intros h _. unfold Rminus. rewrite exp_plus, exp_Ropp, exp_ln; [reflexivity|assumption].
Qed.
Lemma normalise_ts hs r : normalise_log E hs = Ok r -> map h_ts r = map h_ts hs.
Proof. intros H. destruct (normalise_cases _ _ H) as [[-> [-> _]]|[_ ->]]; [reflexivity|]. rewrite map_map. reflexivity. Qed.
Lemma normalise_in hs r h : normalise_log E hs = Ok r -> In h r -> exists h0, In h0 hs /\ h_ts h0 = h_ts h.
Proof.
  intros H Hi. assert (Hm : In (h_ts h) (map h_ts hs)) by (rewrite <- (normalise_ts _ _ H); apply in_map; assumption).
  apply in_map_iff in Hm as [x [E1 E2]]. eauto.
Qed.

(** ** clean_predictions *)
Lemma add_hyp_sum k h u : rsum (map (fun x => h_p (snd x)) (add_hyp k h u)) = rsum (map (fun x => h_p (snd x)) u) + h_p h.
Proof.
  induction u as [|[k' h'] u IH]; cbn [add_hyp map]; [cbn; lra|]. destruct (k =? k')%Z; cbn [map snd h_p]; rewrite ?rsum_cons; [lra|]. rewrite IH. lra.
Qed.
Lemma add_hyp_pos k h u : 0 < h_p h -> (forall x, In x u -> 0 < h_p (snd x)) -> forall x, In x (add_hyp k h u) -> 0 < h_p (snd x).
Proof.
  intros Hh. induction u as [|[k' h'] u IH]; cbn; intros Hu x Hx.
  - destruct Hx as [<-|[]]. exact Hh.
  - destruct (k =? k')%Z.
    + destruct Hx as [<-|Hx]; [cbn|apply Hu; auto]. pose proof (Hu _ (or_introl eq_refl)). cbn in *. lra.
    + destruct Hx as [<-|Hx]; [apply (Hu _ (or_introl eq_refl))|]. apply IH; auto.
Qed.
Definition fold_add (hs : list hyp) u := fold_left (fun used h => add_hyp (v_hash E (sort_nat (h_ts h))) h used) hs u.
Lemma fold_add_sum hs : forall u, rsum (map (fun x => h_p (snd x)) (fold_add hs u)) = rsum (map (fun x => h_p (snd x)) u) + rsum (map h_p hs).
Proof.
  induction hs as [|h hs IH]; intros u; [unfold fold_add; cbn [fold_left filter map]; change (rsum []) with 0; ring|]. unfold fold_add in *. cbn [fold_left map]. rewrite IH, add_hyp_sum, rsum_cons. lra.
Qed.
Lemma fold_add_pos hs : forall u, (forall h, In h hs -> 0 < h_p h) -> (forall x, In x u -> 0 < h_p (snd x)) ->
  forall x, In x (fold_add hs u) -> 0 < h_p (snd x).
Proof.
  induction hs as [|h hs IH]; intros u Hh Hu; cbn; [exact Hu|]. apply IH; [intros; apply Hh; right; assumption|].
  apply add_hyp_pos; [apply Hh; left; reflexivity|exact Hu].
Qed.
Lemma clean_pred_dist hs : prob_dist hs -> prob_dist (clean_predictions E hs).
Proof.
  intros [Hp Hs]. unfold clean_predictions. fold (fold_add hs []). split.
  - intros h Hh. apply in_map_iff in Hh as [x [<- Hx]]. revert x Hx. apply fold_add_pos; [exact Hp|]. intros x [].
  - rewrite map_map, fold_add_sum. change (rsum (map (fun x : Z * hyp => h_p (snd x)) [])) with 0. lra.
Qed.
(** invariant of the merge loop *)
Lemma add_hyp_keys k h u : map fst (add_hyp k h u) = if existsb (Z.eqb k) (map fst u) then map fst u else map fst u ++ [k].
Proof.
  induction u as [|[k' h'] u IH]; cbn; [reflexivity|]. destruct (k =? k')%Z; cbn; [reflexivity|]. rewrite IH.
  destruct (existsb (Z.eqb k) (map fst u)); reflexivity.
Qed.
Lemma existsb_zeqb k l : existsb (Z.eqb k) l = true <-> In k l.
Proof. rewrite existsb_exists. split; [intros [x [Hx He]]; apply Z.eqb_eq in He; subst; auto|]. intros H. exists k. split; [auto|apply Z.eqb_refl]. Qed.
Lemma add_hyp_nodup k h u : NoDup (map fst u) -> NoDup (map fst (add_hyp k h u)).
Proof.
  intros H. rewrite add_hyp_keys. destruct (existsb (Z.eqb k) (map fst u)) eqn:E0; [exact H|].
  apply (Permutation_NoDup (l := k :: map fst u)); [apply Permutation_cons_append|]. constructor; [|exact H].
  intros Hi. apply existsb_zeqb in Hi. congruence.
Qed.
Lemma add_hyp_in k h u x : In x (add_hyp k h u) -> (exists y, In y u /\ fst y = fst x /\ h_ts (snd y) = h_ts (snd x)) \/ (fst x = k /\ h_ts (snd x) = h_ts h).
Proof.
  induction u as [|[k' h'] u IH]; cbn.
  - intros [<-|[]]. right. auto.
  - destruct (k =? k')%Z.
    + intros [<-|Hx]; left; [exists (k', h'); cbn; auto|exists x; auto].
    + intros [<-|Hx]; [left; exists (k', h'); cbn; auto|]. destruct (IH Hx) as [[y [Hy Hr]]|Hr]; [left; exists y; auto|right; exact Hr].
Qed.
Lemma fold_add_nodup hs : forall u, NoDup (map fst u) -> NoDup (map fst (fold_add hs u)).
Proof. induction hs as [|h hs IH]; intros u Hu; cbn; [exact Hu|]. apply IH, add_hyp_nodup, Hu. Qed.
Lemma fold_add_in hs : forall u x, In x (fold_add hs u) ->
  (exists y, In y u /\ fst y = fst x /\ h_ts (snd y) = h_ts (snd x)) \/
  (exists h, In h hs /\ h_ts (snd x) = h_ts h /\ fst x = v_hash E (sort_nat (h_ts h))).
Proof.
  induction hs as [|h hs IH]; intros u x Hx; cbn in Hx; [left; exists x; auto|].
  destruct (IH _ _ Hx) as [[y [Hy [E1 E2]]]|[h' [Hh Hr]]].
  - destruct (add_hyp_in _ _ _ _ Hy) as [[z [Hz [E3 E4]]]|[E3 E4]].
    + left. exists z. repeat split; [auto|congruence|congruence].
    + right. exists h. split; [left; reflexivity|]. split; [congruence|congruence].
  - right. exists h'. split; [right; auto|exact Hr].
Qed.
Lemma clean_in hs h : In h (clean_predictions E hs) -> exists h0, In h0 hs /\ h_ts h0 = h_ts h.
Proof.
  intros Hh. unfold clean_predictions in Hh. apply in_map_iff in Hh as [x [<- Hx]].
  destruct (fold_add_in _ _ _ Hx) as [[y [[] _]]|[h' [Hh [E1 _]]]]. exists h'. auto.
Qed.
(** probability per key *)
Definition kmass (k : Z) (u : list (Z * hyp)) : R := rsum (map (fun x => h_p (snd x)) (filter (fun x => (fst x =? k)%Z) u)).
Lemma add_hyp_mass k h u k0 : kmass k0 (add_hyp k h u) = kmass k0 u + (if (k =? k0)%Z then h_p h else 0).
Proof.
  unfold kmass. induction u as [|[k' h'] u IH]; cbn [add_hyp filter fst].
  - destruct (k =? k0)%Z; cbn; lra.
  - destruct (Z.eqb_spec k k') as [->|Hk]; cbn [filter fst].
    + destruct (k' =? k0)%Z; cbn [map snd h_p]; rewrite ?rsum_cons; lra.
    + destruct (k' =? k0)%Z; cbn [map snd h_p]; rewrite ?rsum_cons, IH; lra.
Qed.
Lemma fold_add_mass k0 hs : forall u, kmass k0 (fold_add hs u) = kmass k0 u + mass (fun h => (v_hash E (sort_nat (h_ts h)) =? k0)%Z) hs.
Proof.
  unfold mass. induction hs as [|h hs IH]; intros u; [unfold fold_add; cbn [fold_left filter map]; change (rsum []) with 0; ring|]. unfold fold_add in *. cbn [fold_left filter]. rewrite IH, add_hyp_mass.
  destruct (v_hash E (sort_nat (h_ts h)) =? k0)%Z; cbn [map]; rewrite ?rsum_cons; lra.
Qed.
Lemma fold_add_key hs : forall u, (forall x, In x u -> fst x = v_hash E (sort_nat (h_ts (snd x)))) ->
  forall x, In x (fold_add hs u) -> fst x = v_hash E (sort_nat (h_ts (snd x))).
Proof.
  intros u Hu x Hx. destruct (fold_add_in _ _ _ Hx) as [[y [Hy [E1 E2]]]|[h [_ [E1 E2]]]].
  - rewrite <- E1, <- E2. auto.
  - rewrite E2, E1. reflexivity.
Qed.

(** sorting of indices *)
Lemma ins_perm x l : Permutation (ins_nat x l) (x :: l).
Proof.
  induction l as [|y l IH]; cbn; [reflexivity|]. destruct (x <=? y)%nat; [reflexivity|].
  rewrite IH. apply perm_swap.
Qed.
Lemma sort_perm l : Permutation (sort_nat l) l.
Proof. induction l as [|x l IH]; cbn; [reflexivity|]. rewrite ins_perm. constructor. exact IH. Qed.
Lemma ins_sorted x l : StronglySorted le l -> StronglySorted le (ins_nat x l).
Proof.
  induction l as [|y l IH]; intros H; cbn; [repeat constructor|]. inversion H as [|? ? H1 H2]; subst.
  destruct (Nat.leb_spec x y) as [Hxy|Hxy].
  - constructor; [exact H|]. constructor; [exact Hxy|]. eapply Forall_impl; [|exact H2]. intros; lia.
  - constructor; [apply IH; exact H1|]. apply Forall_forall. intros z Hz. apply (Permutation_in z (ins_perm x l)) in Hz.
    destruct Hz as [<-|Hz]; [lia|]. rewrite Forall_forall in H2. apply H2; exact Hz.
Qed.
Lemma sort_sorted l : StronglySorted le (sort_nat l).
Proof. induction l as [|x l IH]; cbn; [constructor|]. apply ins_sorted, IH. Qed.
Lemma sorted_le_unique : forall l l', StronglySorted le l -> StronglySorted le l' -> Permutation l l' -> l = l'.
Proof.
  induction l as [|x l IH]; intros l' Hl Hl' HP; [apply Permutation_nil in HP; congruence|].
  destruct l' as [|y l']; [apply Permutation_sym, Permutation_nil in HP; discriminate|].
  inversion Hl as [|? ? H1 H2]; subst. inversion Hl' as [|? ? H3 H4]; subst. rewrite Forall_forall in H2, H4.
  assert (x = y).
  { assert (Hx : In x (y :: l')) by (apply (Permutation_in x HP); left; reflexivity).
    assert (Hy : In y (x :: l)) by (apply (Permutation_in y (Permutation_sym HP)); left; reflexivity).
    destruct Hx as [->|Hx]; [reflexivity|]. destruct Hy as [->|Hy]; [reflexivity|].
    specialize (H2 _ Hy). specialize (H4 _ Hx). lia. }
  subst y. f_equal. apply IH; auto. apply Permutation_cons_inv in HP. exact HP.
Qed.
Lemma sort_eq_perm a b : sort_nat a = sort_nat b <-> Permutation a b.
Proof.
  split; intros H.
  - rewrite <- (sort_perm a), <- (sort_perm b), H. reflexivity.
  - apply sorted_le_unique; [apply sort_sorted|apply sort_sorted|]. rewrite sort_perm, sort_perm. exact H.
Qed.

(** ** predict *)
Lemma set_pred_dist nb bh sh : set_pred_hyps nb bh sh <> [] -> (forall h, In h bh -> 0 < h_p h) -> (forall h, In h sh -> 0 < h_p h) ->
  prob_dist (set_pred_hyps nb bh sh).
Proof.
  intros Hn Hb Hs. unfold set_pred_hyps in *. set (hs := flat_map _ _) in *.
  apply (rescale_dist hs).
  - intros H0. rewrite H0 in Hn. apply Hn. reflexivity.
  - intros h Hh. apply in_flat_map in Hh as [b [Hb' Hh]]. apply in_map_iff in Hh as [x [<- Hx]]. cbn. apply Rmult_lt_0_compat; auto.
Qed.
Lemma clean_nil_inv hs : clean_predictions E hs <> [] -> hs <> [].
Proof. intros H ->. apply H. reflexivity. Qed.
Lemma predict_inv c t s s' : predict E c t s = Ok s' -> exists btab lcost paths costs bh sh,
  gen_birth_tab E c t (g_cnt s) = Ok (btab, lcost) /\ v_kshort E lcost (c_reqb c) = Ok (paths, costs) /\
  gen_birth_hyps E c paths costs = Ok bh /\ gen_surv_hyps E c (length (g_tab s)) (g_hyps s) = Ok sh /\
  g_tab s' = btab ++ map (pred_entry E c t) (g_tab s) /\ g_hyps s' = clean_predictions E (set_pred_hyps (length btab) bh sh) /\
  g_card s' = calc_card sh /\ g_cnt s' = g_cnt s /\ g_ext s' = g_ext s.
Proof.
  unfold predict. intros H. apply bind_ok in H as [[btab lcost] [E1 H]]. apply bind_ok in H as [[paths costs] [E2 H]].
  apply bind_ok in H as [bh [E3 H]]. apply bind_ok in H as [sh [E4 H]]. inversion H; subst s'.
  exists btab, lcost, paths, costs, bh, sh. cbn. repeat split; assumption.
Qed.
Lemma birth_hyps_pos c paths costs bh : gen_birth_hyps E c paths costs = Ok bh -> forall h, In h bh -> 0 < h_p h.
Proof.
  intros H h Hh. apply bind_ok in H as [ls [_ H]]. cbn zeta in H.
  apply (normalise_dist _ _ H); [intros ->; destruct Hh|exact Hh].
Qed.
Lemma surv_hyps_pos c n hs sh : gen_surv_hyps E c n hs = Ok sh -> forall h, In h sh -> 0 < h_p h.
Proof.
  intros H h Hh. apply bind_ok in H as [ls [_ H]].
  apply (normalise_dist _ _ H); [intros ->; destruct Hh|exact Hh].
Qed.
Lemma predict_dist c t s s' : predict E c t s = Ok s' -> g_hyps s' <> [] -> prob_dist (g_hyps s').
Proof.
  intros H Hn. destruct (predict_inv _ _ _ _ H) as [btab [lcost [paths [costs [bh [sh [_ [_ [E3 [E4 [_ [Eh _]]]]]]]]]]]].
  rewrite Eh in *. apply clean_pred_dist. apply set_pred_dist; [apply clean_nil_inv, Hn|eauto using birth_hyps_pos|eauto using surv_hyps_pos].
Qed.
Lemma normalise_nonempty hs r e : v_lse0 E = Err e -> normalise_log E hs = Ok r -> r <> [].
Proof.
  intros He H. destruct (normalise_cases _ _ H) as [[_ [_ H0]]|[Hh ->]]; [congruence|]. destruct hs; [congruence|discriminate].
Qed.
Lemma predict_nonempty c t s s' e : v_lse0 E = Err e -> predict E c t s = Ok s' -> g_hyps s' <> [].
Proof.
  intros He H. destruct (predict_inv _ _ _ _ H) as [btab [lcost [paths [costs [bh [sh [_ [_ [E3 [E4 [_ [Eh _]]]]]]]]]]]].
  assert (Hb : bh <> []). { apply bind_ok in E3 as [ls [_ E3]]. cbn zeta in E3. eauto using normalise_nonempty. }
  assert (Hs : sh <> []). { apply bind_ok in E4 as [ls [_ E4]]. eauto using normalise_nonempty. }
  rewrite Eh. apply pd_nonempty, clean_pred_dist, set_pred_dist; [|eauto using birth_hyps_pos|eauto using surv_hyps_pos].
  destruct bh; [congruence|]. destruct sh; [congruence|]. discriminate.
Qed.

(** ** calc_card *)
Lemma calc_card_matches hs : hs <> [] -> card_matches (calc_card hs) hs.
Proof.
  intros Hn n. unfold calc_card. destruct hs as [|h0 hs0]; [congruence|]. set (hs := h0 :: hs0) in *.
  set (m := list_max _). destruct (Nat.lt_ge_cases n (S m)) as [Hlt|Hge].
  - exact (nth_map_seq (fun n => rsum (map h_p (filter (fun h => (length (h_ts h) =? n)%nat) hs))) (S m) n 0 Hlt).
  - rewrite nth_overflow by (rewrite map_length, seq_length; lia). unfold mass.
    assert (Hf : filter (fun h => (length (h_ts h) =? n)%nat) hs = []); [|rewrite Hf; reflexivity].
    destruct (filter _ hs) as [|h l] eqn:Ef; [reflexivity|exfalso].
    assert (Hi : In h (filter (fun h => (length (h_ts h) =? n)%nat) hs)) by (rewrite Ef; left; reflexivity).
    apply filter_In in Hi as [Hi Hl]. apply Nat.eqb_eq in Hl.
    assert (Hm : (length (h_ts h) <= m)%nat).
    { pose proof (proj1 (list_max_le (map (fun h => length (h_ts h)) hs) m) (Nat.le_refl _)) as HF.
      rewrite Forall_forall in HF. apply HF. apply in_map_iff. exists h. auto. }
    lia.
Qed.
Lemma calc_card_len hs : hs <> [] -> length (calc_card hs) = S (list_max (map (fun h => length (h_ts h)) hs)).
Proof. intros Hn. unfold calc_card. destruct hs; [congruence|]. rewrite map_length, seq_length. reflexivity. Qed.
Lemma mass_map (f : hyp -> bool) (g : hyp -> hyp) hs : (forall h, In h hs -> f (g h) = f h) -> (forall h, In h hs -> h_p (g h) = h_p h) ->
  mass f (map g hs) = mass f hs.
Proof.
  unfold mass. induction hs as [|h hs IH]; intros H1 H2; cbn [map filter]; [reflexivity|].
  rewrite H1 by (left; reflexivity). destruct (f h); cbn [map]; rewrite ?rsum_cons; rewrite IH by (intros; (apply H1 || apply H2); right; assumption).
  - rewrite H2 by (left; reflexivity). reflexivity.
  - reflexivity.
Qed.

(** ** correct *)
Lemma all_some_ok {A} (l : list (option A)) r : all_some l = Some r <-> l = map Some r.
Proof.
  revert r. induction l as [|[x|] l IH]; intros r; cbn.
  - split; [intros H; inversion H; reflexivity|]. destruct r; [reflexivity|discriminate].
  - destruct (all_some l) as [r'|] eqn:Er.
    + split; [intros H; inversion H; cbn; f_equal; apply IH; reflexivity|]. destruct r as [|y r]; [discriminate|]. cbn. intros H. inversion H as [[H1 H2]].
      apply IH in H2. congruence.
    + split; [discriminate|]. destruct r as [|y r]; [discriminate|]. cbn. intros H. inversion H as [[H1 H2]]. apply IH in H2. congruence.
  - split; [discriminate|]. destruct r; discriminate.
Qed.
Lemma all_some_none {A} (l : list (option A)) : all_some l = None <-> In None l.
Proof.
  induction l as [|[x|] l IH]; cbn.
  - split; [discriminate|intros []].
  - destruct (all_some l); [split; [discriminate|intros [?|H]; [discriminate|apply IH in H; discriminate]]|].
    split; [intros _; right; apply IH; reflexivity|reflexivity].
  - split; auto.
Qed.
Lemma index_of_some i l k : index_of i l = Some k -> nth_error l k = Some i.
Proof.
  revert k. induction l as [|x l IH]; intros k; cbn; [discriminate|]. destruct (Nat.eqb_spec x i) as [->|Hx].
  - intros H. inversion H. reflexivity.
  - destruct (index_of i l); cbn; [|discriminate]. intros H. inversion H. apply IH. reflexivity.
Qed.
Lemma index_of_none i l : index_of i l = None <-> ~ In i l.
Proof.
  induction l as [|x l IH]; cbn; [tauto|]. destruct (Nat.eqb_spec x i) as [->|Hx].
  - split; [discriminate|]. intros H. exfalso; auto.
  - destruct (index_of i l) eqn:Ei; cbn; [|tauto]. split; [discriminate|]. intros H. exfalso. apply H. right. destruct (in_dec Nat.eq_dec i l); [assumption|].
    apply IH in n0. discriminate.
Qed.
Lemma used_in_spec hs i : used_in hs i = true <-> exists h, In h hs /\ In i (h_ts h).
Proof.
  unfold used_in. rewrite existsb_exists. split; intros [h [Hh Hi]]; exists h; (split; [exact Hh|]); apply existsb_eqb; exact Hi.
Qed.
Lemma nnz_in (tab : list (option entry)) hs i : In i (nnz_inds tab hs) <-> (exists e, nth_error tab i = Some (Some e)) /\ exists h, In h hs /\ In i (h_ts h).
Proof.
  unfold nnz_inds. rewrite filter_In, in_seq. split.
  - intros [Hi Hf]. destruct (nth_error tab i) as [o|] eqn:En; [|apply nth_error_None in En; lia].
    rewrite (nth_error_nth _ _ None En) in Hf. destruct o as [e|]; [|discriminate]. split; [eauto|]. apply used_in_spec, Hf.
  - intros [[e He] Hu]. assert (Hl : (i < length tab)%nat) by (apply nth_error_Some; congruence). split; [lia|].
    rewrite (nth_error_nth _ _ None He). apply used_in_spec, Hu.
Qed.
(** the compacted table *)
Definition pick (tab : list (option entry)) (l : list nat) : list entry :=
  flat_map (fun i => match nth i tab None with Some e => [e] | None => [] end) l.
Lemma pick_nth tab : forall l, (forall i, In i l -> exists e, nth i tab None = Some e) -> forall k i, nth_error l k = Some i ->
  nth_error (pick tab l) k = nth i tab None.
Proof.
  induction l as [|x l IH]; intros Hl k i Hk; [destruct k; discriminate|].
  destruct (Hl x (or_introl eq_refl)) as [e He]. unfold pick. cbn. rewrite He. cbn. destruct k as [|k]; cbn in *.
  - inversion Hk; subst. congruence.
  - apply IH; auto.
Qed.
Lemma pick_len tab : forall l, (forall i, In i l -> exists e, nth i tab None = Some e) -> length (pick tab l) = length l.
Proof.
  induction l as [|x l IH]; intros Hl; [reflexivity|]. destruct (Hl x (or_introl eq_refl)) as [e He]. unfold pick. cbn. rewrite He. cbn.
  f_equal. apply IH. intros i Hi. apply Hl. right. exact Hi.
Qed.
Lemma nnz_some (tab : list (option entry)) hs i : In i (nnz_inds tab hs) -> exists e, nth i tab None = Some e.
Proof. intros H. apply nnz_in in H as [[e He] _]. exists e. apply (nth_error_nth _ _ None He). Qed.

Definition reindex (nnz : list nat) (h : hyp) : list hyp :=
  match all_some (map (fun i => index_of i nnz) (h_ts h)) with Some ts => [{| h_p := h_p h; h_ts := ts |}] | None => [] end.
Lemma clean_updates_eq tab hs : clean_updates tab hs = (pick tab (nnz_inds tab hs), flat_map (reindex (nnz_inds tab hs)) hs).
Proof. reflexivity. Qed.
Lemma reindex_in nnz h h' : In h' (reindex nnz h) -> h_p h' = h_p h /\ map Some (h_ts h') = map (fun i => index_of i nnz) (h_ts h).
Proof.
  unfold reindex. destruct (all_some _) as [ts|] eqn:Ea; [|intros []]. intros [<-|[]]. cbn. apply all_some_ok in Ea. auto.
Qed.
(** the tracks of a kept hypothesis are the same entries *)
Lemma reindex_view tab hs h h' : In h hs -> In h' (reindex (nnz_inds tab hs) h) ->
  Forall2 (fun i k => exists e, nth_error tab i = Some (Some e) /\ nth_error (pick tab (nnz_inds tab hs)) k = Some e) (h_ts h) (h_ts h').
Proof.
  intros Hh Hr. apply reindex_in in Hr as [_ Hm]. revert Hm. generalize (h_ts h') as ts'.
  assert (Hin : forall i, In i (h_ts h) -> exists h, In h hs /\ In i (h_ts h)) by eauto. revert Hin.
  induction (h_ts h) as [|i ts IH]; intros Hin ts' Hm; destruct ts' as [|k ts']; cbn in Hm; try discriminate; constructor.
  - injection Hm as Hk _. symmetry in Hk. apply index_of_some in Hk.
    assert (Hi : In i (nnz_inds tab hs)) by (eapply nth_error_In; exact Hk).
    rewrite (pick_nth tab _ (fun i => nnz_some tab hs i) k i Hk). apply nnz_in in Hi as [[e He] _].
    exists e. split; [exact He|]. apply (nth_error_nth _ _ None He).
  - injection Hm as _ Hm. apply IH; [intros; apply Hin; right; assumption|exact Hm].
Qed.
Lemma reindex_all (tab : list (option entry)) hs h : In h hs -> (forall i, In i (h_ts h) -> exists e, nth_error tab i = Some (Some e)) ->
  exists h', reindex (nnz_inds tab hs) h = [h'].
Proof.
  intros Hh Hs. unfold reindex. destruct (all_some _) as [ts|] eqn:Ea; [eauto|]. apply all_some_none in Ea.
  apply in_map_iff in Ea as [i [Ei Hi]]. apply index_of_none in Ei. exfalso. apply Ei. apply nnz_in. split; [auto|eauto].
Qed.

(** table of [gen_cor_tab] *)
Definition upd_entry c t (meas : list MS) (e : entry) (a : nat) : option entry :=
  match a with
  | O => Some (add_assoc None e)
  | S j => match nth_error meas j with
           | Some z => match cor_entry E c t z e with Some (e', _) => Some (add_assoc (Some j) e') | None => None end
           | None => None
           end
  end.
Lemma concat_nth' {A B C} (f : A -> B -> C) (ls : list A) (tab : list B) : forall j i a e, nth_error tab i = Some e -> nth_error ls j = Some a ->
  nth_error (concat (map (fun a => map (f a) tab) ls)) (i + length tab * j) = Some (f a e).
Proof.
  induction ls as [|x ls IH]; intros j i a e Hi Hj; [destruct j; discriminate|]. cbn [map concat].
  assert (Hl : (i < length tab)%nat) by (apply nth_error_Some; congruence).
  destruct j as [|j].
  - inversion Hj; subst. rewrite Nat.mul_0_r, Nat.add_0_r, nth_error_app1 by (rewrite map_length; lia). apply map_nth_error. exact Hi.
  - rewrite nth_error_app2 by (rewrite map_length; nia). rewrite map_length.
    replace (i + length tab * S j - length tab)%nat with (i + length tab * j)%nat by nia. apply IH; assumption.
Qed.
Lemma nth_error_combine_seq {A} (l : list A) : forall st j x, nth_error l j = Some x -> nth_error (combine (seq st (length l)) l) j = Some ((st + j)%nat, x).
Proof.
  induction l as [|y l IH]; intros st j x H; [destruct j; discriminate|]. cbn. destruct j as [|j]; cbn in *.
  - inversion H. rewrite Nat.add_0_r. reflexivity.
  - rewrite (IH (S st) j x H), Nat.add_succ_r. reflexivity.
Qed.
Lemma cor_tab_nth c t meas (tab : list entry) i a e : nth_error tab i = Some e -> (a <= length meas)%nat ->
  nth_error (fst (gen_cor_tab E c t meas tab)) (i + length tab * a) = Some (upd_entry c t meas e a).
Proof.
  intros Hi Ha. assert (Hl : (i < length tab)%nat) by (apply nth_error_Some; congruence). cbn [fst gen_cor_tab].
  destruct a as [|j].
  - rewrite Nat.mul_0_r, Nat.add_0_r, nth_error_app1 by (rewrite map_length; lia). exact (map_nth_error (fun e => Some (add_assoc None e)) i tab Hi).
  - rewrite nth_error_app2 by (rewrite map_length; nia). rewrite map_length.
    replace (i + length tab * S j - length tab)%nat with (i + length tab * j)%nat by nia.
    destruct (nth_error meas j) as [z|] eqn:Ez; [|apply nth_error_None in Ez; lia].
    rewrite (concat_nth' (fun ez e => match cor_entry E c t (snd ez) e with Some (e', _) => Some (add_assoc (Some (fst ez)) e') | None => None end)
       _ _ j i (j, z) e Hi).
    + cbn. rewrite Ez. reflexivity.
    + apply (nth_error_combine_seq meas 0%nat j z Ez).
Qed.
Lemma cor_tab_len c t meas (tab : list entry) : length (fst (gen_cor_tab E c t meas tab)) = (length tab * S (length meas))%nat.
Proof.
  cbn [fst gen_cor_tab]. rewrite app_length, map_length.
  assert (Hg : forall ls : list (nat * MS), length (concat (map (fun ez => map (fun e => match cor_entry E c t (snd ez) e with Some (e', _) => Some (add_assoc (Some (fst ez)) e') | None => None end) tab) ls)) = (length tab * length ls)%nat).
  { induction ls as [|a ls IH]; cbn [map concat]; [cbn; lia|]. rewrite app_length, map_length, IH. cbn. nia. }
  rewrite Hg, combine_length, seq_length, Nat.min_id. nia.
Qed.

(** hypotheses of [gen_cor_hyps] *)
Definition row_ok (nr nc : nat) (row : list nat) : Prop :=
  length row = nr /\ (forall v, In v row -> (v <= nc)%nat) /\
  forall r1 r2 v, nth_error row r1 = Some (S v) -> nth_error row r2 = Some (S v) -> r1 = r2.
Lemma row0_ok nr nc : row_ok nr nc (repeat 0%nat nr).
Proof.
  split; [apply repeat_length|]. split; [intros v Hv; apply repeat_spec in Hv; lia|].
  intros r1 r2 v H. apply nth_error_In, repeat_spec in H. discriminate.
Qed.
Definition shifted (ntab : nat) (ts row : list nat) : list nat := map (fun ia => (fst ia + ntab * snd ia)%nat) (combine ts row).
Lemma shifted0 ntab ts : shifted ntab ts (repeat 0%nat (length ts)) = ts.
Proof. unfold shifted. induction ts as [|x ts IH]; cbn; [reflexivity|]. f_equal; [lia|exact IH]. Qed.
Lemma cor_hyp_in c nm ntab ac ss h l h' : murty_ok (v_murty E) -> cor_hyp E c nm ntab ac ss h = Ok l -> In h' l ->
  (forall i, In i (h_ts h) -> (i < ntab)%nat) /\ exists row, row_ok (length (h_ts h)) nm row /\ h_ts h' = shifted ntab (h_ts h) row.
Proof.
  intros Hm H Hi. unfold cor_hyp in H. destruct (h_ts h) as [|t0 ts0] eqn:Et.
  - apply bind_ok in H as [a [_ H]]. apply bind_ok in H as [b [_ H]]. inversion H; subst l. destruct Hi as [<-|[]].
    split; [intros i []|]. exists []. split; [apply (row0_ok 0)|]. reflexivity.
  - rewrite <- Et in *. clear Et t0 ts0.
    destruct (forallb _ _) eqn:Ef; cbn [negb] in H; [|discriminate].
    apply bind_ok in H as [ra [_ H]]. apply bind_ok in H as [lcl [_ H]]. cbn zeta in H.
    apply bind_ok in H as [[rows costs] [E1 H]]. apply bind_ok in H as [lmd [_ H]]. apply bind_ok in H as [lw [_ H]]. inversion H; subst l.
    split. { intros i Hii. rewrite forallb_forall in Ef. apply Ef in Hii. apply Nat.ltb_lt in Hii. exact Hii. }
    apply in_map_iff in Hi as [[row co] [<- Hi]]. cbn. exists row. split; [|reflexivity].
    apply in_combine_l in Hi. destruct (Hm _ _ _ _ _ _ E1) as [_ Hr]. apply Hr, Hi.
Qed.
Lemma miss_hyp_in c ntab h h' : miss_hyp c ntab h = Ok h' -> (forall i, In i (h_ts h) -> (i < ntab)%nat) /\ h_ts h' = h_ts h.
Proof.
  unfold miss_hyp. destruct (forallb _ _) eqn:Ef; cbn [negb]; [|discriminate]. intros H.
  apply bind_ok in H as [a [_ H]]. apply bind_ok in H as [b [_ H]]. inversion H; subst. cbn. split; [|reflexivity].
  intros i Hii. rewrite forallb_forall in Ef. apply Ef in Hii. apply Nat.ltb_lt in Hii. exact Hii.
Qed.
Lemma mapM_in_concat {A B} (f : A -> result (list B)) l ys y : mapM f l = Ok ys -> In y (concat ys) -> exists x r, In x l /\ f x = Ok r /\ In y r.
Proof.
  intros H Hy. apply in_concat in Hy as [r [Hr Hy]]. destruct (mapM_in _ _ _ _ H Hr) as [x [Hx E1]]. eauto.
Qed.
Lemma cor_hyps_in c nm ntab ac hs r h' : murty_ok (v_murty E) -> gen_cor_hyps E c nm ntab ac hs = Ok r -> In h' r ->
  exists h row, In h hs /\ (forall i, In i (h_ts h) -> (i < ntab)%nat) /\ row_ok (length (h_ts h)) nm row /\ h_ts h' = shifted ntab (h_ts h) row.
Proof.
  intros Hm H Hi. unfold gen_cor_hyps in H. destruct nm as [|nm].
  - apply bind_ok in H as [l [E1 H]]. destruct (normalise_in _ _ _ H Hi) as [h1 [Hh1 Et]].
    destruct (mapM_in _ _ _ _ E1 Hh1) as [h [Hh E2]]. apply miss_hyp_in in E2 as [Hr E2].
    exists h, (repeat 0%nat (length (h_ts h))). split; [exact Hh|]. split; [exact Hr|]. split; [apply row0_ok|].
    rewrite shifted0. congruence.
  - cbn zeta in H. apply bind_ok in H as [ll [E1 H]]. destruct (normalise_in _ _ _ H Hi) as [h1 [Hh1 Et]].
    destruct (mapM_in_concat _ _ _ _ E1 Hh1) as [h [l [Hh [E2 Hl]]]].
    destruct (cor_hyp_in _ _ _ _ _ _ _ _ Hm E2 Hl) as [Hr [row [Hrow Hts]]]. exists h, row. split; [exact Hh|]. split; [exact Hr|]. split; [exact Hrow|].
    congruence.
Qed.
Lemma cor_hyps_dist c nm ntab ac hs r : gen_cor_hyps E c nm ntab ac hs = Ok r -> r <> [] -> prob_dist r.
Proof.
  intros H. unfold gen_cor_hyps in H. destruct nm; cbn zeta in H; apply bind_ok in H as [l [_ H]]; apply (normalise_dist _ _ H).
Qed.
Lemma correct_inv c t meas s s' : correct E c t meas s = Ok s' -> exists hs,
  gen_cor_hyps E c (length meas) (length (g_tab s)) (snd (gen_cor_tab E c t meas (g_tab s))) (g_hyps s) = Ok hs /\
  g_tab s' = pick (fst (gen_cor_tab E c t meas (g_tab s))) (nnz_inds (fst (gen_cor_tab E c t meas (g_tab s))) hs) /\
  g_hyps s' = flat_map (reindex (nnz_inds (fst (gen_cor_tab E c t meas (g_tab s))) hs)) hs /\
  g_card s' = calc_card hs /\ g_cnt s' = g_cnt s /\ g_ext s' = g_ext s.
Proof.
  unfold correct. destruct (gen_cor_tab E c t meas (g_tab s)) as [tab ac]. intros H. apply bind_ok in H as [hs [E1 H]].
  rewrite clean_updates_eq in H. inversion H; subst s'. exists hs. cbn. repeat split. exact E1.
Qed.

(** tracks of the corrected hypotheses *)
Lemma correct_view c t meas s s' h' : murty_ok (v_murty E) -> correct E c t meas s = Ok s' -> In h' (g_hyps s') ->
  exists h row es es', In h (g_hyps s) /\ row_ok (length (h_ts h)) (length meas) row /\
    Forall2 (fun i e => nth_error (g_tab s) i = Some e) (h_ts h) es /\
    Forall2 (fun k e' => nth_error (g_tab s') k = Some e') (h_ts h') es' /\
    Forall2 (fun ea e' => upd_entry c t meas (fst ea) (snd ea) = Some e') (combine es row) es'.
Proof.
  intros Hm H Hi. destruct (correct_inv _ _ _ _ _ H) as [hs [E1 [Et [Eh _]]]]. rewrite Eh in Hi. apply in_flat_map in Hi as [h1 [Hh1 Hi]].
  pose proof (reindex_view _ _ _ _ Hh1 Hi) as Hv. rewrite <- Et in Hv.
  destruct (cor_hyps_in _ _ _ _ _ _ _ Hm E1 Hh1) as [h [row [Hh [Hr [Hrow Ets]]]]].
  rewrite Ets in Hv. destruct Hrow as [Hl [Hle Hd]].
  assert (HG : forall ts row ks, length row = length ts -> (forall i, In i ts -> (i < length (g_tab s))%nat) -> (forall v, In v row -> (v <= length meas)%nat) ->
     Forall2 (fun i k => exists e, nth_error (fst (gen_cor_tab E c t meas (g_tab s))) i = Some (Some e) /\ nth_error (g_tab s') k = Some e) (shifted (length (g_tab s)) ts row) ks ->
     exists es es', Forall2 (fun i e => nth_error (g_tab s) i = Some e) ts es /\ Forall2 (fun k e' => nth_error (g_tab s') k = Some e') ks es' /\
        Forall2 (fun ea e' => upd_entry c t meas (fst ea) (snd ea) = Some e') (combine es row) es').
  { clear. induction ts as [|i ts IH]; intros row ks Hl Hi Hv HF.
    - destruct row; [|discriminate]. inversion HF; subst. exists [], []. repeat constructor.
    - destruct row as [|a row]; [discriminate|]. unfold shifted in HF. cbn [combine map fst snd] in HF. inversion HF as [|? k ? ks' [e' [H1 H2]] HF']; subst.
      destruct (IH row ks') as [es [es' [F1 [F2 F3]]]]; [cbn in Hl; lia|intros; apply Hi; right; assumption|intros; apply Hv; right; assumption|exact HF'|].
      destruct (nth_error (g_tab s) i) as [e|] eqn:Ei; [|apply nth_error_None in Ei; specialize (Hi i (or_introl eq_refl)); lia].
      rewrite (cor_tab_nth c t meas _ i a e Ei) in H1 by (apply Hv; left; reflexivity). inversion H1 as [H1'].
      exists (e :: es), (e' :: es'). split; [constructor; assumption|]. split; [constructor; assumption|]. cbn. constructor; assumption. }
  destruct (HG _ _ _ Hl Hr Hle Hv) as [es [es' [F1 [F2 F3]]]]. exists h, row, es, es'. repeat split; assumption.
Qed.

(** ** views of predicted hypotheses *)
Lemma birth_hyps_in c paths costs bh h : gen_birth_hyps E c paths costs = Ok bh -> In h bh -> In (h_ts h) paths.
Proof.
  intros H Hi. apply bind_ok in H as [ls [_ H]]. cbn zeta in H. destruct (normalise_in _ _ _ H Hi) as [h0 [Hh0 <-]].
  apply in_map_iff in Hh0 as [[p co] [<- Hp]]. cbn. apply in_combine_l in Hp. exact Hp.
Qed.
Lemma geti_ok {A} (l : list A) i x : geti l i = Ok x <-> nth_error l i = Some x.
Proof. unfold geti. destruct (nth_error l i); split; intros H; inversion H; reflexivity. Qed.
Lemma surv_hyps_in c n hs sh h' : kshort_ok (v_kshort E) -> gen_surv_hyps E c n hs = Ok sh -> In h' sh ->
  exists h sub, In h hs /\ (forall i, In i (h_ts h) -> (i < n)%nat) /\ NoDup sub /\
    Forall2 (fun j i => nth_error (h_ts h) j = Some i) sub (h_ts h').
Proof.
  intros Hk H Hi. apply bind_ok in H as [ll [E1 H]]. destruct (normalise_in _ _ _ H Hi) as [h1 [Hh1 Et]].
  destruct (mapM_in_concat _ _ _ _ E1 Hh1) as [h [l [Hh [E2 Hl]]]]. rewrite <- Et. clear Et Hi H E1 Hh1.
  unfold surv_hyp in E2. destruct (h_ts h) as [|t0 ts0] eqn:Eth.
  - apply bind_ok in E2 as [a [_ H]]. inversion H; subst l. destruct Hl as [<-|[]]. exists h, []. rewrite Eth.
    split; [exact Hh|]. split; [intros i []|]. split; constructor.
  - rewrite <- Eth in *. clear Eth t0 ts0. destruct (forallb _ _) eqn:Ef; cbn [negb] in E2; [|discriminate].
    apply bind_ok in E2 as [ra [_ H]]. apply bind_ok in H as [lc [_ H]]. cbn zeta in H.
    apply bind_ok in H as [[paths costs] [E3 H]]. apply bind_ok in H as [ld [_ H]]. apply bind_ok in H as [lw [_ H]].
    destruct (mapM_in _ _ _ _ H Hl) as [[p co] [Hp E4]]. apply bind_ok in E4 as [ts [E4 E5]]. inversion E5; subst h1. cbn.
    exists h, p. split; [exact Hh|]. split.
    { intros i Hii. rewrite forallb_forall in Ef. apply Ef in Hii. apply Nat.ltb_lt in Hii. exact Hii. }
    split; [apply (Hk _ _ _ _ E3), (in_combine_l _ _ _ _ Hp)|].
    apply mapM_ok in E4. eapply F2_impl; [|exact E4]. cbn. intros j i _ Hj. apply geti_ok, Hj.
Qed.
Lemma predict_view c t s s' h' : kshort_ok (v_kshort E) -> predict E c t s = Ok s' -> In h' (g_hyps s') ->
  exists h p sub es, In h (g_hyps s) /\ NoDup p /\ (forall i, In i p -> (i < length (c_births c))%nat) /\ NoDup sub /\
    (forall i, In i (h_ts h) -> (i < length (g_tab s))%nat) /\
    Forall2 (fun j e => exists i, nth_error (h_ts h) j = Some i /\ nth_error (g_tab s) i = Some e) sub es /\
    Forall2 (fun k e' => nth_error (g_tab s') k = Some e') (h_ts h')
      (map (fun i => birth_entry E c t (g_cnt s) i (fst (nth i (c_births c) ({| b_m := []; b_c := []; b_w := [] |}, 0)))) p ++ map (pred_entry E c t) es).
Proof.
  intros Hk H Hi. destruct (predict_inv _ _ _ _ H) as [btab [lcost [paths [costs [bh [sh [E1 [E2 [E3 [E4 [Et [Eh _]]]]]]]]]]]].
  rewrite Eh in Hi. apply clean_in in Hi as [h0 [Hi Ets]]. unfold set_pred_hyps in Hi. apply in_map_iff in Hi as [h1 [<- Hi]].
  apply in_flat_map in Hi as [hb [Hb Hi]]. apply in_map_iff in Hi as [hsv [<- Hsv]]. cbn in Ets.
  destruct (surv_hyps_in _ _ _ _ _ Hk E4 Hsv) as [h [sub [Hh [Hr [Hnd Hsub]]]]].
  apply bind_ok in E1 as [cs [E1 E5]]. inversion E5 as [[Hbt Hcs]]; subst cs; clear E5. apply mapM_length in E1.
  assert (Hbl : length btab = length (c_births c)) by (rewrite <- Hbt, map_length, combine_length, seq_length; apply Nat.min_id).
  destruct (Hk _ _ _ _ E2) as [_ Hp]. destruct (Hp _ (birth_hyps_in _ _ _ _ _ E3 Hb)) as [Hpn Hpl]. rewrite E1 in Hpl.
  assert (Hes : exists es, Forall2 (fun j e => exists i, nth_error (h_ts h) j = Some i /\ nth_error (g_tab s) i = Some e) sub es /\
     Forall2 (fun i e => nth_error (g_tab s) i = Some e) (h_ts hsv) es).
  { clear - Hsub Hr. revert Hsub. generalize (h_ts hsv) as ts. induction sub as [|j sub IH]; intros ts HF; inversion HF as [|? i ? ts' Hj HF']; subst.
    - exists []. split; constructor.
    - destruct (IH _ HF') as [es [F1 F2]]. destruct (nth_error (g_tab s) i) as [e|] eqn:Ei.
      + exists (e :: es). split; constructor; eauto.
      + apply nth_error_None in Ei. specialize (Hr i (nth_error_In _ _ Hj)). lia. }
  destruct Hes as [es [F1 F2]]. exists h, (h_ts hb), sub, es. repeat (split; [assumption|]).
  rewrite <- Ets, Et. apply Forall2_app.
  - clear - Hpl Hbl Hbt. induction (h_ts hb) as [|i p IH]; cbn; constructor; [|apply IH; intros; apply Hpl; right; assumption].
    assert (Hi : (i < length (c_births c))%nat) by (apply Hpl; left; reflexivity).
    rewrite nth_error_app1 by (rewrite Hbl; exact Hi). rewrite <- Hbt.
    destruct (nth_error (c_births c) i) as [b|] eqn:Eb; [|apply nth_error_None in Eb; lia].
    rewrite (map_nth_error _ _ _ (nth_error_combine_seq _ 0 _ _ Eb)). cbn. rewrite (nth_error_nth _ _ _ Eb). reflexivity.
  - clear - F2. induction F2 as [|i e ts es Hi HF IH]; cbn; constructor; [|exact IH].
    rewrite nth_error_app2 by lia. replace (i + length btab - length btab)%nat with i by lia. apply map_nth_error, Hi.
Qed.
End P.
