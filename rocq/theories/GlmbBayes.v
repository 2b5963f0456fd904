(** The GLMB prediction and update compute the probabilities and tracks of the
    GLMB recursion. *)
From Verif Require Import Base Lists.
From Coq Require Import Reals Permutation Sorted Lra.
From Verif Require Import OspaModel CphdModel OspaProofs CphdSpec CphdProofs GlmbModel GlmbSpec GlmbProofs GlmbInv GlmbTotal GlmbProps.
Open Scope R_scope.

Lemma rprod_cons x l : rprod (x :: l) = x * rprod l.
Proof. reflexivity. Qed.
Lemma exp_rsum {A} (f : A -> R) l : exp (rsum (map f l)) = rprod (map (fun x => exp (f x)) l).
Proof. induction l as [|x l IH]; [apply exp_0|]. cbn [map]. rewrite rsum_cons, exp_plus, IH. reflexivity. Qed.
Lemma rprod_ext {A} (f g : A -> R) l : (forall x, In x l -> f x = g x) -> rprod (map f l) = rprod (map g l).
Proof. intros H. f_equal. apply map_ext_in, H. Qed.
Lemma rprod_pos {A} (f : A -> R) l : (forall x, In x l -> 0 < f x) -> 0 < rprod (map f l).
Proof.
  induction l as [|x l IH]; intros H; cbn [map]; [cbn; lra|]. rewrite rprod_cons. apply Rmult_lt_0_compat; [apply H; left; reflexivity|apply IH; intros y Hy; apply H; right; exact Hy].
Qed.
Lemma rsum_plus {A} (f g : A -> R) l : rsum (map (fun x => f x + g x) l) = rsum (map f l) + rsum (map g l).
Proof. induction l as [|x l IH]; cbn [map]; rewrite ?rsum_cons; [change (rsum []) with 0; ring|rewrite IH; ring]. Qed.
Lemma rsum_filter {A} (p : A -> bool) (f : A -> R) l : rsum (map f (filter p l)) = rsum (map (fun x => if p x then f x else 0) l).
Proof. induction l as [|x l IH]; [reflexivity|]. cbn [filter map]. rewrite rsum_cons, <- IH. destruct (p x); [cbn [map]; rewrite rsum_cons; reflexivity|ring]. Qed.
Lemma mass_if (f : hyp -> bool) hs : mass f hs = rsum (map (fun h => if f h then h_p h else 0) hs).
Proof. apply rsum_filter. Qed.
Lemma rsum_subset (x : nat -> R) B n : NoDup B -> (forall i, In i B -> (i < n)%nat) ->
  rsum (map x B) = rsum (map (fun i => if existsb (Nat.eqb i) B then x i else 0) (seq 0 n)).
Proof.
  intros HB Hn. rewrite <- (rsum_filter (fun i => existsb (Nat.eqb i) B)). apply rsum_perm, Permutation_map, NoDup_Permutation; [exact HB|apply NoDup_filter, seq_NoDup|].
  intros i. rewrite filter_In, in_seq. split.
  - intros Hi. split; [specialize (Hn i Hi); lia|]. apply existsb_exists. exists i. split; [exact Hi|apply Nat.eqb_refl].
  - intros [_ H]. apply existsb_exists in H as [j [Hj E]]. apply Nat.eqb_eq in E. subst. exact Hj.
Qed.
Lemma rsum_concat (ll : list (list R)) : rsum (concat ll) = rsum (map rsum ll).
Proof. induction ll as [|l ll IH]; [reflexivity|]. cbn [concat map]. rewrite rsum_app, rsum_cons, IH. reflexivity. Qed.

Lemma ln_div' a b : 0 < a -> 0 < b -> ln (a / b) = ln a - ln b.
Proof. intros Ha Hb. unfold Rdiv. rewrite ln_mult by (auto using Rinv_0_lt_compat). rewrite ln_Rinv by exact Hb. ring. Qed.

Lemma F2_map {A B C} (P : A -> B -> Prop) (f : B -> C) (g : A -> C) l l' : Forall2 P l l' -> (forall a b, In a l -> P a b -> f b = g a) -> map f l' = map g l.
Proof.
  intros H. induction H as [|a b l l' Hab _ IH]; intros Hf; [reflexivity|]. cbn [map]. rewrite (Hf a b (or_introl eq_refl) Hab), IH; [reflexivity|].
  intros a0 b0 Hi. apply Hf. right. exact Hi.
Qed.
Section B.
Context {FS ST CV MS : Type}.
Variable E : genv FS ST CV MS.
Notation entry := (entry FS ST CV).
Notation glmb := (glmb FS ST CV MS).
Notation gcfg := (gcfg ST CV).

Lemma normalise_scale hs r : normalise_log E hs = Ok r -> exists K, 0 < K /\ r = map (fun h => {| h_p := K * exp (h_p h); h_ts := h_ts h |}) hs.
Proof.
  intros H. destruct (normalise_cases E _ _ H) as [[-> [-> _]]|[_ ->]]; [exists 1; split; [lra|reflexivity]|].
  exists (exp (- lse (map h_p hs))). split; [apply exp_pos|]. apply map_ext. intros h. f_equal. rewrite <- exp_plus. f_equal. ring.
Qed.

(** * Prediction *)
Lemma birth_weight_exp (c : gcfg) B d : (forall b p, In (b, p) (c_births c) -> 0 < p < 1) -> NoDup B -> (forall i, In i B -> (i < length (c_births c))%nat) ->
  exp (rsum (map (fun b => ln (1 - snd b)) (c_births c)) - (rsum (map (fun i => nth i (map (fun b => - ln (snd b / (1 - snd b))) (c_births c)) 0) B) + d)) =
  exp (- d) * birth_weight c B.
Proof.
  intros Hp HB Hn. set (n := length (c_births c)) in *. set (p := fun i => nth i (map snd (c_births c)) 0).
  assert (Hpi : forall i, (i < n)%nat -> 0 < p i < 1).
  { intros i Hi. unfold p. destruct (nth_error (c_births c) i) as [[b q]|] eqn:Eb; [|apply nth_error_None in Eb; unfold n in Hi; lia].
    rewrite (nth_error_nth (map snd (c_births c)) i 0 (x := q)) by (rewrite nth_error_map, Eb; reflexivity). apply (Hp b), (nth_error_In _ _ Eb). }
  assert (H1 : rsum (map (fun b => ln (1 - snd b)) (c_births c)) = rsum (map (fun i => ln (1 - p i)) (seq 0 n))).
  { f_equal. unfold p. rewrite <- (map_map (fun i => nth i (map snd (c_births c)) 0) (fun q => ln (1 - q))). rewrite <- (map_map snd (fun q => ln (1 - q))). f_equal.
    unfold n. rewrite <- (map_length snd (c_births c)). symmetry. apply map_nth_seq. }
  assert (H2 : rsum (map (fun i => nth i (map (fun b => - ln (snd b / (1 - snd b))) (c_births c)) 0) B) = rsum (map (fun i => - ln (p i / (1 - p i))) B)).
  { apply rsum_ext. intros i Hi. specialize (Hn i Hi). unfold p. destruct (nth_error (c_births c) i) as [[b q]|] eqn:Eb; [|apply nth_error_None in Eb; unfold n in Hn; lia].
    rewrite (nth_error_nth (map snd (c_births c)) i 0 (x := q)) by (rewrite nth_error_map, Eb; reflexivity).
    rewrite (nth_error_nth _ i 0 (x := - ln (q / (1 - q)))) by (rewrite nth_error_map, Eb; reflexivity). reflexivity. }
  rewrite H1, H2, (rsum_subset _ B n HB Hn).
  replace (rsum (map (fun i => ln (1 - p i)) (seq 0 n)) - (rsum (map (fun i => if existsb (Nat.eqb i) B then - ln (p i / (1 - p i)) else 0) (seq 0 n)) + d))
    with (- d + rsum (map (fun i => ln (1 - p i) + - (if existsb (Nat.eqb i) B then - ln (p i / (1 - p i)) else 0)) (seq 0 n))).
  2:{ rewrite (rsum_plus (fun i => ln (1 - p i)) (fun i => - (if existsb (Nat.eqb i) B then - ln (p i / (1 - p i)) else 0))).
      rewrite (rsum_ext (fun i => - (if existsb (Nat.eqb i) B then - ln (p i / (1 - p i)) else 0)) (fun i => -1 * (if existsb (Nat.eqb i) B then - ln (p i / (1 - p i)) else 0)));
        [rewrite rsum_scale; ring|intros; ring]. }
  rewrite exp_plus. f_equal. rewrite exp_rsum. unfold birth_weight. fold n. apply rprod_ext. intros i Hi. apply in_seq in Hi. fold (p i). specialize (Hpi i ltac:(lia)).
  cbv zeta. destruct (existsb (Nat.eqb i) B).
  - rewrite Ropp_involutive, <- ln_mult by (try apply Rdiv_lt_0_compat; lra). rewrite exp_ln; [field; lra|]. apply Rmult_lt_0_compat; [lra|apply Rdiv_lt_0_compat; lra].
  - rewrite Ropp_0, Rplus_0_r, exp_ln by lra. reflexivity.
Qed.

Lemma exp_INR n x : 0 < x -> exp (INR n * ln x) = x ^ n.
Proof. intros Hx. rewrite <- Rpower_pow by exact Hx. unfold Rpower. reflexivity. Qed.
Lemma surv_weight_exp (c : gcfg) h S d : 0 < c_ps c < 1 -> 0 < h_p h -> NoDup S -> (forall i, In i S -> (i < length (h_ts h))%nat) ->
  exp (INR (length (h_ts h)) * ln (1 - c_ps c) + ln (h_p h) - (rsum (map (fun i => nth i (map (fun _ => - ln (c_ps c / (1 - c_ps c))) (h_ts h)) 0) S) + d)) =
  exp (- d) * surv_weight c h S.
Proof.
  intros Hps Hp HS Hr.
  rewrite (rsum_ext _ (fun _ => - ln (c_ps c / (1 - c_ps c)))).
  2:{ intros i Hi. specialize (Hr i Hi). rewrite (nth_indep _ 0 (- ln (c_ps c / (1 - c_ps c)))) by (rewrite map_length; exact Hr).
      apply (map_nth (fun _ : nat => - ln (c_ps c / (1 - c_ps c))) (h_ts h) 0%nat i). }
  rewrite rsum_const. assert (HL : (length S <= length (h_ts h))%nat).
  { rewrite <- (seq_length (length (h_ts h)) 0). apply NoDup_incl_length; [exact HS|]. intros i Hi. apply in_seq. specialize (Hr i Hi). lia. }
  rewrite ln_div' by lra. unfold surv_weight. set (n := length (h_ts h)) in *. set (k := length S) in *. rewrite <- !exp_INR by lra. rewrite minus_INR by exact HL.
  replace (INR n * ln (1 - c_ps c) + ln (h_p h) - (INR k * - (ln (c_ps c) - ln (1 - c_ps c)) + d))
    with (- d + (ln (h_p h) + INR k * ln (c_ps c) + (INR n - INR k) * ln (1 - c_ps c))) by ring.
  rewrite !exp_plus, (exp_ln (h_p h)) by exact Hp. ring.
Qed.


Lemma mapM_geti {A} (l : list A) (d : A) js ts : mapM (geti l) js = Ok ts -> ts = map (fun j => nth j l d) js.
Proof.
  intros H. apply mapM_ok in H. induction H as [|j x js ts Hj _ IH]; [reflexivity|]. cbn [map]. apply geti_ok in Hj. rewrite (nth_error_nth _ _ _ Hj), IH. reflexivity.
Qed.
Lemma mapM_lnp {A} (f : A -> R) l r : mapM (fun x => lnp (f x)) l = Ok r -> r = map (fun x => ln (f x)) l.
Proof.
  intros H. apply mapM_ok in H. induction H as [|j x js ts Hj _ IH]; [reflexivity|]. cbn [map]. unfold lnp in Hj. destruct (Rlt_dec 0 (f j)); inversion Hj. rewrite IH. reflexivity.
Qed.
Lemma combine_F2 {A B C} (g : A -> B -> C) (g' : A -> C) l l' : Forall2 (fun a b => g a b = g' a) l l' ->
  map (fun ab => g (fst ab) (snd ab)) (combine l l') = map g' l.
Proof. intros H. induction H as [|a b l l' Hab _ IH]; [reflexivity|]. cbn. rewrite Hab, IH. reflexivity. Qed.

Lemma birth_hyps_form c paths costs bh d t n btab lc : kshort_ok (v_kshort E) -> kshort_cost d (v_kshort E) -> cfg_ok c ->
  gen_birth_tab E c t n = Ok (btab, lc) -> v_kshort E lc (c_reqb c) = Ok (paths, costs) -> gen_birth_hyps E c paths costs = Ok bh ->
  paths = birth_choices E c /\ exists K, 0 < K /\ bh = map (fun B => {| h_p := K * birth_weight c B; h_ts := B |}) paths.
Proof.
  intros Hk Hd Hc Hb Ek H. unfold gen_birth_tab in Hb. apply bind_ok in Hb as [cs [Ec Hb]]. injection Hb as _ <-.
  assert (Hcs : cs = map (fun b => - ln (snd b / (1 - snd b))) (c_births c)).
  { apply mapM_ok in Ec. clear -Ec. induction Ec as [|b x bs cs Hb _ IH]; [reflexivity|]. cbn [map]. unfold birth_cost in Hb. destruct (Req_EM_T (snd b) 1); [discriminate|].
    unfold lnp in Hb. destruct (Rlt_dec 0 (snd b / (1 - snd b))); inversion Hb. rewrite IH. reflexivity. }
  split; [unfold birth_choices; rewrite <- Hcs, Ek; reflexivity|].
  unfold gen_birth_hyps in H. apply bind_ok in H as [ls [El H]]. apply mapM_lnp in El. subst ls. cbv zeta in H.
  destruct (normalise_scale _ _ H) as [K [HK ->]]. exists (K * exp (- d)). split; [apply Rmult_lt_0_compat; [exact HK|apply exp_pos]|].
  rewrite map_map. cbn [h_p h_ts]. specialize (Hd _ _ _ _ Ek). destruct (Hk _ _ _ _ Ek) as [_ Hb2].
  apply (combine_F2 (fun B x => {| h_p := K * exp (rsum (map (fun b => ln (1 - snd b)) (c_births c)) - x); h_ts := B |})).
  eapply F2_impl; [|exact Hd]. intros B x HB ->. destruct (Hb2 _ HB) as [N1 N2]. rewrite Hcs in N2. rewrite map_length in N2.
  f_equal. rewrite Hcs. rewrite birth_weight_exp; [ring|apply Hc|exact N1|exact N2].
Qed.

Lemma surv_hyp_form c n hs h l d : kshort_ok (v_kshort E) -> kshort_cost d (v_kshort E) -> cfg_ok c ->
  surv_hyp E c n (rsum (map (fun h => sqrt (h_p h)) hs)) h = Ok l ->
  map (fun x => (exp (h_p x), h_ts x)) l = map (fun S => (bias d h * surv_weight c h S, spicks h S)) (surv_choices E c hs h).
Proof.
  intros Hk Hd Hc H. unfold surv_hyp in H. unfold surv_choices, bias, spicks. destruct (h_ts h) as [|a ts] eqn:Et.
  - apply bind_ok in H as [lw [Hl H]]. injection H as <-. unfold lnp in Hl. destruct (Rlt_dec 0 (h_p h)) as [Hp|]; [|discriminate]. injection Hl as <-. cbn [map h_p h_ts].
    rewrite exp_ln by exact Hp. unfold surv_weight. rewrite Et. cbn [length pow Nat.sub]. rewrite !Rmult_1_r, Rmult_1_l. reflexivity.
  - destruct (negb _); [discriminate|]. apply bind_ok in H as [ratio [Er H]]. apply rdiv_ok in Er as [_ ->]. apply bind_ok in H as [lr [Elr H]].
    unfold lnp in Elr. destruct (Rlt_dec 0 (c_ps c / (1 - c_ps c))); [|discriminate]. injection Elr as <-.
    apply bind_ok in H as [[ps cs] [Ek H]]. change (Z.to_nat _) with (share_of (c_reqs c) hs h) in Ek. rewrite Ek.
    apply bind_ok in H as [ld [El H]]. unfold lnp in El. destruct (Rlt_dec 0 (1 - c_ps c)); [|discriminate]. injection El as <-.
    apply bind_ok in H as [lw [Hl H]]. unfold lnp in Hl. destruct (Rlt_dec 0 (h_p h)) as [Hp|]; [|discriminate]. injection Hl as <-.
    specialize (Hd _ _ _ _ Ek). destruct (Hk _ _ _ _ Ek) as [_ Hb]. apply mapM_ok in H.
    assert (HF : Forall2 (fun (pc : list nat * R) x => (exp (h_p x), h_ts x) = (exp (- d) * surv_weight c h (fst pc), map (fun j => nth j (a :: ts) 0%nat) (fst pc))) (combine ps cs) l).
    { eapply F2_impl; [|exact H]. intros [p x] y Hin Hy. cbn [fst snd] in *. apply bind_ok in Hy as [ts' [Ets Hy]]. injection Hy as <-. cbn [h_p h_ts].
      apply (mapM_geti _ 0%nat) in Ets. subst ts'. f_equal.
      pose proof (in_combine_l _ _ _ _ Hin) as Hp1. destruct (Hb _ Hp1) as [N1 N2]. rewrite map_length, <- Et in N2.
      assert (Hx : x = rsum (map (fun i => nth i (map (fun _ => - ln (c_ps c / (1 - c_ps c))) (a :: ts)) 0) p) + d).
      { clear -Hd Hin. induction Hd as [|q z qs zs Hz _ IH]; [destruct Hin|]. destruct Hin as [Eq|Hin]; [inversion Eq; subst; exact eq_refl|exact (IH Hin)]. }
      pose proof (surv_weight_exp c h p d ltac:(apply Hc) Hp N1 N2) as Q. rewrite Et in Q. rewrite Hx. exact Q. }
    transitivity (map (fun pc : list nat * R => (exp (- d) * surv_weight c h (fst pc), map (fun j => nth j (a :: ts) 0%nat) (fst pc))) (combine ps cs)).
    + clear -HF. induction HF as [|x y l l' Hxy _ IH]; [reflexivity|]. cbn [map]. rewrite Hxy, IH. reflexivity.
    + assert (Hl : length ps = length cs) by exact (F2_len _ _ _ Hd). clear -Hl. revert cs Hl. induction ps as [|p ps IH]; intros [|x cs] Hl; try discriminate; [reflexivity|]. cbn. rewrite IH by (injection Hl; auto). reflexivity.
Qed.

Lemma surv_hyps_form c n hs sh d : kshort_ok (v_kshort E) -> kshort_cost d (v_kshort E) -> cfg_ok c -> gen_surv_hyps E c n hs = Ok sh ->
  exists K, 0 < K /\ map (fun x => (h_p x, h_ts x)) sh =
    flat_map (fun h => map (fun S => (K * (bias d h * surv_weight c h S), spicks h S)) (surv_choices E c hs h)) hs.
Proof.
  intros Hk Hd Hc H. unfold gen_surv_hyps in H. cbv zeta in H. apply bind_ok in H as [ll [El H]]. destruct (normalise_scale _ _ H) as [K [HK ->]].
  exists K. split; [exact HK|]. rewrite map_map. cbn [h_p h_ts].
  transitivity (map (fun x : R * list nat => (K * fst x, snd x)) (map (fun x => (exp (h_p x), h_ts x)) (concat ll))); [rewrite map_map; reflexivity|].
  apply mapM_ok in El. clear H. set (ss := rsum _) in El.
  assert (HG : map (map (fun x => (exp (h_p x), h_ts x))) ll = map (fun h => map (fun S => (bias d h * surv_weight c h S, spicks h S)) (surv_choices E c hs h)) hs).
  { apply (F2_map (fun h l => surv_hyp E c n ss h = Ok l)); [exact El|]. intros h l _ Hl. exact (surv_hyp_form c n hs h l d Hk Hd Hc Hl). }
  rewrite concat_map. rewrite HG. rewrite concat_map, map_map, <- flat_map_concat_map. apply flat_map_ext. intros h. rewrite map_map. reflexivity.
Qed.

Lemma predict_mass c t s s' d : kshort_ok (v_kshort E) -> kshort_cost d (v_kshort E) -> hash_ok (v_hash E) -> cfg_ok c -> predict E c t s = Ok s' -> g_hyps s' <> [] ->
  exists K, 0 < K /\ forall f, (forall a b, Permutation a b -> f a = f b) ->
    mass (fun h => f (h_ts h)) (g_hyps s') = K * predicted_total E d c (g_hyps s) f.
Proof.
  intros Hk Hd Hh Hc H Hne. destruct (predict_inv _ _ _ _ _ H) as [btab [lc [paths [costs [bh [sh [Eb [Ek [Ebh [Es [_ [Eh _]]]]]]]]]]]].
  destruct (birth_hyps_form c paths costs bh d t (g_cnt s) btab lc Hk Hd Hc Eb Ek Ebh) as [Hp [K1 [HK1 Hbh]]].
  destruct (surv_hyps_form c _ _ sh d Hk Hd Hc Es) as [K2 [HK2 Hsh]].
  assert (Lb : length btab = length (c_births c)).
  { unfold gen_birth_tab in Eb. apply bind_ok in Eb as [cs [_ Eb]]. injection Eb as <- _. rewrite map_length, combine_length, seq_length. apply Nat.min_id. }
  rewrite Eh in Hne |- *. apply clean_nil_inv in Hne. unfold set_pred_hyps in Hne. unfold set_pred_hyps.
  set (hs0 := flat_map _ bh) in *. set (tot := rsum (map h_p hs0)) in *.
  assert (Hpos : forall h, In h hs0 -> 0 < h_p h).
  { intros h Hin. unfold hs0 in Hin. apply in_flat_map in Hin as [b [Hb Hin]]. apply in_map_iff in Hin as [x [<- Hx]]. cbn [h_p].
    apply Rmult_lt_0_compat; [exact (birth_hyps_pos E _ _ _ _ Ebh _ Hb)|exact (surv_hyps_pos E _ _ _ _ Es _ Hx)]. }
  assert (Htot : 0 < tot) by (apply rsum_allpos; [intros E0; rewrite E0 in Hne; exact (Hne eq_refl)|exact Hpos]).
  exists (K1 * K2 / tot). split; [apply Rdiv_lt_0_compat; [apply Rmult_lt_0_compat; assumption|exact Htot]|]. intros f Hf.
  rewrite (C51_merge_preserves_mass E f _ Hh Hf), mass_if, map_map. cbn [h_p h_ts].
  rewrite (rsum_ext _ (fun h => / tot * (if f (h_ts h) then h_p h else 0))) by (intros x _; destruct (f (h_ts x)); [field; lra|ring]).
  rewrite rsum_scale. unfold hs0. rewrite flat_map_concat_map, concat_map, map_map, rsum_concat, map_map.
  unfold predicted_total. rewrite <- Hp. rewrite Hbh, map_map. cbn [h_p h_ts].
  transitivity (/ tot * rsum (map (fun B => K1 * K2 * rsum (map (fun h => rsum (map (fun S =>
      if f (B ++ map (fun x => (x + length (c_births c))%nat) (spicks h S)) then birth_weight c B * (bias d h * surv_weight c h S) else 0)
    (surv_choices E c (g_hyps s) h))) (g_hyps s))) paths)); [|rewrite rsum_scale; field; lra]. f_equal. apply rsum_ext. intros B HB.
  rewrite map_map. cbn [h_p h_ts]. rewrite Lb.
  transitivity (rsum (map (fun x : R * list nat => if f (B ++ map (fun x => (x + length (c_births c))%nat) (snd x)) then K1 * birth_weight c B * fst x else 0) (map (fun x => (h_p x, h_ts x)) sh)));
    [rewrite map_map; reflexivity|].
  rewrite Hsh, flat_map_concat_map, concat_map, map_map, rsum_concat, map_map, <- rsum_scale. apply rsum_ext. intros h _. rewrite map_map. cbn [fst snd].
  rewrite <- rsum_scale. apply rsum_ext. intros S _. destruct (f _); ring.
Qed.

(** * Update *)
Lemma combine_prefix {A B C} (rs : list A) : forall (xs : list B) (w : list C), length rs = length (combine xs w) -> combine rs (map snd (combine xs w)) = combine rs w.
Proof.
  induction rs as [|r rs IH]; intros xs w H; [reflexivity|]. destruct xs as [|x xs]; [discriminate|]. destruct w as [|y w]; [discriminate|].
  cbn in *. rewrite IH by (injection H; auto). reflexivity.
Qed.
Notation comps e := (combine (combine (e_fs e) (last (e_st e) [])) (last (e_w e) [])).
Lemma lik_sum (t : R) (z : MS) : forall (cs : list (FS * ST * R)) (rs : list (FS * ST * CV * R)),
  Forall2 (fun fxw r => v_corr E t z (fst (fst fxw)) (snd (fst fxw)) = Some r) cs rs ->
  rsum (map (fun rw => snd rw * snd (fst rw) + feps) (combine rs (map snd cs))) =
  rsum (map (fun fxw => match v_corr E t z (fst (fst fxw)) (snd (fst fxw)) with Some (_, q) => snd fxw * q + feps | None => 0 end) cs).
Proof.
  intros cs rs H. induction H as [|x r cs rs Hx _ IH]; [reflexivity|]. cbn [map combine]. rewrite !rsum_cons, IH, Hx. destruct r as [r q]. reflexivity.
Qed.
Lemma cor_entry_spec c t z e e' cost : cor_entry E c t z e = Some (e', cost) -> exists rs,
  Forall2 (fun fxw r => v_corr E t z (fst (fst fxw)) (snd (fst fxw)) = Some r) (comps e) rs /\ cost = track_lik E t z e /\
  e_label e' = e_label e /\ e_time e' = e_time e /\ e_assoc e' = e_assoc e /\ e_fs e' = map (fun r => fst (fst (fst r))) rs /\
  e_st e' = removelast (e_st e) ++ [map (fun r => snd (fst (fst r))) rs] /\
  e_cov e' = removelast (e_cov e) ++ [map (fun r => if c_savecov c then Some (snd (fst r)) else None) rs] /\
  e_w e' = removelast (e_w e) ++ [map (fun rw => (snd rw * snd (fst rw) + feps) / track_lik E t z e) (combine rs (map snd (comps e)))].
Proof.
  unfold cor_entry. destruct (all_some _) as [rs|] eqn:Er; [|discriminate]. apply all_some_ok in Er. cbv zeta. intros H. injection H as <- <-. exists rs.
  assert (HF : Forall2 (fun fxw r => v_corr E t z (fst (fst fxw)) (snd (fst fxw)) = Some r) (comps e) rs).
  { revert Er. generalize (comps e) as cs. intros cs. revert rs. induction cs as [|x cs IH]; intros [|r rs] Er; try discriminate; constructor; cbn [map] in Er; injection Er as E1 E2; [exact E1|apply IH, E2]. }
  assert (HL : length rs = length (comps e)) by (symmetry; exact (F2_len _ _ _ HF)).
  assert (Hc : rsum (map (fun rw => snd rw * snd (fst rw) + feps) (combine rs (last (e_w e) []))) = track_lik E t z e).
  { rewrite <- (combine_prefix rs _ _ HL). apply lik_sum, HF. }
  split; [exact HF|]. cbn [e_label e_time e_assoc e_fs e_st e_cov e_w]. split; [exact Hc|]. do 6 (split; [reflexivity|]).
  unfold set_last. rewrite (combine_prefix rs _ _ HL). f_equal. f_equal. rewrite map_map, Hc. reflexivity.
Qed.
Lemma cor_entry_some c t z e : (forall f x, v_corr E t z f x <> None) -> exists e' cost, cor_entry E c t z e = Some (e', cost).
Proof.
  intros H. unfold cor_entry. destruct (all_some _) as [rs|] eqn:Er; [eauto|]. apply all_some_none in Er. apply in_map_iff in Er as [x [Hx _]]. destruct (H _ _ Hx).
Qed.
Lemma upd_successor c t meas e a e' : upd_entry E c t meas e a = Some e' -> successor E c t meas e a e'.
Proof.
  unfold upd_entry, successor. destruct a as [|j].
  - intros H. injection H as <-. cbn. auto 10.
  - destruct (nth_error meas j) as [z|] eqn:Ez; [|discriminate]. destruct (cor_entry E c t z e) as [[e1 cost]|] eqn:Ec; [|discriminate]. intros H. injection H as <-.
    destruct (cor_entry_spec c t z e e1 cost Ec) as [rs [H1 [H2 [H3 [H4 [H5 [H6 [H7 [H8 H9]]]]]]]]]. cbn [add_assoc e_label e_time e_assoc e_fs e_st e_cov e_w].
    split; [exact H3|]. split; [exact H4|]. exists z, rs. split; [reflexivity|]. split; [rewrite H5; reflexivity|]. split; [exact H1|]. auto.
Qed.

Lemma map_combine_seq {A B C} (es : list A) : forall (row : list B) st (f : nat * B -> C) (g : A * B -> C), length row = length es ->
  (forall r e a, nth_error es r = Some e -> nth_error row r = Some a -> f ((st + r)%nat, a) = g (e, a)) ->
  map f (combine (seq st (length es)) row) = map g (combine es row).
Proof.
  induction es as [|e es IH]; intros [|a row] st f g Hl H; try discriminate; [reflexivity|]. cbn [length seq combine map].
  rewrite <- (H 0%nat e a eq_refl eq_refl), Nat.add_0_r. f_equal. apply IH; [injection Hl; auto|]. intros r e0 a0 H1 H2. rewrite <- (H (S r) e0 a0 H1 H2). f_equal. f_equal. lia.
Qed.
Lemma tracks_nth {A} (tab : list A) : forall ts, (forall i, In i ts -> (i < length tab)%nat) ->
  length (flat_map (fun i => match nth_error tab i with Some e => [e] | None => [] end) ts) = length ts /\
  forall r, nth_error (flat_map (fun i => match nth_error tab i with Some e => [e] | None => [] end) ts) r = match nth_error ts r with Some i => nth_error tab i | None => None end.
Proof.
  induction ts as [|i ts IH]; intros H; [split; [reflexivity|intros [|r]; reflexivity]|]. destruct IH as [I1 I2]; [intros j Hj; apply H; right; exact Hj|].
  cbn [flat_map]. specialize (H i (or_introl eq_refl)). destruct (nth_error tab i) as [e|] eqn:Ee; [|apply nth_error_None in Ee; lia]. cbn [app length].
  split; [rewrite I1; reflexivity|]. intros [|r]; cbn [nth_error]; [symmetry; exact Ee|apply I2].
Qed.

Definition const (c : gcfg) (nm : nat) : R := exp (- c_crate c) * (c_crate c * c_cden c) ^ nm.

Lemma assoc_weight_exp c t meas h es row M :
  cfg_ok c -> 0 < h_p h -> (forall e z, In e es -> In z meas -> 0 < track_lik E t z e) ->
  length row = length es -> (forall v, In v row -> (v <= length meas)%nat) ->
  (forall r j e z, nth_error es r = Some e -> nth_error meas j = Some z -> M r j = - ln (c_pd c * track_lik E t z e / (c_crate c * c_cden c) / (1 - c_pd c))) ->
  exp (- c_crate c + INR (length meas) * ln (c_crate c * c_cden c) + INR (length es) * ln (1 - c_pd c) + ln (h_p h) - row_total (length es) M row) =
  const c (length meas) * (h_p h * assoc_weight E c t meas es row).
Proof.
  intros Hc Hp Hl HL Hv HM. destruct Hc as [_ [_ [Hpd [Hcr Hcd]]]].
  assert (Hcl : 0 < c_crate c * c_cden c) by (apply Rmult_lt_0_compat; assumption).
  unfold row_total.
  replace (INR (length es) * ln (1 - c_pd c)) with (rsum (map (fun _ => ln (1 - c_pd c)) (combine (seq 0 (length es)) row))).
  2:{ rewrite rsum_const, combine_length, seq_length, HL, Nat.min_id. reflexivity. }
  set (F := fun ra : nat * nat => match snd ra with O => 0 | S j => M (fst ra) j end).
  replace (- c_crate c + INR (length meas) * ln (c_crate c * c_cden c) + rsum (map (fun _ => ln (1 - c_pd c)) (combine (seq 0 (length es)) row)) + ln (h_p h) - rsum (map F (combine (seq 0 (length es)) row)))
    with (- c_crate c + INR (length meas) * ln (c_crate c * c_cden c) + ln (h_p h) + rsum (map (fun ra => ln (1 - c_pd c) + -1 * F ra) (combine (seq 0 (length es)) row))).
  2:{ rewrite (rsum_plus (fun _ => ln (1 - c_pd c)) (fun ra => -1 * F ra)), rsum_scale. ring. }
  rewrite !exp_plus, exp_INR by exact Hcl. rewrite exp_ln by exact Hp. rewrite exp_rsum. unfold const, assoc_weight.
  rewrite (map_combine_seq es row 0 (fun ra => exp (ln (1 - c_pd c) + -1 * F ra))
     (fun ea => match snd ea with O => 1 - c_pd c | S j => match nth_error meas j with Some z => c_pd c * track_lik E t z (fst ea) / (c_crate c * c_cden c) | None => 0 end end)); [ring|exact HL|].
  intros r e a He Ha. unfold F. cbn [fst snd plus]. destruct a as [|j].
  - replace (ln (1 - c_pd c) + -1 * 0) with (ln (1 - c_pd c)) by ring. apply exp_ln. lra.
  - assert (Hj : (j < length meas)%nat) by (specialize (Hv (S j) (nth_error_In _ _ Ha)); lia). destruct (nth_error meas j) as [z|] eqn:Ez; [|apply nth_error_None in Ez; lia].
    rewrite (HM r j e z He Ez). assert (Hlk : 0 < track_lik E t z e) by (apply Hl; [exact (nth_error_In _ _ He)|exact (nth_error_In _ _ Ez)]).
    assert (Hq : 0 < c_pd c * track_lik E t z e / (c_crate c * c_cden c)) by (apply Rdiv_lt_0_compat; [apply Rmult_lt_0_compat; lra|exact Hcl]).
    rewrite ln_div' by lra. replace (ln (1 - c_pd c) + -1 * - (ln (c_pd c * track_lik E t z e / (c_crate c * c_cden c)) - ln (1 - c_pd c))) with (ln (c_pd c * track_lik E t z e / (c_crate c * c_cden c))) by ring.
    apply exp_ln, Hq.
Qed.

Lemma forallb_ts n ts : negb (forallb (fun i => (i <? n)%nat) ts) = false -> forall i, In i ts -> (i < n)%nat.
Proof. intros H i Hi. apply negb_false_iff in H. rewrite forallb_forall in H. apply Nat.ltb_lt, H, Hi. Qed.

Lemma cor_hyp_form c t meas tab hs h l : murty_ok (v_murty E) -> murty_cost (v_murty E) -> cfg_ok c -> meas <> [] ->
  (forall z f x, In z meas -> v_corr E t z f x <> None) -> (forall e z, In e tab -> In z meas -> 0 < track_lik E t z e) ->
  cor_hyp E c (length meas) (length tab) (snd (gen_cor_tab E c t meas tab)) (rsum (map (fun h => sqrt (h_p h)) hs)) h = Ok l ->
  exists rows, considered E c t meas hs h (tracks tab h) rows /\ (forall i, In i (h_ts h) -> (i < length tab)%nat) /\
    Forall (valid_row (length (h_ts h)) (length meas)) rows /\
    map (fun x => (exp (h_p x), h_ts x)) l = map (fun row => (const c (length meas) * (h_p h * assoc_weight E c t meas (tracks tab h) row), shifted (length tab) (h_ts h) row)) rows.
Proof.
  intros Hm Hmc Hc Hne Hf Hl H. unfold cor_hyp in H. cbv zeta in H. destruct (h_ts h) as [|a0 ts0] eqn:Et.
  - apply bind_ok in H as [lcl [Hlc H]]. apply bind_ok in H as [lw [Hlw H]]. injection H as <-. unfold lnp in Hlc, Hlw.
    destruct (Rlt_dec 0 (c_crate c * c_cden c)) as [Hcl|]; [|discriminate]. injection Hlc as <-. destruct (Rlt_dec 0 (h_p h)) as [Hp|]; [|discriminate]. injection Hlw as <-.
    exists [[]]. assert (Htr : tracks tab h = []) by (unfold tracks; rewrite Et; reflexivity). rewrite Htr. split; [reflexivity|]. split; [intros i []|].
    split; [constructor; [|constructor]; split; [reflexivity|]; split; [intros v []|intros [|r1] r2 v Hv; discriminate]|].
    cbn [map h_p h_ts]. f_equal. f_equal. rewrite !exp_plus, exp_INR by exact Hcl. rewrite exp_ln by exact Hp. unfold const, assoc_weight. cbn [combine map rprod fold_right]. ring.
  - destruct (negb _) eqn:En; [discriminate|]. pose proof (forallb_ts _ _ En) as Hr. apply bind_ok in H as [ratio [Er H]]. apply rdiv_ok in Er as [_ ->].
    apply bind_ok in H as [lcl [Hlc H]]. unfold lnp in Hlc. destruct (Rlt_dec 0 (c_crate c * c_cden c)) as [Hcl|]; [|discriminate]. injection Hlc as <-.
    apply bind_ok in H as [[rows costs] [Em H]]. apply bind_ok in H as [lmd [Hmd H]]. unfold lnp in Hmd. destruct (Rlt_dec 0 (1 - c_pd c)) as [Hpm|]; [|discriminate]. injection Hmd as <-.
    apply bind_ok in H as [lw [Hlw H]]. unfold lnp in Hlw. destruct (Rlt_dec 0 (h_p h)) as [Hp|]; [|discriminate]. injection Hlw as <-. injection H as <-.
    change (Z.to_nat _) with (share_of (c_requ c) hs h) in Em. set (ts := a0 :: ts0) in *. set (M := fun r j : nat => _) in Em.
    destruct (tracks_nth tab ts Hr) as [T1 T2]. assert (Htr : tracks tab h = flat_map (fun i => match nth_error tab i with Some e => [e] | None => [] end) ts) by (unfold tracks; rewrite Et; reflexivity).
    rewrite <- Htr in T1, T2.
    assert (HM : forall r j e z, nth_error (tracks tab h) r = Some e -> nth_error meas j = Some z -> M r j = - ln (c_pd c * track_lik E t z e / (c_crate c * c_cden c) / (1 - c_pd c))).
    { intros r j e z He Hz. rewrite T2 in He. destruct (nth_error ts r) as [i|] eqn:Ei; [|discriminate]. unfold M. rewrite (nth_error_nth _ _ _ Ei). cbn [snd gen_cor_tab]. rewrite He, Hz.
      destruct (cor_entry_some c t z e) as [e' [cost Ec]]; [intros f x; apply Hf, (nth_error_In _ _ Hz)|]. rewrite Ec. destruct (cor_entry_spec c t z e e' cost Ec) as [rs [_ [-> _]]].
      assert (Hlk : 0 < track_lik E t z e) by (apply Hl; [exact (nth_error_In _ _ He)|exact (nth_error_In _ _ Hz)]). destruct Hc as [_ [_ [Hpd [Hcr Hcd]]]].
      assert (Hq : 0 < c_pd c / (1 - c_pd c) * track_lik E t z e / (c_crate c * c_cden c)) by (apply Rdiv_lt_0_compat; [apply Rmult_lt_0_compat; [apply Rdiv_lt_0_compat; lra|exact Hlk]|exact Hcl]).
      destruct (Rle_dec (c_pd c / (1 - c_pd c) * track_lik E t z e / (c_crate c * c_cden c)) 0) as [?|_]; [lra|]. f_equal. f_equal. field. repeat split; lra. }
    exists rows. specialize (Hmc _ _ _ _ _ _ Em). destruct (Hm _ _ _ _ _ _ Em) as [_ Hrow].
    assert (Hconsid : considered E c t meas hs h (tracks tab h) rows).
    { unfold considered. destruct (tracks tab h) as [|e0 es0] eqn:Ee; [discriminate|]. destruct meas as [|z0 meas0] eqn:Eme; [contradiction|].
      exists M, costs. rewrite T1. split; [exact Em|exact HM]. }
    split; [exact Hconsid|]. split; [exact Hr|]. split; [apply Forall_forall; intros row Hi; exact (Hrow row Hi)|].
    rewrite map_map. cbn [h_p h_ts].
    apply (combine_F2 (fun row x => (exp (- c_crate c + INR (length meas) * ln (c_crate c * c_cden c) + INR (length ts) * ln (1 - c_pd c) + ln (h_p h) - x), shifted (length tab) ts row))).
    eapply F2_impl; [|exact Hmc]. intros row x Hin ->. destruct (Hrow row Hin) as [R1 [R2 _]]. f_equal. rewrite <- T1. apply assoc_weight_exp; auto.
    + intros e z He Hz. apply Hl; [|exact Hz]. rewrite Htr in He. apply in_flat_map in He as [i [_ He]]. destruct (nth_error tab i) eqn:Ei; [|destruct He]. destruct He as [<-|[]]. exact (nth_error_In _ _ Ei).
    + rewrite T1. exact R1.
Qed.

Lemma miss_hyp_form c t tab hs h x : 0 < c_pd c < 1 -> miss_hyp c (length tab) h = Ok x ->
  considered E c t [] hs h (tracks tab h) [repeat 0%nat (length (h_ts h))] /\ (forall i, In i (h_ts h) -> (i < length tab)%nat) /\
  (exp (h_p x), h_ts x) = (const c 0 * (h_p h * assoc_weight E c t [] (tracks tab h) (repeat 0%nat (length (h_ts h)))), shifted (length tab) (h_ts h) (repeat 0%nat (length (h_ts h)))).
Proof.
  intros Hpd H. unfold miss_hyp in H. destruct (negb _) eqn:En; [discriminate|]. pose proof (forallb_ts _ _ En) as Hr. apply bind_ok in H as [ls [El H]].
  apply mapM_lnp in El. subst ls. apply bind_ok in H as [lw [Hlw H]]. unfold lnp in Hlw. destruct (Rlt_dec 0 (h_p h)) as [Hp|]; [|discriminate]. injection Hlw as <-. injection H as <-.
  destruct (tracks_nth tab (h_ts h) Hr) as [T1 _]. change (flat_map _ (h_ts h)) with (tracks tab h) in T1. split; [|split; [exact Hr|]].
  - unfold considered. rewrite <- T1. destruct (tracks tab h); reflexivity.
  - cbn [h_p h_ts]. rewrite shifted0. f_equal. rewrite !exp_plus, exp_ln by exact Hp. unfold const. cbn [pow]. rewrite Rmult_1_r.
    assert (Hw : exp (rsum (map (fun _ : nat => ln (1 - c_pd c)) (h_ts h))) = assoc_weight E c t [] (tracks tab h) (repeat 0%nat (length (h_ts h)))).
    { rewrite exp_rsum. unfold assoc_weight. revert T1. generalize (tracks tab h) as es. generalize (h_ts h) as ts. clear -Hpd. induction ts as [|i ts IH]; intros [|e es] HL; try discriminate; [reflexivity|].
      cbn [length repeat map combine snd]. rewrite !rprod_cons. rewrite (IH es) by (injection HL; auto). f_equal. apply exp_ln. lra. }
    rewrite Hw. ring.
Qed.

Lemma gen_cor_hyps_form c t meas tab hs r : murty_ok (v_murty E) -> murty_cost (v_murty E) -> cfg_ok c ->
  (forall z f x, In z meas -> v_corr E t z f x <> None) -> (forall e z, In e tab -> In z meas -> 0 < track_lik E t z e) ->
  gen_cor_hyps E c (length meas) (length tab) (snd (gen_cor_tab E c t meas tab)) hs = Ok r ->
  exists K rr, 0 < K /\ Forall2 (fun h rows => considered E c t meas hs h (tracks tab h) rows /\ (forall i, In i (h_ts h) -> (i < length tab)%nat) /\
      Forall (valid_row (length (h_ts h)) (length meas)) rows) hs rr /\
    map (fun x => (h_p x, h_ts x)) r =
      map (fun hr => (K * (h_p (fst hr) * assoc_weight E c t meas (tracks tab (fst hr)) (snd hr)), shifted (length tab) (h_ts (fst hr)) (snd hr)))
          (flat_map (fun hr => map (pair (fst hr)) (snd hr)) (combine hs rr)).
Proof.
  intros Hm Hmc Hc Hf Hl H.
  assert (HX : exists raw rr, normalise_log E raw = Ok r /\ Forall2 (fun h rows => considered E c t meas hs h (tracks tab h) rows /\ (forall i, In i (h_ts h) -> (i < length tab)%nat) /\
      Forall (valid_row (length (h_ts h)) (length meas)) rows) hs rr /\
      map (fun x => (exp (h_p x), h_ts x)) raw =
      map (fun hr => (const c (length meas) * (h_p (fst hr) * assoc_weight E c t meas (tracks tab (fst hr)) (snd hr)), shifted (length tab) (h_ts (fst hr)) (snd hr)))
          (flat_map (fun hr => map (pair (fst hr)) (snd hr)) (combine hs rr))).
  { unfold gen_cor_hyps in H. destruct (length meas) as [|nm] eqn:En.
    - apply length_zero_iff_nil in En. subst meas. apply bind_ok in H as [raw [Er H]]. apply mapM_ok in Er. exists raw, (map (fun h => [repeat 0%nat (length (h_ts h))]) hs).
      split; [exact H|]. assert (Hpd : 0 < c_pd c < 1) by apply Hc. clear H. cbn [length].
      assert (Hgo : forall l raw, Forall2 (fun h x => miss_hyp c (length tab) h = Ok x) l raw ->
        Forall2 (fun h rows => considered E c t [] hs h (tracks tab h) rows /\ (forall i, In i (h_ts h) -> (i < length tab)%nat) /\ Forall (valid_row (length (h_ts h)) 0) rows) l (map (fun h => [repeat 0%nat (length (h_ts h))]) l) /\
        map (fun x => (exp (h_p x), h_ts x)) raw = map (fun hr => (const c 0 * (h_p (fst hr) * assoc_weight E c t [] (tracks tab (fst hr)) (snd hr)), shifted (length tab) (h_ts (fst hr)) (snd hr)))
          (flat_map (fun hr => map (pair (fst hr)) (snd hr)) (combine l (map (fun h => [repeat 0%nat (length (h_ts h))]) l)))).
      { clear Er raw. intros l raw Er. induction Er as [|h x l raw Hx _ IH]; [split; [constructor|reflexivity]|].
        destruct (miss_hyp_form c t tab hs h x Hpd Hx) as [A [B C]]. destruct IH as [IH1 IH2]. split.
        + cbn [map]. constructor; [|exact IH1]. split; [exact A|]. split; [exact B|]. constructor; [apply row0_ok|constructor].
        + cbn [map combine flat_map app fst snd]. rewrite C, IH2. reflexivity. }
      exact (Hgo hs raw Er).
    - rewrite <- En in *. cbv zeta in H. apply bind_ok in H as [ll [El H]]. apply mapM_ok in El. 
      assert (Hne : meas <> []) by (intros ->; discriminate). set (ss := rsum _) in El.
      assert (HG : exists rr, Forall2 (fun h rows => considered E c t meas hs h (tracks tab h) rows /\ (forall i, In i (h_ts h) -> (i < length tab)%nat) /\ Forall (valid_row (length (h_ts h)) (length meas)) rows) hs rr /\
         map (fun x => (exp (h_p x), h_ts x)) (concat ll) = map (fun hr => (const c (length meas) * (h_p (fst hr) * assoc_weight E c t meas (tracks tab (fst hr)) (snd hr)), shifted (length tab) (h_ts (fst hr)) (snd hr)))
          (flat_map (fun hr => map (pair (fst hr)) (snd hr)) (combine hs rr))).
      { pose (Q := fun h rows => considered E c t meas hs h (tracks tab h) rows /\ (forall i, In i (h_ts h) -> (i < length tab)%nat) /\ Forall (valid_row (length (h_ts h)) (length meas)) rows).
        assert (Hst : forall h l, cor_hyp E c (length meas) (length tab) (snd (gen_cor_tab E c t meas tab)) ss h = Ok l -> exists rows, Q h rows /\
          map (fun x => (exp (h_p x), h_ts x)) l = map (fun row => (const c (length meas) * (h_p h * assoc_weight E c t meas (tracks tab h) row), shifted (length tab) (h_ts h) row)) rows).
        { intros h l Hh. destruct (cor_hyp_form c t meas tab hs h l Hm Hmc Hc Hne Hf Hl Hh) as [rows [A [B [C D]]]]. exists rows. unfold Q. auto. }
        fold Q. clearbody Q. clearbody ss.
        clear -El Hst. revert El. generalize hs. intros l El. induction El as [|h x l ll Hh _ IH]; [exists []; split; [constructor|reflexivity]|].
        destruct IH as [rr [I1 I2]]. destruct (Hst h x Hh) as [rows [R1 R2]]. exists (rows :: rr). split; [constructor; assumption|].
        cbn [concat combine flat_map fst snd]. rewrite !map_app, I2, R2, map_map. reflexivity. }
      destruct HG as [rr [G1 G2]]. exists (concat ll), rr. auto. }
  destruct HX as [raw [rr [HN [HF HE]]]]. destruct (normalise_scale _ _ HN) as [K [HK ->]]. exists (K * const c (length meas)), rr.
  assert (0 < const c (length meas)).
  { unfold const. apply Rmult_lt_0_compat; [apply exp_pos|]. apply pow_lt, Rmult_lt_0_compat; apply Hc. }
  split; [apply Rmult_lt_0_compat; assumption|]. split; [exact HF|]. rewrite map_map. cbn [h_p h_ts].
  transitivity (map (fun x : R * list nat => (K * fst x, snd x)) (map (fun x => (exp (h_p x), h_ts x)) raw)); [rewrite map_map; reflexivity|].
  rewrite HE, map_map. apply map_ext. intros hr. cbn [fst snd]. f_equal. ring.
Qed.

Lemma correct_form c t meas s s' : murty_ok (v_murty E) -> murty_cost (v_murty E) -> cfg_ok c ->
  (forall z f x, In z meas -> v_corr E t z f x <> None) -> (forall e z, In e (g_tab s) -> In z meas -> 0 < track_lik E t z e) ->
  correct E c t meas s = Ok s' ->
  exists K rr, 0 < K /\ Forall2 (fun h rows => considered E c t meas (g_hyps s) h (tracks (g_tab s) h) rows /\ Forall (valid_row (length (h_ts h)) (length meas)) rows) (g_hyps s) rr /\
    Forall2 (fun hr h' => h_p h' = K * (h_p (fst hr) * assoc_weight E c t meas (tracks (g_tab s) (fst hr)) (snd hr)) /\
                          Forall2 (fun ea e' => successor E c t meas (fst ea) (snd ea) e') (combine (tracks (g_tab s) (fst hr)) (snd hr)) (tracks (g_tab s') h'))
      (flat_map (fun hr => map (pair (fst hr)) (snd hr)) (combine (g_hyps s) rr)) (g_hyps s').
Proof.
  intros Hm Hmc Hc Hf Hl H. destruct (correct_inv _ _ _ _ _ _ H) as [hs [Eg [Et [Eh _]]]].
  destruct (gen_cor_hyps_form c t meas (g_tab s) (g_hyps s) hs Hm Hmc Hc Hf Hl Eg) as [K [rr [HK [HF HE]]]]. exists K, rr. split; [exact HK|].
  split; [eapply F2_impl; [|exact HF]; intros h rows _ [A [_ B]]; split; assumption|].
  set (tab := fst (gen_cor_tab E c t meas (g_tab s))) in *. set (nnz := nnz_inds tab hs) in *.
  set (combos := flat_map _ _) in HE |- *.
  assert (Hcomb : forall h row, In (h, row) combos -> (forall i, In i (h_ts h) -> (i < length (g_tab s))%nat) /\ valid_row (length (h_ts h)) (length meas) row).
  { intros h row Hin. unfold combos in Hin. apply in_flat_map in Hin as [[h0 rows] [Hin Hr]]. apply in_map_iff in Hr as [row0 [Er Hr]]. inversion Er; subst. cbn [fst snd] in *.
    assert (HP : considered E c t meas (g_hyps s) h (tracks (g_tab s) h) rows /\ (forall i, In i (h_ts h) -> (i < length (g_tab s))%nat) /\ Forall (valid_row (length (h_ts h)) (length meas)) rows).
    { revert Hin. generalize HF. generalize (g_hyps s) at 2 3 as l. clear. intros l HF. induction HF as [|h0 r0 l rr Hh _ IH]; intros Hin; [destruct Hin|]. destruct Hin as [Eq|Hin]; [inversion Eq; subst; exact Hh|exact (IH Hin)]. }
    destruct HP as [_ [A B]]. split; [exact A|]. rewrite Forall_forall in B. apply B, Hr. }
  assert (Hin : forall x, In x hs -> exists h row, In (h, row) combos /\ h_ts x = shifted (length (g_tab s)) (h_ts h) row).
  { intros x Hx. apply (in_map (fun x => (h_p x, h_ts x))) in Hx. rewrite HE in Hx. apply in_map_iff in Hx as [[h row] [Eq Hi]]. cbn [fst snd] in Eq. inversion Eq. exists h, row. auto. }
  (* every considered successor exists *)
  assert (Hupd : forall e a, (a <= length meas)%nat -> exists e', upd_entry E c t meas e a = Some e').
  { intros e [|j] Ha; [eexists; reflexivity|]. unfold upd_entry. destruct (nth_error meas j) as [z|] eqn:Ez; [|apply nth_error_None in Ez; lia].
    destruct (cor_entry_some c t z e) as [e' [cost Ec]]; [intros f x; apply Hf, (nth_error_In _ _ Ez)|]. rewrite Ec. eauto. }
  assert (Hsh : forall h row i, In (h, row) combos -> In i (shifted (length (g_tab s)) (h_ts h) row) -> exists e, nth_error tab i = Some (Some e)).
  { intros h row i Hc0 Hi. destruct (Hcomb h row Hc0) as [A [B1 [B2 _]]]. unfold shifted in Hi. apply in_map_iff in Hi as [[k a] [<- Hka]]. cbn [fst snd].
    specialize (A k (in_combine_l _ _ _ _ Hka)). specialize (B2 a (in_combine_r _ _ _ _ Hka)). destruct (nth_error (g_tab s) k) as [e|] eqn:Ee; [|apply nth_error_None in Ee; lia].
    destruct (Hupd e a B2) as [e' He']. exists e'. unfold tab. rewrite (cor_tab_nth E c t meas (g_tab s) k a e Ee B2), He'. reflexivity. }
  assert (Hre : Forall2 (fun x h' => h_p h' = h_p x /\ Forall2 (fun i k => exists e, nth_error tab i = Some (Some e) /\ nth_error (g_tab s') k = Some e) (h_ts x) (h_ts h')) hs (g_hyps s')).
  { rewrite Eh, Et. assert (Hall : forall x, In x hs -> exists h', reindex nnz x = [h']).
    { intros x Hx. apply reindex_all; [exact Hx|]. intros i Hi. destruct (Hin x Hx) as [h [row [Hc0 Ex]]]. rewrite Ex in Hi. exact (Hsh h row i Hc0 Hi). }
    assert (Hview : forall x h', In x hs -> In h' (reindex nnz x) -> h_p h' = h_p x /\ Forall2 (fun i k => exists e, nth_error tab i = Some (Some e) /\ nth_error (pick tab nnz) k = Some e) (h_ts x) (h_ts h')).
    { intros x h' Hx Hh'. split; [apply (reindex_in _ _ _ Hh')|exact (reindex_view tab hs x h' Hx Hh')]. }
    assert (Hgo : forall l, (forall x, In x l -> In x hs) -> Forall2 (fun x h' => h_p h' = h_p x /\ Forall2 (fun i k => exists e, nth_error tab i = Some (Some e) /\ nth_error (pick tab nnz) k = Some e) (h_ts x) (h_ts h')) l (flat_map (reindex nnz) l)).
    { induction l as [|x l IH]; intros Hs; [constructor|]. cbn [flat_map]. destruct (Hall x (Hs x (or_introl eq_refl))) as [h' Eh'].
      rewrite Eh'. cbn [app]. constructor; [apply Hview; [apply Hs; left; reflexivity|rewrite Eh'; left; reflexivity]|]. apply IH. intros y Hy. apply Hs. right. exact Hy. }
    exact (Hgo hs (fun _ H => H)). }
  assert (HEl : Forall2 (fun hr x => h_p x = K * (h_p (fst hr) * assoc_weight E c t meas (tracks (g_tab s) (fst hr)) (snd hr)) /\ h_ts x = shifted (length (g_tab s)) (h_ts (fst hr)) (snd hr)) combos hs).
  { clear -HE. revert hs HE. induction combos as [|hr l IH]; intros [|x hs] HE; try discriminate; constructor; cbn [map] in HE; inversion HE; auto. }
  clear -HEl Hre Hcomb Hupd.
  assert (Hgo : forall l hs0 hs', Forall2 (fun hr x => h_p x = K * (h_p (fst hr) * assoc_weight E c t meas (tracks (g_tab s) (fst hr)) (snd hr)) /\ h_ts x = shifted (length (g_tab s)) (h_ts (fst hr)) (snd hr)) l hs0 ->
     Forall2 (fun x h' => h_p h' = h_p x /\ Forall2 (fun i k => exists e, nth_error tab i = Some (Some e) /\ nth_error (g_tab s') k = Some e) (h_ts x) (h_ts h')) hs0 hs' -> (forall hr, In hr l -> In hr combos) ->
     Forall2 (fun hr h' => h_p h' = K * (h_p (fst hr) * assoc_weight E c t meas (tracks (g_tab s) (fst hr)) (snd hr)) /\
                          Forall2 (fun ea e' => successor E c t meas (fst ea) (snd ea) e') (combine (tracks (g_tab s) (fst hr)) (snd hr)) (tracks (g_tab s') h')) l hs').
  { intros l hs0 hs' F1. revert hs'. induction F1 as [|[h row] x l hs0 [P1 P2] _ IH]; intros hs' F2 Hsub; inversion F2 as [|x0 h' hs1 hs2 [Q1 Q2] F2' E1 E2]; subst; constructor.
    2:{ apply IH; [exact F2'|intros hr Hhr; apply Hsub; right; exact Hhr]. }
    cbn [fst snd] in *. split; [rewrite Q1; exact P1|]. destruct (Hcomb h row (Hsub _ (or_introl eq_refl))) as [A [B1 [B2 _]]]. rewrite P2 in Q2.
    unfold tracks. clear -Q2 A B1 B2 Hupd. unfold shifted in Q2. revert row B1 B2 Q2. generalize (h_ts h') as ks. revert A. induction (h_ts h) as [|i ts IH]; intros A ks [|a row] B1 B2 Q2; try discriminate; cbn [combine map] in Q2.
    - inversion Q2; subst. constructor.
    - inversion Q2 as [|y k ys ks' [e' [N1 N2]] Q2' E1 E2]; subst. cbn [flat_map]. rewrite N2. specialize (A i (or_introl eq_refl)) as Ai.
      destruct (nth_error (g_tab s) i) as [e|] eqn:Ee; [|apply nth_error_None in Ee; lia]. cbn [app combine]. constructor.
      + cbn [fst snd] in N1 |- *. unfold tab in N1. rewrite (cor_tab_nth E c t meas (g_tab s) i a e Ee (B2 a (or_introl eq_refl))) in N1. inversion N1 as [N1']. apply upd_successor. exact N1'.
      + apply IH; [intros j Hj; apply A; right; exact Hj|injection B1; auto|intros v Hv; apply B2; right; exact Hv|exact Q2']. }
  exact (Hgo combos hs (g_hyps s') HEl Hre (fun _ H => H)).
Qed.
End B.
