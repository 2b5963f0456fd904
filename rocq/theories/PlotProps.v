(** C212: the data drawn by CardinalizedPHD.plot_card_history. *)
From Verif Require Import Base CphdModel CphdSpec CphdProofs CphdProps CphdMass OspaModel OspaProofs PlotModel.
From Coq Require Import Reals Lra Lia.
Open Scope R_scope.

(** ** specification *)
(** The call is a correction. *)
Definition is_ccorrect {V M Meas} (o : cop V M Meas) : bool := match o with CCorrect _ => true | _ => false end.
(** Standard deviation of the number of objects under a cardinality distribution. *)
Definition card_sd (rho : list R) : R :=
  sqrt (rsum (map (fun n => (INR n - mean rho) ^ 2 * nth n rho 0) (seq 0 (length rho)))).

(** ** proofs *)
Lemma hrun_app {V M Meas} (c : ccfg V M Meas) a os1 os2 sh : hrun c a (os1 ++ os2) sh = do sh1 <- hrun c a os1 sh; hrun c a os2 sh1.
Proof.
  revert sh. induction os1 as [|o os1 IH]; intros sh; [reflexivity|]. cbn [app hrun]. destruct (hstep c a o sh); [|reflexivity]. cbn [bind]. apply IH.
Qed.
Lemma hstep_inv {V M Meas} (c : ccfg V M Meas) a o s h s1 h1 : hstep c a o (s, h) = Ok (s1, h1) ->
  cstep c a o s = Ok s1 /\
  (is_ccorrect o = false /\ h1 = h /\ cp_hist s1 = cp_hist s \/
   is_ccorrect o = true /\ exists m, argmaxR (cp_card s1) = Ok m /\ h1 = h ++ [(m, np_std (cp_card s1))] /\ cp_hist s1 = cp_hist s ++ [m]).
Proof.
  unfold hstep. cbn [fst snd]. intros H. apply bind_ok in H. destruct H as [s2 [E H]]. destruct o as [|ms| |x|f].
  - injection H as <- <-. split; [exact E|]. left. split; [reflexivity|]. split; [reflexivity|].
    cbn [cstep] in E. unfold cp_predict in E. apply bind_ok in E. destruct E as [r [_ E]]. injection E as <-. reflexivity.
  - apply bind_ok in H. destruct H as [e [He H]]. injection H as <- <-. split; [exact E|]. right. split; [reflexivity|].
    unfold card_entry in He. apply bind_ok in He. destruct He as [m [Hm He]]. injection He as <-. exists m. split; [exact Hm|]. split; [reflexivity|].
    cbn [cstep] in E. unfold cp_correct in E. apply bind_ok in E. destruct E as [z [_ E]]. apply bind_ok in E. destruct E as [[g r] [_ E]].
    apply bind_ok in E. destruct E as [k [Hk E]]. injection E as <-. cbn [cp_card] in Hm. cbn [cp_hist]. rewrite Hk in Hm. injection Hm as ->. reflexivity.
  - injection H as <- <-. split; [exact E|]. left. split; [reflexivity|]. split; [reflexivity|].
    cbn [cstep] in E. unfold cp_extract in E. apply bind_ok in E. destruct E as [r [_ E]].
    repeat match type of E with bind _ _ = _ => apply bind_ok in E; destruct E as [? [_ E]] end. injection E as <-. reflexivity.
  - injection H as <- <-. split; [exact E|]. left. split; [reflexivity|]. split; [reflexivity|]. cbn [cstep] in E. injection E as <-. reflexivity.
  - injection H as <- <-. split; [exact E|]. left. split; [reflexivity|]. split; [reflexivity|].
    cbn [cstep] in E. apply bind_ok in E. destruct E as [g [_ E]]. injection E as <-. reflexivity.
Qed.
Lemma hstep_total {V M Meas} (c : ccfg V M Meas) a o s h s1 : cstep c a o s = Ok s1 -> exists h1, hstep c a o (s, h) = Ok (s1, h1).
Proof.
  intros E. unfold hstep. cbn [fst snd]. rewrite E. cbn [bind]. destruct o as [|ms| |x|f]; eauto.
  cbn [cstep] in E. unfold cp_correct in E. apply bind_ok in E. destruct E as [z [_ E]]. apply bind_ok in E. destruct E as [[g r] [_ E]].
  apply bind_ok in E. destruct E as [k [Hk E]]. injection E as <-. cbn [cp_card]. unfold card_entry. rewrite Hk. cbn [bind]. eauto.
Qed.
Lemma hrun_inv {V M Meas} (c : ccfg V M Meas) a : forall os s0 h0 s h, hrun c a os (s0, h0) = Ok (s, h) ->
  crun c a os s0 = Ok s /\ exists h', h = h0 ++ h' /\ length h' = length (filter is_ccorrect os) /\ cp_hist s = cp_hist s0 ++ map fst h'.
Proof.
  induction os as [|o os IH]; intros s0 h0 s h H; cbn [hrun] in H.
  - injection H as <- <-. split; [reflexivity|]. exists []. rewrite !app_nil_r. repeat split.
  - apply bind_ok in H. destruct H as [[s1 h1] [E H]]. apply hstep_inv in E. destruct E as [E D]. apply IH in H. destruct H as [H [h' [-> [L C]]]].
    cbn [crun]. rewrite E. cbn [bind]. split; [exact H|]. cbn [filter]. destruct D as [[Eo [-> Eh]] | [Eo [m [_ [-> Eh]]]]]; rewrite Eo.
    + exists h'. rewrite C, Eh. repeat split. exact L.
    + exists ((m, np_std (cp_card s1)) :: h'). rewrite C, Eh, <- !app_assoc. cbn [app length map fst]. repeat split. f_equal. exact L.
Qed.
Lemma draw_ok xs ys : length xs = length ys -> draw xs ys = Ok (combine xs ys).
Proof. intros E. unfold draw. rewrite E, Nat.eqb_refl. reflexivity. Qed.

Lemma rsum_sq_zero (l : list R) m : rsum (map (fun x => (x - m) ^ 2) l) = 0 -> forall x, In x l -> x = m.
Proof.
  induction l as [|y l IH]; [intros _ x []|]. cbn [map]. rewrite rsum_cons. intros H x Hx.
  assert (0 <= (y - m) ^ 2) by apply pow2_ge_0.
  assert (0 <= rsum (map (fun x => (x - m) ^ 2) l)) by (apply rsum_nonneg; intros z Hz; apply in_map_iff in Hz; destruct Hz as [w [<- _]]; apply pow2_ge_0).
  destruct Hx as [<- |Hx]; [|apply IH; [lra|exact Hx]]. assert (E : (y - m) ^ 2 = 0) by lra. nra.
Qed.
Lemma np_var_nonneg l : 0 <= rsum (map (fun x => (x - np_mean l) ^ 2) l).
Proof. apply rsum_nonneg; intros z Hz; apply in_map_iff in Hz; destruct Hz as [w [<- _]]; apply pow2_ge_0. Qed.
Lemma sq_expand (l : list R) m : rsum (map (fun x => (x - m) ^ 2) l) = rsum (map (fun x => x ^ 2) l) - 2 * m * rsum l + INR (length l) * m ^ 2.
Proof.
  induction l as [|x l IH]; [cbn; lra|]. cbn [map length]. rewrite !rsum_cons, IH, S_INR. ring.
Qed.

(** ** theorems *)
(** The history kept by the filter: one entry per correction, made of a most
    probable number of objects and np.std of the stored distribution. *)
Theorem C212_history : forall {V M Meas} (c : ccfg V M Meas) argsort os s0 s, crun c argsort os s0 = Ok s ->
  exists h, hrun c argsort os (s0, []) = Ok (s, h) /\ length h = length (filter is_ccorrect os) /\ cp_hist s = cp_hist s0 ++ map fst h /\
  forall os1 ms os2, os = os1 ++ CCorrect ms :: os2 ->
    exists s1 m, crun c argsort (os1 ++ [CCorrect ms]) s0 = Ok s1 /\ is_mode (cp_card s1) m /\
      nth_error h (length (filter is_ccorrect os1)) = Some (m, np_std (cp_card s1)).
Proof.
  intros V M Meas c a os s0 s H.
  assert (T : forall os s0 h0, crun c a os s0 = Ok s -> exists h, hrun c a os (s0, h0) = Ok (s, h)).
  { clear. induction os as [|o os IH]; intros s0 h0 H; cbn [crun] in H; [injection H as <-; exists h0; reflexivity|].
    apply bind_ok in H. destruct H as [s1 [E H]]. destruct (hstep_total c a o s0 h0 s1 E) as [h1 E1]. cbn [hrun]. rewrite E1. cbn [bind]. apply IH, H. }
  destruct (T os s0 [] H) as [h Hh]. exists h. split; [exact Hh|]. destruct (hrun_inv c a os s0 [] s h Hh) as [_ [h' [E [L C]]]]. cbn [app] in E. subst h'.
  split; [exact L|]. split; [exact C|]. intros os1 ms os2 ->. rewrite hrun_app in Hh. apply bind_ok in Hh. destruct Hh as [[s1 h1] [E1 H2]].
  cbn [hrun] in H2. apply bind_ok in H2. destruct H2 as [[s2 h2] [E2 H2]]. pose proof E2 as E2'. apply hstep_inv in E2. destruct E2 as [E2 D].
  destruct D as [[F _] | [_ [m [Em [-> _]]]]]; [discriminate F|]. exists s2, m.
  destruct (hrun_inv c a os1 s0 [] s1 h1 E1) as [R1 [h1' [Eq [L1 _]]]]. cbn [app] in Eq. subst h1'.
  destruct (hrun_inv c a os2 s2 _ s h H2) as [_ [h' [-> _]]]. split; [|split; [apply argmaxR_spec, Em|]].
  - assert (E3 : hrun c a (os1 ++ [CCorrect ms]) (s0, []) = Ok (s2, h1 ++ [(m, np_std (cp_card s2))])).
    { rewrite hrun_app, E1. cbn [bind hrun]. rewrite E2'. reflexivity. }
    apply hrun_inv in E3. apply E3.
  - rewrite <- app_assoc, nth_error_app2 by lia. rewrite <- L1, Nat.sub_diag. reflexivity.
Qed.
Print Assumptions C212_history.

(** What is drawn. *)
Theorem C212_plotted_points_partial : forall hist sig time truth,
  let xs := match time with None => map INR (seq 0 (length hist)) | Some v => v end in
  (hist = [] -> plot_card_history hist sig time truth = Err RuntimeErr) /\
  (hist <> [] -> length xs <> length hist -> plot_card_history hist sig time truth = Err ValueErr) /\
  (hist <> [] -> length xs = length hist ->
   exists p, plot_card_history hist sig time truth = Ok p /\
     pl_card p = combine xs (map (fun x => INR (fst x)) hist) /\
     pl_band p = option_map (fun k => (combine xs (map (fun x => INR (fst x) + k * snd x) hist),
                                       combine xs (map (fun x => INR (fst x) - k * snd x) hist))) sig /\
     match truth with
     | None => pl_truth p = None /\ pl_warned p = false
     | Some v => (length v = length hist -> pl_truth p = Some (combine xs v) /\ pl_warned p = false) /\
                 (length v <> length hist -> pl_truth p = None /\ pl_warned p = true)
     end).
Proof.
  intros hist sig time truth xs. split; [intros ->; reflexivity|]. destruct hist as [|x0 hist]; [split; intros; contradiction|].
  unfold plot_card_history. rewrite map_length. fold xs. set (hs := x0 :: hist) in *. split; intros _ E.
  - assert (D : draw xs (map (fun x => INR (fst x)) hs) = Err ValueErr) by (unfold draw; rewrite map_length; apply Nat.eqb_neq in E; rewrite E; reflexivity).
    destruct truth as [v|].
    + destruct (length v =? length xs)%nat eqn:Ev; [apply Nat.eqb_eq in Ev; rewrite draw_ok by (symmetry; exact Ev); cbn [bind]|cbn [bind]]; rewrite D; reflexivity.
    + cbn [bind]. rewrite D. reflexivity.
  - assert (D : forall f : nat * R -> R, draw xs (map f hs) = Ok (combine xs (map f hs))) by (intros f; apply draw_ok; rewrite map_length; exact E).
    assert (B : match sig with None => Ok None | Some k => do u <- draw xs (map (fun x => INR (fst x) + k * snd x) hs);
                do d <- draw xs (map (fun x => INR (fst x) - k * snd x) hs); Ok (Some (u, d)) end =
              Ok (option_map (fun k => (combine xs (map (fun x => INR (fst x) + k * snd x) hs),
                                       combine xs (map (fun x => INR (fst x) - k * snd x) hs))) sig)).
    { destruct sig as [k|]; [|reflexivity]. rewrite !D. reflexivity. }
    rewrite D, B. destruct truth as [v|].
    + destruct (length v =? length xs)%nat eqn:Ev.
      * apply Nat.eqb_eq in Ev. rewrite draw_ok by (symmetry; exact Ev). cbn [bind fst snd]. eexists. split; [reflexivity|]. split; [reflexivity|]. split; [reflexivity|].
        cbn [pl_truth pl_warned]. split; [auto|]. intros N. exfalso. apply N. rewrite Ev. exact E.
      * apply Nat.eqb_neq in Ev. cbn [bind fst snd]. eexists. split; [reflexivity|]. split; [reflexivity|]. split; [reflexivity|].
        cbn [pl_truth pl_warned]. split; [|auto]. intros N. exfalso. apply Ev. rewrite E. exact N.
    + cbn [bind fst snd]. eexists. split; [reflexivity|]. repeat split.
Qed.
Print Assumptions C212_plotted_points_partial.

(** Width of the band: it vanishes exactly when all numbers of objects are equally
    probable, and is never wider than half an object per sigma. *)
Theorem C212_band_width : forall mx rho, distribution mx rho ->
  (np_std rho = 0 <-> forall x y, In x rho -> In y rho -> x = y) /\ 0 <= np_std rho <= 1 / 2.
Proof.
  intros mx rho [L [P T]].
  assert (N : 0 < INR (length rho)) by (rewrite L; apply lt_0_INR; lia).
  pose proof (np_var_nonneg rho) as V. split; [split|].
  - intros H x y Hx Hy. unfold np_std in H. apply sqrt_eq_0 in H.
    + unfold np_mean at 1 in H. rewrite map_length in H.
      assert (Z : rsum (map (fun x => (x - np_mean rho) ^ 2) rho) = 0).
      { apply Rmult_integral in H. destruct H as [H|H]; [exact H|]. exfalso. apply (Rinv_neq_0_compat (INR (length rho))); [lra|exact H]. }
      rewrite (rsum_sq_zero _ _ Z x Hx), (rsum_sq_zero _ _ Z y Hy). reflexivity.
    + unfold np_mean at 1. apply Rmult_le_pos; [exact V|]. rewrite map_length. left. apply Rinv_0_lt_compat, N.
  - intros H. unfold np_std. destruct rho as [|x0 r]; [discriminate L|].
    assert (E : rsum (x0 :: r) = INR (length (x0 :: r)) * x0).
    { rewrite <- (map_id (x0 :: r)) at 1. rewrite (rsum_ext (fun x => x) (fun _ => x0)); [apply rsum_const|]. intros x Hx. apply H; [exact Hx|left; reflexivity]. }
    assert (M : np_mean (x0 :: r) = x0) by (unfold np_mean; change rsum with OspaModel.rsum in *; rewrite E; field; lra).
    rewrite M. rewrite (map_ext_in _ (fun _ => 0)).
    + unfold np_mean. rewrite rsum_const. rewrite Rmult_0_r. unfold Rdiv. rewrite Rmult_0_l. apply sqrt_0.
    + intros x Hx. rewrite (H x x0 Hx (or_introl eq_refl)). ring.
  - split; [apply sqrt_pos|]. unfold np_std. replace (1 / 2) with (sqrt ((1 / 2) ^ 2)) by (rewrite sqrt_pow2; lra).
    apply sqrt_le_1_alt. unfold np_mean at 1. rewrite map_length, sq_expand.
    set (n := INR (length rho)) in *. assert (M : np_mean rho = / n) by (unfold np_mean; fold n; change rsum with OspaModel.rsum in *; rewrite T; field; lra).
    rewrite M. assert (Q : rsum (map (fun x => x ^ 2) rho) <= 1).
    { rewrite <- T. rewrite <- (map_id rho) at 2. apply rsum_le. intros x Hx.
      assert (x <= 1).
      { rewrite <- T. clear - P Hx. induction rho as [|y r IH]; [destruct Hx|]. rewrite rsum_cons.
        assert (0 <= rsum r) by (apply rsum_nonneg; intros z Hz; apply P; right; exact Hz).
        assert (0 <= y) by (apply P; left; reflexivity).
        destruct Hx as [<- |Hx]; [lra|]. specialize (IH (fun z Hz => P z (or_intror Hz)) Hx). lra. }
      specialize (P x Hx). nra. }
    change OspaModel.rsum with rsum in *. rewrite T. apply Rmult_le_reg_r with n; [exact N|]. unfold Rdiv at 1. rewrite Rmult_assoc, Rinv_l by lra.
    set (i := / n) in *. assert (I : n * i = 1) by (unfold i; apply Rinv_r; lra).
    assert (0 <= (n - 2) ^ 2) by apply pow2_ge_0.
    assert (0 < i) by (apply Rinv_0_lt_compat, N). nra.
Qed.
Print Assumptions C212_band_width.

(** The band is not a band of the cardinality: the filter knows that there is no
    object (probability one), the standard deviation of the number of objects is
    zero, and the band is half an object wide per sigma. *)
Theorem C212_sigma_bounds_refuted : exists s, 
  crun (ex_c (1/2) (1/2) 1 ex_birth) (fun ws => seq 0 (length ws)) [CPredict; CSetMax 1; CCorrect [5%nat]] (cphd_new 1) = Ok s /\
  cp_card s = [1; 0] /\ card_sd (cp_card s) = 0 /\
  hrun (ex_c (1/2) (1/2) 1 ex_birth) (fun ws => seq 0 (length ws)) [CPredict; CSetMax 1; CCorrect [5%nat]] (cphd_new 1, []) = Ok (s, [(0%nat, 1 / 2)]) /\
  forall k, exists p, plot_card_history [(0%nat, 1 / 2)] (Some k) None None = Ok p /\
    pl_card p = [(0, 0)] /\ pl_band p = Some ([(0, k / 2)], [(0, - (k / 2))]).
Proof.
  set (c := ex_c (1/2) (1/2) 1 ex_birth).
  destruct (C41_cphd_predict_total c (cphd_new 1) 1) as (s1 & E1 & M1 & D1);
    [cbn; lra|apply ex_birth_sum|lra|cbn; lia|apply init_card_dist|].
  assert (Em : cp_mix s1 = pred_mix c {| rm_w := []; rm_m := []; rm_p := [] |}).
  { unfold cp_predict in E1. apply bind_ok in E1. destruct E1 as [rho [_ E1]]. injection E1 as <-. reflexivity. }
  set (s2 := cp_set_max 1 s1).
  assert (A : raligned (cp_mix s2)) by (cbn [s2 cp_set_max cp_mix]; rewrite Em; split; reflexivity).
  assert (Nn : rnonneg (cp_mix s2)) by (cbn [s2 cp_set_max cp_mix]; rewrite Em; intros x [<-|[]]; lra).
  assert (W : 0 < rsum (rm_w (cp_mix s2))).
  { cbn [s2 cp_set_max cp_mix]. rewrite Em. cbn [pred_mix fold_left c ex_c k_birth ex_birth rm_app rm_w map app rsum fold_right cphd_new cp_mix]. lra. }
  destruct (C41_cphd_correct_total c s2 [5%nat]) as (s & E2 & D2 & _); [exact esf_ref_ok|cbn; lra..|reflexivity|intros; cbn; lra|exact A|exact Nn|exact W|apply init_card_dist|].
  assert (C : cp_card s = [1; 0]).
  { pose proof E2 as E. unfold cp_correct in E. cbn [k_gating c ex_c bind] in E. apply bind_ok in E. destruct E as [[g r] [E F]].
    rewrite (correct_density_val c) in E; [|exact esf_ref_ok|cbn; lra..|exact A| |exact Nn|exact W| |apply init_card_dist].
    - injection E as _ <-. apply bind_ok in F. destruct F as [h [_ F]]. injection F as <-.
      cbn [cp_card] in D2 |- *. cbn [s2 cp_set_max cp_max cp_card init_card repeat] in D2 |- *. cbn [seq map] in D2 |- *.
      match type of D2 with distribution _ [?x; ?y] => assert (Y : y = 0) by (unfold cphd_card; cbv zeta; match goal with |- ?u * ?x / ?d = 0 => change (u * 0 / d = 0) end; unfold Rdiv; rewrite Rmult_0_r, Rmult_0_l; reflexivity) end.
      destruct D2 as [_ [_ D2]]. rewrite Y in D2 |- *. f_equal. rewrite !rsum_cons in D2. cbn in D2. lra.
    - intros Z. rewrite Z in W. cbn in W. lra.
    - intros q x Hq Hx. unfold lik in Hq. apply in_map_iff in Hq. destruct Hq as [z [<- _]]. unfold qz_of, corr_all in Hx. rewrite map_map in Hx. apply in_map_iff in Hx. destruct Hx as [mp [<- _]]. cbn. lra. }
  assert (R : crun c (fun ws => seq 0 (length ws)) [CPredict; CSetMax 1; CCorrect [5%nat]] (cphd_new 1) = Ok s).
  { cbn [crun cstep]. rewrite E1. cbn [bind]. fold s2. rewrite E2. reflexivity. }
  assert (S1 : np_std [1; 0] = 1 / 2).
  { unfold np_std. replace (1 / 2) with (sqrt ((1 / 2) ^ 2)) by (rewrite sqrt_pow2; lra). f_equal. unfold np_mean. cbn. field. }
  exists s. split; [exact R|]. split; [exact C|]. split.
  { rewrite C. unfold card_sd, mean. cbn [length seq map nth]. rewrite !rsum_cons. cbn [rsum fold_right OspaModel.rsum]. change (INR 0) with 0. change (INR 1) with 1. match goal with |- sqrt ?x = 0 => replace x with 0 by (unfold rsum; cbn; ring) end. apply sqrt_0. }
  split.
  { cbn [hrun hstep fst snd cstep]. unfold hstep. cbn [fst snd cstep]. rewrite E1. cbn [bind fst snd]. fold s2. rewrite E2. cbn [bind]. rewrite C. unfold card_entry.
    assert (Am : argmaxR [1; 0] = Ok 0%nat) by (cbn; destruct (Rlt_dec 1 0); [lra|reflexivity]). rewrite Am. cbn [bind app]. rewrite S1. reflexivity. }
  intros k. unfold plot_card_history. cbn. eexists. split; [reflexivity|]. cbn [pl_card pl_band]. split; [reflexivity|].
  do 2 f_equal; f_equal; f_equal; field.
Qed.
Print Assumptions C212_sigma_bounds_refuted.

(** Instances of the hypotheses. *)
Example C212_ex : distribution 1 [1; 0] /\ exists p, plot_card_history [(0%nat, 1 / 2); (1%nat, 1 / 4)] (Some 3) None (Some [0; 1]) = Ok p /\ pl_warned p = false.
Proof. split; [apply (init_card_dist 1)|]. eexists. split; reflexivity. Qed.
