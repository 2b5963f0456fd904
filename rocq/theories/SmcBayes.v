(** The SMC-GLMB filter: clouds, and the probabilities after predict and correct. *)
From Verif Require Import Base Lists.
From Coq Require Import Reals Permutation Lra.
From Verif Require Import OspaModel CphdModel OspaProofs CphdSpec CphdProofs GlmbModel GlmbSpec GlmbProofs GlmbInv GlmbTotal GlmbProps GlmbBayes SmcModel SmcSpec SmcProofs.
Open Scope R_scope.

Lemma feps_pos' : 0 < feps.
Proof. unfold feps. apply Rinv_0_lt_compat, pow_lt. lra. Qed.
Lemma lnp_inv x l : lnp x = Ok l -> 0 < x /\ l = ln x.
Proof. unfold lnp. destruct (Rlt_dec 0 x); intros H; inversion H; auto. Qed.
Lemma normalise_list l w : mapM (fun x => rdiv x (rsum l)) l = Ok w -> w = map (fun x => x / rsum l) l /\ (l <> [] -> rsum l <> 0).
Proof.
  intros H. apply mapM_ok in H. set (k := rsum l) in *. clearbody k. split.
  - induction H as [|x y l w Hxy _ IH]; [reflexivity|]. apply rdiv_ok in Hxy as [_ ->]. cbn [map]. rewrite IH. reflexivity.
  - destruct H as [|x y l w Hxy _]; [congruence|]. apply rdiv_ok in Hxy as [? _]. auto.
Qed.
Lemma rsum_one l : rsum l <> 0 -> rsum (map (fun x => x / rsum l) l) = 1.
Proof. intros H. set (k := rsum l) in *. rewrite (rsum_div (fun x => x)), map_id. fold k. field. exact H. Qed.

(** ** independent choices *)
Lemma choice_exp ps B d : (forall p, In p ps -> 0 < p < 1) -> NoDup B -> (forall i, In i B -> (i < length ps)%nat) ->
  exp (rsum (map (fun p => ln (1 - p)) ps) - (rsum (map (fun i => nth i (map log_odds ps) 0) B) + d)) = exp (- d) * choice_weight ps B.
Proof.
  intros Hp HB Hn. set (n := length ps) in *. set (p := fun i => nth i ps 0).
  assert (Hpi : forall i, (i < n)%nat -> 0 < p i < 1) by (intros i Hi; apply Hp, nth_In; exact Hi).
  assert (H1 : rsum (map (fun p => ln (1 - p)) ps) = rsum (map (fun i => ln (1 - p i)) (seq 0 n))).
  { f_equal. unfold p. rewrite <- (map_map (fun i => nth i ps 0) (fun q => ln (1 - q))). f_equal. symmetry. apply map_nth_seq. }
  assert (H2 : rsum (map (fun i => nth i (map log_odds ps) 0) B) = rsum (map (fun i => - ln (p i / (1 - p i))) B)).
  { apply rsum_ext. intros i Hi. specialize (Hn i Hi). rewrite (nth_indep _ 0 (log_odds 0)) by (rewrite map_length; exact Hn). rewrite (map_nth log_odds). reflexivity. }
  rewrite H1, H2, (rsum_subset _ B n HB Hn).
  replace (rsum (map (fun i => ln (1 - p i)) (seq 0 n)) - (rsum (map (fun i => if existsb (Nat.eqb i) B then - ln (p i / (1 - p i)) else 0) (seq 0 n)) + d))
    with (- d + rsum (map (fun i => ln (1 - p i) + - (if existsb (Nat.eqb i) B then - ln (p i / (1 - p i)) else 0)) (seq 0 n))).
  2:{ rewrite (rsum_plus (fun i => ln (1 - p i)) (fun i => - (if existsb (Nat.eqb i) B then - ln (p i / (1 - p i)) else 0))).
      rewrite (rsum_ext (fun i => - (if existsb (Nat.eqb i) B then - ln (p i / (1 - p i)) else 0)) (fun i => -1 * (if existsb (Nat.eqb i) B then - ln (p i / (1 - p i)) else 0)));
        [rewrite rsum_scale; ring|intros; ring]. }
  rewrite exp_plus. f_equal. rewrite exp_rsum. unfold choice_weight. fold n. apply rprod_ext. intros i Hi. apply in_seq in Hi. fold (p i). specialize (Hpi i ltac:(lia)).
  cbv zeta. destruct (existsb (Nat.eqb i) B).
  - rewrite Ropp_involutive, <- ln_mult by (try apply Rdiv_lt_0_compat; lra). rewrite exp_ln; [field; lra|]. apply Rmult_lt_0_compat; [lra|apply Rdiv_lt_0_compat; lra].
  - rewrite Ropp_0, Rplus_0_r, exp_ln by lra. reflexivity.
Qed.

Section B.
Context {P X ST CV MS : Type}.
Variable Z : senv P X ST CV MS.
Notation pfs := (pfs P X).
Notation E := (z_g Z).
Notation entry := (entry pfs ST CV).
Notation gcfg := (gcfg ST CV).
Notation glmb := (glmb pfs ST CV MS).
Notation sop := (sop P MS).
Notation birth := (pfs * ST * CV * R)%type.
Implicit Types (c : gcfg) (bs : list birth) (e : entry).

(** ** one cloud per track *)
Lemma last_snoc {A} (l : list A) x d : last (l ++ [x]) d = x.
Proof. apply last_last. Qed.
Lemma one_birth c t cnt i (b : birth) : one_cloud (sbirth_entry Z c t cnt i b).
Proof. destruct b as [[[p m] cv] pr]. split; [discriminate|]. split; [eexists; reflexivity|]. split; [eexists; reflexivity|]. intros w [<-|[]]. reflexivity. Qed.
(** predicted track *)
Lemma spred_spec psf c t e (e' : entry) (s : pfs) (x : ST) : e_fs e = [s] -> last (e_st e) [] = [x] -> spred_entry Z psf c t e = Ok e' -> exists s' x',
  e_label e' = e_label e /\ e_time e' = e_time e /\ e_assoc e' = e_assoc e /\ e_w e' = e_w e ++ [last (e_w e) []] /\ e_fs e' = [s'] /\ e_st e' = e_st e ++ [[x']] /\
  e_cov e' = e_cov e ++ [[if c_savecov c then Some (z_cov Z s') else None]] /\
  match p_parts s with
  | [] => s' = s /\ x' = x
  | _ => p_parts s' = p_parts (fst (z_pred Z t s)) /\ p_rest s' = p_rest (fst (z_pred Z t s)) /\ x' = snd (z_pred Z t s) /\
         let u := map (fun wp => fst wp * snd wp) (combine (p_w (fst (z_pred Z t s))) (psf (p_parts (fst (z_pred Z t s))))) in
         length (p_w (fst (z_pred Z t s))) = length (psf (p_parts (fst (z_pred Z t s)))) /\ p_w s' = map (fun w => w / rsum u) u /\ (u <> [] -> rsum u <> 0)
  end.
Proof.
  intros Es Ex H. unfold spred_entry in H. rewrite Es, Ex in H. cbn [combine mapM fst snd] in H. apply bind_ok in H as [rs [H1 H]]. injection H as <-.
  apply bind_ok in H1 as [[[s' x'] cv] [H2 H1]]. injection H1 as <-. exists s', x'. cbn [e_label e_time e_assoc e_w e_fs e_st e_cov map fst snd].
  unfold sinner_pred in H2. destruct (p_parts s) as [|p0 ps0] eqn:Ep.
  - injection H2 as <- <- <-. repeat split.
  - destruct (z_pred Z t s) as [s1 x1] eqn:Ez. cbn [fst snd]. destruct (negb _) eqn:El; [discriminate|]. apply negb_false_iff, Nat.eqb_eq in El. apply bind_ok in H2 as [w [Hw H2]].
    injection H2 as <- <- <-. cbn [p_parts p_rest p_w with_w]. apply normalise_list in Hw as [-> Hne]. repeat split; [exact El|exact Hne].
Qed.
Lemma one_pred psf c t e (e' : entry) : one_cloud e -> spred_entry Z psf c t e = Ok e' -> one_cloud e'.
Proof.
  intros [Hn [[s Es] [[x Ex] Hw]]] H. destruct (spred_spec psf c t e e' s x Es Ex H) as [s' [x' [_ [_ [_ [Ew [Ef [Est _]]]]]]]].
  assert (Hl : last (e_w e) [] = [1]) by (apply Hw; rewrite (app_removelast_last [] Hn); rewrite last_last; apply in_or_app; right; left; reflexivity).
  split; [rewrite Ew; destruct (e_w e); discriminate|]. split; [eauto|]. split; [exists x'; rewrite Est; apply last_last|].
  intros w Hi. rewrite Ew in Hi. apply in_app_or in Hi as [Hi|[<-|[]]]; [apply Hw, Hi|exact Hl].
Qed.
(** corrected track *)
Lemma scor_spec pdf c t z e (s : pfs) (x : ST) o : e_fs e = [s] -> last (e_st e) [] = [x] -> last (e_w e) [] = [1] -> scor_entry Z pdf c t z e = Ok o ->
  match o with
  | None => p_parts s <> [] /\ z_corr Z t z s = None
  | Some (e', cost) => cost = cloud_lik Z pdf t z e /\ cost <> 0 /\ e_label e' = e_label e /\ e_time e' = e_time e /\ e_assoc e' = e_assoc e /\ e_w e' = removelast (e_w e) ++ [[1]] /\ exists s' x',
      e_fs e' = [s'] /\ e_st e' = removelast (e_st e) ++ [[x']] /\ e_cov e' = removelast (e_cov e) ++ [[if c_savecov c then Some (z_cov Z s') else None]] /\
      match p_parts s with
      | [] => s' = s /\ x' = x
      | _ => exists s1 likely, z_corr Z t z s = Some (s1, x', likely) /\ p_parts s' = p_parts s1 /\ p_rest s' = p_rest s1 /\
          let u := map (fun pq => fst pq * snd pq + feps) (combine (pdf (p_parts s1)) (p_w s1)) in
          p_w s' = map (fun w => w / rsum u) u /\ length (pdf (p_parts s1)) = length (p_w s1) /\ length likely = length u /\ (u <> [] -> rsum u <> 0)
      end
  end.
Proof.
  intros Es Ex Ew H. unfold scor_entry in H. rewrite Es, Ex, Ew in H. cbn [combine map fst scor_loop] in H.
  apply bind_ok in H as [r [H1 H]]. apply bind_ok in H1 as [y [Hy H1]].
  assert (HS : match y with None => o = None | Some y => exists e' cost w, o = Some (e', cost) /\ cost = snd y + feps /\ cost <> 0 /\ w = 1 /\
     e' = {| e_label := e_label e; e_w := set_last (e_w e) [w]; e_fs := [fst (fst (fst y))]; e_assoc := e_assoc e; e_st := set_last (e_st e) [snd (fst (fst y))];
             e_cov := set_last (e_cov e) [if c_savecov c then Some (snd (fst y)) else None]; e_time := e_time e |} end).
  { destruct y as [y|].
    - cbn [bind option_map] in H1. injection H1 as <-. cbn [map] in H. cbn zeta in H. rewrite rsum_cons in H. change (rsum []) with 0 in H. rewrite Rplus_0_r in H.
      cbn [mapM] in H. apply bind_ok in H as [w1 [Hw H]]. apply bind_ok in Hw as [w2 [Hd Hw]]. cbn [bind] in Hw. injection Hw as <-. apply rdiv_ok in Hd as [Hd ->]. injection H as <-.
      eexists _, _, _. split; [reflexivity|]. split; [reflexivity|]. split; [exact Hd|]. split; [|reflexivity]. field. exact Hd.
    - injection H1 as <-. injection H as <-. reflexivity. }
  clear H1 H. unfold sinner_corr in Hy. unfold cloud_lik. rewrite Es. destruct (p_parts s) as [|p0 ps0] eqn:Ep.
  - injection Hy as <-. destruct HS as [e' [cost [w [-> [Hc [Hc0 [-> ->]]]]]]]. cbn [fst snd] in Hc. split; [rewrite Hc; ring|]. split; [exact Hc0|]. cbn [e_label e_time e_assoc e_w].
    do 4 (split; [reflexivity|]). exists s, x. repeat split.
  - destruct (z_corr Z t z s) as [[[s1 x1] likely]|] eqn:Ez; [|injection Hy as <-; subst o; split; [discriminate|reflexivity]].
    destruct (negb _) eqn:El; [discriminate|]. apply negb_false_iff, Nat.eqb_eq in El. apply bind_ok in Hy as [w0 [Hw0 Hy]]. apply bind_ok in Hy as [nw [Hnw Hy]]. injection Hy as <-.
    destruct HS as [e' [cost [w [-> [Hc [Hc0 [-> ->]]]]]]]. cbn [fst snd] in Hc. apply normalise_list in Hw0 as [-> Hne].
    unfold wsum in Hnw. destruct (length likely =? _)%nat eqn:El2; [|discriminate]. injection Hnw as <-. apply Nat.eqb_eq in El2.
    split; [exact Hc|]. split; [exact Hc0|]. cbn [e_label e_time e_assoc e_w]. do 4 (split; [reflexivity|]). eexists _, _. split; [reflexivity|]. split; [reflexivity|]. split; [reflexivity|].
    exists s1, likely. cbn [p_parts p_rest p_w with_w]. repeat split; [exact El|exact El2|exact Hne].
Qed.
Lemma one_last e : one_cloud e -> last (e_w e) [] = [1].
Proof. intros [Hn [_ [_ Hw]]]. apply Hw. rewrite (app_removelast_last [] Hn), last_last. apply in_or_app. right. left. reflexivity. Qed.
Lemma removelast_in {A} (l : list A) x : In x (removelast l) -> In x l.
Proof. intros H. destruct l as [|y l]; [destruct H|]. assert (Hn : y :: l <> []) by discriminate. rewrite (app_removelast_last y Hn). apply in_or_app. left. exact H. Qed.
Lemma supd_successor pdf c t meas e a e' : one_cloud e -> supd Z pdf c t meas e a e' -> ssuccessor Z pdf c t meas e a e'.
Proof.
  intros HO H. pose proof (one_last e HO) as Hl. destruct HO as [Hn [[s Es] [[x Ex] Hw]]]. destruct a as [|j]; cbn [supd] in H.
  - subst e'. unfold ssuccessor. cbn. auto 10.
  - destruct H as [z [e1 [w [Hz [Hc ->]]]]]. pose proof (scor_spec pdf c t z e s x _ Es Ex Hl Hc) as [_ [_ [A [B [C [D [s' [x' [F [G [I J]]]]]]]]]]].
    unfold ssuccessor. cbn [add_assoc e_label e_time e_assoc e_w e_fs e_st e_cov]. split; [exact A|]. split; [exact B|]. split; [rewrite C; reflexivity|]. split; [exact D|].
    exists z, s, x, s', x'. split; [exact Hz|]. split; [exact Es|]. split; [exact Ex|]. split; [exact F|]. split; [exact G|]. split; [exact I|].
    destruct (p_parts s); [exact J|]. destruct J as [s1 [likely [J1 [J2 [J3 [J4 _]]]]]]. exists s1, likely. auto.
Qed.
Lemma one_upd pdf c t meas e a e' : one_cloud e -> supd Z pdf c t meas e a e' -> one_cloud e'.
Proof.
  intros HO H. pose proof (supd_successor _ _ _ _ _ _ _ HO H) as HS. destruct HO as [Hn [[s Es] [[x Ex] Hw]]]. destruct a as [|j].
  - cbn in H. subst e'. split; [exact Hn|]. split; [exists s; exact Es|]. split; [exists x; exact Ex|exact Hw].
  - destruct HS as [_ [_ [_ [Ew [z [s0 [x0 [s' [x' [_ [_ [_ [Ef [Est _]]]]]]]]]]]]]]. split; [rewrite Ew; destruct (removelast (e_w e)); discriminate|].
    split; [eauto|]. split; [exists x'; rewrite Est; apply last_last|]. intros w Hi. rewrite Ew in Hi. apply in_app_or in Hi as [Hi|[<-|[]]]; [apply Hw, removelast_in, Hi|reflexivity].
Qed.
Definition OInv (s : glmb) : Prop := forall e, In e (g_tab s) -> one_cloud e.
Lemma oinv_exec c bs o s s' : sexec Z c bs o s = Ok s' -> OInv s -> OInv s'.
Proof.
  intros H HI e' He'. destruct o as [psf t|pdf t meas|pr ca ex|u k]; cbn [sexec] in H.
  - destruct (spredict_tab_in _ _ _ _ _ _ _ _ H He') as [[i [b [_ ->]]]|[e [He Hs]]]; [apply one_birth|exact (one_pred _ _ _ _ _ (HI e He) Hs)].
  - destruct (scorrect_tab_in _ _ _ _ _ _ _ _ H He') as [e [a [He Hu]]]. exact (one_upd _ _ _ _ _ _ _ (HI e He) Hu).
  - destruct (cleanup_inv _ _ _ _ _ _ _ H) as [A _]. rewrite A in He'. exact (HI e' He').
  - apply bind_ok in H as [[o s1] [H1 H]]. injection H as <-. destruct (extract_tab _ _ _ _ _ _ H1) as [A _]. rewrite A in He'. exact (HI e' He').
Qed.
Lemma oinv_run c bs os : forall s s', srun Z c bs os s = Ok s' -> OInv s -> OInv s'.
Proof.
  induction os as [|o os IH]; intros s s' H HI; cbn [srun] in H; [injection H as <-; exact HI|].
  apply bind_ok in H as [s1 [H1 H]]. exact (IH s1 s' H (oinv_exec _ _ _ _ _ H1 HI)).
Qed.

(** ** averages *)
Lemma avg_spec f (e : entry) a : avg_prob f e = Ok a -> a = cloud_avg f e.
Proof. unfold avg_prob, cloud_avg. destruct (e_fs e) as [|s l]; [discriminate|]. unfold wsum. destruct (_ =? _)%nat; [|discriminate]. intros H. injection H as <-. reflexivity. Qed.
Lemma avgs_spec f (tab : list entry) av : mapM (avg_prob f) tab = Ok av -> av = map (cloud_avg f) tab.
Proof. intros H. apply mapM_ok in H. induction H as [|e a tab av Ha _ IH]; [reflexivity|]. cbn [map]. rewrite (avg_spec _ _ _ Ha), IH. reflexivity. Qed.
Lemma avg_tracks f (tab : list entry) ts ps : mapM (geti (map (cloud_avg f) tab)) ts = Ok ps ->
  (forall i, In i ts -> (i < length tab)%nat) /\ ps = map (cloud_avg f) (flat_map (fun i => match nth_error tab i with Some e => [e] | None => [] end) ts).
Proof.
  intros H. apply mapM_ok in H. induction H as [|i p ts ps Hi _ [I1 I2]]; [split; [intros i []|reflexivity]|].
  apply geti_ok in Hi. rewrite nth_error_map in Hi. destruct (nth_error tab i) as [e|] eqn:Ee; [|discriminate]. injection Hi as <-. split.
  - intros j [<-|Hj]; [apply nth_error_Some; congruence|exact (I1 j Hj)].
  - cbn [flat_map]. rewrite Ee. cbn [app map]. rewrite <- I2. reflexivity.
Qed.

(** ** prediction *)
Lemma birth_costs bs lc : mapM (fun b : birth => birth_cost (bprob b)) bs = Ok lc -> lc = map (fun b => log_odds (bprob b)) bs.
Proof.
  intros H. apply mapM_ok in H. induction H as [|b x bs lc Hb _ IH]; [reflexivity|]. cbn [map]. unfold birth_cost in Hb. destruct (Req_EM_T _ 1); [discriminate|].
  apply bind_ok in Hb as [l [Hl Hb]]. apply lnp_inv in Hl as [_ ->]. injection Hb as <-. rewrite IH. reflexivity.
Qed.
Lemma sbirth_form c bs lc paths costs bh d : kshort_ok (v_kshort E) -> kshort_cost d (v_kshort E) -> (forall b, In b bs -> 0 < bprob b < 1) ->
  lc = map (fun b : birth => log_odds (bprob b)) bs -> v_kshort E lc (c_reqb c) = Ok (paths, costs) -> sbirth_hyps Z bs paths costs = Ok bh ->
  paths = sbirth_choices Z c bs /\ exists K, 0 < K /\ bh = map (fun B => {| h_p := K * choice_weight (map bprob bs) B; h_ts := B |}) paths.
Proof.
  intros Hk Hd Hp Hcs Ek H. split; [unfold sbirth_choices; rewrite <- Hcs, Ek; reflexivity|].
  unfold sbirth_hyps in H. apply bind_ok in H as [ls [El H]]. apply mapM_lnp in El. subst ls.
  destruct (normalise_scale _ _ _ H) as [K [HK ->]]. exists (K * exp (- d)). split; [apply Rmult_lt_0_compat; [exact HK|apply exp_pos]|].
  rewrite map_map. cbn [h_p h_ts]. specialize (Hd _ _ _ _ Ek). destruct (Hk _ _ _ _ Ek) as [_ Hb2].
  apply (combine_F2 (fun B x => {| h_p := K * exp (rsum (map (fun b : birth => ln (1 - bprob b)) bs) - x); h_ts := B |})).
  eapply F2_impl; [|exact Hd]. intros B x HB ->. destruct (Hb2 _ HB) as [N1 N2]. rewrite Hcs in N2. rewrite map_length in N2.
  f_equal. rewrite Hcs. rewrite <- (map_map (@bprob P X ST CV) log_odds). rewrite <- (map_map (@bprob P X ST CV) (fun p => ln (1 - p))).
  rewrite choice_exp; [ring| |exact N1|rewrite map_length; exact N2]. intros p Hin. apply in_map_iff in Hin as [b [<- Hb]]. apply Hp, Hb.
Qed.
Lemma ssurv_form c psf tab hs h l d : kshort_ok (v_kshort E) -> kshort_cost d (v_kshort E) -> (forall e, In e tab -> 0 < cloud_avg psf e < 1) ->
  ssurv_hyp Z c (map (cloud_avg psf) tab) (rsum (map (fun h => sqrt (h_p h)) hs)) h = Ok l ->
  map (fun x => (exp (h_p x), h_ts x)) l = map (fun S => (bias d h * (h_p h * choice_weight (map (cloud_avg psf) (tracks tab h)) S), spicks h S)) (ssurv_choices Z c psf tab hs h).
Proof.
  intros Hk Hd Hc H. unfold ssurv_hyp in H. unfold ssurv_choices, bias, spicks. destruct (h_ts h) as [|a ts] eqn:Et.
  - apply bind_ok in H as [lw [Hl H]]. injection H as <-. apply lnp_inv in Hl as [Hp ->]. cbn [map h_p h_ts].
    rewrite exp_ln by exact Hp. unfold tracks. rewrite Et. cbn [flat_map map]. unfold choice_weight. cbn [length seq map rprod fold_right]. rewrite !Rmult_1_r, Rmult_1_l. reflexivity.
  - apply bind_ok in H as [ps [Ep H]]. destruct (avg_tracks _ _ _ _ Ep) as [Hr Hps].
    assert (Htr : ps = map (cloud_avg psf) (tracks tab h)) by (unfold tracks; rewrite Et; exact Hps).
    assert (Lps : length ps = length (h_ts h)) by (rewrite (mapM_length _ _ _ Ep), Et; reflexivity).
    assert (H01 : forall p, In p ps -> 0 < p < 1).
    { intros p Hp. rewrite Htr in Hp. apply in_map_iff in Hp as [e [<- He]]. apply Hc. unfold tracks in He. apply in_flat_map in He as [i [_ He]].
      destruct (nth_error tab i) as [e1|] eqn:Ei; [|destruct He]. destruct He as [<-|[]]. exact (nth_error_In _ _ Ei). }
    apply bind_ok in H as [lc [Elc H]].
    assert (Hlc : lc = map log_odds ps).
    { apply mapM_ok in Elc. clear -Elc. induction Elc as [|p x ps lc Hx _ IH]; [reflexivity|]. cbn [map]. apply bind_ok in Hx as [r [Hr Hx]]. apply rdiv_ok in Hr as [_ ->].
      apply bind_ok in Hx as [y [Hy Hx]]. apply lnp_inv in Hy as [_ ->]. injection Hx as <-. rewrite IH. reflexivity. }
    cbn zeta in H. apply bind_ok in H as [[paths cs] [Ek H]]. change (Z.to_nat _) with (share_of (c_reqs c) hs h) in Ek.
    rewrite <- (map_map (cloud_avg psf) log_odds), <- Htr, <- Hlc, Ek.
    apply bind_ok in H as [ld [El H]]. apply mapM_lnp in El. subst ld. apply bind_ok in H as [lw [Hl H]]. apply lnp_inv in Hl as [Hp ->].
    specialize (Hd _ _ _ _ Ek). destruct (Hk _ _ _ _ Ek) as [_ Hb]. apply mapM_ok in H.
    assert (HF : Forall2 (fun (pc : list nat * R) x => (exp (h_p x), h_ts x) = (exp (- d) * (h_p h * choice_weight ps (fst pc)), map (fun j => nth j (a :: ts) 0%nat) (fst pc))) (combine paths cs) l).
    { eapply F2_impl; [|exact H]. intros [p x] y Hin Hy. cbn [fst snd] in *. apply bind_ok in Hy as [ts' [Ets Hy]]. injection Hy as <-. cbn [h_p h_ts].
      apply (mapM_geti _ 0%nat) in Ets. subst ts'. f_equal.
      pose proof (in_combine_l _ _ _ _ Hin) as Hp1. destruct (Hb _ Hp1) as [N1 N2]. rewrite Hlc, map_length in N2.
      assert (Hx : x = rsum (map (fun i => nth i (map log_odds ps) 0) p) + d).
      { rewrite Hlc in Hd. clear -Hd Hin. induction Hd as [|q z qs zs Hz _ IH]; [destruct Hin|]. destruct Hin as [Eq|Hin]; [inversion Eq; subst; exact eq_refl|exact (IH Hin)]. }
      pose proof (choice_exp ps p d H01 N1 N2) as Q. rewrite <- Hx in Q.
      replace (rsum (map (fun p0 : R => ln (1 - p0)) ps) + ln (h_p h) - x) with (ln (h_p h) + (rsum (map (fun p0 : R => ln (1 - p0)) ps) - x)) by ring.
      rewrite exp_plus, Q, exp_ln by exact Hp. ring. }
    transitivity (map (fun pc : list nat * R => (exp (- d) * (h_p h * choice_weight ps (fst pc)), map (fun j => nth j (a :: ts) 0%nat) (fst pc))) (combine paths cs)).
    + clear -HF. induction HF as [|x y l l' Hxy _ IH]; [reflexivity|]. cbn [map]. rewrite Hxy, IH. reflexivity.
    + assert (Hl : length paths = length cs) by exact (F2_len _ _ _ Hd). clear -Hl. revert cs Hl. induction paths as [|p paths IH]; intros [|x cs] Hl; try discriminate; [reflexivity|]. cbn [combine map fst]. rewrite IH by (injection Hl; auto). reflexivity.
Qed.
Lemma ssurv_hyps_form c psf tab hs sh d : kshort_ok (v_kshort E) -> kshort_cost d (v_kshort E) -> (forall e, In e tab -> 0 < cloud_avg psf e < 1) ->
  ssurv_hyps Z c (map (cloud_avg psf) tab) hs = Ok sh ->
  exists K, 0 < K /\ map (fun x => (h_p x, h_ts x)) sh =
    flat_map (fun h => map (fun S => (K * (bias d h * (h_p h * choice_weight (map (cloud_avg psf) (tracks tab h)) S)), spicks h S)) (ssurv_choices Z c psf tab hs h)) hs.
Proof.
  intros Hk Hd Hc H. unfold ssurv_hyps in H. cbv zeta in H. apply bind_ok in H as [ll [El H]]. destruct (normalise_scale _ _ _ H) as [K [HK ->]].
  exists K. split; [exact HK|]. rewrite map_map. cbn [h_p h_ts].
  transitivity (map (fun x : R * list nat => (K * fst x, snd x)) (map (fun x => (exp (h_p x), h_ts x)) (concat ll))); [rewrite map_map; reflexivity|].
  apply mapM_ok in El. clear H. set (ss := rsum _) in El.
  assert (HG : map (map (fun x => (exp (h_p x), h_ts x))) ll = map (fun h => map (fun S => (bias d h * (h_p h * choice_weight (map (cloud_avg psf) (tracks tab h)) S), spicks h S)) (ssurv_choices Z c psf tab hs h)) hs).
  { apply (F2_map (fun h l => ssurv_hyp Z c (map (cloud_avg psf) tab) ss h = Ok l)); [exact El|]. intros h l _ Hl. exact (ssurv_form c psf tab hs h l d Hk Hd Hc Hl). }
  rewrite concat_map. rewrite HG. rewrite concat_map, map_map, <- flat_map_concat_map. apply flat_map_ext. intros h. rewrite map_map. reflexivity.
Qed.
Lemma spredict_mass psf c bs t s s' d : kshort_ok (v_kshort E) -> kshort_cost d (v_kshort E) -> hash_ok (v_hash E) ->
  (forall b, In b bs -> 0 < bprob b < 1) -> (forall e, In e (g_tab s) -> 0 < cloud_avg psf e < 1) -> spredict Z psf c bs t s = Ok s' -> g_hyps s' <> [] ->
  exists K, 0 < K /\ forall f, (forall a b, Permutation a b -> f a = f b) ->
    mass (fun h => f (h_ts h)) (g_hyps s') = K * spredicted_total Z d c bs psf (g_tab s) (g_hyps s) f.
Proof.
  intros Hk Hd Hh Hb Ha H Hne. destruct (spredict_inv _ _ _ _ _ _ _ H) as [lc [paths [costs [bh [stab [av [sh [E1 [Ek [Ebh [_ [Eav [Es [_ [Eh _]]]]]]]]]]]]]]].
  apply birth_costs in E1. destruct (sbirth_form c bs lc paths costs bh d Hk Hd Hb E1 Ek Ebh) as [Hp [K1 [HK1 Hbh]]].
  pose proof (ssurv_hyps_pos _ _ _ _ _ Es) as Hps. apply avgs_spec in Eav. subst av.
  destruct (ssurv_hyps_form c psf _ _ sh d Hk Hd Ha Es) as [K2 [HK2 Hsh]].
  rewrite Eh in Hne |- *. apply clean_nil_inv in Hne. unfold set_pred_hyps in Hne. unfold set_pred_hyps.
  set (hs0 := flat_map _ bh) in *. set (tot := rsum (map h_p hs0)) in *.
  assert (Hpos : forall h, In h hs0 -> 0 < h_p h).
  { intros h Hin. unfold hs0 in Hin. apply in_flat_map in Hin as [b [Hb0 Hin]]. apply in_map_iff in Hin as [x [<- Hx]]. cbn [h_p].
    apply Rmult_lt_0_compat; [exact (sbirth_hyps_pos _ _ _ _ _ Ebh _ Hb0)|exact (Hps _ Hx)]. }
  assert (Htot : 0 < tot) by (apply rsum_allpos; [intros E0; rewrite E0 in Hne; exact (Hne eq_refl)|exact Hpos]).
  exists (K1 * K2 / tot). split; [apply Rdiv_lt_0_compat; [apply Rmult_lt_0_compat; assumption|exact Htot]|]. intros f Hf.
  rewrite (C51_merge_preserves_mass E f _ Hh Hf), mass_if, map_map. cbn [h_p h_ts].
  rewrite (rsum_ext _ (fun h => / tot * (if f (h_ts h) then h_p h else 0))) by (intros x _; destruct (f (h_ts x)); [field; lra|ring]).
  rewrite rsum_scale. unfold hs0. rewrite flat_map_concat_map, concat_map, map_map, rsum_concat, map_map.
  unfold spredicted_total. rewrite <- Hp. rewrite Hbh, map_map. cbn [h_p h_ts].
  set (W := fun h S => bias d h * (h_p h * choice_weight (map (cloud_avg psf) (tracks (g_tab s) h)) S)) in *.
  transitivity (/ tot * rsum (map (fun B => K1 * K2 * rsum (map (fun h => rsum (map (fun S =>
      if f (B ++ map (fun x => (x + length bs)%nat) (spicks h S)) then choice_weight (map bprob bs) B * W h S else 0)
    (ssurv_choices Z c psf (g_tab s) (g_hyps s) h))) (g_hyps s))) paths)); [|unfold W; rewrite rsum_scale; field; lra]. f_equal. apply rsum_ext. intros B HB.
  rewrite map_map. cbn [h_p h_ts].
  transitivity (rsum (map (fun x : R * list nat => if f (B ++ map (fun x => (x + length bs)%nat) (snd x)) then K1 * choice_weight (map bprob bs) B * fst x else 0) (map (fun x => (h_p x, h_ts x)) sh)));
    [rewrite map_map; reflexivity|].
  rewrite Hsh, flat_map_concat_map, concat_map, map_map, rsum_concat, map_map, <- rsum_scale. apply rsum_ext. intros h _. rewrite map_map. cbn [fst snd].
  rewrite <- rsum_scale. apply rsum_ext. intros S _. unfold W. destruct (f _); ring.
Qed.
End B.
