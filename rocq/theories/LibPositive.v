(** True parts of the refuted GLMB properties C89, C90 and C91, for the filter
    with the library's own k_shortest. *)
From Verif Require Import Base Lists.
From Coq Require Import Reals Permutation Lra Lia.
From Verif Require Import OspaModel CphdModel OspaProofs CphdSpec CphdProofs CphdProps GlmbModel GlmbSpec GlmbProofs GlmbInv GlmbExtract GlmbMost GlmbTotal GlmbBayes GlmbProps GlmbProps2 GlmbProps3 GlmbProps4 GlmbDemo LibAlgs LibProps LibTrans LibPredict.
Open Scope R_scope.

Section G.
Context {FS ST CV MS : Type}.
Variable E : genv FS ST CV MS.

Lemma add_hyp_keeps k h u : (exists x, In x (add_hyp k h u) /\ fst x = k) /\
  (forall x, In x u -> exists y, In y (add_hyp k h u) /\ fst y = fst x).
Proof.
  induction u as [|[k' h'] u [IH1 IH2]]; cbn [add_hyp].
  - split; [exists (k, h); split; [now left|reflexivity]|easy].
  - destruct (Z.eqb_spec k k') as [->|Hn].
    + split; [eexists; split; [now left|reflexivity]|]. intros x [<-|Hx]; [eexists; split; [now left|reflexivity]|]. exists x. split; [now right|reflexivity].
    + split.
      * destruct IH1 as [x [H1 H2]]. exists x. split; [now right|exact H2].
      * intros x [<-|Hx]; [eexists; split; [now left|reflexivity]|]. destruct (IH2 x Hx) as [y [H1 H2]]. exists y. split; [now right|exact H2].
Qed.
Lemma fold_add_keeps hs : forall u, (forall x, In x u -> exists y, In y (fold_add E hs u) /\ fst y = fst x) /\
  (forall h, In h hs -> exists y, In y (fold_add E hs u) /\ fst y = v_hash E (sort_nat (h_ts h))).
Proof.
  unfold fold_add. induction hs as [|h hs IH]; intro u; cbn [fold_left].
  - split; [|easy]. intros x Hx. now exists x.
  - set (u' := add_hyp (v_hash E (sort_nat (h_ts h))) h u). destruct (IH u') as [I1 I2]. destruct (add_hyp_keeps (v_hash E (sort_nat (h_ts h))) h u) as [K1 K2]. split.
    + intros x Hx. destruct (K2 x Hx) as [y [H1 H2]]. destruct (I1 y H1) as [z [H3 H4]]. exists z. split; [exact H3|]. congruence.
    + intros h0 [<-|Hh]; [|exact (I2 h0 Hh)]. destruct K1 as [x [H1 H2]]. destruct (I1 x H1) as [z [H3 H4]]. exists z. split; [exact H3|]. congruence.
Qed.
(** Merging keeps every track set. *)
Lemma clean_keeps hs h : hash_ok (v_hash E) -> In h hs -> exists h', In h' (clean_predictions E hs) /\ Permutation (h_ts h') (h_ts h).
Proof.
  intros Hk Hh. destruct (fold_add_keeps hs []) as [_ K]. destruct (K h Hh) as [[k y] [H1 H2]]. exists y. split.
  - unfold clean_predictions. fold (fold_add E hs []). apply in_map_iff. now exists (k, y).
  - destruct (fold_add_in _ _ _ _ H1) as [[z [[] _]]|[h2 [Hh2 [E1 E2]]]]. cbn [fst snd] in *.
    apply sort_eq_perm. apply Hk. rewrite E1. congruence.
Qed.
Lemma clean_nonempty hs : hs <> [] -> clean_predictions E hs <> [].
Proof.
  intros H. destruct hs as [|h hs]; [easy|]. destruct (fold_add_keeps (h :: hs) []) as [_ K]. destruct (K h (or_introl eq_refl)) as [y [H1 _]].
  unfold clean_predictions. fold (fold_add E (h :: hs) []). intro Z. destruct (fold_add E (h :: hs) []); [destruct H1|discriminate].
Qed.
Lemma in_combine_ex {A B} (l : list A) (l' : list B) x : length l = length l' -> In x l -> exists y, In (x, y) (combine l l').
Proof.
  revert l'. induction l as [|a l IH]; intros [|b l'] HL Hx; cbn [length] in HL; try discriminate; [destruct Hx|].
  destruct Hx as [<-|Hx]; [exists b; now left|]. destruct (IH l' ltac:(lia) Hx) as [y Hy]. exists y. now right.
Qed.
Lemma normalise_keeps hs r h : normalise_log E hs = Ok r -> In h hs -> exists h', In h' r /\ h_ts h' = h_ts h.
Proof.
  intros H Hh. pose proof (normalise_ts E _ _ H) as T. assert (Q : In (h_ts h) (map h_ts r)) by (rewrite T; now apply in_map).
  apply in_map_iff in Q as [h' [H1 H2]]. now exists h'.
Qed.
(** Every considered set of births with every considered set of survivors of
    every hypothesis is the track set of a predicted hypothesis. *)
Lemma predict_keeps c t s s' B h P : cfg_ok c -> kshort_ok (v_kshort E) -> predict E c t s = Ok s' ->
  In B (birth_choices E c) -> In h (g_hyps s) -> In P (surv_choices E c (g_hyps s) h) ->
  exists h0, In h0 (set_pred_hyps (length (c_births c)) (match gen_birth_hyps E c (birth_choices E c) (match v_kshort E (map (fun b => - ln (snd b / (1 - snd b))) (c_births c)) (c_reqb c) with Ok (_, cs) => cs | Err _ => [] end) with Ok bh => bh | Err _ => [] end) (match gen_surv_hyps E c (length (g_tab s)) (g_hyps s) with Ok sh => sh | Err _ => [] end)) /\
    h_ts h0 = B ++ map (fun x => (x + length (c_births c))%nat) (spicks h P) /\
    g_hyps s' = clean_predictions E (set_pred_hyps (length (c_births c)) (match gen_birth_hyps E c (birth_choices E c) (match v_kshort E (map (fun b => - ln (snd b / (1 - snd b))) (c_births c)) (c_reqb c) with Ok (_, cs) => cs | Err _ => [] end) with Ok bh => bh | Err _ => [] end) (match gen_surv_hyps E c (length (g_tab s)) (g_hyps s) with Ok sh => sh | Err _ => [] end)).
Proof.
  intros Hc Hk H HB Hh HP. destruct (predict_inv _ _ _ _ _ H) as [btab [lc [paths [costs [bh [sh [Eb [Ek [Ebh [Es [_ [Eh _]]]]]]]]]]]].
  unfold gen_birth_tab in Eb. apply bind_ok in Eb as [cs [Ec Eb]].
  assert (Lb : length btab = length (c_births c)) by (injection Eb as <- _; rewrite map_length, combine_length, seq_length; apply Nat.min_id).
  assert (Elc : lc = map (fun b => - ln (snd b / (1 - snd b))) (c_births c)).
  { injection Eb as _ <-. apply mapM_ok in Ec. assert (G : forall b, In b (c_births c) -> 0 < snd b < 1) by (intros [b p] Hb; exact (proj1 Hc b p Hb)).
    clear - Ec G. revert G. induction Ec as [|b x l l' Hx _ IH]; intros G; [reflexivity|]. cbn [map]. f_equal; [|apply IH; intros; apply G; now right].
    pose proof (G b (or_introl eq_refl)) as Gb. unfold birth_cost in Hx. destruct (Req_EM_T (snd b) 1); [lra|]. rewrite lnp_ok in Hx by (apply Rdiv_lt_0_compat; lra). cbn [bind] in Hx. now injection Hx as <-. }
  unfold birth_choices in *. rewrite <- Elc, Ek in *. rewrite Ebh, Es. rewrite Lb in Eh.
  assert (Hb : exists hb, In hb bh /\ h_ts hb = B).
  { unfold gen_birth_hyps in Ebh. apply bind_ok in Ebh as [ls [_ Ebh]]. cbn zeta in Ebh. destruct (Hk _ _ _ _ Ek) as [HL _].
    destruct (in_combine_ex paths costs B HL HB) as [y Hy].
    eapply normalise_keeps in Ebh; [|apply in_map; exact Hy]. exact Ebh. }
  assert (Hs : exists hs, In hs sh /\ h_ts hs = spicks h P).
  { unfold gen_surv_hyps in Es. set (ss := rsum _) in *. apply bind_ok in Es as [ll [El Es]].
    apply mapM_ok in El. apply In_nth_error in Hh as [n Hn]. destruct (F2_nth_l _ _ _ _ _ El Hn) as [r [Hr Hx]].
    assert (Q : exists h1, In h1 r /\ h_ts h1 = spicks h P).
    { unfold surv_hyp in Hx. unfold surv_choices in HP. destruct (h_ts h) as [|a ts] eqn:Et.
      - apply bind_ok in Hx as [lw [_ Hx]]. injection Hx as <-. destruct HP as [<-|[]]. eexists. split; [now left|]. reflexivity.
      - rewrite <- Et in *. assert (Hne : h_ts h <> []) by (rewrite Et; discriminate). clear Et a ts. destruct (negb _); [discriminate|].
        apply bind_ok in Hx as [ratio [Er Hx]]. apply rdiv_ok in Er as [_ ->]. apply bind_ok in Hx as [lr [Elr Hx]].
        assert (Hps : 0 < c_ps c < 1) by apply Hc. rewrite lnp_ok in Elr by (apply Rdiv_lt_0_compat; lra). injection Elr as <-.
        apply bind_ok in Hx as [[ps cst] [Eks Hx]]. unfold share_of in HP. fold ss in HP. rewrite Eks in HP. destruct (Hk _ _ _ _ Eks) as [HL HR].
        apply bind_ok in Hx as [ld [_ Hx]]. apply bind_ok in Hx as [lw [_ Hx]].
        destruct (in_combine_ex ps cst P HL HP) as [y Hy]. apply In_nth_error in Hy as [m Hm]. apply mapM_ok in Hx. destruct (F2_nth_l _ _ _ _ _ Hx Hm) as [h1 [H1 H2]].
        cbn [fst snd] in H2. apply bind_ok in H2 as [ts' [Ets H2]]. injection H2 as <-. eexists. split; [exact (nth_error_In _ _ H1)|]. cbn [h_ts]. unfold spicks.
        apply mapM_ok in Ets. clear - Ets. induction Ets as [|i v l l' Hv _ IH]; [reflexivity|]. cbn [map]. f_equal; [|exact IH].
        unfold geti in Hv. destruct (nth_error (h_ts h) i) eqn:En; [|discriminate]. injection Hv as <-. symmetry. now apply nth_error_nth. }
    destruct Q as [h1 [Q1 Q2]]. assert (Q3 : In h1 (concat ll)) by (apply in_concat; exists r; split; [exact (nth_error_In _ _ Hr)|exact Q1]).
    destruct (normalise_keeps _ _ _ Es Q3) as [h2 [Q4 Q5]]. exists h2. split; [exact Q4|]. congruence. }
  destruct Hb as [hb [Hb1 Hb2]]. destruct Hs as [hs [Hs1 Hs2]].
  set (h1 := {| h_p := h_p hb * h_p hs; h_ts := h_ts hb ++ map (fun x => (x + length (c_births c))%nat) (h_ts hs) |}).
  unfold set_pred_hyps at 1. set (hyps := flat_map _ _).
  assert (Hin : In h1 hyps). { apply in_flat_map. exists hb. split; [exact Hb1|]. apply in_map_iff. exists hs. split; [reflexivity|exact Hs1]. }
  exists {| h_p := h_p h1 / rsum (map h_p hyps); h_ts := h_ts h1 |}. split; [apply in_map_iff; exists h1; split; [reflexivity|exact Hin]|].
  split; [cbn [h_ts]; unfold h1; cbn [h_ts]; now rewrite Hb2, Hs2|]. exact Eh.
Qed.
Lemma predict_has c t s s' B h P : cfg_ok c -> kshort_ok (v_kshort E) -> hash_ok (v_hash E) -> predict E c t s = Ok s' ->
  In B (birth_choices E c) -> In h (g_hyps s) -> In P (surv_choices E c (g_hyps s) h) ->
  exists h', In h' (g_hyps s') /\ Permutation (h_ts h') (B ++ map (fun x => (x + length (c_births c))%nat) (spicks h P)).
Proof.
  intros Hc Hk Hh H HB Hin HP. destruct (predict_keeps c t s s' B h P Hc Hk H HB Hin HP) as [h0 [H1 [H2 H3]]]. rewrite H3.
  destruct (clean_keeps _ _ Hh H1) as [h' [H4 H5]]. exists h'. split; [exact H4|]. now rewrite <- H2.
Qed.
Lemma predict_nonempty c t s s' B h P : cfg_ok c -> kshort_ok (v_kshort E) -> predict E c t s = Ok s' ->
  In B (birth_choices E c) -> In h (g_hyps s) -> In P (surv_choices E c (g_hyps s) h) -> g_hyps s' <> [].
Proof.
  intros Hc Hk H HB Hin HP. destruct (predict_keeps c t s s' B h P Hc Hk H HB Hin HP) as [h0 [H1 [H2 H3]]]. rewrite H3.
  apply clean_nonempty. intro Z. now rewrite Z in H1.
Qed.
End G.

(** A cheapest set of indices contains every index of negative cost. *)
Lemma cheapest_has_negative lc p i : NoDup p -> (forall j, In j p -> (j < length lc)%nat) ->
  (forall q, NoDup q -> (forall j, In j q -> (j < length lc)%nat) -> rsum (map (fun j => nth j lc 0) p) <= rsum (map (fun j => nth j lc 0) q)) ->
  (i < length lc)%nat -> nth i lc 0 < 0 -> In i p.
Proof.
  intros Hn Hr Hm Hi Hlt. destruct (in_dec Nat.eq_dec i p) as [Hin|Hout]; [exact Hin|]. exfalso.
  specialize (Hm (i :: p)). cbn [map] in Hm. rewrite rsum_cons in Hm.
  specialize (Hm ltac:(constructor; assumption) ltac:(intros j [<-|Hj]; [exact Hi|exact (Hr j Hj)])). lra.
Qed.
Lemma odds_half p : 1 / 2 < p < 1 -> - ln (p / (1 - p)) < 0.
Proof.
  intro H. assert (0 < ln (p / (1 - p))); [|lra]. rewrite <- ln_1. apply ln_increasing; [lra|].
  apply Rmult_lt_reg_r with (1 - p); [lra|]. unfold Rdiv. rewrite Rmult_assoc, Rinv_l by lra. lra.
Qed.

(** * C89: as many hypotheses requested as there are keeps the filter alive *)
Lemma share_total n hs : (1 <= length hs <= n)%nat -> (forall h, In h hs -> 0 < h_p h) -> exists h, In h hs /\ (1 <= share_of n hs h)%nat.
Proof.
  intros Hn Hp. set (ss := rsum (map (fun h => sqrt (h_p h)) hs)).
  assert (Hmax : exists h, In h hs /\ forall h', In h' hs -> h_p h' <= h_p h).
  { destruct hs as [|h0 hs]; [cbn in Hn; lia|]. clear. revert h0. induction hs as [|h1 hs IH]; intro h0.
    - exists h0. split; [now left|]. intros h' [<-|[]]. lra.
    - destruct (IH h1) as [m [H1 H2]]. destruct (Rle_dec (h_p h0) (h_p m)) as [L|L].
      + exists m. split; [now right|]. intros h' [<-|Hh]; [exact L|exact (H2 h' Hh)].
      + exists h0. split; [now left|]. intros h' [<-|Hh]; [lra|]. specialize (H2 h' Hh). lra. }
  destruct Hmax as [h [Hh Hm]]. exists h. split; [exact Hh|].
  assert (Hs : ss <= INR (length hs) * sqrt (h_p h)).
  { unfold ss. assert (G : forall l, (forall x, In x l -> In x hs) -> rsum (map (fun h => sqrt (h_p h)) l) <= INR (length l) * sqrt (h_p h)).
    { induction l as [|x l IH]; intro G; [cbn; lra|]. cbn [map length]. rewrite rsum_cons, S_INR. specialize (IH ltac:(intros; apply G; now right)).
      assert (sqrt (h_p x) <= sqrt (h_p h)) by (apply sqrt_le_1_alt, Hm, G; now left). lra. }
    apply G. auto. }
  assert (Hp1 : 0 < sqrt (h_p h)) by (apply sqrt_lt_R0, Hp, Hh).
  assert (Hss : 0 < ss).
  { unfold ss. clear - Hp Hn. destruct hs as [|h0 hs]; [cbn in Hn; lia|]. cbn [map]. rewrite rsum_cons.
    assert (0 < sqrt (h_p h0)) by (apply sqrt_lt_R0, Hp; now left).
    assert (0 <= rsum (map (fun h => sqrt (h_p h)) hs)) by (apply rsum_nonneg; intros x Hx; apply in_map_iff in Hx as [y [<- _]]; apply sqrt_pos). lra. }
  assert (H1 : 1 <= INR n * sqrt (h_p h) / ss).
  { apply Rmult_le_reg_r with ss; [exact Hss|]. unfold Rdiv. rewrite Rmult_assoc, Rinv_l, Rmult_1_l, Rmult_1_r by lra.
    apply Rle_trans with (1 := Hs). apply Rmult_le_compat_r; [lra|]. apply le_INR. lia. }
  unfold share_of. fold ss. destruct (roundR_spec (INR n * sqrt (h_p h) / ss)) as [[_ A] _].
  assert (1 / 2 <= IZR (roundR (INR n * sqrt (h_p h) / ss))) by lra.
  assert (0 < roundR (INR n * sqrt (h_p h) / ss))%Z by (apply lt_IZR; lra). lia.
Qed.
Theorem C89_enough_requested_keeps_alive : forall {FS ST CV MS} (E : genv FS ST CV MS) si c t s s',
  sorts_down si -> cfg_ok c -> scaled_cfg c -> (1 <= c_reqb c)%nat ->
  (forall h, In h (g_hyps s) -> 0 < h_p h) -> (1 <= length (g_hyps s) <= c_reqs c)%nat ->
  predict (with_lib si E) c t s = Ok s' -> (1 <= length (g_hyps s'))%nat.
Proof.
  intros FS ST CV MS E si c t s s' Hsi Hc Hsc Hb Hp Hn H.
  destruct (C123_best_births_considered_partial E si c Hsi Hc Hsc Hb) as [B0 [rest [EB _]]].
  destruct (share_total _ _ Hn Hp) as [h [Hh Hk]].
  destruct (C123_best_survivors_considered_partial E si c (g_hyps s) h Hsi Hc Hsc (Hp h Hh) (fun _ => Hk)) as [S0 [rs [ES _]]].
  assert (Hne : g_hyps s' <> []).
  { eapply (predict_nonempty (with_lib si E) c t s s' B0 h S0 Hc); [exact (l_kshort_ok si Hsi)|exact H|rewrite EB; now left|exact Hh|rewrite ES; now left]. }
  destruct (g_hyps s'); [easy|cbn; lia].
Qed.
(** * C90: a birth term of probability above 1/2 always takes part *)
Theorem C90_probable_births_born_partial : forall {FS ST CV MS} (E : genv FS ST CV MS) si c t s s' h b p i,
  sorts_down si -> cfg_ok c -> scaled_cfg c -> (1 <= c_reqb c)%nat -> hash_ok (v_hash E) ->
  In h (g_hyps s) -> 0 < h_p h -> (1 <= share_of (c_reqs c) (g_hyps s) h)%nat ->
  nth_error (c_births c) i = Some (b, p) -> 1 / 2 < p ->
  predict (with_lib si E) c t s = Ok s' ->
  exists h' e, In h' (g_hyps s') /\ In i (h_ts h') /\ nth_error (g_tab s') i = Some e /\ e_label e = (v_rnd E t, i).
Proof.
  intros FS ST CV MS E si c t s s' h b p i Hsi Hc Hsc Hb Hk Hh Hp Hs Hi Hhalf H.
  assert (Hil : (i < length (c_births c))%nat) by (apply nth_error_Some; congruence).
  assert (Hp1 : 0 < p < 1) by (apply (proj1 Hc b p), (nth_error_In _ _ Hi)).
  destruct (C123_best_survivors_considered_partial E si c (g_hyps s) h Hsi Hc Hsc Hp (fun _ => Hs)) as [S0 [rs [ES _]]].
  set (lc := map (fun b => - ln (snd b / (1 - snd b))) (c_births c)).
  assert (HV : scaled_vec lc) by (intros x Hx; apply in_map_iff in Hx; destruct Hx as [[b' p'] [<- Hx]]; exact (odds_neg p' (proj1 Hsc b' p' Hx))).
  assert (Ll : length lc = length (c_births c)) by apply map_length.
  destruct (l_kshort_first si lc (c_reqb c) Hsi HV Hb) as [B0 [rest [cs [Ek [N0 [R0 Hmin]]]]]].
  assert (EB : birth_choices (with_lib si E) c = B0 :: rest) by (unfold birth_choices; cbn [v_kshort with_lib]; fold lc; rewrite Ek; reflexivity).
  assert (HiB : In i B0).
  { apply (cheapest_has_negative lc B0 i N0 R0 Hmin); [rewrite Ll; exact Hil|]. unfold lc. rewrite nth_error_nth with (x := - ln (p / (1 - p))); [apply odds_half; lra|].
    rewrite nth_error_map, Hi. reflexivity. }
  destruct (predict_has (with_lib si E) c t s s' B0 h S0 Hc (l_kshort_ok si Hsi) Hk H) as [h' [H1 H2]]; [rewrite EB; now left|exact Hh|rewrite ES; now left|].
  destruct (predict_inv _ _ _ _ _ H) as [btab [lc' [paths [costs [bh [sh [Eb [_ [_ [_ [Et _]]]]]]]]]]].
  unfold gen_birth_tab in Eb. apply bind_ok in Eb as [cs' [_ Eb]]. injection Eb as <- _.
  exists h', (birth_entry (with_lib si E) c t (g_cnt s) i b). split; [exact H1|]. split.
  - apply (Permutation_in _ (Permutation_sym H2)). apply in_app_iff. now left.
  - split; [|reflexivity]. rewrite Et, nth_error_app1 by (rewrite map_length, combine_length, seq_length, Nat.min_id; exact Hil).
    rewrite nth_error_map, (nth_error_combine_seq _ _ _ _ Hi). reflexivity.
Qed.
(** * C91: with a survival probability above 1/2 every track of a hypothesis
    with a share survives in some predicted hypothesis *)
Theorem C91_probable_survivors_kept_partial : forall {FS ST CV MS} (E : genv FS ST CV MS) si c t s s' h i e,
  sorts_down si -> cfg_ok c -> scaled_cfg c -> (1 <= c_reqb c)%nat -> hash_ok (v_hash E) -> 1 / 2 < c_ps c ->
  In h (g_hyps s) -> 0 < h_p h -> (1 <= share_of (c_reqs c) (g_hyps s) h)%nat ->
  In i (h_ts h) -> nth_error (g_tab s) i = Some e ->
  predict (with_lib si E) c t s = Ok s' ->
  exists h' i' e', In h' (g_hyps s') /\ In i' (h_ts h') /\ nth_error (g_tab s') i' = Some e' /\ e_label e' = e_label e /\ e_assoc e' = e_assoc e.
Proof.
  intros FS ST CV MS E si c t s s' h i e Hsi Hc Hsc Hb Hk Hhalf Hh Hp Hs Hi He H.
  destruct (C123_best_births_considered_partial E si c Hsi Hc Hsc Hb) as [B0 [rest [EB _]]].
  assert (Hps : 0 < c_ps c < 1) by apply Hc.
  set (lc := map (fun _ => - ln (c_ps c / (1 - c_ps c))) (h_ts h)).
  assert (HV : scaled_vec lc) by (intros x Hx; apply in_map_iff in Hx; destruct Hx as [j [<- Hx]]; exact (odds_neg _ (proj2 Hsc))).
  assert (Ll : length lc = length (h_ts h)) by apply map_length.
  destruct (l_kshort_first si lc (share_of (c_reqs c) (g_hyps s) h) Hsi HV Hs) as [S0 [rs [cs [Ek [N0 [R0 Hmin]]]]]].
  assert (ES : In S0 (surv_choices (with_lib si E) c (g_hyps s) h)).
  { unfold surv_choices. cbn [v_kshort with_lib]. fold lc. rewrite Ek. destruct (h_ts h); [destruct Hi|now left]. }
  apply In_nth with (d := 0%nat) in Hi as [n [Hn En]].
  assert (HnS : In n S0).
  { apply (cheapest_has_negative lc S0 n N0 R0 Hmin); [rewrite Ll; exact Hn|]. unfold lc.
    rewrite nth_map_const by exact Hn. apply odds_half. lra. }
  destruct (predict_has (with_lib si E) c t s s' B0 h S0 Hc (l_kshort_ok si Hsi) Hk H) as [h' [H1 H2]]; [rewrite EB; now left|exact Hh|exact ES|].
  destruct (predict_inv _ _ _ _ _ H) as [btab [lc' [paths [costs [bh [sh [Eb [_ [_ [_ [Et _]]]]]]]]]]].
  unfold gen_birth_tab in Eb. apply bind_ok in Eb as [cs' [_ Eb]].
  assert (Lb : length btab = length (c_births c)) by (injection Eb as <- _; rewrite map_length, combine_length, seq_length; apply Nat.min_id).
  exists h', (i + length (c_births c))%nat, (pred_entry (with_lib si E) c t e). split; [exact H1|]. split; [|split; [|split; reflexivity]].
  - apply (Permutation_in _ (Permutation_sym H2)). apply in_app_iff. right. apply in_map_iff. exists i. split; [reflexivity|].
    unfold spicks. apply in_map_iff. exists n. split; [exact En|exact HnS].
  - rewrite Et, nth_error_app2 by lia. replace (i + length (c_births c) - length btab)%nat with i by lia. rewrite nth_error_map, He. reflexivity.
Qed.
(** A state with one track and the library at which all hypotheses hold. *)
Example C89_C90_C91_ex : exists s s',
  let E := d_env false in let c := d_cfg (9 / 10) in
  sorts_down lib_si /\ cfg_ok c /\ scaled_cfg c /\ (1 <= c_reqb c)%nat /\ hash_ok (v_hash E) /\ 1 / 2 < c_ps c /\
  (1 <= length (g_hyps s) <= c_reqs c)%nat /\ (exists h, In h (g_hyps s) /\ h_ts h <> [] /\ 0 < h_p h /\ (1 <= share_of (c_reqs c) (g_hyps s) h)%nat) /\
  predict (with_lib lib_si E) c 1 s = Ok s' /\ (1 <= length (g_hyps s'))%nat.
Proof.
  assert (Hsc : scaled_cfg (d_cfg (9 / 10))) by (split; [intros b p [H|[]]; injection H as _ <-|]; exact odds_9).
  assert (Hc : cfg_ok (d_cfg (9 / 10))) by (apply d_cfg_ok; lra).
  set (e := birth_entry (with_lib lib_si (d_env false)) (d_cfg (9 / 10)) 0 0 0 d_birth).
  set (s := {| g_tab := [e]; g_hyps := [{| h_p := 1; h_ts := [0%nat] |}]; g_card := [0; 1]; g_cnt := 1%nat; g_meas := []; g_ext := []; g_states := []; g_labels := []; g_covs := [] |} : glmb unit unit unit unit).
  assert (Hp : forall h, In h (g_hyps s) -> 0 < h_p h) by (intros h [<-|[]]; cbn; lra).
  assert (Hn : (1 <= length (g_hyps s) <= c_reqs (d_cfg (9 / 10)))%nat) by (cbn; lia).
  destruct (share_total (c_reqs (d_cfg (9 / 10))) (g_hyps s) Hn Hp) as [h [Hh Hk]].
  assert (HP : exists s', predict (with_lib lib_si (d_env false)) (d_cfg (9 / 10)) 1 s = Ok s').
  { change (exists s', exec (with_lib lib_si (d_env false)) (d_cfg (9 / 10)) (OpPredict 1) s = Ok s'). rewrite (lib_exec_eq (d_env false) lib_si lib_si_ok _ _ _ Hsc). cbn [exec].
    apply predict_total; [exact Hc|exact (tot_total lib_si)|exact (tot_ok lib_si lib_si_ok)|reflexivity|exact Hp|]. intros h0 i0 [<-|[]] [<-|[]]. cbn. lia. }
  destruct HP as [s' Hs']. exists s, s'. split; [exact lib_si_ok|]. split; [exact Hc|]. split; [exact Hsc|]. split; [cbn; lia|]. split; [apply d_hash_ok|]. split; [cbn; lra|].
  split; [exact Hn|]. split; [exists h; split; [exact Hh|]; split; [destruct Hh as [<-|[]]; discriminate|]; split; [exact (Hp h Hh)|exact Hk]|]. split; [exact Hs'|].
  apply (C89_enough_requested_keeps_alive (d_env false) lib_si (d_cfg (9 / 10)) 1 s s' lib_si_ok Hc Hsc ltac:(cbn; lia) Hp Hn Hs').
Qed.
Print Assumptions C89_enough_requested_keeps_alive.
Print Assumptions C90_probable_births_born_partial.
Print Assumptions C91_probable_survivors_kept_partial.
