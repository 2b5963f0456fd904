(** C57, C58: counterexamples on explicit states; C89-C92: extinction of the
    hypotheses, births and survivals of probability 1/2. *)
From Verif Require Import Base Lists.
From Coq Require Import Reals Permutation Sorted Lra.
From Verif Require Import OspaModel CphdModel OspaProofs CphdSpec CphdProofs GlmbModel GlmbSpec GlmbProofs GlmbInv GlmbExtract GlmbMost GlmbTotal GlmbProps GlmbProps2 GlmbDemo.
Open Scope R_scope.

(** Three tracks born at time index 0, one time step completed. *)
Definition q_ent (i : nat) : entry unit unit unit :=
  {| e_label := (0%Z, i); e_w := [[1]]; e_fs := [tt]; e_assoc := [Some i]; e_st := [[tt]]; e_cov := [[]]; e_time := 0 |}.
Definition q_state (hs : list hyp) (card : list R) : glmb unit unit unit unit :=
  {| g_tab := [q_ent 0; q_ent 1; q_ent 2]; g_hyps := hs; g_card := card; g_cnt := 1; g_meas := []; g_ext := []; g_states := []; g_labels := []; g_covs := [] |}.
Definition q_h0 : hyp := {| h_p := 2 / 5; h_ts := [0%nat] |}.
Definition q_h1 : hyp := {| h_p := 7 / 20; h_ts := [0; 1]%nat |}.
Definition q_h2 : hyp := {| h_p := 1 / 4; h_ts := [0; 2]%nat |}.
Lemma q_extractable hs card : hs <> [] -> card <> [] -> (forall h i, In h hs -> In i (h_ts h) -> (i < 3)%nat) -> Extractable (d_cfg (1 / 10)) (q_state hs card).
Proof.
  intros H1 H2 H3. split; [exact H2|]. split; [exact H1|]. split; [exact H3|]. split; [|intros x []].
  intros e He. assert (Hi : exists i, e = q_ent i) by (destruct He as [<-|[<-|[<-|[]]]]; eauto). destruct Hi as [i ->]. split.
  - exists 1%nat. cbn. repeat split; lia.
  - exists 1%nat. split; [lia|]. split; [reflexivity|]. split; [intros l [<-|[]]; reflexivity|]. split; [intros l [<-|[]]; reflexivity|]. discriminate.
Qed.
(** argmax by inspection of the (at most four) entries *)
Ltac mode m := apply argmax_is; (split; [cbn; lia|]); split; intros k Hk; cbn in Hk;
  destruct k as [|[|[|[|k]]]]; try (exfalso; lia); cbn; lra.
Lemma map_index_val {FS ST CV MS} (s : glmb FS ST CV MS) card i : argmaxR (g_card s) = Ok card ->
  argmaxR (map (fun h => if (length (h_ts h) =? card)%nat then h_p h * 1 else h_p h * 0) (g_hyps s)) = Ok i -> map_index s = Ok i.
Proof. intros H1 H2. unfold map_index. rewrite H1. exact H2. Qed.

(** C57: when the cardinality distribution is stale (as left by a correction in
    which the inner filter failed, C46_correct_mass, or by predict, C47), the
    hypothesis used need not be the MAP one: here a hypothesis with 3 tracks and
    probability 1/2 was dropped. *)
Theorem C57_stale_cardinality_refuted : exists c (s : glmb unit unit unit unit) i s' h,
  (forall h, In h (g_hyps s) -> 0 < h_p h) /\ refs_ok (g_tab s) (g_hyps s) /\ extract_states c true true s = Ok (Some i, s') /\
  nth_error (g_hyps s) i = Some h /\ ~ is_map (g_hyps s) h.
Proof.
  set (h0 := {| h_p := 1 / 5; h_ts := [0%nat] |}). set (h1 := {| h_p := 3 / 10; h_ts := [0; 1]%nat |}).
  set (s := q_state [h0; h1] [0; 1 / 5; 3 / 10; 1 / 2]).
  assert (HE : Extractable (d_cfg (1 / 10)) s).
  { apply q_extractable; try discriminate. intros h i [<-|[<-|[]]] Hi; cbn in Hi; lia. }
  assert (HM : map_index s = Ok 0%nat) by (apply (map_index_val s 3 0); [mode 3%nat|mode 0%nat]).
  destruct (extract_step _ s 0 HE HM) as [s1 [X1 _]]. exists (d_cfg (1 / 10)), s, 0%nat, s1, h0.
  split; [intros h [<-|[<-|[]]]; cbn; lra|]. split; [apply HE|]. split; [exact X1|]. split; [reflexivity|].
  intros [_ [H _]]. specialize (H 2%nat). unfold mass in H. cbn in H. lra.
Qed.
Print Assumptions C57_stale_cardinality_refuted.

(** C58: the hypotheses are not returned in order of probability ... *)
Theorem C58_most_prob_order_refuted : exists c th (s : glmb unit unit unit unit) o1 o2 o3,
  0 < th /\ prob_dist (g_hyps s) /\ card_matches (g_card s) (g_hyps s) /\ refs_ok (g_tab s) (g_hyps s) /\
  most_prob 3 c th s = Ok [o1; o2; o3] /\ snd o1 = 7 / 20 /\ snd o2 = 1 / 4 /\ snd o3 = 2 / 5.
Proof.
  set (c := d_cfg (1 / 10)). set (card := [0; 2 / 5; 3 / 5]). set (s := q_state [q_h0; q_h1; q_h2] card).
  assert (HE : Extractable c s).
  { apply q_extractable; try discriminate. intros h i [<-|[<-|[<-|[]]]] Hi; cbn in Hi; lia. }
  assert (M1 : map_index s = Ok 1%nat) by (apply (map_index_val s 2 1); [mode 2%nat|mode 1%nat]).
  destruct (most_prob_step c (1 / 10) 3 s 1 q_h1 HE M1 eq_refl) as [s1 [o1 [H1 [C1 [E1 [P1 Q1]]]]]].
  assert (M2 : map_index s1 = Ok 2%nat) by (apply (map_index_val s1 2 2); [rewrite C1; mode 2%nat|rewrite H1; mode 2%nat]).
  destruct (most_loop_step c (1 / 10) 2 s1 2 q_h2 E1 M2) as [s2 [o2 [H2 [C2 [E2 [P2 Q2]]]]]]; [rewrite H1; reflexivity|cbn; lra|].
  assert (M3 : map_index s2 = Ok 0%nat) by (apply (map_index_val s2 2 0); [rewrite C2, C1; mode 2%nat|rewrite H2, H1; mode 0%nat]).
  destruct (most_loop_step c (1 / 10) 1 s2 0 q_h0 E2 M3) as [s3 [o3 [H3 [C3 [E3 [P3 Q3]]]]]]; [rewrite H2, H1; reflexivity|cbn; lra|].
  assert (M4 : map_index s3 = Ok 0%nat) by (apply (map_index_val s3 2 0); [rewrite C3, C2, C1; mode 2%nat|rewrite H3, H2, H1; mode 0%nat]).
  assert (Q4 : most_loop 1 c (1 / 10) s3 = Ok []) by (apply (most_loop_stop c (1 / 10) 1 s3 0 {| h_p := 0; h_ts := [0%nat] |} E3 M4); [rewrite H3, H2, H1; reflexivity|cbn; lra]).
  exists c, (1 / 10), s, o1, o2, o3. split; [lra|]. split; [split; [intros h [<-|[<-|[<-|[]]]]; cbn; lra|cbn; lra]|]. split; [|split; [apply HE|split; [|split; [|split]]]].
  - intros n. unfold mass. do 3 (destruct n as [|n]; [cbn; lra|]). destruct n; cbn; lra.
  - rewrite Q1, Q2, Q3, Q4. reflexivity.
  - exact P1.
  - exact P2.
  - exact P3.
Qed.
Print Assumptions C58_most_prob_order_refuted.
(** ... and the most probable one may never be returned although it exceeds the
    threshold (same hypotheses, another order). *)
Theorem C58_most_prob_complete_refuted : exists c th (s : glmb unit unit unit unit) h o1 o2,
  0 < th /\ prob_dist (g_hyps s) /\ card_matches (g_card s) (g_hyps s) /\ refs_ok (g_tab s) (g_hyps s) /\
  (forall fuel, (2 <= fuel)%nat -> most_prob fuel c th s = Ok [o1; o2]) /\ In h (g_hyps s) /\ th <= h_p h /\ snd o1 < h_p h /\ snd o2 < h_p h.
Proof.
  set (c := d_cfg (1 / 10)). set (card := [0; 2 / 5; 3 / 5]). set (s := q_state [q_h1; q_h2; q_h0] card).
  assert (HE : Extractable c s).
  { apply q_extractable; try discriminate. intros h i [<-|[<-|[<-|[]]]] Hi; cbn in Hi; lia. }
  assert (M1 : map_index s = Ok 0%nat) by (apply (map_index_val s 2 0); [mode 2%nat|mode 0%nat]).
  assert (G : forall fuel, exists o1 o2, most_prob (S (S fuel)) c (1 / 10) s = Ok [o1; o2] /\ snd o1 = 7 / 20 /\ snd o2 = 1 / 4).
  { intros fuel. destruct (most_prob_step c (1 / 10) (S (S fuel)) s 0 q_h1 HE M1 eq_refl) as [s1 [o1 [H1 [C1 [E1 [P1 Q1]]]]]].
    assert (M2 : map_index s1 = Ok 1%nat) by (apply (map_index_val s1 2 1); [rewrite C1; mode 2%nat|rewrite H1; mode 1%nat]).
    destruct (most_loop_step c (1 / 10) (S fuel) s1 1 q_h2 E1 M2) as [s2 [o2 [H2 [C2 [E2 [P2 Q2]]]]]]; [rewrite H1; reflexivity|cbn; lra|].
    assert (M3 : map_index s2 = Ok 0%nat) by (apply (map_index_val s2 2 0); [rewrite C2, C1; mode 2%nat|rewrite H2, H1; mode 0%nat]).
    assert (Q4 : most_loop (S fuel) c (1 / 10) s2 = Ok []) by (apply (most_loop_stop c (1 / 10) (S fuel) s2 0 {| h_p := 0; h_ts := [0; 1]%nat |} E2 M3); [rewrite H2, H1; reflexivity|cbn; lra]).
    exists o1, o2. rewrite Q1, Q2, Q4. auto. }
  destruct (G 0%nat) as [o1 [o2 [Q [P1 P2]]]]. exists c, (1 / 10), s, q_h0, o1, o2.
  split; [lra|]. split; [split; [intros h [<-|[<-|[<-|[]]]]; cbn; lra|cbn; lra]|]. split; [|split; [apply HE|split; [|split; [right; right; left; reflexivity|split; [cbn; lra|split; [rewrite P1|rewrite P2]; cbn; lra]]]]].
  - intros n. unfold mass. do 3 (destruct n as [|n]; [cbn; lra|]). destruct n; cbn; lra.
  - intros fuel Hf. destruct fuel as [|[|fuel]]; try lia.
    assert (Hmono : forall f1 f2 (s0 : glmb unit unit unit unit) r0, (f1 <= f2)%nat -> most_loop f1 c (1 / 10) s0 = Ok r0 -> most_loop f2 c (1 / 10) s0 = Ok r0).
    { clear. induction f1 as [|f1 IH]; intros f2 s0 r0 Hle H0; destruct f2 as [|f2]; [exact H0| |lia|]; cbn [most_loop] in *;
        apply bind_ok in H0 as [[oi s1] [A H0]]; rewrite A; cbn [bind]; destruct oi as [i|]; [|exact H0| |exact H0];
        apply bind_ok in H0 as [h [B H0]]; rewrite B; cbn [bind]; destruct (Rle_dec (1 / 10) (h_p h)); try discriminate; try exact H0.
      apply bind_ok in H0 as [r1 [D H0]]. rewrite (IH f2 _ _ ltac:(lia) D). exact H0. }
    unfold most_prob in *. apply bind_ok in Q as [[oi s1] [A Q]]. rewrite A. cbn [bind]. destruct oi as [i|]; [|discriminate].
    apply bind_ok in Q as [h [B Q]]. rewrite B. cbn [bind]. apply bind_ok in Q as [r1 [D Q]]. rewrite (Hmono 2%nat (S (S fuel)) _ _ ltac:(lia) D). exact Q.
Qed.
Print Assumptions C58_most_prob_complete_refuted.

(** * C89: extinction.  Once there is no hypothesis there never is one again: new
    births cannot enter, whatever is measured.  (And predict or correct raise if
    log_sum_exp([]) does.) *)
Theorem C89_glmb_extinction_permanent : forall {FS ST CV MS} (E : genv FS ST CV MS) c os s s',
  g_hyps s = [] -> run E c os s = Ok s' -> g_hyps s' = [].
Proof.
  intros FS ST CV MS E c. induction os as [|o os IH]; intros s s' Hh H; cbn [run] in H; [inversion H; subst; exact Hh|].
  apply bind_ok in H as [s1 [H1 H]]. apply (IH s1 s'); [|exact H]. clear IH H. destruct o as [t|t meas|pr ca ex|u k]; cbn [exec] in H1.
  - destruct (predict_inv _ _ _ _ _ H1) as [btab [lc [paths [costs [bh [sh [_ [_ [_ [Es [_ [Eh _]]]]]]]]]]]]. rewrite Eh.
    unfold gen_surv_hyps in Es. rewrite Hh in Es. cbn [mapM map bind concat] in Es. cbn [normalise_log] in Es. apply bind_ok in Es as [_ [_ Es]]. inversion Es; subst sh.
    unfold set_pred_hyps. replace (flat_map _ bh) with (@nil hyp); [reflexivity|]. clear. induction bh as [|b bh IH]; [reflexivity|exact IH].
  - destruct (correct_inv _ _ _ _ _ _ H1) as [hs [Eg [_ [Eh _]]]]. rewrite Eh. rewrite Hh in Eg. unfold gen_cor_hyps in Eg.
    assert (hs = []) as ->; [|reflexivity]. destruct (length meas); cbn [mapM map bind concat] in Eg; cbn [normalise_log] in Eg; apply bind_ok in Eg as [_ [_ Eg]]; inversion Eg; reflexivity.
  - destruct (cleanup_inv _ _ _ _ _ _ _ H1) as [_ [_ [Hsub [Eh _]]]]. rewrite Eh. unfold cleaned. cbn zeta.
    assert (H2 : g_hyps (if pr then prune c (bump s) else bump s) = []) by (destruct pr; cbn; rewrite Hh; reflexivity).
    destruct ca; [|exact H2]. unfold cap. rewrite H2. cbn [length]. destruct (c_maxh c <? 0)%nat eqn:El; [apply Nat.ltb_lt in El; lia|exact H2].
  - apply bind_ok in H1 as [[o s2] [H1 H2]]. inversion H2; subst s2. destruct (extract_tab _ _ _ _ _ _ H1) as [_ [B _]]. congruence.
Qed.
Print Assumptions C89_glmb_extinction_permanent.
(** It happens on the way from a healthy state: with two equally probable
    hypotheses that have tracks and req_surv = 1, round(1/2) = 0 paths are asked
    for both and predict leaves no hypothesis. *)
Theorem C89_rounding_extinguishes_refuted : forall {FS ST CV MS} (E : genv FS ST CV MS) c t s p ts1 ts2,
  kshort_none (v_kshort E) -> g_hyps s = [{| h_p := p; h_ts := ts1 |}; {| h_p := p; h_ts := ts2 |}] -> 0 < p -> ts1 <> [] -> ts2 <> [] -> c_reqs c = 1%nat ->
  (forall s', predict E c t s = Ok s' -> g_hyps s' = []) /\
  (cfg_ok c -> kshort_total (v_kshort E) -> kshort_ok (v_kshort E) -> v_lse0 E = Ok tt -> refs_ok (g_tab s) (g_hyps s) -> exists s', predict E c t s = Ok s') /\
  (forall e, v_lse0 E = Err e -> forall s', predict E c t s <> Ok s').
Proof.
  intros FS ST CV MS E c t s p ts1 ts2 Hk Hh Hp H1 H2 Hr.
  assert (Hz : Z.to_nat (roundR (INR (c_reqs c) * sqrt p / rsum (map (fun h => sqrt (h_p h)) (g_hyps s)))) = 0%nat).
  { rewrite Hh, Hr. cbn [map h_p]. rewrite !rsum_cons. change (rsum []) with 0. assert (Hs : 0 < sqrt p) by (apply sqrt_lt_R0, Hp).
    replace (INR 1 * sqrt p / (sqrt p + (sqrt p + 0))) with (1 / 2) by (cbn [INR]; field; lra).
    destruct (roundR_spec (1 / 2)) as [[A B] C]. assert (D : roundR (1 / 2) = 0%Z \/ roundR (1 / 2) = 1%Z).
    { assert (L : IZR (roundR (1 / 2)) < 2) by lra. assert (G : -1 < IZR (roundR (1 / 2))) by lra. apply lt_IZR in L. apply lt_IZR in G. lia. }
    destruct D as [->|D]; [reflexivity|]. rewrite D in C. specialize (C ltac:(left; lra)). discriminate. }
  assert (HS : forall sh, gen_surv_hyps E c (length (g_tab s)) (g_hyps s) = Ok sh -> sh = [] /\ v_lse0 E = Ok tt).
  { intros sh Es. unfold gen_surv_hyps in Es. set (ss := rsum _) in *. apply bind_ok in Es as [ll [El Es]].
    assert (Hll : concat ll = []).
    { apply mapM_ok in El. rewrite Hh in El. inversion El as [|? y1 ? ? A1 B1]; subst. inversion B1 as [|? y2 ? ? A2 B2]; subst. inversion B2; subst.
      assert (Hy : forall ts y, ts <> [] -> surv_hyp E c (length (g_tab s)) ss {| h_p := p; h_ts := ts |} = Ok y -> y = []).
      { intros ts y Hts Hy. unfold surv_hyp in Hy. cbn [h_ts h_p] in Hy. destruct ts as [|a ts]; [congruence|]. destruct (negb _); [discriminate|].
        apply bind_ok in Hy as [r [_ Hy]]. apply bind_ok in Hy as [lc [_ Hy]]. rewrite Hz, Hk in Hy. cbn [bind] in Hy.
        apply bind_ok in Hy as [ld [_ Hy]]. apply bind_ok in Hy as [lw [_ Hy]]. cbn in Hy. inversion Hy. reflexivity. }
      rewrite (Hy _ _ H1 A1), (Hy _ _ H2 A2). reflexivity. }
    rewrite Hll in Es. cbn [normalise_log] in Es. apply bind_ok in Es as [[] [El0 Es]]. inversion Es. auto. }
  split; [|split].
  - intros s' H. destruct (predict_inv _ _ _ _ _ H) as [btab [lc [paths [costs [bh [sh [_ [_ [_ [Es [_ [Eh _]]]]]]]]]]]]. rewrite Eh. destruct (HS _ Es) as [-> _].
    unfold set_pred_hyps. replace (flat_map _ bh) with (@nil hyp); [reflexivity|]. clear. induction bh as [|b bh IH]; [reflexivity|exact IH].
  - intros Hc Hkt Ho Hl Href. apply predict_total; auto. rewrite Hh. intros h [<-|[<-|[]]]; exact Hp.
  - intros e Hl s' H. destruct (predict_inv _ _ _ _ _ H) as [btab [lc [paths [costs [bh [sh [_ [_ [_ [Es _]]]]]]]]]]. destruct (HS _ Es) as [_ HS2]. congruence.
Qed.
Print Assumptions C89_rounding_extinguishes_refuted.
Example C89_ex : kshort_none d_kshort /\ cfg_ok (d_cfg (9 / 10)) /\ c_reqs (d_cfg (9 / 10)) = 1%nat /\
  prob_dist [{| h_p := 1 / 2; h_ts := [0%nat] |}; {| h_p := 1 / 2; h_ts := [1%nat] |}].
Proof. split; [exact d_kshort_none|]. split; [apply d_cfg_ok; lra|]. split; [reflexivity|]. split; [intros h [<-|[<-|[]]]; cbn; lra|cbn; lra]. Qed.

(** * C90: a birth term of probability 1/2 never enters a hypothesis: its cost in
    k_shortest is 0, and an edge of cost 0 is no edge. *)
Theorem C90_half_birth_never_born_refuted : forall {FS ST CV MS} (E : genv FS ST CV MS) c t s s' i b,
  kshort_ok (v_kshort E) -> kshort_zero (v_kshort E) -> nth_error (c_births c) i = Some (b, 1 / 2) -> predict E c t s = Ok s' ->
  (exists e, nth_error (g_tab s') i = Some e /\ e_label e = (v_rnd E t, i)) /\ forall h, In h (g_hyps s') -> ~ In i (h_ts h).
Proof.
  intros FS ST CV MS E c t s s' i b Hk Hz Hi H. destruct (predict_inv _ _ _ _ _ H) as [btab [lc [paths [costs [bh [sh [Eb [Ek [Ebh [Es [Et [Eh _]]]]]]]]]]]].
  assert (Hil : (i < length (c_births c))%nat) by (apply nth_error_Some; congruence).
  unfold gen_birth_tab in Eb. apply bind_ok in Eb as [cs [Ec Eb]]. injection Eb as <- <-.
  set (bt := map _ (combine (seq 0 (length (c_births c))) (c_births c))) in *.
  assert (Lb : length bt = length (c_births c)) by (unfold bt; rewrite map_length, combine_length, seq_length; apply Nat.min_id).
  split.
  - exists (birth_entry E c t (g_cnt s) i b). split; [|reflexivity]. rewrite Et, nth_error_app1 by (rewrite Lb; exact Hil). unfold bt. rewrite nth_error_map, (nth_error_combine_seq _ _ _ _ Hi). reflexivity.
  - assert (Hci : nth i cs 0 = 0).
    { apply mapM_ok in Ec. destruct (F2_nth_l _ _ _ _ _ Ec Hi) as [x [Hx Hxc]]. rewrite (nth_error_nth _ _ _ Hx). cbn [snd] in Hxc. unfold birth_cost in Hxc.
      destruct (Req_EM_T (1 / 2) 1); [lra|]. rewrite lnp_ok in Hxc by lra. cbn [bind] in Hxc. inversion Hxc. replace (1 / 2 / (1 - 1 / 2)) with 1 by field. rewrite ln_1. ring. }
    intros h Hh Hin. rewrite Eh in Hh. destruct (clean_in E _ _ Hh) as [h0 [Hh0 Hts]]. rewrite <- Hts in Hin. unfold set_pred_hyps in Hh0.
    apply in_map_iff in Hh0 as [h1 [<- Hh1]]. cbn [h_ts] in Hin. apply in_flat_map in Hh1 as [hb [Hhb Hh1]]. apply in_map_iff in Hh1 as [hsv [<- _]]. cbn [h_ts] in Hin.
    apply in_app_or in Hin as [Hin|Hin].
    + apply birth_hyps_in with (1 := Ebh) in Hhb. exact (Hz _ _ _ _ Ek _ _ Hhb Hin Hci).
    + apply in_map_iff in Hin as [x [Hx _]]. lia.
Qed.
Print Assumptions C90_half_birth_never_born_refuted.
Lemma nth_map_const {A} (l : list A) (v : R) i d : (i < length l)%nat -> nth i (map (fun _ => v) l) d = v.
Proof. revert i. induction l as [|a l IH]; intros [|i] H; cbn in *; try lia; [reflexivity|apply IH; lia]. Qed.
(** * C91: with a survival probability of 1/2 no track survives a prediction. *)
Theorem C91_half_survival_all_die_refuted : forall {FS ST CV MS} (E : genv FS ST CV MS) c t s s',
  kshort_ok (v_kshort E) -> kshort_zero (v_kshort E) -> c_ps c = 1 / 2 -> predict E c t s = Ok s' ->
  forall h i, In h (g_hyps s') -> In i (h_ts h) -> exists e, nth_error (g_tab s') i = Some e /\ e_assoc e = [] /\ fst (e_label e) = v_rnd E t.
Proof.
  intros FS ST CV MS E c t s s' Hk Hz Hps H h i Hh Hin. destruct (predict_inv _ _ _ _ _ H) as [btab [lc [paths [costs [bh [sh [Eb [Ek [Ebh [Es [Et [Eh _]]]]]]]]]]]].
  unfold gen_birth_tab in Eb. apply bind_ok in Eb as [cs [Ec Eb]]. injection Eb as <- <-.
  set (bt := map _ (combine (seq 0 (length (c_births c))) (c_births c))) in *.
  assert (Lb : length bt = length (c_births c)) by (unfold bt; rewrite map_length, combine_length, seq_length; apply Nat.min_id).
  assert (Hsv : forall x, In x sh -> h_ts x = []).
  { intros x Hx. unfold gen_surv_hyps in Es. set (ss := rsum _) in *. apply bind_ok in Es as [ll [El Es]].
    destruct (normalise_in E _ _ _ Es Hx) as [x0 [Hx0 <-]]. destruct (mapM_in_concat _ _ _ _ El Hx0) as [h0 [r [_ [Hr Hxr]]]].
    unfold surv_hyp in Hr. destruct (h_ts h0) as [|a ts] eqn:Ets; [apply bind_ok in Hr as [lw [_ Hr]]; inversion Hr; subst r; destruct Hxr as [<-|[]]; reflexivity|].
    destruct (negb _); [discriminate|]. apply bind_ok in Hr as [ratio [Er Hr]]. apply bind_ok in Hr as [lr [Elr Hr]]. apply rdiv_ok in Er as [_ ->].
    rewrite Hps in Elr. replace (1 / 2 / (1 - 1 / 2)) with 1 in Elr by field. rewrite lnp_ok, ln_1 in Elr by lra. inversion Elr; subst lr.
    apply bind_ok in Hr as [[ps cst] [Eks Hr]]. apply bind_ok in Hr as [ld [_ Hr]]. apply bind_ok in Hr as [lw [_ Hr]].
    destruct (mapM_in _ _ _ _ Hr Hxr) as [[pp cc] [Hpp Hy]]. cbn [fst snd] in Hy. apply bind_ok in Hy as [ts' [Ets' Hy]]. inversion Hy; subst x0. cbn [h_ts].
    apply in_combine_l in Hpp. destruct pp as [|j pp]; [cbn in Ets'; inversion Ets'; reflexivity|]. exfalso.
    apply (Hz _ _ _ _ Eks (j :: pp) j Hpp (or_introl eq_refl)). destruct (Hk _ _ _ _ Eks) as [_ Hb]. destruct (Hb _ Hpp) as [_ Hj]. specialize (Hj j (or_introl eq_refl)).
    set (l := a :: ts) in *. rewrite map_length in Hj. rewrite nth_map_const by exact Hj. ring. }
  rewrite Eh in Hh. destruct (clean_in E _ _ Hh) as [h0 [Hh0 Hts]]. rewrite <- Hts in Hin. unfold set_pred_hyps in Hh0.
  apply in_map_iff in Hh0 as [h1 [<- Hh1]]. cbn [h_ts] in Hin. apply in_flat_map in Hh1 as [hb [Hhb Hh1]]. apply in_map_iff in Hh1 as [hsv [<- Hhsv]]. cbn [h_ts] in Hin.
  rewrite (Hsv _ Hhsv) in Hin. cbn [map] in Hin. rewrite app_nil_r in Hin.
  apply birth_hyps_in with (1 := Ebh) in Hhb. destruct (Hk _ _ _ _ Ek) as [_ Hb]. destruct (Hb _ Hhb) as [_ Hb2]. specialize (Hb2 i Hin).
  assert (Hil : (i < length (c_births c))%nat) by (rewrite <- (mapM_length _ _ _ Ec); exact Hb2).
  destruct (nth_error (c_births c) i) as [[b p]|] eqn:Eb; [|apply nth_error_None in Eb; lia].
  exists (birth_entry E c t (g_cnt s) i b). split; [|split; reflexivity]. rewrite Et, nth_error_app1 by (rewrite Lb; exact Hil). unfold bt. rewrite nth_error_map, (nth_error_combine_seq _ _ _ _ Eb). reflexivity.
Qed.
Print Assumptions C91_half_survival_all_die_refuted.
(** The contracts are met by the demonstration world, and such predictions exist. *)
Example C91_ex : exists s', kshort_ok d_kshort /\ kshort_zero d_kshort /\ c_ps (d_cfg (1 / 2)) = 1 / 2 /\ predict (d_env false) (d_cfg (1 / 2)) 1 wS1 = Ok s' /\
  g_hyps s' <> [].
Proof.
  eexists. split; [exact d_kshort_ok|]. split; [exact d_kshort_zero|]. split; [reflexivity|]. split.
  - apply (d_predict false (1 / 2) 1 wS1 [0%nat]); [lra|reflexivity|]. intros i [<-|[]]. cbn. lia.
  - discriminate.
Qed.
