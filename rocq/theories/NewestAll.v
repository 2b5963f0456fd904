(** The newest time step of the extracted lists for the particle and joint
    classes (C188), and extraction before cleanup there (C189). *)
From Verif Require Import Base Lists.
From Coq Require Import Reals Permutation Lra Lia.
From Verif Require Import OspaModel CphdModel OspaProofs CphdSpec CphdProofs CphdProps GlmbModel GlmbSpec GlmbProofs GlmbInv GlmbExtract GlmbMost GlmbTotal GlmbProps GlmbProps2 GlmbProps4 GlmbDemo GlmbProps3 GlmbMost2 GlmbNewest.
From Verif Require Import JglmbModel JglmbSpec JglmbProofs JglmbInv GibbsReal JglmbGibbs JglmbProps JglmbTotal.
From Verif Require Import SmcModel SmcSpec SmcProofs SmcBayes SmcUpd SmcTotal SmcJModel SmcJProofs SmcJProps.
Open Scope R_scope.

(** ** specification *)
(** What a reader of the lists sees after a cleanup with extraction: a maximum a
    posteriori hypothesis is chosen; the cardinality is its size; the last entry
    of [labels] names exactly its tracks, the last entry of [states] has one
    current state of each of them. *)
Definition newest_shown {FS ST CV MS} (s : glmb FS ST CV MS) : Prop :=
  exists h, is_map (g_hyps s) h /\ gcardinality s = Ok (length (h_ts h)) /\
    last (g_labels s) [] = map e_label (tracks (g_tab s) h) /\ length (tracks (g_tab s) h) = length (h_ts h) /\
    Forall2 newest_state (tracks (g_tab s) h) (last (g_states s) []).

(** ** proofs *)
Section P.
Context {FS ST CV MS : Type} (E : genv FS ST CV MS).
Implicit Types (c : gcfg ST CV) (s : glmb FS ST CV MS).
Lemma newest_clean c pr ca s2 s3 : rsorts (v_argsort E) -> cleanup E c pr ca true s2 = Ok s3 -> g_hyps s3 <> [] ->
  (forall h, In h (g_hyps s2) -> 0 < h_p h) -> (pr = true \/ (g_hyps s2 <> [] -> card_matches (g_card s2) (g_hyps s2))) ->
  (forall e, In e (g_tab s2) -> len_ok 2 (g_cnt s2) e) -> (forall x, In x (g_ext s2) -> xlen 0 (g_cnt s2) x) ->
  newest_shown s3.
Proof.
  intros Hs P3 Hne Hpos2 Hc HL HX.
  destruct (cleanup_inv _ _ _ _ _ _ _ P3) as [T3 [N3 [_ [Eh [Ec [[? _]|[_ [o Hx]]]]]]]]; [discriminate|].
  destruct (cleaned_inv E c pr ca s2) as [T4 [N4 [X4 _]]]. set (s4 := cleaned E c pr ca s2) in *.
  assert (Hne4 : g_hyps s4 <> []) by (rewrite <- Eh; exact Hne).
  assert (Hpos : forall h, In h (g_hyps s4) -> 0 < h_p h) by (apply cleaned_pos; assumption).
  assert (Hc2 : pr = true \/ card_matches (g_card s2) (g_hyps s2)).
  { destruct Hc as [Hc|Hc]; [left; exact Hc|right]. apply Hc. intros E0. apply Hne4.
    unfold s4, cleaned. cbn zeta. set (s5 := if pr then prune c (bump s2) else bump s2).
    assert (E5 : g_hyps s5 = []) by (unfold s5; destruct pr; [cbn [prune with_hyps g_hyps bump]; rewrite E0; reflexivity|exact E0]).
    destruct ca; [|exact E5]. unfold cap. rewrite E5. cbn [length]. destruct (c_maxh c <? 0)%nat eqn:El; [apply Nat.ltb_lt in El; lia|exact E5]. }
  assert (Hcm : card_matches (g_card s4) (g_hyps s4)).
  { unfold s4, cleaned in *. cbn zeta in *. set (s5 := if pr then prune c (bump s2) else bump s2) in *.
    assert (H2 : g_hyps s5 <> [] -> card_matches (g_card s5) (g_hyps s5)).
    { unfold s5. destruct pr; [intros H2; apply calc_card_matches, H2|]. destruct Hc2 as [?|Hc2]; [discriminate|]. intros _. exact Hc2. }
    destruct ca; [|auto]. unfold cap in *. destruct (_ <? _)%nat; [|auto]. cbn [with_hyps g_hyps g_card] in *. apply calc_card_matches, Hne4. }
  destruct (extract_inv _ _ _ _ _ _ Hx) as [[E0 _]|[idx [xs [oo [_ [Eo [Hmi [Hu [Ex [Hpa [Q1 [Q2 _]]]]]]]]]]]]; [congruence|]. subst xs.
  destruct (map_index_card s4 idx Hmi Hne4 Hpos Hcm) as [h [Hh Hcard]].
  destruct (update_hist_inv _ _ _ _ Hu) as [h' [es [news [l [Eh' [F1 [F2 [_ [_ [_ Hex]]]]]]]]]]. assert (h' = h) by congruence. subst h'.
  destruct (map_index_spec s4 idx Hmi Hne4 Hpos Hcm) as [h' [Hh' [M1 M2]]]. assert (h' = h) by congruence. subst h'.
  exists h. rewrite Eh. split; [split; [exact (nth_error_In _ _ Hh)|split; assumption]|]. split; [unfold gcardinality in *; rewrite Ec; exact Hcard|].
  rewrite T3, <- T4, (tracks_view _ _ _ F1). clear Eh' Hh'.
  assert (Hlen : forall e, In e es -> exists m, (1 <= m)%nat /\ hist_len m e /\ (e_time e + m = S (g_cnt s2))%nat).
  { intros e He. apply In_nth_error in He as [j Hj]. destruct (F2_nth_r _ _ _ _ _ F1 Hj) as [i [_ Hi]]. rewrite T4 in Hi.
    destruct (HL e (nth_error_In _ _ Hi)) as [m [A1 [A2 [A3 [A4 [A5 A6]]]]]]. cbn in A5, A6. exists m. split; [exact A1|]. split; [|exact A6]. repeat split; assumption. }
  destruct (put_all_out _ _ _ Hpa) as [V1 [V2 _]]. rewrite Q1, Q2, V1, V2, N4.
  assert (Ls : forall {A} (f : nat -> list A), last (map f (seq 0 (S (g_cnt s2)))) [] = f (g_cnt s2)).
  { intros A f. rewrite seq_S, map_app. cbn [map]. rewrite last_last. reflexivity. }
  rewrite !Ls, Hex, X4, newest_column.
  - destruct (news_column c (g_cnt s2) es news F2 Hlen) as [A B]. split; [exact A|]. split; [|exact B]. clear -F1. induction F1; cbn [length]; congruence.
  - intros x Hi. apply filter_In in Hi as [Hi _]. destruct (HX x Hi) as [_ [_ L]]. exact L.
Qed.
(** Extraction with tracks one step longer than the lists. *)
Lemma extract_early c s i h : (forall e, In e (g_tab s) -> len_ok 2 (g_cnt s) e) -> map_index s = Ok i -> nth_error (g_hyps s) i = Some h -> h_ts h <> [] ->
  exists e, extract_states c true true s = Err e.
Proof.
  intros HL Hi Hh Hn. destruct (extract_states c true true s) as [[o s']|e] eqn:Hx; [exfalso|exists e; reflexivity].
  destruct (extract_inv _ _ _ _ _ _ Hx) as [[E0 _]|[idx [xs [oo [_ [Eo [Hmi [Hu [Ex [Hpa _]]]]]]]]]]; [rewrite E0 in Hh; destruct i; discriminate|].
  assert (idx = i) by congruence. subst idx xs.
  destruct (update_hist_inv _ _ _ _ Hu) as [h' [es [news [l [Eh [F1 [F2 [_ [_ [_ Hex]]]]]]]]]]. assert (h' = h) by congruence. subst h'.
  destruct (h_ts h) as [|j ts]; [congruence|]. inversion F1 as [|? e ? es' Hj F1']; subst. inversion F2 as [|? x ? news' [st [cv [Ee ->]]] F2']; subst.
  destruct (HL e (nth_error_In _ _ Hj)) as [n [A1 [A2 [A3 [A4 [_ A6]]]]]]. cbn in A6. destruct (extract_helper_len c e n st cv A2 A3 A4 Ee) as [L1 L2].
  rewrite outs_new in Hpa. pose proof (put_all_range _ _ _ Hpa (hist_of e st cv) ltac:(rewrite Hex; apply in_or_app; right; left; reflexivity)) as Hr.
  rewrite repeat_length in Hr. unfold in_range in Hr. cbn [hist_of x_st x_cov x_time] in Hr. rewrite combine_length, L1, L2, Nat.min_id in Hr.
  destruct Hr as [Hr|Hr]; [|lia]. apply (f_equal (@length _)) in Hr. rewrite combine_length, L1, L2, Nat.min_id in Hr. cbn [length] in Hr. lia.
Qed.
(** Recorded tracks stay inside the lists: the two calls shared by all classes. *)
Lemma xl_cleanup c pr ca ex s s' : cleanup E c pr ca ex s = Ok s' -> (forall e, In e (g_tab s) -> len_ok 2 (g_cnt s) e) ->
  (forall x, In x (g_ext s) -> xlen 2 (g_cnt s) x) -> forall x, In x (g_ext s') -> xlen 0 (g_cnt s') x.
Proof.
  intros H HL HX x Hx. destruct (cleanup_inv _ _ _ _ _ _ _ H) as [_ [N3 [_ [_ [_ [[_ ->]|[_ [o H2]]]]]]]]; destruct (cleaned_inv E c pr ca s) as [A [B [C D]]].
  - rewrite C in Hx. rewrite B. exact (HX x Hx).
  - destruct (extract_tab _ _ _ _ _ _ H2) as [_ [_ [C2 _]]]. rewrite C2. apply (xlen_extract 0 _ _ _ _ _ _ H2); [| |exact Hx].
    + rewrite A, B. intros e He. destruct (HL e He) as [n Hn]. exists n. exact Hn.
    + rewrite C, B. exact HX.
Qed.
Lemma xl_extract ph c u k s o s' : extract_states c u k s = Ok (o, s') -> (forall e, In e (g_tab s) -> len_ok ph (g_cnt s) e) ->
  (forall x, In x (g_ext s) -> xlen ph (g_cnt s) x) -> forall x, In x (g_ext s') -> xlen ph (g_cnt s') x.
Proof. intros H HL HX. destruct (extract_tab _ _ _ _ _ _ H) as [_ [_ [-> _]]]. exact (xlen_extract ph c u k s o s' H HL HX). Qed.
Lemma xl_up cnt (x : ehist ST CV) : xlen 0 cnt x -> xlen 1 cnt x.
Proof. intros [A [B C]]. repeat split; auto. cbn in *. lia. Qed.
End P.

Section S.
Context {P X ST CV MS : Type}.
Notation glmb := (glmb (pfs P X) ST CV MS).
Lemma sxl_run (Z : senv P X ST CV MS) c bs os : forall ph ph' (s s' : glmb), kshort_ok (v_kshort (z_g Z)) -> murty_ok (v_murty (z_g Z)) -> srun Z c bs os s = Ok s' ->
  sprotocol ph os = Some ph' -> PInv ph s -> (forall x, In x (g_ext s) -> xlen ph (g_cnt s) x) -> PInv ph' s' /\ forall x, In x (g_ext s') -> xlen ph' (g_cnt s') x.
Proof.
  induction os as [|o os IH]; intros ph ph' s s' Hk Hm H Hpr HI HX; cbn [srun] in H; [injection H as <-; cbn in Hpr; injection Hpr as <-; split; assumption|].
  apply bind_ok in H as [s1 [H1 H]]. destruct (sproto_cons _ _ _ _ Hpr) as [p1 [Hp1 Hp2]].
  assert (HI1 : PInv p1 s1) by (apply (spinv_run Z c bs [o] ph p1 s s1 Hk Hm); [cbn [srun]; rewrite H1; reflexivity|exact Hp1|exact HI]).
  apply (IH p1 ph' s1 s' Hk Hm H Hp2 HI1). destruct o as [psf t|pdf t meas|pr ca ex|u k]; cbn [sexec] in H1; cbn [sprotocol] in Hp1.
  - destruct ph as [|ph]; [|discriminate]. injection Hp1 as <-. destruct (spredict_inv _ _ _ _ _ _ _ H1) as [_ [_ [_ [_ [_ [_ [_ [_ [_ [_ [_ [_ [_ [_ [_ [_ [Ec Ex]]]]]]]]]]]]]]]]].
    rewrite Ec. intros x Hx. apply xl_up, HX. destruct Ex as [Ex _]. rewrite <- Ex. exact Hx.
  - destruct ph as [|[|ph]]; try discriminate. injection Hp1 as <-. destruct (scorrect_inv _ _ _ _ _ _ _ H1) as [_ [_ [_ [_ [_ [_ [_ [_ [_ [Ec [Ex _]]]]]]]]]]]. rewrite Ec, Ex. exact HX.
  - destruct ph as [|[|[|ph]]]; try discriminate. injection Hp1 as <-. exact (xl_cleanup _ c pr ca ex s s1 H1 (proj1 HI) HX).
  - apply bind_ok in H1 as [[o s2] [H1 H2]]. injection H2 as <-. assert (p1 = ph) by (destruct ph; injection Hp1 as <-; reflexivity). subst p1. exact (xl_extract ph c u k s o s2 H1 (proj1 HI) HX).
Qed.
End S.
Section J.
Context {FS ST CV MS : Type} (E : genv FS ST CV MS) (G : sampler).
Implicit Types (c : gcfg ST CV) (s : jst FS ST CV MS).
Lemma jxl_run gt c os : forall ph ph' s s', gibbs_ok G -> jrun E G gt c os s = Ok s' -> protocol ph os = Some ph' -> JPInv ph s ->
  (forall x, In x (g_ext (y_g s)) -> xlen ph (g_cnt (y_g s)) x) -> JPInv ph' s' /\ forall x, In x (g_ext (y_g s')) -> xlen ph' (g_cnt (y_g s')) x.
Proof.
  induction os as [|o os IH]; intros ph ph' s s' Hg H Hpr HI HX; cbn [jrun] in H; [injection H as <-; cbn in Hpr; injection Hpr as <-; split; assumption|].
  apply bind_ok in H as [s1 [H1 H]].
  assert (Hp : exists p1, protocol ph [o] = Some p1 /\ protocol p1 os = Some ph') by (destruct o, ph as [|[|[|ph]]]; cbn [protocol] in *; try discriminate; eauto).
  destruct Hp as [p1 [Hp1 Hp2]].
  assert (HI1 : JPInv p1 s1) by (apply (jpinv_run E G gt c [o] ph p1 s s1 Hg); [cbn [jrun]; rewrite H1; reflexivity|exact Hp1|exact HI]).
  apply (IH p1 ph' s1 s' Hg H Hp2 HI1). destruct o as [t|t meas|pr ca ex|u k]; cbn [jexec] in H1; cbn [protocol] in Hp1.
  - destruct ph as [|ph]; [|discriminate]. injection Hp1 as <-. destruct (jpredict_inv _ _ _ _ _ H1) as [_ [_ [_ [Ec [Ex _]]]]].
    rewrite Ec, Ex. intros x Hx. apply xl_up, HX, Hx.
  - destruct ph as [|[|ph]]; try discriminate. injection Hp1 as <-. destruct (jcorrect_inv _ _ _ _ _ _ _ _ H1) as [hs X0]. cbn zeta in X0. destruct X0 as [_ [_ [_ [_ [_ [_ [Ec [Ex _]]]]]]]]. rewrite Ec, Ex. exact HX.
  - destruct ph as [|[|[|ph]]]; try discriminate. injection Hp1 as <-. apply bind_ok in H1 as [g [H1 H2]]. injection H2 as <-. exact (xl_cleanup _ c pr ca ex (y_g s) g H1 (proj1 HI) HX).
  - apply bind_ok in H1 as [[o g] [H1 H2]]. injection H2 as <-. assert (p1 = ph) by (destruct ph; injection Hp1 as <-; reflexivity). subst p1. exact (xl_extract ph c u k (y_g s) o g H1 (proj1 HI) HX).
Qed.
End J.
Section SJ.
Context {P X ST CV MS : Type} (G : sampler).
Notation jst := (jst (pfs P X) ST CV MS).
Lemma sjxl_run gt (vs : list (sjcall P X ST CV MS)) : forall ph ph' (s s' : jst), gibbs_ok G -> sjrun G gt vs s = Ok s' -> sprotocol ph (sjops vs) = Some ph' -> JPInv ph s ->
  (forall x, In x (g_ext (y_g s)) -> xlen ph (g_cnt (y_g s)) x) -> JPInv ph' s' /\ forall x, In x (g_ext (y_g s')) -> xlen ph' (g_cnt (y_g s')) x.
Proof.
  induction vs as [|[[[Z c] bs] o] vs IH]; intros ph ph' s s' Hg H Hpr HI HX; cbn [sjrun] in H; [injection H as <-; cbn in Hpr; injection Hpr as <-; split; assumption|].
  apply bind_ok in H as [s1 [H1 H]]. unfold sjops in Hpr. cbn [map snd] in Hpr. destruct (sproto_cons _ _ _ _ Hpr) as [p1 [Hp1 Hp2]].
  pose proof (sjpinv_exec Z G gt c bs o ph p1 s s1 Hg H1 Hp1 HI) as HI1.
  apply (IH p1 ph' s1 s' Hg H Hp2 HI1). destruct o as [psf t|pdf t meas|pr ca ex|u k]; cbn [sjexec] in H1; cbn [sprotocol] in Hp1.
  - destruct ph as [|ph]; [|discriminate]. injection Hp1 as <-. destruct (sjpredict_inv _ _ _ _ _ _ _ H1) as [st [_ [_ [_ [_ [Ec [Ex _]]]]]]].
    rewrite Ec, Ex. intros x Hx. apply xl_up, HX, Hx.
  - destruct ph as [|[|ph]]; try discriminate. injection Hp1 as <-. destruct (sjcorrect_inv _ _ _ _ _ _ _ _ _ _ H1) as [rows [hs X0]]. cbn zeta in X0. destruct X0 as [_ [_ [_ [_ [_ [_ [Ec [Ex _]]]]]]]]. rewrite Ec, Ex. exact HX.
  - destruct ph as [|[|[|ph]]]; try discriminate. injection Hp1 as <-. apply bind_ok in H1 as [g [H1 H2]]. injection H2 as <-. exact (xl_cleanup _ c pr ca ex (y_g s) g H1 (proj1 HI) HX).
  - apply bind_ok in H1 as [[o g] [H1 H2]]. injection H2 as <-. assert (p1 = ph) by (destruct ph; injection Hp1 as <-; reflexivity). subst p1. exact (xl_extract ph c u k (y_g s) o g H1 (proj1 HI) HX).
Qed.
Lemma sjcorrect_card (Z : senv P X ST CV MS) gt pdf c bs t meas (s s' : jst) : gibbs_ok G -> hash_ok (v_hash (z_g Z)) -> (forall z p, In z meas -> z_corr Z t z p <> None) ->
  sjcorrect G Z gt pdf c bs t meas s = Ok s' -> g_hyps (y_g s') <> [] -> card_matches (g_card (y_g s')) (g_hyps (y_g s')).
Proof.
  intros Hg HH Hn H Hne n. destruct (sjcorrect_full Z G _ _ _ _ _ _ _ _ Hg Hn H) as [hs [HF [_ HC]]].
  assert (Hh : hs <> []) by (intros ->; rewrite clean_nil in HF; inversion HF; congruence). destruct (F2_dist _ _ HF) as [_ M2].
  rewrite HC, (calc_card_matches hs Hh n), M2. symmetry. apply (C51_merge_preserves_mass (z_g Z) (fun l => (length l =? n)%nat) hs HH).
  intros a b Hab. rewrite (Permutation_length Hab). reflexivity.
Qed.
Lemma sjcorrect_pos (Z : senv P X ST CV MS) gt pdf c bs t meas (s s' : jst) : sjcorrect G Z gt pdf c bs t meas s = Ok s' -> forall h, In h (g_hyps (y_g s')) -> 0 < h_p h.
Proof.
  intros H h Hh. destruct (sjcorrect_inv _ _ _ _ _ _ _ _ _ _ H) as [rows [hs X0]]. cbn zeta in X0. destruct X0 as [_ [_ [Eg [_ [Eh _]]]]].
  rewrite Eh in Hh. apply in_flat_map in Hh as [h0 [H0 Hr]]. apply reindex_in in Hr as [-> _]. assert (Hne : hs <> []) by (intros ->; destruct H0).
  apply (clean_pred_dist (z_g Z) _ (jcor_hyps_dist _ _ _ _ _ _ _ _ _ _ Eg Hne)), H0.
Qed.
End SJ.

(** * C188 *)
(** SMC-GLMB. *)
Theorem C188_smc_newest_step : forall {P X ST CV MS} (Z : senv P X ST CV MS) c bs os psf pdf t t' meas pr ca s,
  kshort_ok (v_kshort (z_g Z)) -> murty_ok (v_murty (z_g Z)) -> rsorts (v_argsort (z_g Z)) -> sprotocol 0 os = Some 0%nat ->
  pr = true \/ (forall z p, In z meas -> z_corr Z t' z p <> None) ->
  srun Z c bs (os ++ [SPredict psf t; SCorrect pdf t' meas; SCleanup pr ca true]) glmb_new = Ok s -> g_hyps s <> [] -> newest_shown s.
Proof.
  intros P X ST CV MS Z c bs os psf pdf t t' meas pr ca s Hk Hm Hs Hp Hf H Hne.
  rewrite srun_app in H. apply bind_ok in H as [s0 [R0 H]]. cbn [srun sexec] in H. apply bind_ok in H as [s1 [P1 H]]. apply bind_ok in H as [s2 [P2 H]]. apply bind_ok in H as [s3 [P3 H]]. assert (s3 = s) by congruence. subst s3. clear H.
  destruct (sxl_run Z c bs os 0 0 _ _ Hk Hm R0 Hp) as [HI HX]; [split; [intros e []|apply hinv_new]|intros x []|].
  destruct (spredict_inv _ _ _ _ _ _ _ P1) as [_ [_ [_ [_ [_ [_ [_ [_ [_ [_ [_ [_ [_ [_ [_ [_ [N1 [X1 _]]]]]]]]]]]]]]]]]].
  destruct (scorrect_inv _ _ _ _ _ _ _ P2) as [rows [av [hs [_ [_ [E3 [_ [Eh [_ [N2 [X2 _]]]]]]]]]]].
  assert (HI2 : PInv 2 s2) by (apply (spinv_run Z c bs [SPredict psf t; SCorrect pdf t' meas] 0 2 s0 s2 Hk Hm); [cbn [srun sexec]; rewrite P1; cbn [bind]; rewrite P2; reflexivity|reflexivity|exact HI]).
  apply (newest_clean (z_g Z) c pr ca s2 s Hs P3 Hne).
  - intros h Hh. rewrite Eh in Hh. apply in_flat_map in Hh as [h0 [H0 Hr]]. apply reindex_in in Hr as [-> _]. assert (Hn : hs <> []) by (intros ->; destruct H0).
    apply (scor_hyps_dist Z _ _ _ _ _ _ _ E3 Hn), H0.
  - destruct Hf as [Hf|Hf]; [left; exact Hf|right]. intros Hn. apply (scorrect_dist Z pdf c t' meas s1 s2 Hm Hf P2 Hn).
  - exact (proj1 HI2).
  - rewrite N2, N1, X2, X1. exact HX.
Qed.
Print Assumptions C188_smc_newest_step.
(** JGLMB. *)
Theorem C188_jglmb_newest_step : forall {FS ST CV MS} (E : genv FS ST CV MS) rnd gt c os t t' meas pr ca s,
  uniform rnd -> rsorts (v_argsort E) -> protocol 0 os = Some 0%nat ->
  pr = true \/ (hash_ok (v_hash E) /\ forall z f x, In z meas -> v_corr E t' z f x <> None) ->
  jrun E (sampler_of rnd) gt c (os ++ [OpPredict t; OpCorrect t' meas; OpCleanup pr ca true]) jst_new = Ok s -> g_hyps (y_g s) <> [] -> newest_shown (y_g s).
Proof.
  intros FS ST CV MS E rnd gt c os t t' meas pr ca s Hr Hs Hp Hf H Hne. apply uniform_ok in Hr. revert Hr H. generalize (sampler_of rnd) as G. intros G Hg H.
  rewrite jrun_app in H. apply bind_ok in H as [s0 [R0 H]]. cbn [jrun jexec] in H. apply bind_ok in H as [s1 [P1 H]]. apply bind_ok in H as [s2 [P2 H]]. apply bind_ok in H as [s3 [P3 H]].
  apply bind_ok in P3 as [g [P3 E3]]. assert (s = with_g s2 g) by congruence. subst s. clear H E3. cbn [with_g y_g] in *.
  destruct (jxl_run E G gt c os 0 0 _ _ Hg R0 Hp jpinv_new) as [HI HX]; [intros x []|].
  destruct (jpredict_inv _ _ _ _ _ P1) as [_ [_ [_ [N1 [X1 _]]]]].
  destruct (jcorrect_inv _ _ _ _ _ _ _ _ P2) as [hs X0]. cbn zeta in X0. destruct X0 as [_ [_ [_ [_ [_ [_ [N2 [X2 _]]]]]]]].
  assert (HI2 : JPInv 2 s2) by exact (jpinv_correct E G _ _ _ _ _ _ Hg P2 (jpinv_predict E _ _ _ _ P1 HI)).
  apply (newest_clean E c pr ca (y_g s2) g Hs P3 Hne).
  - exact (jcorrect_pos E G _ _ _ _ _ _ P2).
  - destruct Hf as [Hf|[Hh Hf]]; [left; exact Hf|right]. intros Hn. apply (jcorrect_dist E G _ _ _ _ _ _ Hg Hf P2 Hn), Hh.
  - exact (proj1 HI2).
  - rewrite N2, N1, X2, X1. exact HX.
Qed.
Print Assumptions C188_jglmb_newest_step.
(** SMC-JGLMB; the configuration, the births and the particle filter may differ
    from call to call. *)
Theorem C188_smc_jglmb_newest_step : forall {P X ST CV MS} rnd gt (vs : list (sjcall P X ST CV MS)) Z1 Z2 Z3 c1 c2 c3 bs1 bs2 bs3 psf pdf t t' meas pr ca s,
  uniform rnd -> rsorts (v_argsort (z_g Z3)) -> sprotocol 0 (sjops vs) = Some 0%nat ->
  pr = true \/ (hash_ok (v_hash (z_g Z2)) /\ forall z p, In z meas -> z_corr Z2 t' z p <> None) ->
  sjrun (sampler_of rnd) gt (vs ++ [(Z1, c1, bs1, SPredict psf t); (Z2, c2, bs2, SCorrect pdf t' meas); (Z3, c3, bs3, SCleanup pr ca true)]) jst_new = Ok s ->
  g_hyps (y_g s) <> [] -> newest_shown (y_g s).
Proof.
  intros P X ST CV MS rnd gt vs Z1 Z2 Z3 c1 c2 c3 bs1 bs2 bs3 psf pdf t t' meas pr ca s Hr Hs Hp Hf H Hne. apply uniform_ok in Hr. revert Hr H. generalize (sampler_of rnd) as G. intros G Hg H.
  rewrite sjrun_app in H. apply bind_ok in H as [s0 [R0 H]]. cbn [sjrun sjexec] in H. apply bind_ok in H as [s1 [P1 H]]. apply bind_ok in H as [s2 [P2 H]]. apply bind_ok in H as [s3 [P3 H]].
  apply bind_ok in P3 as [g [P3 E3]]. assert (s = with_g s2 g) by congruence. subst s. clear H E3. cbn [with_g y_g] in *.
  destruct (sjxl_run G gt vs 0 0 _ _ Hg R0 Hp jpinv_new) as [HI HX]; [intros x []|].
  destruct (sjpredict_inv _ _ _ _ _ _ _ P1) as [st [_ [_ [_ [_ [N1 [X1 _]]]]]]].
  destruct (sjcorrect_inv _ _ _ _ _ _ _ _ _ _ P2) as [rows [hs X0]]. cbn zeta in X0. destruct X0 as [_ [_ [_ [_ [_ [_ [N2 [X2 _]]]]]]]].
  assert (HI2 : JPInv 2 s2) by exact (sjpinv_correct Z2 G _ _ _ _ _ _ _ _ Hg P2 (sjpinv_predict Z1 _ _ _ _ _ _ P1 HI)).
  apply (newest_clean (z_g Z3) c3 pr ca (y_g s2) g Hs P3 Hne).
  - exact (sjcorrect_pos G Z2 _ _ _ _ _ _ _ _ P2).
  - destruct Hf as [Hf|[Hh Hf]]; [left; exact Hf|right]. intros Hn. exact (sjcorrect_card G Z2 _ _ _ _ _ _ _ _ Hg Hh Hf P2 Hn).
  - exact (proj1 HI2).
  - rewrite N2, N1, X2, X1. exact HX.
Qed.
Print Assumptions C188_smc_jglmb_newest_step.

(** * C189 *)
(** Refuted: extraction right after correct raises whenever the hypothesis it
    picks has a track. *)
Theorem C189_smc_extract_early_refuted : forall {P X ST CV MS} (Z : senv P X ST CV MS) c bs os s i h,
  kshort_ok (v_kshort (z_g Z)) -> murty_ok (v_murty (z_g Z)) -> srun Z c bs os glmb_new = Ok s -> sprotocol 0 os = Some 2%nat ->
  map_index s = Ok i -> nth_error (g_hyps s) i = Some h -> h_ts h <> [] -> exists e, extract_states c true true s = Err e.
Proof.
  intros P X ST CV MS Z c bs os s i h Hk Hm H Hp. destruct (spinv_run Z c bs os 0 2 _ _ Hk Hm H Hp) as [HL _]; [split; [intros x []|apply hinv_new]|].
  apply extract_early, HL.
Qed.
Print Assumptions C189_smc_extract_early_refuted.
Theorem C189_jglmb_extract_early_refuted : forall {FS ST CV MS} (E : genv FS ST CV MS) rnd gt c os s i h,
  uniform rnd -> jrun E (sampler_of rnd) gt c os jst_new = Ok s -> protocol 0 os = Some 2%nat ->
  map_index (y_g s) = Ok i -> nth_error (g_hyps (y_g s)) i = Some h -> h_ts h <> [] -> exists e, extract_states c true true (y_g s) = Err e.
Proof.
  intros FS ST CV MS E rnd gt c os s i h Hr H Hp. destruct (jpinv_run E _ gt c os 0 2 _ _ (uniform_ok _ Hr) H Hp jpinv_new) as [HL _]. apply extract_early, HL.
Qed.
Print Assumptions C189_jglmb_extract_early_refuted.
Theorem C189_smc_jglmb_extract_early_refuted : forall {P X ST CV MS} rnd gt c (vs : list (sjcall P X ST CV MS)) s i h,
  uniform rnd -> sjrun (sampler_of rnd) gt vs jst_new = Ok s -> sprotocol 0 (sjops vs) = Some 2%nat ->
  map_index (y_g s) = Ok i -> nth_error (g_hyps (y_g s)) i = Some h -> h_ts h <> [] -> exists e, extract_states c true true (y_g s) = Err e.
Proof.
  intros P X ST CV MS rnd gt c vs s i h Hr H Hp. destruct (sjpinv_run _ gt vs 0 2 _ _ (uniform_ok _ Hr) H Hp jpinv_new) as [HL _]. apply extract_early, HL.
Qed.
Print Assumptions C189_smc_jglmb_extract_early_refuted.
