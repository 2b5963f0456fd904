(** Concrete cases for C188 and C189: one scan without measurements; the joint
    classes request no update components, so the sampler answers its start. *)
From Verif Require Import Base Lists.
From Coq Require Import Reals Permutation Lra Lia.
From Verif Require Import OspaModel CphdModel OspaProofs CphdSpec CphdProofs CphdProps OspaMetric GlmbModel GlmbSpec GlmbProofs GlmbInv GlmbExtract GlmbMost GlmbTotal GlmbProps GlmbProps2 GlmbProps4 GlmbDemo GlmbProps3 GlmbMost2 GlmbNewest.
From Verif Require Import JglmbModel JglmbSpec JglmbProofs JglmbInv GibbsReal JglmbGibbs JglmbProps JglmbTotal JglmbDemo.
From Verif Require Import SmcModel SmcSpec SmcProofs SmcBayes SmcUpd SmcTotal SmcProps SmcDemo SmcDemo2 SmcJModel SmcJProofs SmcJProps SmcJDemo NewestAll.
Open Scope R_scope.

(** ** the particle class *)
Lemma n_smc : exists s2 s, let Z := z_env (fun x => x) 1 in let f := constf (1 / 2) in
  srun Z z_cfg z_births [SPredict f 0; SCorrect f 0 []] glmb_new = Ok s2 /\ g_hyps s2 = one [0%nat] /\ g_card s2 <> [] /\
  srun Z z_cfg z_births [SPredict f 0; SCorrect f 0 []; SCleanup false false true] glmb_new = Ok s /\ g_hyps s = one [0%nat].
Proof.
  cbv zeta. set (Z := z_env _ _). set (f := constf _). destruct (z_contracts (fun x => x) 1) as [Hk [_ [Hkt [Hm [_ [_ [Hmt [_ [Hs Hl]]]]]]]]].
  destruct (C116_smc_cycle_total Z z_cfg z_births [(f, f, 0, [], (false, false, true))]) as [s [R _]]; auto.
  - apply z_works. lra.
  - intros psf pdf t meas fl [E0|[]]. injection E0 as <- <- _ _ _. split; apply const_prob; lra.
  - exact z_births_ok.
  - cbn. lra.
  - cbn. lra.
  - cbn [flat_map scycle app] in R. destruct (z_ready (fun x => x) 1) as [s3 [R3 [_ H3]]]. fold Z in R3. unfold z_ops in R3. fold f in R3.
    cbn [srun sexec] in R, R3 |- *. apply bind_ok in R as [s1 [P1 R]]. apply bind_ok in R as [s2 [P2 R]]. apply bind_ok in R as [s' [P3 R]]. injection R as ->.
    rewrite P1 in R3. cbn [bind] in R3. rewrite P2 in R3. cbn [bind] in R3. unfold cleanup in R3. cbn zeta in R3. cbn [bind] in R3. injection R3 as <-. change (g_hyps s2 = one [0%nat]) in H3.
    exists s2, s. rewrite P1. cbn [bind]. rewrite P2. cbn [bind]. split; [reflexivity|]. split; [exact H3|].
    split. { destruct (scorrect_inv _ _ _ _ _ _ _ P2) as [_ [_ [hs [_ [_ [_ [_ [_ [-> _]]]]]]]]]. apply calc_card_ne. }
    split; [rewrite P3; reflexivity|]. destruct (cleanup_inv _ _ _ _ _ _ _ P3) as [_ [_ [_ [-> _]]]]. exact H3.
Qed.
Example C188_smc_hypotheses : exists (Z : senv R unit R unit unit) c bs f s,
  kshort_ok (v_kshort (z_g Z)) /\ murty_ok (v_murty (z_g Z)) /\ rsorts (v_argsort (z_g Z)) /\ (forall z p, In z [] -> z_corr Z 0 z p <> None) /\
  srun Z c bs ([] ++ [SPredict f 0; SCorrect f 0 []; SCleanup false false true]) glmb_new = Ok s /\ g_hyps s <> [] /\ newest_shown s.
Proof.
  destruct n_smc as [_ [s [_ [_ [_ [R H]]]]]]. destruct (z_contracts (fun x => x) 1) as [Hk [_ [_ [Hm [_ [_ [_ [_ [Hs _]]]]]]]]].
  assert (Hn : g_hyps s <> []) by (rewrite H; discriminate).
  exists (z_env (fun x => x) 1), z_cfg, z_births, (constf (1 / 2)), s. split; [exact Hk|]. split; [exact Hm|]. split; [exact Hs|]. split; [intros z p []|]. split; [exact R|]. split; [exact Hn|].
  eapply (C188_smc_newest_step _ _ _ []); [exact Hk|exact Hm|exact Hs|reflexivity| |exact R|exact Hn]. right. intros z p [].
Qed.
(** From a state whose hypotheses all have one track. *)
Lemma n_map {FS ST CV MS} (s : glmb FS ST CV MS) : g_card s <> [] -> g_hyps s <> [] -> (forall h, In h (g_hyps s) -> length (h_ts h) = 1%nat) ->
  exists i h, map_index s = Ok i /\ nth_error (g_hyps s) i = Some h /\ h_ts h <> [].
Proof.
  intros Hc Hn H1. destruct (map_index_ok s Hc Hn) as [i Hi]. destruct (map_index_lt _ _ Hi) as [h Hh]. exists i, h. split; [exact Hi|]. split; [exact Hh|].
  intros E0. specialize (H1 h (nth_error_In _ _ Hh)). rewrite E0 in H1. discriminate.
Qed.
Example C189_smc_witness : exists (Z : senv R unit R unit unit) c bs f s e,
  kshort_ok (v_kshort (z_g Z)) /\ murty_ok (v_murty (z_g Z)) /\ srun Z c bs [SPredict f 0; SCorrect f 0 []] glmb_new = Ok s /\ extract_states c true true s = Err e.
Proof.
  destruct n_smc as [s [_ [R [H [Hc _]]]]]. destruct (z_contracts (fun x => x) 1) as [Hk [_ [_ [Hm _]]]].
  destruct (n_map s Hc) as [i [h [A [B D]]]]; [rewrite H; discriminate|rewrite H; intros h [<-|[]]; reflexivity|].
  destruct (C189_smc_extract_early_refuted _ _ _ _ s i h Hk Hm R eq_refl A B D) as [e He].
  exists (z_env (fun x => x) 1), z_cfg, z_births, (constf (1 / 2)), s, e. auto.
Qed.

(** ** the joint classes *)
Lemma jcor_start {FS ST CV MS} (E : genv FS ST CV MS) G c k n m ac call p r : gibbs_ok G -> gibbs_start G -> c_requ c = 0%nat -> length (c_births c) = 1%nat ->
  jcor_hyps E G c k n m ac call [{| h_p := p; h_ts := [] |}] = Ok r -> r <> [] /\ forall h, In h r -> h_ts h = [0%nat].
Proof.
  intros Hg Hs Hc Hb H. unfold jcor_hyps in H. cbv zeta in H. apply bind_ok in H as [ll [E1 H]]. cbn [length seq combine mapM fst snd] in E1. apply bind_ok in E1 as [l [E1 E2]]. injection E2 as <-.
  unfold jcor_hyp in E1. cbv zeta in E1. assert (Ht : tindices c {| h_p := p; h_ts := [] |} = [0%nat]) by (unfold tindices; rewrite Hb; reflexivity). rewrite Ht in E1.
  destruct (forallb _ _); cbn [negb] in E1; [|discriminate]. rewrite Hc in E1.
  assert (Hi : forall x y, Z.to_nat (roundR (INR 0 * x / y)) = 0%nat).
  { intros x y. replace (INR 0 * x / y) with (INR 0 * sqrt 1 / 1) by (cbn; unfold Rdiv; ring). apply k_of_1. }
  rewrite Hi in E1. apply bind_ok in E1 as [[rows costs] [G1 E1]]. apply bind_ok in E1 as [l1 [_ E1]]. apply bind_ok in E1 as [l2 [_ E1]]. injection E1 as <-. change (length [0%nat]) with 1%nat in G1. change (2 * 1 + (if (1 =? 0)%nat then 0 else m))%nat with (2 + m)%nat in G1.
  assert (L2 : (2 * 1 <= 2 + m)%nat) by lia.
  destruct (Hg _ _ _ _ _ _ _ L2 (le_n 1) G1) as [Lr [_ [_ [L1 _]]]]. pose proof (Hs _ _ _ _ _ _ _ L2 (le_n 1) G1) as Hin.
  destruct rows as [|row [|row2 rows]]; [destruct Hin| |cbn in L1; lia]. destruct Hin as [->|[]]. destruct costs as [|x [|x2 costs]]; [discriminate| |discriminate].
  cbn [concat app combine map fst snd] in H. pose proof (normalise_ts E _ _ H) as N. cbn [map h_ts] in N. change (decode n [0%nat] (seq 1 1)) with [0%nat] in N.
  destruct r as [|h [|h2 r]]; [discriminate| |discriminate]. split; [discriminate|]. intros h' [<-|[]]. cbn [map] in N. congruence.
Qed.
Lemma clean_ts {FS ST CV MS} (E : genv FS ST CV MS) hs : (forall h, In h hs -> h_ts h = [0%nat]) -> forall h, In h (clean_predictions E hs) -> length (h_ts h) = 1%nat.
Proof. intros H h Hh. destruct (clean_in _ _ _ Hh) as [h0 [Hi E0]]. rewrite <- E0, (H h0 Hi). reflexivity. Qed.

Definition n_cfg : gcfg unit unit :=
  {| c_births := [(d_birth, 9 / 10)]; c_ps := 9 / 10; c_pd := 9 / 10; c_crate := 1; c_cden := 1; c_reqb := 1; c_reqs := 1; c_requ := 0;
     c_prune := 0; c_maxh := 10; c_savecov := false; c_savemeas := false |}.
Lemma n_joint : exists s2 s, let E := d_env false in let G := sampler_of j_rnd in
  jrun E G false n_cfg [OpPredict 0; OpCorrect 0 []] jst_new = Ok s2 /\ g_card (y_g s2) <> [] /\ g_hyps (y_g s2) <> [] /\ (forall h, In h (g_hyps (y_g s2)) -> length (h_ts h) = 1%nat) /\
  jrun E G false n_cfg [OpPredict 0; OpCorrect 0 []; OpCleanup false false true] jst_new = Ok s /\ g_hyps (y_g s) <> [].
Proof.
  cbv zeta. set (E := d_env false). set (G := sampler_of j_rnd).
  destruct (C100_jglmb_cycle_total E j_rnd n_cfg [(0, [], (false, false, true))]) as [s [R _]].
  - split; [intros b p [Hb|[]]; inversion Hb; lra|]. cbn. lra.
  - intros b p [H|[]]. inversion H; subst. cbn. lia.
  - exact j_uniform.
  - reflexivity.
  - exact C44_ex.
  - fold G in R. cbn [flat_map cycle app] in R. cbn [jrun jexec] in R |- *. apply bind_ok in R as [s1 [P1 R]]. apply bind_ok in R as [s2 [P2 R]]. apply bind_ok in R as [s3 [P3 R]]. injection R as ->.
    exists s2, s. rewrite P1. cbn [bind]. rewrite P2. cbn [bind]. split; [reflexivity|].
    pose proof (uniform_ok _ j_uniform : gibbs_ok G) as Hg. pose proof (sampler_start _ j_uniform : gibbs_start G) as Hst.
    destruct (jpredict_inv _ _ _ _ _ P1) as [_ [H1 _]]. destruct (jcorrect_inv _ _ _ _ _ _ _ _ P2) as [hs X0]. cbn zeta in X0. destruct X0 as [_ [_ [Eg [_ [Eh [Ec _]]]]]].
    rewrite H1 in Eg. change (g_hyps (y_g jst_new)) with [{| h_p := 1; h_ts := [] |}] in Eg. destruct (jcor_start E G n_cfg _ _ _ _ _ _ _ Hg Hst eq_refl eq_refl Eg) as [Hne Hts].
    assert (Hnone : forall (z : unit) f x, In z [] -> v_corr E 0 z f x <> None) by (intros z f x []).
    destruct (jcorrect_full E G _ _ _ _ _ _ Hg Hnone P2) as [hs' [HF [_ HC]]].
    assert (Hn2 : g_hyps (y_g s2) <> []).
    { intros E0. rewrite E0 in HF. inversion HF as [E1|]. assert (Hl : hs' = []) by (destruct hs'; [reflexivity|exfalso; apply (clean_cons_ne E (h :: hs')); [discriminate|congruence]]).
      rewrite Hl, Ec in HC. destruct hs as [|h0 hs]; [congruence|]. pose proof (Hts h0 (or_introl eq_refl)) as H0.
      assert (Hm := calc_card_matches (h0 :: hs) Hne 1%nat). rewrite HC in Hm. 
      assert (Hp : 0 < mass (fun x => (length (h_ts x) =? 1)%nat) (h0 :: hs)).
      { unfold mass. apply rsum_allpos; [|intros h' Hh'; apply filter_In in Hh' as [Hh' _]; apply (jcor_hyps_dist _ _ _ _ _ _ _ _ _ _ Eg Hne), Hh'].
        intros E9. assert (I : In h0 (filter (fun x => (length (h_ts x) =? 1)%nat) (h0 :: hs))) by (apply filter_In; split; [left; reflexivity|rewrite H0; reflexivity]). rewrite E9 in I. destruct I. }
      rewrite <- Hm in Hp. cbn in Hp. lra. }
    split; [rewrite Ec; apply calc_card_ne|]. split; [exact Hn2|]. split.
    { intros h Hh. rewrite Eh in Hh. apply in_flat_map in Hh as [h0 [H0 Hr]]. apply reindex_in in Hr as [_ Hr]. apply (f_equal (@length _)) in Hr. rewrite !map_length in Hr. rewrite Hr. exact (clean_ts E hs Hts h0 H0). }
    rewrite P3. cbn [bind]. split; [reflexivity|]. apply bind_ok in P3 as [g [P3 E3]]. injection E3 as <-. cbn [with_g y_g]. destruct (cleanup_inv _ _ _ _ _ _ _ P3) as [_ [_ [_ [-> _]]]]. exact Hn2.
Qed.
Example C188_jglmb_hypotheses : exists (E : genv unit unit unit unit) c s, uniform j_rnd /\ rsorts (v_argsort E) /\ hash_ok (v_hash E) /\ (forall z f x, In z [] -> v_corr E 0 z f x <> None) /\
  jrun E (sampler_of j_rnd) false c ([] ++ [OpPredict 0; OpCorrect 0 []; OpCleanup false false true]) jst_new = Ok s /\ g_hyps (y_g s) <> [] /\ newest_shown (y_g s).
Proof.
  destruct n_joint as [_ [s [_ [_ [_ [_ [R Hn]]]]]]]. exists (d_env false), n_cfg, s. split; [exact j_uniform|]. split; [exact C44_ex|]. split; [apply d_hash_ok|]. split; [intros z f x []|]. split; [exact R|]. split; [exact Hn|].
  eapply (C188_jglmb_newest_step (d_env false) j_rnd false n_cfg []); [exact j_uniform|exact C44_ex|reflexivity| |exact R|exact Hn]. right. split; [apply d_hash_ok|intros z f x []].
Qed.
Example C189_jglmb_witness : exists (E : genv unit unit unit unit) c s e, jrun E (sampler_of j_rnd) false c [OpPredict 0; OpCorrect 0 []] jst_new = Ok s /\ extract_states c true true (y_g s) = Err e.
Proof.
  destruct n_joint as [s [_ [R [Hc [Hn [H1 _]]]]]]. destruct (n_map (y_g s) Hc Hn H1) as [i [h [A [B D]]]].
  destruct (C189_jglmb_extract_early_refuted _ j_rnd false n_cfg _ s i h j_uniform R eq_refl A B D) as [e He]. exists (d_env false), n_cfg, s, e. auto.
Qed.

(** ** the joint class with particles *)
Definition nz_cfg : gcfg R unit :=
  {| c_births := []; c_ps := 1 / 2; c_pd := 1 / 2; c_crate := 1; c_cden := 1; c_reqb := 1; c_reqs := 1; c_requ := 0;
     c_prune := 0; c_maxh := 10; c_savecov := false; c_savemeas := false |}.
Definition nz_call (o : sop R unit) : sjcall R unit R unit unit := (z_env (fun x => x) 1, nz_cfg, z_births, o).
Lemma n_sjoint : exists s2 s, let G := sampler_of j_rnd in let f := constf (1 / 2) in
  sjrun G false [nz_call (SPredict f 0); nz_call (SCorrect f 0 [])] jst_new = Ok s2 /\ g_card (y_g s2) <> [] /\ g_hyps (y_g s2) <> [] /\ (forall h, In h (g_hyps (y_g s2)) -> length (h_ts h) = 1%nat) /\
  sjrun G false [nz_call (SPredict f 0); nz_call (SCorrect f 0 []); nz_call (SCleanup false false true)] jst_new = Ok s /\ g_hyps (y_g s) <> [].
Proof.
  cbv zeta. set (G := sampler_of j_rnd). set (f := constf (1 / 2)). pose (Z := z_env (fun x => x) 1).
  destruct (C129_cycle_total j_rnd [(Z, nz_cfg, z_births, (f, f, 0, [], (false, false, true)))] j_uniform) as [s [R _]].
  - constructor; [|constructor]. split; [apply z_works; lra|]. split; [apply const_prob; lra|]. split; [apply const_prob; lra|]. split; [exact z_births_ok|].
    split; [cbn; lra|]. split; [cbn; lra|]. split; [reflexivity|exact C44_ex].
  - constructor; constructor.
  - fold G in R. cbn [flat_map sjscan scycle map app] in R. unfold nz_call. fold Z. cbn [sjrun sjexec] in R |- *. apply bind_ok in R as [s1 [P1 R]]. apply bind_ok in R as [s2 [P2 R]]. apply bind_ok in R as [s3 [P3 R]]. injection R as ->.
    exists s2, s. rewrite P1. cbn [bind]. rewrite P2. cbn [bind]. split; [reflexivity|].
    pose proof (uniform_ok _ j_uniform : gibbs_ok G) as Hg. pose proof (sampler_start _ j_uniform : gibbs_start G) as Hst.
    destruct (sjpredict_inv _ _ _ _ _ _ _ P1) as [st [_ [_ [H1 _]]]]. destruct (sjcorrect_inv _ _ _ _ _ _ _ _ _ _ P2) as [rows [hs X0]]. cbn zeta in X0. destruct X0 as [_ [_ [Eg [_ [Eh [Ec _]]]]]].
    rewrite H1 in Eg. change (g_hyps (y_g jst_new)) with [{| h_p := 1; h_ts := [] |}] in Eg. destruct (jcor_start (z_g Z) G (sjcfg nz_cfg z_births) _ _ _ _ _ _ _ Hg Hst eq_refl eq_refl Eg) as [Hne Hts].
    assert (Hnone : forall (z : unit) p, In z [] -> z_corr Z 0 z p <> None) by (intros z p []).
    destruct (sjcorrect_full Z G _ _ _ _ _ _ _ _ Hg Hnone P2) as [hs' [HF [_ HC]]].
    assert (Hn2 : g_hyps (y_g s2) <> []).
    { intros E0. rewrite E0 in HF. apply F2_len in HF. assert (Hl : hs' = []) by (destruct hs' as [|h hs']; [reflexivity|exfalso; apply (clean_cons_ne (z_g Z) (h :: hs')); [discriminate|apply length_zero_iff_nil; (exact HF || exact (eq_sym HF))]]).
      rewrite Hl, Ec in HC. destruct hs as [|h0 hs]; [congruence|]. pose proof (Hts h0 (or_introl eq_refl)) as H0.
      assert (Hm := calc_card_matches (h0 :: hs) Hne 1%nat). rewrite HC in Hm. 
      assert (Hp : 0 < mass (fun x => (length (h_ts x) =? 1)%nat) (h0 :: hs)).
      { unfold mass. apply rsum_allpos; [|intros h' Hh'; apply filter_In in Hh' as [Hh' _]; apply (jcor_hyps_dist _ _ _ _ _ _ _ _ _ _ Eg Hne), Hh'].
        intros E9. assert (I : In h0 (filter (fun x => (length (h_ts x) =? 1)%nat) (h0 :: hs))) by (apply filter_In; split; [left; reflexivity|rewrite H0; reflexivity]). rewrite E9 in I. destruct I. }
      rewrite <- Hm in Hp. cbn in Hp. lra. }
    split; [rewrite Ec; apply calc_card_ne|]. split; [exact Hn2|]. split.
    { intros h Hh. rewrite Eh in Hh. apply in_flat_map in Hh as [h0 [H0 Hr]]. apply reindex_in in Hr as [_ Hr]. apply (f_equal (@length _)) in Hr. rewrite !map_length in Hr. rewrite Hr. exact (clean_ts (z_g Z) hs Hts h0 H0). }
    rewrite P3. cbn [bind]. split; [reflexivity|]. apply bind_ok in P3 as [g [P3 E3]]. injection E3 as <-. cbn [with_g y_g]. destruct (cleanup_inv _ _ _ _ _ _ _ P3) as [_ [_ [_ [-> _]]]]. exact Hn2.
Qed.
Example C188_smc_jglmb_hypotheses : exists s, let f := constf (1 / 2) in uniform j_rnd /\ hash_ok (v_hash (z_g (z_env (fun x => x) 1))) /\
  sjrun (sampler_of j_rnd) false ([] ++ [nz_call (SPredict f 0); nz_call (SCorrect f 0 []); nz_call (SCleanup false false true)]) jst_new = Ok s /\ g_hyps (y_g s) <> [] /\ newest_shown (y_g s).
Proof.
  destruct n_sjoint as [_ [s [_ [_ [_ [_ [R Hn]]]]]]]. destruct (z_contracts (fun x => x) 1) as [_ [_ [_ [_ [_ [_ [_ [Hh [Hs _]]]]]]]]].
  exists s. cbv zeta. split; [exact j_uniform|]. split; [exact Hh|]. split; [exact R|]. split; [exact Hn|].
  eapply (C188_smc_jglmb_newest_step j_rnd false []); [exact j_uniform|exact Hs|reflexivity| |exact R|exact Hn]. right. split; [exact Hh|intros z p []].
Qed.
Example C189_smc_jglmb_witness : exists s e, let f := constf (1 / 2) in
  sjrun (sampler_of j_rnd) false [nz_call (SPredict f 0); nz_call (SCorrect f 0 [])] jst_new = Ok s /\ extract_states nz_cfg true true (y_g s) = Err e.
Proof.
  destruct n_sjoint as [s [_ [R [Hc [Hn [H1 _]]]]]]. destruct (n_map (y_g s) Hc Hn H1) as [i [h [A [B D]]]].
  destruct (C189_smc_jglmb_extract_early_refuted j_rnd false nz_cfg _ s i h j_uniform R eq_refl A B D) as [e He]. exists s, e. auto.
Qed.
