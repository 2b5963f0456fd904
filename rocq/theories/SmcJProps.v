(** Properties C129 and C130 of the SMC joint GLMB filter. *)
From Verif Require Import Base Lists.
From Coq Require Import Reals Permutation Lra.
From Verif Require Import OspaModel CphdModel OspaProofs CphdSpec CphdProofs OspaMetric GlmbModel GlmbSpec GlmbProofs GlmbInv GlmbExtract GlmbMost GlmbTotal GlmbProps GlmbBayes.
From Verif Require Import JglmbModel JglmbSpec JglmbProofs JglmbInv GibbsReal JglmbGibbs JglmbProps JglmbTotal SmcModel SmcSpec SmcProofs SmcBayes SmcUpd SmcTotal SmcJModel SmcJProofs.
Open Scope R_scope.

Section S.
Context {P X ST CV MS : Type}.
Notation pfs := (pfs P X).
Notation entry := (entry pfs ST CV).
Notation gcfg := (gcfg ST CV).
Notation jst := (jst pfs ST CV MS).
Notation sop := (sop P MS).
Notation birth := (pfs * ST * CV * R)%type.
Notation senv := (senv P X ST CV MS).
Notation sjcall := (sjcall P X ST CV MS).
(** ** vocabulary *)
(** every call is made in surroundings that satisfy [Q] *)
Definition sjevery (Q : senv -> sop -> Prop) (vs : list sjcall) : Prop := forall Z c bs o, In (Z, c, bs, o) vs -> Q Z o.
Definition sjops (vs : list sjcall) : list sop := map snd vs.
(** the rounded predict times *)
Definition sjtimes (vs : list sjcall) : list BinNums.Z :=
  flat_map (fun v => match snd v with SPredict _ t => [v_rnd (z_g (fst (fst (fst v)))) t] | _ => [] end) vs.
(** one scan with the attribute values, birth terms and particle filter of that scan *)
Definition sjscan (x : senv * gcfg * list birth * ((list P -> list R) * (list P -> list R) * R * list MS * (bool * bool * bool))) : list sjcall :=
  let '(Z, c, bs, sc) := x in map (fun o => (Z, c, bs, o)) (scycle sc).
Definition sjscan_ok (x : senv * gcfg * list birth * ((list P -> list R) * (list P -> list R) * R * list MS * (bool * bool * bool))) : Prop :=
  let '(Z, c, bs, (psf, pdf, _, _, _)) := x in
  pf_works Z /\ prob_fun psf /\ prob_fun pdf /\ sbirths_ok bs /\ 0 < c_crate c /\ 0 < c_cden c /\ v_lse0 (z_g Z) = Ok tt /\ rsorts (v_argsort (z_g Z)).
(** covariances recorded at the later scan only if at the earlier one *)
Definition sjnot_switched_on (x y : senv * gcfg * list birth * ((list P -> list R) * (list P -> list R) * R * list MS * (bool * bool * bool))) : Prop :=
  c_savecov (snd (fst (fst y))) = true -> c_savecov (snd (fst (fst x))) = true.

Variable G : sampler.
Lemma sjrun_app gt vs1 vs2 (s : jst) : sjrun G gt (vs1 ++ vs2) s = (do s1 <- sjrun G gt vs1 s; sjrun G gt vs2 s1).
Proof.
  revert s. induction vs1 as [|[[[Z c] bs] o] vs1 IH]; intros s; [reflexivity|]. cbn [sjrun app]. destruct (sjexec G Z gt c bs o s) as [s1|e]; cbn [bind]; [apply IH|reflexivity].
Qed.
Lemma sjtrue_run gt vs : forall s s' : jst, gibbs_ok G -> sjrun G gt vs s = Ok s' -> JInv (fun _ _ => True) s -> NDInv s -> JInv (fun _ _ => True) s' /\ NDInv s'.
Proof.
  induction vs as [|[[[Z c] bs] o] vs IH]; intros s s' Hg H HI HN; cbn [sjrun] in H; [injection H as <-; auto|]. apply bind_ok in H as [s1 [H1 H]].
  exact (IH s1 s' Hg H (sjtrue_exec Z G _ _ _ _ _ _ Hg H1 HI) (sjnd_exec Z G _ _ _ _ _ _ Hg H1 HN)).
Qed.
Lemma sjdist_run gt vs : forall s s' : jst, gibbs_ok G -> sjevery (fun Z o => rsorts (v_argsort (z_g Z)) /\ snever_fails Z [o]) vs -> sjrun G gt vs s = Ok s' ->
  (g_hyps (y_g s) <> [] -> prob_dist (g_hyps (y_g s))) -> g_hyps (y_g s') <> [] -> prob_dist (g_hyps (y_g s')).
Proof.
  induction vs as [|[[[Z c] bs] o] vs IH]; intros s s' Hg Hv H HI; cbn [sjrun] in H; [injection H as <-; exact HI|]. apply bind_ok in H as [s1 [H1 H]].
  destruct (Hv Z c bs o (or_introl eq_refl)) as [Hs Hn]. apply (IH s1 s' Hg (fun Z' c' b' o' Hi => Hv Z' c' b' o' (or_intror Hi)) H).
  exact (sjexec_dist Z G _ _ _ _ _ _ Hg Hs Hn H1 HI).
Qed.
Lemma sjlinv_run gt vs : forall (s s' : jst) used, gibbs_ok G -> sjrun G gt vs s = Ok s' -> NoDup (sjtimes vs) -> (forall z, In z used -> ~ In z (sjtimes vs)) -> JLInv used s ->
  exists used', JLInv used' s'.
Proof.
  induction vs as [|[[[Z c] bs] o] vs IH]; intros s s' used Hg H Hnd Hdis HI; cbn [sjrun] in H; [injection H as <-; eauto|]. apply bind_ok in H as [s1 [H1 H]].
  apply (IH s1 s' (match o with SPredict _ t => v_rnd (z_g Z) t :: used | _ => used end) Hg H).
  - destruct o; cbn in Hnd; try exact Hnd. inversion Hnd; assumption.
  - destruct o as [psf t| | |]; cbn in Hdis, Hnd; try exact Hdis. intros z [<-|Hz]; [inversion Hnd; assumption|]. intros Hi. apply (Hdis z Hz). right. exact Hi.
  - apply (sjlinv_exec Z G _ _ _ _ _ _ _ Hg H1); [|exact HI]. intros psf t -> Hi. apply (Hdis _ Hi). cbn. left. reflexivity.
Qed.
Lemma sproto_cons (o : sop) os ph ph' : sprotocol ph (o :: os) = Some ph' -> exists p1, sprotocol ph [o] = Some p1 /\ sprotocol p1 os = Some ph'.
Proof. destruct o as [f t|f t m|a b d|u k]; destruct ph as [|[|[|ph]]]; cbn; intros H; try discriminate; eauto. Qed.
Lemma sjpinv_run gt vs : forall ph ph' (s s' : jst), gibbs_ok G -> sjrun G gt vs s = Ok s' -> sprotocol ph (sjops vs) = Some ph' -> JPInv ph s -> JPInv ph' s'.
Proof.
  induction vs as [|[[[Z c] bs] o] vs IH]; intros ph ph' s s' Hg H Hp HI; cbn [sjrun] in H; [injection H as <-; cbn in Hp; injection Hp as <-; exact HI|]. apply bind_ok in H as [s1 [H1 H]].
  apply sproto_cons in Hp as [p1 [Hp1 Hp]]. exact (IH p1 ph' s1 s' Hg H Hp (sjpinv_exec Z G _ _ _ _ _ _ _ _ Hg H1 Hp1 HI)).
Qed.
Lemma sjold_run gt vs : forall s s' : jst, sjrun G gt vs s = Ok s' -> (forall psf t, ~ In (SPredict psf t) (sjops vs)) -> y_old s = length (g_tab (y_g s)) -> y_old s' = length (g_tab (y_g s')).
Proof.
  induction vs as [|[[[Z c] bs] o] vs IH]; intros s s' H Hp HI; cbn [sjrun] in H; [injection H as <-; exact HI|]. apply bind_ok in H as [s1 [H1 H]].
  apply (IH s1 s' H); [intros psf t Hi; apply (Hp psf t); right; exact Hi|]. refine (sjold_exec Z G _ _ _ _ _ _ H1 _ HI). intros psf t ->. apply (Hp psf t). left. reflexivity.
Qed.
Lemma sjold_correct gt vs Z c bs pdf t meas rest (s s' : jst) : sjrun G gt (vs ++ (Z, c, bs, SCorrect pdf t meas) :: rest) s = Ok s' -> (forall psf t, ~ In (SPredict psf t) (sjops rest)) ->
  y_old s' = length (g_tab (y_g s')).
Proof.
  intros H Hp. rewrite sjrun_app in H. apply bind_ok in H as [s1 [_ H]]. cbn [sjrun sjexec] in H. apply bind_ok in H as [s2 [H2 H]].
  apply (sjold_run _ _ _ _ H Hp). destruct (sjcorrect_inv Z G _ _ _ _ _ _ _ _ H2) as [rows [hs X0]]. cbn zeta in X0. tauto.
Qed.

(** ** totality *)
Lemma sshape_birth Z c t cnt i b : SShape c (@sbirth_entry P X ST CV MS Z c t cnt i b).
Proof.
  destruct b as [[[b m] cv] p]. split; [intros l [<-|[]]; reflexivity|]. intros Hc l Hl. cbn [sbirth_entry e_cov] in Hl. rewrite Hc in Hl. destruct Hl as [<-|[]]. reflexivity.
Qed.
Lemma sshape_pred (Z : senv) psf c t e e' : one_cloud e -> SShape c e -> spred_entry Z psf c t e = Ok e' -> SShape c e'.
Proof.
  intros [_ [[p Es] [[x Ex] _]]] [S1 S2] Hs. destruct (spred_spec Z psf c t e e' p x Es Ex Hs) as [s1 [x1 [_ [_ [_ [_ [_ [A [B _]]]]]]]]]. split.
  - intros l Hl. rewrite A in Hl. apply in_app_or in Hl as [Hl|[<-|[]]]; [exact (S1 l Hl)|reflexivity].
  - intros Hc l Hl. rewrite B in Hl. apply in_app_or in Hl as [Hl|[<-|[]]]; [exact (S2 Hc l Hl)|reflexivity].
Qed.
Lemma sshape_upd (Z : senv) pdf c t meas e a e' : one_cloud e -> SShape c e -> supd Z pdf c t meas e a e' -> SShape c e'.
Proof.
  intros HO [S1 S2] Hu. apply supd_successor in Hu; [|exact HO]. destruct Hu as [_ [_ Hu]]. destruct a as [|j].
  - destruct Hu as [_ [_ [_ [A B]]]]. split; [rewrite A; exact S1|rewrite B; exact S2].
  - destruct Hu as [_ [_ [z [p [x [p' [x' [_ [_ [_ [_ [A [B _]]]]]]]]]]]]]. split.
    + intros l Hl. rewrite A in Hl. apply in_app_or in Hl as [Hl|[<-|[]]]; [exact (S1 l (removelast_in _ _ Hl))|reflexivity].
    + intros Hc l Hl. rewrite B in Hl. apply in_app_or in Hl as [Hl|[<-|[]]]; [exact (S2 Hc l (removelast_in _ _ Hl))|reflexivity].
Qed.
Lemma works_birth (Z : senv) c bs t cnt i b : sbirths_ok bs -> nth_error bs i = Some b -> cloud_ok (sbirth_entry Z c t cnt i b).
Proof.
  intros Hb Hbi. split; [apply one_birth|]. destruct b as [[[b m] cv] p]. exists b. split; [reflexivity|]. apply nth_error_In in Hbi. destruct (Hb _ _ _ _ Hbi) as [A [B _]]. apply counted_norm; assumption.
Qed.
Lemma works_pred (Z : senv) psf c t e e' : pf_works Z -> prob_fun psf -> cloud_ok e -> spred_entry Z psf c t e = Ok e' -> cloud_ok e'.
Proof.
  intros [Hp1 _] Hf HC Hs. pose proof HC as [HO [p [Es [Hne Hno]]]]. split; [exact (one_pred _ _ _ _ _ _ HO Hs)|]. pose proof HO as [_ [_ [[x Ex] _]]].
  destruct (spred_spec Z psf c t e e' p x Es Ex Hs) as [p' [x' [_ [_ [_ [_ [Ef [_ [_ Hc]]]]]]]]]. exists p'. split; [exact Ef|].
  destruct (cloud_live e p HC Es) as [Hl _].
  destruct (p_parts p) as [|q0 qs] eqn:Ep; [congruence|]. destruct Hc as [P1 [_ [_ [L1 [W1 N1]]]]].
  destruct (Hp1 t p Hl) as [[A [B C]] _]. set (s1 := fst (z_pred Z t p)) in *. set (u := map (fun wp => fst wp * snd wp) _) in *.
  assert (Hu : length u = length (p_parts s1)) by (unfold u; rewrite map_length, combine_length, <- L1, Nat.min_id; exact B).
  assert (Hu0 : u <> []) by (intros E0; rewrite E0 in Hu; destruct (p_parts s1); [congruence|discriminate]).
  destruct (reweight u Hu0) as [R1 R2]; [|apply N1, Hu0|].
  { intros y Hy. unfold u in Hy. apply in_map_iff in Hy as [[a b] [<- Hab]]. cbn [fst snd]. apply Rmult_le_pos; [exact (C a (in_combine_l _ _ _ _ Hab))|]. destruct (Hf (p_parts s1)) as [_ F2]. specialize (F2 b (in_combine_r _ _ _ _ Hab)). lra. }
  rewrite P1. split; [exact A|]. unfold normalised. rewrite P1, W1. split; [rewrite map_length; exact Hu|]. split; [exact R1|exact R2].
Qed.
Definition SJRInv c (s : jst) : Prop := JPInv 0 s /\ (forall x, In x (g_ext (y_g s)) -> xlen 0 (g_cnt (y_g s)) x) /\ (forall e, In e (g_tab (y_g s)) -> cloud_ok e /\ SShape c e) /\
  y_old s = length (g_tab (y_g s)) /\ (forall h, In h (g_hyps (y_g s)) -> 0 < h_p h).
Lemma sjcycle_total x (s : jst) : gibbs_ok G -> gibbs_total G -> sjscan_ok x -> SJRInv (snd (fst (fst x))) s ->
  exists s', sjrun G false (sjscan x) s = Ok s' /\ SJRInv (snd (fst (fst x))) s' /\ g_card (y_g s') <> [].
Proof.
  destruct x as [[[Z c] bs] [[[[psf pdf] t] meas] [[pr ca] ex]]]. cbn [fst snd sjscan_ok]. intros Hok Hgt [Hw [Hf [Hg [Hb [Hcr [Hcd [Hl Hs]]]]]]] [HP [HX [HT [Ho Hp]]]].
  assert (E1 : exists s1, sjpredict Z psf c bs t s = Ok s1).
  { unfold sjpredict. destruct (mapM_all_ok (fun b : birth => if Req_EM_T (bprob b) 1 then Err ValueErr else Ok tt) bs) as [ys Ey].
    - intros [[[b m] cv] p] Hi. unfold bprob. cbn [snd]. destruct (Hb _ _ _ _ Hi) as [_ [_ H]]. destruct (Req_EM_T p 1); [lra|eauto].
    - rewrite Ey. cbn [bind]. destruct (mapM_all_ok (spred_entry Z psf c t) (g_tab (y_g s))) as [st Est]; [intros e He; exact (spred_total Z psf c t e Hw Hf (proj1 (HT e He)))|]. rewrite Est. cbn [bind]. eauto. }
  destruct E1 as [s1 E1]. destruct (sjpredict_inv _ _ _ _ _ _ _ E1) as [st [Est [T1 [H1 [_ [C1 [X1 [O1 _]]]]]]]].
  pose proof (sjpinv_predict _ _ _ _ _ _ _ E1 HP) as HP1.
  assert (HT1 : forall e, In e (g_tab (y_g s1)) -> cloud_ok e /\ SShape c e).
  { intros e' He'. destruct (sjpredict_tab_in _ _ _ _ _ _ _ _ E1 He') as [[i [b [Hbi ->]]]|[e [He Hee]]].
    - split; [exact (works_birth _ _ _ _ _ _ _ Hb Hbi)|apply sshape_birth].
    - destruct (HT e He) as [A B]. split; [exact (works_pred _ _ _ _ _ _ Hw Hf A Hee)|exact (sshape_pred _ _ _ _ _ _ (proj1 A) B Hee)]. }
  assert (HX1 : forall y, In y (g_ext (y_g s1)) -> xlen 2 (g_cnt (y_g s1)) y).
  { rewrite X1, C1. intros y Hy. destruct (HX y Hy) as [Q1 [Q2 Q3]]. repeat split; auto. cbn in *. lia. }
  assert (Ln : length (g_tab (y_g s1)) = (length bs + y_old s1)%nat) by (rewrite T1, app_length, sbirth_len, (mapM_length _ _ _ Est), O1, Ho; reflexivity).
  assert (E2 : exists s2, sjcorrect G Z false pdf c bs t meas s1 = Ok s2).
  { unfold sjcorrect. cbn zeta.
    assert (Hrows : exists rows, scor_rows Z pdf c t meas (g_tab (y_g s1)) = Ok rows).
    { unfold scor_rows. apply mapM_all_ok. intros z _. apply mapM_all_ok. intros e He. destruct (scor_total Z pdf c t z e Hw Hg (proj1 (HT1 e He))) as [o [Hoo _]]. eauto. }
    destruct Hrows as [rows Er]. rewrite Er. cbn [bind]. rewrite <- Ln, Nat.eqb_refl. cbn [orb negb andb].
    assert (Hj : exists hs, jcor_hyps (z_g Z) G (sjcfg c bs) (length (g_tab (y_g s1))) (length (g_tab (y_g s1))) (length meas) (scor_cost rows) (y_calls s1) (g_hyps (y_g s1)) = Ok hs).
    { unfold jcor_hyps. cbn zeta. match goal with |- context[mapM ?f ?l] => destruct (mapM_all_ok f l) as [ll Ell] end.
      - intros [call h] Hch. cbn [fst snd]. apply in_combine_r in Hch. rewrite H1 in Hch. apply jcor_hyp_total; auto.
        + cbn [sjcfg c_crate c_cden]. apply Rmult_lt_0_compat; assumption.
        + intros i Hi. unfold tindices in Hi. rewrite sjcfg_len in Hi. apply in_app_or in Hi as [Hi|Hi].
          * apply in_seq in Hi. lia.
          * apply in_map_iff in Hi as [x [<- Hx]]. destruct HP as [_ HI]. pose proof (hinv_refs _ _ _ (jinv_full _ _ HI Ho) h x Hch Hx). lia.
      - rewrite Ell. cbn [bind]. apply normalise_total, Hl. }
    destruct Hj as [hs Ej]. rewrite Ej. cbn [bind]. destruct (clean_updates _ (clean_predictions (z_g Z) hs)). eauto. }
  destruct E2 as [s2 E2]. destruct (sjcorrect_inv _ _ _ _ _ _ _ _ _ _ E2) as [rows [hs X0]]. cbn zeta in X0. destruct X0 as [_ [_ [Eg [_ [Eh [Ecd [Ecn [Eex O2]]]]]]]].
  pose proof (sjpinv_correct _ _ _ _ _ _ _ _ _ _ Hok E2 HP1) as HP2.
  assert (HT2 : forall e, In e (g_tab (y_g s2)) -> cloud_ok e /\ SShape c e).
  { intros e' He'. destruct (sjcorrect_tab_in _ _ _ _ _ _ _ _ _ _ _ E2 He') as [e [a [He Hu]]]. destruct (HT1 e He) as [A B]. split; [exact (works_upd _ _ _ _ _ _ _ _ Hw Hg A Hu)|exact (sshape_upd _ _ _ _ _ _ _ _ (proj1 A) B Hu)]. }
  assert (HC2 : CInv c 2 (y_g s2)).
  { destruct HP2 as [HL HI]. split; [split; [exact HL|exact (jinv_full _ _ HI O2)]|]. split; [intros e He; destruct (HT2 e He) as [A B]; exact (sshape c e (proj1 A) B)|]. rewrite Eex, Ecn. exact HX1. }
  assert (Hcard : g_card (y_g s2) <> []) by (rewrite Ecd; apply calc_card_ne).
  destruct (cleanup_total (z_g Z) c pr ca ex (y_g s2) HC2 Hcard) as [g3 [E3 HC3]]. destruct (cleanup_inv _ _ _ _ _ _ _ E3) as [T3 [_ [_ [Eh3 _]]]].
  exists (with_g s2 g3). split; [|split].
  - cbn [sjscan scycle map sjrun sjexec]. rewrite E1. cbn [bind]. rewrite E2. cbn [bind]. rewrite E3. reflexivity.
  - destruct HC3 as [[HL3 HI3] [_ HX3]]. split; [|split; [exact HX3|split]].
    + split; [exact HL3|]. exists [], (g_tab g3). cbn [with_g y_g y_old app]. split; [reflexivity|]. split; [rewrite T3; symmetry; exact O2|]. split; [exact HI3|]. split; [apply pairs_nil|intros x y []].
    + cbn [with_g y_g]. rewrite T3. exact HT2.
    + cbn [with_g y_g y_old]. split; [rewrite T3; exact O2|]. rewrite Eh3. apply cleaned_pos; [assumption|].
      intros h Hh. rewrite Eh in Hh. apply in_flat_map in Hh as [h0 [H0 Hr]]. apply reindex_in in Hr as [-> _]. assert (Hne : hs <> []) by (intros ->; destruct H0).
      apply (clean_pred_dist (z_g Z) _ (jcor_hyps_dist _ _ _ _ _ _ _ _ _ _ Eg Hne)), H0.
  - cbn [with_g y_g]. apply (card_exec (z_g Z) c (OpCleanup pr ca ex) (y_g s2) g3); [cbn [exec]; exact E3|right; exact Hcard].
Qed.
End S.

(** * C129: the joint filter's guarantees, with particles *)
Theorem C129_distribution : forall {P X ST CV MS} rnd gt (vs : list (sjcall P X ST CV MS)) s,
  uniform rnd -> sjevery (fun Z o => rsorts (v_argsort (z_g Z)) /\ snever_fails Z [o]) vs -> sjrun (sampler_of rnd) gt vs jst_new = Ok s ->
  g_hyps (y_g s) <> [] -> prob_dist (g_hyps (y_g s)).
Proof.
  intros P X ST CV MS rnd gt vs s Hr Hv H. apply (sjdist_run _ _ vs _ _ (uniform_ok _ Hr) Hv H). intros _. split; cbn; [intros h [<-|[]]; cbn; lra|lra].
Qed.
Print Assumptions C129_distribution.
(** From a correct until the next predict: existing tracks, no track, label or
    measurement twice. *)
Theorem C129_valid : forall {P X ST CV MS} rnd gt (vs : list (sjcall P X ST CV MS)) Z c bs pdf t meas rest s,
  let hist := vs ++ (Z, c, bs, SCorrect pdf t meas) :: rest in
  uniform rnd -> sjrun (sampler_of rnd) gt hist jst_new = Ok s -> (forall psf t, ~ In (SPredict psf t) (sjops rest)) ->
  refs_ok (g_tab (y_g s)) (g_hyps (y_g s)) /\
  forall h, In h (g_hyps (y_g s)) -> NoDup (h_ts h) /\
    (NoDup (sjtimes hist) -> NoDup (map e_label (tracks (g_tab (y_g s)) h))) /\
    (forall ph, sprotocol 0 (sjops hist) = Some ph -> forall i j e1 e2, i <> j ->
       nth_error (tracks (g_tab (y_g s)) h) i = Some e1 -> nth_error (tracks (g_tab (y_g s)) h) j = Some e2 -> ~ share_meas e1 e2).
Proof.
  intros P X ST CV MS rnd gt vs Z c bs pdf t meas rest s hist Hr H Hp. apply uniform_ok in Hr. revert Hr H. generalize (sampler_of rnd) as G. intros G Hg H.
  pose proof (sjold_correct _ _ _ _ _ _ _ _ _ _ _ _ H Hp) as Ho. destruct (sjtrue_run _ _ _ _ _ Hg H (jinv_new _) nd_new) as [HT HN]. split; [exact (hinv_refs _ _ _ (jinv_full _ _ HT Ho))|].
  intros h Hh. split; [exact (HN h Hh)|]. split.
  - intros Hd. destruct (sjlinv_run _ _ _ _ _ [] Hg H Hd) as [used [_ HI]]; [intros z []|split; [intros e []|apply jinv_new]|].
    apply pairs_nodup. exact (hinv_tracks _ _ _ _ (jinv_full _ _ HI Ho) Hh).
  - intros ph Hpr i j e1 e2 Hij H1 H2. destruct (sjpinv_run _ _ _ 0 ph _ _ Hg H Hpr jpinv_new) as [_ HI].
    exact (hinv_tracks _ _ _ _ (jinv_full _ _ HI Ho) Hh i j e1 e2 Hij H1 H2).
Qed.
Print Assumptions C129_valid.
(** The intended cycle never raises, and afterwards every track's particle weights
    are normalised. *)
Theorem C129_cycle_total : forall {P X ST CV MS} rnd (xs : list (senv P X ST CV MS * gcfg ST CV * list (pfs P X * ST * CV * R) * ((list P -> list R) * (list P -> list R) * R * list MS * (bool * bool * bool)))),
  uniform rnd -> Forall sjscan_ok xs -> ForallOrdPairs sjnot_switched_on xs ->
  exists s, sjrun (sampler_of rnd) false (flat_map sjscan xs) jst_new = Ok s /\
    forall e, In e (g_tab (y_g s)) -> exists p, e_fs e = [p] /\ p_parts p <> [] /\ normalised p.
Proof.
  intros P X ST CV MS rnd xs Hr. destruct (sampler_ok rnd Hr) as [Hok Hgt].
  assert (A : forall xs (s : jst (pfs P X) ST CV MS), Forall sjscan_ok xs -> ForallOrdPairs sjnot_switched_on xs -> (forall x, In x xs -> SJRInv (snd (fst (fst x))) s) ->
    (forall e, In e (g_tab (y_g s)) -> exists p, e_fs e = [p] /\ p_parts p <> [] /\ normalised p) ->
    exists s', sjrun (sampler_of rnd) false (flat_map sjscan xs) s = Ok s' /\ forall e, In e (g_tab (y_g s')) -> exists p, e_fs e = [p] /\ p_parts p <> [] /\ normalised p).
  { clear xs. induction xs as [|x xs IH]; intros s Hx Ho HR HC; [eexists; split; [reflexivity|exact HC]|]. cbn [flat_map]. rewrite sjrun_app.
    inversion Hx as [|? ? Hsc Hx']; subst. inversion Ho as [|? ? Ho1 Ho2]; subst.
    destruct (sjcycle_total _ x s Hok Hgt Hsc (HR _ (or_introl eq_refl))) as [s1 [E1 [HR2 _]]]. rewrite E1. cbn [bind].
    destruct HR2 as [HP [HX [HS [HO Hp]]]]. apply (IH s1 Hx' Ho2).
    - intros y Hi. rewrite Forall_forall in Ho1. split; [exact HP|split; [exact HX|split; [|split; [exact HO|exact Hp]]]].
      intros e He. destruct (HS e He) as [Q1 [Q2 Q3]]. split; [exact Q1|]. split; [exact Q2|]. intros Hc. apply Q3. exact (Ho1 y Hi Hc).
    - intros e He. destruct (HS e He) as [[_ Q] _]. exact Q. }
  intros Hx Ho. apply (A xs jst_new Hx Ho); [|intros e []]. intros x _. split; [apply jpinv_new|]. split; [intros y []|]. split; [intros e []|]. split; [reflexivity|]. intros h [<-|[]]. cbn. lra.
Qed.
Print Assumptions C129_cycle_total.
