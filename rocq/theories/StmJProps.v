(** Property C134: the Student's-t joint GLMB filter
    (STMJointGeneralizedLabeledMultiBernoulli, tracker.py:3694-3699): the joint
    filter's predict and correct with the birth initialisation of _STMGLMBBase
    (StmModel.tbirth). *)
From Verif Require Import Base Lists.
From Coq Require Import Reals Permutation Lra.
From Verif Require Import OspaModel CphdModel OspaProofs CphdSpec CphdProofs GlmbModel GlmbSpec GlmbProofs GlmbInv GlmbTotal GlmbProps GibbsReal JglmbModel JglmbSpec JglmbGibbs JglmbProofs JglmbInv JglmbProps JglmbTotal GlmbVary GlmbDemo JglmbDemo JglmbVary StmModel.
Open Scope R_scope.

(** The joint filter's run on the calls of an STM filter. *)
Definition tjrun {FS ST SC CV MS} G gt (vs : list (tcall FS ST SC CV MS)) (s : jst FS ST (gcv SC CV) MS) : result (jst FS ST (gcv SC CV) MS) := jvrun G gt (map tvcall vs) s.
(** One scan with its surroundings, attributes and the working filter's covariance. *)
Definition tscan {FS ST SC CV MS} (x : tenv FS ST SC CV MS * tcfg ST SC * CV * (R * list MS * (bool * bool * bool))) : list (tcall FS ST SC CV MS) :=
  let '(U, c, w, sc) := x in map (fun o => (U, c, w, o)) (cycle sc).
Definition tscan_ok {FS ST SC CV MS} (x : tenv FS ST SC CV MS * tcfg ST SC * CV * (R * list MS * (bool * bool * bool))) : Prop :=
  let '(U, c, _, _) := x in
  (forall d p, In (d, p) (tc_births c) -> 0 < p < 1 /\ (0 < length (t_m d))%nat /\ length (t_s d) = length (t_m d) /\ length (t_w d) = length (t_m d)) /\
  0 < tc_ps c < 1 /\ 0 < tc_pd c < 1 /\ 0 < tc_crate c /\ 0 < tc_cden c /\ u_lse0 U = Ok tt /\ rsorts (u_argsort U).
Definition tnot_switched_on {FS ST SC CV MS} (x y : tenv FS ST SC CV MS * tcfg ST SC * CV * (R * list MS * (bool * bool * bool))) : Prop :=
  tc_savecov (snd (fst (fst y))) = true -> tc_savecov (snd (fst (fst x))) = true.

Theorem C134_stm_joint_distribution : forall {FS ST SC CV MS} rnd gt (vs : list (tcall FS ST SC CV MS)) s,
  uniform rnd -> tevery (fun U o => rsorts (u_argsort U) /\ tnever_fails U o) vs -> tjrun (sampler_of rnd) gt vs jst_new = Ok s ->
  g_hyps (y_g s) <> [] -> prob_dist (g_hyps (y_g s)).
Proof.
  intros FS ST SC CV MS rnd gt vs s Hr Hv H. apply (C128_distribution rnd gt (map tvcall vs) s Hr); [|exact H]. apply tev. intros U c w o Hi. destruct (Hv U c w o Hi) as [H1 H2].
  split; [exact H1|]. intros t meas [->|[]] z f x Hz. cbn [tgenv v_corr]. pose proof (H2 t meas eq_refl z f x Hz) as H4. destruct (u_corr U t z f x) as [[[[? ?] ?] ?]|]; [discriminate|contradiction].
Qed.
Print Assumptions C134_stm_joint_distribution.
Theorem C134_stm_joint_valid : forall {FS ST SC CV MS} rnd gt (vs : list (tcall FS ST SC CV MS)) v rest s,
  uniform rnd -> tjrun (sampler_of rnd) gt (vs ++ v :: rest) jst_new = Ok s -> (exists t meas, snd v = OpCorrect t meas) -> (forall t, ~ In (OpPredict t) (tops rest)) ->
  refs_ok (g_tab (y_g s)) (g_hyps (y_g s)) /\
  forall h, In h (g_hyps (y_g s)) -> NoDup (h_ts h) /\
    (NoDup (ttimes (vs ++ v :: rest)) -> NoDup (map e_label (tracks (g_tab (y_g s)) h))) /\
    (forall ph, protocol 0 (tops (vs ++ v :: rest)) = Some ph -> forall i j e1 e2, i <> j ->
       nth_error (tracks (g_tab (y_g s)) h) i = Some e1 -> nth_error (tracks (g_tab (y_g s)) h) j = Some e2 -> ~ share_meas e1 e2).
Proof.
  intros FS ST SC CV MS rnd gt vs v rest s Hr H Hc Hp. unfold tjrun in H. rewrite map_app in H. cbn [map] in H.
  destruct (C128_valid rnd gt (map tvcall vs) (tvcall v) (map tvcall rest) s Hr H) as [A B].
  - destruct v as [[[U c] w] o]. exact Hc.
  - intros t. rewrite tops_of. apply Hp.
  - split; [exact A|]. intros h Hh. destruct (B h Hh) as [B1 [B2 B3]]. split; [exact B1|].
    assert (E : map tvcall vs ++ tvcall v :: map tvcall rest = map tvcall (vs ++ v :: rest)) by (rewrite map_app; reflexivity).
    rewrite E in B2, B3. rewrite ttimes_of in B2. rewrite tops_of in B3. split; assumption.
Qed.
Print Assumptions C134_stm_joint_valid.
Theorem C134_stm_joint_cycle_total : forall {FS ST SC CV MS} rnd (xs : list (tenv FS ST SC CV MS * tcfg ST SC * CV * (R * list MS * (bool * bool * bool)))),
  uniform rnd -> Forall tscan_ok xs -> ForallOrdPairs tnot_switched_on xs -> exists s, tjrun (sampler_of rnd) false (flat_map tscan xs) jst_new = Ok s.
Proof.
  intros FS ST SC CV MS rnd xs Hr Hx Ho.
  pose (conv := fun x : tenv FS ST SC CV MS * tcfg ST SC * CV * (R * list MS * (bool * bool * bool)) => (tgenv (fst (fst (fst x))), tgcfg (snd (fst x)) (snd (fst (fst x))), snd x)).
  assert (E : map tvcall (flat_map tscan xs) = flat_map vscan (map conv xs)).
  { clear. induction xs as [|[[[U c] w] sc] xs IH]; [reflexivity|]. cbn [map flat_map]. rewrite map_app, IH. f_equal. cbn [tscan conv vscan fst snd]. rewrite map_map. reflexivity. }
  unfold tjrun. rewrite E. apply C128_cycle_total; [exact Hr| |].
  - apply Forall_forall. intros y Hy. apply in_map_iff in Hy as [[[[U c] w] sc] [<- Hi]]. rewrite Forall_forall in Hx. specialize (Hx _ Hi). cbn [tscan_ok] in Hx.
    destruct Hx as [Hb [H1 [H2 [H3 [H4 [H5 H6]]]]]]. cbn [conv jscan_ok fst snd]. split; [|split; [|split; [exact H5|exact H6]]].
    + split; [|cbn; auto]. intros b p Hbp. cbn [tgcfg c_births] in Hbp. apply in_map_iff in Hbp as [[d q] [Eq Hd]]. injection Eq as _ <-. apply (Hb d q Hd).
    + intros b p Hbp. cbn [tgcfg c_births] in Hbp. apply in_map_iff in Hbp as [[d q] [Eq Hd]]. injection Eq as <- _. cbn [fst tbirth b_m b_c b_w]. rewrite map_length. destruct (Hb d q Hd) as [_ [A [B C]]]. auto.
  - clear -Ho. induction Ho as [|x xs Hf Ho IH]; [constructor|]. cbn [map]. constructor; [|exact IH]. clear -Hf. induction Hf as [|y ys Hy Hf IH]; [constructor|]. cbn [map]. constructor; [exact Hy|exact IH].
Qed.
Print Assumptions C134_stm_joint_cycle_total.
Example C134_ex : exists s, let xs := [(t_env, t_cfg, 5, (0, [tt], (true, true, true))); (t_env, t_cfg, 7, (1, [tt; tt], (true, true, true)))] in
  uniform j_rnd /\ Forall tscan_ok xs /\ ForallOrdPairs tnot_switched_on xs /\ tevery (fun U o => rsorts (u_argsort U) /\ tnever_fails U o) (flat_map tscan xs) /\
  protocol 0 (tops (flat_map tscan xs)) = Some 0%nat /\ tjrun (sampler_of j_rnd) false (flat_map tscan xs) jst_new = Ok s.
Proof.
  pose (xs := [(t_env, t_cfg, 5, (0, [tt], (true, true, true))); (t_env, t_cfg, 7, (1, [tt; tt], (true, true, true)))]).
  assert (H1 : Forall tscan_ok xs).
  { assert (X : forall w sc, tscan_ok (t_env, t_cfg, w, sc)).
    { intros w sc. split; [|cbn; repeat (split; [lra|]); split; [reflexivity|exact CphdProps.C44_ex]]. intros d p [Hd|[]]. injection Hd as <- <-. cbn. repeat split; lra || lia. }
    constructor; [apply X|constructor; [apply X|constructor]]. }
  assert (H2 : ForallOrdPairs tnot_switched_on xs) by (constructor; [constructor; [intros H; exact H|constructor]|constructor; constructor]).
  destruct (C134_stm_joint_cycle_total j_rnd xs j_uniform H1 H2) as [s Hs]. exists s. cbv zeta. split; [exact j_uniform|]. split; [exact H1|]. split; [exact H2|]. split; [|split; [reflexivity|exact Hs]].
  intros U c w o Hi. assert (U = t_env) as -> by (cbn in Hi; repeat (destruct Hi as [Hi|Hi]; [injection Hi; congruence|]); destruct Hi). split; [exact CphdProps.C44_ex|]. intros t meas _ z f x _. discriminate.
Qed.
