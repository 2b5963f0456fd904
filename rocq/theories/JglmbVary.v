(** Joint GLMB histories in which the caller re-assigns attributes between calls. *)
From Verif Require Import Base Lists.
From Coq Require Import Reals Permutation Lra.
From Verif Require Import OspaModel CphdModel OspaProofs CphdSpec CphdProofs GlmbModel GlmbSpec GlmbProofs GlmbInv GlmbExtract GlmbMost GlmbTotal GlmbProps GibbsReal JglmbModel JglmbSpec JglmbGibbs JglmbProofs JglmbInv JglmbProps JglmbTotal GlmbVary GlmbDemo JglmbDemo.
Open Scope R_scope.

Section M.
Context {FS ST CV MS : Type}.
(** The calls one after the other (JglmbModel.jexec: tracker.py:3483-3692, 2708,
    2533), each with its attributes and inner filter; [G] is the sampler. *)
Fixpoint jvrun G (gt : bool) (vs : list (vcall FS ST CV MS)) (s : jst FS ST CV MS) : result (jst FS ST CV MS) :=
  match vs with
  | [] => Ok s
  | (E, c, o) :: vs' => do s1 <- jexec E G gt c o s; jvrun G gt vs' s1
  end.
Variable G : sampler.
Variable gt : bool.
Implicit Types (s : jst FS ST CV MS).
Lemma jrun1 E c o s : jrun E G gt c [o] s = jexec E G gt c o s.
Proof. cbn [jrun]. destruct (jexec E G gt c o s); reflexivity. Qed.
Lemma jvrun_app vs1 vs2 s : jvrun G gt (vs1 ++ vs2) s = (do s1 <- jvrun G gt vs1 s; jvrun G gt vs2 s1).
Proof.
  revert s. induction vs1 as [|[[E c] o] vs1 IH]; intros s; [reflexivity|]. cbn [jvrun app]. destruct (jexec E G gt c o s) as [s1|e]; [|reflexivity]. cbn [bind]. apply IH.
Qed.
Lemma jvrun_const E c os s : jvrun G gt (map (fun o => (E, c, o)) os) s = jrun E G gt c os s.
Proof. revert s. induction os as [|o os IH]; intros s; [reflexivity|]. cbn [map jvrun jrun]. destruct (jexec E G gt c o s); [|reflexivity]. apply IH. Qed.
Lemma jv_dist vs : forall s s', gibbs_ok G -> every (fun E _ o => rsorts (v_argsort E) /\ never_fails E [o]) vs -> jvrun G gt vs s = Ok s' ->
  (g_hyps (y_g s) <> [] -> prob_dist (g_hyps (y_g s))) -> g_hyps (y_g s') <> [] -> prob_dist (g_hyps (y_g s')).
Proof.
  induction vs as [|[[E c] o] vs IH]; intros s s' Hg Hv H HI; cbn [jvrun] in H; [inversion H; subst; exact HI|].
  apply bind_ok in H as [s1 [H1 H]]. destruct (every_hd _ _ _ _ _ Hv) as [Hs Hn]. apply (IH s1 s' Hg (every_tl _ _ _ Hv) H). exact (jexec_dist E G gt c o s s1 Hg Hs Hn H1 HI).
Qed.
Lemma jv_true vs : forall s s', gibbs_ok G -> jvrun G gt vs s = Ok s' -> JInv (fun _ _ => True) s -> NDInv s -> JInv (fun _ _ => True) s' /\ NDInv s'.
Proof.
  induction vs as [|[[E c] o] vs IH]; intros s s' Hg H HI HN; cbn [jvrun] in H; [injection H as <-; auto|].
  apply bind_ok in H as [s1 [H1 H]]. rewrite <- jrun1 in H1. apply (IH s1 s' Hg H); [exact (jtrue_run E G gt c [o] s s1 Hg H1 HI)|exact (nd_run E G gt c [o] s s1 Hg H1 HN)].
Qed.
Lemma jv_linv vs : forall s s' used, gibbs_ok G -> jvrun G gt vs s = Ok s' -> NoDup (birth_times vs) -> (forall z, In z used -> ~ In z (birth_times vs)) -> JLInv used s ->
  exists used', JLInv used' s'.
Proof.
  induction vs as [|[[E c] o] vs IH]; intros s s' used Hg H Hnd Hdis HI; cbn [jvrun] in H; [injection H as <-; eauto|].
  apply bind_ok in H as [s1 [H1 H]]. apply (IH s1 s' (match o with OpPredict t => v_rnd E t :: used | _ => used end) Hg H).
  - destruct o; cbn in Hnd; try exact Hnd. inversion Hnd; assumption.
  - destruct o as [t| | |]; cbn in Hdis, Hnd; try exact Hdis. intros z [<-|Hz]; [inversion Hnd; assumption|]. intros Hi. apply (Hdis z Hz). right. exact Hi.
  - apply (jlinv_exec E G gt c o s s1 used Hg H1); [|exact HI]. intros t -> Hi. apply (Hdis _ Hi). cbn. left. reflexivity.
Qed.
Lemma jv_pinv vs : forall ph ph' s s', gibbs_ok G -> jvrun G gt vs s = Ok s' -> protocol ph (ops_of vs) = Some ph' -> JPInv ph s -> JPInv ph' s'.
Proof.
  induction vs as [|[[E c] o] vs IH]; intros ph ph' s s' Hg H Hp HI; cbn [jvrun] in H; [injection H as <-; cbn in Hp; injection Hp as <-; exact HI|].
  apply bind_ok in H as [s1 [H1 H]]. apply proto_cons in Hp as [p1 [Hp1 Hp]]. rewrite <- jrun1 in H1.
  apply (IH p1 ph' s1 s' Hg H Hp). exact (jpinv_run E G gt c [o] ph p1 s s1 Hg H1 Hp1 HI).
Qed.
Lemma jv_old_rest vs : forall s s', jvrun G gt vs s = Ok s' -> (forall t, ~ In (OpPredict t) (ops_of vs)) -> y_old s = length (g_tab (y_g s)) -> y_old s' = length (g_tab (y_g s')).
Proof.
  induction vs as [|[[E c] o] vs IH]; intros s s' H Hp HI; cbn [jvrun] in H; [injection H as <-; exact HI|].
  apply bind_ok in H as [s1 [H1 H]]. rewrite <- jrun1 in H1. apply (IH s1 s' H); [intros t Hi; apply (Hp t); right; exact Hi|].
  apply (jold_rest E G gt c [o] s s1 H1); [|exact HI]. intros t [E0|[]]. apply (Hp t). left. exact E0.
Qed.
Lemma jv_old vs v rest s s' : jvrun G gt (vs ++ v :: rest) s = Ok s' -> (exists t meas, snd v = OpCorrect t meas) -> (forall t, ~ In (OpPredict t) (ops_of rest)) ->
  y_old s' = length (g_tab (y_g s')).
Proof.
  destruct v as [[E c] o]. cbn [snd]. intros H [t [meas ->]] Hp. rewrite jvrun_app in H. apply bind_ok in H as [s1 [_ H]]. cbn [jvrun] in H. apply bind_ok in H as [s2 [H2 H]].
  apply (jv_old_rest rest s2 s' H Hp). rewrite <- jrun1 in H2. apply (jold_correct E G gt c [] t meas [] s1 s2 H2). intros t' [].
Qed.
End M.

(** * C128: the joint filter's guarantees, whatever is re-assigned between calls *)
Theorem C128_distribution : forall {FS ST CV MS} rnd gt (vs : list (vcall FS ST CV MS)) s,
  uniform rnd -> every (fun E _ o => rsorts (v_argsort E) /\ never_fails E [o]) vs -> jvrun (sampler_of rnd) gt vs jst_new = Ok s ->
  g_hyps (y_g s) <> [] -> prob_dist (g_hyps (y_g s)).
Proof.
  intros FS ST CV MS rnd gt vs s Hr Hv H. apply (jv_dist _ _ vs _ _ (uniform_ok _ Hr) Hv H). intros _. split; cbn; [intros h [<-|[]]; cbn; lra|lra].
Qed.
Print Assumptions C128_distribution.
Theorem C128_valid : forall {FS ST CV MS} rnd gt (vs : list (vcall FS ST CV MS)) v rest s,
  uniform rnd -> jvrun (sampler_of rnd) gt (vs ++ v :: rest) jst_new = Ok s -> (exists t meas, snd v = OpCorrect t meas) -> (forall t, ~ In (OpPredict t) (ops_of rest)) ->
  refs_ok (g_tab (y_g s)) (g_hyps (y_g s)) /\
  forall h, In h (g_hyps (y_g s)) -> NoDup (h_ts h) /\
    (NoDup (birth_times (vs ++ v :: rest)) -> NoDup (map e_label (tracks (g_tab (y_g s)) h))) /\
    (forall ph, protocol 0 (ops_of (vs ++ v :: rest)) = Some ph -> forall i j e1 e2, i <> j ->
       nth_error (tracks (g_tab (y_g s)) h) i = Some e1 -> nth_error (tracks (g_tab (y_g s)) h) j = Some e2 -> ~ share_meas e1 e2).
Proof.
  intros FS ST CV MS rnd gt vs v rest s Hr H Hc Hp. apply uniform_ok in Hr. revert Hr H. generalize (sampler_of rnd) as G. intros G Hg H.
  pose proof (jv_old _ _ _ _ _ _ _ H Hc Hp) as Ho. destruct (jv_true _ _ _ _ _ Hg H (jinv_new _) nd_new) as [HT HN]. split; [exact (hinv_refs _ _ _ (jinv_full _ _ HT Ho))|].
  intros h Hh. split; [exact (HN h Hh)|]. split.
  - intros Hd. destruct (jv_linv _ _ _ _ _ [] Hg H Hd) as [used [_ HI]]; [intros z []|split; [intros e []|apply jinv_new]|].
    apply pairs_nodup. exact (hinv_tracks _ _ _ _ (jinv_full _ _ HI Ho) Hh).
  - intros ph Hpr i j e1 e2 Hij H1 H2. destruct (jv_pinv _ _ _ 0 ph _ _ Hg H Hpr jpinv_new) as [_ HI].
    exact (hinv_tracks _ _ _ _ (jinv_full _ _ HI Ho) Hh i j e1 e2 Hij H1 H2).
Qed.
Print Assumptions C128_valid.
Definition jscan_ok {FS ST CV MS} (x : genv FS ST CV MS * gcfg ST CV * (R * list MS * (bool * bool * bool))) : Prop :=
  let '(E, c, _) := x in cfg_ok c /\ births_ok c /\ v_lse0 E = Ok tt /\ rsorts (v_argsort E).
Theorem C128_cycle_total : forall {FS ST CV MS} rnd (xs : list (genv FS ST CV MS * gcfg ST CV * (R * list MS * (bool * bool * bool)))),
  uniform rnd -> Forall jscan_ok xs -> ForallOrdPairs not_switched_on xs -> exists s', jvrun (sampler_of rnd) false (flat_map vscan xs) jst_new = Ok s'.
Proof.
  intros FS ST CV MS rnd xs Hr. destruct (sampler_ok rnd Hr) as [Hok Hgt].
  assert (A : forall xs (s : jst FS ST CV MS), Forall jscan_ok xs -> ForallOrdPairs not_switched_on xs -> (forall x, In x xs -> JRInv (snd (fst x)) s) ->
    exists s', jvrun (sampler_of rnd) false (flat_map vscan xs) s = Ok s').
  { clear xs. induction xs as [|[[E c] sc] xs IH]; intros s Hx Ho HR; [eexists; reflexivity|]. cbn [flat_map]. rewrite jvrun_app. cbn [vscan]. rewrite jvrun_const.
    inversion Hx as [|? ? Hsc Hx']; subst. destruct Hsc as [H1 [H2 [H3 H4]]]. inversion Ho as [|? ? Ho1 Ho2]; subst.
    destruct (jcycle_total E _ c sc s H1 H2 Hok Hgt H3 H4 (HR _ (or_introl eq_refl))) as [s1 [E1 HR2]]. rewrite E1. cbn [bind].
    apply (IH s1 Hx' Ho2). intros x Hi. rewrite Forall_forall in Ho1. destruct HR2 as [[HP [HS HX]] [HO Hp]].
    split; [split; [exact HP|split; [|exact HX]]|split; [exact HO|exact Hp]]. intros e He. destruct (HS e He) as [m [M1 [M2 [M3 [M4 M5]]]]].
    exists m. repeat (split; [assumption|]). intros Hs. apply M5, (Ho1 x Hi), Hs. }
  intros Hx Ho. apply (A xs jst_new Hx Ho). intros x _. split; [apply jcinv_new|]. split; [reflexivity|]. intros h [<-|[]]. cbn. lra.
Qed.
Print Assumptions C128_cycle_total.
Example C128_ex : exists s, let xs := [(d_env false, d_cfg (9 / 10), (0, [tt], (true, true, true))); (d_env false, d_cfg (1 / 3), (1, [tt; tt], (true, true, false)))] in
  uniform j_rnd /\ Forall jscan_ok xs /\ ForallOrdPairs not_switched_on xs /\
  every (fun E _ o => rsorts (v_argsort E) /\ never_fails E [o]) (flat_map vscan xs) /\ NoDup (birth_times (flat_map vscan xs)) /\
  protocol 0 (ops_of (flat_map vscan xs)) = Some 0%nat /\ jvrun (sampler_of j_rnd) false (flat_map vscan xs) jst_new = Ok s.
Proof.
  assert (H1 : Forall jscan_ok [(d_env false, d_cfg (9 / 10), (0, [tt], (true, true, true))); (d_env false, d_cfg (1 / 3), (1, [tt; tt], (true, true, false)))]).
  { constructor; [|constructor; [|constructor]]; (split; [apply d_cfg_ok; lra|]); (split; [apply d_births|]); (split; [reflexivity|exact CphdProps.C44_ex]). }
  assert (H2 : ForallOrdPairs not_switched_on [(d_env false, d_cfg (9 / 10), (0, [tt], (true, true, true))); (d_env false, d_cfg (1 / 3), (1, [tt; tt], (true, true, false)))]).
  { constructor; [constructor; [intros H; exact H|constructor]|]. constructor; [constructor|constructor]. }
  destruct (C128_cycle_total j_rnd _ j_uniform H1 H2) as [s Hs]. exists s. intros xs. split; [exact j_uniform|]. split; [exact H1|]. split; [exact H2|].
  split; [|split; [|split; [reflexivity|exact Hs]]].
  - intros E c o Hi. assert (HE : E = d_env false) by (cbn in Hi; repeat (destruct Hi as [Hi|Hi]; [injection Hi; congruence|]); destruct Hi). rewrite HE. split; [exact CphdProps.C44_ex|apply d_never_fails].
  - destruct glmb_hypotheses_ex as [? [_ [_ [_ [_ [_ [_ [_ [_ [_ [Hnd _]]]]]]]]]]]. exact Hnd.
Qed.
