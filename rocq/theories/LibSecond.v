(** GLMB prediction with the library's own k_shortest when at most two sets are
    asked for at a time: the first two answers are exact (C14), so the predicted
    probabilities are those of the GLMB prediction (C92, C123). *)
From Verif Require Import Base Lists.
From Coq Require Import Reals Permutation Lra Lia Classical.
From Verif Require Import OspaModel CphdModel OspaProofs CphdSpec CphdProofs CphdProps GlmbModel GlmbSpec GlmbProofs GlmbInv GlmbExtract GlmbMost GlmbTotal GlmbBayes GlmbProps GlmbProps2 GlmbProps3 GlmbProps4 GlmbDemo LibAlgs LibProps LibTrans LibPredict LibPositive LibBelow.
From Verif Require RBase RBfmModel RKShortModel RKShortSpec RKShortProofs RKShortProps2 RKShortSecond.
Open Scope R_scope.

Notation tot lc := (fun p => rsum (map (fun i => nth i lc 0) p)).
Lemma eps_feps : RKShortSpec.machine_eps = feps.
Proof. unfold RKShortSpec.machine_eps, feps. f_equal. lra. Qed.
Section C.
Variables (si : list R -> list nat) (lc : list R).
Hypothesis Hsi : sorts_down si.
Let c := map RBase.Fin lc.
Lemma c_len : length c = length lc. Proof. apply map_length. Qed.
Lemma c_entry i : RKShortSpec.entry c i = RBase.Fin (nth i lc 0).
Proof. unfold RKShortSpec.entry, c. apply (map_nth RBase.Fin lc 0). Qed.
Lemma c_total l : RKShortSpec.total c l = tot lc l.
Proof. unfold RKShortSpec.total. f_equal. apply map_ext. intros i. rewrite c_entry. reflexivity. Qed.
Lemma c_sorts : RKShortSpec.sorts_desc c (si lc).
Proof.
  destruct (Hsi lc) as [A B]. split; [rewrite c_len; exact A|]. clear A. induction B as [|a l F _ IH]; [constructor|]. constructor; [|exact IH].
  eapply Forall_impl; [|exact F]. intros j Hj. cbn beta. rewrite !c_entry. exact Hj.
Qed.
(** The first two answers of k_shortest: a cheapest set and a cheapest other
    set without zero-cost states, each with its cost. *)
Lemma l_kshort_two k : scaled_vec lc -> (2 <= k)%nat ->
  exists p ps cs, l_kshort si lc k = Ok (p :: ps, (tot lc p + feps) :: cs) /\
  match ps, cs with
  | [], [] => forall s, NoDup s -> (forall i, In i s -> (i < length lc)%nat /\ nth i lc 0 <> 0) -> Permutation s p
  | p2 :: _, c2 :: _ => c2 = tot lc p2 + feps /\ ~ Permutation p2 p /\ NoDup p2 /\ (forall i, In i p2 -> (i < length lc)%nat /\ nth i lc 0 <> 0) /\
      forall s, NoDup s -> (forall i, In i s -> (i < length lc)%nat /\ nth i lc 0 <> 0) -> ~ Permutation s p -> tot lc p2 <= tot lc s
  | _, _ => False
  end.
Proof.
  intros Hsc Hk. destruct (l_kshort_first si lc k Hsi Hsc ltac:(lia)) as [p [ps [cs [E _]]]].
  destruct (RKShortSecond.C14_k_shortest_second_exact_partial_real c (si lc) k (proj1 (l_scaled lc) Hsc) c_sorts Hk) as [p' [cost [ps' [costs [E2 K]]]]].
  pose proof E as E'. unfold l_kshort in E'. fold c in E'. rewrite E2 in E'. cbn [bind map] in E'. injection E' as Ep Eps _ Ec. subst p' ps'.
  assert (HS : forall s, RKShortSpec.subset c s /\ RKShortProps2.nonzero c s <-> NoDup s /\ (forall i, In i s -> (i < length lc)%nat /\ nth i lc 0 <> 0)).
  { intros s. unfold RKShortSpec.subset, RKShortProps2.nonzero. rewrite !Forall_forall, c_len. split.
    - intros [[A B] C]. split; [exact A|]. intros i Hi. split; [apply B, Hi|]. destruct (C i Hi) as [q [Eq Hq]]. rewrite c_entry in Eq. injection Eq as ->. exact Hq.
    - intros [A B]. split; [split; [exact A|intros i Hi; apply B, Hi]|]. intros i Hi. exists (nth i lc 0). split; [apply c_entry|apply B, Hi]. }
  exists p, ps, cs. split; [exact E|]. destruct ps as [|p2 ps], costs as [|c2 costs]; try contradiction; subst cs; cbn [map].
  - intros s H1 H2. apply K; apply HS; split; assumption.
  - destruct K as [q [-> [S1 [S2 [S3 [S4 S5]]]]]]. cbn [RBase.fin_val]. rewrite c_total, eps_feps in S4. split; [exact S4|]. split; [exact S3|].
    destruct (proj1 (HS p2) (conj S1 S2)) as [A B]. split; [exact A|]. split; [exact B|]. intros s H1 H2 H3.
    destruct (proj2 (HS s) (conj H1 H2)) as [T1 T2]. specialize (S5 s T1 T2 H3). rewrite c_total, eps_feps in S5. lra.
Qed.
Lemma l_kshort_len k ps cs : scaled_vec lc -> l_kshort si lc k = Ok (ps, cs) -> (length ps <= k)%nat /\ length cs = length ps.
Proof.
  intros Hsc E. destruct k as [|k]; [cbn in E; injection E as <- <-; auto|].
  assert (HP : Permutation (si lc) (seq 0 (length c))) by (rewrite c_len; exact (proj1 (Hsi lc))).
  destruct (RKShortProofs.k_shortest_ok c (si lc) (proj1 (l_scaled lc) Hsc) HP (S k) ltac:(lia)) as [path [q [paths [costs [E' [_ [_ [_ [_ [_ [_ [H1 H2]]]]]]]]]]]].
  unfold l_kshort in E. fold c in E. rewrite E' in E. cbn [bind] in E. injection E as <- <-. cbn [length map]. rewrite !map_length. split; [exact H2|f_equal; exact H1].
Qed.
Lemma l_kshort_cost2 k ps cs : (k <= 2)%nat -> l_kshort si lc k = Ok (ps, cs) -> Forall2 (fun p x => x = tot lc p + feps) ps cs.
Proof.
  intros Hk E. destruct k as [|k]; [cbn in E; injection E as <- <-; constructor|].
  destruct (classic (scaled_vec lc)) as [Hsc|Hn]; [|rewrite (l_kshort_overrun si Hsi lc (S k) Hn) in E by lia; discriminate].
  destruct (l_kshort_len (S k) ps cs Hsc E) as [L1 L2]. destruct k as [|k].
  - destruct (l_kshort_first si lc 1 Hsi Hsc ltac:(lia)) as [p [ps' [cs' [E' _]]]]. rewrite E in E'. injection E' as -> ->. cbn [length] in L1, L2.
    destruct ps'; [|cbn [length] in L1; lia]. destruct cs'; [|discriminate]. constructor; [reflexivity|constructor].
  - destruct (l_kshort_two (S (S k)) Hsc ltac:(lia)) as [p [ps' [cs' [E' K]]]]. rewrite E in E'. injection E' as -> ->. cbn [length] in L1, L2.
    constructor; [reflexivity|]. destruct ps' as [|p2 ps'], cs' as [|c2 cs']; try contradiction; [constructor|]. cbn [length] in L1, L2.
    destruct ps'; [|cbn [length] in L1; lia]. destruct cs'; [|discriminate]. constructor; [apply K|constructor].
Qed.
End C.

(** k_shortest for at most two answers. *)
Definition two_ks (si : list R -> list nat) (lc : list R) (k : nat) : result (list (list nat) * list R) :=
  if (k <=? 2)%nat then l_kshort si lc k else Ok ([], []).
Lemma two_ok si : sorts_down si -> kshort_ok (two_ks si).
Proof.
  intros Hs lc k ps cs. unfold two_ks. destruct (k <=? 2)%nat; [apply l_kshort_ok; exact Hs|]. intros H. injection H as <- <-. split; [reflexivity|intros p []].
Qed.
Lemma two_cost si : sorts_down si -> kshort_cost feps (two_ks si).
Proof.
  intros Hs lc k ps cs. unfold two_ks. destruct (Nat.leb_spec k 2) as [L|L]; [apply l_kshort_cost2; assumption|]. intros H. injection H as <- <-. constructor.
Qed.
Lemma mapM_ext_in {A B} (u v : A -> result B) l : (forall x, In x l -> u x = v x) -> mapM u l = mapM v l.
Proof. induction l as [|x l IH]; intros H; [reflexivity|]. cbn [mapM]. rewrite (H x (or_introl eq_refl)), IH; [reflexivity|]. intros y Hy. apply H. right; exact Hy. Qed.
Section P.
Context {FS ST CV MS : Type}.
Variables (E : genv FS ST CV MS) (si : list R -> list nat).
Implicit Types (c : gcfg ST CV) (s : glmb FS ST CV MS).
Notation E2 := (with_ks (two_ks si) (with_lib si E)).
Lemma predict_two c t s : (c_reqb c <= 2)%nat -> (forall h, In h (g_hyps s) -> h_ts h <> [] -> (share_of (c_reqs c) (g_hyps s) h <= 2)%nat) ->
  predict (with_lib si E) c t s = predict E2 c t s.
Proof.
  intros Hb Hs. unfold predict. change (gen_birth_tab E2 c t (g_cnt s)) with (gen_birth_tab (with_lib si E) c t (g_cnt s)).
  destruct (gen_birth_tab (with_lib si E) c t (g_cnt s)) as [[btab lcost]|]; [|reflexivity]. cbn [bind]. cbn [v_kshort with_ks with_lib].
  unfold two_ks at 1. destruct (Nat.leb_spec (c_reqb c) 2) as [_|]; [|lia].
  destruct (l_kshort si lcost (c_reqb c)) as [[paths costs]|]; [|reflexivity]. cbn [bind].
  change (gen_birth_hyps E2 c paths costs) with (gen_birth_hyps (with_lib si E) c paths costs).
  destruct (gen_birth_hyps (with_lib si E) c paths costs); [|reflexivity]. cbn [bind].
  assert (EG : gen_surv_hyps (with_lib si E) c (length (g_tab s)) (g_hyps s) = gen_surv_hyps E2 c (length (g_tab s)) (g_hyps s)).
  { unfold gen_surv_hyps. cbv zeta. match goal with |- bind (mapM ?u ?l) _ = bind (mapM ?v _) _ => assert (EM : mapM u l = mapM v l); [|rewrite EM; reflexivity] end.
    apply mapM_ext_in. intros h Hh. unfold surv_hyp. destruct (h_ts h) as [|a1 ts] eqn:Et; [reflexivity|].
    destruct (negb _); [reflexivity|]. destruct (rdiv (c_ps c) (1 - c_ps c)); [|reflexivity]. cbn [bind]. destruct (lnp _); [|reflexivity]. cbn [bind v_kshort with_ks with_lib].
    unfold two_ks. specialize (Hs h Hh ltac:(rewrite Et; discriminate)). unfold share_of in Hs.
    match goal with |- context [(?x <=? 2)%nat] => destruct (Nat.leb_spec x 2) as [_|L]; [reflexivity|exfalso; lia] end. }
  rewrite EG. reflexivity.
Qed.
Lemma total_two d c hs f : (c_reqb c <= 2)%nat -> (forall h, In h hs -> h_ts h <> [] -> (share_of (c_reqs c) hs h <= 2)%nat) ->
  predicted_total E2 d c hs f = predicted_total (with_lib si E) d c hs f.
Proof.
  intros Hb Hs. unfold predicted_total.
  assert (EB : birth_choices E2 c = birth_choices (with_lib si E) c).
  { unfold birth_choices. cbn [v_kshort with_ks with_lib]. unfold two_ks. destruct (Nat.leb_spec (c_reqb c) 2) as [_|]; [reflexivity|lia]. }
  rewrite EB. f_equal. apply map_ext. intros B. f_equal. apply map_ext_in. intros h Hh.
  assert (ES : surv_choices E2 c hs h = surv_choices (with_lib si E) c hs h).
  { unfold surv_choices. destruct (h_ts h) as [|a ts] eqn:Et; [reflexivity|]. cbn [v_kshort with_ks with_lib]. unfold two_ks.
    specialize (Hs h Hh ltac:(rewrite Et; discriminate)). destruct (Nat.leb_spec (share_of (c_reqs c) hs h) 2) as [_|]; [reflexivity|lia]. }
  rewrite ES. reflexivity.
Qed.
End P.
(** * C92 with the library's k_shortest, at most two sets asked for at a time *)
Theorem C92_library_two_requests_partial : forall {FS ST CV MS} (E : genv FS ST CV MS) si c t s s',
  sorts_down si -> hash_ok (v_hash E) -> cfg_ok c -> (c_reqb c <= 2)%nat ->
  (forall h, In h (g_hyps s) -> h_ts h <> [] -> (share_of (c_reqs c) (g_hyps s) h <= 2)%nat) ->
  predict (with_lib si E) c t s = Ok s' -> g_hyps s' <> [] ->
  0 < predicted_total (with_lib si E) feps c (g_hyps s) (fun _ => true) /\
  forall f, (forall a b, Permutation a b -> f a = f b) ->
    mass (fun h => f (h_ts h)) (g_hyps s') =
      predicted_total (with_lib si E) feps c (g_hyps s) f / predicted_total (with_lib si E) feps c (g_hyps s) (fun _ => true).
Proof.
  intros FS ST CV MS E si c t s s' Hsi Hh Hc Hb Hs H Hne. rewrite (predict_two E si c t s Hb Hs) in H.
  destruct (C92_glmb_predict_bayes_partial (with_ks (two_ks si) (with_lib si E)) c t s s' feps (two_ok si Hsi) (two_cost si Hsi) Hh Hc H Hne) as [A B].
  rewrite (total_two E si feps c (g_hyps s) (fun _ => true) Hb Hs) in A, B. split; [exact A|]. intros f Hf. rewrite (B f Hf), (total_two E si feps c (g_hyps s) f Hb Hs). reflexivity.
Qed.
Print Assumptions C92_library_two_requests_partial.
(** * C123: with two sets of births asked for, the second considered is a most
    probable one among all other sets of births of probability other than 1/2. *)
Theorem C123_second_births_considered_partial : forall {FS ST CV MS} (E : genv FS ST CV MS) si c,
  sorts_down si -> cfg_ok c -> scaled_cfg c -> (2 <= c_reqb c)%nat -> (exists b p, In (b, p) (c_births c) /\ p <> 1 / 2) ->
  exists B0 B1 rest, birth_choices (with_lib si E) c = B0 :: B1 :: rest /\ ~ Permutation B1 B0 /\
    forall B, NoDup B -> (forall i, In i B -> (i < length (c_births c))%nat /\ nth i (map snd (c_births c)) 0 <> 1 / 2) -> ~ Permutation B B0 ->
      birth_weight c B <= birth_weight c B1.
Proof.
  intros FS ST CV MS E si c Hsi Hc [Hb _] Hk Hex. set (lc := map (fun b => - ln (snd b / (1 - snd b))) (c_births c)).
  assert (HV : scaled_vec lc) by (intros x Hx; apply in_map_iff in Hx; destruct Hx as [[b p] [<- Hx]]; exact (odds_neg p (Hb b p Hx))).
  assert (Ll : length lc = length (c_births c)) by apply map_length.
  assert (Hz : forall i, (i < length (c_births c))%nat -> nth i (map snd (c_births c)) 0 <> 1 / 2 -> nth i lc 0 <> 0).
  { intros i Hi. unfold lc. destruct (nth_error (c_births c) i) as [[b p]|] eqn:En; [|apply nth_error_None in En; lia].
    rewrite (nth_error_nth _ _ _ (map_nth_error snd i _ En)), (nth_error_nth _ _ _ (map_nth_error (fun b => - ln (snd b / (1 - snd b))) i _ En)). cbn [snd]. intros Hp Hl. apply Hp.
    pose proof (proj1 Hc b p (nth_error_In _ _ En)) as Hp1. assert (Hx : p / (1 - p) = 1).
    { apply ln_inv; [apply Rdiv_lt_0_compat; lra|lra|]. rewrite ln_1. lra. }
    apply (f_equal (fun x => x * (1 - p))) in Hx. unfold Rdiv in Hx. rewrite Rmult_assoc, Rinv_l in Hx by lra. lra. }
  destruct (l_kshort_two si lc Hsi (c_reqb c) HV Hk) as [B0 [ps [cs [Ek K]]]].
  destruct (l_kshort_ok si Hsi _ _ _ _ Ek) as [_ Hok]. destruct (Hok B0 (or_introl eq_refl)) as [N0 R0].
  destruct ps as [|B1 rest], cs as [|c2 cs]; try contradiction.
  - exfalso. destruct Hex as [b [p [Hin Hp]]]. apply In_nth_error in Hin as [i Hi]. assert (Hil : (i < length (c_births c))%nat) by (apply nth_error_Some; congruence).
    assert (Hi0 : nth i lc 0 <> 0). { apply Hz; [exact Hil|]. rewrite (nth_error_nth _ _ _ (map_nth_error snd i _ Hi)). exact Hp. }
    assert (A := K [] ltac:(constructor) ltac:(intros j [])). apply Permutation_nil in A. subst B0.
    assert (A := K [i] ltac:(constructor; [intros []|constructor]) ltac:(intros j [<-|[]]; split; [rewrite Ll; exact Hil|exact Hi0])). apply Permutation_length in A. discriminate.
  - destruct K as [_ [K1 [K2 [K3 K4]]]]. exists B0, B1, rest. split; [unfold birth_choices; cbn [v_kshort with_lib]; fold lc; rewrite Ek; reflexivity|]. split; [exact K1|].
    intros B NB RB HnB. assert (L : tot lc B1 <= tot lc B) by (apply K4; [exact NB|intros i Hi; destruct (RB i Hi); rewrite Ll; split; [assumption|apply Hz; assumption]|exact HnB]).
    assert (R1 : forall i, In i B1 -> (i < length (c_births c))%nat) by (intros i Hi; rewrite <- Ll; apply K3, Hi).
    pose proof (birth_weight_exp c B1 0 (proj1 Hc) K2 R1) as W0. pose proof (birth_weight_exp c B 0 (proj1 Hc) NB (fun i Hi => proj1 (RB i Hi))) as W. fold lc in W0, W. rewrite Ropp_0, exp_0, Rmult_1_l in W0, W. rewrite <- W0, <- W.
    cbn beta in L. set (a := rsum (map _ B)) in *. set (b := rsum (map _ B1)) in *. destruct (Req_dec a b) as [->|]; [lra|]. left. apply exp_increasing. lra.
Qed.
Print Assumptions C123_second_births_considered_partial.

(** One birth term and one track, both of probability 1/10, two sets requested
    of each: the hypotheses hold. *)
Example C92_library_ex : exists s s',
  let E := d_env false in let c := b_cfg in
  sorts_down lib_si /\ hash_ok (v_hash E) /\ cfg_ok c /\ scaled_cfg c /\ (c_reqb c <= 2)%nat /\ (2 <= c_reqb c)%nat /\ (exists b p, In (b, p) (c_births c) /\ p <> 1 / 2) /\
  (forall h, In h (g_hyps s) -> h_ts h <> [] -> (share_of (c_reqs c) (g_hyps s) h <= 2)%nat) /\ (exists h, In h (g_hyps s) /\ h_ts h <> []) /\
  predict (with_lib lib_si E) c 1 s = Ok s' /\ g_hyps s' <> [].
Proof.
  assert (Hsc : scaled_cfg b_cfg) by (split; [intros b p [H|[]]; injection H as _ <-|]; exact odds_1).
  assert (Hc : cfg_ok b_cfg) by (split; [intros b p [Hb|[]]; inversion Hb; lra|]; cbn; lra).
  set (e := birth_entry (with_lib lib_si (d_env false)) b_cfg 0 0 0 d_birth).
  set (h := {| h_p := 1; h_ts := [0%nat] |}).
  set (s := {| g_tab := [e]; g_hyps := [h]; g_card := [0; 1]; g_cnt := 1%nat; g_meas := []; g_ext := []; g_states := []; g_labels := []; g_covs := [] |} : glmb unit unit unit unit).
  assert (Hp : forall h, In h (g_hyps s) -> 0 < h_p h) by (intros h0 [<-|[]]; cbn; lra).
  assert (HP : exists s', predict (with_lib lib_si (d_env false)) b_cfg 1 s = Ok s').
  { change (exists s', exec (with_lib lib_si (d_env false)) b_cfg (OpPredict 1) s = Ok s'). rewrite (lib_exec_eq (d_env false) lib_si lib_si_ok _ _ _ Hsc). cbn [exec].
    apply predict_total; [exact Hc|exact (tot_total lib_si)|exact (tot_ok lib_si lib_si_ok)|reflexivity|exact Hp|]. intros h0 i0 [<-|[]] [<-|[]]. cbn. lia. }
  destruct HP as [s' Hs']. exists s, s'. split; [exact lib_si_ok|]. split; [apply d_hash_ok|]. split; [exact Hc|]. split; [exact Hsc|]. split; [cbn; lia|]. split; [cbn; lia|].
  split; [exists d_birth, (1 / 10); split; [now left|lra]|].
  assert (Es : share_of (c_reqs b_cfg) (g_hyps s) h = 2%nat).
  { unfold share_of, s, h, b_cfg. cbn [g_hyps map h_p c_reqs]. rewrite rsum_cons. change (rsum []) with 0. rewrite sqrt_1.
    replace (INR 2 * 1 / (1 + 0)) with (IZR 2) by (cbn [INR]; field). assert (Er : roundR (IZR 2) = 2%Z); [|rewrite Er; reflexivity].
    destruct (roundR_spec (IZR 2)) as [[A B] _]. assert (1 < roundR (IZR 2))%Z by (apply lt_IZR; lra). assert (roundR (IZR 2) < 3)%Z by (apply lt_IZR; lra). lia. }
  split; [intros h0 [<-|[]] _; rewrite Es; lia|]. split; [exists h; split; [now left|discriminate]|]. split; [exact Hs'|].
  assert (L := C89_enough_requested_keeps_alive (d_env false) lib_si b_cfg 1 s s' lib_si_ok Hc Hsc ltac:(cbn; lia) Hp ltac:(cbn; lia) Hs'). intros Z. rewrite Z in L. cbn in L. lia.
Qed.
