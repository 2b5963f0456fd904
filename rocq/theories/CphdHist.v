(** Histories of the CPHD filter: predict, correct, the inherited cleanup and
    extraction, with every attribute free to be re-assigned between calls
    (C143, C144).  The cleanup steps are those of the PHD filter over the reals
    (RPhdModel.v). *)
From Verif Require Import RBase RLists RPhdModel RPhdSpec RPhdProofs RPhdProps RPhdHist.
From Coq Require Import Permutation Reals Lra.
From Verif Require Import OspaModel OspaProofs CphdModel CphdSpec CphdProofs CphdProps.
Open Scope R_scope.

(** ** model *)
(** The two representations of a Gaussian mixture (utilities/distributions.py:16-38). *)
Definition to_g (g : rmix vec mat) : gmix := {| gm_w := rm_w g; gm_m := rm_m g; gm_p := rm_p g |}.
Definition of_g (g : gmix) : rmix vec mat := {| rm_w := gm_w g; rm_m := gm_m g; rm_p := gm_p g |}.
(** Attributes of a CPHD object: those of CphdModel.v and the ones the inherited
    cleanup uses (constructor of the base class, tracker.py:575-587): thresholds,
    max_gauss, state dimension, la.inv. *)
Record cattr (Meas : Type) := { a_c : ccfg vec mat Meas; a_prune : R; a_merge : R; a_max : nat; a_dim : nat;
                                a_inv : mat -> result mat }.
Arguments a_c {Meas}. Arguments a_prune {Meas}. Arguments a_merge {Meas}. Arguments a_max {Meas}. Arguments a_dim {Meas}. Arguments a_inv {Meas}.
(** The object seen as a PHD filter (the base class), tracker.py:575-587. *)
Definition as_phd {Meas} (a : cattr Meas) : cfg Meas :=
  {| c_filter := {| fpredict := k_fpred (a_c a); fcorrect := fun z m p => k_fcorr (a_c a) z m p |};
     c_pd := k_pd (a_c a); c_ps := k_ps (a_c a); c_birth := map to_g (k_birth (a_c a));
     c_kappa := k_rate (a_c a) * k_den (a_c a); c_extract := / 2; c_prune := a_prune a; c_merge := a_merge a;
     c_max := a_max a; c_gating := false; c_save_covs := k_save_covs (a_c a); c_dim := a_dim a; c_inv := a_inv a;
     c_gate := fun m _ => Ok m |}.
(** The inherited prune, merge and cap steps of [cleanup], tracker.py:892-925. *)
Definition clean_fn {Meas} (a : cattr Meas) (argsort : list R -> list nat) (pr ca me : bool) (g : rmix vec mat) : result (rmix vec mat) :=
  do s <- cleanup (as_phd a) argsort pr ca me false (with_mix (@phd_init Meas) (to_g g)); Ok (of_g (ph_mix s)).
(** Calls of public methods. *)
Inductive hop (Meas : Type) := HPredict | HCorrect (z : list Meas) | HExtract | HSetMax (x : nat)
| HCleanup (do_prune do_cap do_merge do_extract : bool).
Arguments HPredict {Meas}. Arguments HCorrect {Meas}. Arguments HExtract {Meas}. Arguments HSetMax {Meas}. Arguments HCleanup {Meas}.
(** One call; cleanup (inherited, tracker.py:892-929) ends with the overridden
    [extract_states] (tracker.py:1559-1593). *)
Definition hstep {Meas} (a : cattr Meas) (argsort : list R -> list nat) (o : hop Meas) (s : cphd vec mat Meas) : result (cphd vec mat Meas) :=
  match o with
  | HPredict => cstep (a_c a) argsort CPredict s
  | HCorrect z => cstep (a_c a) argsort (CCorrect z) s
  | HExtract => cstep (a_c a) argsort CExtract s
  | HSetMax x => cstep (a_c a) argsort (CSetMax x) s
  | HCleanup pr ca me ex =>
      do s1 <- cstep (a_c a) argsort (CClean (clean_fn a argsort pr ca me)) s;
      if ex then cstep (a_c a) argsort CExtract s1 else Ok s1
  end.
Fixpoint hruns {Meas} (argsort : list R -> list nat) (l : list (cattr Meas * hop Meas)) (s : cphd vec mat Meas) : result (cphd vec mat Meas) :=
  match l with [] => Ok s | (a, o) :: l' => do s1 <- hstep a argsort o s; hruns argsort l' s1 end.

(** ** specification *)
(** Sensible attributes; survival strictly between 0 and 1 and births and clutter
    present (otherwise see C43, C76). *)
Record cphd_ok {Meas} (good : mat -> Prop) (a : cattr Meas) : Prop := {
  h_ps : 0 < k_ps (a_c a) < 1; h_pd : 0 <= k_pd (a_c a) <= 1; h_rate : 0 < k_rate (a_c a); h_den : 0 < k_den (a_c a);
  h_esf : esf_ok (k_esf (a_c a));
  h_births : forall b, In b (k_birth (a_c a)) -> raligned b /\ rnonneg b /\ forall p, In p (rm_p b) -> good p;
  h_born : exists b, first_weights (k_birth (a_c a)) b /\ 0 < b;
  h_lik : forall z m p, 0 <= snd (k_fcorr (a_c a) z m p);
  h_fpred : forall m p, good p -> good (snd (k_fpred (a_c a) m p));
  h_fcorr : forall z m p, good p -> good (snd (fst (k_fcorr (a_c a) z m p)));
  h_gate : k_gating (a_c a) = true -> forall ms g, exists ms', k_gate (a_c a) ms g = Ok ms';
  h_inv : forall p, good p -> exists ic, a_inv a p = Ok ic;
  h_prune : 0 < a_prune a; h_merge : 0 <= a_merge a; h_max : (1 <= a_max a)%nat }.
(** Merging and capping together with pruning; max_expected_card positive. *)
Definition hcareful {Meas} (o : hop Meas) : Prop :=
  match o with HCleanup pr ca me _ => pr = true \/ (ca = false /\ me = false) | HSetMax x => (0 < x)%nat | _ => True end.
(** Every correction follows a prediction, with no other correction or cleanup in
    between (otherwise the mixture may be empty or weightless). *)
Fixpoint fed {Meas} (predicted : bool) (l : list (hop Meas)) : Prop :=
  match l with
  | [] => True
  | HPredict :: l' => fed true l'
  | HCorrect _ :: l' => predicted = true /\ fed false l'
  | HCleanup _ _ _ _ :: l' => fed false l'
  | _ :: l' => fed predicted l'
  end.

(** ** proofs *)
Section P.
Context {Meas : Type} (good : mat -> Prop) (Hgood : cov_class good) (argsort : list R -> list nat) (Hsort : rsorts argsort).
Lemma sorts_of ws : sorts (argsort ws) ws.
Proof. destruct (Hsort ws) as [A B]. split; [exact A|exact B]. Qed.
Definition rgood (g : rmix vec mat) : Prop := forall p, In p (rm_p g) -> good p.
Definition CInv (s : cphd vec mat Meas) : Prop :=
  (0 < cp_max s)%nat /\ distribution (cp_max s) (cp_card s) /\ raligned (cp_mix s) /\ rnonneg (cp_mix s) /\ rgood (cp_mix s).

Lemma as_phd_ok (a : cattr Meas) : cphd_ok good a -> phd_ok good (as_phd a).
Proof.
  intros O. constructor; cbn [as_phd c_ps c_pd c_kappa c_birth c_filter fpredict fcorrect c_inv c_gating c_prune c_merge c_max].
  - pose proof (h_ps _ _ O). lra.
  - apply (h_pd _ _ O).
  - apply Rmult_lt_0_compat; [apply (h_rate _ _ O)|apply (h_den _ _ O)].
  - intros b Hb. apply in_map_iff in Hb as [b0 [<- Hb]]. destruct (h_births _ _ O b0 Hb) as [[A1 A2] [B C]].
    split; [split; [reflexivity|]; split; [exact A1|exact A2]|]. split; [exact B|exact C].
  - apply (h_lik _ _ O).
  - apply (h_fpred _ _ O).
  - apply (h_fcorr _ _ O).
  - apply (h_inv _ _ O).
  - discriminate.
  - apply (h_prune _ _ O).
  - apply (h_merge _ _ O).
  - apply (h_max _ _ O).
Qed.
Lemma cfg_ok_of (a : cattr Meas) : cphd_ok good a -> cfg_ok (a_c a).
Proof.
  intros O. split; [apply (h_esf _ _ O)|]. split; [pose proof (h_ps _ _ O); lra|]. split; [apply (h_pd _ _ O)|]. split; [pose proof (h_den _ _ O); lra|].
  split; [|apply (h_lik _ _ O)]. intros b Hb. destruct (h_births _ _ O b Hb) as [A [B _]]. split; assumption.
Qed.

Lemma clean_total (a : cattr Meas) pr ca me g : cphd_ok good a -> pr = true \/ (ca = false /\ me = false) -> raligned g -> rnonneg g -> rgood g ->
  exists g', clean_fn a argsort pr ca me g = Ok g' /\ raligned g' /\ rnonneg g' /\ rgood g' /\ rsum (rm_w g') <= rsum (rm_w g) /\
    (ca = true -> (length (rm_w g') <= a_max a)%nat).
Proof.
  intros O Hc [A1 A2] Hn Hg. unfold clean_fn.
  destruct (cleanup_total good Hgood argsort sorts_of (as_phd a) pr ca me false (with_mix (@phd_init Meas) (to_g g)) (as_phd_ok a O) Hc) as [s' [E [[[[_ [B1 B2]] C] D] [T [_ L]]]]].
  { split; [split; [split; [reflexivity|]; split; [exact A1|exact A2]|exact Hn]|exact Hg]. }
  rewrite E. cbn [bind]. eexists. split; [reflexivity|]. split; [split; [exact B1|exact B2]|]. split; [exact C|]. split; [exact D|]. split; [exact T|exact L].
Qed.

Lemma pred_p (c : ccfg vec mat Meas) g : rm_p (pred_mix c g) =
  map (fun mp => snd (k_fpred c (fst mp) (snd mp))) (combine (rm_m g) (rm_p g)) ++ concat (map (@rm_p vec mat) (k_birth c)).
Proof.
  unfold pred_mix. rewrite <- (map_map (fun mp => k_fpred c (fst mp) (snd mp)) snd).
  assert (G : forall l (h : rmix vec mat), rm_p (fold_left (@rm_app vec mat) l h) = rm_p h ++ concat (map (@rm_p vec mat) l)).
  { induction l as [|b l IH]; intros h; cbn [fold_left map concat]; [symmetry; apply app_nil_r|]. rewrite IH. cbn [rm_app rm_p]. symmetry. apply app_assoc. }
  rewrite G. cbn [rm_p]. reflexivity.
Qed.
Lemma pred_w (c : ccfg vec mat Meas) g : rm_w (pred_mix c g) = map (fun x => k_ps c * x) (rm_w g) ++ concat (map (@rm_w vec mat) (k_birth c)).
Proof.
  unfold pred_mix.
  assert (G : forall l (h : rmix vec mat), rm_w (fold_left (@rm_app vec mat) l h) = rm_w h ++ concat (map (@rm_w vec mat) l)).
  { induction l as [|b l IH]; intros h; cbn [fold_left map concat]; [symmetry; apply app_nil_r|]. rewrite IH. cbn [rm_app rm_w]. symmetry. apply app_assoc. }
  rewrite G. cbn [rm_w]. reflexivity.
Qed.
Lemma birth_mass (c : ccfg vec mat Meas) b : birth_sum c = Ok b -> (forall x, In x (k_birth c) -> rnonneg x) -> b <= rsum (concat (map (@rm_w vec mat) (k_birth c))).
Proof.
  unfold birth_sum. intros E Hn. apply bind_ok in E as [l [E E']]. injection E' as <-. revert l E Hn.
  induction (k_birth c) as [|x bs IH]; intros l E Hn; cbn [mapM] in E.
  - injection E as <-. cbn [map concat]. lra.
  - apply bind_ok in E as [w [Ew E]]. apply bind_ok in E as [l' [El E]]. injection E as <-.
    specialize (IH l' El (fun y Hy => Hn y (or_intror Hy))). cbn [map concat]. rewrite rsum_cons, rsum_app.
    assert (w <= rsum (rm_w x)); [|lra]. specialize (Hn x (or_introl eq_refl)). unfold rnonneg in Hn. destruct (rm_w x) as [|w0 ws]; [discriminate|]. injection Ew as <-.
    rewrite rsum_cons. assert (0 <= rsum ws); [|lra]. apply qs_nonneg. intros y Hy. apply Hn. right. exact Hy.
Qed.

Lemma predict_step (a : cattr Meas) s : cphd_ok good a -> CInv s ->
  exists s', cp_predict (a_c a) s = Ok s' /\ CInv s' /\ 0 < rsum (rm_w (cp_mix s')) /\
    cp_meas s' = cp_meas s /\ cp_states s' = cp_states s /\ cp_hist s' = cp_hist s /\ cp_max s' = cp_max s /\
    length (rm_w (cp_mix s')) = (length (rm_w (cp_mix s)) + length (concat (map (@rm_w vec mat) (k_birth (a_c a)))))%nat.
Proof.
  intros O [Hm [Hd [Ha [Hn Hg]]]]. destruct (h_born _ _ O) as [b [Eb Hb]].
  destruct (C41_cphd_predict_total (a_c a) s b (h_ps _ _ O) Eb Hb Hm Hd) as [s' [E [M1 D1]]]. exists s'. split; [exact E|].
  unfold cp_predict in E. apply bind_ok in E as [rho [_ E]]. injection E as <-. cbn [cp_mix cp_max cp_card cp_meas cp_states cp_hist] in *.
  destruct (pred_mix_ok (a_c a) (cp_mix s) (cfg_ok_of a O) Ha Hn) as [A1 A2].
  split; [|split; [|split; [reflexivity|split; [reflexivity|split; [reflexivity|split; [reflexivity|]]]]]].
  - split; [exact Hm|]. split; [exact D1|]. split; [exact A1|]. split; [exact A2|].
    intros p Hp. unfold cp_mix in Hp. rewrite pred_p in Hp. apply in_app_or in Hp as [Hp|Hp].
    + apply in_map_iff in Hp as [[m q] [<- Hq]]. apply in_combine_r in Hq. cbn [fst snd]. apply (h_fpred _ _ O), Hg, Hq.
    + apply in_concat in Hp as [l [Hl Hp]]. apply in_map_iff in Hl as [x [<- Hx]]. apply (h_births _ _ O x Hx), Hp.
  - rewrite pred_w, rsum_app.
    assert (0 <= rsum (map (fun x => k_ps (a_c a) * x) (rm_w (cp_mix s)))).
    { apply qs_nonneg. intros x Hx. apply in_map_iff in Hx as [y [<- Hy]]. apply Rmult_le_pos; [pose proof (h_ps _ _ O); lra|apply Hn, Hy]. }
    pose proof (birth_mass (a_c a) b (proj2 (birth_sum_iff _ _) Eb) (fun x Hx => proj1 (proj2 (h_births _ _ O x Hx)))). lra.
  - rewrite pred_w, app_length, map_length. reflexivity.
Qed.

(** With gating the correction is that of the gated measurements (C78). *)
Definition ungated (c : ccfg vec mat Meas) : ccfg vec mat Meas :=
  {| k_fpred := k_fpred c; k_fcorr := k_fcorr c; k_ps := k_ps c; k_pd := k_pd c; k_birth := k_birth c; k_rate := k_rate c;
     k_den := k_den c; k_esf := k_esf c; k_gating := false; k_gate := k_gate c; k_save_covs := k_save_covs c |}.
Lemma correct_step (a : cattr Meas) z s : cphd_ok good a -> CInv s -> 0 < rsum (rm_w (cp_mix s)) ->
  exists s' used, cp_correct (a_c a) z s = Ok s' /\ CInv s' /\ cp_meas s' = cp_meas s ++ [used] /\
    length (cp_hist s') = Datatypes.S (length (cp_hist s)) /\ cp_states s' = cp_states s /\ cp_max s' = cp_max s /\
    (exists h, cp_hist s' = cp_hist s ++ [h] /\ (h <= cp_max s)%nat) /\
    length (rm_w (cp_mix s')) = ((1 + length used) * length (rm_w (cp_mix s)))%nat.
Proof.
  intros O [Hm [Hd [Ha [Hn Hg]]]] Ht.
  assert (U : exists used, cp_correct (a_c a) z s = cp_correct (ungated (a_c a)) used s).
  { destruct (k_gating (a_c a)) eqn:G.
    - destruct (h_gate _ _ O G z (cp_mix s)) as [ms Ems]. exists ms. unfold cp_correct. rewrite G, Ems. reflexivity.
    - exists z. unfold cp_correct. rewrite G. reflexivity. }
  destruct U as [used U].
  destruct (C41_cphd_correct_total (ungated (a_c a)) s used (h_esf _ _ O) (h_ps _ _ O) (h_pd _ _ O) (h_rate _ _ O) (h_den _ _ O) eq_refl (h_lik _ _ O) Ha Hn Ht Hd)
    as [s' [E [D' [M' [L' [A' [N' C']]]]]]].
  exists s', used. rewrite U. split; [exact E|].
  assert (Hne : rm_w (cp_mix s) <> []) by (intros X; rewrite X in Ht; cbn in Ht; lra).
  unfold cp_correct in E. cbn [ungated k_gating bind] in E.
  rewrite (correct_density_val (ungated (a_c a)) (cp_max s) (cp_card s) used (cp_mix s)) in E; try assumption; try (cbn [ungated k_esf k_ps k_pd k_rate k_den]; apply O); try (pose proof (h_pd _ _ O); cbn [ungated k_pd]; lra).
  2:{ intros q x Hq Hx. unfold lik in Hq. apply in_map_iff in Hq as [z0 [<- _]]. unfold qz_of, corr_all in Hx. rewrite map_map in Hx. apply in_map_iff in Hx as [mp [<- _]]. apply (h_lik _ _ O). }
  cbn [bind] in E. apply bind_ok in E as [h [Eh E]]. injection E as <-. cbn [cp_mix cp_max cp_card cp_meas cp_states cp_hist] in *.
  split; [|split; [exact M'|split; [exact L'|split; [reflexivity|split; [reflexivity|split; [|exact C']]]]]].
  - split; [exact Hm|]. split; [exact D'|]. split; [exact A'|]. split; [exact N'|].
    intros p Hp. unfold cp_mix in Hp. cbn [rm_p] in Hp. apply in_app_or in Hp as [Hp|Hp]; [apply Hg, Hp|].
    apply in_flat_map in Hp as [z1 [Hz1 Hp]].
    assert (HL : forall (l : list (list (vec * mat * R))) d, l <> [] -> In (last l d) l).
    { clear. induction l as [|x l IH]; intros d Hne; [contradiction|]. destruct l as [|y l]; [left; reflexivity|]. right. apply IH. discriminate. }
    specialize (HL (map (corr_all (ungated (a_c a)) (cp_mix s)) used) []).
    assert (Hu : map (corr_all (ungated (a_c a)) (cp_mix s)) used <> []) by (destruct used; [contradiction|discriminate]).
    specialize (HL Hu). apply in_map_iff in Hp as [y [<- Hy]]. apply in_map_iff in HL as [zl [El _]]. assert (Hy' : In y (corr_all (ungated (a_c a)) (cp_mix s) zl)) by (rewrite El; exact Hy). clear Hy. rename Hy' into Hy.
    unfold corr_all in Hy. apply in_map_iff in Hy as [[m q] [<- Hq]]. apply in_combine_r in Hq. cbn [fst snd ungated k_fcorr]. apply (h_fcorr _ _ O), Hg, Hq.
  - exists h. split; [reflexivity|]. apply argmaxR_spec in Eh as [Eh _]. rewrite map_length, seq_length in Eh. lia.
Qed.
Lemma extract_step (a : cattr Meas) s : CInv s ->
  exists s', cp_extract (a_c a) argsort s = Ok s' /\ CInv s' /\ cp_mix s' = cp_mix s /\ cp_meas s' = cp_meas s /\ cp_hist s' = cp_hist s /\ cp_max s' = cp_max s /\ length (cp_states s') = Datatypes.S (length (cp_states s)).
Proof.
  intros [Hm [Hd [Ha [Hn Hg]]]].
  destruct (C44_cphd_extract (a_c a) argsort s (fun _ => 0) (fun _ _ => 0) Hsort Ha) as [s' [order [k [card [num [E [_ [_ [_ [_ [_ [_ [ES [_ [_ [_ [_ [E1 [E2 E3]]]]]]]]]]]]]]]]]]].
  { intros X. destruct Hd as [L _]. rewrite X in L. discriminate. }
  exists s'. split; [exact E|]. assert (B : cp_meas s' = cp_meas s /\ cp_hist s' = cp_hist s).
  { unfold cp_extract in E. apply bind_ok in E as [x1 [_ E]]. apply bind_ok in E as [x2 [_ E]]. apply bind_ok in E as [x3 [_ E]]. injection E as <-. split; reflexivity. }
  split; [|split; [exact E1|split; [apply B|split; [apply B|split; [exact E3|]]]]].
  - unfold CInv. rewrite E1, E2, E3. split; [exact Hm|]. split; [exact Hd|]. split; [exact Ha|]. split; [exact Hn|exact Hg].
  - rewrite ES, app_length. cbn [length]. lia.
Qed.

(** One call keeps the invariant and advances [fed]. *)
Definition Fed (b : bool) (s : cphd vec mat Meas) : Prop := b = true -> 0 < rsum (rm_w (cp_mix s)).
(** Bookkeeping: one cardinality estimate per correction, none above
    max_expected_card is recorded by a correction. *)
Definition Book (s : cphd vec mat Meas) : Prop := length (cp_hist s) = length (cp_meas s).
Lemma hruns_total (l : list (cattr Meas * hop Meas)) : forall b s,
  (forall a o, In (a, o) l -> cphd_ok good a /\ hcareful o) -> fed b (map snd l) -> CInv s -> Fed b s -> Book s ->
  exists s', hruns argsort l s = Ok s' /\ CInv s' /\ Book s'.
Proof.
  induction l as [|[a o] l IH]; intros b s Hl Hf HI HF HB; [exists s; split; [reflexivity|split; assumption]|].
  destruct (Hl a o (or_introl eq_refl)) as [O Hc]. cbn [hruns map snd] in *.
  assert (Hl' : forall a o, In (a, o) l -> cphd_ok good a /\ hcareful o) by (intros; apply Hl; right; assumption).
  destruct o as [|z| |x|pr ca me ex]; cbn [fed hstep cstep] in *.
  - destruct (predict_step a s O HI) as [s' [E [I' [T' [M1 [_ [H1 _]]]]]]]. rewrite E. cbn [bind]. apply (IH true); try assumption; [intros _; exact T'|].
    unfold Book. rewrite M1, H1. exact HB.
  - destruct Hf as [-> Hf]. destruct (correct_step a z s O HI (HF eq_refl)) as [s' [used [E [I' [M1 [H1 _]]]]]]. rewrite E. cbn [bind]. apply (IH false); try assumption; [discriminate|].
    unfold Book. rewrite M1, H1, app_length, HB. cbn [length]. lia.
  - destruct (extract_step a s HI) as [s' [E [I' [G [M1 [H1 _]]]]]]. rewrite E. cbn [bind]. apply (IH b); try assumption; [intros X; rewrite G; apply HF, X|].
    unfold Book. rewrite M1, H1. exact HB.
  - apply (IH b); try assumption; try (intros X; apply HF, X). destruct HI as [_ [_ R3]]. split; [exact Hc|]. split; [apply init_card_dist|exact R3].
  - destruct HI as [Hm [Hd [Ha [Hn Hg]]]]. destruct (clean_total a pr ca me (cp_mix s) O Hc Ha Hn Hg) as [g' [E [A' [N' [G' [T' L']]]]]]. rewrite E. cbn [bind].
    set (s1 := {| cp_mix := g'; cp_card := cp_card s; cp_max := cp_max s; cp_hist := cp_hist s; cp_meas := cp_meas s; cp_states := cp_states s; cp_covs := cp_covs s; cp_agents := cp_agents s |}).
    assert (I1 : CInv s1) by (split; [exact Hm|split; [exact Hd|split; [exact A'|split; [exact N'|exact G']]]]).
    destruct ex.
    + destruct (extract_step a s1 I1) as [s2 [E2 [I2 [_ [M1 [H1 _]]]]]]. rewrite E2. cbn [bind]. apply (IH false); try assumption; [discriminate|]. unfold Book. rewrite M1, H1. exact HB.
    + cbn [bind]. apply (IH false); try assumption. discriminate.
Qed.
Lemma cinv_new mx : (0 < mx)%nat -> CInv (cphd_new mx).
Proof. intros H. split; [exact H|]. split; [apply init_card_dist|]. split; [split; reflexivity|]. split; [intros x []|intros p []]. Qed.
End P.

(** C143: no history of calls raises or produces nan, and afterwards the
    cardinality distribution is a distribution on 0..max_expected_card, the
    mixture's lists are aligned, no weight is negative, and there is one recorded
    cardinality estimate per correction. *)
Theorem C143_cphd_history_total : forall (Meas : Type) good argsort mx (l : list (cattr Meas * hop Meas)),
  cov_class good -> rsorts argsort -> (0 < mx)%nat ->
  (forall a o, In (a, o) l -> cphd_ok good a /\ hcareful o) -> fed false (map snd l) ->
  exists s, hruns argsort l (cphd_new mx) = Ok s /\ distribution (cp_max s) (cp_card s) /\
    raligned (cp_mix s) /\ rnonneg (cp_mix s) /\ (forall p, In p (rm_p (cp_mix s)) -> good p) /\
    length (cp_hist s) = length (cp_meas s).
Proof.
  intros Meas good argsort mx l Hg Hs Hm Hl Hf.
  destruct (hruns_total good Hg argsort Hs l false (cphd_new mx) Hl Hf (cinv_new good mx Hm) ltac:(discriminate) eq_refl) as [s [E [[_ [A [B [C D]]]] F]]].
  exists s. repeat (split; [assumption|]). exact F.
Qed.

(** C144: memory, and the recorded estimates. *)
Lemma hruns_app {Meas} argsort (l1 l2 : list (cattr Meas * hop Meas)) : forall s, hruns argsort (l1 ++ l2) s = (do s1 <- hruns argsort l1 s; hruns argsort l2 s1).
Proof. induction l1 as [|[a o] l1 IH]; intros s; [reflexivity|]. cbn [app hruns]. destruct (hstep a argsort o s); [apply IH|reflexivity]. Qed.
Theorem C144_cphd_component_bound : forall (Meas : Type) good argsort mx (l : list (cattr Meas * hop Meas)) a me ex s,
  cov_class good -> rsorts argsort -> (0 < mx)%nat ->
  (forall a o, In (a, o) l -> cphd_ok good a /\ hcareful o) -> fed false (map snd l) -> cphd_ok good a ->
  hruns argsort (l ++ [(a, HCleanup true true me ex)]) (cphd_new mx) = Ok s ->
  (length (rm_w (cp_mix s)) <= a_max a)%nat /\
  (** and during the next scan *)
  forall a1 a2 z, cphd_ok good a1 -> cphd_ok good a2 ->
    exists s2 used card, hruns argsort [(a1, HPredict); (a2, HCorrect z)] s = Ok s2 /\
      cp_meas s2 = cp_meas s ++ [used] /\ cp_hist s2 = cp_hist s ++ [card] /\ (card <= cp_max s)%nat /\
      (length (rm_w (cp_mix s2)) <= (1 + length used) * (a_max a + length (concat (map (@rm_w vec mat) (k_birth (a_c a1))))))%nat.
Proof.
  intros Meas good argsort mx l a me ex s Hg Hs Hm Hl Hf O E.
  destruct (hruns_total good Hg argsort Hs l false (cphd_new mx) Hl Hf (cinv_new good mx Hm) ltac:(discriminate) eq_refl) as [s0 [E0 [I0 _]]].
  rewrite hruns_app, E0 in E. cbn [bind hruns] in E. apply bind_ok in E as [s1 [E1 E]]. injection E as <-. cbn [hstep cstep] in E1.
  destruct I0 as [Hm0 [Hd0 [Ha0 [Hn0 Hg0]]]]. destruct (clean_total good Hg argsort Hs a true true me (cp_mix s0) O (or_introl eq_refl) Ha0 Hn0 Hg0) as [g' [Ec [A' [N' [G' [_ L']]]]]].
  specialize (L' eq_refl). rewrite Ec in E1. cbn [bind] in E1.
  set (s' := {| cp_mix := g'; cp_card := cp_card s0; cp_max := cp_max s0; cp_hist := cp_hist s0; cp_meas := cp_meas s0; cp_states := cp_states s0; cp_covs := cp_covs s0; cp_agents := cp_agents s0 |}) in E1.
  assert (I' : CInv good s') by (split; [exact Hm0|split; [exact Hd0|split; [exact A'|split; [exact N'|exact G']]]]).
  assert (X : CInv good s1 /\ cp_mix s1 = g').
  { destruct ex; [|injection E1 as <-; split; [exact I'|reflexivity]]. destruct (extract_step good argsort Hs a s' I') as [s2 [E2 [I2 [Gm _]]]]. rewrite E2 in E1. injection E1 as <-. split; [exact I2|exact Gm]. }
  destruct X as [I1 Em]. rewrite Em. split; [exact L'|]. intros a1 a2 z O1 O2. cbn [hruns hstep cstep].
  destruct (predict_step good a1 s1 O1 I1) as [p [Ep [Ip [Tp [Mp [_ [Hp [Xp Lp]]]]]]]]. rewrite Ep. cbn [bind].
  destruct (correct_step good a2 z p O2 Ip Tp) as [c [used [Ecc [_ [Mc [_ [_ [_ [[card [Hh Hc]] Lc]]]]]]]]]. rewrite Ecc. cbn [bind].
  exists c, used, card. split; [reflexivity|]. rewrite Mc, Hh, Mp, Hp, Lc, Lp, Em. split; [reflexivity|]. split; [reflexivity|]. split; [rewrite <- Xp; exact Hc|].
  apply Nat.mul_le_mono_l. lia.
Qed.

(** C145 is false: before any prediction (or after everything was pruned) the
    mixture is empty and every correction raises, whatever the measurements. *)
Theorem C145_cphd_correct_empty_refuted : forall {V M Meas} (c : ccfg V M Meas) s meas, rm_m (cp_mix s) = [] -> k_gating c = false ->
  cp_correct c meas s = Err IndexErr \/ cp_correct c meas s = Err ValueErr.
Proof.
  intros V M Meas c s meas H G. unfold cp_correct, correct_density. rewrite G, H. cbn [bind].
  destruct (negb _); cbn [bind]; [right; reflexivity|left; reflexivity].
Qed.
Theorem C145_cphd_correct_fresh_refuted : forall {V M Meas} (c : ccfg V M Meas) mx meas, k_gating c = false ->
  cp_correct c meas (cphd_new mx) = Err IndexErr.
Proof.
  intros V M Meas c mx meas G. unfold cp_correct, correct_density, cphd_new. cbn [cp_mix cp_card cp_max rm_m rm_p rm_w length]. rewrite G. cbn [bind].
  unfold init_card. cbn [length]. rewrite repeat_length. replace (Datatypes.S mx =? mx + 1)%nat with true by (symmetry; apply Nat.eqb_eq; lia). reflexivity.
Qed.

(** ** a concrete filter with a Gaussian likelihood meeting all the hypotheses *)
Definition g_cfg (ps : R) : ccfg vec mat R :=
  {| k_fpred := fun m p => (m, p); k_fcorr := fun z m p => (m, p, exp (- ((z - m 0%nat) * (z - m 0%nat)) / 2));
     k_ps := ps; k_pd := 9 / 10; k_birth := [{| rm_w := [1]; rm_m := [fun _ => 0]; rm_p := [fun _ _ => 1] |}];
     k_rate := 1; k_den := 1 / 10; k_esf := esf_ref; k_gating := false; k_gate := fun m _ => Ok m; k_save_covs := true |}.
Definition g_attr (ps : R) : cattr R :=
  {| a_c := g_cfg ps; a_prune := / 1000; a_merge := 4; a_max := 10; a_dim := 1;
     a_inv := fun p => if Req_EM_T (p 0 0)%nat 0 then Err ValueErr else Ok (fun _ _ => / p 0%nat 0%nat) |}.
Lemma pd1r (p : mat) : pos_def 1 p <-> 0 < p 0%nat 0%nat.
Proof.
  unfold pos_def, RPhdModel.quad, RPhdModel.mvmul, rsumn_. cbn [seq map]. split.
  - intros H. specialize (H (fun _ => 1)). rewrite !qs_cons in H. change (rsum []) with 0 in H.
    assert (X : ~ (forall i, (i < 1)%nat -> 1 = 0)) by (intros X; specialize (X 0%nat ltac:(lia)); lra). specialize (H X). lra.
  - intros H d Hd. rewrite !qs_cons. change (rsum []) with 0. assert (d 0%nat <> 0) by (intros X; apply Hd; intros i Hi; replace i with 0%nat by lia; exact X).
    replace (d 0%nat * (p 0%nat 0%nat * d 0%nat + 0) + 0) with (p 0%nat 0%nat * (d 0%nat)²) by (unfold Rsqr; ring). apply Rmult_lt_0_compat; [exact H|apply Rsqr_pos_lt; assumption].
Qed.
Lemma g_ok ps : 0 < ps < 1 -> cphd_ok (pos_def 1) (g_attr ps).
Proof.
  intros Hp. constructor; cbn [g_attr g_cfg a_c k_ps k_pd k_rate k_den k_esf k_birth k_fpred k_fcorr k_gating a_inv a_prune a_merge a_max fst snd]; try lra; try lia.
  - exact esf_ref_ok.
  - intros b [<-|[]]. split; [split; reflexivity|]. split; [intros x [<-|[]]; lra|]. intros p [<-|[]]. apply pd1r. lra.
  - exists 1. split; [exists [1]; split; [repeat constructor|cbn; lra]|lra].
  - intros. left. apply exp_pos.
  - intros. assumption.
  - intros. assumption.
  - intros p H. apply pd1r in H. destruct (Req_EM_T (p 0%nat 0%nat) 0); [lra|eauto].
Qed.
Definition g_hist : list (cattr R * hop R) :=
  [(g_attr (9 / 10), HPredict); (g_attr (9 / 10), HCorrect [1; 2]); (g_attr (1 / 2), HCleanup true true true true);
   (g_attr (1 / 2), HPredict); (g_attr (1 / 3), HExtract); (g_attr (1 / 3), HCorrect []); (g_attr (1 / 3), HSetMax 5)].
Example C143_hypotheses_ex : cov_class (pos_def 1) /\ rsorts sort_ref /\ (forall a o, In (a, o) g_hist -> cphd_ok (pos_def 1) a /\ hcareful o) /\ fed false (map snd g_hist) /\
  exists s, hruns sort_ref g_hist (cphd_new 3) = Ok s /\ length (cp_hist s) = 2%nat.
Proof.
  assert (Hok : forall a o, In (a, o) g_hist -> cphd_ok (pos_def 1) a /\ hcareful o).
  { intros a o Hi. repeat (destruct Hi as [Hi|Hi]; [injection Hi as <- <-; split; [apply g_ok; lra|cbn; auto]|]); [lia|destruct Hi]. }
  assert (Hf : fed false (map snd g_hist)) by (cbn; auto).
  split; [apply pos_def_class|]. split; [exact C44_ex|]. split; [exact Hok|]. split; [exact Hf|].
  destruct (C143_cphd_history_total R (pos_def 1) sort_ref 3 g_hist (pos_def_class 1) C44_ex ltac:(lia) Hok Hf) as [s [E [_ [_ [_ [_ B]]]]]].
  exists s. split; [exact E|]. rewrite B. clear B.
  assert (K : forall (l : list (cattr R * hop R)) s s', hruns sort_ref l s = Ok s' -> length (cp_meas s') = (length (cp_meas s) + length (filter (fun ao => match snd ao with HCorrect _ => true | _ => false end) l))%nat).
  { clear. induction l as [|[a o] l IH]; intros s s' E; cbn [hruns filter length] in *; [injection E as <-; lia|]. apply bind_ok in E as [s1 [E1 E]]. rewrite (IH _ _ E). clear IH E.
    assert (X : forall (c : ccfg vec mat R) s s', cp_extract c sort_ref s = Ok s' -> cp_meas s' = cp_meas s).
    { clear. intros c s s' E. unfold cp_extract in E. apply bind_ok in E as [x1 [_ E]]. apply bind_ok in E as [x2 [_ E]]. apply bind_ok in E as [x3 [_ E]]. injection E as <-. reflexivity. }
    destruct o as [|z| |x|pr ca me ex]; cbn [hstep cstep snd filter length] in *.
    - unfold cp_predict in E1. apply bind_ok in E1 as [rho [_ E1]]. injection E1 as <-. cbn [cp_meas]. lia.
    - unfold cp_correct in E1. apply bind_ok in E1 as [ms [_ E1]]. apply bind_ok in E1 as [[g rho] [_ E1]]. apply bind_ok in E1 as [h [_ E1]]. injection E1 as <-. cbn [cp_meas]. rewrite app_length. cbn [length]. lia.
    - rewrite (X _ _ _ E1). lia.
    - injection E1 as <-. cbn [cp_set_max cp_meas]. lia.
    - apply bind_ok in E1 as [s2 [E2 E1]]. apply bind_ok in E2 as [g [_ E2]]. injection E2 as <-. destruct ex; [rewrite (X _ _ _ E1)|injection E1 as <-]; cbn [cp_meas]; lia. }
  rewrite (K _ _ _ E). reflexivity.
Qed.
(** The same likelihood in the PHD filter. *)
Example C139_hypotheses_ex_real : forall ps, 0 < ps < 1 -> phd_ok (pos_def 1) (as_phd (g_attr ps)).
Proof. intros ps H. apply as_phd_ok, g_ok, H. Qed.
Print Assumptions C143_cphd_history_total.
Print Assumptions C144_cphd_component_bound.
Print Assumptions C145_cphd_correct_empty_refuted.
Print Assumptions C145_cphd_correct_fresh_refuted.
