(** C205: the order in which the measurements of a scan are listed does not matter
    to the SMC-GLMB filter's update. *)
From Verif Require Import Base Lists.
From Coq Require Import Reals Permutation Lra Lia.
From Verif Require Import OspaModel CphdModel OspaProofs CphdSpec CphdProofs GlmbModel GlmbSpec GlmbProofs GlmbInv GlmbTotal GlmbProps GlmbBayes SmcModel SmcSpec SmcProofs SmcBayes SmcUpd SmcTotal LibAlgs LibProps LibSmc GlmbOrder SmcDemo.
Open Scope R_scope.

Section S.
Context {P X ST CV MS : Type}.
Variable Z : senv P X ST CV MS.
Notation E := (z_g Z).
Notation glmb := (glmb (pfs P X) ST CV MS).
Hypothesis (Mo : murty_ok (v_murty E)) (Mt : murty_total (v_murty E)) (Mc : murty_cost (v_murty E)) (Mb : murty_best (v_murty E)) (Ms : murty_sorted (v_murty E)).
Lemma scor_hyp_agree c nm ntab av ac ac' p q ss h : (0 < nm)%nat ->
  (forall j, (j < nm)%nat -> (p j < nm)%nat /\ (q j < nm)%nat /\ q (p j) = j /\ p (q j) = j) ->
  (forall i j, (j < nm)%nat -> ac' i j = ac i (p j)) -> agree (scor_hyp Z c nm ntab av ac ss h) (scor_hyp Z c nm ntab av ac' ss h).
Proof.
  intros Hn HP HM. unfold scor_hyp. destruct (h_ts h) as [|t0 ts] eqn:Et; [apply agree_refl|].
  destruct (mapM (geti av) (t0 :: ts)) as [pds|]; [|apply agree_refl]. cbn [bind].
  destruct (mapM (fun p0 => rdiv p0 (1 - p0)) pds) as [ratio|]; [|apply agree_refl]. cbn [bind]. destruct (lnp _) as [lcl|]; [|apply agree_refl]. cbn [bind]. cbv zeta.
  match goal with |- agree (bind (v_murty E ?a ?b ?M ?m) _) (bind (v_murty E ?a ?b ?M' ?m) _) => set (nr := a); set (M1 := M); set (M2 := M'); set (k := m) end.
  destruct (Mt nr nm M1 k) as [[rows costs] E1]; [unfold nr; cbn; lia|exact Hn|]. destruct (Mt nr nm M2 k) as [[rows' costs'] E2]; [unfold nr; cbn; lia|exact Hn|].
  rewrite E1, E2. cbn [bind].
  assert (B1 := murty_is_best _ _ _ _ _ _ _ Mo Mc Mb Ms E1). assert (B2 := murty_is_best _ _ _ _ _ _ _ Mo Mc Mb Ms E2).
  assert (EC : costs = costs').
  { refine (same_rows nr nm M1 M2 p q k rows costs rows' costs' HP _ B1 B2). intros r j Hr Hj. unfold M1, M2. rewrite HM by exact Hj. reflexivity. }
  destruct (mapM (fun p0 => lnp (1 - p0)) pds) as [lmd|]; [|reflexivity]. cbn [bind]. destruct (lnp (h_p h)) as [lw|]; [|reflexivity]. cbn [bind agree].
  destruct B1 as [V1 [_ [C1 _]]]. destruct B2 as [V2 [_ [C2 _]]].
  assert (L1 : Forall (fun row => length row = nr) rows) by (eapply Forall_impl; [|exact V1]; intros r [Hr _]; exact Hr).
  assert (L2 : Forall (fun row => length row = nr) rows') by (eapply Forall_impl; [|exact V2]; intros r [Hr _]; exact Hr).
  apply RKShortProofs.Forall2_length in C1. apply RKShortProofs.Forall2_length in C2. subst costs'. clear -L1 L2 C1 C2. clearbody nr. unfold summary. rewrite !map_map. cbn [h_p h_ts].
  assert (G : forall cs rs, length rs = length cs -> Forall (fun row => length row = nr) rs ->
    map (fun x : list nat * R => (- c_crate c + INR nm * lcl + rsum lmd + lw - snd x, length (map (fun ia => (fst ia + ntab * snd ia)%nat) (combine (t0 :: ts) (fst x))))) (combine rs cs) =
    map (fun x => (- c_crate c + INR nm * lcl + rsum lmd + lw - x, Nat.min (length (t0 :: ts)) nr)) cs).
  { induction cs as [|x cs IH]; intros [|r rs] L F; try discriminate; [reflexivity|]. inversion F as [|? ? F1 F2]; subst. change (combine (r :: rs) (x :: cs)) with ((r, x) :: combine rs cs). cbn [map fst snd]. rewrite map_length, combine_length, IH; [reflexivity|cbn in L; lia|assumption]. }
  rewrite !G by assumption. reflexivity.
Qed.
Lemma scor_hyps_agree c nm ntab av ac ac' p q hs :
  (forall j, (j < nm)%nat -> (p j < nm)%nat /\ (q j < nm)%nat /\ q (p j) = j /\ p (q j) = j) ->
  (forall i j, (j < nm)%nat -> ac' i j = ac i (p j)) -> agree (scor_hyps Z c nm ntab av ac hs) (scor_hyps Z c nm ntab av ac' hs).
Proof.
  intros HP HM. unfold scor_hyps. destruct nm as [|nm]; [apply agree_refl|]. cbv zeta.
  match goal with |- agree (bind (mapM ?u hs) _) (bind (mapM ?v hs) _) => pose proof (mapM_agree u v hs (fun x _ => scor_hyp_agree c (S nm) ntab av ac ac' p q _ x (Nat.lt_0_succ nm) HP HM)) as H;
    destruct (mapM u hs) as [a|], (mapM v hs) as [b|]; try contradiction end; [|exact H]. cbn [bind]. apply normalise_agree, H.
Qed.
(** mapM over a rearranged list: succeeds alike, with rearranged results *)
Lemma mapM_perm {A B} (f : A -> result B) l l' r p : mapM f l = Ok r -> length l' = length l -> (forall j, (j < length l)%nat -> (p j < length l)%nat) ->
  (forall j, (j < length l)%nat -> nth_error l' j = nth_error l (p j)) ->
  exists r', mapM f l' = Ok r' /\ forall j, (j < length l)%nat -> nth_error r' j = nth_error r (p j).
Proof.
  intros H HL Hp HE. assert (Hex : forall x, In x l' -> exists y, f x = Ok y).
  { intros x Hx. apply In_nth_error in Hx as [j Hj]. assert (Hjl : (j < length l)%nat) by (rewrite <- HL; apply nth_error_Some; congruence).
    rewrite (HE j Hjl) in Hj. destruct (mapM_nth_l _ _ _ _ _ H Hj) as [y [_ Hy]]. eauto. }
  destruct (mapM_all_ok f l' Hex) as [r' Er]. exists r'. split; [exact Er|]. intros j Hj.
  destruct (nth_error l (p j)) as [x|] eqn:Ex; [|apply nth_error_None in Ex; specialize (Hp j Hj); lia].
  destruct (mapM_nth_l _ _ _ _ _ H Ex) as [y [Y1 Y2]]. pose proof (HE j Hj) as Ex'. rewrite Ex in Ex'.
  destruct (mapM_nth_l _ _ _ _ _ Er Ex') as [y' [Y3 Y4]]. congruence.
Qed.
Lemma scorrect_agree pdf c t meas meas' (s : glmb) a : Permutation meas meas' -> scorrect Z pdf c t meas s = Ok a ->
  exists b, scorrect Z pdf c t meas' s = Ok b /\ g_card a = g_card b /\
    ((forall z x, In z meas -> z_corr Z t z x <> None) -> summary (g_hyps a) = summary (g_hyps b)).
Proof.
  intros H Ha. destruct (perm_index _ _ H) as [p [q [HP HE]]]. pose proof (Permutation_length H) as HL.
  destruct (scorrect_inv _ _ _ _ _ _ _ Ha) as [rows [av [hs [E1 [E2 [E3 [_ [_ [Ec _]]]]]]]]].
  destruct (mapM_perm _ _ _ _ p E1 (eq_sym HL) (fun j Hj => proj1 (HP j Hj)) HE) as [rows' [E1' HR]].
  assert (HA : forall i j, (j < length meas)%nat -> scor_cost rows' i j = scor_cost rows i (p j)).
  { intros i j Hj. unfold scor_cost. assert (X0 : nth j rows' [] = nth (p j) rows []).
    { pose proof (mapM_length _ _ _ E1) as L1. pose proof (HR j Hj) as X1. destruct (nth_error rows (p j)) as [r|] eqn:Er.
      - rewrite (nth_error_nth _ _ [] X1), (nth_error_nth _ _ [] Er). reflexivity.
      - apply nth_error_None in Er. destruct (HP j Hj). lia. }
    rewrite X0. reflexivity. }
  pose proof (scor_hyps_agree c (length meas) (length (g_tab s)) av (scor_cost rows) (scor_cost rows') p q (g_hyps s) HP HA) as G. rewrite E3 in G. unfold agree in G.
  destruct (scor_hyps Z c (length meas) (length (g_tab s)) av (scor_cost rows') (g_hyps s)) as [hs'|] eqn:E3'; [|contradiction].
  assert (Hb : exists b, scorrect Z pdf c t meas' s = Ok b).
  { unfold scorrect. change (scor_rows Z pdf c t meas' (g_tab s)) with (mapM (fun z => mapM (scor_entry Z pdf c t z) (g_tab s)) meas'). rewrite E1'. cbn [bind]. rewrite E2. cbn [bind]. rewrite <- HL, E3'. cbn [bind]. destruct (clean_updates _ _). eauto. }
  destruct Hb as [b Hb]. exists b. split; [exact Hb|].
  assert (K : forall rows1 av1 hs1, scor_rows Z pdf c t meas' (g_tab s) = Ok rows1 -> mapM (avg_prob pdf) (g_tab s) = Ok av1 ->
    scor_hyps Z c (length meas') (length (g_tab s)) av1 (scor_cost rows1) (g_hyps s) = Ok hs1 -> hs1 = hs').
  { intros rows1 av1 hs1 F1 F2 F3. unfold scor_rows in F1. rewrite E1' in F1. injection F1 as <-. rewrite E2 in F2. injection F2 as <-. rewrite <- HL, E3' in F3. congruence. }
  split.
  - destruct (scorrect_inv _ _ _ _ _ _ _ Hb) as [rows1 [av1 [hs1 [F1 [F2 [F3 [_ [_ [Fc _]]]]]]]]]. rewrite Ec, Fc, (K _ _ _ F1 F2 F3). apply card_summary, G.
  - intros Hn. assert (SM : forall l l', Forall2 (fun x h' : hyp => h_p h' = h_p x /\ length (h_ts h') = length (h_ts x)) l l' -> summary l' = summary l).
    { intros l l' F. induction F as [|x y l l' [X1 X2] F IH]; [reflexivity|]. unfold summary in *. cbn [map]. congruence. }
    assert (W : forall {A B} (Q : A -> B -> Prop) u v, Forall2 Q u v -> length v = length u) by (intros A B Q u v F; induction F; cbn; congruence).
    destruct (scorrect_full Z pdf c t meas s a Mo Hn Ha) as [r1 [a1 [h1 [F1 [F2 [F3 [_ F5]]]]]]].
    rewrite E1 in F1. injection F1 as <-. rewrite E2 in F2. injection F2 as <-. rewrite E3 in F3. injection F3 as <-.
    destruct (scorrect_full Z pdf c t meas' s b Mo (fun z x Hz => Hn z x (Permutation_in _ (Permutation_sym H) Hz)) Hb) as [r2 [a2 [h2 [F1' [F2' [F3' [_ F5']]]]]]].
    rewrite (K _ _ _ F1' F2' F3') in F5'. rewrite (SM hs (g_hyps a)), (SM hs' (g_hyps b)); [exact G| |].
    + clear -F5' W. induction F5' as [|x y l l' [X1 X2] F IH]; constructor; [|exact IH]. split; [exact X1|exact (W _ _ _ _ _ X2)].
    + clear -F5 W. induction F5 as [|x y l l' [X1 X2] F IH]; constructor; [|exact IH]. split; [exact X1|exact (W _ _ _ _ _ X2)].
Qed.
End S.

(** C205: if the update succeeds on a scan, it succeeds on the same scan in any other
    order, with the same cardinality distribution; and with the same hypothesis
    probabilities and sizes, in the same order, unless the particle filter refuses a
    measurement: *)
Theorem C205_measurement_order : forall {P X ST CV MS : Type} (Z : senv P X ST CV MS) pdf (c : gcfg ST CV) t meas meas' (s : glmb (pfs P X) ST CV MS),
  murty_ok (v_murty (z_g Z)) -> murty_total (v_murty (z_g Z)) -> murty_cost (v_murty (z_g Z)) -> murty_best (v_murty (z_g Z)) -> murty_sorted (v_murty (z_g Z)) ->
  Permutation meas meas' ->
  match scorrect Z pdf c t meas s, scorrect Z pdf c t meas' s with
  | Ok a, Ok b => g_card a = g_card b /\
      ((forall z x, In z meas -> z_corr Z t z x <> None) -> summary (g_hyps a) = summary (g_hyps b))
  | Err _, Err _ => True
  | _, _ => False
  end.
Proof.
  intros P X ST CV MS Z pdf c t meas meas' s Mo Mt Mc Mb Ms H.
  destruct (scorrect Z pdf c t meas s) as [a|] eqn:Ea.
  - destruct (scorrect_agree Z Mo Mt Mc Mb Ms pdf c t meas meas' s a H Ea) as [b [-> K]]. exact K.
  - destruct (scorrect Z pdf c t meas' s) as [b|] eqn:Eb; [|trivial].
    destruct (scorrect_agree Z Mo Mt Mc Mb Ms pdf c t meas' meas s b (Permutation_sym H) Eb) as [a [Ea' _]]. congruence.
Qed.
(** with the library's own murty_m_best no contract is left. *)
Theorem C205_measurement_order_library : forall {P X ST CV MS : Type} (Z : senv P X ST CV MS) si pdf (c : gcfg ST CV) t meas meas' (s : glmb (pfs P X) ST CV MS),
  Permutation meas meas' ->
  match scorrect (swith_lib si Z) pdf c t meas s, scorrect (swith_lib si Z) pdf c t meas' s with
  | Ok a, Ok b => g_card a = g_card b /\
      ((forall z x, In z meas -> z_corr Z t z x <> None) -> summary (g_hyps a) = summary (g_hyps b))
  | Err _, Err _ => True
  | _, _ => False
  end.
Proof.
  intros P X ST CV MS Z si pdf c t meas meas' s H.
  exact (C205_measurement_order (swith_lib si Z) pdf c t meas meas' s l_murty_ok l_murty_total l_murty_cost l_murty_best l_murty_sorted H).
Qed.
Print Assumptions C205_measurement_order.
Print Assumptions C205_measurement_order_library.

(** Two measurements of different likelihood and one particle cloud: the update succeeds. *)
Definition o_senv : senv R unit R unit bool :=
  {| z_g := {| v_rnd := fun t => Int_part t; v_init := fun _ _ => {| p_parts := []; p_w := []; p_rest := tt |}; v_pred := fun _ s x => (s, x, tt);
               v_corr := fun _ _ _ _ => None; v_kshort := fun _ _ => Ok ([], []); v_murty := fun _ _ _ _ => Ok ([], []); v_lse0 := Ok tt; v_hash := fun _ => 0%Z; v_argsort := fun _ => [] |};
     z_pred := fun _ s => (s, wmean s);
     z_corr := fun _ (z : bool) s => Some (s, wmean s, constf (if z then 2 else / 3) (p_parts s));
     z_cov := fun _ => tt |}.
Definition o_sstate : glmb (pfs R unit) R unit bool :=
  {| g_tab := [{| e_label := (0%Z, 0%nat); e_w := [[1]]; e_fs := [z_cloud]; e_assoc := []; e_st := [[1 / 2]]; e_cov := [[]]; e_time := 0%nat |}];
     g_hyps := [{| h_p := 1; h_ts := [0%nat] |}]; g_card := [0; 1]; g_cnt := 1; g_meas := []; g_ext := []; g_states := []; g_labels := []; g_covs := [] |}.
Example C205_instance : Permutation [true; false] [false; true] /\
  (exists a, scorrect (swith_lib (fun _ => []) o_senv) (constf (1 / 2)) z_cfg 0 [true; false] o_sstate = Ok a) /\
  (forall z x, In z [true; false] -> z_corr o_senv 0 z x <> None).
Proof.
  split; [apply perm_swap|]. split; [|discriminate].
  assert (HN : counted z_cloud /\ rsum (p_w z_cloud) = 1) by (destruct (z_births_ok _ _ _ _ (or_introl eq_refl)) as [A [B _]]; auto).
  destruct (counted_norm z_cloud (proj1 HN) (proj2 HN)) as [Hne Hnorm]. apply scorrect_total.
  - split.
    + intros t s [H1 H4]. split; [exact H1|exact H4].
    + intros t z s [H1 H4]. cbn. split; [exact H1|]. split; [apply map_length|]. intros q Hq. apply in_map_iff in Hq as [x [<- _]]. destruct z; lra.
  - apply const_prob. lra.
  - cbn. lra.
  - cbn. lra.
  - exact l_murty_total.
  - reflexivity.
  - intros h [<-|[]]. cbn. lra.
  - intros h i [<-|[]] [<-|[]]. cbn. lia.
  - intros e [<-|[]]. split; [|exists z_cloud; split; [reflexivity|split; assumption]]. split; [discriminate|]. split; [eexists; reflexivity|]. split; [eexists; reflexivity|]. intros w [<-|[]]. reflexivity.
Qed.
