(** The second answer of k_shortest is right: it is a best set of available
    nonzero-cost states other than the first answer, and its cost is reported
    (C14, C92).  On a vector sorted by decreasing cost a second best set leaves
    the best path at the source, where the prefix slice does no harm. *)
From Verif Require Import Base BfmModel BfmSpec BfmProofs KShortModel KShortSpec KShortProofs KShortTrue KShortProps2.
From Coq Require Import Permutation Sorted.

(** min_x returns the first of the least. *)
Lemma min_x_first X : forall x0, (forall x, In x X -> ext_le (snd x0) (snd x)) -> min_x x0 X = x0.
Proof.
  unfold min_x. induction X as [|y X IH]; intros x0 H; cbn [fold_left]; [reflexivity|].
  assert (E : egt (snd x0) (snd y) = false).
  { specialize (H y (or_introl eq_refl)). unfold egt. destruct (snd x0) as [a|], (snd y) as [b|]; cbn [ext_le] in H; try reflexivity; try contradiction.
    apply Qltb_ge. lra. }
  rewrite E. apply IH. intros x Hx. apply H. right; exact Hx.
Qed.
Lemma ord_nth {A} (Rl : A -> A -> Prop) d l : ForallOrdPairs Rl l -> forall i j, i < j < length l -> Rl (nth i l d) (nth j l d).
Proof.
  induction 1 as [|a l F _ IH]; intros i j H; [cbn in H; lia|]. cbn [length] in H. destruct j as [|j]; [lia|]. destruct i as [|i]; cbn [nth].
  - rewrite Forall_forall in F. apply F, nth_In. lia.
  - apply IH. lia.
Qed.

Section S2.
Variables (c : list ext) (si : list nat).
Hypothesis Hsc : vec_scaled c.
Hypothesis Hsi : Permutation si (seq 0 (length c)).
Hypothesis Hso : ForallOrdPairs (fun i j => ext_le (entry c j) (entry c i)) si.
Notation n := (length c).
Notation G := (cost_pad (length c) (map (vec c) si)).
Notation N := (length c + 2).
Notation f := (fun x => nth (x - 1) si 0).

Lemma livek_nz x : livek c si x -> ~ (sc c si x == 0)%Q.
Proof. intros [_ [q [E Hq]]]. unfold sc. rewrite E. exact Hq. Qed.
Lemma sc_mono u v : livek c si u -> livek c si v -> u < v -> (sc c si v <= sc c si u)%Q.
Proof.
  intros [Hu [qu [Eu _]]] [Hv [qv [Ev _]]] Huv. unfold sc. rewrite Eu, Ev. cbn [fin_val].
  assert (H := ord_nth _ 0 si Hso (u - 1) (v - 1)). cbn beta in H. rewrite Eu, Ev in H. cbn [ext_le] in H. apply H.
  rewrite (si_len c si Hsi). lia.
Qed.
Lemma sm_le0 b : (forall z, In z b -> (sc c si z <= 0)%Q) -> (sm c si b <= 0)%Q.
Proof.
  induction b as [|x b IH]; intros H; [unfold sm, qsum; cbn; lra|]. rewrite sm_cons.
  assert (H1 := H x (or_introl eq_refl)). assert (H2 := IH (fun z Hz => H z (or_intror Hz))). lra.
Qed.
Lemma sm_incl a : forall b, NoDup a -> incl a b -> (forall z, In z b -> (sc c si z <= 0)%Q) -> (sm c si b <= sm c si a)%Q.
Proof.
  induction a as [|x a IH]; intros b Ha Hi Hz.
  - assert (H := sm_le0 b Hz). unfold sm at 2, qsum. cbn [map fold_right]. exact H.
  - inversion Ha as [|? ? H1 H2]; subst. destruct (in_split x b (Hi x (or_introl eq_refl))) as [b1 [b2 ->]].
    assert (K : (sm c si (b1 ++ b2) <= sm c si a)%Q); [|rewrite sm_app in K |- *; rewrite !sm_cons; lra].
    apply (IH (b1 ++ b2) H2).
    + intros y Hy. specialize (Hi y (or_intror Hy)). apply in_app_iff in Hi as [Hi|[->|Hi]]; [apply in_app_iff; auto|contradiction|apply in_app_iff; auto].
    + intros z Hz'. apply Hz. apply in_app_iff in Hz' as [Hz'|Hz']; apply in_app_iff; [left|right; right]; exact Hz'.
Qed.
Lemma mid_path m : incr m -> Forall (livek c si) m -> is_path N G 0 (S n) (0 :: m ++ [S n]) /\ (path_cost G (0%nat :: m ++ [S n]) == sm c si m + eps)%Q.
Proof.
  intros Hi Hf. assert (Hs := mid_subset c si Hsi m (incr_NoDup m Hi) Hf). assert (Hz := mid_nonzero c si m Hf).
  assert (Em : mid_of c si (map f m) = m).
  { apply (perm_mid c si Hsi).
    - apply Forall_forall. intros v Hv. apply filter_In in Hv as [Hv Hb]. apply in_seq in Hv. apply andb_true_iff in Hb as [Hb _].
      apply existsb_exists in Hb as [x [Hx Ex]]. apply Nat.eqb_eq in Ex. subst x. split; [lia|]. unfold nonzero in Hz. rewrite Forall_forall in Hz. apply Hz, Hx.
    - exact Hf.
    - apply filter_incr. apply (seq_incr c).
    - exact Hi.
    - apply (mid_of_perm c si Hsi _ Hs Hz). }
  destruct (mid_of_path c si Hsi (map f m) (mid_avail c si m Hf) Hs) as [A B]. rewrite Em in A, B. split; [exact A|]. rewrite B, total_sm. reflexivity.
Qed.
(** Any path other than the best one can be replaced, at no cost, by one that
    leaves it at the source. *)
Lemma at_source mid m : incr mid -> Forall (livek c si) mid -> (forall s, subset c s -> available c s -> (sm c si mid <= total c s)%Q) ->
  incr m -> Forall (livek c si) m -> m <> mid ->
  exists m0, incr m0 /\ Forall (livek c si) m0 /\ (sm c si m0 <= sm c si m)%Q /\ nth_error (m0 ++ [S n]) 0 <> nth_error (mid ++ [S n]) 0.
Proof.
  intros I1 F1 Hopt I2 F2 Hne. destruct mid as [|v mid].
  - exists m. split; [exact I2|]. split; [exact F2|]. split; [lra|]. destruct m as [|x m]; [congruence|]. cbn [app nth_error]. intros E. injection E as ->.
    inversion F2 as [|? ? [Hx _] _]; subst. lia.
  - inversion F1 as [|? ? Lv F1']; subst. inversion I1 as [|? ? I1' G1]; subst.
    destruct m as [|x m].
    { exists []. split; [constructor|]. split; [constructor|]. split; [lra|]. cbn [app nth_error]. intros E. injection E as <-. destruct Lv. lia. }
    destruct (Nat.eq_dec x v) as [->|Hx].
    2:{ exists (x :: m). split; [exact I2|]. split; [exact F2|]. split; [lra|]. cbn [app nth_error]. congruence. }
    inversion F2 as [|? ? _ F2']; subst. inversion I2 as [|? ? I2' G2]; subst. rewrite Forall_forall in G1, G2, F1', F2'.
    assert (Hv : (sc c si v < 0)%Q).
    { assert (H := Hopt (map f mid) (mid_subset c si Hsi mid (incr_NoDup _ I1') (proj2 (Forall_forall _ _) F1')) (mid_avail c si mid (proj2 (Forall_forall _ _) F1'))).
      rewrite total_sm, sm_cons in H. assert (H0 := livek_nz v Lv). destruct (Qlt_le_dec (sc c si v) 0) as [L|L]; [exact L|]. exfalso. apply H0. lra. }
    assert (Hneg : forall z, livek c si z -> v < z -> (sc c si z <= sc c si v)%Q) by (intros z Lz Hz; apply sc_mono; assumption).
    assert (Hin : incl m mid).
    { intros z Hz. destruct (in_dec Nat.eq_dec z mid) as [|Hn]; [assumption|]. exfalso.
      assert (Lz := F2' z Hz). assert (Gz := G2 z Hz). assert (Nz := Hneg z Lz Gz).
      assert (Hnd : NoDup (z :: v :: mid)).
      { constructor; [|apply incr_NoDup; exact I1]. intros [E|E]; [lia|contradiction]. }
      assert (Hf : Forall (livek c si) (z :: v :: mid)) by (constructor; assumption).
      assert (H := Hopt _ (mid_subset c si Hsi _ Hnd Hf) (mid_avail c si _ Hf)). rewrite total_sm, (sm_cons c si z) in H. lra. }
    assert (Hx : exists x, In x mid /\ ~ In x m).
    { destruct (Exists_dec (fun x => ~ In x m) mid) as [E|E].
      - intros x. destruct (in_dec Nat.eq_dec x m); [right|left]; tauto.
      - apply Exists_exists in E. exact E.
      - exfalso. apply Hne. f_equal. apply incr_ext; [exact I2'|exact I1'|]. intros x. split; [apply Hin|]. intros Hx.
        destruct (in_dec Nat.eq_dec x m) as [|Hn]; [assumption|]. exfalso. apply E. apply Exists_exists. exists x. split; assumption. }
    destruct Hx as [x [Hx1 Hx2]].
    exists mid. split; [exact I1'|]. split; [apply Forall_forall, F1'|]. split.
    + assert (H := sm_incl (x :: m) mid). rewrite !sm_cons in *.
      assert (K : (sm c si mid <= sc c si x + sm c si m)%Q).
      { apply H.
        - constructor; [exact Hx2|apply incr_NoDup; exact I2'].
        - intros y [<-|Hy]; [exact Hx1|apply Hin, Hy].
        - intros z Hz. assert (Y := Hneg z (F1' z Hz) (G1 z Hz)). lra. }
      assert (Y := Hneg x (F1' x Hx1) (G1 x Hx1)). lra.
    + destruct mid as [|y mid]; cbn [app nth_error]; intros E; injection E as E.
      * destruct Lv. lia.
      * specialize (G1 y (or_introl eq_refl)). lia.
Qed.
(** Deviations only add candidates. *)
Lemma deviate_grows P_ sps st i st' : deviate N G (S n) P_ sps st i = Ok st' ->
  (exists a, kP st' = kP st ++ a) /\ exists b, kX st' = kX st ++ b.
Proof.
  unfold deviate. destruct (nth_error P_ i) as [v|]; [|discriminate]. intros E. apply bind_ok in E as [nx [_ E]]. apply bind_ok in E as [[d dp] [_ E]].
  destruct dp; apply ok_inj in E; subst st'.
  - split; exists []; rewrite app_nil_r; reflexivity.
  - cbn [kP kX]. split; eexists; reflexivity.
Qed.
Lemma deviate_all_grows P_ sps inds : forall st st', deviate_all N G (S n) P_ sps st inds = Ok st' ->
  (exists a, kP st' = kP st ++ a) /\ exists b, kX st' = kX st ++ b.
Proof.
  induction inds as [|i inds IH]; intros st st' E; cbn [deviate_all] in E.
  - apply ok_inj in E. subst st'. split; exists []; rewrite app_nil_r; reflexivity.
  - apply bind_ok in E as [st1 [E1 E]]. apply deviate_grows in E1 as [[a1 A1] [b1 B1]]. apply IH in E as [[a2 A2] [b2 B2]].
    split; [exists (a1 ++ a2); rewrite A2, A1, app_assoc; reflexivity|exists (b1 ++ b2); rewrite B2, B1, app_assoc; reflexivity].
Qed.
Lemma second_exact k : 2 <= k -> exists p cost ps costs, k_shortest si c k = Ok (p :: ps, cost :: costs) /\
  match ps, costs with
  | [], [] => forall s, subset c s -> nonzero c s -> Permutation s p
  | p2 :: _, e :: _ => exists q, e = Fin q /\ subset c p2 /\ nonzero c p2 /\ ~ Permutation p2 p /\ (q == total c p2 + eps)%Q /\
        forall s', subset c s' -> nonzero c s' -> ~ Permutation s' p -> (q <= total c s' + eps)%Q
  | _, _ => False
  end.
Proof.
  intros Hk. unfold k_shortest. destruct (Nat.eqb_spec k 0) as [|_]; [lia|]. cbn zeta. unfold k_helper.
  destruct (first_bfm c si Hsc Hsi) as [q [mid [E1 [Hp [Hi [Hm [Hq Hbest]]]]]]]. rewrite E1. cbn [bind].
  destruct (first_inv c si Hsi q mid Hp) as [I Hg].
  set (P1 := 0 :: mid ++ [S n]) in *.
  assert (HmI : incr mid).
  { unfold P1 in Hi. change (0 :: mid ++ [S n]) with ([0] ++ mid ++ [S n]) in Hi. apply incr_app in Hi as [_ [Hi _]].
    apply incr_app in Hi as [Hi _]. exact Hi. }
  assert (Hw : last_pos 0 P1 = Some 0).
  { destruct (last_pos_some c 0 P1 (or_introl eq_refl)) as [j [Ej Hj]]. rewrite Ej. f_equal.
    unfold last_pos in Ej.
    assert (K : forall is_ acc, (forall i, acc = Some i -> nth i P1 0 = 0 /\ i < length P1) -> Forall (fun i => i < length P1) is_ ->
       forall i, fold_left (fun acc i => if nth i P1 0 =? 0 then Some i else acc) is_ acc = Some i -> nth i P1 0 = 0 /\ i < length P1).
    { induction is_ as [|i is_ IH]; intros acc Ha Hf i0 E; cbn [fold_left] in E; [auto|].
      inversion Hf; subst. eapply IH; [|eassumption|exact E]. intros i' Ei'. destruct (Nat.eqb_spec (nth i P1 0) 0) as [Ez|]; [|auto].
      injection Ei' as <-. auto. }
    assert (K0 : Forall (fun i => i < length P1) (seq 0 (length P1))).
    { apply Forall_forall. intros i Hi'. apply in_seq in Hi'. lia. }
    assert (K00 : forall i, @None nat = Some i -> nth i P1 0 = 0 /\ i < length P1) by discriminate.
    destruct (K _ None K00 K0 j Ej) as [Kz _].
    destruct j as [|j]; [reflexivity|]. exfalso. inversion Hi as [|? ? _ HF]; subst. rewrite Forall_forall in HF.
    cbn [nth P1] in Kz. cbn [length P1] in Hj. specialize (HF (nth j (mid ++ [S n]) 0)). rewrite Kz in HF.
    assert (0 < 0); [|lia]. apply HF. rewrite <- Kz at 1. apply nth_In. lia. }
  destruct k as [|k]; [lia|]. cbn [k_loop length].
  destruct (Nat.ltb_spec 1 (S k)); [|lia]. cbn [negb orb kX length Nat.eqb kP kS nth_error]. rewrite Hw.
  cbn [del_x fst Nat.eqb].
  set (st1 := {| kP := [(P1, Fin q)]; kS := [0]; kX := [] |}).
  assert (Hfi : Forall (fun i => i < length P1 - 1) (seq 0 (length P1 - 1 - 0))).
  { apply Forall_forall. intros i Hi'. apply in_seq in Hi'. lia. }
  destruct (first_all c si Hsc Hsi P1 Hp (seq 0 (length P1 - 1 - 0)) st1 (Forall_nil _) Hfi) as [st2 [E2 [F2 [_ M2]]]].
  assert (I1 : kinv c si st1) by (constructor; [apply I|apply I|constructor]).
  destruct (deviate_all_ok c si Hsc Hsi P1 [P1] Hg (Forall_cons _ Hg (Forall_nil _)) _ st1 I1 Hfi) as [st2' [E2' [I2 _]]].
  rewrite E2 in E2'. apply ok_inj in E2'. subst st2'. rewrite E2. cbn [bind].
  (* reading subsets as paths *)
  assert (Hpost : forall m, (if list_eqb (0 :: m ++ [S n]) [0; S n] then [] else map (fun x => nth (x - 1) si 0) (removelast (tl (0 :: m ++ [S n])))) = map (fun x => nth (x - 1) si 0) m).
  { intros m. apply (post_mid c si 0 m). }
  assert (Hsub : forall s, subset c s -> nonzero c s -> mid_of c si s <> mid ->
     exists x qx, In x (kX st2) /\ snd x = Fin qx /\ (qx <= total c s + eps)%Q).
  { intros s Hs Hz HnP. destruct (mid_of_path c si Hsi s (nonzero_available c s Hz) Hs) as [Q1 Q2].
    assert (Hne : 0 :: mid_of c si s ++ [S n] <> P1).
    { intros E. apply HnP. unfold P1 in E. apply (app_inv_tail [S n]). congruence. }
    destruct (dev_exists c si Hsi P1 Hp _ Q1 Hne) as [i [Hi' Hd]].
    destruct (M2 i _ ltac:(apply in_seq; lia) (conj Q1 Hne) Hd) as [x [qx [X1 [X2 X3]]]].
    exists x, qx. split; [exact X1|]. split; [exact X2|]. rewrite <- Q2. exact X3. }
  (* the deviation at the source *)
  assert (Hopt : forall s, subset c s -> available c s -> (sm c si mid <= total c s)%Q).
  { intros s Hs Ha. destruct (mid_of_path c si Hsi s Ha Hs) as [Q1 Q2]. assert (H0 := Hbest _ Q1). rewrite Q2, Hq in H0. lra. }
  assert (L0 : 0 < length P1 - 1) by (unfold P1; cbn [length]; rewrite app_length; cbn [length]; lia).
  assert (Hseq : seq 0 (length P1 - 1 - 0) = 0 :: seq 1 (length P1 - 2)).
  { replace (length P1 - 1 - 0) with (S (length P1 - 2)) by lia. reflexivity. }
  pose proof E2 as E3. rewrite Hseq in E3. cbn [deviate_all] in E3. apply bind_ok in E3 as [sta [Ea E3]].
  apply deviate_all_grows in E3 as [[aP GP] [aX GX]].
  destruct (first_dev c si Hsc Hsi P1 Hp st1 0 (Forall_nil _) L0) as [sta' [Ea' [_ [_ M0]]]]. rewrite Ea in Ea'. apply ok_inj in Ea'. subst sta'.
  assert (Hgen : forall l, genuine c si P1 l -> exists x qx, In x (kX sta) /\ snd x = Fin qx /\ (qx <= path_cost G l)%Q).
  { intros l [Gl Nl]. destruct (path_form c si Hsi G 0 l (restr_G c si) ltac:(lia) Gl) as [m [El [Hil [Hfm Hcm]]]].
    assert (HilI : incr m).
    { rewrite El in Hil. change (0 :: m ++ [S n]) with ([0] ++ m ++ [S n]) in Hil. apply incr_app in Hil as [_ [Hil _]].
      apply incr_app in Hil as [Hil _]. exact Hil. }
    destruct (at_source mid m HmI Hm Hopt HilI Hfm) as [m0 [A1 [A2 [A3 A4]]]]; [intros ->; apply Nl; exact El|].
    destruct (mid_path m0 A1 A2) as [B1 B2].
    destruct (M0 (0 :: m0 ++ [S n])) as [x [qx [X1 [X2 X3]]]].
    - split; [exact B1|]. unfold P1. intros E. apply A4. apply (f_equal (@tl nat)) in E. cbn [tl] in E. rewrite E. reflexivity.
    - split; [reflexivity|]. unfold P1. change (nth_error (m0 ++ [S n]) 0 <> nth_error (mid ++ [S n]) 0). exact A4.
    - exists x, qx. split; [exact X1|]. split; [exact X2|]. rewrite B2 in X3. rewrite Hcm. lra. }
  assert (Ev0 : nth_error P1 0 = Some 0) by reflexivity.
  destruct (deviate_detail c si Hsc Hsi P1 [P1] st1 0 0 Hg (Forall_cons _ Hg (Forall_nil _)) L0 Ev0) as [nxts [Enx HD]]. cbn zeta in HD.
  destruct (first_blocked P1 0 0 L0 Ev0) as [y1 [Ey1 Eby]]. rewrite Eby in Enx. apply ok_inj in Enx. subst nxts.
  destruct HD as [[Ed _]|[md [q2 [Ed [Hpd [Hid [Hfd [Hqd _]]]]]]]]; rewrite Ea in Ed; apply ok_inj in Ed; subst sta.
  - (* no other set *)
    assert (EX : kX st2 = []).
    { destruct (kX st2) as [|x0 X'] eqn:EX; [reflexivity|]. exfalso. unfold finv in F2. rewrite EX in F2. inversion F2 as [|? ? [p [qq [l [_ [_ [L1 _]]]]]] _]; subst.
      destruct (Hgen l L1) as [x [_ [[] _]]]. }
    rewrite EX in *.
    assert (EL : k_loop N G (S n) k (S k) 0 st2 [P1] [Fin q] = Ok ([P1], [Fin q])).
    { destruct k; cbn [k_loop]; rewrite EX; cbn [length Nat.eqb]; rewrite orb_true_r; reflexivity. }
    rewrite EL. cbn [bind map]. eexists _, _, _, _. split; [reflexivity|]. cbn beta iota. unfold P1. rewrite Hpost.
    intros s Hs Hz. destruct (list_eq_dec Nat.eq_dec (mid_of c si s) mid) as [<-|Hne].
    + symmetry. apply mid_of_perm; assumption.
    + destruct (Hsub s Hs Hz Hne) as [x [_ [[] _]]].
  - cbn [kX kP st1 app length] in GX, GP, Hgen. 
    assert (Hmin : min_x (1, Fin q2) aX = (1, Fin q2)).
    { apply min_x_first. intros x Hx. unfold finv in F2. rewrite GX in F2. rewrite Forall_forall in F2.
      destruct (F2 x (or_intror Hx)) as [p [qq [l [_ [N2 [L1 [L3 _]]]]]]]. destruct (Hgen l L1) as [y [qy [[<-|[]] [Y2 Y3]]]]. rewrite N2. cbn [snd] in Y2 |- *. injection Y2 as <-. cbn [ext_le]. lra. }
    rewrite GX. rewrite Hmin. cbn [fst].
    assert (N1 : nth_error (kP st2) 1 = Some (0 :: md ++ [S n], Fin q2)) by (rewrite GP; reflexivity).
    rewrite N1.
    assert (Hgp : good c si (0 :: md ++ [S n])).
    { pose proof (ki_good c si st2 I2) as HG. rewrite Forall_forall in HG. apply nth_error_In in N1. apply (HG _ N1). }
    destruct (k_loop_ok c si Hsc Hsi (S k) k 1 st2 ([P1] ++ [0 :: md ++ [S n]]) ([Fin q] ++ [Fin q2])) as [sps' [costs' [EL _]]].
    + cbn. lia.
    + exact I2.
    + constructor; [exact Hg|]. constructor; [exact Hgp|constructor].
    + apply nth_error_Some. congruence.
    + reflexivity.
    + cbn. lia.
    + rewrite EL. cbn [bind app map]. eexists _, _, _, _. split; [reflexivity|]. cbn beta iota. unfold P1. rewrite !Hpost.
      assert (HdI : incr md).
      { change (0 :: md ++ [S n]) with ([0] ++ md ++ [S n]) in Hid. apply incr_app in Hid as [_ [Hid _]]. apply incr_app in Hid as [Hid _]. exact Hid. }
      assert (Hq2 : (q2 == sm c si md + eps)%Q). { rewrite Hqd. unfold P1, sm at 1, qsum. cbn [firstn tl map fold_right]. lra. }
      exists q2. split; [reflexivity|].
      split; [apply (mid_subset c si Hsi); [apply incr_NoDup, HdI|exact Hfd]|]. split; [apply (mid_nonzero c si), Hfd|].
      split; [|split].
      * intros HP. apply (perm_mid c si Hsi) in HP; [|assumption|assumption|assumption|assumption]. subst md.
        destruct Hpd as [_ [Hpd _]]. unfold P1 in Ey1. cbn [nth_error] in Ey1. change (nth_error (mid ++ [S n]) 0 = Some y1) in Ey1.
        destruct (mid ++ [S n]) as [|z rest]; [discriminate|]. cbn [nth_error] in Ey1. injection Ey1 as ->.
        destruct Hpd as [[w [Ew _]] _]. unfold block_links in Ew. rewrite Nat.eqb_refl in Ew. cbn [andb existsb] in Ew. rewrite Nat.eqb_refl in Ew. discriminate.
      * rewrite total_sm. exact Hq2.
      * intros s Hs Hz HnP.
        assert (Hne : mid_of c si s <> mid).
        { intros E. apply HnP. rewrite <- E. symmetry. apply mid_of_perm; assumption. }
        destruct (Hsub s Hs Hz Hne) as [x [qx [X1 [X2 X3]]]].
        assert (Hle := min_x_least aX (1, Fin q2) x). rewrite GX in X1. specialize (Hle X1). rewrite Hmin, X2 in Hle. cbn [ext_le snd] in Hle. lra.
Qed.
End S2.

(** C14 (true part): with k >= 2 the second answer is a set of available
    nonzero-cost states other than the first answer, none such is cheaper, and
    the second cost is its cost (plus eps); it is missing only if there is none. *)
Theorem C14_k_shortest_second_exact_partial : forall c si k, vec_scaled c -> sorts_desc c si -> 2 <= k ->
  exists p cost ps costs, k_shortest si c k = Ok (p :: ps, cost :: costs) /\
  match ps, costs with
  | [], [] => forall s, subset c s -> nonzero c s -> Permutation s p
  | p2 :: _, cost2 :: _ => exists q, cost2 = Fin q /\
        subset c p2 /\ nonzero c p2 /\ ~ Permutation p2 p /\ (q == total c p2 + machine_eps)%Q /\
        forall s, subset c s -> nonzero c s -> ~ Permutation s p -> (q <= total c s + machine_eps)%Q
  | _, _ => False
  end.
Proof. intros c si k Hsc [Hsi Hso] Hk. exact (second_exact c si Hsc Hsi Hso k Hk). Qed.
Print Assumptions C14_k_shortest_second_exact_partial.

(** Costs -3, -1, 2, 5: the best set is {-3, -1}, the second answer {-3}; costs
    1, 2, 3: the empty set, then {1}. *)
Example C14_exact_ex : exists ps costs q, k_shortest [3; 2; 1; 0] [Fin (inject_Z (-3)); Fin (inject_Z (-1)); Fin (inject_Z 2); Fin (inject_Z 5)] 2 = Ok (ps, costs) /\
  ps = [[1; 0]; [0]] /\ nth_error costs 1 = Some (Fin q) /\ (q == inject_Z (-3) + machine_eps)%Q.
Proof. eexists _, _, _. split; [vm_compute; reflexivity|]. split; [reflexivity|]. split; [reflexivity|]. vm_compute. reflexivity. Qed.
Example C14_exact_ex2 : exists costs, k_shortest [2; 1; 0] [Fin 1; Fin (inject_Z 2); Fin (inject_Z 3)] 2 = Ok ([[]; [0]], costs).
Proof. eexists. vm_compute. reflexivity. Qed.
Example C14_exact_hyp : vec_scaled [Fin (inject_Z (-3)); Inf; Fin 0; Fin (inject_Z 5)] /\ sorts_desc [Fin (inject_Z (-3)); Inf; Fin 0; Fin (inject_Z 5)] [1; 3; 2; 0].
Proof.
  split.
  - intros i q Hi E. cbn [length] in Hi. destruct i as [|[|[|[|i]]]]; [| | | |lia]; cbn in E; try discriminate; injection E as <-; [right|left; reflexivity|right]; vm_compute; discriminate.
  - split.
    + apply NoDup_Permutation; [repeat constructor; cbn; intuition discriminate|apply seq_NoDup|]. intros x. cbn. intuition lia.
    + repeat constructor; vm_compute; try exact I; discriminate.
Qed.
