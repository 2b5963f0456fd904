(** C204: the order in which the measurements of a scan are listed does not matter
    to the GLMB filter's update. *)
From Verif Require Import Base Lists.
From Coq Require Import Reals Permutation Lra Lia.
From Verif Require Import OspaModel CphdModel OspaProofs CphdSpec CphdProofs GlmbModel GlmbSpec GlmbProofs GlmbInv GlmbExtract GlmbMost GlmbTotal GlmbBayes GlmbProps RMurtySpec LibAlgs LibProps LibSecond.
Open Scope R_scope.

(** ** Specification *)
(** murty_m_best lists its assignments cheapest first (C06). *)
Definition murty_sorted (f : nat -> nat -> (nat -> nat -> R) -> nat -> result (list (list nat) * list R)) : Prop :=
  forall nr nc M m rows costs, f nr nc M m = Ok (rows, costs) -> ForallOrdPairs Rle costs.
(** The hypotheses' probabilities and numbers of objects, in order. *)
Definition summary (hs : list hyp) : list (R * nat) := map (fun h => (h_p h, length (h_ts h))) hs.

(** ** Proofs *)
Definition ren (p : nat -> nat) (row : list nat) : list nat := map (fun v => match v with O => O | S j => S (p j) end) row.
Lemma sorted_nthR (l : list R) : ForallOrdPairs Rle l -> forall i j, (i <= j)%nat -> (j < length l)%nat -> nth i l 0 <= nth j l 0.
Proof.
  induction 1 as [|x l Hx Hl IH]; intros i j Hij Hj; [cbn in Hj; lia|]. destruct i as [|i], j as [|j].
  - cbn [nth]. lra.
  - cbn [nth]. rewrite Forall_forall in Hx. apply Hx, nth_In. cbn in Hj. lia.
  - lia.
  - cbn [nth]. apply IH; cbn in Hj; lia.
Qed.
Lemma Forall2_nthR {A B} (P : A -> B -> Prop) l l' d d' : Forall2 P l l' -> length l = length l' /\ forall i, (i < length l)%nat -> P (nth i l d) (nth i l' d').
Proof. induction 1 as [|x y l l' H H2 [L IH]]; [split; [reflexivity|cbn; lia]|]. split; [cbn; lia|]. intros [|i] Hi; [exact H|]. cbn [nth]. apply IH. cbn in Hi. lia. Qed.
Lemma nodup_app_lR {A} (a b : list A) : NoDup (a ++ b) -> NoDup a.
Proof. induction a as [|x a IH]; intros H; [constructor|]. inversion H as [|? ? H1 H2]; subst. constructor; [intros Hi; apply H1, in_or_app; left; exact Hi|apply IH, H2]. Qed.
Section Ren.
Variables (nr nc : nat) (M M' : nat -> nat -> R) (p : nat -> nat).
Hypothesis Pr : forall j, (j < nc)%nat -> (p j < nc)%nat.
Hypothesis Pi : forall i j, (i < nc)%nat -> (j < nc)%nat -> p i = p j -> i = j.
Hypothesis PM : forall r j, (r < nr)%nat -> (j < nc)%nat -> M' r j = M r (p j).
Lemma ren_valid row : valid_row nr nc row -> valid_row nr nc (ren p row).
Proof.
  intros [H1 [H2 H3]]. split; [unfold ren; rewrite map_length; exact H1|]. split.
  - intros v Hv. apply in_map_iff in Hv as [u [<- Hu]]. destruct u as [|j]; [lia|]. specialize (Pr j). specialize (H2 _ Hu). lia.
  - intros r1 r2 v E1 E2. unfold ren in E1, E2. rewrite nth_error_map in E1, E2.
    destruct (nth_error row r1) as [[|j1]|] eqn:F1; try discriminate. destruct (nth_error row r2) as [[|j2]|] eqn:F2; try discriminate.
    cbn [option_map] in E1, E2. assert (j1 = j2).
    { apply Pi; [pose proof (H2 _ (nth_error_In _ _ F1)); lia|pose proof (H2 _ (nth_error_In _ _ F2)); lia|congruence]. }
    subst j2. exact (H3 _ _ _ F1 F2).
Qed.
Lemma ren_cost row : length row = nr -> (forall v, In v row -> (v <= nc)%nat) -> row_total nr M (ren p row) = row_total nr M' row.
Proof.
  unfold row_total. intros L. rewrite <- L. assert (G : forall s, (forall v, In v row -> (v <= nc)%nat) -> (s + length row <= nr)%nat ->
    rsum (map (fun ra => match snd ra with O => 0 | S j => M (fst ra) j end) (combine (seq s (length row)) (ren p row))) =
    rsum (map (fun ra => match snd ra with O => 0 | S j => M' (fst ra) j end) (combine (seq s (length row)) row))).
  { clear L. induction row as [|v row IH]; intros s H Hs; [reflexivity|]. cbn [length seq ren map combine]. cbn [length] in Hs. rewrite !rsum_cons. cbn [fst snd]. f_equal.
    - destruct v as [|j]; [reflexivity|]. symmetry. apply PM; [lia|]. specialize (H (S j) (or_introl eq_refl)). lia.
    - apply IH; [intros u Hu; apply H; right; exact Hu|lia]. }
  intros H. apply G; [exact H|lia].
Qed.
Lemma ren_inj a b : valid_row nr nc a -> valid_row nr nc b -> ren p a = ren p b -> a = b.
Proof.
  intros [La [Ha _]] [Lb [Hb _]]. assert (L : length a = length b) by congruence. clear La Lb. revert b L Hb. induction a as [|u a IH]; intros [|v b] L Hb E; try discriminate; [reflexivity|].
  cbn [ren map] in E. injection E as E1 E2. f_equal.
  - pose proof (Ha u (or_introl eq_refl)). pose proof (Hb v (or_introl eq_refl)). destruct u as [|i], v as [|j]; try discriminate; [reflexivity|]. f_equal. apply Pi; [lia|lia|congruence].
  - apply IH; [intros x Hx; apply Ha; right; exact Hx|cbn in L; lia|intros x Hx; apply Hb; right; exact Hx|exact E2].
Qed.
Definition best (M : nat -> nat -> R) (m : nat) (rows : list (list nat)) (costs : list R) : Prop :=
  Forall (valid_row nr nc) rows /\ NoDup rows /\ Forall2 (fun row x => x = row_total nr M row) rows costs /\ ForallOrdPairs Rle costs /\
  (length rows <= m)%nat /\ (forall row row', In row rows -> valid_row nr nc row' -> ~ In row' rows -> row_total nr M row <= row_total nr M row') /\
  ((length rows < m)%nat -> forall row, valid_row nr nc row -> In row rows).
Lemma half_rows m rows costs rows' costs' : best M m rows costs -> best M' m rows' costs' ->
  forall k, (k < length costs')%nat -> (k < length costs)%nat /\ nth k costs 0 <= nth k costs' 0.
Proof.
  intros [F1 [N1 [C1 [S1 [L1 [O1 A1]]]]]] [F2 [N2 [C2 [S2 [L2 [O2 A2]]]]]] k Hk.
  destruct (Forall2_nthR _ _ _ [] 0 C1) as [Ln1 K1]. destruct (Forall2_nthR _ _ _ [] 0 C2) as [Ln2 K2].
  set (l := map (ren p) (firstn (S k) rows')). rewrite Forall_forall in F1, F2.
  assert (Fs : forall x, In x (firstn (S k) rows') -> valid_row nr nc x) by (intros x Hx; apply F2; rewrite <- (firstn_skipn (S k) rows'); apply in_or_app; left; exact Hx).
  assert (Lf : length (firstn (S k) rows') = S k) by (rewrite firstn_length; lia).
  assert (Nl : NoDup l).
  { unfold l. assert (Nf : NoDup (firstn (S k) rows')) by (apply (nodup_app_lR (firstn (S k) rows') (skipn (S k) rows')); rewrite firstn_skipn; exact N2).
    revert Nf Fs. generalize (firstn (S k) rows'). induction l0 as [|x r IH]; intros Nf Fs; [constructor|]. inversion Nf as [|? ? X1 X2]; subst. cbn [map]. constructor.
    - intros Hi. apply in_map_iff in Hi as [y [E Hy]]. apply ren_inj in E; [congruence|apply Fs; right; exact Hy|apply Fs; left; reflexivity].
    - apply IH; [exact X2|]. intros y Hy. apply Fs. right. exact Hy. }
  assert (Fl : forall y, In y l -> valid_row nr nc y /\ row_total nr M y <= nth k costs' 0).
  { intros y Hy. unfold l in Hy. apply in_map_iff in Hy as [x [<- Hx]]. pose proof (Fs x Hx) as V. split; [apply ren_valid, V|].
    rewrite ren_cost by apply V. apply (In_nth _ _ []) in Hx as [j [Hj <-]]. rewrite Lf in Hj.
    assert (Ej : nth j (firstn (S k) rows') [] = nth j rows' []) by (rewrite <- (firstn_skipn (S k) rows') at 2; rewrite app_nth1 by lia; reflexivity).
    rewrite Ej, <- (K2 j) by lia. apply sorted_nthR; [exact S2|lia|exact Hk]. }
  assert (Ll : length l = S k) by (unfold l; rewrite map_length; exact Lf).
  assert (Hk1 : (k < length costs)%nat).
  { destruct (Nat.lt_ge_cases (length rows) m) as [Hm|Hm]; [|lia]. specialize (A1 Hm).
    assert (length l <= length rows)%nat by (apply NoDup_incl_length; [exact Nl|]; intros y Hy; apply A1, Fl, Hy). lia. }
  split; [exact Hk1|]. assert (DEC : forall a b : list nat, {a = b} + {a <> b}) by (apply list_eq_dec, Nat.eq_dec).
  destruct (Exists_dec (fun y => ~ In y (firstn k rows)) l) as [X|X].
  { intros y. destruct (in_dec DEC y (firstn k rows)); [right; tauto|left; assumption]. }
  - apply Exists_exists in X as [y [Hy X]]. destruct (Fl y Hy) as [Y1 Y2]. eapply Rle_trans; [|exact Y2].
    destruct (in_dec DEC y rows) as [I1|I1].
    + apply (In_nth _ _ []) in I1 as [j [Hj E]]. assert (k <= j)%nat.
      { destruct (Nat.lt_ge_cases j k) as [Hjk|Hjk]; [|exact Hjk]. exfalso. apply X. rewrite <- E.
        assert (Ej : nth j rows [] = nth j (firstn k rows) []) by (rewrite <- (firstn_skipn k rows) at 1; apply app_nth1; rewrite firstn_length; lia).
        rewrite Ej. apply nth_In. rewrite firstn_length. lia. }
      rewrite <- E, <- (K1 j Hj). apply sorted_nthR; [exact S1|assumption|lia].
    + rewrite (K1 k) by lia. apply O1; [apply nth_In; lia|exact Y1|exact I1].
  - exfalso. assert (length l <= length (firstn k rows))%nat.
    { apply NoDup_incl_length; [exact Nl|]. intros y Hy. destruct (in_dec DEC y (firstn k rows)) as [I1|I1]; [exact I1|]. exfalso. apply X, Exists_exists. eauto. }
    rewrite firstn_length in H. lia.
Qed.
End Ren.
Lemma same_rows nr nc M M' p q m rows costs rows' costs' :
  (forall j, (j < nc)%nat -> (p j < nc)%nat /\ (q j < nc)%nat /\ q (p j) = j /\ p (q j) = j) ->
  (forall r j, (r < nr)%nat -> (j < nc)%nat -> M' r j = M r (p j)) ->
  best nr nc M m rows costs -> best nr nc M' m rows' costs' -> costs = costs'.
Proof.
  intros HP HM B B'.
  assert (H1 := half_rows nr nc M M' p (fun j Hj => proj1 (HP j Hj))). assert (H2 := half_rows nr nc M' M q (fun j Hj => proj1 (proj2 (HP j Hj)))).
  assert (I1 : forall i j, (i < nc)%nat -> (j < nc)%nat -> p i = p j -> i = j) by (intros i j Hi Hj E; destruct (HP i Hi) as [_ [_ [X _]]], (HP j Hj) as [_ [_ [Y _]]]; congruence).
  assert (I2 : forall i j, (i < nc)%nat -> (j < nc)%nat -> q i = q j -> i = j) by (intros i j Hi Hj E; destruct (HP i Hi) as [_ [_ [_ X]]], (HP j Hj) as [_ [_ [_ Y]]]; congruence).
  specialize (H1 I1 HM m rows costs rows' costs' B B').
  specialize (H2 I2 (fun r j Hr Hj => eq_sym (eq_trans (HM r (q j) Hr (proj1 (proj2 (HP j Hj)))) (f_equal (M r) (proj2 (proj2 (proj2 (HP j Hj))))))) m rows' costs' rows costs B' B).
  clear -H1 H2. assert (L : length costs = length costs').
  { destruct (Nat.lt_trichotomy (length costs) (length costs')) as [H|[H|H]]; [|exact H|].
    - destruct (H1 (length costs) H). lia.
    - destruct (H2 (length costs') H). lia. }
  apply nth_ext with (d := 0) (d' := 0); [exact L|]. intros k Hk. apply Rle_antisym; [apply H1; lia|apply H2; lia].
Qed.
Lemma murty_is_best f nr nc M m rows costs : murty_ok f -> murty_cost f -> murty_best f -> murty_sorted f -> f nr nc M m = Ok (rows, costs) -> best nr nc M m rows costs.
Proof.
  intros H1 H2 H3 H4 E. destruct (H1 _ _ _ _ _ _ E) as [_ V]. destruct (H3 _ _ _ _ _ _ E) as [B1 [B2 [B3 B4]]].
  split; [apply Forall_forall; exact V|]. split; [exact B2|]. split; [exact (H2 _ _ _ _ _ _ E)|]. split; [exact (H4 _ _ _ _ _ _ E)|]. auto.
Qed.
Lemma l_murty_sorted : murty_sorted l_murty.
Proof. intros nr nc M m rows costs H. destruct (l_murty_spec _ _ _ _ _ _ H) as [sols [_ [_ [_ [_ [B _]]]]]]. exact B. Qed.

Section Upd.
Context {FS ST CV MS : Type}.
Variable E : genv FS ST CV MS.
Implicit Types (c : gcfg ST CV) (s : glmb FS ST CV MS).
Hypothesis (Mo : murty_ok (v_murty E)) (Mt : murty_total (v_murty E)) (Mc : murty_cost (v_murty E)) (Mb : murty_best (v_murty E)) (Ms : murty_sorted (v_murty E)).
(** Both fail the same way or agree up to the indices of the tracks. *)
Definition agree (a b : result (list hyp)) : Prop :=
  match a, b with Ok x, Ok y => summary x = summary y | Err e, Err e' => e = e' | _, _ => False end.
Lemma agree_refl a : agree a a.
Proof. destruct a; cbn; reflexivity. Qed.
Lemma cor_hyp_agree c nm ntab ac ac' p q ss h : (0 < nm)%nat ->
  (forall j, (j < nm)%nat -> (p j < nm)%nat /\ (q j < nm)%nat /\ q (p j) = j /\ p (q j) = j) ->
  (forall i j, (j < nm)%nat -> ac' i j = ac i (p j)) -> agree (cor_hyp E c nm ntab ac ss h) (cor_hyp E c nm ntab ac' ss h).
Proof.
  intros Hn HP HM. unfold cor_hyp. destruct (h_ts h) as [|t0 ts] eqn:Et; [apply agree_refl|]. destruct (negb _); [apply agree_refl|].
  destruct (rdiv _ _) as [ratio|]; [|apply agree_refl]. cbn [bind]. destruct (lnp _) as [lcl|]; [|apply agree_refl]. cbn [bind]. cbv zeta.
  match goal with |- agree (bind (v_murty E ?a ?b ?M ?m) _) (bind (v_murty E ?a ?b ?M' ?m) _) => set (nr := a); set (M1 := M); set (M2 := M'); set (k := m) end.
  destruct (Mt nr nm M1 k) as [[rows costs] E1]; [unfold nr; cbn; lia|exact Hn|]. destruct (Mt nr nm M2 k) as [[rows' costs'] E2]; [unfold nr; cbn; lia|exact Hn|].
  rewrite E1, E2. cbn [bind].
  assert (B1 := murty_is_best _ _ _ _ _ _ _ Mo Mc Mb Ms E1). assert (B2 := murty_is_best _ _ _ _ _ _ _ Mo Mc Mb Ms E2).
  assert (EC : costs = costs').
  { refine (same_rows nr nm M1 M2 p q k rows costs rows' costs' HP _ B1 B2). intros r j Hr Hj. unfold M1, M2. rewrite HM by exact Hj. reflexivity. }
  destruct (lnp (1 - c_pd c)) as [lmd|]; [|reflexivity]. cbn [bind]. destruct (lnp (h_p h)) as [lw|]; [|reflexivity]. cbn [bind agree].
  destruct B1 as [V1 [_ [C1 _]]]. destruct B2 as [V2 [_ [C2 _]]].
  assert (L1 : Forall (fun row => length row = nr) rows) by (eapply Forall_impl; [|exact V1]; intros r [Hr _]; exact Hr).
  assert (L2 : Forall (fun row => length row = nr) rows') by (eapply Forall_impl; [|exact V2]; intros r [Hr _]; exact Hr).
  apply RKShortProofs.Forall2_length in C1. apply RKShortProofs.Forall2_length in C2. subst costs'. clear -L1 L2 C1 C2. clearbody nr. unfold summary. rewrite !map_map. cbn [h_p h_ts].
  assert (G : forall cs rs, length rs = length cs -> Forall (fun row => length row = nr) rs ->
    map (fun x : list nat * R => (- c_crate c + INR nm * lcl + INR nr * lmd + lw - snd x, length (map (fun ia => (fst ia + ntab * snd ia)%nat) (combine (t0 :: ts) (fst x))))) (combine rs cs) =
    map (fun x => (- c_crate c + INR nm * lcl + INR nr * lmd + lw - x, Nat.min (length (t0 :: ts)) nr)) cs).
  { induction cs as [|x cs IH]; intros [|r rs] L F; try discriminate; [reflexivity|]. inversion F as [|? ? F1 F2]; subst. change (combine (r :: rs) (x :: cs)) with ((r, x) :: combine rs cs). cbn [map fst snd]. rewrite map_length, combine_length, IH; [reflexivity|cbn in L; lia|assumption]. }
  rewrite !G by assumption. reflexivity.
Qed.
Lemma mapM_agree {A} (u v : A -> result (list hyp)) l : (forall x, In x l -> agree (u x) (v x)) ->
  match mapM u l, mapM v l with Ok x, Ok y => summary (concat x) = summary (concat y) | Err e, Err e' => e = e' | _, _ => False end.
Proof.
  induction l as [|x l IH]; intros H; [reflexivity|]. cbn [mapM]. pose proof (H x (or_introl eq_refl)) as Hx. specialize (IH (fun y Hy => H y (or_intror Hy))).
  destruct (u x) as [a|], (v x) as [b|]; cbn [agree] in Hx; try contradiction; [|exact Hx]. cbn [bind].
  destruct (mapM u l) as [a'|], (mapM v l) as [b'|]; try contradiction; [|exact IH]. cbn [bind concat]. unfold summary in *. rewrite !map_app. congruence.
Qed.
Lemma summary_fst a b : summary a = summary b -> map h_p a = map h_p b.
Proof. unfold summary. revert b. induction a as [|x a IH]; intros [|y b] H; try discriminate; [reflexivity|]. cbn [map] in *. injection H as H1 _ H2. f_equal; auto. Qed.
Lemma normalise_agree a b : summary a = summary b -> agree (normalise_log E a) (normalise_log E b).
Proof.
  intros H. pose proof (summary_fst _ _ H) as HF. unfold normalise_log. destruct a as [|x a], b as [|y b]; try discriminate; [apply agree_refl|].
  cbn [agree]. rewrite <- HF. unfold summary in *. rewrite !map_map. cbn [h_p h_ts]. set (z := lse _). clearbody z. clear HF.
  revert H. generalize (x :: a) (y :: b). clear. induction l as [|x l IH]; intros [|y l'] H; try discriminate; [reflexivity|]. cbn [map] in *. injection H as H1 H2 H3. rewrite H1, H2. f_equal. apply IH, H3.
Qed.
Lemma gen_cor_agree c nm ntab ac ac' p q hs :
  (forall j, (j < nm)%nat -> (p j < nm)%nat /\ (q j < nm)%nat /\ q (p j) = j /\ p (q j) = j) ->
  (forall i j, (j < nm)%nat -> ac' i j = ac i (p j)) -> agree (gen_cor_hyps E c nm ntab ac hs) (gen_cor_hyps E c nm ntab ac' hs).
Proof.
  intros HP HM. unfold gen_cor_hyps. destruct nm as [|nm]; [apply agree_refl|]. cbv zeta.
  match goal with |- agree (bind (mapM ?u hs) _) (bind (mapM ?v hs) _) => pose proof (mapM_agree u v hs (fun x _ => cor_hyp_agree c (S nm) ntab ac ac' p q _ x (Nat.lt_0_succ nm) HP HM)) as H;
    destruct (mapM u hs) as [a|], (mapM v hs) as [b|]; try contradiction end; [|exact H]. cbn [bind]. apply normalise_agree, H.
Qed.
Lemma card_summary a b : summary a = summary b -> calc_card a = calc_card b.
Proof.
  intros H. assert (L : map (fun h => length (h_ts h)) a = map (fun h => length (h_ts h)) b).
  { revert b H. unfold summary. induction a as [|x a IH]; intros [|y b] H; try discriminate; [reflexivity|]. cbn [map] in *. injection H as _ H1 H2. f_equal; auto. }
  assert (G : forall n, rsum (map h_p (filter (fun h => (length (h_ts h) =? n)%nat) a)) = rsum (map h_p (filter (fun h => (length (h_ts h) =? n)%nat) b))).
  { intros n. f_equal. clear L. revert b H. unfold summary. induction a as [|x a IH]; intros [|y b] H; try discriminate; [reflexivity|]. cbn [map] in H. injection H as H1 H2 H3.
    cbn [filter]. rewrite H2. destruct (_ =? n)%nat; [cbn [map]; rewrite H1; f_equal; apply IH, H3|apply IH, H3]. }
  unfold calc_card. destruct a as [|x a], b as [|y b]; try discriminate; [reflexivity|]. rewrite L. apply map_ext. exact G.
Qed.
Lemma perm_index (meas meas' : list MS) : Permutation meas meas' -> exists p q, (forall j, (j < length meas)%nat -> (p j < length meas)%nat /\ (q j < length meas)%nat /\ q (p j) = j /\ p (q j) = j) /\
  forall j, (j < length meas)%nat -> nth_error meas' j = nth_error meas (p j).
Proof.
  intros H. assert (K : exists l, Permutation l (seq 0 (length meas)) /\ map (nth_error meas) l = map Some meas').
  { clear -H. apply Permutation_sym in H. assert (B : map (nth_error meas) (seq 0 (length meas)) = map Some meas).
    { clear H. induction meas as [|x l IH]; [reflexivity|]. cbn [length seq map nth_error]. f_equal. rewrite <- seq_shift, map_map. exact IH. }
    assert (P : Permutation (map (nth_error meas) (seq 0 (length meas))) (map Some meas')) by (rewrite B; apply Permutation_sym, Permutation_map, H).
    apply Permutation_sym, Permutation_map_inv in P as [l [P1 P2]]. exists l. split; [apply Permutation_sym, P2|auto]. }
  destruct K as [l [P El]]. set (n := length meas) in *.
  assert (Ll : length l = n) by (rewrite (Permutation_length P), seq_length; reflexivity).
  assert (Nl : NoDup l) by (apply (Permutation_NoDup (Permutation_sym P)), seq_NoDup).
  exists (fun j => nth j l 0%nat). exists (fun i => match find (fun j => (nth j l 0 =? i)%nat) (seq 0 n) with Some j => j | None => 0%nat end). split.
  - intros j Hj. assert (R : forall j, (j < n)%nat -> (nth j l 0 < n)%nat).
    { intros i Hi. assert (In (nth i l 0%nat) (seq 0 n)) by (apply (Permutation_in _ P), nth_In; lia). apply in_seq in H0. lia. }
    split; [apply R, Hj|].
    assert (F : forall i, (i < n)%nat -> exists j', find (fun j => (nth j l 0 =? i)%nat) (seq 0 n) = Some j' /\ (j' < n)%nat /\ nth j' l 0%nat = i).
    { intros i Hi. destruct (find _ (seq 0 n)) as [j'|] eqn:Ef.
      - apply find_some in Ef as [F1 F2]. apply in_seq in F1. apply Nat.eqb_eq in F2. exists j'. split; [reflexivity|]. split; [lia|exact F2].
      - exfalso. assert (Hi' : In i l) by (apply (Permutation_in _ (Permutation_sym P)), in_seq; lia). apply (In_nth _ _ 0%nat) in Hi' as [j' [Hj' E']].
        pose proof (find_none _ _ Ef j') as X. cbn beta in X. rewrite E', Nat.eqb_refl in X. discriminate X. apply in_seq. lia. }
    destruct (F j Hj) as [j1 [F1 [F2 F3]]]. rewrite F1. split; [exact F2|]. split; [|exact F3].
    destruct (F (nth j l 0%nat) (R j Hj)) as [j2 [F4 [F5 F6]]]. rewrite F4. apply (NoDup_nth l 0%nat); [exact Nl|lia|lia|exact F6].
  - intros j Hj. pose proof (f_equal (fun x => nth_error x j) El) as X. cbn beta in X. rewrite !nth_error_map, (nth_error_nth' l 0%nat) in X by lia. cbn [option_map] in X.
    destruct (nth_error meas' j) as [z|] eqn:Ez; [cbn [option_map] in X; congruence|]. discriminate X.
Qed.
Lemma correct_agree c t meas meas' s : Permutation meas meas' ->
  match correct E c t meas s, correct E c t meas' s with
  | Ok a, Ok b => exists x y, gen_cor_hyps E c (length meas) (length (g_tab s)) (snd (gen_cor_tab E c t meas (g_tab s))) (g_hyps s) = Ok x /\
                    gen_cor_hyps E c (length meas') (length (g_tab s)) (snd (gen_cor_tab E c t meas' (g_tab s))) (g_hyps s) = Ok y /\ summary x = summary y /\ g_card a = g_card b
  | Err e, Err e' => e = e'
  | _, _ => False
  end.
Proof.
  intros H. destruct (perm_index _ _ H) as [p [q [HP HE]]]. pose proof (Permutation_length H) as HL.
  pose proof (gen_cor_agree c (length meas) (length (g_tab s)) (snd (gen_cor_tab E c t meas (g_tab s))) (snd (gen_cor_tab E c t meas' (g_tab s))) p q (g_hyps s) HP) as G.
  rewrite <- HL. unfold correct. destruct (gen_cor_tab E c t meas (g_tab s)) as [tab ac] eqn:T1. destruct (gen_cor_tab E c t meas' (g_tab s)) as [tab' ac'] eqn:T2. cbn [snd] in *.
  rewrite <- HL.
  assert (HA : forall i j, (j < length meas)%nat -> ac' i j = ac i (p j)).
  { intros i j Hj. apply (f_equal snd) in T1. apply (f_equal snd) in T2. cbn [gen_cor_tab snd] in T1, T2. subst ac ac'. rewrite (HE j Hj). reflexivity. }
  specialize (G HA). unfold agree in G. destruct (gen_cor_hyps _ _ _ _ ac _) as [x|e1], (gen_cor_hyps _ _ _ _ ac' _) as [y|e2]; try contradiction; [|exact G]. cbn [bind].
  destruct (clean_updates tab x) as [u1 u2]. destruct (clean_updates tab' y) as [u3 u4]. exists x, y. split; [reflexivity|]. split; [reflexivity|]. split; [exact G|]. cbn [g_card]. apply card_summary, G.
Qed.
Lemma clean_summary c t meas s s' x : (forall z f x, In z meas -> v_corr E t z f x <> None) -> correct E c t meas s = Ok s' ->
  gen_cor_hyps E c (length meas) (length (g_tab s)) (snd (gen_cor_tab E c t meas (g_tab s))) (g_hyps s) = Ok x -> summary (g_hyps s') = summary x.
Proof.
  intros Hn H Ex. destruct (correct_inv E _ _ _ _ _ H) as [hs [Eg [_ [Eh _]]]]. rewrite Eg in Ex. injection Ex as <-. rewrite Eh.
  set (tab := fst (gen_cor_tab E c t meas (g_tab s))) in *.
  assert (Hall : forall h, In h hs -> exists h', reindex (nnz_inds tab hs) h = [h']).
  { intros h Hh. apply reindex_all; [exact Hh|]. intros i Hi.
    destruct (cor_hyps_in E _ _ _ _ _ _ _ Mo Eg Hh) as [h0 [row [_ [Hr [[Hl [Hv _]] Hs]]]]]. rewrite Hs in Hi. unfold shifted in Hi.
    apply in_map_iff in Hi as [[k a] [<- Hka]]. cbn [fst snd]. pose proof (Hr k (in_combine_l _ _ _ _ Hka)) as Hk. pose proof (Hv a (in_combine_r _ _ _ _ Hka)) as Ha.
    destruct (nth_error (g_tab s) k) as [e|] eqn:Ee; [|apply nth_error_None in Ee; lia].
    destruct (upd_some E c t meas e a Hn Ha) as [e' He']. exists e'. unfold tab. rewrite (cor_tab_nth E c t meas _ _ _ _ Ee Ha), He'. reflexivity. }
  clear Eg Eh H. set (nnz := nnz_inds tab hs) in *. clearbody nnz. induction hs as [|h hs IH]; [reflexivity|].
  cbn [flat_map]. destruct (Hall h (or_introl eq_refl)) as [h' Eh']. rewrite Eh'. cbn [app]. unfold summary in *. cbn [map]. rewrite IH by (intros y Hy; apply Hall; right; exact Hy). f_equal.
  assert (Hi : In h' (reindex nnz h)) by (rewrite Eh'; left; reflexivity). apply reindex_in in Hi as [Hp Hts].
  apply (f_equal (@length _)) in Hts. rewrite !map_length in Hts. congruence.
Qed.
End Upd.

(** C204: whatever the order in which the measurements of a scan are listed, the
    update fails or succeeds alike, and leaves the same cardinality distribution;
    and the same hypothesis probabilities and sizes, in the same order, unless the
    inner filter refuses a measurement: *)
Theorem C204_measurement_order : forall {FS ST CV MS : Type} (E : genv FS ST CV MS) (c : gcfg ST CV) t meas meas' (s : glmb FS ST CV MS),
  murty_ok (v_murty E) -> murty_total (v_murty E) -> murty_cost (v_murty E) -> murty_best (v_murty E) -> murty_sorted (v_murty E) ->
  Permutation meas meas' ->
  match correct E c t meas s, correct E c t meas' s with
  | Ok a, Ok b => g_card a = g_card b /\
      ((forall z f x, In z meas -> v_corr E t z f x <> None) -> summary (g_hyps a) = summary (g_hyps b))
  | Err e, Err e' => e = e'
  | _, _ => False
  end.
Proof.
  intros FS ST CV MS E c t meas meas' s Mo Mt Mc Mb Ms H. pose proof (correct_agree E Mo Mt Mc Mb Ms c t meas meas' s H) as A.
  destruct (correct E c t meas s) as [a|] eqn:Ea, (correct E c t meas' s) as [b|] eqn:Eb; try exact A.
  destruct A as [x [y [E1 [E2 [E3 E4]]]]]. split; [exact E4|]. intros Hn.
  rewrite (clean_summary E Mo c t meas s a x Hn Ea E1), (clean_summary E Mo c t meas' s b y) with (2 := Eb) (3 := E2); [exact E3|].
  intros z f0 x0 Hz. apply Hn. apply (Permutation_in _ (Permutation_sym H)), Hz.
Qed.
(** with the library's own murty_m_best no contract is left. *)
Theorem C204_measurement_order_library : forall {FS ST CV MS : Type} (E : genv FS ST CV MS) si (c : gcfg ST CV) t meas meas' (s : glmb FS ST CV MS),
  Permutation meas meas' ->
  match correct (with_lib si E) c t meas s, correct (with_lib si E) c t meas' s with
  | Ok a, Ok b => g_card a = g_card b /\
      ((forall z f x, In z meas -> v_corr E t z f x <> None) -> summary (g_hyps a) = summary (g_hyps b))
  | Err e, Err e' => e = e'
  | _, _ => False
  end.
Proof.
  intros FS ST CV MS E si c t meas meas' s H.
  exact (C204_measurement_order (with_lib si E) c t meas meas' s l_murty_ok l_murty_total l_murty_cost l_murty_best l_murty_sorted H).
Qed.
Print Assumptions C204_measurement_order.
Print Assumptions C204_measurement_order_library.

(** Two measurements of different likelihood and one track: the update succeeds. *)
Definition o_env : genv unit unit unit bool :=
  {| v_rnd := fun t => Int_part t; v_init := fun _ _ => tt; v_pred := fun _ _ _ => (tt, tt, tt);
     v_corr := fun _ (z : bool) _ _ => Some (tt, tt, tt, if z then 2 else / 3);
     v_kshort := fun _ _ => Ok ([], []); v_murty := fun _ _ _ _ => Ok ([], []); v_lse0 := Ok tt; v_hash := fun _ => 0%Z; v_argsort := fun _ => [] |}.
Definition o_cfg : gcfg unit unit :=
  {| c_births := []; c_ps := 1 / 2; c_pd := 9 / 10; c_crate := 1; c_cden := 1; c_reqb := 1; c_reqs := 1; c_requ := 5;
     c_prune := 0; c_maxh := 10; c_savecov := false; c_savemeas := false |}.
Definition o_state : glmb unit unit unit bool :=
  {| g_tab := [{| e_label := (0%Z, 0%nat); e_w := [[1]]; e_fs := [tt]; e_assoc := []; e_st := [[tt]]; e_cov := [[]]; e_time := 0%nat |}];
     g_hyps := [{| h_p := 1; h_ts := [0%nat] |}]; g_card := [0; 1]; g_cnt := 1; g_meas := []; g_ext := []; g_states := []; g_labels := []; g_covs := [] |}.
Example C204_instance : Permutation [true; false] [false; true] /\ (exists a, correct (with_lib (fun _ => []) o_env) o_cfg 0 [true; false] o_state = Ok a) /\
  (forall z f x, In z [true; false] -> v_corr o_env 0 z f x <> None).
Proof.
  split; [apply perm_swap|]. split; [|discriminate]. apply correct_total.
  - split; [intros b p []|]. cbn. lra.
  - exact l_murty_total.
  - reflexivity.
  - intros h [<-|[]]. cbn. lra.
  - intros h i [<-|[]] [<-|[]]. cbn. lia.
Qed.
