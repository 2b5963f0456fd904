(** Generated by mk_real.py from KShortProps2.v: the same over the real numbers. *)
(** What is true of k_shortest where C13 and C14 fail: every reported cost is
    the cost of a subset that has the returned states and at most one more, and
    the second cost is the second best. *)
From Verif Require Import RBase RBfmModel RBfmSpec RBfmProofs RKShortModel RKShortSpec RKShortProofs RKShortTrue.
From Coq Require Import Permutation Sorted.

(** All entries picked by [s] are nonzero. *)
Definition nonzero (c : list ext) (s : list nat) : Prop :=
  Forall (fun i => exists q, entry c i = Fin q /\ ~ (q = 0)%R) s.

Section T.
Variables (c : list ext) (si : list nat).
Hypothesis Hsc : vec_scaled c.
Hypothesis Hsi : Permutation si (seq 0 (length c)).
Notation n := (length c).
Notation G := (cost_pad (length c) (map (vec c) si)).
Notation N := (length c + 2).

(** The first call of bfm. *)
Lemma first_bfm : exists q mid, bfm N G 0 (S n) = Ok (Fin q, 0 :: mid ++ [S n]) /\
  is_path N G 0 (S n) (0 :: mid ++ [S n]) /\ incr (0 :: mid ++ [S n]) /\ Forall (livek c si) mid /\
  (q = sm c si mid + eps)%R /\ forall l, is_path N G 0 (S n) l -> (q <= path_cost G l)%R.
Proof.
  destruct (bfm_spec N G 0 ltac:(lia) (dag_no_negative_cycle _ _ (restr_dag c si G (restr_G c si))) (G_scaled c si Hsc Hsi) (S n)
        ltac:(lia) ltac:(lia)) as [d [p [E K]]].
  destruct d as [q|].
  2:{ exfalso. destruct K as [_ K]. destruct (mid_of_path c si Hsi []) as [M _]; [constructor|split; constructor|]. exact (K _ M). }
  destruct K as [K1 [K2 K3]]. destruct (path_form c si Hsi G 0 p (restr_G c si) ltac:(lia) K1) as [mid [Em [Hi [Hm Hc]]]].
  exists q, mid. subst p. split; [exact E|]. split; [exact K1|]. split; [exact Hi|]. split; [exact Hm|]. split; [|exact K3].
  rewrite <- K2. exact Hc.
Qed.

Lemma first_inv q mid : is_path N G 0 (S n) (0 :: mid ++ [S n]) ->
  kinv c si {| kP := [(0 :: mid ++ [S n], Fin q)]; kS := [0]; kX := [(0, Fin q)] |} /\
  good c si (0 :: mid ++ [S n]).
Proof.
  intros Hp. pose proof (g c si Hsi _ Hp) as Hg. split; [|exact Hg].
  constructor; cbn [kP kS kX].
  - constructor; [exact Hg|constructor].
  - constructor; [left; reflexivity|constructor].
  - constructor; [cbn [fst length]; lia|constructor].
Qed.

Lemma all_costrel k ps costs : k_shortest si c k = Ok (ps, costs) ->
  Forall2 (fun p e => exists q s, e = Fin q /\ subset c s /\ available c s /\
  (q = total c s + eps)%R /\ (s = p \/ exists x, s = x :: p)) ps costs.
Proof.
  intros E. unfold k_shortest in E. destruct (Nat.eqb_spec k 0) as [->|Hk]; [injection E as <- <-; constructor|].
  cbn zeta in E. unfold k_helper in E. destruct first_bfm as [q [mid [E1 [Hp [Hi [Hm [Hq _]]]]]]]. rewrite E1 in E.
  cbn [bind] in E. destruct (first_inv q mid Hp) as [I Hg].
  match type of E with context [k_loop ?a ?b ?d ?e ?f ?g0 ?h ?i ?j] =>
    destruct (k_loop a b d e f g0 h i j) as [[sps cs]|] eqn:EL end; [|discriminate].
  cbn [bind] in E. injection E as <- <-.
  assert (Hc : costrel c si (0 :: mid ++ [S n]) (Fin q)).
  { exists 0, mid, q. split; [reflexivity|]. split; [lia|]. split; [exact Hi|]. split; [exact Hm|]. split; [reflexivity|].
    left. exact Hq. }
  apply (k_loop_costrel c si Hsc Hsi) in EL.
  - clear - EL Hsi. induction EL as [|p e sps cs H _ IH]; cbn [map]; constructor; [|exact IH].
    apply (costrel_read c si Hsi) in H. destruct H as [q [s [H1 [H2 [H3 [H4 H5]]]]]]. exists q, s.
    split; [exact H1|]. split; [exact H2|]. split; [exact H3|]. split; [exact H4|exact H5].
  - exact I.
  - constructor; [exact Hg|constructor].
  - constructor; [exact Hc|constructor].
  - constructor; [exact Hc|constructor].
Qed.

(** Subsets and paths. *)
Lemma mid_of_perm s : subset c s -> nonzero c s -> Permutation (map (fun x => nth (x - 1) si 0) (mid_of c si s)) s.
Proof.
  intros [Hnd Hr] Hz.
  assert (Hin : forall v, In v (mid_of c si s) -> 1 <= v <= n /\ In (nth (v - 1) si 0) s).
  { intros v Hv. apply filter_In in Hv as [Hv Hb]. apply in_seq in Hv. apply andb_true_iff in Hb as [Hb _].
    apply existsb_exists in Hb as [x [Hx Ex]]. apply Nat.eqb_eq in Ex. subst x. split; [lia|exact Hx]. }
  apply NoDup_Permutation.
  - assert (Hm : NoDup (mid_of c si s)) by (apply incr_NoDup; apply filter_incr; apply (seq_incr c)).
    pose proof (si_NoDup c si Hsi) as Hsn. pose proof (si_len c si Hsi) as Hl.
    clear - Hm Hin Hsn Hl. induction (mid_of c si s) as [|y l IH]; cbn [map]; [constructor|]. inversion Hm; subst. constructor.
    + intros Hx. apply in_map_iff in Hx as [z [Ez Hz]].
      destruct (Hin y (or_introl eq_refl)) as [Hy _]. destruct (Hin z (or_intror Hz)) as [Hz' _].
      pose proof (proj1 (NoDup_nth si 0) Hsn (z - 1) (y - 1) ltac:(lia) ltac:(lia) Ez). assert (z = y) by lia. subst. contradiction.
    + apply IH; [|assumption]. intros v Hv. apply Hin. right; exact Hv.
  - exact Hnd.
  - intros i. rewrite in_map_iff. split.
    + intros [x [<- Hx]]. apply Hin, Hx.
    + intros Hs. unfold nonzero in Hz. rewrite Forall_forall in Hr, Hz. specialize (Hr i Hs). destruct (Hz i Hs) as [q [Eq Hq]].
      assert (Hisi : In i si). { eapply Permutation_in; [symmetry; exact Hsi|]. apply in_seq. lia. }
      apply In_nth with (d := 0) in Hisi as [j [Hj Ej]]. exists (S j). cbn [Nat.sub]. rewrite Nat.sub_0_r. split; [exact Ej|].
      apply filter_In. rewrite (si_len c si Hsi) in Hj. split; [apply in_seq; lia|]. cbn [Nat.sub]. rewrite Nat.sub_0_r, Ej.
      apply andb_true_iff. split; [apply existsb_exists; exists i; split; [exact Hs|apply Nat.eqb_refl]|].
      unfold nzs. rewrite Eq. apply negb_true_iff, Reqb_neq. exact Hq.
Qed.

Lemma perm_mid m1 m2 : Forall (livek c si) m1 -> Forall (livek c si) m2 -> incr m1 -> incr m2 ->
  Permutation (map (fun x => nth (x - 1) si 0) m1) (map (fun x => nth (x - 1) si 0) m2) -> m1 = m2.
Proof.
  intros F1 F2 I1 I2 HP. apply incr_ext; [exact I1|exact I2|]. rewrite Forall_forall in F1, F2.
  intros x. split; intros Hx.
  - assert (H : In (nth (x - 1) si 0) (map (fun x => nth (x - 1) si 0) m2)).
    { eapply Permutation_in; [exact HP|]. apply (in_map (fun x => nth (x - 1) si 0)), Hx. }
    apply in_map_iff in H as [y [Ey Hy]]. apply (si_inj c si Hsi) in Ey; [subst; exact Hy|auto|auto].
  - assert (H : In (nth (x - 1) si 0) (map (fun x => nth (x - 1) si 0) m1)).
    { eapply Permutation_in; [symmetry; exact HP|]. apply (in_map (fun x => nth (x - 1) si 0)), Hx. }
    apply in_map_iff in H as [y [Ey Hy]]. apply (si_inj c si Hsi) in Ey; [subst; exact Hy|auto|auto].
Qed.
Lemma nonzero_available s : nonzero c s -> available c s.
Proof. intros H. eapply Forall_impl; [|exact H]. intros i [q [E _]]. eauto. Qed.

Lemma drop_last2_app (a : list nat) x y : drop_last2 (a ++ [x; y]) = a.
Proof. unfold drop_last2. rewrite app_length. cbn [length]. replace (length a + 2 - 2) with (length a) by lia. rewrite firstn_app, Nat.sub_diag, firstn_all. apply app_nil_r. Qed.

(** How the second answer is read off its path: it is the set whose cost is
    reported, or lacks one state of the first answer. *)
Lemma second_read P1 mid l m p : P1 = 0 :: mid ++ [S n] -> l = 0 :: m ++ [S n] ->
  (exists i v md, i < length P1 - 1 /\ nth_error P1 i = Some v /\
      l = firstn i P1 ++ v :: md ++ [S n] /\ p = drop_last2 (firstn (S i) P1) ++ v :: md ++ [S n]) ->
  map (fun x => nth (x - 1) si 0) m = post c si p \/
  exists x, In x (map (fun x => nth (x - 1) si 0) mid) /\ Permutation (map (fun x => nth (x - 1) si 0) m) (x :: post c si p).
Proof.
  intros EP El [i [v [md [Hi [Ev [El2 Ep]]]]]].
  assert (Hlen : length P1 = S (length mid + 1)) by (rewrite EP; cbn [length]; rewrite app_length; reflexivity).
  destruct i as [|[|i]].
  - left. assert (p = l) as ->. { rewrite Ep, El2. destruct P1; reflexivity. } rewrite El. rewrite post_mid. reflexivity.
  - right. rewrite EP in Ev, El2, Ep. cbn [nth_error] in Ev. exists (nth (v - 1) si 0).
    destruct mid as [|v' mid]; [cbn [length] in Hlen; lia|]. cbn [app nth_error] in Ev. injection Ev as ->.
    split; [left; reflexivity|]. cbn [firstn app] in El2, Ep.
    assert (Em : m = v :: md). { rewrite El in El2. apply (app_inv_tail [S n]). cbn [app]. congruence. }
    assert (Epp : p = v :: md ++ [S n]) by exact Ep. rewrite Epp, post_mid, Em. reflexivity.
  - right. rewrite EP in Ev, El2, Ep. change (nth_error (mid ++ [S n]) (S i) = Some v) in Ev.
    assert (Hi' : i < length mid) by lia.
    exists (nth (nth i mid 0 - 1) si 0). split; [apply (in_map (fun x => nth (x - 1) si 0)), nth_In, Hi'|].
    assert (F1 : firstn (S (S i)) (0 :: mid ++ [S n]) = 0 :: firstn i mid ++ [nth i mid 0]).
    { change (firstn (S (S i)) (0 :: mid ++ [S n])) with (0 :: firstn (S i) (mid ++ [S n])). f_equal. clear - Hi'.
      revert i Hi'. induction mid as [|y l IH]; intros i H; [inversion H|]. destruct i as [|i]; [reflexivity|].
      change (firstn (S (S i)) ((y :: l) ++ [S n])) with (y :: firstn (S i) (l ++ [S n])). cbn [firstn app nth]. f_equal. apply IH. cbn [length] in H. lia. }
    assert (F2 : firstn (S (S (S i))) (0 :: mid ++ [S n]) = (0 :: firstn i mid) ++ [nth i mid 0; v]).
    { change (firstn (S (S (S i))) (0 :: mid ++ [S n])) with (0 :: firstn (S (S i)) (mid ++ [S n])). cbn [app]. f_equal.
      assert (F1t : firstn (S i) (mid ++ [S n]) = firstn i mid ++ [nth i mid 0]) by (apply (f_equal (@tl nat)) in F1; exact F1).
      assert (E : firstn (S (S i)) (mid ++ [S n]) = firstn (S i) (mid ++ [S n]) ++ [v]).
      { clear - Ev. revert Ev. change (S (S i)) with (1 + S i). generalize (mid ++ [S n]), (S i). induction l as [|a l IH]; intros [|k] H; [discriminate|discriminate| |].
        - cbn [nth_error] in H. injection H as ->. reflexivity.
        - cbn [nth_error] in H. change (1 + S k) with (S (1 + k)). cbn [firstn app]. f_equal. apply IH, H. }
      rewrite E, F1t, <- app_assoc. reflexivity. }
    rewrite F1 in El2. rewrite F2, drop_last2_app in Ep.
    assert (Em : m = firstn i mid ++ nth i mid 0 :: v :: md).
    { rewrite El in El2. apply (app_inv_tail [S n]). cbn [app] in El2. injection El2 as El2. rewrite El2. repeat (rewrite <- app_assoc; cbn [app]). reflexivity. }
    assert (Epp : p = 0 :: (firstn i mid ++ v :: md) ++ [S n]). { rewrite Ep. cbn [app]. rewrite <- app_assoc. reflexivity. }
    rewrite Epp, post_mid, Em. rewrite !map_app. cbn [map]. symmetry. apply Permutation_middle.
Qed.

Lemma second_round k : 2 <= k -> exists p cost ps costs, k_shortest si c k = Ok (p :: ps, cost :: costs) /\
  match costs with
  | [] => forall s, subset c s -> nonzero c s -> Permutation s p
  | e :: _ => exists q s, e = Fin q /\ subset c s /\ nonzero c s /\ ~ Permutation s p /\ (q = total c s + eps)%R /\
        (forall s', subset c s' -> nonzero c s' -> ~ Permutation s' p -> (q <= total c s' + eps)%R) /\
        exists p2 ps', ps = p2 :: ps' /\ (s = p2 \/ exists x, In x p /\ Permutation s (x :: p2))
  end.
Proof.
  intros Hk. unfold k_shortest. destruct (Nat.eqb_spec k 0) as [|_]; [lia|]. cbn zeta. unfold k_helper.
  destruct first_bfm as [q [mid [E1 [Hp [Hi [Hm [Hq _]]]]]]]. rewrite E1. cbn [bind].
  destruct (first_inv q mid Hp) as [I Hg].
  set (P1 := 0 :: mid ++ [S n]) in *.
  assert (HmI : incr mid).
  { unfold P1 in Hi. change (0 :: mid ++ [S n]) with ([0] ++ mid ++ [S n]) in Hi. apply incr_app in Hi as [_ [Hi _]].
    apply incr_app in Hi as [Hi _]. exact Hi. }
  assert (Hw : last_pos 0 P1 = Some 0).
  { destruct (last_pos_some c 0 P1 (or_introl eq_refl)) as [j [Ej Hj]]. rewrite Ej. f_equal.
    unfold last_pos in Ej.
    assert (K : forall is_ acc, (forall i, acc = Some i -> nth i P1 0 = 0 /\ i < length P1) -> Forall (fun i => i < length P1) is_ ->
       forall i, fold_left (fun acc i => if nth i P1 0 =? 0 then Some i else acc) is_ acc = Some i -> nth i P1 0 = 0 /\ i < length P1).
    { induction is_ as [|i is_ IH]; intros acc Ha Hf i0 E; cbn [fold_left] in E; [auto|].
      inversion Hf; subst. eapply IH; [|eassumption|exact E]. intros i' Ei'. destruct (Nat.eqb_spec (nth i P1 0) 0) as [Ez|]; [|auto].
      injection Ei' as <-. auto. }
    assert (K0 : Forall (fun i => i < length P1) (seq 0 (length P1))).
    { apply Forall_forall. intros i Hi'. apply in_seq in Hi'. lia. }
    assert (K00 : forall i, @None nat = Some i -> nth i P1 0 = 0 /\ i < length P1) by discriminate.
    destruct (K _ None K00 K0 j Ej) as [Kz _].
    destruct j as [|j]; [reflexivity|]. exfalso. inversion Hi as [|? ? _ HF]; subst. rewrite Forall_forall in HF.
    cbn [nth P1] in Kz. cbn [length P1] in Hj. specialize (HF (nth j (mid ++ [S n]) 0)). rewrite Kz in HF.
    assert (0 < 0); [|lia]. apply HF. rewrite <- Kz at 1. apply nth_In. lia. }
  destruct k as [|k]; [lia|]. cbn [k_loop length].
  destruct (Nat.ltb_spec 1 (S k)); [|lia]. cbn [negb orb kX length Nat.eqb kP kS nth_error]. rewrite Hw.
  cbn [del_x fst Nat.eqb].
  set (st1 := {| kP := [(P1, Fin q)]; kS := [0]; kX := [] |}).
  assert (Hfi : Forall (fun i => i < length P1 - 1) (seq 0 (length P1 - 1 - 0))).
  { apply Forall_forall. intros i Hi'. apply in_seq in Hi'. lia. }
  destruct (first_all c si Hsc Hsi P1 Hp (seq 0 (length P1 - 1 - 0)) st1 (Forall_nil _) Hfi) as [st2 [E2 [F2 [_ M2]]]].
  assert (I1 : kinv c si st1) by (constructor; [apply I|apply I|constructor]).
  destruct (deviate_all_ok c si Hsc Hsi P1 [P1] Hg (Forall_cons _ Hg (Forall_nil _)) _ st1 I1 Hfi) as [st2' [E2' [I2 _]]].
  rewrite E2 in E2'. apply ok_inj in E2'. subst st2'. rewrite E2. cbn [bind].
  (* reading subsets as paths *)
  assert (Hpost : forall m, (if list_eqb (0 :: m ++ [S n]) [0; S n] then [] else map (fun x => nth (x - 1) si 0) (removelast (tl (0 :: m ++ [S n])))) = map (fun x => nth (x - 1) si 0) m).
  { intros m. apply (post_mid c si 0 m). }
  assert (Hsub : forall s, subset c s -> nonzero c s -> mid_of c si s <> mid ->
     exists x qx, In x (kX st2) /\ snd x = Fin qx /\ (qx <= total c s + eps)%R).
  { intros s Hs Hz HnP. destruct (mid_of_path c si Hsi s (nonzero_available s Hz) Hs) as [Q1 Q2].
    assert (Hne : 0 :: mid_of c si s ++ [S n] <> P1).
    { intros E. apply HnP. unfold P1 in E. apply (app_inv_tail [S n]). congruence. }
    destruct (dev_exists c si Hsi P1 Hp _ Q1 Hne) as [i [Hi' Hd]].
    destruct (M2 i _ ltac:(apply in_seq; lia) (conj Q1 Hne) Hd) as [x [qx [X1 [X2 X3]]]].
    exists x, qx. split; [exact X1|]. split; [exact X2|]. rewrite <- Q2. exact X3. }
  destruct (kX st2) as [|x0 X'] eqn:EX.
  - assert (EL : k_loop N G (S n) k (S k) 0 st2 [P1] [Fin q] = Ok ([P1], [Fin q])).
    { destruct k; cbn [k_loop]; rewrite EX; cbn [length Nat.eqb]; rewrite orb_true_r; reflexivity. }
    rewrite EL. cbn [bind map]. eexists _, _, _, _. split; [reflexivity|]. cbn beta. unfold P1. rewrite Hpost.
    intros s Hs Hz. destruct (list_eq_dec Nat.eq_dec (mid_of c si s) mid) as [<-|Hne].
    + symmetry. apply mid_of_perm; assumption.
    + destruct (Hsub s Hs Hz Hne) as [x [_ [[] _]]].
  - pose proof (min_x_in X' x0) as Hin. pose proof (min_x_least X' x0) as Hle.
    unfold finv in F2. rewrite EX in F2. rewrite Forall_forall in F2.
    destruct (F2 _ Hin) as [p [q2 [l [N1 [N2 [[L1 L2] [L3 L4]]]]]]]. rewrite N1.
    assert (Hgp : good c si p).
    { pose proof (ki_good c si st2 I2) as HG. rewrite Forall_forall in HG. apply nth_error_In in N1. apply (HG _ N1). }
    destruct (k_loop_ok c si Hsc Hsi (S k) k (fst (min_x x0 X')) st2 ([P1] ++ [p]) ([Fin q] ++ [Fin q2])) as [sps' [costs' [EL _]]].
    + cbn. lia.
    + exact I2.
    + constructor; [exact Hg|]. constructor; [exact Hgp|constructor].
    + apply nth_error_Some. congruence.
    + reflexivity.
    + cbn. lia.
    + rewrite EL. cbn [bind app map]. eexists _, _, _, _. split; [reflexivity|]. cbn beta iota. unfold P1. rewrite !Hpost.
      destruct (path_form c si Hsi G 0 l (restr_G c si) ltac:(lia) L1) as [m [El [Hil [Hfm Hcm]]]].
      assert (HilI : incr m).
      { rewrite El in Hil. change (0 :: m ++ [S n]) with ([0] ++ m ++ [S n]) in Hil. apply incr_app in Hil as [_ [Hil _]].
        apply incr_app in Hil as [Hil _]. exact Hil. }
      exists q2, (map (fun x => nth (x - 1) si 0) m). split; [reflexivity|].
      split; [apply (mid_subset c si Hsi); [apply incr_NoDup, HilI|exact Hfm]|]. split; [apply (mid_nonzero c si), Hfm|].
      split; [|split; [|split]].
      * intros HP. apply perm_mid in HP; [|assumption|assumption|assumption|assumption]. subst m. apply L2. exact El.
      * rewrite total_sm. rewrite L3. exact Hcm.
      * intros s Hs Hz HnP.
        assert (Hne : mid_of c si s <> mid).
        { intros E. apply HnP. rewrite <- E. symmetry. apply mid_of_perm; assumption. }
        destruct (Hsub s Hs Hz Hne) as [x [qx [X1 [X2 X3]]]]. specialize (Hle x X1). rewrite N2, X2 in Hle. cbn [ext_le] in Hle. lra.
      * eexists _, _. split; [reflexivity|]. apply (second_read P1 mid l m p eq_refl El L4).
Qed.
End T.


(** C14 (true part): with k >= 2, the second reported cost is the least total
    (plus eps) of all sets of available, nonzero-cost states other than the
    first answer; a second answer is missing only if there is no such set. *)
Theorem C14_k_shortest_second_partial_real : forall c si k, vec_scaled c -> sorts_desc c si -> 2 <= k ->
  exists p cost ps costs, k_shortest si c k = Ok (p :: ps, cost :: costs) /\
  match costs with
  | [] => forall s, subset c s -> nonzero c s -> Permutation s p
  | cost2 :: _ => exists q s, cost2 = Fin q /\
        subset c s /\ nonzero c s /\ ~ Permutation s p /\ (q = total c s + machine_eps)%R /\
        (forall s', subset c s' -> nonzero c s' -> ~ Permutation s' p -> (q <= total c s' + machine_eps)%R) /\
        exists p2 ps', ps = p2 :: ps' /\ (s = p2 \/ exists x, In x p /\ Permutation s (x :: p2))
  end.
Proof. intros c si k Hsc [Hsi _] Hk. exact (second_round c si Hsc Hsi k Hk). Qed.
Print Assumptions C14_k_shortest_second_partial_real.

