(** [k_shortest] with an arbitrary monotone addition of costs: RKShortProofs.v
    with the running sums of FltBfmSpec.v. *)
From Verif Require Import RBase RBfmModel RBfmSpec RBfmProofs RKShortModel RKShortSpec RKShortProofs
  FltBfmModel FltBfmSpec FltBfm.
From Coq Require Import Permutation Sorted.

Section K.
Context (add : R -> R -> R) (ok : R -> Prop) (Hadd : cost_addition add ok).
Variables (c : list ext) (si : list nat).
Hypothesis Hsc : vec_scaled c.
Hypothesis Hsi : Permutation si (seq 0 (length c)).
Let n := length c.
Let lc := map (vec c) si.
Let G := cost_pad n lc.
Let N := n + 2.
Local Notation restr := (RKShortProofs.restr c si).
Local Notation good := (RKShortProofs.good c si).
Local Notation kinv := (RKShortProofs.kinv c si).
Local Notation post := (RKShortProofs.post c si).
Local Notation good_nth := (RKShortProofs.good_nth c si).
Local Notation blocked_next_ok := (RKShortProofs.blocked_next_ok c si).
Local Notation block_restr := (RKShortProofs.block_restr c si).
Local Notation restr_G := (RKShortProofs.restr_G c si).
Local Notation path_live := (RKShortProofs.path_live c si Hsi).
Local Notation last_pos_some := (RKShortProofs.last_pos_some c).
Local Notation ki_S := (RKShortProofs.ki_S c si).
Local Notation ki_good := (RKShortProofs.ki_good c si).
Local Notation ki_X := (RKShortProofs.ki_X c si).
Local Notation mid_of_path := (RKShortProofs.mid_of_path c si Hsi).

(** What the shortest path search gives on a submatrix. *)
Lemma bfm_restr T s : restr T -> s < N -> exists d path, bfmf add N N T s (S n) = Ok (d, path) /\
  match d with
  | Inf => path = [] /\ forall l, ~ is_path N T s (S n) l
  | Fin q => is_path N T s (S n) path /\ incr path /\ (walk_sum add 0 T path = q)%R /\
             forall l, is_path N T s (S n) l -> (q <= walk_sum add 0 T l)%R
  end.
Proof.
  intros H Hs.
  assert (Hf : forward_links N T) by exact (restr_dag c si T H).
  assert (H1 : S n < N) by (unfold N; lia). assert (H2 : 2 <= N) by (unfold N; lia).
  destruct (bfmf_spec add ok Hadd N T s Hs (forward_no_shrink add ok N T Hf) (restr_scaled c si Hsc Hsi T H) N (S n) H1 H2 (le_n _))
    as [[d path] [E K]].
  exists d, path. split; [exact E|]. unfold shortest_by_sums in K. cbn [fst snd] in K. destruct d as [q|]; [|exact K].
  destruct K as [K1 [_ [K2 K3]]]. split; [exact K1|]. split; [|auto].
  destruct K1 as [F [L _]]. eapply dag_incr; [|exact F|exact L]. exact Hf.
Qed.

Lemma deviate_ok P_ sps st ind : good P_ -> Forall good sps -> kinv st -> ind < length P_ - 1 ->
  exists st', deviatef add N G (S n) P_ sps st ind = Ok st' /\ kinv st' /\ exists e, kP st' = kP st ++ e.
Proof.
  intros HP Hs I Hi. unfold deviatef.
  destruct (nth_error P_ ind) as [v|] eqn:Ev; [|apply nth_error_None in Ev; lia].
  pose proof (good_nth P_ ind v HP Ev Hi) as Hv.
  destruct (blocked_next_ok P_ ind (P_ :: sps) v Ev ltac:(lia) (Forall_cons _ HP Hs)) as [nxts En].
  rewrite En. cbn [bind].
  set (T := block_links (block_nodes G (firstn (ind - 1) P_)) v nxts).
  assert (HT : restr T) by (apply block_restr, restr_G).
  destruct (bfm_restr T v HT ltac:(unfold N; lia)) as [d [path [E H]]]. rewrite E. cbn [bind].
  destruct d as [q|]; [|destruct H as [-> _]; exists st; split; [reflexivity|]; split; [exact I|]; exists []; rewrite app_nil_r; reflexivity].
  destruct H as [Hp [Hinc _]]. destruct (path_cons_form _ _ _ _ _ Hp) as [b Eb].
  destruct (path_snoc_form _ _ _ _ _ Hp) as [a Ea].
  rewrite Eb. rewrite <- Eb. eexists. split; [reflexivity|].
  assert (Hgood : good (drop_last2 (firstn (S ind) P_) ++ path)).
  { split; [|split].
    - apply incr_app. destruct HP as [HiP _].
      assert (Hpre : forall x, In x (drop_last2 (firstn (S ind) P_)) -> In x (firstn ind P_)).
      { unfold drop_last2. intros x Hx. rewrite firstn_firstn, firstn_length in Hx.
        replace (Nat.min (Nat.min (S ind) (length P_) - 2) (S ind)) with (Nat.min (ind - 1) ind) in Hx by lia.
        rewrite <- firstn_firstn in Hx. rewrite <- (firstn_skipn (ind - 1) (firstn ind P_)).
        apply in_app_iff. left. exact Hx. }
      split; [|split; [exact Hinc|]].
      + unfold drop_last2. rewrite <- (firstn_skipn (S ind) P_) in HiP. apply incr_app in HiP as [HiP _].
        rewrite <- (firstn_skipn (length (firstn (S ind) P_) - 2) (firstn (S ind) P_)) in HiP.
        apply incr_app in HiP as [HiP _]. exact HiP.
      + intros x y Hx Hy. apply Hpre in Hx.
        rewrite (nth_error_split_at P_ ind v Ev) in HiP. apply incr_app in HiP as [_ [_ HiP]].
        specialize (HiP x v Hx (or_introl eq_refl)). rewrite Eb in Hinc, Hy. destruct Hy as [<-|Hy]; [exact HiP|].
        inversion Hinc as [|? ? _ Hf]; subst. rewrite Forall_forall in Hf. specialize (Hf y Hy). lia.
    - exists (drop_last2 (firstn (S ind) P_) ++ a). split.
      + intros H. apply app_eq_nil in H as [_ H]. subst a. rewrite Ea in Eb. cbn [app] in Eb. inversion Eb. lia.
      + rewrite Ea, app_assoc. reflexivity.
    - destruct HP as [_ [_ HL]]. apply Forall_app. split.
      + unfold drop_last2. rewrite firstn_firstn. rewrite Forall_forall in *. intros x Hx. apply HL.
        match type of Hx with In x (firstn ?k P_) => rewrite <- (firstn_skipn k P_) end. apply in_app_iff. left; exact Hx.
      + destruct Hp as [Hf [Hl _]]. rewrite Eb in Hf, Hl |- *. constructor; [|eapply path_live; eassumption].
        rewrite Forall_forall in HL. apply HL. eapply nth_error_In; eauto. }
  split; [constructor; cbn [kP kS kX]|cbn [kP]; eauto].
  - apply Forall_app. split; [apply I|]. constructor; [exact Hgood|constructor].
  - apply Forall2_app; [apply I|]. repeat constructor. cbn [fst]. apply in_app_iff. right. rewrite Eb. left; reflexivity.
  - rewrite app_length. apply Forall_app. split.
    + eapply Forall_impl; [|apply I]. intros x Hx. cbn beta in Hx. lia.
    + repeat constructor. cbn [fst length]. lia.
Qed.
Lemma deviate_all_ok P_ sps : good P_ -> Forall good sps -> forall inds st, kinv st ->
  Forall (fun i => i < length P_ - 1) inds ->
  exists st', deviate_allf add N G (S n) P_ sps st inds = Ok st' /\ kinv st' /\ exists e, kP st' = kP st ++ e.
Proof.
  intros HP Hs. induction inds as [|i inds IH]; intros st I Hf; cbn [deviate_allf].
  - exists st. split; [reflexivity|]. split; [exact I|]. exists []. rewrite app_nil_r. reflexivity.
  - inversion Hf as [|? ? H1 H2]; subst. destruct (deviate_ok P_ sps st i HP Hs I H1) as [st1 [E1 [I1 [e1 X1]]]].
    rewrite E1. cbn [bind]. destruct (IH st1 I1 H2) as [st2 [E2 [I2 [e2 X2]]]]. exists st2. split; [exact E2|].
    split; [exact I2|]. exists (e1 ++ e2). rewrite X2, X1, app_assoc. reflexivity.
Qed.

Lemma k_loop_ok k : forall fuel cur st sps costs, k - length sps <= fuel -> kinv st -> Forall good sps ->
  cur < length (kP st) -> length costs = length sps -> length sps <= k ->
  exists sps' costs', k_loopf add N G (S n) fuel k cur st sps costs = Ok (sps ++ sps', costs ++ costs') /\
    Forall good sps' /\ length costs' = length sps' /\ length (sps ++ sps') <= k.
Proof.
  induction fuel as [|f IH]; intros cur st sps costs Hf I Hg Hc Hl Hk.
  - exists [], []. cbn [k_loopf]. destruct (Nat.ltb_spec (length sps) k); [lia|]. cbn [negb orb].
    rewrite !app_nil_r. auto.
  - cbn [k_loopf]. destruct (Nat.ltb_spec (length sps) k) as [Hlt|]; cbn [negb orb].
    2:{ exists [], []. rewrite !app_nil_r. auto. }
    destruct (length (kX st) =? 0) eqn:EX.
    { exists [], []. rewrite !app_nil_r. auto. }
    cbn [kP kS]. destruct (nth_error (kP st) cur) as [[P_ cP]|] eqn:EP; [|apply nth_error_None in EP; lia].
    pose proof (Forall2_length _ _ _ (ki_S st I)) as HSl.
    destruct (nth_error (kS st) cur) as [w|] eqn:ES; [|apply nth_error_None in ES; lia].
    assert (Hw : In w P_).
    { pose proof (ki_S st I) as H2. clear - H2 EP ES. revert cur EP ES. induction H2 as [|pc w0 lp lw Hp H2 IH]; intros [|cur] EP ES; cbn in *; try discriminate.
      - inversion EP; inversion ES; subst. exact Hp.
      - eapply IH; eauto. }
    assert (HP : good P_).
    { pose proof (ki_good st I) as H2. rewrite Forall_forall in H2. apply nth_error_In in EP. apply (H2 _ EP). }
    destruct (last_pos_some w P_ Hw) as [wi [Ew Hwi]]. rewrite Ew.
    set (st1 := {| kP := kP st; kS := kS st; kX := del_x cur (kX st) |}).
    assert (I1 : kinv st1).
    { constructor; [apply I|apply I|]. cbn [kX kP st1]. pose proof (ki_X st I) as HX. rewrite Forall_forall in *.
      intros x Hx. apply HX. eapply del_x_incl; eauto. }
    destruct (deviate_all_ok P_ sps HP Hg (seq wi (length P_ - 1 - wi)) st1 I1) as [st2 [E2 [I2 [e X2]]]].
    { apply Forall_forall. intros i Hi. apply in_seq in Hi. lia. }
    rewrite E2. cbn [bind]. cbn [kP st1] in X2.
    destruct (kX st2) as [|x0 X'] eqn:EX2.
    + destruct f; cbn [k_loopf]; rewrite EX2; cbn [length Nat.eqb]; rewrite orb_true_r; exists [], []; rewrite !app_nil_r; auto.
    + pose proof (min_x_in X' x0) as Hm. rewrite <- EX2 in Hm. pose proof (ki_X st2 I2) as HX.
      rewrite Forall_forall in HX. specialize (HX _ Hm).
      destruct (nth_error (kP st2) (fst (min_x x0 X'))) as [[p cc]|] eqn:Ep; [|apply nth_error_None in Ep; lia].
      assert (Hp : good p).
      { pose proof (ki_good st2 I2) as H2. rewrite Forall_forall in H2. apply nth_error_In in Ep. apply (H2 _ Ep). }
      destruct (IH (fst (min_x x0 X')) st2 (sps ++ [p]) (costs ++ [cc])) as [sps' [costs' [E [G1 [G2 G3]]]]].
      * rewrite app_length. simpl. lia.
      * exact I2.
      * apply Forall_app. split; [exact Hg|]. constructor; [exact Hp|constructor].
      * exact HX.
      * rewrite !app_length. simpl. lia.
      * rewrite app_length. simpl. lia.
      * exists (p :: sps'), (cc :: costs'). rewrite <- !app_assoc in E. split; [exact E|].
        split; [constructor; assumption|]. split; [simpl; congruence|].
        rewrite <- app_assoc in G3. exact G3.
Qed.

Lemma k_shortest_ok k : 1 <= k -> exists path q paths costs,
  k_shortestf add si c k = Ok (post path :: map post paths, Fin q :: costs) /\
  good path /\ is_path N G 0 (S n) path /\ incr path /\ (walk_sum add 0 G path = q)%R /\
  (forall l, is_path N G 0 (S n) l -> (q <= walk_sum add 0 G l)%R) /\
  Forall good paths /\ length costs = length paths /\ S (length paths) <= k.
Proof.
  intros Hk. unfold k_shortestf. destruct (Nat.eqb_spec k 0) as [|_]; [lia|].
  cbn zeta. fold n. fold lc. fold G. fold N. unfold k_helperf.
  destruct (bfm_restr G 0 restr_G ltac:(unfold N; lia)) as [d [path [E H]]].
  destruct d as [q|].
  2:{ exfalso. destruct H as [_ K].
      destruct (mid_of_path []) as [M _]; [constructor|split; constructor|]. exact (K _ M). }
  destruct H as [Hp [Hi [Hq Hmin]]]. rewrite E. cbn [bind].
  destruct (path_cons_form _ _ _ _ _ Hp) as [b Eb].
  assert (Hg : good path).
  { split; [exact Hi|]. split.
    - destruct (path_snoc_form _ _ _ _ _ Hp) as [a Ea]. exists a. split; [|exact Ea].
      intros ->. rewrite Ea in Eb. cbn [app] in Eb. inversion Eb.
    - destruct Hp as [Hf [Hl _]]. rewrite Eb in Hf, Hl |- *. constructor; [intros ?; lia|].
      eapply path_live; [apply restr_G|exact Hf|exact Hl]. }
  destruct path as [|v0 path']; [discriminate|]. injection Eb as -> Eb'.
  destruct (k_loop_ok k k 0 {| kP := [(0 :: path', Fin q)]; kS := [0]; kX := [(0, Fin q)] |} [0 :: path'] [Fin q])
    as [sps [costs [EL [L1 [L2 L3]]]]].
  - simpl. lia.
  - constructor; cbn [kP kS kX].
    + constructor; [exact Hg|constructor].
    + constructor; [left; reflexivity|constructor].
    + constructor; [cbn [fst length]; lia|constructor].
  - constructor; [exact Hg|constructor].
  - simpl; lia.
  - reflexivity.
  - simpl; lia.
  - rewrite EL. cbn [bind app]. exists (0 :: path'), q, sps, costs. split; [reflexivity|].
    cbn [app length] in L3. auto 12.
Qed.
End K.
