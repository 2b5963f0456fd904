(** Generated by mk_real.py from KShortProofs.v: the same over the real numbers. *)
(** Proofs about the k_shortest model. *)
From Verif Require Import RBase RBfmModel RBfmSpec RBfmProofs RKShortModel RKShortSpec.
From Coq Require Import Permutation Sorted.

Lemma list_eqb_eq a : forall b, list_eqb a b = true <-> a = b.
Proof.
  induction a as [|x a IH]; intros [|y b]; simpl; try (split; congruence).
  rewrite andb_true_iff, Nat.eqb_eq, IH. split; [intros [-> ->]; reflexivity|intros E; inversion E; auto].
Qed.

(** Strictly increasing lists. *)
Definition incr (l : list nat) : Prop := StronglySorted lt l.
Lemma incr_app a b : incr (a ++ b) <-> incr a /\ incr b /\ (forall x y, In x a -> In y b -> x < y).
Proof.
  unfold incr. induction a as [|u a IH]; simpl.
  - split; [intros H; repeat split; auto; [constructor|intros x y []]|tauto].
  - split.
    + intros H. inversion H as [|? ? H1 H2]; subst. apply IH in H1 as [A [B C]].
      apply Forall_app in H2 as [D E]. split; [constructor; assumption|]. split; [exact B|].
      intros x y [<-|Hx] Hy; [|apply C; assumption]. rewrite Forall_forall in E. auto.
    + intros [A [B C]]. inversion A as [|? ? A1 A2]; subst. constructor.
      * apply IH. split; [exact A1|]. split; [exact B|]. intros; apply C; auto.
      * apply Forall_app. split; [exact A2|]. apply Forall_forall. intros y Hy. apply C; auto.
Qed.
Lemma incr_NoDup l : incr l -> NoDup l.
Proof.
  induction 1 as [|x l H1 IH H2]; constructor; auto. intros Hx. rewrite Forall_forall in H2. specialize (H2 x Hx). lia.
Qed.
Lemma dag_incr n G : (forall u v, u < n -> v < n -> link G u v -> u < v) ->
  forall p, Forall (fun v => v < n) p -> path_links G p -> incr p.
Proof.
  intros H. induction p as [|s p IH]; intros Hf Hl; [constructor|].
  pose proof (dag_path_increasing n G H p s Hf Hl) as Hi. constructor; [|exact Hi].
  apply IH; [inversion Hf; assumption|]. destruct p; [exact I|]. destruct Hl; assumption.
Qed.

Lemma Forall2_length {A B} (R : A -> B -> Prop) l l' : Forall2 R l l' -> length l = length l'.
Proof. induction 1; simpl; congruence. Qed.

Section K.
Variables (c : list ext) (si : list nat).
Hypothesis Hsc : vec_scaled c.
Hypothesis Hsi : Permutation si (seq 0 (length c)).
Let n := length c.
Let lc := map (vec c) si.
Let G := cost_pad n lc.
Let N := n + 2.

Lemma si_len : length si = n.
Proof. rewrite (Permutation_length Hsi), seq_length. reflexivity. Qed.
Lemma si_nth_lt i : i < n -> nth i si 0 < n.
Proof.
  intros H. assert (Hin : In (nth i si 0) (seq 0 n)).
  { eapply Permutation_in; [exact Hsi|]. apply nth_In. rewrite si_len. exact H. }
  apply in_seq in Hin. lia.
Qed.
Lemma si_NoDup : NoDup si.
Proof. eapply Permutation_NoDup; [symmetry; exact Hsi|apply seq_NoDup]. Qed.
Lemma lc_vec i : i < n -> vec lc i = entry c (nth i si 0).
Proof.
  intros H. unfold vec at 1, lc. rewrite (nth_indep _ (Fin 0) (vec c 0)) by (rewrite map_length, si_len; exact H).
  rewrite map_nth. reflexivity.
Qed.

Lemma G_sink u : u <= n -> G u (S n) = Fin eps.
Proof. intros H. unfold G, cost_pad. rewrite Nat.eqb_refl. apply Nat.leb_le in H. now rewrite H. Qed.
Lemma G_state u v : 1 <= v <= n -> u < v -> G u v = entry c (nth (v - 1) si 0).
Proof.
  intros H1 H2. unfold G, cost_pad. destruct (Nat.eqb_spec v (S n)); [lia|].
  destruct (Nat.leb_spec 1 v); [|lia]. destruct (Nat.leb_spec v n); [|lia].
  destruct (Nat.ltb_spec u v); [|lia]. cbn [andb]. apply lc_vec. lia.
Qed.
Lemma G_link u v : u < N -> v < N -> link G u v -> u < v.
Proof.
  intros Hu Hv [w [E Hw]]. unfold G, cost_pad in E. unfold N in *.
  destruct (Nat.eqb_spec v (S n)) as [->|].
  - destruct (Nat.leb_spec u n); [lia|]. inversion E; subst. exfalso. apply Hw. reflexivity.
  - destruct ((1 <=? v) && (v <=? n)) eqn:E1; cbn [andb] in E; [|inversion E; subst; exfalso; apply Hw; reflexivity].
    destruct (Nat.ltb_spec u v); [assumption|]. inversion E; subst; exfalso; apply Hw; reflexivity.
Qed.
Lemma G_scaled : well_scaled N G.
Proof.
  intros u v q Hu Hv E. unfold G, cost_pad in E.
  destruct (Nat.eqb_spec v (S n)) as [->|].
  - destruct (Nat.leb_spec u n); inversion E; subst; [right|left; reflexivity]. rewrite Rabs_pos_eq; unfold eps; lra.
  - destruct (Nat.leb_spec 1 v) as [H1|]; cbn [andb] in E; [|inversion E; left; reflexivity].
    destruct (Nat.leb_spec v n) as [H2|]; cbn [andb] in E; [|inversion E; left; reflexivity].
    destruct (Nat.ltb_spec u v); [|inversion E; left; reflexivity].
    rewrite lc_vec in E by lia. apply (Hsc _ q (si_nth_lt (v - 1) ltac:(lia)) E).
Qed.

(** Submatrices of G (some entries set to +inf). *)
Definition restr (T : nat -> nat -> ext) : Prop := forall u v, T u v = Inf \/ T u v = G u v.
Lemma restr_link T u v : restr T -> link T u v -> link G u v.
Proof. intros H [w [E Hw]]. exists w. destruct (H u v) as [E'|E']; [congruence|]. split; congruence. Qed.
Lemma restr_dag T : restr T -> forall u v, u < N -> v < N -> link T u v -> u < v.
Proof. intros H u v Hu Hv Hl. apply G_link; auto. eapply restr_link; eauto. Qed.
Lemma restr_scaled T : restr T -> well_scaled N T.
Proof. intros H u v q Hu Hv E. destruct (H u v) as [E'|E']; [congruence|]. apply (G_scaled u v q Hu Hv). congruence. Qed.

(** What bfm gives on such a matrix. *)
Lemma bfm_restr T s : restr T -> s < N -> exists d path, bfm N T s (S n) = Ok (d, path) /\
  match d with
  | Inf => path = []
  | Fin q => is_path N T s (S n) path /\ incr path /\ (path_cost T path = q)%R /\
             forall l, is_path N T s (S n) l -> (q <= path_cost T l)%R
  end.
Proof.
  intros H Hs.
  destruct (bfm_spec N T s Hs (dag_no_negative_cycle _ _ (restr_dag T H)) (restr_scaled T H) (S n)
     ltac:(unfold N; lia) ltac:(unfold N; lia)) as [d [path [E K]]].
  exists d, path. split; [exact E|]. destruct d as [q|]; [|apply K].
  destruct K as [K1 [K2 K3]]. split; [exact K1|]. split; [|auto].
  destruct K1 as [F [L _]]. eapply dag_incr; [|exact F|exact L]. apply restr_dag, H.
Qed.

(** Paths kept by the algorithm: increasing node lists ending in the sink. *)
Definition live (x : nat) : Prop := 1 <= x <= n -> exists q, entry c (nth (x - 1) si 0) = Fin q /\ ~ (q = 0)%R.
Definition good (p : list nat) : Prop :=
  incr p /\ (exists a, a <> [] /\ p = a ++ [S n]) /\ Forall live p.
Lemma link_live T u v : restr T -> u < N -> v < N -> link T u v -> live v.
Proof.
  intros H Hu Hv Hl Hr. pose proof (restr_dag T H u v Hu Hv Hl) as Huv. apply (restr_link T u v H) in Hl as [w [Ew Hw]].
  rewrite G_state in Ew by lia. eauto.
Qed.
Lemma path_live T : restr T -> forall p s, Forall (fun v => v < N) (s :: p) -> path_links T (s :: p) -> Forall live p.
Proof.
  intros H. induction p as [|v p IH]; intros s Hf Hl; [constructor|].
  inversion Hf as [|? ? Hs Hf']; subst. inversion Hf' as [|? ? Hv _]; subst. destruct Hl as [Hl1 Hl].
  constructor; [exact (link_live T s v H Hs Hv Hl1)|]. eapply IH; eassumption.
Qed.
Lemma good_lt p x : good p -> In x p -> x < N.
Proof.
  intros [Hi [[a [_ ->]] _]] Hx. apply incr_app in Hi as [_ [_ H]]. apply in_app_iff in Hx as [Hx|[<-|[]]]; unfold N; [|lia].
  specialize (H x (S n) Hx (or_introl eq_refl)). lia.
Qed.
Lemma good_nth p i v : good p -> nth_error p i = Some v -> i < length p - 1 -> v < S n.
Proof.
  intros [Hi [[a [_ ->]] _]] E Hl. rewrite app_length in Hl. simpl in Hl.
  rewrite nth_error_app1 in E by lia. apply nth_error_In in E.
  apply incr_app in Hi as [_ [_ H]]. apply (H v (S n) E). left; reflexivity.
Qed.
Lemma good_last p i : good p -> nth_error p (S i) = None -> forall v, nth_error p i = Some v -> v = S n.
Proof.
  intros [Hi [[a [_ ->]] _]] E v Ev. apply nth_error_None in E. rewrite app_length in E. simpl in E.
  assert (i < length (a ++ [S n])) by (apply nth_error_Some; congruence). rewrite app_length in H. simpl in H.
  assert (i = length a) as -> by lia. rewrite nth_error_app2 in Ev by lia. rewrite Nat.sub_diag in Ev. inversion Ev; reflexivity.
Qed.

Lemma blocked_next_ok P_ ind sps v : nth_error P_ ind = Some v -> v <> S n -> Forall good sps ->
  exists xs, blocked_next P_ ind sps = Ok xs.
Proof.
  intros Ev Hv. induction sps as [|sp sps IH]; intros HF; [exists []; reflexivity|].
  inversion HF as [|? ? H1 H2]; subst. destruct (IH H2) as [xs E]. cbn [blocked_next].
  destruct (Nat.ltb_spec ind (length sp)) as [Hl|]; cbn [andb]; [|eauto].
  destruct (list_eqb (firstn (S ind) P_) (firstn (S ind) sp)) eqn:Eq; [|eauto].
  destruct (nth_error sp (S ind)) as [x|] eqn:En.
  - rewrite E. cbn [bind]. eauto.
  - exfalso. apply list_eqb_eq in Eq.
    assert (Hs : nth_error sp ind = Some v).
    { rewrite <- Ev. rewrite <- (firstn_skipn (S ind) sp), <- (firstn_skipn (S ind) P_).
      rewrite Eq. assert (ind < length P_) by (apply nth_error_Some; congruence).
      rewrite !nth_error_app1; [reflexivity| |]; rewrite <- ?Eq, firstn_length; lia. }
    apply Hv. eapply good_last; eauto.
Qed.

Lemma block_restr P_ v nxts T : restr T -> restr (block_links (block_nodes T P_) v nxts).
Proof.
  intros H a b. unfold block_links, block_nodes.
  destruct ((a =? v) && existsb (Nat.eqb b) nxts); [left; reflexivity|].
  destruct (existsb (Nat.eqb a) P_ || existsb (Nat.eqb b) P_); [left; reflexivity|apply H].
Qed.
Lemma restr_G : restr G.
Proof. intros u v. right. reflexivity. Qed.

(** Invariant of the candidate store. *)
Record kinv (st : kst) : Prop := {
  ki_good : Forall (fun pc => good (fst pc)) (kP st);
  ki_S : Forall2 (fun pc w => In w (fst pc)) (kP st) (kS st);
  ki_X : Forall (fun x => fst x < length (kP st)) (kX st)
}.

Lemma nth_error_split_at {A} (l : list A) i v : nth_error l i = Some v ->
  l = firstn i l ++ v :: skipn (S i) l.
Proof.
  revert l. induction i as [|i IH]; intros [|x l] E; cbn in *; try discriminate.
  - inversion E; subst. reflexivity.
  - f_equal. apply IH, E.
Qed.

Lemma deviate_ok P_ sps st ind : good P_ -> Forall good sps -> kinv st -> ind < length P_ - 1 ->
  exists st', deviate N G (S n) P_ sps st ind = Ok st' /\ kinv st' /\ exists e, kP st' = kP st ++ e.
Proof.
  intros HP Hs I Hi. unfold deviate.
  destruct (nth_error P_ ind) as [v|] eqn:Ev; [|apply nth_error_None in Ev; lia].
  pose proof (good_nth P_ ind v HP Ev Hi) as Hv.
  destruct (blocked_next_ok P_ ind (P_ :: sps) v Ev ltac:(lia) (Forall_cons _ HP Hs)) as [nxts En].
  rewrite En. cbn [bind].
  set (T := block_links (block_nodes G (firstn (ind - 1) P_)) v nxts).
  assert (HT : restr T) by (apply block_restr, restr_G).
  destruct (bfm_restr T v HT ltac:(unfold N; lia)) as [d [path [E H]]]. rewrite E. cbn [bind].
  destruct d as [q|]; [|subst path; exists st; split; [reflexivity|]; split; [exact I|]; exists []; rewrite app_nil_r; reflexivity].
  destruct H as [Hp [Hinc _]]. destruct (path_cons_form _ _ _ _ _ Hp) as [b Eb].
  destruct (path_snoc_form _ _ _ _ _ Hp) as [a Ea].
  rewrite Eb. rewrite <- Eb. eexists. split; [reflexivity|].
  assert (Hgood : good (drop_last2 (firstn (S ind) P_) ++ path)).
  { split; [|split].
    - apply incr_app. destruct HP as [HiP _].
      assert (Hpre : forall x, In x (drop_last2 (firstn (S ind) P_)) -> In x (firstn ind P_)).
      { unfold drop_last2. intros x Hx. rewrite firstn_firstn, firstn_length in Hx.
        replace (Nat.min (Nat.min (S ind) (length P_) - 2) (S ind)) with (Nat.min (ind - 1) ind) in Hx by lia.
        rewrite <- firstn_firstn in Hx. rewrite <- (firstn_skipn (ind - 1) (firstn ind P_)).
        apply in_app_iff. left. exact Hx. }
      split; [|split; [exact Hinc|]].
      + unfold drop_last2. rewrite <- (firstn_skipn (S ind) P_) in HiP. apply incr_app in HiP as [HiP _].
        rewrite <- (firstn_skipn (length (firstn (S ind) P_) - 2) (firstn (S ind) P_)) in HiP.
        apply incr_app in HiP as [HiP _]. exact HiP.
      + intros x y Hx Hy. apply Hpre in Hx.
        rewrite (nth_error_split_at P_ ind v Ev) in HiP. apply incr_app in HiP as [_ [_ HiP]].
        specialize (HiP x v Hx (or_introl eq_refl)). rewrite Eb in Hinc, Hy. destruct Hy as [<-|Hy]; [exact HiP|].
        inversion Hinc as [|? ? _ Hf]; subst. rewrite Forall_forall in Hf. specialize (Hf y Hy). lia.
    - exists (drop_last2 (firstn (S ind) P_) ++ a). split.
      + intros H. apply app_eq_nil in H as [_ H]. subst a. rewrite Ea in Eb. cbn [app] in Eb. inversion Eb. lia.
      + rewrite Ea, app_assoc. reflexivity.
    - destruct HP as [_ [_ HL]]. apply Forall_app. split.
      + unfold drop_last2. rewrite firstn_firstn. rewrite Forall_forall in *. intros x Hx. apply HL.
        match type of Hx with In x (firstn ?k P_) => rewrite <- (firstn_skipn k P_) end. apply in_app_iff. left; exact Hx.
      + destruct Hp as [Hf [Hl _]]. rewrite Eb in Hf, Hl |- *. constructor; [|eapply path_live; eassumption].
        rewrite Forall_forall in HL. apply HL. eapply nth_error_In; eauto. }
  split; [constructor; cbn [kP kS kX]|cbn [kP]; eauto].
  - apply Forall_app. split; [apply I|]. constructor; [exact Hgood|constructor].
  - apply Forall2_app; [apply I|]. repeat constructor. cbn [fst]. apply in_app_iff. right. rewrite Eb. left; reflexivity.
  - rewrite app_length. apply Forall_app. split.
    + eapply Forall_impl; [|apply I]. intros x Hx. cbn beta in Hx. lia.
    + repeat constructor. cbn [fst length]. lia.
Qed.
Lemma deviate_all_ok P_ sps : good P_ -> Forall good sps -> forall inds st, kinv st ->
  Forall (fun i => i < length P_ - 1) inds ->
  exists st', deviate_all N G (S n) P_ sps st inds = Ok st' /\ kinv st' /\ exists e, kP st' = kP st ++ e.
Proof.
  intros HP Hs. induction inds as [|i inds IH]; intros st I Hf; cbn [deviate_all].
  - exists st. split; [reflexivity|]. split; [exact I|]. exists []. rewrite app_nil_r. reflexivity.
  - inversion Hf as [|? ? H1 H2]; subst. destruct (deviate_ok P_ sps st i HP Hs I H1) as [st1 [E1 [I1 [e1 X1]]]].
    rewrite E1. cbn [bind]. destruct (IH st1 I1 H2) as [st2 [E2 [I2 [e2 X2]]]]. exists st2. split; [exact E2|].
    split; [exact I2|]. exists (e1 ++ e2). rewrite X2, X1, app_assoc. reflexivity.
Qed.

Lemma last_pos_some w l : In w l -> exists i, last_pos w l = Some i /\ i < length l.
Proof.
  intros Hw. unfold last_pos.
  assert (H : forall is_ acc, (forall i, acc = Some i -> i < length l) -> Forall (fun i => i < length l) is_ ->
     (acc <> None \/ exists i, In i is_ /\ nth i l 0 = w) ->
     exists i, fold_left (fun acc i => if nth i l 0 =? w then Some i else acc) is_ acc = Some i /\ i < length l).
  { induction is_ as [|i is_ IH]; intros acc Ha Hf H; cbn [fold_left].
    - destruct H as [H|[i [[] _]]]. destruct acc as [i|]; [|congruence]. eauto.
    - inversion Hf; subst. apply IH; [|assumption|].
      + intros j Hj. destruct (nth i l 0 =? w); [inversion Hj; subst; assumption|auto].
      + destruct (Nat.eqb_spec (nth i l 0) w) as [E|E]; [left; discriminate|].
        destruct H as [H|[j [[<-|Hj] Ej]]]; [left; exact H|contradiction|right; eauto]. }
  apply H; [discriminate|apply Forall_forall; intros i Hi; apply in_seq in Hi; lia|].
  right. apply In_nth with (d := 0) in Hw as [i [Hi Ei]]. exists i. split; [apply in_seq; lia|exact Ei].
Qed.
Lemma del_x_incl cur X x : In x (del_x cur X) -> In x X.
Proof.
  induction X as [|y X IH]; cbn [del_x]; [auto|]. destruct (fst y =? cur); [intros H; right; exact H|].
  intros [<-|H]; [left; reflexivity|right; auto].
Qed.
Lemma min_x_in X : forall x0, In (min_x x0 X) (x0 :: X).
Proof.
  unfold min_x. induction X as [|x X IH]; intros x0; cbn [fold_left]; [left; reflexivity|].
  destruct (egt (snd x0) (snd x)).
  - destruct (IH x) as [H|H]; [right; left; exact H|right; right; exact H].
  - destruct (IH x0) as [H|H]; [left; exact H|right; right; exact H].
Qed.

Lemma k_loop_ok k : forall fuel cur st sps costs, k - length sps <= fuel -> kinv st -> Forall good sps ->
  cur < length (kP st) -> length costs = length sps -> length sps <= k ->
  exists sps' costs', k_loop N G (S n) fuel k cur st sps costs = Ok (sps ++ sps', costs ++ costs') /\
    Forall good sps' /\ length costs' = length sps' /\ length (sps ++ sps') <= k.
Proof.
  induction fuel as [|f IH]; intros cur st sps costs Hf I Hg Hc Hl Hk.
  - exists [], []. cbn [k_loop]. destruct (Nat.ltb_spec (length sps) k); [lia|]. cbn [negb orb].
    rewrite !app_nil_r. auto.
  - cbn [k_loop]. destruct (Nat.ltb_spec (length sps) k) as [Hlt|]; cbn [negb orb].
    2:{ exists [], []. rewrite !app_nil_r. auto. }
    destruct (length (kX st) =? 0) eqn:EX.
    { exists [], []. rewrite !app_nil_r. auto. }
    cbn [kP kS]. destruct (nth_error (kP st) cur) as [[P_ cP]|] eqn:EP; [|apply nth_error_None in EP; lia].
    pose proof (Forall2_length _ _ _ (ki_S st I)) as HSl.
    destruct (nth_error (kS st) cur) as [w|] eqn:ES; [|apply nth_error_None in ES; lia].
    assert (Hw : In w P_).
    { pose proof (ki_S st I) as H2. clear - H2 EP ES. revert cur EP ES. induction H2 as [|pc w0 lp lw Hp H2 IH]; intros [|cur] EP ES; cbn in *; try discriminate.
      - inversion EP; inversion ES; subst. exact Hp.
      - eapply IH; eauto. }
    assert (HP : good P_).
    { pose proof (ki_good st I) as H2. rewrite Forall_forall in H2. apply nth_error_In in EP. apply (H2 _ EP). }
    destruct (last_pos_some w P_ Hw) as [wi [Ew Hwi]]. rewrite Ew.
    set (st1 := {| kP := kP st; kS := kS st; kX := del_x cur (kX st) |}).
    assert (I1 : kinv st1).
    { constructor; [apply I|apply I|]. cbn [kX kP st1]. pose proof (ki_X st I) as HX. rewrite Forall_forall in *.
      intros x Hx. apply HX. eapply del_x_incl; eauto. }
    destruct (deviate_all_ok P_ sps HP Hg (seq wi (length P_ - 1 - wi)) st1 I1) as [st2 [E2 [I2 [e X2]]]].
    { apply Forall_forall. intros i Hi. apply in_seq in Hi. lia. }
    rewrite E2. cbn [bind]. cbn [kP st1] in X2.
    destruct (kX st2) as [|x0 X'] eqn:EX2.
    + destruct f; cbn [k_loop]; rewrite EX2; cbn [length Nat.eqb]; rewrite orb_true_r; exists [], []; rewrite !app_nil_r; auto.
    + pose proof (min_x_in X' x0) as Hm. rewrite <- EX2 in Hm. pose proof (ki_X st2 I2) as HX.
      rewrite Forall_forall in HX. specialize (HX _ Hm).
      destruct (nth_error (kP st2) (fst (min_x x0 X'))) as [[p cc]|] eqn:Ep; [|apply nth_error_None in Ep; lia].
      assert (Hp : good p).
      { pose proof (ki_good st2 I2) as H2. rewrite Forall_forall in H2. apply nth_error_In in Ep. apply (H2 _ Ep). }
      destruct (IH (fst (min_x x0 X')) st2 (sps ++ [p]) (costs ++ [cc])) as [sps' [costs' [E [G1 [G2 G3]]]]].
      * rewrite app_length. simpl. lia.
      * exact I2.
      * apply Forall_app. split; [exact Hg|]. constructor; [exact Hp|constructor].
      * exact HX.
      * rewrite !app_length. simpl. lia.
      * rewrite app_length. simpl. lia.
      * exists (p :: sps'), (cc :: costs'). rewrite <- !app_assoc in E. split; [exact E|].
        split; [constructor; assumption|]. split; [simpl; congruence|].
        rewrite <- app_assoc in G3. exact G3.
Qed.

(** * Paths and subsets *)
Definition post (p : list nat) : list nat :=
  if list_eqb p [0; S n] then [] else map (fun x => nth (x - 1) si 0) (removelast (tl p)).
Lemma good_post p : good p -> subset c (post p).
Proof.
  intros [Hi [[a [Ha ->]] _]]. unfold post. destruct (list_eqb (a ++ [S n]) [0; S n]); [split; constructor|].
  destruct a as [|x a]; [congruence|]. cbn [app tl]. rewrite removelast_last.
  cbn [app] in Hi. inversion Hi as [|? ? H1 H2]; subst. apply incr_app in H1 as [H1 [_ H3]].
  apply Forall_app in H2 as [H2 _]. rewrite Forall_forall in H2.
  assert (Hr : forall y, In y a -> 1 <= y <= n).
  { intros y Hy. specialize (H2 y Hy). specialize (H3 y (S n) Hy (or_introl eq_refl)). lia. }
  split.
  - pose proof (incr_NoDup a H1) as Hnd. pose proof si_NoDup as Hsn.
    clear - Hr Hnd Hsn Hsi. induction a as [|y a IH]; cbn [map]; [constructor|]. inversion Hnd; subst. constructor.
    + intros Hin. apply in_map_iff in Hin as [z [Ez Hz]].
      assert (Hy : 1 <= y <= n) by (apply Hr; left; reflexivity). assert (Hz' : 1 <= z <= n) by (apply Hr; right; exact Hz).
      pose proof si_len as Hl.
      pose proof (proj1 (NoDup_nth si 0) Hsn (z - 1) (y - 1) ltac:(lia) ltac:(lia) Ez). assert (z = y) by lia. subst. contradiction.
    + apply IH; [|assumption]. intros z Hz. apply Hr. right; exact Hz.
  - apply Forall_map, Forall_forall. intros y Hy. specialize (Hr y Hy). apply si_nth_lt. lia.
Qed.

Lemma good_live p i : good p -> In i (post p) -> exists q, entry c i = Fin q /\ ~ (q = 0)%R.
Proof.
  intros [Hi [[a [Ha ->]] HL]]. unfold post. destruct (list_eqb (a ++ [S n]) [0; S n]); [intros []|].
  destruct a as [|x a]; [congruence|]. cbn [app tl]. rewrite removelast_last.
  cbn [app] in Hi, HL. inversion Hi as [|? ? H1 H2]; subst. apply incr_app in H1 as [H1 [_ H3]].
  apply Forall_app in H2 as [H2 _]. rewrite Forall_forall in H2.
  intros Hin. apply in_map_iff in Hin as [y [<- Hy]].
  assert (Hr : 1 <= y <= n). { specialize (H2 y Hy). specialize (H3 y (S n) Hy (or_introl eq_refl)). lia. }
  rewrite Forall_forall in HL. apply HL; [|exact Hr]. right. apply in_app_iff. left; exact Hy.
Qed.

Lemma qsum_perm l l' : Permutation l l' -> (rsum l = rsum l')%R.
Proof.
  induction 1 as [|x l l' _ IH|x y l|l l' l'' _ IH1 _ IH2]; cbn [rsum fold_right]; fold rsum.
  - reflexivity.
  - unfold rsum in IH. cbn [fold_right]. rewrite IH. reflexivity.
  - lra.
  - rewrite IH1. exact IH2.
Qed.

(** Cost of a path through the states [mid]. *)
Lemma mid_cost : forall mid u, u < S n -> incr (u :: mid ++ [S n]) ->
  (path_cost G (u :: mid ++ [S n]) =
   rsum (map (fun x => fin_val (entry c (nth (x - 1) si 0%nat))) mid) + eps)%R.
Proof.
  induction mid as [|v mid IH]; intros u Hu Hi.
  - cbn [app map]. change (path_cost G [u; S n]) with (fin_val (G u (S n)) + 0)%R.
    rewrite G_sink by lia. cbn [fin_val]. unfold rsum. cbn [fold_right]. lra.
  - cbn [app map]. change (path_cost G (u :: v :: mid ++ [S n])) with (fin_val (G u v) + path_cost G (v :: mid ++ [S n]))%R.
    inversion Hi as [|? ? H1 H2]; subst. cbn [app] in H1. inversion H2; subst.
    assert (Hv : v < S n). { inversion H1 as [|? ? _ Hf]; subst. apply Forall_app in Hf as [_ Hf]. inversion Hf; assumption. }
    rewrite IH by assumption. rewrite G_state by lia. unfold rsum. cbn [fold_right]. lra.
Qed.
Lemma mid_links mid u : u < S n -> incr (u :: mid ++ [S n]) ->
  Forall (fun x => exists q, entry c (nth (x - 1) si 0) = Fin q /\ ~ (q = 0)%R) mid ->
  path_links G (u :: mid ++ [S n]).
Proof.
  revert u. induction mid as [|v mid IH]; intros u Hu Hi Hf.
  - cbn [app]. split; [|exact I]. exists eps. split; [apply G_sink; lia|]. unfold eps. intros E. lra.
  - inversion Hi as [|? ? H1 H2]; subst. cbn [app] in H1, H2 |- *. inversion H2; subst.
    assert (Hv : v < S n). { inversion H1 as [|? ? _ Hf']; subst. apply Forall_app in Hf' as [_ Hf']. inversion Hf'; assumption. }
    inversion Hf as [|? ? Hfv Hf']; subst.
    split; [|apply IH; assumption]. destruct Hfv as [q [Eq Hq]]. exists q. split; [|exact Hq]. rewrite G_state by lia. exact Eq.
Qed.

(** The path of a subset: its non-zero states in sorted order. *)
Definition nzs (i : nat) : bool := match entry c i with Fin q => negb (Reqb q 0) | Inf => false end.
Definition mid_of (s : list nat) : list nat :=
  filter (fun v => existsb (Nat.eqb (nth (v - 1) si 0)) s && nzs (nth (v - 1) si 0)) (seq 1 n).
Lemma seq_incr : forall len k, incr (seq k len).
Proof.
  induction len as [|len IH]; intros k; cbn [seq]; constructor; [apply IH|].
  apply Forall_forall. intros x Hx. apply in_seq in Hx. lia.
Qed.
Lemma filter_incr f l : incr l -> incr (filter f l).
Proof.
  induction 1 as [|x l H1 IH H2]; cbn [filter]; [constructor|]. destruct (f x); [|exact IH]. constructor; [exact IH|].
  rewrite Forall_forall in *. intros y Hy. apply filter_In in Hy as [Hy _]. auto.
Qed.
Lemma mid_of_path s : available c s -> subset c s ->
  is_path N G 0 (S n) (0 :: mid_of s ++ [S n]) /\ (path_cost G (0%nat :: mid_of s ++ [S n]) = total c s + eps)%R.
Proof.
  intros Hav [Hnd Hr].
  assert (Hin : forall v, In v (mid_of s) -> 1 <= v <= n /\ In (nth (v - 1) si 0) s /\ nzs (nth (v - 1) si 0) = true).
  { intros v Hv. apply filter_In in Hv as [Hv Hb]. apply in_seq in Hv. apply andb_true_iff in Hb as [Hb Hz].
    apply existsb_exists in Hb as [x [Hx Ex]]. apply Nat.eqb_eq in Ex. subst x. split; [lia|]. auto. }
  assert (Hi : incr (0 :: mid_of s ++ [S n])).
  { constructor.
    - apply incr_app. split; [apply filter_incr, seq_incr|]. split; [repeat constructor|].
      intros x y Hx [<-|[]]. apply Hin in Hx. lia.
    - apply Forall_app. split; [|apply Forall_cons; [lia|apply Forall_nil]]. apply Forall_forall. intros x Hx. apply Hin in Hx. lia. }
  split.
  - split; [|split; [|split]].
    + constructor; [unfold N; lia|]. apply Forall_app. split; [|repeat constructor; unfold N; lia].
      apply Forall_forall. intros x Hx. apply Hin in Hx. unfold N. lia.
    + apply mid_links; [lia|exact Hi|]. apply Forall_forall. intros x Hx. apply Hin in Hx as [_ [_ Hz]].
      unfold nzs in Hz. destruct (entry c (nth (x - 1) si 0)) as [q|]; [|discriminate]. exists q. split; [reflexivity|].
      apply negb_true_iff, Reqb_neq in Hz. exact Hz.
    + reflexivity.
    + cbn [rev]. rewrite rev_app_distr. reflexivity.
  - rewrite mid_cost by (auto; lia). apply f_equal2; [|reflexivity].
    transitivity (total c (filter nzs s)).
    + unfold total. rewrite <- (map_map (fun x => nth (x - 1) si 0) (fun i => fin_val (entry c i))).
      apply qsum_perm, Permutation_map. apply NoDup_Permutation.
      * assert (Hm : incr (mid_of s)) by (apply filter_incr, seq_incr). apply incr_NoDup in Hm.
        clear - Hm Hin Hsi. pose proof si_NoDup as Hsn. pose proof si_len as Hl.
        induction (mid_of s) as [|y l IH]; cbn [map]; [constructor|]. inversion Hm; subst. constructor.
        -- intros Hx. apply in_map_iff in Hx as [z [Ez Hz]].
           destruct (Hin y (or_introl eq_refl)) as [Hy _]. destruct (Hin z (or_intror Hz)) as [Hz' _].
           pose proof (proj1 (NoDup_nth si 0) Hsn (z - 1) (y - 1) ltac:(lia) ltac:(lia) Ez). assert (z = y) by lia. subst. contradiction.
        -- apply IH; [|assumption]. intros v Hv. apply Hin. right; exact Hv.
      * apply NoDup_filter, Hnd.
      * intros i. rewrite filter_In, in_map_iff. split.
        -- intros [x [<- Hx]]. destruct (Hin x Hx) as [_ H]. exact H.
        -- intros [Hs Hz]. rewrite Forall_forall in Hr. specialize (Hr i Hs).
           assert (Hisi : In i si). { eapply Permutation_in; [symmetry; exact Hsi|]. apply in_seq. unfold n in *. lia. }
           apply In_nth with (d := 0) in Hisi as [j [Hj Ej]]. exists (S j). cbn [Nat.sub]. rewrite Nat.sub_0_r. split; [exact Ej|].
           apply filter_In. split; [apply in_seq; rewrite si_len in Hj; lia|]. cbn [Nat.sub]. rewrite Nat.sub_0_r, Ej, Hz, andb_true_r.
           apply existsb_exists. exists i. split; [exact Hs|apply Nat.eqb_refl].
    + unfold total. clear - Hav. induction s as [|i s IH]; [reflexivity|]. inversion Hav as [|? ? [q Eq] Hav']; subst.
      specialize (IH Hav'). cbn [filter map]. unfold nzs at 1. rewrite Eq.
      destruct (Reqb q 0) eqn:E; cbn [negb map]; unfold rsum in *; cbn [fold_right].
      * apply Reqb_eq in E. rewrite IH. cbn [fin_val]. lra.
      * rewrite IH, Eq. reflexivity.
Qed.

(** A path from source to sink, read back. *)
Lemma path_read p q : is_path N G 0 (S n) p -> incr p -> (path_cost G p = q)%R ->
  subset c (post p) /\ available c (post p) /\ (q = total c (post p) + eps)%R.
Proof.
  intros Hp Hi Hq. destruct (path_snoc_form _ _ _ _ _ Hp) as [a ->]. destruct (path_cons_form _ _ _ _ _ Hp) as [b Eb].
  destruct a as [|x mid]; [cbn [app] in Eb; inversion Eb|]. cbn [app] in *. inversion Eb; subst x.
  assert (Epost : post (0 :: mid ++ [S n]) = map (fun x => nth (x - 1) si 0) mid).
  { unfold post. destruct (list_eqb (0 :: mid ++ [S n]) [0; S n]) eqn:E.
    - apply list_eqb_eq in E. inversion E as [E']. destruct mid as [|y mid]; [reflexivity|].
      cbn [app] in E'. inversion E' as [[E1 E2]]. destruct mid; discriminate.
    - cbn [tl]. rewrite removelast_last. reflexivity. }
  rewrite Epost. rewrite mid_cost in Hq by (auto; lia). split; [|split].
  - rewrite <- Epost. apply good_post. split; [exact Hi|]. split; [exists (0 :: mid); split; [discriminate|reflexivity]|].
    destruct Hp as [Hf [Hl _]]. constructor; [intros ?; lia|]. eapply path_live; [apply restr_G|exact Hf|exact Hl].
  - apply Forall_map. apply Forall_forall. intros v Hv.
    destruct Hp as [Hf [Hl _]].
    assert (Hv' : exists u, link G u v).
    { apply in_split in Hv as [l1 [l2 ->]]. rewrite <- app_assoc in Hl. cbn [app] in Hl.
      change (0 :: l1 ++ v :: l2 ++ [S n]) with ((0 :: l1) ++ v :: l2 ++ [S n]) in Hl.
      apply path_links_app in Hl as [Hl _]. destruct (@exists_last _ (0 :: l1)) as [l0 [u E]]; [discriminate|].
      rewrite E, <- app_assoc in Hl. cbn [app] in Hl. apply path_links_app in Hl as [_ [Hl _]]. eauto. }
    destruct Hv' as [u [w [Ew Hw]]].
    inversion Hi as [|? ? J1 J2]; subst. apply incr_app in J1 as [_ [_ J3]]. specialize (J3 v (S n) Hv (or_introl eq_refl)).
    apply Forall_app in J2 as [J2 _]. rewrite Forall_forall in J2. specialize (J2 v Hv).
    unfold G, cost_pad in Ew. destruct (Nat.eqb_spec v (S n)); [lia|]. destruct (Nat.leb_spec 1 v); [|lia].
    destruct (Nat.leb_spec v n); [|lia]. cbn [andb] in Ew. destruct (u <? v); [|inversion Ew; subst; exfalso; apply Hw; reflexivity].
    rewrite lc_vec in Ew by lia. eauto.
  - unfold total. rewrite map_map. symmetry. exact Hq.
Qed.

Lemma k_shortest_ok k : 1 <= k -> exists path q paths costs,
  k_shortest si c k = Ok (post path :: map post paths, Fin q :: costs) /\
  good path /\ is_path N G 0 (S n) path /\ incr path /\ (path_cost G path = q)%R /\
  (forall l, is_path N G 0 (S n) l -> (q <= path_cost G l)%R) /\
  Forall good paths /\ length costs = length paths /\ S (length paths) <= k.
Proof.
  intros Hk. unfold k_shortest. destruct (Nat.eqb_spec k 0) as [|_]; [lia|].
  cbn zeta. fold n. fold lc. fold G. fold N. unfold k_helper.
  destruct (bfm_restr G 0 restr_G ltac:(unfold N; lia)) as [d [path [E H]]].
  destruct d as [q|].
  2:{ exfalso. destruct (bfm_spec N G 0 ltac:(unfold N; lia) (dag_no_negative_cycle _ _ G_link) G_scaled (S n)
        ltac:(unfold N; lia) ltac:(unfold N; lia)) as [d' [p' [E' K]]].
      rewrite E in E'. inversion E'; subst d' p'. destruct K as [_ K].
      destruct (mid_of_path []) as [M _]; [constructor|split; constructor|]. exact (K _ M). }
  destruct H as [Hp [Hi [Hq Hmin]]]. rewrite E. cbn [bind].
  destruct (path_cons_form _ _ _ _ _ Hp) as [b Eb].
  assert (Hg : good path).
  { split; [exact Hi|]. split.
    - destruct (path_snoc_form _ _ _ _ _ Hp) as [a Ea]. exists a. split; [|exact Ea].
      intros ->. rewrite Ea in Eb. cbn [app] in Eb. inversion Eb.
    - destruct Hp as [Hf [Hl _]]. rewrite Eb in Hf, Hl |- *. constructor; [intros ?; lia|].
      eapply path_live; [apply restr_G|exact Hf|exact Hl]. }
  destruct path as [|v0 path']; [discriminate|]. injection Eb as -> Eb'.
  destruct (k_loop_ok k k 0 {| kP := [(0 :: path', Fin q)]; kS := [0]; kX := [(0, Fin q)] |} [0 :: path'] [Fin q])
    as [sps [costs [EL [L1 [L2 L3]]]]].
  - simpl. lia.
  - constructor; cbn [kP kS kX].
    + constructor; [exact Hg|constructor].
    + constructor; [left; reflexivity|constructor].
    + constructor; [cbn [fst length]; lia|constructor].
  - constructor; [exact Hg|constructor].
  - simpl; lia.
  - reflexivity.
  - simpl; lia.
  - rewrite EL. cbn [bind app]. exists (0 :: path'), q, sps, costs. split; [reflexivity|].
    cbn [app length] in L3. auto 12.
Qed.
End K.
Lemma FOP_nth {A} (R : A -> A -> Prop) l : ForallOrdPairs R l -> forall i j a b,
  nth_error l i = Some a -> nth_error l j = Some b -> i < j -> R a b.
Proof.
  induction 1 as [|x l H1 H2 IH]; intros [|i] [|j] a b Ea Eb Hij; cbn in *; try discriminate; try lia.
  - inversion Ea; subst. rewrite Forall_forall in H1. apply nth_error_In in Eb. auto.
  - apply (IH i j); auto. lia.
Qed.
