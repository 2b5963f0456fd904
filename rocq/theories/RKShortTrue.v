(** Generated by mk_real.py from KShortTrue.v: the same over the real numbers. *)
(** What k_shortest's answers do satisfy (true variants of C13 and C14). *)
From Verif Require Import RBase RBfmModel RBfmSpec RBfmProofs RKShortModel RKShortSpec RKShortProofs.
From Coq Require Import Permutation Sorted.

Lemma incr_ext a : forall b, incr a -> incr b -> (forall x, In x a <-> In x b) -> a = b.
Proof.
  induction a as [|x a IH]; intros [|y b] Ha Hb H.
  - reflexivity.
  - exfalso. apply (proj2 (H y)). left; reflexivity.
  - exfalso. apply (proj1 (H x)). left; reflexivity.
  - inversion Ha as [|? ? A1 A2]; inversion Hb as [|? ? B1 B2]; subst. rewrite Forall_forall in A2, B2.
    assert (x = y).
    { destruct (proj1 (H x) (or_introl eq_refl)) as [E|E]; [auto|].
      destruct (proj2 (H y) (or_introl eq_refl)) as [E'|E']; [auto|].
      specialize (A2 _ E'). specialize (B2 _ E). lia. }
    subst y. f_equal. apply IH; auto. intros z. split; intros Hz.
    + destruct (proj1 (H z) (or_intror Hz)) as [E|E]; [|exact E]. subst z. specialize (A2 _ Hz). lia.
    + destruct (proj2 (H z) (or_intror Hz)) as [E|E]; [|exact E]. subst z. specialize (B2 _ Hz). lia.
Qed.

Lemma min_x_least X : forall x0 x, In x (x0 :: X) -> ext_le (snd (min_x x0 X)) (snd x).
Proof.
  assert (R : forall a, ext_le a a) by (intros [q|]; cbn; [lra|exact I]).
  assert (Tr : forall a b d, ext_le a b -> ext_le b d -> ext_le a d).
  { intros [a|] [b|] [d|]; cbn; try tauto. intros; lra. }
  unfold min_x. induction X as [|y X IH]; intros x0 x Hx; cbn [fold_left].
  - destruct Hx as [<-|[]]. apply R.
  - assert (Hxy : (egt (snd x0) (snd y) = true /\ ext_le (snd y) (snd x0)) \/
                  (egt (snd x0) (snd y) = false /\ ext_le (snd x0) (snd y))).
    { unfold egt. destruct (snd x0) as [a|], (snd y) as [b|]; cbn [ext_le]; try (right; split; [reflexivity|exact I]).
      - destruct (Rltb b a) eqn:E; [left|right]; (split; [reflexivity|]).
        + apply Rltb_lt in E. lra.
        + apply Rltb_ge in E. lra.
      - left. split; [reflexivity|exact I]. }
    destruct Hxy as [[E H]|[E H]]; rewrite E.
    + destruct Hx as [<-|[<-|Hx]].
      * eapply Tr; [apply IH; left; reflexivity|exact H].
      * apply IH. left; reflexivity.
      * apply IH. right; exact Hx.
    + destruct Hx as [<-|[<-|Hx]].
      * apply IH. left; reflexivity.
      * eapply Tr; [apply IH; left; reflexivity|exact H].
      * apply IH. right; exact Hx.
Qed.

Lemma ok_inj {A} (a b : A) : Ok a = Ok b -> a = b.
Proof. intros H. injection H as ->. reflexivity. Qed.

Section KT.
Variables (c : list ext) (si : list nat).
Hypothesis Hsc : vec_scaled c.
Hypothesis Hsi : Permutation si (seq 0 (length c)).
Notation n := (length c).
Notation G := (cost_pad (length c) (map (vec c) si)).
Notation N := (length c + 2).

Definition sc (x : nat) : R := fin_val (entry c (nth (x - 1) si 0)).
Definition sm (l : list nat) : R := rsum (map sc l).
Lemma sm_app a b : (sm (a ++ b) = sm a + sm b)%R.
Proof.
  unfold sm. rewrite map_app. induction (map sc a) as [|x l IH]; unfold rsum in *; cbn [app fold_right]; lra.
Qed.
Lemma sm_cons x l : sm (x :: l) = (sc x + sm l)%R.
Proof. reflexivity. Qed.

(** A restricted matrix gives its own paths the cost G gives them. *)
Lemma restr_eq T u v : restr c si T -> link T u v -> T u v = G u v.
Proof. intros H [w [E _]]. destruct (H u v) as [E'|E']; [congruence|exact E']. Qed.
Lemma restr_cost T : restr c si T -> forall p, path_links T p -> path_cost T p = path_cost G p.
Proof.
  intros H. induction p as [|u [|v p] IH]; intros L; [reflexivity|reflexivity|].
  destruct L as [L1 L2]. change (path_cost T (u :: v :: p)) with (fin_val (T u v) + path_cost T (v :: p))%R.
  change (path_cost G (u :: v :: p)) with (fin_val (G u v) + path_cost G (v :: p))%R.
  rewrite (restr_eq T u v H L1), (IH L2). reflexivity.
Qed.

Definition livek (x : nat) : Prop := 1 <= x <= n /\ exists q, entry c (nth (x - 1) si 0) = Fin q /\ ~ (q = 0)%R.

Lemma sub_cost_sm : forall l u, incr (u :: l) -> Forall livek l ->
  exists q, sub_cost G (u :: l) = Fin q /\ (q = sm l)%R.
Proof.
  induction l as [|v l IH]; intros u Hi Hf.
  - exists 0%R. split; reflexivity.
  - inversion Hi as [|? ? H1 H2]; subst. inversion H2; subst. inversion Hf as [|? ? [Hv [qv [Ev _]]] Hf']; subst.
    destruct (IH v H1 Hf') as [q [E Hq]].
    change (sub_cost G (u :: v :: l)) with (eadd (G u v) (sub_cost G (v :: l))).
    rewrite E, (G_state c si Hsi) by lia. rewrite Ev. cbn [eadd]. eexists. split; [reflexivity|].
    rewrite sm_cons. unfold sc. rewrite Ev. cbn [fin_val]. lra.
Qed.

(** Interior nodes of a good path. *)
Lemma good_form p : good c si p -> exists h mid, p = h :: mid ++ [S n] /\ h < S n /\ Forall livek mid /\ live c si h.
Proof.
  intros [Hi [[a [Ha ->]] HL]]. destruct a as [|h mid]; [congruence|]. exists h, mid. split; [reflexivity|].
  cbn [app] in Hi, HL. inversion Hi as [|? ? H1 H2]; subst. apply Forall_app in H2 as [H2 H3].
  inversion H3; subst. inversion HL as [|? ? L1 L2]; subst. split; [assumption|]. split; [|exact L1].
  apply incr_app in H1 as [_ [_ H1]]. apply Forall_app in L2 as [L2 _]. rewrite Forall_forall in *.
  intros x Hx. specialize (H2 x Hx). specialize (H1 x (S n) Hx (or_introl eq_refl)). split; [lia|]. apply L2; [exact Hx|lia].
Qed.

Lemma path_form T v l : restr c si T -> v < S n -> is_path N T v (S n) l ->
  exists mid, l = v :: mid ++ [S n] /\ incr l /\ Forall livek mid /\ (path_cost T l = sm mid + eps)%R.
Proof.
  intros HT Hv Hp. destruct (path_snoc_form _ _ _ _ _ Hp) as [a Ea]. destruct (path_cons_form _ _ _ _ _ Hp) as [b Eb].
  destruct Hp as [Hf [Hl _]].
  pose proof (dag_incr N T (restr_dag c si T HT) l Hf Hl) as Hi.
  destruct a as [|h mid]; [cbn [app] in Ea; rewrite Ea in Eb; injection Eb; intros; lia|].
  cbn [app] in Ea. rewrite Ea in Eb. injection Eb as -> Eb. exists mid. split; [exact Ea|]. split; [exact Hi|].
  split.
  - pose proof Hi as Hi'. rewrite Ea in Hi'. inversion Hi' as [|? ? H1 H2]; subst. apply incr_app in H1 as [_ [_ H1]].
    pose proof (path_live c si Hsi T HT _ v Hf Hl) as HL. apply Forall_app in HL as [HL _].
    apply Forall_app in H2 as [H2 _]. rewrite Forall_forall in *. intros x Hx.
    specialize (H2 x Hx). specialize (H1 x (S n) Hx (or_introl eq_refl)). split; [lia|]. apply HL; [exact Hx|lia].
  - rewrite (restr_cost T HT l Hl). rewrite Ea in Hi |- *. apply (mid_cost c si Hsi mid v Hv Hi).
Qed.

(** One deviation, in detail. *)
Lemma deviate_detail P_ sps st ind v : good c si P_ -> Forall (good c si) sps -> ind < length P_ - 1 ->
  nth_error P_ ind = Some v ->
  exists nxts, blocked_next P_ ind (P_ :: sps) = Ok nxts /\
  let T := block_links (block_nodes G (firstn (ind - 1) P_)) v nxts in
  (deviate N G (S n) P_ sps st ind = Ok st /\ (forall l, ~ is_path N T v (S n) l)) \/
  exists mid q, deviate N G (S n) P_ sps st ind =
      Ok {| kP := kP st ++ [(drop_last2 (firstn (S ind) P_) ++ v :: mid ++ [S n], Fin q)];
            kS := kS st ++ [v]; kX := kX st ++ [(length (kP st), Fin q)] |} /\
    is_path N T v (S n) (v :: mid ++ [S n]) /\ incr (v :: mid ++ [S n]) /\ Forall livek mid /\
    (q = sm (tl (firstn (S ind) P_)) + (sm mid + eps))%R /\
    forall l, is_path N T v (S n) l -> (q <= sm (tl (firstn (S ind) P_)) + path_cost G l)%R.
Proof.
  intros HP Hs Hind Ev. pose proof (good_nth c si P_ ind v HP Ev Hind) as Hv.
  destruct (blocked_next_ok c si P_ ind (P_ :: sps) v Ev ltac:(lia) (Forall_cons _ HP Hs)) as [nxts En].
  exists nxts. split; [exact En|]. intros T.
  assert (HT : restr c si T) by (apply block_restr, restr_G).
  destruct (bfm_spec N T v ltac:(lia) (dag_no_negative_cycle _ _ (restr_dag c si T HT)) (restr_scaled c si Hsc Hsi T HT) (S n)
     ltac:(lia) ltac:(lia)) as [d [path [E K]]].
  unfold deviate. rewrite Ev, En. cbn [bind]. fold T. rewrite E. cbn [bind].
  destruct d as [q|].
  2:{ left. destruct K as [-> K]. split; [reflexivity|exact K]. }
  right. destruct K as [K1 [K2 K3]]. destruct (path_form T v path HT Hv K1) as [mid [Em [Hi [Hm Hc]]]].
  destruct (good_form P_ HP) as [h [m [EP [Hh [Hlm _]]]]].
  assert (Hsub : exists l', firstn (S ind) P_ = h :: l' /\ incr (h :: l') /\ Forall livek l').
  { exists (firstn ind m). rewrite EP. cbn [firstn]. rewrite firstn_app.
    assert (length P_ = S (length m + 1)) by (rewrite EP; cbn [length]; rewrite app_length; reflexivity).
    replace (ind - length m) with 0 by lia. cbn [firstn]. rewrite app_nil_r. split; [reflexivity|].
    destruct HP as [HiP _]. rewrite EP in HiP. change (h :: m ++ [S n]) with ((h :: m) ++ [S n]) in HiP.
    apply incr_app in HiP as [HiP _]. rewrite <- (firstn_skipn ind m) in HiP. 
    change (h :: firstn ind m ++ skipn ind m) with ((h :: firstn ind m) ++ skipn ind m) in HiP.
    apply incr_app in HiP as [HiP _]. split; [exact HiP|].
    rewrite <- (firstn_skipn ind m) in Hlm. apply Forall_app in Hlm as [Hlm _]. exact Hlm. }
  destruct Hsub as [l' [El' [Hil' Hll']]]. destruct (sub_cost_sm l' h Hil' Hll') as [qs [Eqs Hqs]].
  exists mid, (qs + q)%R. rewrite Em. rewrite El'. cbn [tl]. rewrite Eqs. cbn [eadd].
  split; [reflexivity|]. rewrite Em in K1, Hi. split; [exact K1|]. split; [exact Hi|]. split; [exact Hm|].
  split.
  - rewrite Hqs. rewrite Em in *. rewrite <- Hc, <- K2. reflexivity.
  - intros l Hl. specialize (K3 l Hl). destruct Hl as [_ [Hl _]]. rewrite (restr_cost T HT l Hl) in K3. lra.
Qed.

(** Cost relation of a stored candidate: its reported cost is that of its
    states, possibly with one more. *)
Definition costrel (p : list nat) (e : ext) : Prop :=
  exists h mid q, p = h :: mid ++ [S n] /\ h < S n /\ incr p /\ Forall livek mid /\ e = Fin q /\
    ((q = sm mid + eps)%R \/ exists x, livek x /\ ~ In x mid /\ (q = sc x + sm mid + eps)%R).

Lemma deviate_costrel P_ sps st ind st' : good c si P_ -> Forall (good c si) sps -> ind < length P_ - 1 ->
  deviate N G (S n) P_ sps st ind = Ok st' ->
  Forall (fun pc => costrel (fst pc) (snd pc)) (kP st) ->
  Forall (fun pc => costrel (fst pc) (snd pc)) (kP st').
Proof.
  intros HP Hs Hind E HF. destruct (nth_error P_ ind) as [v|] eqn:Ev; [|apply nth_error_None in Ev; lia].
  pose proof (good_nth c si P_ ind v HP Ev Hind) as Hv.
  destruct (deviate_detail P_ sps st ind v HP Hs Hind Ev) as [nxts [_ H]]. cbn zeta in H.
  destruct H as [[E' _]|[mid [q [E' [_ [Hi [Hm [Hq _]]]]]]]]; rewrite E in E'; apply ok_inj in E'; subst st'; [exact HF|].
  cbn [kP]. apply Forall_app. split; [exact HF|]. constructor; [|constructor]. cbn [fst snd].
  destruct (good_form P_ HP) as [h [m [EP [Hh [Hlm _]]]]].
  pose proof HP as [HiP _].
  pose proof (nth_error_split_at P_ ind v Ev) as Esp.
  assert (Hlen : length (firstn ind P_) = ind) by (rewrite firstn_length; lia).
  assert (Efn : firstn (S ind) P_ = firstn ind P_ ++ [v]).
  { rewrite Esp at 1. rewrite firstn_app, Hlen. rewrite firstn_all2 by lia.
    replace (S ind - ind) with 1 by lia. reflexivity. }
  rewrite Efn in Hq |- *.
  remember (firstn ind P_) as pre eqn:Epre. clear Epre.
  assert (Hpin : forall x, In x pre -> x = h \/ (livek x /\ h < x)).
  { intros x Hx. assert (Hx' : In x P_) by (rewrite Esp; apply in_app_iff; left; exact Hx).
    assert (Hxv : x < v). { rewrite Esp in HiP. apply incr_app in HiP as [_ [_ HiP]]. apply HiP; [exact Hx|left; reflexivity]. }
    rewrite EP in Hx', HiP. destruct Hx' as [<-|Hx']; [left; reflexivity|right].
    inversion HiP as [|? ? _ HF2]; subst. rewrite Forall_forall in HF2. specialize (HF2 x Hx').
    apply in_app_iff in Hx' as [Hx'|[<-|[]]]; [|lia]. rewrite Forall_forall in Hlm. auto. }
  assert (Hvk : pre <> [] -> livek v).
  { intros Hne. destruct pre as [|x0 pre']; [congruence|]. cbn [app] in Esp. rewrite EP in Esp.
    injection Esp as <- Esp. assert (Hv' : In v (m ++ [S n])) by (rewrite Esp; apply in_app_iff; right; left; reflexivity).
    apply in_app_iff in Hv' as [Hv'|[<-|[]]]; [|lia]. rewrite Forall_forall in Hlm. auto. }
  assert (Hpv : forall x, In x pre -> x < v).
  { intros x Hx. rewrite Esp in HiP. apply incr_app in HiP as [_ [_ HiP]]. apply HiP; [exact Hx|left; reflexivity]. }
  assert (Hvm : forall x, In x mid -> v < x).
  { intros x Hx. inversion Hi as [|? ? _ HF2]; subst. rewrite Forall_forall in HF2. apply HF2, in_app_iff. left; exact Hx. }
  assert (Hpi : incr pre). { rewrite Esp in HiP. apply incr_app in HiP. apply HiP. }
  destruct (Nat.eq_dec (length pre) 0) as [H0|Hpre].
  - destruct pre; [|discriminate]. unfold drop_last2. cbn [app length Nat.sub firstn] in *. exists v, mid, q.
    split; [reflexivity|]. split; [exact Hv|]. split; [exact Hi|]. split; [exact Hm|]. split; [reflexivity|]. left.
    cbn [tl] in Hq. unfold sm at 1 in Hq. unfold rsum in Hq. cbn [map fold_right] in Hq. lra.
  - destruct (@exists_last _ pre) as [pre' [y Ey]]; [intros ->; cbn in Hpre; lia|]. subst pre.
    assert (Ed : drop_last2 ((pre' ++ [y]) ++ [v]) = pre').
    { unfold drop_last2. rewrite !app_length. cbn [length]. rewrite <- app_assoc.
      replace (length pre' + 1 + 1 - 2) with (length pre' + 0) by lia. rewrite firstn_app_2. cbn [firstn]. apply app_nil_r. }
    rewrite Ed. destruct pre' as [|h' l].
    + (* ind = 1: the new path starts at v; v is the state that is lost *)
      cbn [app] in *. exists v, mid, q. split; [reflexivity|]. split; [exact Hv|]. split; [exact Hi|]. split; [exact Hm|].
      split; [reflexivity|]. right. exists v. split; [apply Hvk; discriminate|]. split; [intros Hx; specialize (Hvm v Hx); lia|].
      cbn [tl] in Hq. change (sm [v]) with (sc v + 0)%R in Hq. lra.
    + assert (h' = h) as ->. { rewrite EP in Esp. cbn [app] in Esp. injection Esp as Esp _. congruence. }
      exists h, (l ++ v :: mid), q. cbn [app] in *.
      assert (Hil : incr (h :: l)). { change (h :: l ++ [y]) with ((h :: l) ++ [y]) in Hpi. apply incr_app in Hpi. apply Hpi. }
      assert (Hly : forall x, In x (h :: l) -> x < y).
      { change (h :: l ++ [y]) with ((h :: l) ++ [y]) in Hpi. apply incr_app in Hpi as [_ [_ Hpi]]. intros x Hx. apply Hpi; [exact Hx|left; reflexivity]. }
      split; [rewrite <- app_assoc; reflexivity|]. split; [exact Hh|]. split; [|split; [|split; [reflexivity|]]].
      * change (h :: l ++ v :: mid ++ [S n]) with ((h :: l) ++ v :: mid ++ [S n]). apply incr_app.
        split; [exact Hil|]. split; [exact Hi|]. intros a b Ha Hb. specialize (Hly a Ha).
        assert (y < v) by (apply Hpv; right; apply in_app_iff; right; left; reflexivity).
        destruct Hb as [<-|Hb]; [lia|]. inversion Hi as [|? ? _ HF2]; subst. rewrite Forall_forall in HF2. specialize (HF2 b Hb). lia.
      * apply Forall_app. split; [|constructor; [apply Hvk; discriminate|exact Hm]].
        apply Forall_forall. intros x Hx. destruct (Hpin x) as [->|[Hk _]]; [right; apply in_app_iff; left; exact Hx| |exact Hk].
        exfalso. inversion Hil as [|? ? _ HF2]; subst. rewrite Forall_forall in HF2. specialize (HF2 h Hx). lia.
      * right. exists y.
        assert (Hyv : y < v) by (apply Hpv; right; apply in_app_iff; right; left; reflexivity).
        split; [|split].
        -- destruct (Hpin y) as [->|[Hk _]]; [right; apply in_app_iff; right; left; reflexivity| |exact Hk].
           exfalso. specialize (Hly h (or_introl eq_refl)). lia.
        -- intros Hy. apply in_app_iff in Hy as [Hy|[Hy|Hy]]; [|lia|specialize (Hvm y Hy); lia].
           specialize (Hly y (or_intror Hy)). lia.
        -- cbn [tl] in Hq. rewrite !sm_app in Hq. rewrite sm_app, sm_cons.
           change (sm [y]) with (sc y + 0)%R in Hq. change (sm [v]) with (sc v + 0)%R in Hq. lra.
Qed.

Lemma deviate_all_costrel P_ sps : good c si P_ -> Forall (good c si) sps -> forall inds st st',
  Forall (fun i => i < length P_ - 1) inds ->
  deviate_all N G (S n) P_ sps st inds = Ok st' ->
  Forall (fun pc => costrel (fst pc) (snd pc)) (kP st) ->
  Forall (fun pc => costrel (fst pc) (snd pc)) (kP st').
Proof.
  intros HP Hs. induction inds as [|i inds IH]; intros st st' Hf E HF; cbn [deviate_all] in E; [congruence|].
  inversion Hf as [|? ? H1 H2]; subst. destruct (deviate N G (S n) P_ sps st i) as [st1|] eqn:E1; [|discriminate].
  cbn [bind] in E. eapply IH; [exact H2|exact E|]. eapply deviate_costrel; eauto.
Qed.

Lemma k_loop_costrel k : forall fuel cur st sps costs sps' costs', kinv c si st -> Forall (good c si) sps ->
  Forall (fun pc => costrel (fst pc) (snd pc)) (kP st) -> Forall2 costrel sps costs ->
  k_loop N G (S n) fuel k cur st sps costs = Ok (sps', costs') -> Forall2 costrel sps' costs'.
Proof.
  induction fuel as [|f IH]; intros cur st sps costs sps' costs' I Hg HF H2 E; cbn [k_loop] in E.
  - destruct (negb (length sps <? k) || (length (kX st) =? 0)); [|discriminate]. injection E as <- <-. exact H2.
  - destruct (negb (length sps <? k) || (length (kX st) =? 0)); [injection E as <- <-; exact H2|].
    cbn [kP kS] in E. destruct (nth_error (kP st) cur) as [[P_ cP]|] eqn:EP; [|discriminate].
    destruct (nth_error (kS st) cur) as [w|] eqn:ES; [|discriminate].
    destruct (last_pos w P_) as [wi|] eqn:Ew; [|discriminate].
    assert (HP : good c si P_).
    { pose proof (ki_good c si st I) as HG. rewrite Forall_forall in HG. apply nth_error_In in EP. apply (HG _ EP). }
    set (st1 := {| kP := kP st; kS := kS st; kX := del_x cur (kX st) |}) in E.
    assert (I1 : kinv c si st1).
    { constructor; [apply I|apply I|]. cbn [kX kP st1]. pose proof (ki_X c si st I) as HX. rewrite Forall_forall in *.
      intros x Hx. apply HX. eapply del_x_incl; eauto. }
    assert (Hfi : Forall (fun i => i < length P_ - 1) (seq wi (length P_ - 1 - wi))).
    { apply Forall_forall. intros i Hi. apply in_seq in Hi. lia. }
    destruct (deviate_all_ok c si Hsc Hsi P_ sps HP Hg (seq wi (length P_ - 1 - wi)) st1 I1 Hfi) as [st2 [E2 [I2 [e X2]]]].
    pose proof (deviate_all_costrel P_ sps HP Hg _ st1 st2 Hfi E2 HF) as HF2.
    rewrite E2 in E. cbn [bind] in E.
    destruct (kX st2) as [|x0 X'] eqn:EX2; [eapply IH; eauto|].
    destruct (nth_error (kP st2) (fst (min_x x0 X'))) as [[p cc]|] eqn:Ep; [|discriminate].
    apply nth_error_In in Ep. eapply IH; [exact I2| |exact HF2| |exact E].
    + apply Forall_app. split; [exact Hg|]. constructor; [|constructor].
      pose proof (ki_good c si st2 I2) as HG. rewrite Forall_forall in HG. apply (HG _ Ep).
    + apply Forall2_app; [exact H2|]. constructor; [|constructor]. rewrite Forall_forall in HF2. apply (HF2 _ Ep).
Qed.

Lemma post_mid h mid : post c si (h :: mid ++ [S n]) = map (fun x => nth (x - 1) si 0) mid.
Proof.
  unfold post. destruct (list_eqb (h :: mid ++ [S n]) [0; S n]) eqn:E.
  - apply list_eqb_eq in E. injection E as _ E'. destruct mid as [|y mid]; [reflexivity|].
    cbn [app] in E'. injection E' as _ E'. destruct mid; discriminate.
  - cbn [tl]. rewrite removelast_last. reflexivity.
Qed.
Lemma si_inj x y : livek x -> livek y -> nth (x - 1) si 0 = nth (y - 1) si 0 -> x = y.
Proof.
  intros [Hx _] [Hy _] E. pose proof (si_len c si Hsi) as Hl. pose proof (si_NoDup c si Hsi) as Hnd.
  pose proof (proj1 (NoDup_nth si 0) Hnd (x - 1) (y - 1) ltac:(lia) ltac:(lia) E). lia.
Qed.
Lemma total_sm mid : (total c (map (fun x => nth (x - 1) si 0%nat) mid) = sm mid)%R.
Proof. unfold total, sm. rewrite map_map. reflexivity. Qed.
Lemma mid_avail mid : Forall livek mid -> available c (map (fun x => nth (x - 1) si 0) mid).
Proof. intros H. apply Forall_map. eapply Forall_impl; [|exact H]. intros x [_ [q [E _]]]. cbn beta. eauto. Qed.
Lemma mid_nonzero mid : Forall livek mid ->
  Forall (fun i => exists q, entry c i = Fin q /\ ~ (q = 0)%R) (map (fun x => nth (x - 1) si 0) mid).
Proof. intros H. apply Forall_map. eapply Forall_impl; [|exact H]. intros x [_ H']. exact H'. Qed.
Lemma mid_subset mid : NoDup mid -> Forall livek mid -> subset c (map (fun x => nth (x - 1) si 0) mid).
Proof.
  intros Hnd HF. split.
  - induction mid as [|y mid IH]; cbn [map]; [constructor|]. inversion Hnd; subst. inversion HF; subst. constructor; [|auto].
    intros Hin. apply in_map_iff in Hin as [z [Ez Hz]]. rewrite Forall_forall in *. apply si_inj in Ez; [subst; contradiction|auto|assumption].
  - apply Forall_map. eapply Forall_impl; [|exact HF]. intros x [Hx _]. apply (si_nth_lt c si Hsi). lia.
Qed.

Lemma costrel_read p e : costrel p e -> exists q s, e = Fin q /\ subset c s /\ available c s /\
  (q = total c s + eps)%R /\ (s = post c si p \/ exists x, s = x :: post c si p).
Proof.
  intros [h [mid [q [-> [Hh [Hi [HF [-> H]]]]]]]]. rewrite post_mid. exists q.
  assert (Hnd : NoDup mid).
  { change (h :: mid ++ [S n]) with ([h] ++ mid ++ [S n]) in Hi. apply incr_app in Hi as [_ [Hi _]].
    apply incr_app in Hi as [Hi _]. apply incr_NoDup, Hi. }
  destruct H as [H|[x [Hx [Hn H]]]].
  - exists (map (fun x => nth (x - 1) si 0) mid). split; [reflexivity|]. split; [apply mid_subset; assumption|].
    split; [apply mid_avail, HF|]. split; [rewrite total_sm; exact H|left; reflexivity].
  - exists (map (fun x => nth (x - 1) si 0) (x :: mid)). split; [reflexivity|].
    assert (HF' : Forall livek (x :: mid)) by (constructor; assumption).
    split; [apply mid_subset; [constructor; assumption|exact HF']|]. split; [apply mid_avail, HF'|].
    split; [rewrite total_sm, sm_cons; exact H|right; eexists; reflexivity].
Qed.

(** * The first round *)
Section First.
Variables (P1 : list nat) (q1 : R).
Hypothesis HP1 : is_path N G 0 (S n) P1.
Lemma g : good c si P1.
Proof.
  destruct (path_form G 0 P1 (restr_G c si) ltac:(lia) HP1) as [mid [E [Hi [HF _]]]].
  split; [exact Hi|]. split; [exists (0 :: mid); split; [discriminate|exact E]|].
  rewrite E. constructor; [intros ?; lia|]. apply Forall_app. split.
  - eapply Forall_impl; [|exact HF]. intros x [_ H] _. exact H.
  - constructor; [intros ?; lia|constructor].
Qed.

(** l leaves P1 at position i. *)
Definition dev_at (i : nat) (l : list nat) : Prop :=
  firstn (S i) l = firstn (S i) P1 /\ nth_error l (S i) <> nth_error P1 (S i).
Lemma dev_exists l : is_path N G 0 (S n) l -> l <> P1 -> exists i, i < length P1 - 1 /\ dev_at i l.
Proof.
  intros Hl Hne. destruct (path_form G 0 l (restr_G c si) ltac:(lia) Hl) as [m [El [Hil [Hm _]]]].
  destruct (path_form G 0 P1 (restr_G c si) ltac:(lia) HP1) as [m1 [E1 [Hi1 [Hm1 _]]]].
  unfold dev_at. subst l. rewrite E1 in *. clear HP1 Hl E1.
  assert (K : forall a b : list nat, a <> b -> Forall livek a -> Forall livek b -> exists i, i < S (length b) /\
     firstn i (a ++ [S n]) = firstn i (b ++ [S n]) /\ nth_error (a ++ [S n]) i <> nth_error (b ++ [S n]) i).
  { induction a as [|x a IH]; intros [|y b] H HA HB.
    - congruence.
    - exists 0. split; [lia|]. split; [reflexivity|]. cbn. inversion HB as [|? ? [? _] _]; subst. intros E. injection E as E. lia.
    - exists 0. split; [lia|]. split; [reflexivity|]. cbn. inversion HA as [|? ? [? _] _]; subst. intros E. injection E as E. lia.
    - destruct (Nat.eq_dec x y) as [->|Hxy].
      + inversion HA; inversion HB; subst. destruct (IH b) as [i [Ki1 [Ki2 Ki3]]]; [congruence|assumption|assumption|].
        exists (S i). cbn [app firstn nth_error length]. split; [lia|]. split; [congruence|exact Ki3].
      + exists 0. split; [cbn; lia|]. split; [reflexivity|]. cbn. congruence. }
  destruct (K m m1) as [i [K1 [K2 K3]]]; [congruence|assumption|assumption|].
  exists i. cbn [firstn nth_error length]. rewrite app_length. cbn [length]. split; [lia|]. split; [congruence|exact K3].
Qed.

Lemma first_blocked i v : i < length P1 - 1 -> nth_error P1 i = Some v ->
  exists y, nth_error P1 (S i) = Some y /\ blocked_next P1 i [P1; P1] = Ok [y; y].
Proof.
  intros Hi Ev. destruct (nth_error P1 (S i)) as [y|] eqn:Ey; [|apply nth_error_None in Ey; lia]. exists y. split; [reflexivity|].
  cbn [blocked_next]. destruct (Nat.ltb_spec i (length P1)); [|lia]. cbn [andb].
  rewrite (proj2 (list_eqb_eq _ _) eq_refl), Ey. reflexivity.
Qed.

Lemma block_path (T : nat -> nat -> ext) vs l : (forall x, In x l -> ~ In x vs) -> path_links T l -> path_links (block_nodes T vs) l.
Proof.
  clear. intros H. induction l as [|a [|b l] IH]; intros L; [exact Logic.I|exact Logic.I|]. destruct L as [[w [Ew Hw]] L2].
  split; [|apply IH; [intros x Hx; apply H; right; exact Hx|exact L2]].
  exists w. split; [|exact Hw]. unfold block_nodes.
  assert (Hb : forall x, In x (a :: b :: l) -> existsb (Nat.eqb x) vs = false).
  { intros x Hx. destruct (existsb (Nat.eqb x) vs) eqn:E; [|reflexivity]. apply existsb_exists in E as [z [Hz Ez]].
    apply Nat.eqb_eq in Ez. subst z. exfalso. eapply H; eauto. }
  rewrite (Hb a), (Hb b) by (cbn [In]; auto). exact Ew.
Qed.
Lemma block_link_path (T : nat -> nat -> ext) v ys a l : path_links T (v :: a :: l) -> ~ In a ys -> ~ In v (a :: l) ->
  path_links (block_links T v ys) (v :: a :: l).
Proof.
  clear. intros [[w [Ew Hw]] L] Ha Hv. split.
  - exists w. split; [|exact Hw]. unfold block_links. rewrite Nat.eqb_refl. cbn [andb].
    destruct (existsb (Nat.eqb a) ys) eqn:E; [|exact Ew]. apply existsb_exists in E as [z [Hz Ez]].
    apply Nat.eqb_eq in Ez. subst z. contradiction.
  - clear Ew Ha. revert a L Hv. induction l as [|b l IH]; intros a L Hv; [exact I|]. destruct L as [[w' [Ew Hw']] L].
    split; [|apply IH; [exact L|intros Hx; apply Hv; right; exact Hx]]. exists w'. split; [|exact Hw'].
    unfold block_links. destruct (Nat.eqb_spec a v) as [->|]; [exfalso; apply Hv; left; reflexivity|exact Ew].
Qed.

(** Splitting a source-sink path at one of its nodes. *)
Lemma split_cost l i v : is_path N G 0 (S n) l -> nth_error l i = Some v -> v < S n ->
  (path_cost G l = sm (tl (firstn (S i) l)) + path_cost G (v :: skipn (S i) l))%R /\
  is_path N G v (S n) (v :: skipn (S i) l) /\ incr (v :: skipn (S i) l) /\
  forall x, In x (firstn i l) -> x < v.
Proof.
  intros Hl Ev Hv. destruct (path_form G 0 l (restr_G c si) ltac:(lia) Hl) as [m [El [Hil [Hm Hc]]]].
  pose proof (nth_error_split_at l i v Ev) as Esp.
  assert (Hlen : length (firstn i l) = i). { rewrite firstn_length. assert (i < length l) by (apply nth_error_Some; congruence). lia. }
  assert (Efn : firstn (S i) l = firstn i l ++ [v]).
  { rewrite Esp at 1. rewrite firstn_app, Hlen. rewrite firstn_all2 by lia.
    replace (S i - i) with 1 by lia. reflexivity. }
  assert (Hpath : is_path N G v (S n) (v :: skipn (S i) l)).
  { destruct Hl as [Hf [HL [_ Hd]]]. rewrite Esp in Hf, HL, Hd. apply Forall_app in Hf as [_ Hf].
    apply path_links_app in HL as [_ HL]. split; [exact Hf|]. split; [exact HL|]. split; [reflexivity|].
    rewrite rev_app_distr in Hd. destruct (rev (v :: skipn (S i) l)) as [|z zs] eqn:Er.
    - apply (f_equal (@length nat)) in Er. rewrite rev_length in Er. discriminate.
    - cbn [app hd_error] in Hd |- *. exact Hd. }
  pose proof Hil as Hil'. rewrite Esp in Hil'. apply incr_app in Hil' as [_ [Hi2 Hi3]].
  split; [|split; [exact Hpath|split; [exact Hi2|intros x Hx; apply Hi3; [exact Hx|left; reflexivity]]]].
  destruct (path_form G v _ (restr_G c si) Hv Hpath) as [m2 [E2 [_ [_ Hc2]]]].
  rewrite Hc, Hc2, Efn. assert (E3 : skipn (S i) l = m2 ++ [S n]) by congruence. rewrite E3 in Esp.
  destruct (firstn i l) as [|h pre].
  - cbn [app tl]. rewrite El in Esp. injection Esp as _ Esp. apply app_inv_tail in Esp. subst m2. change (sm []) with 0%R. lra.
  - cbn [app tl]. rewrite El in Esp. injection Esp as _ Esp.
    assert (m = pre ++ v :: m2) as ->. { apply (app_inv_tail [S n]). rewrite Esp, <- app_assoc. reflexivity. }
    rewrite !sm_app, sm_cons. change (sm [v]) with (sc v + 0)%R. lra.
Qed.

Definition genuine (l : list nat) : Prop := is_path N G 0 (S n) l /\ l <> P1.
Definition finv (st : kst) : Prop :=
  Forall (fun x => exists p q l, nth_error (kP st) (fst x) = Some (p, Fin q) /\ snd x = Fin q /\
            genuine l /\ (q = path_cost G l)%R /\
            exists i v mid, i < length P1 - 1 /\ nth_error P1 i = Some v /\
              l = firstn i P1 ++ v :: mid ++ [S n] /\ p = drop_last2 (firstn (S i) P1) ++ v :: mid ++ [S n]) (kX st).

Lemma first_dev st i : finv st -> i < length P1 - 1 ->
  exists st', deviate N G (S n) P1 [P1] st i = Ok st' /\ finv st' /\ incl (kX st) (kX st') /\
    forall l, genuine l -> dev_at i l -> exists x q, In x (kX st') /\ snd x = Fin q /\ (q <= path_cost G l)%R.
Proof.
  intros I Hi. destruct (nth_error P1 i) as [v|] eqn:Ev; [|apply nth_error_None in Ev; lia].
  pose proof (good_nth c si P1 i v g Ev Hi) as Hv.
  destruct (first_blocked i v Hi Ev) as [y [Ey Eb]].
  destruct (deviate_detail P1 [P1] st i v g (Forall_cons _ g (Forall_nil _)) Hi Ev) as [nxts [En H]].
  rewrite Eb in En. injection En as <-. cbn zeta in H.
  set (T := block_links (block_nodes G (firstn (i - 1) P1)) v [y; y]) in *.
  destruct (split_cost P1 i v HP1 Ev Hv) as [_ [_ [_ Hpre]]].
  (* a path leaving P1 here is a path of T *)
  assert (HT : forall l, genuine l -> dev_at i l -> is_path N T v (S n) (v :: skipn (S i) l) /\
     (path_cost G l = sm (tl (firstn (S i) P1)) + path_cost G (v :: skipn (S i) l))%R).
  { intros l [Hl _] [D1 D2].
    assert (Evl : nth_error l i = Some v).
    { rewrite <- Ev. rewrite <- (firstn_skipn (S i) l), <- (firstn_skipn (S i) P1), D1.
      assert (i < length P1) by lia. rewrite !nth_error_app1; [reflexivity| |]; rewrite firstn_length; lia. }
    destruct (split_cost l i v Hl Evl Hv) as [C1 [C2 [C3 C4]]]. rewrite D1 in C1. split; [|exact C1].
    destruct C2 as [F [L [H1 H2]]]. split; [exact F|]. split; [|split; assumption].
    destruct (skipn (S i) l) as [|a rest] eqn:Es; [exact Logic.I|].
    unfold T. apply block_link_path.
    - apply block_path; [|exact L]. intros x Hx Hin.
      assert (x < v).
      { apply Hpre. rewrite <- (firstn_skipn (i - 1) (firstn i P1)). apply in_app_iff. left.
        rewrite firstn_firstn. replace (Nat.min (i - 1) i) with (i - 1) by lia. exact Hin. }
      destruct Hx as [<-|Hx]; [lia|]. inversion C3 as [|? ? _ HF]; subst. rewrite Forall_forall in HF. specialize (HF x Hx). lia.
    - intros Hin. apply D2. rewrite Ey. rewrite <- (firstn_skipn (S i) l), Es.
      rewrite nth_error_app2 by (rewrite firstn_length; lia).
      assert (i < length l) by (apply nth_error_Some; congruence).
      rewrite firstn_length. replace (S i - Nat.min (S i) (length l)) with 0 by lia. cbn [nth_error].
      f_equal. destruct Hin as [E|[E|[]]]; auto.
    - intros Hx. inversion C3 as [|? ? _ HF]; subst. rewrite Forall_forall in HF. specialize (HF v Hx). lia. }
  destruct H as [[E Hno]|[mid [q [E [Hp [Hinc [Hm [Hq Hmin]]]]]]]].
  - exists st. split; [exact E|]. split; [exact I|]. split; [apply incl_refl|].
    intros l Hl Hd. exfalso. destruct (HT l Hl Hd) as [Hp _]. exact (Hno _ Hp).
  - eexists. split; [exact E|]. split; [|split].
    + unfold finv in *. cbn [kP kX]. apply Forall_app. split.
      * eapply Forall_impl; [|exact I]. intros x [p [q' [l [X1 X2]]]]. exists p, q', l. split; [|exact X2].
        rewrite nth_error_app1; [exact X1|]. apply nth_error_Some. congruence.
      * constructor; [|constructor]. cbn [fst snd]. eexists _, q, (firstn i P1 ++ v :: mid ++ [S n]).
        split; [rewrite nth_error_app2, Nat.sub_diag by lia; reflexivity|]. split; [reflexivity|].
        pose proof (nth_error_split_at P1 i v Ev) as Esp.
        assert (Hlen : length (firstn i P1) = i) by (rewrite firstn_length; lia).
        assert (Hpl : path_links G (v :: mid ++ [S n])).
        { destruct Hp as [_ [Hp _]]. clear - Hp. assert (HR : restr c si T) by (apply block_restr, restr_G).
          revert Hp. generalize (v :: mid ++ [S n]). induction l as [|a [|b l] IH]; intros L; [exact Logic.I|exact Logic.I|].
          destruct L as [L1 L2]. split; [eapply restr_link; eauto|apply IH, L2]. }
        assert (Hlp : is_path N G 0 (S n) (firstn i P1 ++ v :: mid ++ [S n])).
        { destruct HP1 as [F [L [H0 _]]]. rewrite Esp in F, L, H0. apply Forall_app in F as [F1 F2].
          apply path_links_app in L as [L1 _]. split; [|split; [|split]].
          - apply Forall_app. split; [exact F1|]. apply Hp.
          - apply path_links_app. split; assumption.
          - destruct (firstn i P1); exact H0.
          - change (v :: mid ++ [S n]) with ((v :: mid) ++ [S n]). rewrite app_assoc, rev_app_distr. reflexivity. }
        split; [split; [exact Hlp|]|].
        -- intros Eq. destruct Hp as [_ [Hp _]].
           assert (Hn : nth_error (v :: mid ++ [S n]) 1 = Some y).
           { rewrite <- Ey. rewrite <- Eq at 1. rewrite nth_error_app2 by lia. rewrite Hlen. replace (S i - i) with 1 by lia. reflexivity. }
           cbn [nth_error] in Hn. destruct (mid ++ [S n]) as [|a rest]; [discriminate|]. injection Hn as ->.
           destruct Hp as [[w [Ew _]] _]. unfold T, block_links in Ew. rewrite Nat.eqb_refl in Ew. cbn [andb existsb] in Ew.
           rewrite Nat.eqb_refl in Ew. discriminate.
        -- assert (Evn : nth_error (firstn i P1 ++ v :: mid ++ [S n]) i = Some v).
           { rewrite nth_error_app2 by lia. rewrite Hlen, Nat.sub_diag. reflexivity. }
           destruct (split_cost _ i v Hlp Evn Hv) as [C1 _]. rewrite C1.
           assert (E1 : firstn (S i) (firstn i P1 ++ v :: mid ++ [S n]) = firstn (S i) P1).
           { rewrite firstn_app, Hlen. rewrite firstn_all2 by lia. replace (S i - i) with 1 by lia.
             rewrite Esp at 2. rewrite firstn_app, Hlen. rewrite (firstn_all2 (n := S i) (firstn i P1)) by lia.
             replace (S i - i) with 1 by lia. reflexivity. }
           rewrite E1. assert (E2 : skipn (S i) (firstn i P1 ++ v :: mid ++ [S n]) = mid ++ [S n]).
           { rewrite skipn_app, Hlen. rewrite skipn_all2 by lia. replace (S i - i) with 1 by lia. reflexivity. }
           rewrite E2, (mid_cost c si Hsi mid v Hv Hinc). split; [exact Hq|].
           exists i, v, mid. split; [exact Hi|]. split; [exact Ev|]. split; reflexivity.
    + cbn [kX]. apply incl_appl, incl_refl.
    + intros l Hl Hd. cbn [kX]. destruct (HT l Hl Hd) as [Hp' Hc]. exists (length (kP st), Fin q), q.
      split; [apply in_app_iff; right; left; reflexivity|]. split; [reflexivity|]. rewrite Hc. apply Hmin, Hp'.
Qed.

Lemma first_all : forall inds st, finv st -> Forall (fun i => i < length P1 - 1) inds ->
  exists st', deviate_all N G (S n) P1 [P1] st inds = Ok st' /\ finv st' /\ incl (kX st) (kX st') /\
    forall i l, In i inds -> genuine l -> dev_at i l -> exists x q, In x (kX st') /\ snd x = Fin q /\ (q <= path_cost G l)%R.
Proof.
  induction inds as [|i inds IH]; intros st I Hf; cbn [deviate_all].
  - exists st. split; [reflexivity|]. split; [exact I|]. split; [apply incl_refl|]. intros i l [].
  - inversion Hf as [|? ? H1 H2]; subst. destruct (first_dev st i I H1) as [st1 [E1 [I1 [X1 M1]]]].
    rewrite E1. cbn [bind]. destruct (IH st1 I1 H2) as [st2 [E2 [I2 [X2 M2]]]]. exists st2. split; [exact E2|].
    split; [exact I2|]. split; [eapply incl_tran; eassumption|]. intros j l [<-|Hj] Hl Hd; [|eauto].
    destruct (M1 l Hl Hd) as [x [q [Y1 Y2]]]. exists x, q. split; [apply X2, Y1|exact Y2].
Qed.
End First.
End KT.
