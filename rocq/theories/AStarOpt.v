(** How far from shortest the path of a_star_search can be. *)
From Verif Require Import Base AStarModel AStarSpec AStarProofs AStarReal.
From Coq Require Import Reals Lra Qreals.
Open Scope R_scope.

Definition fval (n : node) : R := Q2R (nd_g n) + sqrt (IZR (nd_h2 n)).
Lemma f_lt_fval x y : (0 <= nd_h2 x)%Z -> (0 <= nd_h2 y)%Z -> f_lt x y = true <-> fval x < fval y.
Proof. apply sum_sqrt_lt_spec. Qed.
(** The selected node has the smallest f. *)
Lemma select_min l : forall i best, (forall x, In x (snd best :: l) -> (0 <= nd_h2 x)%Z) ->
  forall x, In x (snd best :: l) -> fval (snd (select i best l)) <= fval x.
Proof.
  induction l as [|y l IH]; intros i best Hh x Hx; cbn [select].
  - destruct Hx as [->|[]]. lra.
  - assert (Hy : (0 <= nd_h2 y)%Z) by (apply Hh; right; left; reflexivity). assert (Hb : (0 <= nd_h2 (snd best))%Z) by (apply Hh; left; reflexivity).
    destruct (f_lt y (snd best)) eqn:Ef.
    + apply f_lt_fval in Ef; [|exact Hy|exact Hb]. specialize (IH (S i) (i, y)). cbn [snd] in IH.
      assert (Hh' : forall z, In z (y :: l) -> (0 <= nd_h2 z)%Z) by (intros z Hz; apply Hh; right; exact Hz).
      destruct Hx as [<-|Hx]; [|exact (IH Hh' x Hx)]. specialize (IH Hh' y (or_introl eq_refl)). lra.
    + assert (Hn : fval (snd best) <= fval y).
      { destruct (Rle_or_lt (fval (snd best)) (fval y)) as [H|H]; [exact H|]. apply f_lt_fval in H; [congruence|exact Hy|exact Hb]. }
      specialize (IH (S i) best). assert (Hh' : forall z, In z (snd best :: l) -> (0 <= nd_h2 z)%Z) by (intros z [Hz|Hz]; apply Hh; [left; exact Hz|right; right; exact Hz]).
      destruct Hx as [Hx|[Hx|Hx]]; [rewrite <- Hx; exact (IH Hh' _ (or_introl eq_refl))| |exact (IH Hh' x (or_intror Hx))].
      rewrite <- Hx. apply Rle_trans with (fval (snd best)); [exact (IH Hh' _ (or_introl eq_refl))|exact Hn].
Qed.
Lemma dist2_nonneg p q : (0 <= dist2 p q)%Z.
Proof. unfold dist2. pose proof (Z.square_nonneg (fst p - fst q)). pose proof (Z.square_nonneg (snd p - snd q)). lia. Qed.

Section A.
Variables (m : maze) (start end_ : cell) (cost : Q).
Hypothesis Hcost : 0 <= Q2R cost.
Let rows := mz_rows m.
Let cols := mz_cols m.
Let wall := mz_wall m.
Definition hR (p : cell) : R := sqrt (IZR (dist2 p end_)).
Definition Kb : R := Rmax (Q2R cost) (sqrt 2).
Lemma Kb_cost : Q2R cost <= Kb. Proof. apply Rmax_l. Qed.
Lemma Kb_sqrt2 : sqrt 2 <= Kb. Proof. apply Rmax_r. Qed.
Lemma Kb_nonneg : 0 <= Kb. Proof. pose proof Kb_cost. lra. Qed.
(** One move changes the distance to the end by at most sqrt 2. *)
Lemma h_lip p q : neighbour p q -> hR p <= sqrt 2 + hR q.
Proof.
  intros [_ [H1 H2]]. unfold hR, dist2. destruct p as [p1 p2], q as [q1 q2], end_ as [e1 e2]. cbn [fst snd] in *.
  rewrite !plus_IZR, !mult_IZR, !minus_IZR.
  assert (D1 : -1 <= IZR p1 - IZR q1 <= 1) by (rewrite <- minus_IZR; split; apply IZR_le; lia).
  assert (D2 : -1 <= IZR p2 - IZR q2 <= 1) by (rewrite <- minus_IZR; split; apply IZR_le; lia).
  set (b1 := IZR q1 - IZR e1). set (b2 := IZR q2 - IZR e2). set (d1 := IZR p1 - IZR q1) in *. set (d2 := IZR p2 - IZR q2) in *.
  replace (IZR p1 - IZR e1) with (b1 + d1) by (unfold b1, d1; ring). replace (IZR p2 - IZR e2) with (b2 + d2) by (unfold b2, d2; ring).
  clearbody b1 b2 d1 d2. clear H1 H2.
  assert (S2 : sqrt 2 * sqrt 2 = 2) by (apply sqrt_sqrt; lra). pose proof (sqrt_pos 2) as P2.
  assert (Bn : 0 <= b1 * b1 + b2 * b2) by nra. pose proof (sqrt_sqrt _ Bn) as SB. pose proof (sqrt_pos (b1 * b1 + b2 * b2)) as PB.
  set (s := sqrt (b1 * b1 + b2 * b2)) in *. clearbody s. set (r := sqrt 2) in *. clearbody r.
  rewrite <- (sqrt_square (r + s)) by lra. apply sqrt_le_1_alt.
  assert (Dd : d1 * d1 + d2 * d2 <= 2) by nra.
  assert (CS : b1 * d1 + b2 * d2 <= r * s).
  { destruct (Rle_or_lt (b1 * d1 + b2 * d2) (r * s)) as [H|H]; [exact H|exfalso].
    assert (Hs : 0 <= r * s) by (apply Rmult_le_pos; assumption). assert (Hq : (r * s) * (r * s) < (b1 * d1 + b2 * d2) * (b1 * d1 + b2 * d2)) by (apply Rmult_le_0_lt_compat; assumption).
    assert (Hc : (b1 * d1 + b2 * d2) * (b1 * d1 + b2 * d2) <= (b1 * b1 + b2 * b2) * (d1 * d1 + d2 * d2)) by (pose proof (Rle_0_sqr (b1 * d2 - b2 * d1)) as HQ; unfold Rsqr in HQ; lra).
    replace ((r * s) * (r * s)) with ((r * r) * (s * s)) in Hq by ring. rewrite S2, SB in Hq.
    pose proof (Rmult_le_compat_l _ _ _ Bn Dd). lra. }
  lra.
Qed.
Lemma h_walk l : forall p q, steps rows cols wall l -> hd_error l = Some p -> hd_error (rev l) = Some q -> hR p <= Kb * INR (n_moves l) + hR q.
Proof.
  induction l as [|a l IH]; intros p q Hs Hp Hq; [discriminate|]. cbn in Hp. injection Hp as ->. destruct l as [|b l].
  - cbn in Hq. injection Hq as ->. unfold n_moves. cbn [length]. change (1 - 1)%nat with 0%nat. cbn [INR]. lra.
  - destruct Hs as [H1 [_ H3]]. assert (Hq' : hd_error (rev (b :: l)) = Some q).
    { change (rev (p :: b :: l)) with (rev (b :: l) ++ [p]) in Hq. destruct (rev (b :: l)) as [|x r] eqn:Er; [apply (f_equal (@length _)) in Er; rewrite rev_length in Er; discriminate|exact Hq]. }
    specialize (IH b q H3 eq_refl Hq'). pose proof (h_lip p b H1) as HL. pose proof Kb_sqrt2.
    assert (En : n_moves (p :: b :: l) = S (n_moves (b :: l))) by (unfold n_moves; cbn [length]; lia). rewrite En, S_INR. lra.
Qed.
Definition bound (p : cell) (g : Q) : Prop := forall l, is_walk rows cols wall start p l -> Q2R g <= Kb * INR (n_moves l).
Record o_inv (open : list node) (visited : list cell) : Prop := {
  oi_open : Forall (node_ok m start end_ cost visited) open;
  oi_h : Forall (fun n => nd_h2 n = dist2 (nd_pos n) end_) open;
  oi_start : In start visited;
  oi_closed : forall p, In p visited -> exists gp, bound p gp /\
    forall q, neighbour p q -> free rows cols wall q -> In q visited \/ exists n, In n open /\ nd_pos n = q /\ Q2R (nd_g n) <= Q2R gp + Q2R cost
}.
Lemma walk_snoc pre a b : is_walk rows cols wall start a pre -> neighbour a b -> free rows cols wall b ->
  is_walk rows cols wall start b (pre ++ [b]) /\ n_moves (pre ++ [b]) = S (n_moves pre).
Proof.
  intros [W1 [W2 W3]] Hn Hf. destruct (rev pre) as [|x r] eqn:Er; [discriminate|]. cbn in W3. injection W3 as ->.
  assert (Ep : pre = rev r ++ [a]) by (rewrite <- (rev_involutive pre), Er; reflexivity). split; [split; [|split]|].
  - rewrite Ep, <- app_assoc. cbn [app]. apply (steps_snoc m); [rewrite <- Ep; exact W1|exact Hn|exact Hf].
  - destruct pre; [discriminate|exact W2].
  - rewrite rev_app_distr. reflexivity.
  - unfold n_moves. rewrite app_length. cbn [length]. destruct pre; [discriminate|cbn [length]; lia].
Qed.
Lemma pop_bound open visited cur : o_inv open visited -> In cur open -> (forall x, In x open -> fval cur <= fval x) -> ~ In (nd_pos cur) visited ->
  bound (nd_pos cur) (nd_g cur).
Proof.
  intros HI Hcur Hmin Hnv. pose proof (oi_h _ _ HI) as Hh. rewrite Forall_forall in Hh.
  assert (Hgo : forall l p pre, steps rows cols wall l -> hd_error l = Some p -> hd_error (rev l) = Some (nd_pos cur) -> In p visited ->
     is_walk rows cols wall start p pre -> Q2R (nd_g cur) <= Kb * (INR (n_moves pre) + INR (n_moves l))).
  { induction l as [|a l IH]; intros p pre Hs Hp Hq Hv Hpre; [discriminate|]. cbn in Hp. injection Hp as ->. destruct l as [|b l].
    - cbn in Hq. injection Hq as Hq. subst p. contradiction.
    - destruct Hs as [H1 [H2 H3]]. assert (Hq' : hd_error (rev (b :: l)) = Some (nd_pos cur)).
      { change (rev (p :: b :: l)) with (rev (b :: l) ++ [p]) in Hq. destruct (rev (b :: l)) as [|x r] eqn:Er; [apply (f_equal (@length _)) in Er; rewrite rev_length in Er; discriminate|exact Hq]. }
      assert (En : n_moves (p :: b :: l) = S (n_moves (b :: l))) by (unfold n_moves; cbn [length]; lia). rewrite En, S_INR.
      destruct (walk_snoc pre p b Hpre H1 H2) as [Wb Nb].
      destruct (oi_closed _ _ HI p Hv) as [gp [Hgp Hcl]]. destruct (Hcl b H1 H2) as [Hb|[n [Hn [En1 Hg]]]].
      + specialize (IH b (pre ++ [b]) H3 eq_refl Hq' Hb Wb). rewrite Nb, S_INR in IH. lra.
      + specialize (Hgp pre Hpre). pose proof (Hmin n Hn) as Hf. unfold fval in Hf. rewrite (Hh n Hn), (Hh cur Hcur), En1 in Hf.
        pose proof (h_walk _ _ _ H3 eq_refl Hq') as HW. fold (hR b) (hR (nd_pos cur)) in Hf. pose proof Kb_cost. lra. }
  intros l [W1 [W2 W3]]. specialize (Hgo l start [start] W1 W2 W3 (oi_start _ _ HI)). unfold n_moves in Hgo at 1. cbn [length] in Hgo. change (INR (1 - 1)) with 0 in Hgo.
  rewrite Rplus_0_l in Hgo. apply Hgo. split; [exact I|]. split; reflexivity.
Qed.
Lemma add_children_g cur visited : forall kids open,
  Forall (fun n => nd_h2 n = dist2 (nd_pos n) end_) open ->
  let open' := add_children end_ cost cur visited kids open in
  Forall (fun n => nd_h2 n = dist2 (nd_pos n) end_) open' /\ incl open open' /\
  forall p, In p kids -> In p visited \/ exists n, In n open' /\ nd_pos n = p /\ Q2R (nd_g n) <= Q2R (nd_g cur) + Q2R cost.
Proof.
  induction kids as [|p kids IH]; intros open Ho; cbn [add_children].
  - split; [exact Ho|]. split; [apply incl_refl|intros p []].
  - destruct (existsb (cell_eqb p) visited) eqn:Ev.
    + destruct (IH open Ho) as [A [B C]]. split; [exact A|]. split; [exact B|]. intros q [<-|Hq]; [left; apply mem_iff; exact Ev|auto].
    + destruct (existsb (fun i => cell_eqb p (nd_pos i) && Qltb (nd_g i) _) open) eqn:Eo.
      * destruct (IH open Ho) as [A [B C]]. split; [exact A|]. split; [exact B|]. intros q [<-|Hq]; [|auto]. right. apply existsb_exists in Eo as [n [Hn En]].
        apply andb_true_iff in En as [En Eg]. apply cell_eqb_eq in En. exists n. split; [apply B, Hn|]. split; [auto|]. cbn [nd_g] in Eg. apply Qltb_Rlt in Eg. rewrite Q2R_plus in Eg. lra.
      * fold (child_of end_ cost cur p). destruct (IH (open ++ [child_of end_ cost cur p])) as [A [B C]].
        { apply Forall_app. split; [exact Ho|]. constructor; [reflexivity|constructor]. }
        split; [exact A|]. split; [intros x Hx; apply B, in_app_iff; left; exact Hx|].
        intros q [<-|Hq]; [|auto]. right. exists (child_of end_ cost cur p). split; [apply B, in_app_iff; right; left; reflexivity|]. split; [reflexivity|].
        cbn [child_of nd_g]. rewrite Q2R_plus. lra.
Qed.
Lemma search_bound : forall fuel open visited res, o_inv open visited -> ~ In end_ visited -> search fuel m end_ cost open visited = Some (res, false) ->
  exists n, found m start end_ cost n /\ res = return_path m n /\ nd_pos n = end_ /\ bound end_ (nd_g n).
Proof.
  induction fuel as [|f IH]; intros open visited res HI Hend H; cbn [search] in H; destruct open as [|n0 open0] eqn:Eopen; try discriminate; rewrite <- Eopen in *.
  { destruct (select 0 (0%nat, n0) open); discriminate. }
  pose proof (select_nth m open 0 (0%nat, n0) [] eq_refl) as Hnth. cbn [app fst snd] in Hnth.
  assert (Hn0 : nth_error open 0 = Some n0) by (rewrite Eopen; reflexivity). specialize (Hnth Hn0).
  pose proof (oi_h _ _ HI) as Hh. pose proof (oi_open _ _ HI) as Hok. rewrite Forall_forall in Hh, Hok.
  assert (Hmin : forall x, In x open -> fval (snd (select 0 (0%nat, n0) open)) <= fval x).
  { intros x Hx. apply select_min; [|right; exact Hx]. cbn [snd]. intros y [<-|Hy]; [|rewrite (Hh y Hy); apply dist2_nonneg].
    rewrite (Hh n0 (nth_error_In _ _ Hn0)). apply dist2_nonneg. }
  destruct (select 0 (0%nat, n0) open) as [i cur] eqn:Esel. cbn [fst snd] in *.
  assert (Hcur : In cur open) by (eapply nth_error_In; eauto).
  destruct (cell_eqb (nd_pos cur) end_) eqn:Ee.
  - injection H as <-. apply cell_eqb_eq in Ee. exists cur. split; [exists visited; exact (Hok cur Hcur)|]. split; [reflexivity|]. split; [exact Ee|].
    rewrite <- Ee. apply (pop_bound open visited); auto. rewrite Ee. exact Hend.
  - apply cell_eqb_neq in Ee. set (visited1 := visited ++ [nd_pos cur]) in *. set (open1 := remove_at i open) in *.
    assert (Hv1 : incl visited visited1) by (intros x Hx; apply in_app_iff; left; exact Hx).
    assert (Hc1 : In (nd_pos cur) visited1) by (apply in_app_iff; right; left; reflexivity).
    assert (Ho1 : incl open1 open) by (intros x Hx; eapply remove_at_in; exact Hx).
    destruct (add_children_spec m start end_ cost cur visited1 (node_ok_mono _ _ _ _ _ _ _ Hv1 (Hok cur Hcur)) Hc1 (child_positions m (nd_pos cur)) open1) as [A [B _]].
    { intros p Hp. apply child_positions_spec. exact Hp. }
    { apply Forall_forall. intros n Hn. eapply node_ok_mono; [exact Hv1|]. apply Hok, Ho1, Hn. }
    destruct (add_children_g cur visited1 (child_positions m (nd_pos cur)) open1) as [A2 [_ C]].
    { apply Forall_forall. intros n Hn. apply Hh, Ho1, Hn. }
    refine (IH _ visited1 res _ _ H); [|intros X; apply in_app_iff in X as [X|[X|[]]]; [exact (Hend X)|congruence]]. constructor.
    + exact A.
    + exact A2.
    + apply Hv1, (oi_start _ _ HI).
    + intros p Hp. destruct (in_dec cell_dec p visited) as [Hv|Hv].
      * destruct (oi_closed _ _ HI p Hv) as [gp [Hgp Hcl]]. exists gp. split; [exact Hgp|]. intros q Hq Hf. destruct (Hcl q Hq Hf) as [Hq1|[n [Hn [En Hg]]]]; [left; apply Hv1, Hq1|].
        destruct (remove_at_keep i open n cur Hnth Hn) as [->|Hn']; [left; rewrite <- En; exact Hc1|right]. exists n. split; [apply B, Hn'|auto].
      * apply in_app_iff in Hp as [Hp|[<-|[]]]; [contradiction|]. exists (nd_g cur). split; [apply (pop_bound open visited); auto|].
        intros q Hq Hf. apply C. apply child_positions_spec. auto.
Qed.
Lemma a_star_bound maxit path h2 l : in_maze rows cols start -> a_star_lim maxit m start end_ cost = Some (path, h2, false) -> is_walk rows cols wall start end_ l ->
  Q2R cost * INR (n_moves path) <= Kb * INR (n_moves l).
Proof.
  intros Hs E Hl. unfold a_star_lim in E.
  assert (Hn : exists n, found m start end_ cost n /\ (path, h2) = return_path m n /\ nd_pos n = end_ /\ bound end_ (nd_g n)).
  { destruct maxit as [|f]; cbn [search select] in E; [unfold f_lt in E; destruct (sum_sqrt_lt 0 0 0 0); discriminate|].
    set (n0 := {| nd_chain := [(start, 0%Z)]; nd_pos := start; nd_g := 0%Q; nd_h2 := 0%Z |}) in *.
    assert (Hf : f_lt n0 n0 = false) by reflexivity. cbn [snd] in E. rewrite Hf in E. cbn [nd_pos n0 remove_at app] in E.
    pose proof (si_open _ _ _ _ _ _ (start_inv m start end_ cost)) as Hok. inversion Hok as [|x y Hok0 _]; subst. fold n0 in Hok0.
    assert (Hb0 : forall p, bound p 0).
    { intros p w _. rewrite RMicromega.Q2R_0. apply Rmult_le_pos; [apply Kb_nonneg|apply pos_INR]. }
    destruct (cell_eqb start end_) eqn:Ee.
    - injection E as E1 E2. exists n0. split; [exists []; exact Hok0|]. split; [rewrite <- E1, <- E2; reflexivity|]. split; [apply cell_eqb_eq, Ee|apply Hb0].
    - apply cell_eqb_neq in Ee.
      assert (Hok1 : node_ok m start end_ cost [start] n0) by (eapply node_ok_mono; [|exact Hok0]; intros x []).
      destruct (add_children_spec m start end_ cost n0 [start] Hok1 (or_introl eq_refl) (child_positions m start) []) as [A _]; [intros p Hp; apply child_positions_spec, Hp|constructor|].
      destruct (add_children_g n0 [start] (child_positions m start) []) as [A2 [_ C]]; [constructor|].
      eapply search_bound; [| |exact E]; [|intros [X|[]]; exact (Ee X)]. constructor; [exact A|exact A2|left; reflexivity|].
      intros p [<-|[]]. exists 0%Q. split; [apply Hb0|]. intros q Hq Hf'. apply C. apply child_positions_spec. auto. }
  destruct Hn as [n [[v Hok] [Er [Hp Hb]]]]. specialize (Hb l Hl). rewrite (Qeq_eqR _ _ (no_g _ _ _ _ _ _ Hok)), Q2R_mult in Hb.
  assert (Hnd : NoDup (rev (map fst (nd_chain n)))) by (apply NoDup_rev; apply Hok).
  pose proof (no_walk _ _ _ _ _ _ Hok) as Hw. unfold cells in Hw.
  assert (Hin : Forall (in_maze (mz_rows m) (mz_cols m)) (rev (map fst (nd_chain n)))).
  { destruct Hw as [W1 [W2 _]]. revert W1 W2. clear - Hs. generalize (rev (map fst (nd_chain n))). intros l.
    destruct l as [|a l]; [constructor|]. intros W1 W2. cbn in W2. inversion W2; subst a. constructor; [exact Hs|].
    clear W2 Hs. revert start W1. induction l as [|b l IH]; intros s W; [constructor|]. destruct W as [_ [[Hf _] W]].
    constructor; [exact Hf|]. apply (IH b W). }
  unfold return_path in Er. rewrite read_grid_path in Er by assumption. injection Er as -> _.
  unfold n_moves at 1. rewrite rev_length. fold (cells n). fold (n_moves (cells n)). rewrite Q2R_inject_Z, <- INR_IZR_INZ in Hb. exact Hb.
Qed.
End A.
