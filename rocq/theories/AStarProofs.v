(** Proofs about the A* model. *)
From Verif Require Import Base AStarModel AStarSpec.
From Coq Require Import Permutation Sorted.

Lemma cell_eqb_eq a b : cell_eqb a b = true <-> a = b.
Proof.
  destruct a as [a1 a2], b as [b1 b2]. unfold cell_eqb. cbn [fst snd]. rewrite andb_true_iff, !Z.eqb_eq.
  split; [intros [-> ->]; reflexivity|intros E; inversion E; auto].
Qed.
Lemma cell_eqb_refl a : cell_eqb a a = true.
Proof. apply cell_eqb_eq. reflexivity. Qed.
Lemma cell_eqb_neq a b : cell_eqb a b = false <-> a <> b.
Proof. rewrite <- cell_eqb_eq. destruct (cell_eqb a b); split; congruence. Qed.
Definition cell_dec (a b : cell) : {a = b} + {a <> b}.
Proof. repeat decide equality. Defined.
Lemma mem_iff p l : existsb (cell_eqb p) l = true <-> In p l.
Proof.
  rewrite existsb_exists. split.
  - intros [x [Hx E]]. apply cell_eqb_eq in E. subst. exact Hx.
  - intros H. exists p. split; [exact H|apply cell_eqb_refl].
Qed.

Section A.
Variables (m : maze) (start end_ : cell) (cost : Q).
Let rows := mz_rows m.
Let cols := mz_cols m.
Let wall := mz_wall m.

Lemma out_of_range_false p : out_of_range m p = false <-> in_maze rows cols p.
Proof.
  unfold out_of_range, in_maze, rows, cols. destruct p as [r c]. cbn [fst snd].
  rewrite !orb_false_iff, !andb_false_iff, !Z.gtb_ltb, !Z.ltb_ge. lia.
Qed.

(** The children are the free neighbours. *)
Lemma child_positions_spec p q : In q (child_positions m p) <-> neighbour p q /\ free rows cols wall q.
Proof.
  unfold child_positions, free, rows, cols, wall. rewrite filter_In, andb_true_iff, !negb_true_iff, out_of_range_false.
  assert (H : In q (map (fun mv : cell => (fst p + fst mv, snd p + snd mv)%Z) moves) <-> neighbour p q).
  { destruct p as [r c], q as [r' c']. unfold neighbour. cbn [fst snd]. rewrite in_map_iff. split.
    - intros [mv [E Hm]]. inversion E; subst. cbn in Hm.
      repeat (destruct Hm as [<-|Hm]; [cbn [fst snd]; split; [intros X; inversion X; lia|split; lia]|]). destruct Hm.
    - intros [Hn [H1 H2]]. exists (r' - r, c' - c)%Z. cbn [fst snd]. split; [f_equal; lia|].
      assert (A : (r' - r = -1 \/ r' - r = 0 \/ r' - r = 1)%Z) by lia.
      assert (B : (c' - c = -1 \/ c' - c = 0 \/ c' - c = 1)%Z) by lia.
      destruct A as [A|[A|A]], B as [B|[B|B]]; rewrite A, B; cbn; auto 10.
      exfalso. apply Hn. f_equal; lia. }
  rewrite H. tauto.
Qed.

Lemma select_in l : forall i best, In (snd (select i best l)) (snd best :: l) /\
  (forall j, nth_error l j = Some (snd (select i best l)) /\ fst (select i best l) = i + j \/ True).
Proof.
  induction l as [|x l IH]; intros i best; cbn [select].
  - split; [left; reflexivity|auto].
  - split; [|auto]. destruct (IH (S i) (if f_lt x (snd best) then (i, x) else best)) as [H _].
    destruct (f_lt x (snd best)); cbn [snd] in H; destruct H as [H|H]; [right; left; exact H|right; right; exact H|left; exact H|right; right; exact H].
Qed.
(** The selected index holds the selected node. *)
Lemma select_nth l : forall i best pre, length pre = i -> nth_error (pre ++ l) (fst best) = Some (snd best) ->
  nth_error (pre ++ l) (fst (select i best l)) = Some (snd (select i best l)).
Proof.
  induction l as [|x l IH]; intros i best pre Hp Hb; cbn [select]; [exact Hb|].
  specialize (IH (S i) (if f_lt x (snd best) then (i, x) else best) (pre ++ [x])).
  rewrite <- app_assoc in IH. cbn [app] in IH. apply IH.
  - rewrite app_length. simpl. lia.
  - destruct (f_lt x (snd best)); [|exact Hb]. cbn [fst snd]. rewrite nth_error_app2 by lia.
    rewrite Hp, Nat.sub_diag. reflexivity.
Qed.
Lemma remove_at_in {A} : forall i (l : list A) x, In x (remove_at i l) -> In x l.
Proof.
  induction i as [|i IH]; intros [|y l] x H; cbn in *; auto. destruct H as [H|H]; auto.
Qed.
Lemma remove_at_keep {A} : forall i (l : list A) x y, nth_error l i = Some y -> In x l -> x = y \/ In x (remove_at i l).
Proof.
  induction i as [|i IH]; intros [|z l] x y E H; cbn in *; try discriminate.
  - inversion E; subst. destruct H as [->|H]; auto.
  - destruct H as [->|H]; [right; left; reflexivity|]. destruct (IH l x y E H); auto.
Qed.

(** * Node invariant *)
Definition cells (n : node) : list cell := map fst (nd_chain n).
Record node_ok (visited : list cell) (n : node) : Prop := {
  no_head : exists t, nd_chain n = (nd_pos n, nd_h2 n) :: t /\ incl (map fst t) visited;
  no_walk : is_walk rows cols wall start (nd_pos n) (rev (cells n));
  no_nodup : NoDup (cells n);
  no_h : Forall (fun x => x = (start, 0%Z) \/ snd x = dist2 (fst x) end_) (nd_chain n);
  no_g : (nd_g n == cost * inject_Z (Z.of_nat (n_moves (cells n))))%Q;
  no_hs : exists t, rev (nd_chain n) = (start, 0%Z) :: t /\ Forall (fun x => snd x = dist2 (fst x) end_) t
}.
Lemma node_ok_mono v v' n : incl v v' -> node_ok v n -> node_ok v' n.
Proof.
  intros H [[t [E Hi]] A B C D F]. constructor; auto. exists t. split; [exact E|]. eapply incl_tran; eauto.
Qed.

Lemma steps_snoc p a b : steps rows cols wall (p ++ [a]) -> neighbour a b -> free rows cols wall b ->
  steps rows cols wall (p ++ [a; b]).
Proof.
  induction p as [|x p IH]; intros Hs Hn Hf.
  - cbn. auto.
  - destruct p as [|y p].
    + cbn [app] in *. destruct Hs as [H1 [H2 _]]. split; [exact H1|]. split; [exact H2|]. split; [exact Hn|]. split; [exact Hf|exact I].
    + cbn [app] in *. destruct Hs as [H1 [H2 H3]]. split; [exact H1|]. split; [exact H2|]. apply IH; assumption.
Qed.

Definition child_of (cur : node) (p : cell) : node :=
  {| nd_chain := (p, dist2 p end_) :: nd_chain cur; nd_pos := p;
     nd_g := (nd_g cur + cost)%Q; nd_h2 := dist2 p end_ |}.
Lemma child_ok visited cur p : node_ok visited cur -> In (nd_pos cur) visited -> ~ In p visited ->
  neighbour (nd_pos cur) p -> free rows cols wall p -> node_ok visited (child_of cur p).
Proof.
  intros I Hc Hp Hn Hf. destruct (no_head _ _ I) as [t [Et Hi]].
  assert (Hincl : incl (cells cur) visited).
  { unfold cells. rewrite Et. cbn [map fst]. intros x [<-|Hx]; auto. }
  constructor.
  - exists (nd_chain cur). split; [reflexivity|]. exact Hincl.
  - unfold cells. cbn [child_of nd_chain nd_pos map fst rev]. fold (cells cur).
    destruct (no_walk _ _ I) as [W1 [W2 W3]]. split; [|split].
    + unfold cells in *. rewrite Et in *. cbn [map fst rev] in *. rewrite <- app_assoc. cbn [app].
      apply steps_snoc; assumption.
    + destruct (rev (cells cur)) as [|x l]; [discriminate|]. exact W2.
    + rewrite rev_app_distr. reflexivity.
  - unfold cells. cbn [child_of nd_chain map fst]. constructor; [|apply I]. intros H. apply Hp, Hincl, H.
  - cbn [child_of nd_chain]. constructor; [right; reflexivity|apply I].
  - cbn [child_of nd_g]. rewrite (no_g _ _ I). unfold cells, n_moves. cbn [child_of nd_chain map length].
    rewrite Et. cbn [map length].
    match goal with |- context [Z.of_nat (S ?k0 - 1)] => generalize k0 end. intros k.
    replace (S (S k) - 1) with (S k) by lia. replace (S k - 1) with k by lia.
    rewrite Nat2Z.inj_succ, <- Z.add_1_r, inject_Z_plus. change (inject_Z 1) with 1%Q. lra.
  - destruct (no_hs _ _ I) as [t' [Et' Ht']]. exists (t' ++ [(p, dist2 p end_)]). cbn [child_of nd_chain rev].
    rewrite Et'. split; [reflexivity|]. apply Forall_app. split; [exact Ht'|]. repeat constructor.
Qed.

Lemma add_children_spec cur visited : node_ok visited cur -> In (nd_pos cur) visited ->
  forall kids open, (forall p, In p kids -> neighbour (nd_pos cur) p /\ free rows cols wall p) ->
  Forall (node_ok visited) open ->
  let open' := add_children end_ cost cur visited kids open in
  Forall (node_ok visited) open' /\ incl open open' /\
  (forall p, In p kids -> In p visited \/ exists n, In n open' /\ nd_pos n = p).
Proof.
  intros I Hc. induction kids as [|p kids IH]; intros open Hk Ho; cbn [add_children].
  - split; [exact Ho|]. split; [apply incl_refl|]. intros p [].
  - assert (Hk' : forall q, In q kids -> neighbour (nd_pos cur) q /\ free rows cols wall q) by (intros q Hq; apply Hk; right; exact Hq).
    destruct (existsb (cell_eqb p) visited) eqn:Ev.
    + destruct (IH open Hk' Ho) as [A [B C]]. split; [exact A|]. split; [exact B|].
      intros q [<-|Hq]; [left; apply mem_iff; exact Ev|auto].
    + assert (Hp : ~ In p visited) by (rewrite <- mem_iff; congruence).
      destruct (existsb (fun i => cell_eqb p (nd_pos i) && Qltb (nd_g i) _) open) eqn:Eo.
      * destruct (IH open Hk' Ho) as [A [B C]]. split; [exact A|]. split; [exact B|].
        intros q [<-|Hq]; [|auto]. right. apply existsb_exists in Eo as [n [Hn En]].
        apply andb_true_iff in En as [En _]. apply cell_eqb_eq in En. exists n. split; [apply B, Hn|auto].
      * fold (child_of cur p).
        assert (Hch : node_ok visited (child_of cur p)).
        { destruct (Hk p (or_introl eq_refl)) as [Hn Hf]. apply child_ok; assumption. }
        destruct (IH (open ++ [child_of cur p]) Hk') as [A [B C]].
        { apply Forall_app. split; [exact Ho|]. constructor; [exact Hch|constructor]. }
        split; [exact A|]. split; [intros x Hx; apply B, in_app_iff; left; exact Hx|].
        intros q [<-|Hq]; [|auto]. right. exists (child_of cur p). split; [|reflexivity].
        apply B, in_app_iff. right. left. reflexivity.
Qed.

(** * Search invariant *)
Record s_inv (open : list node) (visited : list cell) : Prop := {
  si_open : Forall (node_ok visited) open;
  si_start : In start visited \/ exists n, In n open /\ nd_pos n = start;
  si_closed : forall p q, In p visited -> neighbour p q -> free rows cols wall q ->
    In q visited \/ exists n, In n open /\ nd_pos n = q;
  si_end : ~ In end_ visited
}.

Definition found (n : node) : Prop := exists v, node_ok v n.

Lemma search_spec : forall fuel open visited, s_inv open visited ->
  match search fuel m end_ cost open visited with
  | None => forall l, ~ is_walk rows cols wall start end_ l
  | Some (res, gaveup) => exists n, found n /\ res = return_path m n /\ (gaveup = false -> nd_pos n = end_)
  end.
Proof.
  induction fuel as [|f IH]; intros open visited I; cbn [search].
  all: destruct open as [|n0 open0] eqn:Eopen.
  1,3: (intros l Hl; apply (si_end _ _ I);
    assert (Hall : forall l s, steps rows cols wall l -> hd_error l = Some s -> In s visited ->
      forall x, In x l -> In x visited);
    [ induction l0 as [|a l0 IHl]; intros s Hs Hh Hv x Hx; [destruct Hx|];
      cbn in Hh; inversion Hh; subst a; destruct Hx as [<-|Hx]; [exact Hv|];
      destruct l0 as [|b l0]; [destruct Hx|]; destruct Hs as [H1 [H2 H3]];
      apply (IHl b H3 eq_refl); [|exact Hx];
      destruct (si_closed _ _ I s b Hv H1 H2) as [H|[n [[] _]]]; exact H
    | destruct Hl as [L1 [L2 L3]]; apply (Hall l start L1 L2);
      [destruct (si_start _ _ I) as [H|[n [[] _]]]; exact H|];
      apply in_rev; destruct (rev l); [discriminate|]; inversion L3; left; reflexivity ]).
  all: rewrite <- Eopen in *.
  all: pose proof (proj1 (select_in open 0 (0, n0))) as Hin; cbn [snd] in Hin.
  all: pose proof (select_nth open 0 (0, n0) [] eq_refl) as Hnth; cbn [app fst snd] in Hnth.
  all: assert (Hn0 : nth_error open 0 = Some n0) by (rewrite Eopen; reflexivity); specialize (Hnth Hn0).
  all: destruct (select 0 (0, n0) open) as [i cur] eqn:Esel; cbn [fst snd] in *.
  all: assert (Hcur : In cur open) by (eapply nth_error_In; eauto).
  all: pose proof (si_open _ _ I) as Hopen; rewrite Forall_forall in Hopen; pose proof (Hopen cur Hcur) as Hok.
  - exists cur. split; [exists visited; exact Hok|]. split; [reflexivity|]. discriminate.
  - destruct (cell_eqb (nd_pos cur) end_) eqn:Eend.
    + exists cur. split; [exists visited; exact Hok|]. split; [reflexivity|]. intros _. apply cell_eqb_eq. exact Eend.
    + apply cell_eqb_neq in Eend.
      set (visited1 := visited ++ [nd_pos cur]). set (open1 := remove_at i open).
      assert (Hv1 : incl visited visited1) by (intros x Hx; apply in_app_iff; left; exact Hx).
      assert (Hc1 : In (nd_pos cur) visited1) by (apply in_app_iff; right; left; reflexivity).
      destruct (add_children_spec cur visited1 (node_ok_mono _ _ _ Hv1 Hok) Hc1
         (child_positions m (nd_pos cur)) open1) as [A [B C]].
      { intros p Hp. apply child_positions_spec. exact Hp. }
      { apply Forall_forall. intros n Hn. eapply node_ok_mono; [exact Hv1|]. apply Hopen. eapply remove_at_in; eauto. }
      assert (Hkeep : forall n, In n open -> In (nd_pos n) visited1 \/ exists n', In n' (add_children end_ cost cur visited1 (child_positions m (nd_pos cur)) open1) /\ nd_pos n' = nd_pos n).
      { intros n Hn. destruct (remove_at_keep i open n cur Hnth Hn) as [->|Hn']; [left; exact Hc1|right].
        exists n. split; [apply B, Hn'|reflexivity]. }
      apply IH. constructor.
      * exact A.
      * destruct (si_start _ _ I) as [H|[n [Hn En]]]; [left; apply Hv1, H|]. rewrite <- En. apply Hkeep, Hn.
      * intros p q Hp Hn Hf. apply in_app_iff in Hp as [Hp|[<-|[]]].
        -- destruct (si_closed _ _ I p q Hp Hn Hf) as [H|[n [Hn' En]]]; [left; apply Hv1, H|].
           rewrite <- En. apply Hkeep, Hn'.
        -- apply C. apply child_positions_spec. auto.
      * intros H. apply in_app_iff in H as [H|[H|[]]]; [apply (si_end _ _ I H)|contradiction].
Qed.

Lemma start_inv : s_inv [{| nd_chain := [(start, 0%Z)]; nd_pos := start; nd_g := 0%Q; nd_h2 := 0%Z |}] [].
Proof.
  constructor.
  - constructor; [|constructor]. constructor.
    + exists []. split; [reflexivity|]. intros x [].
    + split; [exact I|]. split; reflexivity.
    + repeat constructor. intros [].
    + repeat constructor.
    + change (0 == cost * 0)%Q. lra.
    + exists []. split; [reflexivity|constructor].
  - right. eexists. split; [left; reflexivity|reflexivity].
  - intros p q [].
  - intros [].
Qed.
End A.

(** * Reading the path back from the grid *)
Lemma write_path_entries : forall p v g, NoDup p -> (forall x, In x p -> ~ In x (map fst g)) ->
  forall e, In e (write_path p v g) <-> In e g \/ exists i, nth_error p i = Some (fst e) /\ snd e = v + i.
Proof.
  induction p as [|x p IH]; intros v g Hnd Hg e; cbn [write_path].
  - split; [auto|]. intros [H|[i [H _]]]; [exact H|]. destruct i; discriminate.
  - inversion Hnd as [|? ? Hx Hp]; subst.
    assert (Hf : filter (fun e0 => negb (cell_eqb x (fst e0))) g = g).
    { assert (Hx' : ~ In x (map fst g)) by (apply Hg; left; reflexivity). clear - Hx'.
      induction g as [|y g IHg]; [reflexivity|]. cbn [filter map] in *.
      destruct (cell_eqb x (fst y)) eqn:E.
      - apply cell_eqb_eq in E. exfalso. apply Hx'. left; auto.
      - cbn [negb]. f_equal. apply IHg. intros H. apply Hx'. right; exact H. }
    rewrite Hf. rewrite IH; [|exact Hp|].
    + split.
      * intros [[<-|H]|[i [H1 H2]]].
        -- right. exists 0. cbn. split; [reflexivity|lia].
        -- left; exact H.
        -- right. exists (S i). cbn. split; [exact H1|lia].
      * intros [H|[[|i] [H1 H2]]].
        -- left; right; exact H.
        -- left; left. cbn in H1. inversion H1. destruct e; cbn [fst snd] in *. subst. f_equal. lia.
        -- right. exists i. cbn in H1. split; [exact H1|lia].
    + intros y Hy [E|H]; [cbn in E; subst; contradiction|]. apply (Hg y); [right; exact Hy|exact H].
Qed.
Lemma nth_error_inj {A} (l : list A) : NoDup l -> forall i j x, nth_error l i = Some x -> nth_error l j = Some x -> i = j.
Proof.
  intros Hnd i j x Hi Hj. eapply NoDup_nth_error; [exact Hnd| |congruence]. apply nth_error_Some. congruence.
Qed.
Lemma grid_at_spec p x : NoDup p -> forall v, grid_at (write_path p 0 []) x = Some v <-> nth_error p v = Some x.
Proof.
  intros Hnd v. unfold grid_at.
  pose proof (write_path_entries p 0 [] Hnd (fun _ _ H => H)) as HE.
  destruct (find (fun e => cell_eqb x (fst e)) (write_path p 0 [])) as [e|] eqn:Ef.
  - apply find_some in Ef as [Hin Ee]. apply cell_eqb_eq in Ee. apply HE in Hin as [[]|[i [H1 H2]]]. cbn [Nat.add] in H2.
    subst x. rewrite <- H2 in H1. split.
    + intros E. inversion E; subst. exact H1.
    + intros Hv. f_equal. eapply nth_error_inj; eauto.
  - split; [discriminate|]. intros Hv. exfalso.
    pose proof (find_none _ _ Ef (x, v)) as H. cbn [fst] in H. rewrite cell_eqb_refl in H.
    discriminate H. apply HE. right. exists v. cbn [fst snd]. split; [exact Hv|reflexivity].
Qed.

Definition vlt (a b : cell * nat) : Prop := snd a < snd b.
Lemma sorted_unique : forall l l' : list (cell * nat), StronglySorted vlt l -> StronglySorted vlt l' ->
  (forall x, In x l <-> In x l') -> l = l'.
Proof.
  induction l as [|a l IH]; intros l' Hs Hs' H.
  - destruct l' as [|b l']; [reflexivity|]. exfalso. apply (H b). left; reflexivity.
  - destruct l' as [|b l']; [exfalso; apply (H a); left; reflexivity|].
    inversion Hs as [|? ? S1 S2]; subst. inversion Hs' as [|? ? S1' S2']; subst. rewrite Forall_forall in S2, S2'.
    assert (E : a = b).
    { pose proof (proj1 (H a) (or_introl eq_refl)) as [->|Ha]; [reflexivity|].
      pose proof (proj2 (H b) (or_introl eq_refl)) as [->|Hb]; [reflexivity|].
      specialize (S2 b Hb). specialize (S2' a Ha). unfold vlt in *. lia. }
    subst b. f_equal. apply IH; auto. intros x. split; intros Hx.
    + pose proof (proj1 (H x) (or_intror Hx)) as [E|H']; [|exact H']. subst x. specialize (S2 a Hx). unfold vlt in S2. lia.
    + pose proof (proj2 (H x) (or_intror Hx)) as [E|H']; [|exact H']. subst x. specialize (S2' a Hx). unfold vlt in S2'. lia.
Qed.
Lemma ins_val_in x l y : In y (ins_val x l) <-> y = x \/ In y l.
Proof.
  induction l as [|z l IH]; cbn [ins_val]; [simpl; intuition auto|].
  destruct (snd x <=? snd z); cbn [In]; [intuition auto|]. rewrite IH. intuition auto.
Qed.
Lemma ins_val_sorted x l : StronglySorted vlt l -> (forall y, In y l -> snd y <> snd x) -> StronglySorted vlt (ins_val x l).
Proof.
  induction 1 as [|z l Hs IH Hz]; intros Hd; cbn [ins_val]; [constructor; constructor|].
  rewrite Forall_forall in Hz. assert (Hzx : snd z <> snd x) by (apply Hd; left; reflexivity).
  destruct (Nat.leb_spec (snd x) (snd z)) as [Hle|Hgt].
  - constructor; [constructor; [exact Hs|apply Forall_forall; exact Hz]|].
    constructor; [unfold vlt; lia|]. apply Forall_forall. intros y Hy. specialize (Hz y Hy). unfold vlt in *. lia.
  - constructor; [apply IH; intros y Hy; apply Hd; right; exact Hy|].
    apply Forall_forall. intros y Hy. apply ins_val_in in Hy as [->|Hy]; [exact Hgt|auto].
Qed.
Lemma sort_vals l : NoDup (map snd l) -> StronglySorted vlt (fold_right ins_val [] l) /\
  (forall x, In x (fold_right ins_val [] l) <-> In x l).
Proof.
  induction l as [|a l IH]; intros Hnd; cbn [fold_right].
  - split; [constructor|]. tauto.
  - cbn [map] in Hnd. inversion Hnd as [|? ? H1 H2]; subst. destruct (IH H2) as [A B]. split.
    + apply ins_val_sorted; [exact A|]. intros y Hy E. apply B in Hy. apply H1. rewrite <- E. apply in_map. exact Hy.
    + intros x. rewrite ins_val_in, B. simpl. intuition auto.
Qed.
Lemma all_cells_in m p : In p (all_cells m) <-> in_maze (mz_rows m) (mz_cols m) p.
Proof.
  unfold all_cells, in_maze. rewrite in_flat_map. destruct p as [r c]. cbn [fst snd]. split.
  - intros [r' [Hr H]]. apply in_map_iff in H as [c' [E Hc]]. inversion E; subst. apply in_seq in Hr, Hc. lia.
  - intros [Hr Hc]. exists (Z.to_nat r). split; [apply in_seq; lia|]. apply in_map_iff. exists (Z.to_nat c).
    split; [f_equal; lia|apply in_seq; lia].
Qed.
Lemma all_cells_NoDup m : NoDup (all_cells m).
Proof.
  unfold all_cells. assert (H : forall l, NoDup l -> NoDup (flat_map (fun r => map (fun c => (Z.of_nat r, Z.of_nat c)) (seq 0 (mz_cols m))) l)).
  { induction l as [|r l IH]; intros Hl; cbn [flat_map]; [constructor|]. inversion Hl as [|? ? H1 H2]; subst.
    assert (Hm : NoDup (map (fun c => (Z.of_nat r, Z.of_nat c)) (seq 0 (mz_cols m)))).
    { apply FinFun.Injective_map_NoDup; [|apply seq_NoDup]. intros a b E. inversion E. lia. }
    revert Hm. assert (Hd : forall x, In x (map (fun c => (Z.of_nat r, Z.of_nat c)) (seq 0 (mz_cols m))) ->
      ~ In x (flat_map (fun r0 => map (fun c => (Z.of_nat r0, Z.of_nat c)) (seq 0 (mz_cols m))) l)).
    { intros x Hx Hx'. apply in_map_iff in Hx as [c [<- _]]. apply in_flat_map in Hx' as [r' [Hr' Hx']].
      apply in_map_iff in Hx' as [c' [E _]]. inversion E. assert (r' = r) by lia. subst. contradiction. }
    revert Hd. generalize (map (fun c => (Z.of_nat r, Z.of_nat c)) (seq 0 (mz_cols m))). induction l0 as [|y l0 IH0]; intros Hd Hm; cbn [app]; [apply IH, H2|].
    inversion Hm; subst. constructor; [|apply IH0; [intros; apply Hd; right; assumption|assumption]].
    rewrite in_app_iff. intros [H'|H']; [contradiction|]. apply (Hd y); [left; reflexivity|exact H']. }
  apply H, seq_NoDup.
Qed.

Lemma combine_in {A} (p : list A) : forall k x v, In (x, v) (combine p (seq k (length p))) <-> exists i, nth_error p i = Some x /\ v = k + i.
Proof.
  induction p as [|a p IH]; intros k x v; cbn [length seq combine].
  - split; [intros []|intros [[|i] [H _]]; discriminate].
  - cbn [In]. rewrite IH. split.
    + intros [E|[i [H1 H2]]]; [inversion E; subst; exists 0; cbn; split; [reflexivity|lia]|exists (S i); cbn; split; [exact H1|lia]].
    + intros [[|i] [H1 H2]]; cbn in H1; [left; inversion H1; subst; f_equal; lia|right; exists i; split; [exact H1|lia]].
Qed.
Lemma combine_sorted (p : list cell) : forall k, StronglySorted vlt (combine p (seq k (length p))).
Proof.
  induction p as [|a p IH]; intros k; cbn [length seq combine]; constructor; [apply IH|].
  apply Forall_forall. intros [x v] H. apply combine_in in H as [i [_ ->]]. unfold vlt. cbn [snd]. lia.
Qed.
Lemma combine_fst {A} (p : list A) : forall k, map fst (combine p (seq k (length p))) = p.
Proof. induction p as [|a p IH]; intros k; cbn; [reflexivity|]. f_equal. apply IH. Qed.

Lemma read_grid_path m p : NoDup p -> Forall (in_maze (mz_rows m) (mz_cols m)) p ->
  read_grid m (write_path p 0 []) = p.
Proof.
  intros Hnd Hr. unfold read_grid.
  set (vals := flat_map _ (all_cells m)).
  assert (Hv : forall x v, In (x, v) vals <-> nth_error p v = Some x).
  { intros x v. unfold vals. rewrite in_flat_map. split.
    - intros [y [_ H]]. destruct (grid_at (write_path p 0 []) y) as [v'|] eqn:E; [|destruct H].
      destruct H as [H|[]]. inversion H; subst. apply (grid_at_spec p x Hnd). exact E.
    - intros H. exists x. split.
      + apply all_cells_in. rewrite Forall_forall in Hr. apply Hr. eapply nth_error_In; eauto.
      + apply (grid_at_spec p x Hnd) in H. rewrite H. left; reflexivity. }
  assert (Hnv : NoDup (map snd vals)).
  { assert (Hnv0 : NoDup vals).
    { unfold vals. pose proof (all_cells_NoDup m) as Hc. clear Hv. clear vals. induction (all_cells m) as [|y l IH]; cbn [flat_map]; [constructor|].
      inversion Hc as [|? ? H1 H2]; subst. specialize (IH H2).
      destruct (grid_at (write_path p 0 []) y) as [v|]; [|exact IH]. cbn [app]. constructor; [|exact IH].
      intros H. apply in_flat_map in H as [z [Hz H]]. destruct (grid_at (write_path p 0 []) z); [|destruct H].
      destruct H as [H|[]]. inversion H; subst. contradiction. }
    assert (Hinj : forall a b, In a vals -> In b vals -> snd a = snd b -> a = b).
    { intros [x v] [x' v'] Ha Hb E. cbn in E. subst v'. apply Hv in Ha, Hb. congruence. }
    clear - Hnv0 Hinj. induction vals as [|a l IH]; cbn [map]; [constructor|]. inversion Hnv0 as [|? ? H1 H2]; subst. constructor.
    - intros H. apply in_map_iff in H as [b [E Hb]]. assert (b = a) by (apply Hinj; [right; exact Hb|left; reflexivity|exact E]).
      subst. contradiction.
    - apply IH; [exact H2|]. intros; apply Hinj; auto; right; assumption. }
  destruct (sort_vals vals Hnv) as [S1 S2].
  assert (E : fold_right ins_val [] vals = combine p (seq 0 (length p))).
  { apply sorted_unique; [exact S1|apply combine_sorted|]. intros [x v]. rewrite S2, Hv, combine_in. cbn [Nat.add].
    split; [intros H; exists v; auto|intros [i [H ->]]; exact H]. }
  rewrite E. apply combine_fst.
Qed.

(** * Summary *)
Lemma a_star_spec maxit m start end_ cost : in_maze (mz_rows m) (mz_cols m) start ->
  match a_star_lim maxit m start end_ cost with
  | None => forall l, ~ is_walk (mz_rows m) (mz_cols m) (mz_wall m) start end_ l
  | Some (path, h2, gaveup) =>
      (exists e, is_walk (mz_rows m) (mz_cols m) (mz_wall m) start e path /\ (gaveup = false -> e = end_)) /\
      NoDup path /\
      h2 = fold_left Z.max (map (fun p => dist2 p end_) (tl path)) 0%Z
  end.
Proof.
  intros Hs. pose proof (search_spec m start end_ cost maxit _ _ (start_inv m start end_ cost)) as H.
  unfold a_star_lim. destruct (search _ _ _ _ _ _) as [[[path h2] gu]|]; [|exact H].
  destruct H as [n [[v Hok] [E Hg]]]. unfold return_path in E.
  assert (Hnd : NoDup (rev (map fst (nd_chain n)))) by (apply NoDup_rev; apply Hok).
  pose proof (no_walk _ _ _ _ _ _ Hok) as Hw. unfold cells in Hw.
  assert (Hin : Forall (in_maze (mz_rows m) (mz_cols m)) (rev (map fst (nd_chain n)))).
  { destruct Hw as [W1 [W2 _]]. revert W1 W2. clear - Hs. generalize (rev (map fst (nd_chain n))). intros l.
    destruct l as [|a l]; [constructor|]. intros W1 W2. cbn in W2. inversion W2; subst a. constructor; [exact Hs|].
    clear W2 Hs. revert start W1. induction l as [|b l IH]; intros s W; [constructor|]. destruct W as [_ [[Hf _] W]].
    constructor; [exact Hf|]. apply (IH b W). }
  rewrite read_grid_path in E by assumption.
  injection E as E1 E2. subst path h2. split; [|split].
  - exists (nd_pos n). split; [exact Hw|exact Hg].
  - exact Hnd.
  - destruct (no_hs _ _ _ _ _ _ Hok) as [t [Et Ht]].
    assert (Ec : nd_chain n = rev t ++ [(start, 0%Z)]).
    { rewrite <- (rev_involutive (nd_chain n)), Et. reflexivity. }
    assert (Hmax : forall l a b, fold_left Z.max (l ++ [a]) b = Z.max (fold_left Z.max l b) a).
    { intros l a b. rewrite fold_left_app. reflexivity. }
    assert (Hperm : forall l l', Permutation l l' -> forall a, fold_left Z.max l a = fold_left Z.max l' a).
    { induction 1 as [|x l l' _ IH|x y l|l l' l'' _ IH1 _ IH2]; intros a; cbn [fold_left]; auto.
      - f_equal. lia.
      - rewrite IH1. apply IH2. }
    assert (Hge : forall l a, (a <= fold_left Z.max l a)%Z).
    { induction l as [|x l IH]; intros a; cbn [fold_left]; [lia|]. specialize (IH (Z.max a x)). lia. }
    rewrite <- map_rev, Et. cbn [map tl].
    rewrite Ec, map_app. cbn [map snd]. rewrite Hmax, Z.max_l by apply Hge.
    rewrite map_rev. rewrite (Hperm _ (map snd t)) by (symmetry; apply Permutation_rev).
    f_equal. rewrite map_map. apply map_ext_in. intros x Hx. rewrite Forall_forall in Ht. apply Ht, Hx.
Qed.
