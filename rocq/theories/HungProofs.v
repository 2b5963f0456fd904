(** Proofs about the assignment model: invariant, termination, optimality. *)
From Verif Require Import Base HungModel HungSpec.
From Coq Require Import Permutation.

(** * Counting over index ranges *)
Lemma count_lt_ext f g n : (forall i, i < n -> f i = g i) -> count_lt f n = count_lt g n.
Proof.
  intros H. unfold count_lt. f_equal. apply filter_ext_in. intros i Hi.
  apply in_seq in Hi. apply H; lia.
Qed.
Lemma count_lt_S f n : count_lt f (S n) = count_lt f n + (if f n then 1 else 0).
Proof.
  unfold count_lt. rewrite seq_S, filter_app, app_length. simpl.
  destruct (f n); simpl; lia.
Qed.
Lemma count_lt_le f n : count_lt f n <= n.
Proof. induction n as [|n IH]; [reflexivity|]. rewrite count_lt_S. destruct (f n); lia. Qed.
Lemma count_lt_mono f g n : (forall i, i < n -> f i = true -> g i = true) ->
  count_lt f n <= count_lt g n.
Proof.
  induction n as [|n IH]; intros H; [reflexivity|].
  rewrite !count_lt_S. assert (count_lt f n <= count_lt g n) by (apply IH; intros; apply H; auto).
  destruct (f n) eqn:E; [rewrite (H n) by (auto || lia)|destruct (g n)]; lia.
Qed.
Lemma count_lt_lt f g n j : (forall i, i < n -> f i = true -> g i = true) ->
  j < n -> f j = false -> g j = true -> count_lt f n < count_lt g n.
Proof.
  induction n as [|n IH]; intros H Hj Hf Hg; [lia|].
  rewrite !count_lt_S.
  assert (Hle : count_lt f n <= count_lt g n) by (apply count_lt_mono; intros; apply H; auto).
  destruct (Nat.eq_dec j n) as [->|Hne].
  - rewrite Hf, Hg. lia.
  - assert (count_lt f n < count_lt g n) by (apply IH; auto; lia).
    destruct (f n) eqn:E; [rewrite (H n) by (auto || lia)|destruct (g n)]; lia.
Qed.
Lemma count_lt_add f g n j : (forall i, i < n -> g i = f i || (i =? j)) ->
  j < n -> f j = false -> count_lt g n = S (count_lt f n).
Proof.
  induction n as [|n IH]; intros H Hj Hf; [lia|].
  rewrite !count_lt_S. destruct (Nat.eq_dec j n) as [->|Hne].
  - rewrite (count_lt_ext g f n).
    + rewrite H, Hf, Nat.eqb_refl by lia. simpl. lia.
    + intros i Hi. rewrite H by lia. assert (E : i =? n = false) by (apply Nat.eqb_neq; lia).
      rewrite E. apply orb_false_r.
  - rewrite IH; auto; [|lia].
    rewrite H by lia. assert (E : n =? j = false) by (apply Nat.eqb_neq; lia).
    rewrite E, orb_false_r. lia.
Qed.
Lemma count_lt_full f n : count_lt f n = n -> forall i, i < n -> f i = true.
Proof.
  induction n as [|n IH]; intros H i Hi; [lia|].
  rewrite count_lt_S in H. pose proof (count_lt_le f n) as Hle.
  destruct (f n) eqn:E; [|lia].
  destruct (Nat.eq_dec i n) as [->|]; [assumption|]. apply IH; lia.
Qed.
Lemma count_lt_not_full f n : count_lt f n < n -> exists i, i < n /\ f i = false.
Proof.
  intros H. destruct (all_lt f n) eqn:E.
  - rewrite all_lt_true in E.
    assert (count_lt f n = n); [|lia].
    clear H. induction n as [|n IH]; [reflexivity|]. rewrite count_lt_S, E by lia.
    rewrite IH by (intros; apply E; lia). lia.
  - apply all_lt_false in E. exact E.
Qed.
Lemma count_lt_NoDup f n l : NoDup l -> (forall i, In i l <-> i < n /\ f i = true) ->
  length l = count_lt f n.
Proof.
  intros Hnd H. unfold count_lt. apply Permutation_length. apply NoDup_Permutation; auto.
  - apply NoDup_filter, seq_NoDup.
  - intros i. rewrite H, filter_In, in_seq. intuition lia.
Qed.

(** * Sums *)
Lemma qsum_app l1 l2 : (qsum (l1 ++ l2) == qsum l1 + qsum l2)%Q.
Proof. induction l1 as [|x l IH]; simpl; [lra|]. unfold qsum in *. rewrite IH. lra. Qed.
Lemma qsum_perm l1 l2 : Permutation l1 l2 -> (qsum l1 == qsum l2)%Q.
Proof. induction 1; unfold qsum in *; simpl in *; lra. Qed.
Lemma qsum_map_le {A} (f g : A -> Q) l : (forall x, In x l -> (f x <= g x)%Q) ->
  (qsum (map f l) <= qsum (map g l))%Q.
Proof.
  induction l as [|a l IH]; simpl; intros H; [lra|].
  assert (f a <= g a)%Q by (apply H; auto).
  assert (qsum (map f l) <= qsum (map g l))%Q by (apply IH; intros; apply H; auto).
  unfold qsum in *; simpl in *; lra.
Qed.
Lemma qsum_map_eq {A} (f g : A -> Q) l : (forall x, In x l -> (f x == g x)%Q) ->
  (qsum (map f l) == qsum (map g l))%Q.
Proof.
  intros H. apply Qle_antisym; apply qsum_map_le; intros x Hx; rewrite (H x Hx); apply Qle_refl.
Qed.
Lemma qsum_map_plus {A} (f g : A -> Q) l :
  (qsum (map (fun x => f x + g x) l) == qsum (map f l) + qsum (map g l))%Q.
Proof. induction l as [|a l IH]; simpl; [lra|]. unfold qsum in *; simpl in *; lra. Qed.
Lemma qsum_map_const {A} (q : Q) (l : list A) :
  (qsum (map (fun _ => q) l) == q * inject_Z (Z.of_nat (length l)))%Q.
Proof.
  induction l as [|a l IH].
  - simpl. unfold qsum, inject_Z. simpl. lra.
  - change (qsum (map (fun _ => q) (a :: l))) with (q + qsum (map (fun _ => q) l))%Q.
    rewrite IH. simpl length. rewrite Nat2Z.inj_succ. unfold Z.succ. rewrite inject_Z_plus.
    unfold inject_Z at 3. lra.
Qed.
Lemma qsum_nonneg l : (forall x, In x l -> (0 <= x)%Q) -> (0 <= qsum l)%Q.
Proof.
  induction l as [|a l IH]; simpl; intros H; [lra|].
  assert (0 <= a)%Q by (apply H; auto). assert (0 <= qsum l)%Q by (apply IH; auto).
  unfold qsum in *; simpl in *; lra.
Qed.
(** A sum of non-positive terms over a subset dominates the sum over a superset. *)
Lemma qsum_subset_ge {A} (eqd : forall x y : A, {x = y} + {x <> y}) (f : A -> Q) l L :
  NoDup l -> NoDup L -> incl l L -> (forall x, In x L -> (f x <= 0)%Q) ->
  (qsum (map f L) <= qsum (map f l))%Q.
Proof.
  revert L. induction l as [|a l IH]; intros L Hnl HnL Hinc Hneg.
  - simpl. induction L as [|b L IHL]; simpl; [lra|].
    assert (f b <= 0)%Q by (apply Hneg; simpl; auto).
    inversion HnL; subst.
    assert (qsum (map f L) <= qsum (map f []))%Q.
    { apply IHL; auto. intros x []. intros x Hx; apply Hneg; simpl; auto. }
    unfold qsum in *; simpl in *; lra.
  - assert (Ha : In a L) by (apply Hinc; simpl; auto).
    apply in_split in Ha as [L1 [L2 ->]].
    inversion Hnl; subst.
    assert (HP : Permutation (L1 ++ a :: L2) (a :: L1 ++ L2)) by (symmetry; apply Permutation_middle).
    rewrite (qsum_perm _ _ (Permutation_map f HP)).
    assert (HN : NoDup (a :: L1 ++ L2)) by (eapply Permutation_NoDup; eauto).
    inversion HN; subst.
    assert (qsum (map f (L1 ++ L2)) <= qsum (map f l))%Q.
    { apply IH; auto.
      - intros x Hx. assert (In x (L1 ++ a :: L2)) as Hx' by (apply Hinc; simpl; auto).
        apply in_app_iff in Hx' as [Hx'|[Hx'|Hx']]; apply in_app_iff; auto. subst; tauto.
      - intros x Hx. apply Hneg. apply in_app_iff in Hx as [|]; apply in_app_iff; simpl; auto. }
    unfold qsum in *; simpl in *; lra.
Qed.

(** * Minimum *)
Lemma min_lt_spec f n : 0 < n ->
  (forall i, i < n -> (min_lt f n <= f i)%Q) /\ exists i, i < n /\ min_lt f n = f i.
Proof.
  intros Hn. unfold min_lt.
  assert (H : forall k, k < n -> let m := fold_left (fun m i => if Qltb (f i) m then f i else m) (seq 1 k) (f 0) in
     (forall i, i <= k -> (m <= f i)%Q) /\ exists i, i <= k /\ m = f i).
  { induction k as [|k IH]; intros Hk; cbn zeta.
    - simpl. split; [intros i Hi; replace i with 0 by lia; lra|exists 0; auto].
    - rewrite seq_S, fold_left_app. simpl.
      destruct IH as [H1 [i0 [H2 H3]]]; [lia|]. cbn zeta in *.
      set (m := fold_left _ _ _) in *.
      destruct (Qltb (f (S k)) m) eqn:E.
      + apply Qltb_lt in E. split; [|exists (S k); auto].
        intros i Hi. destruct (Nat.eq_dec i (S k)) as [->|]; [lra|].
        assert (m <= f i)%Q by (apply H1; lia). lra.
      + apply Qltb_ge in E. split; [|exists i0; split; [lia|auto]].
        intros i Hi. destruct (Nat.eq_dec i (S k)) as [->|]; [lra|]. apply H1; lia. }
  destruct (H (n - 1)) as [H1 [i0 [H2 H3]]]; [lia|]. split.
  - intros i Hi. apply H1. lia.
  - exists i0. split; [lia|exact H3].
Qed.

Section Run.
Variables nr nc : nat.
Variable C : nat -> nat -> Q.
Notation md := (Nat.min nr nc).

(** Column c carries a star. *)
Definition cstar (star : nat -> nat -> bool) (c : nat) : bool := any_lt (fun r => star r c) nr.
Definition nstars (star : nat -> nat -> bool) : nat := count_lt (cstar star) nc.

(** Stars: in range, on zeros, a matching. *)
Definition matching_on (dist : nat -> nat -> Q) (star : nat -> nat -> bool) : Prop :=
  (forall r c, star r c = true -> r < nr /\ c < nc /\ (dist r c == 0)%Q) /\
  (forall r c c', star r c = true -> star r c' = true -> c = c') /\
  (forall r r' c, star r c = true -> star r' c = true -> r = r').

Definition duals (dist : nat -> nat -> Q) (u v : nat -> Q) : Prop :=
  forall r c, r < nr -> c < nc ->
    (dist r c == C r c - u r - v c)%Q /\ (0 <= dist r c)%Q.

(** Complementary slackness for the side that need not be fully matched. *)
Definition slack (star : nat -> nat -> bool) (u v : nat -> Q) : Prop :=
  if nr <=? nc then
    exists V, forall c, c < nc -> (v c <= V)%Q /\ ((forall r, star r c = false) -> (v c == V)%Q)
  else
    exists U, forall r, r < nr -> (u r <= U)%Q /\ ((forall c, star r c = false) -> (u r == U)%Q).

(** [hist] lists the covered rows, most recently primed first. *)
Definition prime_ok (st : hst) (hist : list nat) : Prop :=
  NoDup hist /\
  (forall r, h_rcov st r = true <-> In r hist) /\
  (forall r, In r hist -> r < nr /\ exists c, h_star st r c = true) /\
  (forall r c, h_prime st r c = true -> In r hist) /\
  (forall l1 r l2, hist = l1 ++ r :: l2 ->
     exists p, p < nc /\ h_prime st r p = true /\ (h_dist st r p == 0)%Q /\
       h_ccov st p = false /\
       (forall c, h_prime st r c = true -> c = p) /\
       (forall r', h_star st r' p = true -> In r' l2)).

Definition inv (st : hst) (u v : nat -> Q) (hist : list nat) : Prop :=
  duals (h_dist st) u v /\
  matching_on (h_dist st) (h_star st) /\
  slack (h_star st) u v /\
  (forall c, h_ccov st c = true -> exists r, h_star st r c = true) /\
  (forall r c, h_star st r c = true -> h_rcov st r = negb (h_ccov st c)) /\
  prime_ok st hist.

Definition unc_zero (st : hst) : bool :=
  any_lt (fun c => negb (h_ccov st c) &&
     any_lt (fun r => negb (h_rcov st r) && Qeq_bool (h_dist st r c) 0) nr) nc.

Lemma cstar_true star c : (forall r c, star r c = true -> r < nr /\ c < nc) ->
  cstar star c = true <-> exists r, star r c = true.
Proof.
  intros H. unfold cstar. rewrite any_lt_true. split; [intros [r [_ H1]]; eauto|].
  intros [r Hr]. exists r. split; [apply (H r c Hr)|assumption].
Qed.

(** * Step 3 sweep *)
Lemma sweep_spec cols : forall st u v hist zf,
  inv st u v hist -> (forall c, In c cols -> c < nc) ->
  match sweep_cols nr nc cols st zf with
  | Goto4 st1 row col =>
      exists st0 hist0, inv st0 u v hist0 /\ h_star st0 = h_star st /\
        row < nr /\ col < nc /\ h_ccov st0 col = false /\ (h_dist st0 row col == 0)%Q /\
        (forall c, h_star st0 row c = false) /\
        st1 = {| h_dist := h_dist st0; h_star := h_star st0;
                 h_prime := upd2 (h_prime st0) row col true;
                 h_ccov := h_ccov st0; h_rcov := h_rcov st0 |}
  | Done st1 zf1 =>
      exists hist1, inv st1 u v hist1 /\ h_star st1 = h_star st /\
        (exists l, hist1 = l ++ hist) /\
        (zf1 = true -> zf = true \/ length hist < length hist1) /\
        (zf1 = false -> zf = false /\ st1 = st /\ forall c, In c cols -> h_ccov st c = false ->
             forall r, r < nr -> h_rcov st r = false -> ~ (h_dist st r c == 0)%Q)
  end.
Proof.
  induction cols as [|col cols IH]; intros st u v hist zf Hinv Hcols; cbn [sweep_cols].
  - exists hist. split; [assumption|]. split; [reflexivity|]. split; [exists []; reflexivity|].
    split; [auto|]. intros E. split; [exact E|]. split; [reflexivity|]. intros c [].
  - destruct (h_ccov st col) eqn:Ecc.
    + specialize (IH st u v hist zf Hinv (fun c H => Hcols c (or_intror H))).
      destruct (sweep_cols nr nc cols st zf) as [st1 row1 col1|st1 zf1]; [exact IH|].
      destruct IH as [h1 [Hi [Hs [Hl [Ht Hf]]]]]. exists h1. repeat (split; [assumption|]).
      intros E. destruct (Hf E) as [Ez [-> Hz]]. split; [exact Ez|]. split; [reflexivity|].
      intros c [<-|Hc] Hc0; [congruence|]. apply Hz; auto.
    + assert (Hcol : col < nc) by (apply Hcols; simpl; auto).
      set (f := fun r => negb (h_rcov st r) && Qeq_bool (h_dist st r col) 0).
      set (row := find_first f nr). destruct (row <? nr) eqn:Er.
      * apply Nat.ltb_lt in Er. assert (Hf : f row = true) by (apply find_first_true; exact Er).
        unfold f in Hf. apply andb_true_iff in Hf as [Hrc Hz]. apply negb_true_iff in Hrc.
        apply Qeqb_eq in Hz.
        pose proof Hinv as [Hd [Hm [Hsl [Hcs [Hrs Hp]]]]].
        destruct (find_first (h_star st row) nc =? nc) eqn:Es.
        -- apply Nat.eqb_eq in Es.
           exists st, hist. split; [assumption|]. split; [reflexivity|].
           repeat (split; [assumption|]). split; [|reflexivity].
           intros c. destruct (h_star st row c) eqn:E; [|reflexivity].
           destruct Hm as [Hm1 _]. destruct (Hm1 _ _ E) as [_ [Hc _]].
           rewrite (find_first_none _ _ Es c Hc) in E. discriminate.
        -- apply Nat.eqb_neq in Es. pose proof (find_first_le (h_star st row) nc) as Hle.
           set (sc := find_first (h_star st row) nc) in *.
           assert (Hsc : h_star st row sc = true) by (apply find_first_true; fold sc; lia).
           set (st' := {| h_dist := h_dist st; h_star := h_star st;
                    h_prime := upd2 (h_prime st) row col true;
                    h_ccov := upd (h_ccov st) sc false;
                    h_rcov := upd (h_rcov st) row true |}).
           assert (Hccsc : h_ccov st sc = true).
           { specialize (Hrs _ _ Hsc). rewrite Hrc in Hrs.
             destruct (h_ccov st sc); [reflexivity|discriminate]. }
           destruct Hm as [Hm1 [Hm2 Hm3]].
           destruct Hp as [Hp1 [Hp2 [Hp3 [Hp4 Hp5]]]].
           assert (Hrow : ~ In row hist) by (intros H; apply Hp2 in H; congruence).
           assert (Hinv' : inv st' u v (row :: hist)).
           { split; [exact Hd|]. split; [split; [exact Hm1|split; [exact Hm2|exact Hm3]]|].
             split; [exact Hsl|]. split; [|split; [|split; [|split; [|split; [|split]]]]].
             - intros c Hc. apply Hcs. simpl in Hc. unfold upd in Hc.
               destruct (c =? sc); [discriminate|exact Hc].
             - intros r c Hrc'. simpl in *. destruct (Nat.eq_dec r row) as [->|Hne].
               + rewrite upd_same. assert (c = sc) as -> by (eapply Hm2; eauto).
                 rewrite upd_same. reflexivity.
               + rewrite upd_other by exact Hne. rewrite upd_other; [apply Hrs, Hrc'|].
                 intros ->. apply Hne. eapply Hm3; eauto.
             - constructor; assumption.
             - intros r. simpl. unfold upd. destruct (Nat.eqb_spec r row) as [->|Hne].
               + split; auto.
               + rewrite Hp2. split; [auto|]. intros [H|H]; [congruence|exact H].
             - intros r [<-|Hr]; simpl; [split; [exact Er|exists sc; exact Hsc]|].
               apply Hp3, Hr.
             - intros r c. simpl. unfold upd2.
               destruct (Nat.eqb_spec r row) as [->|Hne]; simpl; [auto|].
               intros H. right. eapply Hp4; eauto.
             - intros l1 r l2 E. simpl. destruct l1 as [|x l1]; simpl in E; inversion E; subst.
               + exists col. split; [assumption|]. split; [apply upd2_same|].
                 split; [assumption|]. split; [|split].
                 * unfold upd. destruct (Nat.eqb_spec col sc) as [Ec|]; [reflexivity|assumption].
                 * intros c. destruct (Nat.eq_dec c col) as [|Hne]; [auto|].
                   rewrite upd2_other by auto. intros H. apply Hp4 in H. contradiction.
                 * intros r' Hr'. apply Hp2. rewrite (Hrs _ _ Hr'), Ecc. reflexivity.
               + destruct (Hp5 _ _ _ eq_refl) as [p [Q1 [Q2 [Q3 [Q4 [Q5 Q6]]]]]].
                 assert (Hrne : r <> row)
                   by (intros ->; apply Hrow; apply in_app_iff; simpl; auto).
                 exists p. split; [assumption|]. rewrite upd2_other by auto.
                 split; [assumption|]. split; [assumption|]. split; [|split].
                 * unfold upd. destruct (p =? sc); [reflexivity|assumption].
                 * intros c. rewrite upd2_other by auto. apply Q5.
                 * exact Q6. }
           specialize (IH st' u v (row :: hist) true Hinv' (fun c H => Hcols c (or_intror H))).
           change (sweep_cols nr nc cols {| h_dist := _ |} true) with (sweep_cols nr nc cols st' true).
           destruct (sweep_cols nr nc cols st' true) as [st1 row1 col1|st1 zf1]; [exact IH|].
           destruct IH as [h1 [Hi [Hs [[l Hl] [Ht Hf]]]]]. exists h1. split; [assumption|].
           split; [exact Hs|]. split; [exists (l ++ [row]); rewrite Hl, <- app_assoc; reflexivity|].
           split; [intros _; right; rewrite Hl, app_length; simpl; lia|].
           intros E. destruct (Hf E) as [Ez _]. discriminate.
      * apply Nat.ltb_ge in Er. assert (Er' : row = nr) by (pose proof (find_first_le f nr); unfold row in *; lia).
        specialize (IH st u v hist zf Hinv (fun c H => Hcols c (or_intror H))).
        destruct (sweep_cols nr nc cols st zf) as [st1 row1 col1|st1 zf1]; [exact IH|].
        destruct IH as [h1 [Hi [Hs [Hl [Ht Hf]]]]]. exists h1. repeat (split; [assumption|]).
        intros E. destruct (Hf E) as [Ez [-> Hz]]. split; [exact Ez|]. split; [reflexivity|].
        intros c [<-|Hc] Hc0; [|apply Hz; auto].
        intros r Hr Hrc Hz0. pose proof (find_first_none f nr Er' r Hr) as H.
        unfold f in H. rewrite Hrc in H. simpl in H. apply Qeqb_neq in H. contradiction.
Qed.

(** * Step 4: augmentation *)
Section Augment.
Variables star prime : nat -> nat -> bool.
Variable dist : nat -> nat -> Q.
Hypothesis Hm1 : forall r c, star r c = true -> r < nr /\ c < nc /\ (dist r c == 0)%Q.
Hypothesis Hm2 : forall r c c', star r c = true -> star r c' = true -> c = c'.
Hypothesis Hm3 : forall r r' c, star r c = true -> star r' c = true -> r = r'.

Definition hist_ok (h : list nat) : Prop :=
  NoDup h /\ (forall r, In r h -> exists c, star r c = true) /\
  forall l1 r l2, h = l1 ++ r :: l2 ->
     exists p, p < nc /\ prime r p = true /\ (dist r p == 0)%Q /\
       (forall c, prime r c = true -> c = p) /\
       (forall r', star r' p = true -> In r' l2).

Lemma hist_ok_tail l1 r l2 : hist_ok (l1 ++ r :: l2) -> hist_ok l2.
Proof.
  intros [H1 [H2 H3]]. split; [|split].
  - apply NoDup_remove_1 in H1. clear -H1. induction l1; [exact H1|]. inversion H1; auto.
  - intros x Hx. apply H2. apply in_app_iff. right. right. exact Hx.
  - intros m1 x m2 E. apply (H3 (l1 ++ r :: m1)). subst l2. rewrite <- app_assoc. reflexivity.
Qed.

Definition aug (new : nat -> nat -> bool) (sc : nat) (h V : list nat) : Prop :=
  (forall r c, new r c = true -> r < nr /\ c < nc /\ (dist r c == 0)%Q) /\
  (forall r c c', new r c = true -> new r c' = true -> c = c') /\
  (forall r c, In r h -> new r c = star r c) /\
  (forall r c, new r c = true -> star r c = true \/ In c V) /\
  (forall c, In c V -> c <> sc -> exists r, star r c = true /\ ~ In r h) /\
  In sc V /\ sc < nc /\
  (forall r, star r sc = true -> In r h) /\
  (forall r r' c, c <> sc -> new r c = true -> new r' c = true -> r = r') /\
  (exists rx, new rx sc = true /\ ~ In rx h /\ forall r, new r sc = true -> r = rx \/ star r sc = true) /\
  (forall c, (exists r, new r c = true) <-> (exists r, star r c = true) \/ c = sc) /\
  (forall r, (exists c, star r c = true) -> exists c, new r c = true).

Lemma step4_loop_spec fuel : forall new sc h V,
  length h < fuel -> hist_ok h -> aug new sc h V ->
  exists new' sc', step4_loop nr nc fuel star prime new (find_first (fun ii => star ii sc) nr) sc = Ok new' /\
    matching_on dist new' /\ sc' < nc /\ (forall r, star r sc' = false) /\
    (forall c, (exists r, new' r c = true) <-> (exists r, star r c = true) \/ c = sc') /\
    (forall r, (exists c, star r c = true) -> exists c, new' r c = true).
Proof.
  induction fuel as [|fuel IH]; intros new sc h V Hf Hh Ha; [lia|].
  cbn [step4_loop]. set (sr := find_first (fun ii => star ii sc) nr).
  destruct Ha as [A1 [A2 [A3 [A4 [A5 [A6 [A7 [A8 [A9 [A10 [A11 A12]]]]]]]]]]].
  destruct A10 as [rx [B1 [B2 B3]]].
  destruct (sr <? nr) eqn:Es.
  - apply Nat.ltb_lt in Es.
    assert (Hstar : star sr sc = true) by (apply (find_first_true (fun ii => star ii sc)); exact Es).
    assert (Hin : In sr h) by (apply A8; exact Hstar).
    apply in_split in Hin as [l1 [l2 ->]].
    destruct Hh as [Hh1 [Hh2 Hh3]]. destruct (Hh3 _ _ _ eq_refl) as [p [P1 [P2 [P3 [P4 P5]]]]].
    assert (Hpf : find_first (prime sr) nc = p).
    { destruct (find_first_some (prime sr) nc p P1 P2) as [Hlt _].
      apply P4. apply find_first_true. exact Hlt. }
    rewrite Hpf. destruct (Nat.eqb_spec p nc) as [|_]; [lia|].
    assert (Hsrl2 : ~ In sr l2).
    { intros H. apply NoDup_remove_2 in Hh1. apply Hh1. apply in_app_iff; auto. }
    assert (Hpsc : p <> sc).
    { intros ->. apply P5 in Hstar. contradiction. }
    assert (HpV : ~ In p V).
    { intros HV. destruct (A5 p HV Hpsc) as [r [Hr Hnr]].
      apply Hnr. apply in_app_iff. right. right. apply P5, Hr. }
    assert (Hrxsr : rx <> sr).
    { intros ->. apply B2. apply in_app_iff. right. left. reflexivity. }
    set (new2 := upd2 (upd2 new sr sc false) sr p true).
    assert (Nsr : forall c, new2 sr c = true -> c = p).
    { intros c. unfold new2. destruct (Nat.eq_dec c p) as [|Hne]; [auto|].
      rewrite upd2_other by auto. destruct (Nat.eq_dec c sc) as [->|Hne2].
      - rewrite upd2_same. discriminate.
      - rewrite upd2_other by auto. rewrite A3 by (apply in_app_iff; right; left; reflexivity).
        intros H. exfalso. apply Hne2. eapply Hm2; eauto. }
    assert (Nsrp : new2 sr p = true) by apply upd2_same.
    assert (Nother : forall r c, r <> sr -> new2 r c = new r c).
    { intros r c Hne. unfold new2. rewrite !upd2_other by auto. reflexivity. }
    destruct (IH new2 p l2 (p :: V)) as [new' [sc' HR]].
    + rewrite app_length in Hf. simpl in Hf. lia.
    + apply (hist_ok_tail l1 sr). split; [assumption|split; assumption].
    + split; [|split; [|split; [|split; [|split; [|split; [|split; [|split; [|split; [|split; [|split]]]]]]]]]].
      * intros r c H. destruct (Nat.eq_dec r sr) as [->|Hne].
        -- apply Nsr in H. subst c. auto.
        -- rewrite Nother in H by exact Hne. apply A1, H.
      * intros r c c' H H'. destruct (Nat.eq_dec r sr) as [->|Hne].
        -- apply Nsr in H, H'. congruence.
        -- rewrite Nother in H, H' by exact Hne. eapply A2; eauto.
      * intros r c Hr. rewrite Nother by (intros ->; contradiction).
        apply A3. apply in_app_iff. right. right. exact Hr.
      * intros r c H. destruct (Nat.eq_dec r sr) as [->|Hne].
        -- apply Nsr in H. subst c. right; left; reflexivity.
        -- rewrite Nother in H by exact Hne. destruct (A4 _ _ H); [auto|right; right; auto].
      * intros c [->|Hc] Hcp; [congruence|]. destruct (Nat.eq_dec c sc) as [->|Hne].
        -- exists sr. auto.
        -- destruct (A5 c Hc Hne) as [r [Hr Hnr]]. exists r. split; [exact Hr|].
           intros Hl. apply Hnr. apply in_app_iff. right. right. exact Hl.
      * left; reflexivity.
      * exact P1.
      * exact P5.
      * intros r r' c Hcp H H'.
        destruct (Nat.eq_dec r sr) as [->|Hne]; [apply Nsr in H; congruence|].
        destruct (Nat.eq_dec r' sr) as [->|Hne']; [apply Nsr in H'; congruence|].
        rewrite Nother in H, H' by assumption.
        destruct (Nat.eq_dec c sc) as [->|Hcs]; [|eapply A9; eauto].
        assert (r = rx) by (destruct (B3 _ H) as [|Hx]; [assumption|exfalso; apply Hne; eapply Hm3; eauto]).
        assert (r' = rx) by (destruct (B3 _ H') as [|Hx]; [assumption|exfalso; apply Hne'; eapply Hm3; eauto]).
        congruence.
      * exists sr. split; [exact Nsrp|]. split; [exact Hsrl2|].
        intros r H. destruct (Nat.eq_dec r sr) as [->|Hne]; [auto|].
        rewrite Nother in H by exact Hne. destruct (A4 _ _ H) as [|HV]; [auto|contradiction].
      * intros c. split.
        -- intros [r H]. destruct (Nat.eq_dec r sr) as [->|Hne]; [right; apply Nsr, H|].
           rewrite Nother in H by exact Hne. left.
           destruct (proj1 (A11 c) (ex_intro _ r H)) as [|Hc]; [assumption|].
           subst c. exists sr; exact Hstar.
        -- intros [Hs| ->]; [|exists sr; exact Nsrp].
           destruct (Nat.eq_dec c sc) as [->|Hcs].
           ++ exists rx. rewrite Nother by exact Hrxsr. exact B1.
           ++ destruct (proj2 (A11 c) (or_introl Hs)) as [r Hr].
              destruct (Nat.eq_dec r sr) as [->|Hne].
              ** exfalso. rewrite A3 in Hr by (apply in_app_iff; right; left; reflexivity).
                 apply Hcs. eapply Hm2; eauto.
              ** exists r. rewrite Nother by exact Hne. exact Hr.
      * intros r Hr. destruct (Nat.eq_dec r sr) as [->|Hne]; [exists p; exact Nsrp|].
        destruct (A12 r Hr) as [c Hc]. exists c. rewrite Nother by exact Hne. exact Hc.
    + exists new', sc'. exact HR.
  - apply Nat.ltb_ge in Es.
    assert (Es' : sr = nr) by (pose proof (find_first_le (fun ii => star ii sc) nr); unfold sr in *; lia).
    assert (Hno : forall r, star r sc = false).
    { intros r. destruct (star r sc) eqn:E; [|reflexivity].
      destruct (Hm1 _ _ E) as [Hr _]. rewrite (find_first_none _ _ Es' r Hr) in E. discriminate. }
    exists new, sc. split; [reflexivity|]. split; [|split; [exact A7|split; [exact Hno|split; [exact A11|exact A12]]]].
    split; [exact A1|]. split; [exact A2|].
    intros r r' c H H'. destruct (Nat.eq_dec c sc) as [->|Hne]; [|eapply A9; eauto].
    destruct (B3 _ H) as [->|Hx]; [|rewrite Hno in Hx; discriminate].
    destruct (B3 _ H') as [->|Hx]; [reflexivity|rewrite Hno in Hx; discriminate].
Qed.
End Augment.

Lemma slack_mono star new u v :
  (forall c, (exists r, star r c = true) -> exists r, new r c = true) ->
  (forall r, (exists c, star r c = true) -> exists c, new r c = true) ->
  slack star u v -> slack new u v.
Proof.
  intros Hc Hr. unfold slack. destruct (nr <=? nc).
  - intros [V HV]. exists V. intros c Hcn. destruct (HV c Hcn) as [H1 H2]. split; [exact H1|].
    intros Hn. apply H2. intros r. destruct (star r c) eqn:E; [|reflexivity].
    destruct (Hc c (ex_intro _ r E)) as [r' Hr']. rewrite Hn in Hr'. discriminate.
  - intros [U HU]. exists U. intros r Hrn. destruct (HU r Hrn) as [H1 H2]. split; [exact H1|].
    intros Hn. apply H2. intros c. destruct (star r c) eqn:E; [|reflexivity].
    destruct (Hr r (ex_intro _ c E)) as [c' Hc']. rewrite Hn in Hc'. discriminate.
Qed.

Lemma hist_len st hist : prime_ok st hist -> length hist <= nr.
Proof.
  intros [H1 [_ [H3 _]]].
  rewrite <- (seq_length nr 0). apply NoDup_incl_length; [exact H1|].
  intros r Hr. apply in_seq. destruct (H3 r Hr). lia.
Qed.

(** State right after step 4 and 2a: covered columns are exactly the starred
    ones, nothing else covered or primed, one more star. *)
Lemma step4_spec st u v hist row col :
  inv st u v hist -> row < nr -> col < nc -> h_ccov st col = false ->
  (h_dist st row col == 0)%Q -> (forall c, h_star st row c = false) ->
  exists st', step4 nr nc {| h_dist := h_dist st; h_star := h_star st;
                 h_prime := upd2 (h_prime st) row col true;
                 h_ccov := h_ccov st; h_rcov := h_rcov st |} row col = Ok st' /\
    inv (step2a nr st') u v [] /\
    nstars (h_star st') = S (nstars (h_star st)) /\
    (forall c, c < nc -> h_ccov (step2a nr st') c = cstar (h_star st') c).
Proof.
  intros Hinv Hrow Hcol Hcc Hz Hns.
  pose proof Hinv as [Hd [[Hm1 [Hm2 Hm3]] [Hsl [Hcs [Hrs Hp]]]]].
  pose proof (hist_len _ _ Hp) as Hlen.
  destruct Hp as [Hp1 [Hp2 [Hp3 [Hp4 Hp5]]]].
  assert (Hrown : ~ In row hist).
  { intros H. destruct (Hp3 _ H) as [_ [c Hc]]. rewrite Hns in Hc. discriminate. }
  unfold step4. cbn [h_dist h_star h_prime h_ccov h_rcov].
  destruct (step4_loop_spec (h_star st) (upd2 (h_prime st) row col true) (h_dist st) Hm1 Hm2 Hm3
              (S nr) (upd2 (h_star st) row col true) col hist [col]) as [new [sc [E [M [S1 [S2 [S3 S4]]]]]]].
  - lia.
  - split; [exact Hp1|]. split; [intros r Hr; apply (Hp3 r Hr)|].
    intros l1 r l2 E. destruct (Hp5 _ _ _ E) as [p [Q1 [Q2 [Q3 [Q4 [Q5 Q6]]]]]].
    assert (Hne : r <> row) by (intros ->; apply Hrown; subst hist; apply in_app_iff; simpl; auto).
    exists p. rewrite upd2_other by auto. repeat (split; [assumption|]). split; [|exact Q6].
    intros c. rewrite upd2_other by auto. apply Q5.
  - split; [|split; [|split; [|split; [|split; [|split; [|split; [|split; [|split; [|split; [|split]]]]]]]]]].
    + intros r c. unfold upd2. destruct (Nat.eqb_spec r row) as [->|]; destruct (Nat.eqb_spec c col) as [->|];
        simpl; auto.
    + intros r c c'. destruct (Nat.eq_dec r row) as [->|Hne].
      * unfold upd2. rewrite Nat.eqb_refl. simpl. rewrite !Hns.
        destruct (Nat.eqb_spec c col), (Nat.eqb_spec c' col); congruence.
      * rewrite !upd2_other by auto. apply Hm2.
    + intros r c Hr. apply upd2_other. left. intros ->. contradiction.
    + intros r c. unfold upd2. destruct (Nat.eqb_spec c col) as [->|].
      * intros _. right. left. reflexivity.
      * rewrite andb_false_r. auto.
    + intros c [->|[]] H. congruence.
    + left; reflexivity.
    + exact Hcol.
    + intros r Hr. apply Hp2. rewrite (Hrs _ _ Hr), Hcc. reflexivity.
    + intros r r' c Hc. rewrite !upd2_other by auto. apply Hm3.
    + exists row. split; [apply upd2_same|]. split; [exact Hrown|].
      intros r. destruct (Nat.eq_dec r row) as [|Hne]; [auto|]. rewrite upd2_other by auto. auto.
    + intros c. split.
      * intros [r Hr]. destruct (Nat.eq_dec c col) as [|Hne]; [auto|]. rewrite upd2_other in Hr by auto.
        left; exists r; exact Hr.
      * intros [[r Hr]| ->]; [|exists row; apply upd2_same].
        exists r. unfold upd2. destruct (_ && _); auto.
    + intros r [c Hc]. exists c. unfold upd2. destruct (_ && _); auto.
  - rewrite E. cbn [bind]. eexists. split; [reflexivity|].
    destruct M as [M1 [M2 M3]].
    assert (Hcov : forall c, h_ccov st c || any_lt (fun r => new r c) nr = true <-> exists r, new r c = true).
    { intros c. rewrite orb_true_iff. split.
      - intros [H|H]; [apply S3; left; apply Hcs, H|]. apply any_lt_true in H as [r [_ Hr]]. eauto.
      - intros [r Hr]. right. apply any_lt_true. exists r. split; [apply (M1 _ _ Hr)|exact Hr]. }
    split; [|split].
    + split; [exact Hd|]. cbn. split; [split; [exact M1|split; [exact M2|exact M3]]|].
      split; [|split; [|split; [|]]].
      * apply (slack_mono (h_star st)); [|exact S4|exact Hsl]. intros c Hc. apply S3. auto.
      * intros c Hc. apply Hcov, Hc.
      * intros r c Hrc. assert (H : h_ccov st c || any_lt (fun r => new r c) nr = true) by (apply Hcov; eauto).
        rewrite H. reflexivity.
      * split; [constructor|]. split; [split; [discriminate|intros []]|]. split; [intros r []|].
        split; [discriminate|]. intros l1 r l2 El. destruct l1; discriminate.
    + cbn [h_star]. unfold nstars. apply (count_lt_add _ _ _ sc).
      * intros c Hc. apply eq_true_iff_eq. rewrite orb_true_iff, Nat.eqb_eq.
        rewrite !cstar_true; [apply S3|intros r' c' H; destruct (Hm1 _ _ H); tauto
                             |intros r' c' H; destruct (M1 _ _ H); tauto].
      * exact S1.
      * unfold cstar. apply any_lt_false. intros i _. apply S2.
    + intros c Hc. cbn. unfold cstar. apply eq_true_iff_eq. rewrite Hcov.
      rewrite any_lt_true. split; [intros [r Hr]; exists r; split; [apply (M1 _ _ Hr)|exact Hr]|].
      intros [r [_ Hr]]. eauto.
Qed.

(** * Step 5 *)
Definition mspec (h : ext) (P : Q -> Prop) : Prop :=
  match h with
  | Inf => forall q, ~ P q
  | Fin q => P q /\ forall q', P q' -> (q <= q')%Q
  end.
Lemma step5_inner st r cols : forall h P, mspec h P ->
  mspec (fold_left (fun h c =>
      if h_ccov st c then h else
      match h with
      | Inf => Fin (h_dist st r c)
      | Fin q => if Qltb (h_dist st r c) q then Fin (h_dist st r c) else h
      end) cols h)
    (fun q => P q \/ exists c, In c cols /\ h_ccov st c = false /\ q = h_dist st r c).
Proof.
  induction cols as [|c cols IH]; intros h P H; cbn [fold_left].
  - destruct h as [q|]; simpl in *.
    + destruct H as [H1 H2]. split; [auto|]. intros q' [Hq|[c [[] _]]]; auto.
    + intros q [Hq|[c [[] _]]]; eapply H; eauto.
  - destruct (h_ccov st c) eqn:Ec.
    + specialize (IH h P H). revert IH. generalize (fold_left (fun h c =>
      if h_ccov st c then h else
      match h with
      | Inf => Fin (h_dist st r c)
      | Fin q => if Qltb (h_dist st r c) q then Fin (h_dist st r c) else h
      end) cols h). intros x Hx. destruct x as [q|]; simpl in *.
      * destruct Hx as [H1 H2]. split.
        -- destruct H1 as [|[c' [A B]]]; [auto|right; exists c'; auto].
        -- intros q' [Hq|[c' [[<-|A] [B B']]]]; [apply H2; auto|congruence|apply H2; right; exists c'; auto].
      * intros q [Hq|[c' [[<-|A] [B B']]]]; [eapply Hx; eauto|congruence|eapply Hx; right; exists c'; eauto].
    + match goal with |- mspec (fold_left ?f cols ?h1) _ => 
        assert (H1 : mspec h1 (fun q => P q \/ q = h_dist st r c)) end.
      { destruct h as [q|]; simpl in *.
        - destruct H as [H1 H2]. destruct (Qltb (h_dist st r c) q) eqn:E; simpl.
          + apply Qltb_lt in E. split; [auto|]. intros q' [Hq|Hq]; [apply H2 in Hq; lra|subst; lra].
          + apply Qltb_ge in E. split; [auto|]. intros q' [Hq|Hq]; [auto|subst; lra].
        - split; [auto|]. intros q' [Hq|Hq]; [exfalso; eapply H; eauto|subst; lra]. }
      specialize (IH _ _ H1). revert IH.
      match goal with |- mspec ?x _ -> _ => generalize x end.
      intros x Hx. destruct x as [q|]; simpl in *.
      * destruct Hx as [A1 A2]. split.
        -- destruct A1 as [[A1|A1]|[c' [A B]]]; [auto|right; exists c; auto|right; exists c'; auto].
        -- intros q' [Hq|[c' [[<-|A] [B B']]]]; apply A2; auto. right. exists c'; auto.
      * intros q [Hq|[c' [[<-|A] [B B']]]]; eapply Hx; eauto.
Qed.
Lemma step5_min_spec st :
  mspec (step5_min nr nc st)
    (fun q => exists r c, r < nr /\ c < nc /\ h_rcov st r = false /\ h_ccov st c = false /\ q = h_dist st r c).
Proof.
  unfold step5_min.
  assert (H : forall rows h P, mspec h P ->
    mspec (fold_left (fun h r =>
    if h_rcov st r then h else
    fold_left (fun h c =>
      if h_ccov st c then h else
      match h with
      | Inf => Fin (h_dist st r c)
      | Fin q => if Qltb (h_dist st r c) q then Fin (h_dist st r c) else h
      end) (seq 0 nc) h) rows h)
     (fun q => P q \/ exists r c, In r rows /\ In c (seq 0 nc) /\ h_rcov st r = false /\ h_ccov st c = false /\ q = h_dist st r c)).
  { assert (Hext : forall h (P P' : Q -> Prop), (forall q, P q <-> P' q) -> mspec h P -> mspec h P').
    { intros h P P' E. destruct h as [q|]; simpl.
      - intros [A B]. split; [apply E, A|]. intros q' Hq'. apply B, E, Hq'.
      - intros A q Hq. apply (A q), E, Hq. }
    induction rows as [|r rows IH]; intros h P H; cbn [fold_left].
    - eapply Hext; [|exact H]. intros q. split; [auto|]. intros [|[r [c [[] _]]]]; auto.
    - destruct (h_rcov st r) eqn:Er.
      + eapply Hext; [|apply IH, H]. intros q. cbn beta. split.
        * intros [|[r' [c' [A B]]]]; [auto|]. right. exists r', c'. split; [right; exact A|exact B].
        * intros [|[r' [c' [[<-|A] [B [B' B'']]]]]]; [auto|congruence|]. right. exists r', c'. auto.
      + eapply Hext; [|apply IH; apply (step5_inner st r (seq 0 nc) h P H)]. intros q. cbn beta. split.
        * intros [[|[c [A [B B']]]]|[r' [c' [A B]]]]; [auto| |].
          -- right. exists r, c. repeat split; auto. left; reflexivity.
          -- right. exists r', c'. split; [right; exact A|exact B].
        * intros [|[r' [c' [[<-|A] [B [B' [B'' B3]]]]]]]; [auto| |].
          -- left. right. exists c'. auto.
          -- right. exists r', c'. auto. }
  specialize (H (seq 0 nr) Inf (fun _ => False) (fun q H => H)).
  revert H. match goal with |- mspec ?x _ -> mspec ?y _ => change y with x; generalize x end.
  intros x Hx. destruct x as [q|]; simpl in *.
  - destruct Hx as [[[]|[r [c [A [B C']]]]] H2]. apply in_seq in A, B. split.
    + exists r, c. intuition lia.
    + intros q' [r' [c' [A' [B' C'']]]]. apply H2. right. exists r', c'.
      split; [apply in_seq; lia|]. split; [apply in_seq; lia|exact C''].
  - intros q [r' [c' [A' [B' C'']]]]. apply (Hx q). right. exists r', c'.
      split; [apply in_seq; lia|]. split; [apply in_seq; lia|exact C''].
Qed.

Lemma hist_le_stars st hist : prime_ok st hist -> matching_on (h_dist st) (h_star st) ->
  length hist <= nstars (h_star st).
Proof.
  intros [H1 [_ [H3 _]]] [M1 [M2 M3]].
  set (g := fun r => find_first (h_star st r) nc).
  assert (Hg : forall r, In r hist -> h_star st r (g r) = true /\ g r < nc).
  { intros r Hr. destruct (H3 r Hr) as [_ [c Hc]]. destruct (M1 _ _ Hc) as [_ [Hcn _]].
    destruct (find_first_some (h_star st r) nc c Hcn Hc) as [Hlt _].
    split; [apply find_first_true; exact Hlt|exact Hlt]. }
  rewrite <- (map_length g hist). unfold nstars, count_lt. apply NoDup_incl_length.
  - clear H3. induction hist as [|r l IH]; simpl; constructor.
    + intros Hin. apply in_map_iff in Hin as [r' [E Hr']].
      destruct (Hg r' (or_intror Hr')) as [A _]. destruct (Hg r (or_introl eq_refl)) as [B _].
      rewrite E in A. assert (r' = r) by (eapply M3; eauto). subst. inversion H1; contradiction.
    + apply IH; [inversion H1; assumption|]. intros x Hx. apply Hg. right; exact Hx.
  - intros c Hc. apply in_map_iff in Hc as [r [<- Hr]]. destruct (Hg r Hr) as [A B].
    apply filter_In. split; [apply in_seq; lia|]. unfold cstar. apply any_lt_true.
    exists r. split; [apply (H3 r Hr)|exact A].
Qed.

Lemma uncovered_exist st u v hist : inv st u v hist -> nstars (h_star st) < md ->
  exists r c, r < nr /\ c < nc /\ h_rcov st r = false /\ h_ccov st c = false.
Proof.
  intros [Hd [Hm [Hsl [Hcs [Hrs Hp]]]]] Hlt.
  pose proof (hist_le_stars _ _ Hp Hm) as Hle.
  destruct (count_lt_not_full (h_ccov st) nc) as [c [Hc Hcc]].
  { assert (count_lt (h_ccov st) nc <= nstars (h_star st)); [|lia].
    apply count_lt_mono. intros i Hi Hci. apply cstar_true; [|apply Hcs, Hci].
    intros r c H. destruct Hm as [M1 _]. destruct (M1 _ _ H); tauto. }
  destruct (count_lt_not_full (h_rcov st) nr) as [r [Hr Hrc]].
  { destruct Hp as [H1 [H2 [H3 _]]].
    rewrite <- (count_lt_NoDup (h_rcov st) nr hist); [lia|exact H1|].
    intros i. rewrite H2. split; [intros Hi; split; [apply (H3 i Hi)|exact Hi]|tauto]. }
  exists r, c. auto.
Qed.

Lemma step5_spec st u v hist : inv st u v hist -> nstars (h_star st) < md ->
  exists st' u' v', step5 nr nc st = Ok st' /\ inv st' u' v' hist /\
    h_star st' = h_star st /\ unc_zero st' = true.
Proof.
  intros Hinv Hlt. destruct (uncovered_exist _ _ _ _ Hinv Hlt) as [r0 [c0 [Hr0 [Hc0 [Hrc0 Hcc0]]]]].
  pose proof Hinv as [Hd [[M1 [M2 M3]] [Hsl [Hcs [Hrs Hp]]]]].
  pose proof (step5_min_spec st) as Hmin. unfold step5.
  destruct (step5_min nr nc st) as [h|]; simpl in Hmin.
  2: { exfalso. apply (Hmin (h_dist st r0 c0)). exists r0, c0. auto. }
  destruct Hmin as [[r1 [c1 [Hr1 [Hc1 [Hrc1 [Hcc1 Eh]]]]]] Hle].
  assert (Hh : (0 <= h)%Q) by (rewrite Eh; apply Hd; assumption).
  set (d' := fun r c =>
              let d1 := if h_rcov st r then (h_dist st r c + h)%Q else h_dist st r c in
              if h_ccov st c then d1 else (d1 - h)%Q).
  set (u' := fun r => if h_rcov st r then (u r - h)%Q else u r).
  set (v' := fun c => if h_ccov st c then v c else (v c + h)%Q).
  eexists. exists u', v'. split; [reflexivity|]. split; [|split; [reflexivity|]].
  - split; [|split; [|split; [|split; [|split]]]]; cbn [h_dist h_star h_prime h_ccov h_rcov].
    + intros r c Hr Hc. fold d'. destruct (Hd r c Hr Hc) as [E1 E2]. unfold d', u', v'. cbn zeta.
      destruct (h_rcov st r) eqn:Er; destruct (h_ccov st c) eqn:Ec; split; try lra.
      assert (h <= h_dist st r c)%Q by (apply Hle; exists r, c; auto). lra.
    + fold d'. split; [|split; assumption]. intros r c Hrc. destruct (M1 _ _ Hrc) as [A [B Z]].
      split; [exact A|]. split; [exact B|]. unfold d'. cbn zeta. rewrite (Hrs _ _ Hrc).
      destruct (h_ccov st c); simpl; lra.
    + unfold slack in *. destruct (nr <=? nc).
      * destruct Hsl as [V HV]. exists (V + h)%Q. intros c Hc. destruct (HV c Hc) as [A B].
        unfold v'. split.
        -- destruct (h_ccov st c); lra.
        -- intros Hn. destruct (h_ccov st c) eqn:Ec.
           ++ destruct (Hcs c Ec) as [r Hr]. rewrite Hn in Hr. discriminate.
           ++ rewrite (B Hn). reflexivity.
      * destruct Hsl as [U HU]. exists U. intros r Hr. destruct (HU r Hr) as [A B].
        unfold u'. split.
        -- destruct (h_rcov st r); lra.
        -- intros Hn. destruct (h_rcov st r) eqn:Er; [|apply B, Hn].
           destruct Hp as [_ [P2 [P3 _]]]. apply P2 in Er. destruct (P3 r Er) as [_ [c Hc']].
           rewrite Hn in Hc'. discriminate.
    + exact Hcs.
    + exact Hrs.
    + destruct Hp as [P1 [P2 [P3 [P4 P5]]]]. split; [exact P1|]. split; [exact P2|]. split; [exact P3|].
      split; [exact P4|]. intros l1 r l2 E. destruct (P5 _ _ _ E) as [p [Q1 [Q2 [Q3 [Q4 [Q5 Q6]]]]]].
      exists p. split; [exact Q1|]. split; [exact Q2|]. split; [|split; [exact Q4|split; [exact Q5|exact Q6]]].
      cbn [h_dist]. unfold d'. cbn zeta. rewrite Q4. assert (Er : h_rcov st r = true) by (apply P2; subst hist; apply in_app_iff; simpl; auto).
      rewrite Er. lra.
  - unfold unc_zero. apply any_lt_true. exists c1. split; [exact Hc1|]. cbn [h_ccov h_rcov h_dist].
    rewrite Hcc1. simpl. apply any_lt_true. exists r1. split; [exact Hr1|]. rewrite Hrc1. simpl.
    apply Qeqb_eq. unfold d'. cbn zeta. rewrite Hrc1, Hcc1, Eh. lra.
Qed.

(** * Main loop *)
Definition measure (st : hst) (hist : list nat) : nat :=
  (md - nstars (h_star st)) * (2 * nr + 4) + 2 * (nr - length hist) +
  (if unc_zero st then 0 else 1).

Definition solved (star : nat -> nat -> bool) : Prop :=
  exists dist u v, duals dist u v /\ matching_on dist star /\ slack star u v /\ nstars star = md.

Lemma step3_spec fuel : forall st u v hist,
  inv st u v hist -> nstars (h_star st) < md -> measure st hist < fuel ->
  exists star, step3 nr nc md fuel st = Ok star /\ solved star.
Proof.
  induction fuel as [|fuel IH]; intros st u v hist Hinv Hlt Hf; [lia|].
  cbn [step3].
  pose proof (sweep_spec (seq 0 nc) st u v hist false Hinv (fun c H => proj2 (proj1 (in_seq nc 0 c) H))) as Hs.
  destruct (sweep_cols nr nc (seq 0 nc) st false) as [st1 row col|st1 [|]].
  - destruct Hs as [st0 [hist0 [Hi0 [Es [Hrow [Hcol [Hcc [Hz [Hns ->]]]]]]]]].
    destruct (step4_spec st0 u v hist0 row col Hi0 Hrow Hcol Hcc Hz Hns) as [st' [E4 [Hi' [Hn' Hcov]]]].
    rewrite E4. cbn [bind].
    rewrite (count_lt_ext (h_ccov (step2a nr st')) (cstar (h_star st')) nc Hcov).
    fold (nstars (h_star st')).
    change (h_star (step2a nr st')) with (h_star st').
    destruct (Nat.eqb_spec (nstars (h_star st')) md) as [E|Hne].
    + exists (h_star st'). split; [reflexivity|]. destruct Hi' as [D [Mt [Sl _]]].
      exists (h_dist (step2a nr st')), u, v. auto.
    + apply (IH (step2a nr st') u v []); [exact Hi'| |].
      * change (h_star (step2a nr st')) with (h_star st'). rewrite Hn', Es in *. lia.
      * unfold measure in *. change (h_star (step2a nr st')) with (h_star st').
        rewrite Hn', Es. cbn [length].
        assert (Hd : (md - nstars (h_star st)) * (2 * nr + 4) =
                (md - S (nstars (h_star st))) * (2 * nr + 4) + (2 * nr + 4)).
        { replace (md - nstars (h_star st)) with (S (md - S (nstars (h_star st)))) by lia.
          cbn [Nat.mul]. lia. }
        rewrite Hd in Hf.
        clear Hd; generalize dependent ((md - S (nstars (h_star st))) * (2 * nr + 4)). intros K Hf.
        destruct (unc_zero st), (unc_zero (step2a nr st')); lia.
  - destruct Hs as [hist1 [Hi1 [Es [_ [Ht _]]]]]. destruct (Ht eq_refl) as [|Hlen]; [discriminate|].
    apply (IH st1 u v hist1 Hi1); [rewrite Es; exact Hlt|].
    pose proof (hist_len _ _ (proj2 (proj2 (proj2 (proj2 (proj2 Hi1)))))) as Hln.
    unfold measure in *. rewrite Es.
    generalize dependent ((md - nstars (h_star st)) * (2 * nr + 4)). intros K Hf.
    destruct (unc_zero st), (unc_zero st1); lia.
  - destruct Hs as [hist1 [_ [_ [_ [_ Hf1]]]]]. destruct (Hf1 eq_refl) as [_ [-> Hnz]].
    destruct (step5_spec st u v hist Hinv Hlt) as [st' [u' [v' [E5 [Hi' [Es Hz]]]]]].
    rewrite E5. cbn [bind]. apply (IH st' u' v' hist Hi'); [rewrite Es; exact Hlt|].
    assert (Hu : unc_zero st = false).
    { unfold unc_zero. apply any_lt_false. intros c Hc. destruct (h_ccov st c) eqn:Ec; [reflexivity|].
      simpl. apply any_lt_false. intros r Hr. destruct (h_rcov st r) eqn:Er; [reflexivity|]. simpl.
      apply Qeqb_neq. apply Hnz; auto. apply in_seq; lia. }
    unfold measure in *. rewrite Es, Hz. rewrite Hu in Hf. lia.
Qed.

(** * Initial stars *)
Lemma star_rows_spec dist rows : forall star ccov,
  NoDup rows -> (forall r, In r rows -> r < nr) ->
  matching_on dist star -> (forall c, ccov c = true <-> exists r, star r c = true) ->
  (forall r c, In r rows -> star r c = false) ->
  let '(star', ccov') := star_rows nc dist rows star ccov in
  matching_on dist star' /\ (forall c, ccov' c = true <-> exists r, star' r c = true).
Proof.
  induction rows as [|r rows IH]; intros star ccov Hnd Hlt Hm Hc Hn; cbn [star_rows]; [auto|].
  inversion Hnd; subst.
  set (f := fun c => Qeq_bool (dist r c) 0 && negb (ccov c)). set (c := find_first f nc).
  destruct (c <? nc) eqn:E.
  - apply Nat.ltb_lt in E. assert (Hf : f c = true) by (apply find_first_true; exact E).
    unfold f in Hf. apply andb_true_iff in Hf as [Hz Hcc]. apply Qeqb_eq in Hz. apply negb_true_iff in Hcc.
    assert (Hcn : forall r, star r c = false).
    { intros r'. destruct (star r' c) eqn:Es; [|reflexivity].
      assert (ccov c = true) by (apply Hc; eauto). congruence. }
    destruct Hm as [M1 [M2 M3]]. apply IH; auto.
    + intros; apply Hlt; right; assumption.
    + split; [|split].
      * intros r' c'. unfold upd2. destruct (Nat.eqb_spec r' r) as [->|]; destruct (Nat.eqb_spec c' c) as [->|];
          simpl; auto. intros _. split; [apply Hlt; left; reflexivity|]. auto.
      * intros r' c1 c2. unfold upd2. destruct (Nat.eqb_spec r' r) as [->|]; simpl; [|apply M2].
        rewrite !(Hn r) by (left; reflexivity).
        destruct (Nat.eqb_spec c1 c), (Nat.eqb_spec c2 c); congruence.
      * intros r1 r2 c'. unfold upd2. destruct (Nat.eqb_spec c' c) as [->|]; rewrite ?andb_true_r, ?andb_false_r;
          [|apply M3]. rewrite !Hcn. destruct (Nat.eqb_spec r1 r), (Nat.eqb_spec r2 r); congruence.
    + intros c'. unfold upd. destruct (Nat.eqb_spec c' c) as [->|Hne].
      * split; [intros _; exists r; apply upd2_same|auto].
      * rewrite Hc. split; intros [r' Hr']; exists r'; [rewrite upd2_other by auto|rewrite upd2_other in Hr' by auto]; exact Hr'.
    + intros r' c' Hr'. rewrite upd2_other; [apply Hn; right; exact Hr'|]. left. intros ->. contradiction.
  - apply IH; auto.
    + intros; apply Hlt; right; assumption.
    + intros r' c' Hr'. apply Hn. right; exact Hr'.
Qed.
Lemma star_cols_spec dist cols : forall star ccov rcov,
  NoDup cols -> (forall c, In c cols -> c < nc) ->
  matching_on dist star -> (forall c, ccov c = true <-> exists r, star r c = true) ->
  (forall r, rcov r = true <-> exists c, star r c = true) ->
  (forall r c, In c cols -> star r c = false) ->
  let '(star', ccov', rcov') := star_cols nr dist cols star ccov rcov in
  matching_on dist star' /\ (forall c, ccov' c = true <-> exists r, star' r c = true).
Proof.
  induction cols as [|c cols IH]; intros star ccov rcov Hnd Hlt Hm Hc Hr Hn; cbn [star_cols]; [auto|].
  inversion Hnd; subst.
  set (f := fun r => Qeq_bool (dist r c) 0 && negb (rcov r)). set (r := find_first f nr).
  destruct (r <? nr) eqn:E.
  - apply Nat.ltb_lt in E. assert (Hf : f r = true) by (apply find_first_true; exact E).
    unfold f in Hf. apply andb_true_iff in Hf as [Hz Hcc]. apply Qeqb_eq in Hz. apply negb_true_iff in Hcc.
    assert (Hrn : forall c, star r c = false).
    { intros c'. destruct (star r c') eqn:Es; [|reflexivity].
      assert (rcov r = true) by (apply Hr; eauto). congruence. }
    destruct Hm as [M1 [M2 M3]]. apply IH; auto.
    + intros; apply Hlt; right; assumption.
    + split; [|split].
      * intros r' c'. unfold upd2. destruct (Nat.eqb_spec r' r) as [->|]; destruct (Nat.eqb_spec c' c) as [->|];
          simpl; auto. intros _. split; [exact E|]. split; [apply Hlt; left; reflexivity|exact Hz].
      * intros r' c1 c2. unfold upd2. destruct (Nat.eqb_spec r' r) as [->|]; simpl; [|apply M2].
        rewrite !Hrn. destruct (Nat.eqb_spec c1 c), (Nat.eqb_spec c2 c); congruence.
      * intros r1 r2 c'. unfold upd2. destruct (Nat.eqb_spec c' c) as [->|]; rewrite ?andb_true_r, ?andb_false_r;
          [|apply M3]. rewrite !(Hn _ c) by (left; reflexivity).
        destruct (Nat.eqb_spec r1 r), (Nat.eqb_spec r2 r); congruence.
    + intros c'. unfold upd. destruct (Nat.eqb_spec c' c) as [->|Hne].
      * split; [intros _; exists r; apply upd2_same|auto].
      * rewrite Hc. split; intros [r' Hr']; exists r'; [rewrite upd2_other by auto|rewrite upd2_other in Hr' by auto]; exact Hr'.
    + intros r'. unfold upd. destruct (Nat.eqb_spec r' r) as [->|Hne].
      * split; [intros _; exists c; apply upd2_same|auto].
      * rewrite Hr. split; intros [c' Hr']; exists c'; [rewrite upd2_other by auto|rewrite upd2_other in Hr' by auto]; exact Hr'.
    + intros r' c' Hc'. rewrite upd2_other; [apply Hn; right; exact Hc'|]. right. intros ->. contradiction.
  - apply IH; auto.
    + intros; apply Hlt; right; assumption.
    + intros r' c' Hr'. apply Hn. right; exact Hr'.
Qed.

Lemma nstars_le dist star : matching_on dist star -> nstars star <= md.
Proof.
  intros [M1 [M2 M3]]. assert (nstars star <= nc) by apply count_lt_le.
  assert (nstars star <= nr); [|lia].
  unfold nstars, count_lt. rewrite <- (map_length (fun c => find_first (fun r => star r c) nr)).
  apply Nat.le_trans with (length (seq 0 nr)); [apply NoDup_incl_length|rewrite seq_length; lia].
  - assert (HN : NoDup (filter (cstar star) (seq 0 nc))) by (apply NoDup_filter, seq_NoDup).
    assert (Hin : forall c, In c (filter (cstar star) (seq 0 nc)) -> cstar star c = true)
      by (intros c Hc; apply filter_In in Hc; tauto).
    revert HN Hin. generalize (filter (cstar star) (seq 0 nc)). intros l.
    induction l as [|c l IH]; intros HN Hin; simpl; constructor.
    + intros Hin0. apply in_map_iff in Hin0 as [c' [E Hc']]. inversion HN; subst.
      assert (A : forall x, cstar star x = true -> star (find_first (fun r => star r x) nr) x = true).
      { intros x Hx. apply any_lt_true in Hx as [r [Hr Hrx]].
        destruct (find_first_some (fun r => star r x) nr r Hr Hrx) as [Hlt _].
        exact (find_first_true (fun r => star r x) nr Hlt). }
      assert (B : star (find_first (fun r => star r c) nr) c' = true)
        by (rewrite <- E; apply A, Hin; right; exact Hc').
      assert (c = c') by (eapply M2; [apply A, Hin; left; reflexivity|exact B]). subst; contradiction.
    + inversion HN; subst. apply IH; auto. intros x Hx; apply Hin; right; exact Hx.
  - intros r Hr. apply in_map_iff in Hr as [c [<- Hc]]. apply filter_In in Hc as [_ Hc].
    apply any_lt_true in Hc as [r' [Hr' Hrx]].
    destruct (find_first_some (fun r => star r c) nr r' Hr' Hrx) as [Hlt _]. apply in_seq; lia.
Qed.

Lemma step2b_spec dist star ccov u v : 
  duals dist u v -> matching_on dist star -> slack star u v ->
  (forall c, ccov c = true <-> exists r, star r c = true) ->
  exists star', step2b nr nc md (hung_fuel nr nc)
     {| h_dist := dist; h_star := star; h_prime := fun _ _ => false;
        h_ccov := ccov; h_rcov := fun _ => false |} = Ok star' /\ solved star'.
Proof.
  intros Hd Hm Hs Hc. unfold step2b. cbn [h_ccov h_star].
  assert (E : count_lt ccov nc = nstars star).
  { apply count_lt_ext. intros c _. apply eq_true_iff_eq. rewrite Hc. symmetry. apply cstar_true.
    intros r' c' H. destruct Hm as [M1 _]. destruct (M1 _ _ H); tauto. }
  rewrite E. destruct (Nat.eqb_spec (nstars star) md) as [Eq|Hne].
  - exists star. split; [reflexivity|]. exists dist, u, v. auto.
  - pose proof (nstars_le _ _ Hm) as Hle.
    apply (step3_spec _ _ u v []).
    + split; [exact Hd|]. split; [exact Hm|]. split; [exact Hs|]. cbn. split; [intros c; apply Hc|].
      split; [|split; [constructor|split; [split; [discriminate|intros []]|split; [intros r []|split; [discriminate|]]]]].
      * intros r c Hrc. assert (ccov c = true) as -> by (apply Hc; eauto). reflexivity.
      * intros l1 r l2 El. destruct l1; discriminate.
    + cbn. lia.
    + unfold measure, hung_fuel. cbn [h_star length].
      assert ((md - nstars star) * (2 * nr + 4) <= md * (2 * nr + 4)) by (apply Nat.mul_le_mono_r; lia).
      cbn [Nat.mul]. destruct (unc_zero _); lia.
Qed.

Lemma solve_spec : 0 < nr -> 0 < nc -> exists star, solve nr nc C = Ok star /\ solved star.
Proof.
  intros Hnr Hnc. unfold solve. destruct (nr <=? nc) eqn:E.
  - apply Nat.leb_le in E.
    set (dist := fun r col => (C r col - min_lt (C r) nc)%Q).
    pose proof (star_rows_spec dist (seq 0 nr) (fun _ _ => false) (fun _ => false)) as H.
    destruct (star_rows nc dist (seq 0 nr) (fun _ _ => false) (fun _ => false)) as [star ccov].
    destruct H as [Hm Hc].
    + apply seq_NoDup.
    + intros r Hr. apply in_seq in Hr. lia.
    + split; [discriminate|split; discriminate].
    + intros c. split; [discriminate|intros [r Hr]; discriminate].
    + reflexivity.
    + replace (step2b nr nc nr) with (step2b nr nc md) by (rewrite Nat.min_l by exact E; reflexivity).
      apply (step2b_spec dist star ccov (fun r => min_lt (C r) nc) (fun _ => 0%Q)).
      * intros r c Hr Hcc. unfold dist. destruct (min_lt_spec (C r) nc Hnc) as [H _].
        specialize (H c Hcc). split; lra.
      * exact Hm.
      * unfold slack. apply Nat.leb_le in E. rewrite E. exists 0%Q. intros c _. split; [lra|reflexivity].
      * exact Hc.
  - apply Nat.leb_gt in E.
    set (dist := fun r col => (C r col - min_lt (fun r' => C r' col) nr)%Q).
    pose proof (star_cols_spec dist (seq 0 nc) (fun _ _ => false) (fun _ => false) (fun _ => false)) as H.
    destruct (star_cols nr dist (seq 0 nc) (fun _ _ => false) (fun _ => false) (fun _ => false)) as [[star ccov] rcov].
    destruct H as [Hm Hc].
    + apply seq_NoDup.
    + intros r Hr. apply in_seq in Hr. lia.
    + split; [discriminate|split; discriminate].
    + intros c. split; [discriminate|intros [r Hr]; discriminate].
    + intros c. split; [discriminate|intros [r Hr]; discriminate].
    + reflexivity.
    + replace (step2b nr nc nc) with (step2b nr nc md) by (rewrite Nat.min_r by lia; reflexivity).
      apply (step2b_spec dist star ccov (fun r => 0%Q) (fun c => min_lt (fun r => C r c) nr)).
      * intros r c Hr Hcc. unfold dist. destruct (min_lt_spec (fun r => C r c) nr Hnr) as [H _].
        specialize (H r Hr). cbn beta in H. split; lra.
      * exact Hm.
      * unfold slack. apply Nat.leb_gt in E. rewrite E. exists 0%Q. intros c _. split; [lra|reflexivity].
      * exact Hc.
Qed.

(** * Optimality *)
Definition plist_ok (l : list (nat * nat)) : Prop :=
  NoDup (map fst l) /\ NoDup (map snd l) /\ forall r c, In (r, c) l -> r < nr /\ c < nc.
Definition pcost (c : nat -> nat -> Q) (l : list (nat * nat)) : Q :=
  qsum (map (fun rc => c (fst rc) (snd rc)) l).

Lemma qsum_filter_zero {A} (f : A -> bool) (g : A -> Q) l :
  (forall x, In x l -> f x = false -> (g x == 0)%Q) ->
  (qsum (map g l) == qsum (map g (filter f l)))%Q.
Proof.
  induction l as [|a l IH]; intros H; simpl; [reflexivity|].
  assert (qsum (map g l) == qsum (map g (filter f l)))%Q by (apply IH; intros; apply H; simpl; auto).
  destruct (f a) eqn:E; unfold qsum in *; simpl in *.
  - lra.
  - assert (g a == 0)%Q by (apply H; auto). lra.
Qed.

Lemma perm_seq l n : NoDup l -> (forall i, In i l -> i < n) -> length l = n -> Permutation l (seq 0 n).
Proof.
  intros H1 H2 H3. apply NoDup_Permutation_bis; [exact H1|rewrite seq_length; lia|].
  intros i Hi. apply in_seq. apply H2 in Hi. lia.
Qed.

Lemma pcost_duals dist u v l : duals dist u v -> plist_ok l ->
  (pcost C l == pcost dist l + qsum (map u (map fst l)) + qsum (map v (map snd l)))%Q.
Proof.
  intros Hd [_ [_ Hb]]. unfold pcost. induction l as [|[r c] l IH]; [simpl; lra|].
  assert (IH' := IH (fun r c H => Hb r c (or_intror H))).
  destruct (Hb r c (or_introl eq_refl)) as [Hr Hc]. destruct (Hd r c Hr Hc) as [E _].
  unfold qsum in *. simpl in *. lra.
Qed.

Lemma qsum_w_bound (w : nat -> Q) (s : nat -> bool) b l :
  NoDup b -> NoDup l -> (forall x, In x l <-> s x = true) ->
  (forall x, In x b \/ In x l -> (w x <= 0)%Q) -> (forall x, In x b -> s x = false -> (w x == 0)%Q) ->
  (qsum (map w l) <= qsum (map w b))%Q.
Proof.
  intros Hb Hl Hs Hneg Hz.
  rewrite (qsum_filter_zero s w b Hz).
  apply (qsum_subset_ge Nat.eq_dec); auto.
  - apply NoDup_filter, Hb.
  - intros x Hx. apply filter_In in Hx. apply Hs. tauto.
Qed.

Lemma qsum_shift (f : nat -> Q) K l :
  (qsum (map f l) == qsum (map (fun x => f x - K)%Q l) + K * inject_Z (Z.of_nat (length l)))%Q.
Proof.
  rewrite <- (qsum_map_const K l), <- qsum_map_plus. apply qsum_map_eq. intros; lra.
Qed.

Lemma solved_optimal star l b :
  solved star -> plist_ok l -> (forall r c, In (r, c) l <-> star r c = true) ->
  plist_ok b -> length b = md -> length l = md -> (pcost C l <= pcost C b)%Q.
Proof.
  intros [dist [u [v [Hd [[M1 [M2 M3]] [Hsl Hn]]]]]] Hl Hls Hb Hlb Hll.
  rewrite (pcost_duals dist u v l Hd Hl), (pcost_duals dist u v b Hd Hb).
  destruct Hl as [L1 [L2 L3]]. destruct Hb as [B1 [B2 B3]].
  assert (Zl : (pcost dist l == 0)%Q).
  { unfold pcost. assert (HH : forall l', incl l' l -> (qsum (map (fun rc => dist (fst rc) (snd rc)) l') == 0)%Q).
    { induction l' as [|[r c] l' IH]; intros Hi; [reflexivity|].
      assert (IH' := IH (fun x H => Hi x (or_intror H))).
      assert (In (r, c) l) as Hin by (apply Hi; left; reflexivity).
      apply Hls in Hin. destruct (M1 _ _ Hin) as [_ [_ Z]].
      unfold qsum in *; simpl in *. lra. }
    apply HH. intros x Hx; exact Hx. }
  assert (Zb : (0 <= pcost dist b)%Q).
  { unfold pcost. apply qsum_nonneg. intros x Hx. apply in_map_iff in Hx as [[r c] [<- Hrc]].
    destruct (B3 r c Hrc). apply Hd; assumption. }
  assert (Lf : forall r, In r (map fst l) <-> exists c, star r c = true).
  { intros r. rewrite in_map_iff. split.
    - intros [[r' c] [E H]]. simpl in E. subst. exists c. apply Hls, H.
    - intros [c Hc]. exists (r, c). split; [reflexivity|apply Hls, Hc]. }
  assert (Ls : forall c, In c (map snd l) <-> exists r, star r c = true).
  { intros c. rewrite in_map_iff. split.
    - intros [[r c'] [E H]]. simpl in E. subst. exists r. apply Hls, H.
    - intros [r Hc]. exists (r, c). split; [reflexivity|apply Hls, Hc]. }
  assert (Rng : forall l', (forall r c, In (r, c) l' -> r < nr /\ c < nc) ->
     (forall r, In r (map fst l') -> r < nr) /\ (forall c, In c (map snd l') -> c < nc)).
  { intros l' H. split; intros x Hx; apply in_map_iff in Hx as [[r c] [<- Hrc]]; apply (H r c Hrc). }
  destruct (Rng l L3) as [Rl1 Rl2]. destruct (Rng b B3) as [Rb1 Rb2].
  unfold slack in Hsl. destruct (nr <=? nc) eqn:E.
  - apply Nat.leb_le in E.
    assert (Eu : (qsum (map u (map fst l)) == qsum (map u (map fst b)))%Q).
    { apply qsum_perm, Permutation_map.
      transitivity (seq 0 nr); [|symmetry]; apply perm_seq; auto; rewrite map_length; lia. }
    destruct Hsl as [V HV].
    assert (Ew : (qsum (map (fun c => v c - V) (map snd l)) <= qsum (map (fun c => v c - V) (map snd b)))%Q).
    { apply (qsum_w_bound _ (cstar star)); auto.
      - intros c. rewrite Ls. symmetry. apply cstar_true. intros r' c' H. destruct (M1 _ _ H); tauto.
      - intros c [Hc|Hc]; [apply Rb2 in Hc|apply Rl2 in Hc]; destruct (HV c Hc); lra.
      - intros c Hc Hs. apply Rb2 in Hc. destruct (HV c Hc) as [_ H]. rewrite H; [lra|].
        intros r. destruct (star r c) eqn:Es; [|reflexivity].
        assert (cstar star c = true); [|congruence].
        apply cstar_true; [|eauto]. intros r' c' H'. destruct (M1 _ _ H'); tauto. }
    rewrite (qsum_shift v V (map snd l)), (qsum_shift v V (map snd b)).
    rewrite !map_length, Hlb, Hll. lra.
  - apply Nat.leb_gt in E.
    assert (Eu : (qsum (map v (map snd l)) == qsum (map v (map snd b)))%Q).
    { apply qsum_perm, Permutation_map.
      transitivity (seq 0 nc); [|symmetry]; apply perm_seq; auto; rewrite map_length; lia. }
    destruct Hsl as [U HU].
    assert (Ew : (qsum (map (fun c => u c - U) (map fst l)) <= qsum (map (fun c => u c - U) (map fst b)))%Q).
    { assert (RS : forall r, any_lt (star r) nc = true <-> exists c, star r c = true).
      { intros r. rewrite any_lt_true. split; [intros [c [_ H]]; eauto|].
        intros [c Hc]. exists c. split; [apply (M1 _ _ Hc)|exact Hc]. }
      apply (qsum_w_bound _ (fun r => any_lt (star r) nc)); auto.
      - intros r. rewrite Lf. symmetry. apply RS.
      - intros c [Hc|Hc]; [apply Rb1 in Hc|apply Rl1 in Hc]; destruct (HU c Hc); lra.
      - intros r Hr Hs. apply Rb1 in Hr. destruct (HU r Hr) as [_ H]. rewrite H; [lra|].
        intros c. destruct (star r c) eqn:Es; [|reflexivity].
        assert (any_lt (star r) nc = true); [|congruence]. apply RS; eauto. }
    rewrite (qsum_shift u U (map fst l)), (qsum_shift u U (map fst b)).
    rewrite !map_length, Hlb, Hll. lra.
Qed.

(** Every partial matching extends to one of full size. *)
Lemma extend_full l : plist_ok l -> length l <= md ->
  exists e, plist_ok (e ++ l) /\ length (e ++ l) = md.
Proof.
  remember (md - length l) as k eqn:Ek. revert l Ek. induction k as [|k IH]; intros l Ek Hl Hle.
  - exists []. split; [exact Hl|]. simpl. lia.
  - destruct Hl as [L1 [L2 L3]].
    assert (Fr : forall n ll, length ll < n -> exists i, i < n /\ ~ In i ll).
    { intros n ll H. destruct (count_lt_not_full (fun i => existsb (Nat.eqb i) ll) n) as [i [Hi Hf]].
      - eapply Nat.le_lt_trans; [|exact H]. unfold count_lt.
        apply NoDup_incl_length; [apply NoDup_filter, seq_NoDup|]. intros i Hi. apply filter_In in Hi as [_ Hi].
        apply existsb_exists in Hi as [j [Hj Hij]]. apply Nat.eqb_eq in Hij. subst; exact Hj.
      - exists i. split; [exact Hi|]. intros Hin. 
        assert (existsb (Nat.eqb i) ll = true); [|congruence].
        apply existsb_exists. exists i. split; [exact Hin|apply Nat.eqb_refl]. }
    destruct (Fr nr (map fst l)) as [r [Hr Hrn]]; [rewrite map_length; lia|].
    destruct (Fr nc (map snd l)) as [c [Hc Hcn]]; [rewrite map_length; lia|].
    destruct (IH ((r, c) :: l)) as [e [He1 He2]].
    + simpl. lia.
    + split; [simpl; constructor; auto|]. split; [simpl; constructor; auto|].
      intros r' c' [H|H]; [inversion H; subst; auto|apply L3, H].
    + simpl. lia.
    + exists (e ++ [(r, c)]). rewrite <- app_assoc. simpl. auto.
Qed.
End Run.

(** * Assignment vectors *)
Lemma in_pairs_from a : forall k r c,
  In (r, c) (pairs_from k a) <-> k <= r /\ nth_error a (r - k) = Some (Some c).
Proof.
  induction a as [|o a IH]; intros k r c; simpl.
  - split; [tauto|]. intros [_ H]. destruct (r - k); discriminate.
  - assert (HS : k <= r -> r <> k -> r - k = S (r - S k)) by lia.
    destruct o as [c0|]; simpl; rewrite ?IH; split.
    + intros [H|[H1 H2]]; [inversion H; subst; rewrite Nat.sub_diag; auto|].
      split; [lia|]. rewrite HS by lia. exact H2.
    + intros [H1 H2]. destruct (Nat.eq_dec r k) as [->|Hne].
      * left. rewrite Nat.sub_diag in H2. simpl in H2. congruence.
      * right. rewrite HS in H2 by lia. split; [lia|exact H2].
    + intros [H1 H2]. split; [lia|]. rewrite HS by lia. exact H2.
    + intros [H1 H2]. destruct (Nat.eq_dec r k) as [->|Hne].
      * rewrite Nat.sub_diag in H2. discriminate.
      * rewrite HS in H2 by lia. split; [lia|exact H2].
Qed.
Lemma in_pairs a r c : In (r, c) (pairs a) <-> nth_error a r = Some (Some c).
Proof. unfold pairs. rewrite in_pairs_from, Nat.sub_0_r. split; [tauto|split; [lia|tauto]]. Qed.
Lemma pairs_fst_NoDup a : NoDup (map fst (pairs a)).
Proof.
  unfold pairs. generalize 0. induction a as [|o a IH]; intros k; [constructor|].
  destruct o as [c|]; simpl; [|apply IH]. constructor; [|apply IH].
  intros H. apply in_map_iff in H as [[r c'] [E H]]. simpl in E. subst.
  apply in_pairs_from in H. lia.
Qed.
Lemma pairs_row a r c : In (r, c) (pairs a) -> r < length a.
Proof. intros H. apply in_pairs in H. apply nth_error_Some. congruence. Qed.
Lemma assignment_plist nr nc a : is_assignment nr nc a -> plist_ok nr nc (pairs a).
Proof.
  intros [H1 [H2 H3]]. split; [apply pairs_fst_NoDup|]. split; [exact H3|].
  intros r c H. split; [rewrite <- H1; eapply pairs_row; eauto|eapply H2; eauto].
Qed.
Lemma plist_le nr nc l : plist_ok nr nc l -> length l <= Nat.min nr nc.
Proof.
  intros [H1 [H2 H3]]. apply Nat.min_glb.
  - rewrite <- (map_length fst), <- (seq_length nr 0). apply NoDup_incl_length; [exact H1|].
    intros r Hr. apply in_map_iff in Hr as [[r' c] [<- H]]. apply in_seq. destruct (H3 _ _ H). simpl; lia.
  - rewrite <- (map_length snd), <- (seq_length nc 0). apply NoDup_incl_length; [exact H2|].
    intros r Hr. apply in_map_iff in Hr as [[r' c] [<- H]]. apply in_seq. destruct (H3 _ _ H). simpl; lia.
Qed.

Lemma nth_error_map_seq {A} (f : nat -> A) n r : r < n -> nth_error (map f (seq 0 n)) r = Some (f r).
Proof.
  intros H. apply map_nth_error. rewrite (nth_error_nth' (seq 0 n) 0) by (rewrite seq_length; exact H).
  rewrite seq_nth by exact H. reflexivity.
Qed.

Lemma build_assign_pairs nr nc dist star r c : matching_on nr nc dist star ->
  In (r, c) (pairs (build_assign nr nc star)) <-> star r c = true.
Proof.
  intros [M1 [M2 M3]]. rewrite in_pairs. unfold build_assign. split.
  - intros H. assert (Hr : r < nr).
    { match type of H with ?x = _ => assert (Hx : x <> None) by congruence end.
      apply nth_error_Some in Hx. rewrite map_length, seq_length in Hx. exact Hx. }
    rewrite nth_error_map_seq in H by exact Hr. cbn zeta in H.
    destruct (find_first (star r) nc <? nc) eqn:E; [|discriminate].
    inversion H; subst. apply find_first_true. apply Nat.ltb_lt. exact E.
  - intros H. destruct (M1 _ _ H) as [Hr [Hc _]]. rewrite nth_error_map_seq by exact Hr. cbn zeta.
    destruct (find_first_some (star r) nc c Hc H) as [Hlt _].
    assert (E : find_first (star r) nc = c) by (eapply M2; [apply find_first_true; exact Hlt|exact H]).
    apply Nat.ltb_lt in Hlt. rewrite Hlt, E. reflexivity.
Qed.

Lemma build_assign_plist nr nc dist star : matching_on nr nc dist star ->
  plist_ok nr nc (pairs (build_assign nr nc star)) /\
  length (pairs (build_assign nr nc star)) = nstars nr nc star.
Proof.
  intros Hm. pose proof Hm as [M1 [M2 M3]].
  assert (Hsnd : NoDup (map snd (pairs (build_assign nr nc star)))).
  { assert (H : forall l, NoDup (map fst l) -> (forall r c, In (r, c) l -> star r c = true) -> NoDup (map snd l)).
    { induction l as [|[r c] l IH]; simpl; intros H1 H2; constructor.
      - intros Hin. apply in_map_iff in Hin as [[r' c'] [E Hin]]. simpl in E. subst c'.
        assert (r' = r) by (eapply M3; [apply H2; right; exact Hin|apply H2; left; reflexivity]).
        subst. inversion H1; subst. apply H3. apply in_map_iff. exists (r, c). auto.
      - inversion H1; subst. apply IH; auto. }
    apply H; [apply pairs_fst_NoDup|]. intros r c Hin. eapply build_assign_pairs; eauto. }
  split.
  - split; [apply pairs_fst_NoDup|]. split; [exact Hsnd|].
    intros r c H. apply (build_assign_pairs nr nc dist star r c Hm) in H. destruct (M1 _ _ H); tauto.
  - rewrite <- (map_length snd). unfold nstars. apply count_lt_NoDup; [exact Hsnd|].
    intros c. rewrite in_map_iff. split.
    + intros [[r c'] [E Hin]]. simpl in E; subst c'.
      apply (build_assign_pairs nr nc dist star r c Hm) in Hin. destruct (M1 _ _ Hin) as [Hr [Hc _]].
      split; [exact Hc|]. unfold cstar. apply any_lt_true. eauto.
    + intros [_ H]. unfold cstar in H. apply any_lt_true in H as [r [_ H]]. exists (r, c).
      split; [reflexivity|]. apply (build_assign_pairs nr nc dist star r c Hm), H.
Qed.

Lemma comp_assign_spec orig a : forall k cost,
  let '(v, t) := comp_assign orig k a cost in
  length v = length a /\
  pairs_from k v = filter (fun rc => is_fin (orig (fst rc) (snd rc))) (pairs_from k a) /\
  (t == cost + qsum (map (fun rc => fin_val (orig (fst rc) (snd rc))) (pairs_from k v)))%Q.
Proof.
  induction a as [|o a IH]; intros k cost; simpl.
  - split; [reflexivity|]. split; [reflexivity|]. unfold qsum; simpl; lra.
  - destruct o as [c|].
    + destruct (orig k c) as [q|] eqn:E.
      * specialize (IH (S k) (cost + q)%Q). destruct (comp_assign orig (S k) a (cost + q)%Q) as [v t].
        destruct IH as [H1 [H2 H3]]. simpl. rewrite E. simpl. split; [lia|]. split; [f_equal; exact H2|].
        unfold qsum in *; simpl in *. lra.
      * specialize (IH (S k) cost). destruct (comp_assign orig (S k) a cost) as [v t].
        destruct IH as [H1 [H2 H3]]. simpl. rewrite E. simpl. auto.
    + specialize (IH (S k) cost). destruct (comp_assign orig (S k) a cost) as [v t].
      destruct IH as [H1 [H2 H3]]. simpl. auto.
Qed.

(** * Infinities *)
Definition xspec (h : option Q) (P : Q -> Prop) : Prop :=
  match h with
  | None => forall q, ~ P q
  | Some q => P q /\ forall q', P q' -> (q' <= q)%Q
  end.
Lemma xspec_ext h (P P' : Q -> Prop) : (forall q, P q <-> P' q) -> xspec h P -> xspec h P'.
Proof.
  intros E. destruct h as [q|]; simpl.
  - intros [A B]. split; [apply E, A|]. intros q' Hq'. apply B, E, Hq'.
  - intros A q Hq. apply (A q), E, Hq.
Qed.
Lemma max_finite_spec nr nc m :
  xspec (max_finite nr nc m) (fun q => exists r c, r < nr /\ c < nc /\ m r c = Fin q).
Proof.
  assert (Hin : forall r cols h P, xspec h P ->
    xspec (fold_left (fun acc c =>
    match m r c with
    | Inf => acc
    | Fin q => match acc with
               | None => Some q
               | Some x => if Qltb x q then Some q else acc
               end
    end) cols h) (fun q => P q \/ exists c, In c cols /\ m r c = Fin q)).
  { intros r cols. induction cols as [|c cols IH]; intros h P H; cbn [fold_left].
    - eapply xspec_ext; [|exact H]. intros q. split; [auto|]. intros [|[c [[] _]]]; auto.
    - destruct (m r c) as [q0|] eqn:E.
      + match goal with |- xspec (fold_left ?f cols ?h1) _ => 
          assert (H1 : xspec h1 (fun q => P q \/ q = q0)) end.
        { destruct h as [q|]; simpl in *.
          - destruct H as [H1 H2]. destruct (Qltb q q0) eqn:El; simpl.
            + apply Qltb_lt in El. split; [auto|]. intros q' [Hq|Hq]; [apply H2 in Hq; lra|subst; lra].
            + apply Qltb_ge in El. split; [auto|]. intros q' [Hq|Hq]; [auto|subst; lra].
          - split; [auto|]. intros q' [Hq|Hq]; [exfalso; eapply H; eauto|subst; lra]. }
        eapply xspec_ext; [|apply (IH _ _ H1)]. intros q. cbn beta. split.
        * intros [[|Hq]|[c' [A B]]]; [auto| |].
          -- subst q0. right. exists c. split; [left; reflexivity|exact E].
          -- right. exists c'. split; [right; exact A|exact B].
        * intros [|[c' [[<-|A] B]]]; [auto| |].
          -- left. right. congruence.
          -- right. exists c'; auto.
      + eapply xspec_ext; [|apply (IH _ _ H)]. intros q. cbn beta. split.
        * intros [|[c' [A B]]]; [auto|]. right. exists c'. split; [right; exact A|exact B].
        * intros [|[c' [[<-|A] B]]]; [auto|congruence|]. right. exists c'; auto. }
  unfold max_finite.
  assert (H : forall rows h P, xspec h P ->
    xspec (fold_left (fun acc r => fold_left (fun acc c =>
    match m r c with
    | Inf => acc
    | Fin q => match acc with
               | None => Some q
               | Some x => if Qltb x q then Some q else acc
               end
    end) (seq 0 nc) acc) rows h)
     (fun q => P q \/ exists r c, In r rows /\ In c (seq 0 nc) /\ m r c = Fin q)).
  { induction rows as [|r rows IH]; intros h P H; cbn [fold_left].
    - eapply xspec_ext; [|exact H]. intros q. split; [auto|]. intros [|[r [c [[] _]]]]; auto.
    - eapply xspec_ext; [|apply IH; apply Hin, H]. intros q. cbn beta. split.
      + intros [[|[c [A B]]]|[r' [c' [A B]]]]; [auto| |].
        * right. exists r, c. split; [left; reflexivity|auto].
        * right. exists r', c'. split; [right; exact A|exact B].
      + intros [|[r' [c' [[<-|A] [B B']]]]]; [auto| |].
        * left. right. exists c'. auto.
        * right. exists r', c'. auto. }
  eapply xspec_ext; [|apply (H (seq 0 nr) None (fun _ => False)); intros q []].
  intros q. cbn beta. split.
  - intros [[]|[r [c [A [B Cq]]]]]. apply in_seq in A, B. exists r, c. split; [lia|split; [lia|exact Cq]].
  - intros [r [c [A [B Cq]]]]. right. exists r, c. split; [apply in_seq; lia|split; [apply in_seq; lia|exact Cq]].
Qed.

Lemma any_entry_true nr nc m p : any_entry nr nc m p = true <->
  exists r c, r < nr /\ c < nc /\ p (m r c) = true.
Proof.
  unfold any_entry. rewrite any_lt_true. split.
  - intros [r [Hr H]]. apply any_lt_true in H as [c [Hc H]]. exists r, c; auto.
  - intros [r [c [Hr [Hc H]]]]. exists r. split; [exact Hr|]. apply any_lt_true. eauto.
Qed.
Lemma any_entry_false nr nc m p : any_entry nr nc m p = false <->
  forall r c, r < nr -> c < nc -> p (m r c) = false.
Proof.
  split.
  - intros H r c Hr Hc. destruct (p (m r c)) eqn:E; [|reflexivity].
    assert (any_entry nr nc m p = true); [|congruence]. apply any_entry_true. exists r, c; auto.
  - intros H. destruct (any_entry nr nc m p) eqn:E; [|reflexivity].
    apply any_entry_true in E as [r [c [Hr [Hc E]]]]. rewrite H in E; auto.
Qed.

(** Number arithmetic used by the big-M argument. *)
Definition Qn (n : nat) : Q := inject_Z (Z.of_nat n).
Lemma Qn_le a b : a <= b -> (Qn a <= Qn b)%Q.
Proof. intros H. unfold Qn. rewrite <- Zle_Qle. lia. Qed.
Lemma Qn_S a : (Qn (S a) == Qn a + 1)%Q.
Proof. unfold Qn. rewrite Nat2Z.inj_succ. unfold Z.succ. rewrite inject_Z_plus. reflexivity. Qed.
Lemma Qn_plus a b : (Qn (a + b) == Qn a + Qn b)%Q.
Proof. unfold Qn. rewrite Nat2Z.inj_add, inject_Z_plus. reflexivity. Qed.
Lemma Qn_pos a : 0 < a -> (1 <= Qn a)%Q.
Proof. intros H. change 1%Q with (Qn 1). apply Qn_le. lia. Qed.

Lemma pcost_bounds (c : nat -> nat -> Q) lo hi l :
  (forall r k, In (r, k) l -> lo <= c r k <= hi)%Q ->
  (lo * Qn (length l) <= pcost c l /\ pcost c l <= hi * Qn (length l))%Q.
Proof.
  intros H. unfold pcost, Qn. rewrite <- (qsum_map_const lo l), <- (qsum_map_const hi l).
  split; apply qsum_map_le; intros [r k] Hx; apply (H r k Hx).
Qed.
Lemma pcost_app c l1 l2 : (pcost c (l1 ++ l2) == pcost c l1 + pcost c l2)%Q.
Proof. unfold pcost. rewrite map_app. apply qsum_app. Qed.
Lemma pcost_filter c f l :
  (pcost c l == pcost c (filter f l) + pcost c (filter (fun x => negb (f x)) l))%Q.
Proof.
  unfold pcost. induction l as [|a l IH]; simpl; [reflexivity|].
  destruct (f a); simpl; unfold qsum in *; simpl in *; lra.
Qed.
Lemma filter_len {A} (f : A -> bool) l :
  length l = length (filter f l) + length (filter (fun x => negb (f x)) l).
Proof. induction l as [|a l IH]; simpl; [reflexivity|]. destruct (f a); simpl; lia. Qed.

Lemma bigM_arith (B mx : Q) (n k j : nat) :
  (0 <= mx)%Q -> (Qn n * mx < B)%Q -> k <= n -> j < k ->
  (B * Qn (n - j) <= mx * Qn k + B * Qn (n - k))%Q -> False.
Proof.
  intros Hmx HB Hk Hj H.
  assert (E : (Qn (n - j) == Qn (n - k) + Qn (k - j))%Q).
  { rewrite <- Qn_plus. replace (n - k + (k - j)) with (n - j) by lia. reflexivity. }
  assert (H1 : (1 <= Qn (k - j))%Q) by (apply Qn_pos; lia).
  assert (H2 : (Qn k <= Qn n)%Q) by (apply Qn_le; exact Hk).
  assert (Hn0 : (0 <= Qn n)%Q) by (change 0%Q with (Qn 0); apply Qn_le; lia).
  rewrite E in H.
  assert (HB0 : (0 < B)%Q) by nra. nra.
Qed.

(** The whole algorithm on a matrix without negative entries. *)
Lemma assign_opt2_spec (m : mat) :
  (forall r c q, r < mr m -> c < mc m -> me m r c = Fin q -> (0 <= q)%Q) ->
  exists a cost, assign_opt2 m = Ok (a, cost) /\
    is_assignment (mr m) (mc m) a /\ inf_free (me m) a /\
    (cost == assign_cost (me m) a)%Q /\
    forall b, is_assignment (mr m) (mc m) b -> inf_free (me m) b ->
      assign_size b <= assign_size a /\
      (assign_size b = assign_size a -> (assign_cost (me m) a <= assign_cost (me m) b)%Q).
Proof.
  intros Hpos. unfold assign_opt2. set (nr := mr m) in *. set (nc := mc m) in *.
  set (e := me m) in *.
  destruct (any_entry nr nc e (fun x => match x with Fin q => Qltb q 0 | Inf => false end)) eqn:En.
  { apply any_entry_true in En as [r [c [Hr [Hc En]]]]. destruct (e r c) as [q|] eqn:Ee; [|discriminate].
    apply Qltb_lt in En. specialize (Hpos r c q Hr Hc Ee). exfalso; lra. }
  destruct (any_entry nr nc e is_fin) eqn:Ef; cbn [negb].
  2: { rewrite any_entry_false in Ef. exists (repeat None nr), 0%Q.
       assert (Ep : pairs (repeat None nr) = []).
       { unfold pairs. generalize 0. clear. induction nr as [|n IH]; intros k; simpl; auto. }
       split; [reflexivity|]. split; [|split; [|split]].
       - split; [apply repeat_length|]. rewrite Ep. split; [intros r c []|constructor].
       - intros r c. rewrite Ep. intros [].
       - unfold assign_cost. rewrite Ep. reflexivity.
       - intros b Hb Hbf. assert (Eb : pairs b = []).
         { destruct (pairs b) as [|[r c] l] eqn:Eb; [reflexivity|]. exfalso.
           destruct (Hbf r c) as [q Hq]; [rewrite Eb; left; reflexivity|].
           apply assignment_plist in Hb. destruct Hb as [_ [_ Hb]].
           destruct (Hb r c) as [Hr Hc]; [rewrite Eb; left; reflexivity|].
           specialize (Ef r c Hr Hc). rewrite Hq in Ef. discriminate. }
         unfold assign_size, assign_cost. rewrite Eb, Ep. simpl. split; [lia|]. intros _. lra. }
  assert (Hdim : 0 < nr /\ 0 < nc).
  { apply any_entry_true in Ef as [r [c [Hr [Hc _]]]]. lia. }
  destruct Hdim as [Hnr Hnc].
  pose proof (max_finite_spec nr nc e) as Hmx.
  (* the matrix handed to the core *)
  assert (Hcore : exists (c : nat -> nat -> Q) (B mx : Q),
     (if any_entry nr nc e (fun x => negb (is_fin x)) then
         match max_finite nr nc e with
         | None => None
         | Some mx => Some (fun r c => match e r c with Fin q => q | Inf => inf_value nr nc mx end)
         end
       else Some (fun r c => fin_val (e r c))) = Some c /\
     (forall r k q, r < nr -> k < nc -> e r k = Fin q -> c r k = q) /\
     (forall r k, r < nr -> k < nc -> e r k = Inf -> c r k = B) /\
     (forall r k, r < nr -> k < nc -> (0 <= c r k <= B)%Q) /\
     (forall r k q, r < nr -> k < nc -> e r k = Fin q -> (q <= mx)%Q) /\
     (0 <= mx)%Q /\ (Qn (Nat.min nr nc) * mx < B)%Q).
  { destruct (max_finite nr nc e) as [mx|]; simpl in Hmx.
    2: { exfalso. apply any_entry_true in Ef as [r [c [Hr [Hc Efc]]]].
         destruct (e r c) as [q|] eqn:Ee; [|discriminate]. apply (Hmx q). exists r, c. auto. }
    destruct Hmx as [[r0 [c0 [Hr0 [Hc0 E0]]]] Hmx].
    assert (Hmx0 : (0 <= mx)%Q) by (eapply Hpos; eauto).
    assert (HB : (Qn (Nat.min nr nc) * mx < inf_value nr nc mx /\ mx <= inf_value nr nc mx)%Q).
    { unfold inf_value. assert (H1 : (Qn (Nat.min nr nc) <= Qn nr)%Q) by (apply Qn_le; lia).
      pose proof (Qn_pos nr Hnr) as H2. pose proof (Qn_pos nc Hnc) as H3.
      fold (Qn nr). fold (Qn nc). destruct (Qltb 0 mx) eqn:El.
      - apply Qltb_lt in El.
        assert (H4 : (1 <= Qn nr * Qn nc)%Q) by nra.
        assert (H5 : (Qn nr <= Qn nr * Qn nc)%Q) by nra.
        assert (H6 : (10 * mx * Qn nr * Qn nc == 10 * (mx * (Qn nr * Qn nc)))%Q) by ring.
        rewrite H6. 
        assert (H7 : (Qn (Nat.min nr nc) * mx <= mx * (Qn nr * Qn nc))%Q) by nra.
        assert (H8 : (mx <= mx * (Qn nr * Qn nc))%Q) by nra.
        split; nra.
      - apply Qltb_ge in El. assert (E : (mx == 0)%Q) by lra. split; rewrite E; lra. }
    destruct HB as [HB1 HB2].
    destruct (any_entry nr nc e (fun x => negb (is_fin x))) eqn:Ei.
    - eexists. exists (inf_value nr nc mx), mx. split; [reflexivity|]. split; [|split; [|split; [|split]]].
      + intros r k q Hr Hk Eq. rewrite Eq. reflexivity.
      + intros r k Hr Hk Eq. rewrite Eq. reflexivity.
      + intros r k Hr Hk. destruct (e r k) as [q|] eqn:Eq.
        * assert (0 <= q)%Q by (eapply (Hpos r k); eauto).
          assert (q <= mx)%Q by (apply Hmx; exists r, k; auto). lra.
        * lra.
      + intros r k q Hr Hk Eq. apply Hmx; exists r, k; auto.
      + auto.
    - rewrite any_entry_false in Ei.
      eexists. exists (inf_value nr nc mx), mx. split; [reflexivity|]. split; [|split; [|split; [|split]]].
      + intros r k q Hr Hk Eq. rewrite Eq. reflexivity.
      + intros r k Hr Hk Eq. specialize (Ei r k Hr Hk). rewrite Eq in Ei. discriminate.
      + intros r k Hr Hk. destruct (e r k) as [q|] eqn:Eq.
        * assert (0 <= q)%Q by (eapply (Hpos r k); eauto).
          assert (q <= mx)%Q by (apply Hmx; exists r, k; auto). simpl. lra.
        * specialize (Ei r k Hr Hk). rewrite Eq in Ei. discriminate.
      + intros r k q Hr Hk Eq. apply Hmx; exists r, k; auto.
      + auto. }
  destruct Hcore as [c [B [mx [Ec [Cf [Ci [Cb [Cm [Hm0 HB]]]]]]]]]. rewrite Ec. clear Ec.
  destruct (solve_spec nr nc c Hnr Hnc) as [star [Es Hs]]. rewrite Es. cbn [bind].
  pose proof (comp_assign_spec e (build_assign nr nc star) 0 0%Q) as Hca.
  destruct (comp_assign e 0 (build_assign nr nc star) 0%Q) as [a t].
  destruct Hca as [Ha1 [Ha2 Ha3]]. fold (pairs a) in Ha2, Ha3. fold (pairs (build_assign nr nc star)) in Ha2.
  pose proof Hs as [dist [u [v [Hd [Hm [Hsl Hn]]]]]].
  destruct (build_assign_plist nr nc dist star Hm) as [Hpl Hlen].
  set (l := pairs (build_assign nr nc star)) in *.
  set (fin := fun rc : nat * nat => is_fin (e (fst rc) (snd rc))) in *.
  assert (Hfin : forall r k, In (r, k) (filter fin l) <-> In (r, k) l /\ exists q, e r k = Fin q).
  { intros r k. rewrite filter_In. unfold fin; simpl. destruct (e r k) as [q|]; simpl.
    - split; [intros [A _]; eauto|tauto].
    - split; [intros [_ A]; discriminate|intros [_ [q A]]; discriminate]. }
  assert (NDmap : forall {X Y} (g : X -> Y) f (ll : list X), NoDup (map g ll) -> NoDup (map g (filter f ll))).
  { intros X Y g f ll. induction ll as [|x ll IH]; simpl; intros H; [constructor|].
    inversion H; subst. destruct (f x); simpl; [|auto]. constructor; [|auto].
    intros Hin. apply H2. apply in_map_iff in Hin as [y [Ey Hy]]. apply filter_In in Hy.
    apply in_map_iff. exists y; tauto. }
  exists a, t. split; [reflexivity|]. split; [|split; [|split]].
  - split; [rewrite Ha1; unfold build_assign; rewrite map_length, seq_length; reflexivity|].
    rewrite Ha2. split.
    + intros r k H. apply Hfin in H as [H _]. destruct Hpl as [_ [_ Hpl]]. apply (Hpl r k H).
    + apply NDmap. apply Hpl.
  - intros r k. rewrite Ha2. intros H. apply Hfin in H. tauto.
  - rewrite Ha3. unfold assign_cost. lra.
  - intros b Hb Hbf. pose proof (assignment_plist _ _ _ Hb) as Hbp.
    pose proof (plist_le _ _ _ Hbp) as Hbl.
    destruct (extend_full nr nc (pairs b) Hbp Hbl) as [ex [Hex Hexl]].
    assert (Hopt : (pcost c l <= pcost c (ex ++ pairs b))%Q).
    { apply (solved_optimal nr nc c star); auto; [|lia].
      intros r k. apply (build_assign_pairs nr nc dist star r k Hm). }
    assert (Eq_fin : forall ll, (forall r k, In (r, k) ll -> r < nr /\ k < nc) ->
       (forall r k, In (r, k) ll -> exists q, e r k = Fin q) ->
       (pcost c ll == qsum (map (fun rc => fin_val (e (fst rc) (snd rc))) ll))%Q).
    { intros ll H1 H2. apply qsum_map_eq. intros [r k] H. simpl. destruct (H2 r k H) as [q Eq].
      destruct (H1 r k H). rewrite (Cf r k q), Eq by auto. reflexivity. }
    assert (Ecb : (pcost c (pairs b) == assign_cost e b)%Q).
    { apply Eq_fin; [apply Hbp|exact Hbf]. }
    assert (Eca : (pcost c (filter fin l) == assign_cost e a)%Q).
    { unfold assign_cost. rewrite Ha2. apply Eq_fin.
      - intros r k H. apply Hfin in H as [H _]. apply Hpl, H.
      - intros r k H. apply Hfin in H. tauto. }
    assert (Esa : assign_size a = length (filter fin l)) by (unfold assign_size; rewrite Ha2; reflexivity).
    unfold assign_size at 1 3. rewrite Esa.
    set (lf := filter fin l) in *. set (li := filter (fun x => negb (fin x)) l).
    assert (Eli : (pcost c li == B * Qn (length li))%Q).
    { unfold pcost. transitivity (qsum (map (fun _ : nat * nat => B) li)); [|apply qsum_map_const].
      apply qsum_map_eq. intros [r k] H. unfold li in H. apply filter_In in H as [H1 H2].
      unfold fin in H2. simpl in *. destruct (e r k) eqn:Eq; [discriminate|].
      destruct Hpl as [_ [_ Hpl]]. destruct (Hpl r k H1). rewrite Ci by auto. reflexivity. }
    assert (Elen : length li = Nat.min nr nc - length lf).
    { pose proof (filter_len fin l) as H. fold lf li in H. lia. }
    assert (Eex : length ex = Nat.min nr nc - length (pairs b)) by (rewrite app_length in Hexl; lia).
    assert (Bex : (pcost c ex <= B * Qn (length ex))%Q).
    { apply (pcost_bounds c 0%Q B ex). intros r k H. destruct Hex as [_ [_ Hex]].
      destruct (Hex r k) as [X1 X2]; [apply in_app_iff; auto|]. apply Cb; assumption. }
    rewrite (pcost_filter c fin l) in Hopt. fold lf li in Hopt.
    rewrite Eli, Elen, pcost_app in Hopt. rewrite Eex in Bex.
    split.
    + destruct (Nat.le_gt_cases (length (pairs b)) (length lf)) as [|Hgt]; [assumption|]. exfalso.
      apply (bigM_arith B mx (Nat.min nr nc) (length (pairs b)) (length lf)); auto.
      assert (Bb : (pcost c (pairs b) <= mx * Qn (length (pairs b)))%Q).
      { apply (pcost_bounds c 0%Q mx). intros r k H. destruct (Hbf r k H) as [q Eq].
        destruct Hbp as [_ [_ Hbp]]. destruct (Hbp r k H). rewrite (Cf r k q) by auto.
        split; [eapply (Hpos r k); eauto|eapply (Cm r k); eauto]. }
      assert (Bl : (0 * Qn (length lf) <= pcost c lf)%Q).
      { apply (pcost_bounds c 0%Q B). intros r k H. apply Hfin in H as [H _].
        destruct Hpl as [_ [_ Hpl]]. destruct (Hpl r k H). apply Cb; auto. }
      lra.
    + intros Esz. rewrite Esz in Bex. rewrite <- Eca, <- Ecb. lra.
Qed.

Lemma assign_opt2_neg (m : mat) :
  (exists r c q, r < mr m /\ c < mc m /\ me m r c = Fin q /\ (q < 0)%Q) ->
  assign_opt2 m = Err RuntimeErr.
Proof.
  intros [r [c [q [Hr [Hc [Eq Hq]]]]]]. unfold assign_opt2.
  assert (E : any_entry (mr m) (mc m) (me m) (fun e => match e with Fin q => Qltb q 0 | Inf => false end) = true).
  { apply any_entry_true. exists r, c. rewrite Eq. repeat split; auto. apply Qltb_lt, Hq. }
  rewrite E. reflexivity.
Qed.

(** Full size when everything is finite. *)
Lemma pairs_from_app a b k : pairs_from k (a ++ b) = pairs_from k a ++ pairs_from (k + length a) b.
Proof.
  revert k. induction a as [|o a IH]; intros k; simpl; [rewrite Nat.add_0_r; reflexivity|].
  rewrite IH. replace (S k + length a) with (k + S (length a)) by lia. destruct o; reflexivity.
Qed.
Definition diag_assign (nr nc : nat) : list (option nat) :=
  map (fun r => if r <? nc then Some r else None) (seq 0 nr).
Lemma diag_pairs nr nc : pairs (diag_assign nr nc) = map (fun r => (r, r)) (seq 0 (Nat.min nr nc)).
Proof.
  induction nr as [|n IH]; [reflexivity|].
  unfold pairs, diag_assign in *. rewrite seq_S, map_app, pairs_from_app, map_length, seq_length.
  rewrite IH. cbn [map pairs_from]. rewrite !Nat.add_0_l. destruct (Nat.ltb_spec n nc) as [H|H].
  - rewrite (Nat.min_l n nc), (Nat.min_l (S n) nc) by lia.
    rewrite (seq_S n 0), map_app. reflexivity.
  - cbn [pairs_from]. rewrite app_nil_r. rewrite !Nat.min_r by lia. reflexivity.
Qed.
Lemma diag_assignment nr nc :
  is_assignment nr nc (diag_assign nr nc) /\ assign_size (diag_assign nr nc) = Nat.min nr nc.
Proof.
  split; [|unfold assign_size; rewrite diag_pairs, map_length, seq_length; reflexivity].
  split; [unfold diag_assign; rewrite map_length, seq_length; reflexivity|].
  rewrite diag_pairs. split.
  - intros r c H. apply in_map_iff in H as [x [E H]]. inversion E; subst. apply in_seq in H. lia.
  - rewrite map_map, map_id. apply seq_NoDup.
Qed.
