(** Generic list and rational-sum lemmas shared by the filter proofs. *)
From Verif Require Import Base.
From Coq Require Import Permutation Sorted.

Lemma qs_cons x l : (qsum (x :: l) == x + qsum l)%Q.
Proof. reflexivity. Qed.
Lemma qs_app l1 l2 : (qsum (l1 ++ l2) == qsum l1 + qsum l2)%Q.
Proof. induction l1 as [|x l IH]; [cbn [app]; change (qsum []) with 0%Q; ring|]. cbn [app]. rewrite !qs_cons, IH. ring. Qed.
Lemma qs_perm l1 l2 : Permutation l1 l2 -> (qsum l1 == qsum l2)%Q.
Proof.
  induction 1; [reflexivity|rewrite !qs_cons, IHPermutation; reflexivity|rewrite !qs_cons; ring|].
  rewrite IHPermutation1. assumption.
Qed.
Lemma qs_ext {A} (f g : A -> Q) l : (forall x, In x l -> (f x == g x)%Q) -> (qsum (map f l) == qsum (map g l))%Q.
Proof.
  induction l as [|x l IH]; intros H; [reflexivity|]. cbn [map]. rewrite !qs_cons.
  rewrite (H x) by (left; reflexivity). rewrite IH; [reflexivity|]. intros y Hy. apply H. right; exact Hy.
Qed.
Lemma qs_le {A} (f g : A -> Q) l : (forall x, In x l -> (f x <= g x)%Q) -> (qsum (map f l) <= qsum (map g l))%Q.
Proof.
  induction l as [|x l IH]; intros H; [apply Qle_refl|]. cbn [map]. rewrite !qs_cons.
  pose proof (H x (or_introl eq_refl)). assert (qsum (map f l) <= qsum (map g l))%Q; [|lra].
  apply IH. intros y Hy. apply H. right; exact Hy.
Qed.
Lemma qs_scale a l : (qsum (map (fun x => a * x) l) == a * qsum l)%Q.
Proof. induction l as [|x l IH]; [change (qsum []) with 0%Q; cbn [map]; change (qsum []) with 0%Q; ring|]. cbn [map]. rewrite !qs_cons, IH. ring. Qed.
Lemma qs_scalef {A} a (f : A -> Q) l : (qsum (map (fun x => a * f x) l) == a * qsum (map f l))%Q.
Proof. rewrite <- qs_scale, map_map. reflexivity. Qed.
Lemma qs_plus {A} (f g : A -> Q) l : (qsum (map (fun x => f x + g x) l) == qsum (map f l) + qsum (map g l))%Q.
Proof. induction l as [|x l IH]; [reflexivity|]. cbn [map]. rewrite !qs_cons, IH. ring. Qed.
Lemma qs_zero {A} (f : A -> Q) l : (forall x, In x l -> (f x == 0)%Q) -> (qsum (map f l) == 0)%Q.
Proof.
  induction l as [|x l IH]; intros H; [reflexivity|]. cbn [map]. rewrite qs_cons.
  rewrite (H x) by (left; reflexivity). rewrite IH; [ring|]. intros y Hy. apply H. right; exact Hy.
Qed.
Lemma qs_nonneg l : (forall x, In x l -> (0 <= x)%Q) -> (0 <= qsum l)%Q.
Proof.
  induction l as [|x l IH]; intros H; [apply Qle_refl|]. rewrite qs_cons.
  pose proof (H x (or_introl eq_refl)). assert (0 <= qsum l)%Q; [|lra].
  apply IH. intros y Hy. apply H. right; exact Hy.
Qed.
Lemma qs_pos l : l <> [] -> (forall x, In x l -> (0 < x)%Q) -> (0 < qsum l)%Q.
Proof.
  destruct l as [|x l]; [congruence|]. intros _ H. rewrite qs_cons.
  pose proof (H x (or_introl eq_refl)). assert (0 <= qsum l)%Q; [|lra].
  apply qs_nonneg. intros y Hy. apply Qlt_le_weak, H. right; exact Hy.
Qed.
Lemma qs_const {A} (a : Q) (l : list A) : (qsum (map (fun _ => a) l) == inject_Z (Z.of_nat (length l)) * a)%Q.
Proof.
  induction l as [|x l IH]; [cbn [map length]; change (qsum []) with 0%Q; change (inject_Z (Z.of_nat 0)) with 0%Q; ring|].
  cbn [map length]. rewrite qs_cons, IH, Nat2Z.inj_succ. unfold Z.succ. rewrite inject_Z_plus. change (inject_Z 1) with 1%Q. ring.
Qed.
Lemma qs_concat (ll : list (list Q)) : (qsum (concat ll) == qsum (map qsum ll))%Q.
Proof. induction ll as [|l ll IH]; [reflexivity|]. cbn [concat map]. rewrite qs_app, qs_cons, IH. reflexivity. Qed.
Lemma qs_flat_map {A} (f : A -> list Q) l : (qsum (flat_map f l) == qsum (map (fun x => qsum (f x)) l))%Q.
Proof. induction l as [|x l IH]; [reflexivity|]. cbn [flat_map map]. rewrite qs_app, qs_cons, IH. reflexivity. Qed.

(** Lists as functions of the index. *)
Lemma map_nth_seq {A} (l : list A) d : map (fun i => nth i l d) (seq 0 (length l)) = l.
Proof.
  induction l as [|x l IH]; [reflexivity|]. cbn [length seq map nth]. f_equal.
  rewrite <- seq_shift, map_map. exact IH.
Qed.
Lemma combine_seq {A} (l : list A) d : combine (seq 0 (length l)) l = map (fun i => (i, nth i l d)) (seq 0 (length l)).
Proof.
  assert (H : forall s, combine (seq s (length l)) l = map (fun i => (s + i, nth i l d)) (seq 0 (length l))).
  { induction l as [|x l IH]; intros s; [reflexivity|]. cbn [length seq combine map nth]. f_equal; [f_equal; lia|].
    rewrite (IH (S s)). rewrite <- (seq_shift (length l) 0), map_map. apply map_ext. intros i. cbn [nth]. f_equal. lia. }
  rewrite (H 0). apply map_ext. intros i. reflexivity.
Qed.
Lemma combine_map2 {A B C} (f : A -> B) (g : A -> C) l : combine (map f l) (map g l) = map (fun x => (f x, g x)) l.
Proof. induction l as [|x l IH]; [reflexivity|]. cbn. rewrite IH. reflexivity. Qed.
Lemma combine_nth2 {A B} (l : list A) (l' : list B) d d' : length l = length l' ->
  combine l l' = map (fun i => (nth i l d, nth i l' d')) (seq 0 (length l)).
Proof.
  intros H. rewrite <- (map_nth_seq l d) at 1. rewrite <- (map_nth_seq l' d') at 1. rewrite <- H. apply combine_map2.
Qed.
Lemma filter_map {A B} (f : B -> bool) (g : A -> B) l : filter f (map g l) = map g (filter (fun x => f (g x)) l).
Proof. induction l as [|x l IH]; [reflexivity|]. cbn. destruct (f (g x)); cbn; rewrite IH; reflexivity. Qed.
Lemma filter_nth_seq {A} (f : A -> bool) l d :
  filter f l = map (fun i => nth i l d) (filter (fun i => f (nth i l d)) (seq 0 (length l))).
Proof. rewrite <- filter_map, map_nth_seq. reflexivity. Qed.
Lemma filter_ext_seq (f g : nat -> bool) n : (forall i, i < n -> f i = g i) -> filter f (seq 0 n) = filter g (seq 0 n).
Proof. intros H. apply filter_ext_in. intros i Hi. apply in_seq in Hi. apply H. lia. Qed.
Lemma nth_map_seq {A} (f : nat -> A) n i d : i < n -> nth i (map f (seq 0 n)) d = f i.
Proof.
  intros H. rewrite (nth_indep _ d (f 0)) by (rewrite map_length, seq_length; exact H).
  rewrite map_nth, seq_nth by exact H. reflexivity.
Qed.
Lemma nth_map' {A B} (f : A -> B) l i d d' : i < length l -> nth i (map f l) d = f (nth i l d').
Proof.
  intros H. rewrite (nth_indep _ d (f d')) by (rewrite map_length; exact H). apply map_nth.
Qed.
Lemma existsb_eqb i l : existsb (Nat.eqb i) l = true <-> In i l.
Proof.
  rewrite existsb_exists. split; [intros [x [H E]]; apply Nat.eqb_eq in E; subst; exact H|].
  intros H. exists i. split; [exact H|apply Nat.eqb_refl].
Qed.
Lemma existsb_eqb_false i l : existsb (Nat.eqb i) l = false <-> ~ In i l.
Proof. rewrite <- existsb_eqb. destruct (existsb (Nat.eqb i) l); split; congruence. Qed.

(** Sorted lists of naturals with the same elements are equal. *)
Lemma ss_unique : forall l l' : list nat, StronglySorted lt l -> StronglySorted lt l' ->
  (forall x, In x l <-> In x l') -> l = l'.
Proof.
  induction l as [|a l IH]; intros l' Hs Hs' H.
  - destruct l' as [|b l']; [reflexivity|]. exfalso. apply (H b). left; reflexivity.
  - destruct l' as [|b l']; [exfalso; apply (H a); left; reflexivity|].
    inversion Hs as [|? ? S1 S2]; subst. inversion Hs' as [|? ? S1' S2']; subst. rewrite Forall_forall in S2, S2'.
    assert (E : a = b).
    { pose proof (proj1 (H a) (or_introl eq_refl)) as [->|Ha]; [reflexivity|].
      pose proof (proj2 (H b) (or_introl eq_refl)) as [->|Hb]; [reflexivity|].
      specialize (S2 b Hb). specialize (S2' a Ha). lia. }
    subst b. f_equal. apply IH; auto. intros x. split; intros Hx.
    + pose proof (proj1 (H x) (or_intror Hx)) as [E|H']; [|exact H']. subst x. specialize (S2 a Hx). lia.
    + pose proof (proj2 (H x) (or_intror Hx)) as [E|H']; [|exact H']. subst x. specialize (S2' a Hx). lia.
Qed.
Lemma ss_seq s n : StronglySorted lt (seq s n).
Proof.
  revert s. induction n as [|n IH]; intros s; cbn [seq]; constructor; [apply IH|].
  apply Forall_forall. intros x Hx. apply in_seq in Hx. lia.
Qed.
Lemma ss_filter f l : StronglySorted lt l -> StronglySorted lt (filter f l).
Proof.
  induction 1 as [|a l S IH F]; cbn [filter]; [constructor|]. destruct (f a); [|exact IH].
  constructor; [exact IH|]. rewrite Forall_forall in *. intros x Hx. apply filter_In in Hx. apply F. tauto.
Qed.
Lemma ss_nodup l : StronglySorted lt l -> NoDup l.
Proof.
  induction 1 as [|a l S IH F]; constructor; [|exact IH]. intros H. rewrite Forall_forall in F. specialize (F a H). lia.
Qed.
Lemma filter_partition_perm {A} (f : A -> bool) l : Permutation (filter f l ++ filter (fun x => negb (f x)) l) l.
Proof.
  induction l as [|x l IH]; [constructor|]. cbn. destruct (f x); cbn; [constructor; exact IH|].
  rewrite <- Permutation_middle. constructor; exact IH.
Qed.
Lemma nth_skipn' {A} (l : list A) : forall k a d, nth a (skipn k l) d = nth (k + a) l d.
Proof.
  induction l as [|x l IH]; intros k a d; [rewrite skipn_nil; destruct a; destruct (k + _); reflexivity|].
  destruct k as [|k]; [reflexivity|]. cbn [skipn Nat.add nth]. apply IH.
Qed.
Lemma nth_firstn' {A} (l : list A) : forall k a d, a < k -> nth a (firstn k l) d = nth a l d.
Proof.
  induction l as [|x l IH]; intros k a d H; [rewrite firstn_nil; reflexivity|].
  destruct k as [|k]; [lia|]. destruct a as [|a]; [reflexivity|]. cbn [firstn nth]. apply IH. lia.
Qed.
Lemma filter_len_le {A} (f : A -> bool) l : length (filter f l) <= length l.
Proof. induction l as [|x l IH]; cbn; [lia|]. destruct (f x); cbn; lia. Qed.
Lemma filter_len_lt {A} (f : A -> bool) l x : In x l -> f x = false -> length (filter f l) < length l.
Proof.
  induction l as [|a l IH]; intros H E; [destruct H|]. cbn [filter]. pose proof (filter_len_le f l).
  destruct H as [->|H]; [rewrite E; cbn; lia|]. specialize (IH H E). destruct (f a); cbn; lia.
Qed.
