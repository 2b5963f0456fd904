(** Lemmas about the OSPA model. *)
From Verif Require Import Base Lists OspaModel OspaSpec.
From Coq Require Import Reals Lra Permutation FinFun.
Open Scope R_scope.

(** ** sums *)
Lemma rsum_cons x l : rsum (x :: l) = x + rsum l.
Proof. reflexivity. Qed.
Lemma rsum_app l1 l2 : rsum (l1 ++ l2) = rsum l1 + rsum l2.
Proof. induction l1 as [|x l IH]; cbn [app]; [change (rsum []) with 0; ring|]. rewrite !rsum_cons, IH. ring. Qed.
Lemma rsum_perm l1 l2 : Permutation l1 l2 -> rsum l1 = rsum l2.
Proof. induction 1; rewrite ?rsum_cons in *; try lra; congruence. Qed.
Lemma rsum_ext {A} (f g : A -> R) l : (forall x, In x l -> f x = g x) -> rsum (map f l) = rsum (map g l).
Proof. intros H. f_equal. apply map_ext_in. exact H. Qed.
Lemma rsum_le {A} (f g : A -> R) l : (forall x, In x l -> f x <= g x) -> rsum (map f l) <= rsum (map g l).
Proof.
  induction l as [|x l IH]; intros H; [right; reflexivity|]. cbn [map]. rewrite !rsum_cons.
  pose proof (H x (or_introl eq_refl)). assert (rsum (map f l) <= rsum (map g l)); [|lra].
  apply IH. intros y Hy. apply H. right; exact Hy.
Qed.
Lemma rsum_const {A} (v : R) (l : list A) : rsum (map (fun _ => v) l) = INR (length l) * v.
Proof. induction l as [|x l IH]; [cbn; ring|]. cbn [map length]. rewrite rsum_cons, IH, S_INR. ring. Qed.
Lemma rsum_nonneg l : (forall x, In x l -> 0 <= x) -> 0 <= rsum l.
Proof.
  induction l as [|x l IH]; intros H; [right; reflexivity|]. rewrite rsum_cons.
  pose proof (H x (or_introl eq_refl)). assert (0 <= rsum l); [|lra].
  apply IH. intros y Hy. apply H. right; exact Hy.
Qed.
Lemma rsumn_ext n f g : (forall i, (i < n)%nat -> f i = g i) -> rsumn n f = rsumn n g.
Proof. induction n as [|n IH]; intros H; [reflexivity|]. cbn. rewrite IH, H; auto. Qed.
Lemma rsumn_nonneg n f : (forall i, (i < n)%nat -> 0 <= f i) -> 0 <= rsumn n f.
Proof.
  induction n as [|n IH]; intros H; [right; reflexivity|]. cbn. pose proof (H n (Nat.lt_succ_diag_r n)).
  assert (0 <= rsumn n f); [|lra]. apply IH. auto.
Qed.
Lemma rsumn_zero n f : (forall i, (i < n)%nat -> f i = 0) -> rsumn n f = 0.
Proof. induction n as [|n IH]; intros H; [reflexivity|]. cbn. rewrite IH, H by auto. ring. Qed.

(** ** roots *)
Lemma root_0 p : root p 0 = 0.
Proof. unfold root. destruct (Req_EM_T 0 0); congruence. Qed.
Lemma root_nonneg p x : 0 <= root p x.
Proof. unfold root. destruct (Req_EM_T x 0); [right; reflexivity|]. left. apply exp_pos. Qed.
Lemma root_pow p x : (1 <= p)%nat -> 0 <= x -> root p (x ^ p) = x.
Proof.
  intros Hp Hx. unfold root. destruct (Req_dec x 0) as [->|Hn].
  - rewrite pow_i by lia. destruct (Req_EM_T 0 0); congruence.
  - assert (0 < x) by lra. pose proof (pow_lt x p H). destruct (Req_EM_T (x ^ p) 0); [lra|].
    rewrite <- Rpower_pow, Rpower_mult, Rinv_r, Rpower_1 by (assumption || (apply not_0_INR; lia)). reflexivity.
Qed.
Lemma pow_root p x : (1 <= p)%nat -> 0 <= x -> root p x ^ p = x.
Proof.
  intros Hp Hx. unfold root. destruct (Req_EM_T x 0) as [->|Hn]; [apply pow_i; lia|].
  assert (0 < x) by lra. rewrite <- Rpower_pow by apply exp_pos.
  rewrite Rpower_mult, Rinv_l, Rpower_1 by (assumption || (apply not_0_INR; lia)). reflexivity.
Qed.
Lemma root_le p x y : 0 <= x -> x <= y -> root p x <= root p y.
Proof.
  intros Hx Hy. unfold root. destruct (Req_EM_T x 0), (Req_EM_T y 0); try lra.
  - left. apply exp_pos.
  - destruct p as [|p].
    + replace (/ INR 0) with 0 by (cbn; now rewrite Rinv_0). rewrite !Rpower_O by lra. lra.
    + apply Rle_Rpower_l; [|lra]. left. apply Rinv_0_lt_compat. apply lt_0_INR. lia.
Qed.
Lemma root_1 x : 0 <= x -> root 1 x = x.
Proof. intros H. rewrite <- (root_pow 1 x) at 2; [|lia|exact H]. now rewrite pow_1. Qed.

(** ** assignments *)
Definition flip (a : list (nat * nat)) := map (fun ij => (snd ij, fst ij)) a.
Lemma assignment_flip m n a : assignment m n a -> assignment n m (flip a).
Proof.
  intros [H1 [H2 [H3 H4]]]. unfold assignment, flip. rewrite !map_map. cbn [fst snd]. split; [exact H2|]. split; [exact H1|].
  split; [|rewrite map_length; lia].
  intros i j Hi. apply in_map_iff in Hi as [[a1 b1] [E Hi]]. injection E as <- <-. apply H3 in Hi. tauto.
Qed.
Lemma cost_flip C a : cost (fun i j => C j i) (flip a) = cost C a.
Proof. unfold cost, flip. rewrite map_map. reflexivity. Qed.
Lemma assignment_id m n : assignment m n (map (fun i => (i, i)) (seq 0 (Nat.min m n))).
Proof.
  unfold assignment. rewrite !map_map. cbn [fst snd]. rewrite map_id. split; [apply seq_NoDup|]. split; [apply seq_NoDup|].
  split; [|rewrite map_length; apply seq_length]. intros i j Hi. apply in_map_iff in Hi as [k [E Hk]].
  injection E as <- <-. apply in_seq in Hk. lia.
Qed.
Lemma NoDup_map_in {A B} (f : A -> B) l : NoDup l -> (forall x y, In x l -> In y l -> f x = f y -> x = y) -> NoDup (map f l).
Proof.
  induction 1 as [|x l Hx H IH]; intros Hf; cbn; constructor.
  - intros Hi. apply in_map_iff in Hi as [y [E Hy]]. apply Hf in E; [subst; contradiction|right; exact Hy|left; reflexivity].
  - apply IH. intros a b Ha Hb. apply Hf; right; assumption.
Qed.
Lemma assignment_reindex m n f g a :
  bFun m f -> bInjective m f -> bFun n g -> bInjective n g ->
  assignment m n a -> assignment m n (map (fun ij => (f (fst ij), g (snd ij))) a).
Proof.
  intros F1 F2 G1 G2 [H1 [H2 [H3 H4]]]. unfold assignment. rewrite !map_map. cbn [fst snd].
  assert (E1 : map (fun x => f (fst x)) a = map f (map fst a)) by (rewrite map_map; reflexivity).
  assert (E2 : map (fun x => g (snd x)) a = map g (map snd a)) by (rewrite map_map; reflexivity).
  rewrite E1, E2. split.
  { apply NoDup_map_in; [exact H1|]. intros x y Hx Hy.
    apply in_map_iff in Hx as [[x1 x2] [<- Hx]]. apply in_map_iff in Hy as [[y1 y2] [<- Hy]].
    apply H3 in Hx, Hy. apply F2; cbn; tauto. }
  split.
  { apply NoDup_map_in; [exact H2|]. intros x y Hx Hy.
    apply in_map_iff in Hx as [[x1 x2] [<- Hx]]. apply in_map_iff in Hy as [[y1 y2] [<- Hy]].
    apply H3 in Hx, Hy. apply G2; cbn; tauto. }
  split; [|rewrite map_length; exact H4]. intros i j Hi. apply in_map_iff in Hi as [[x y] [E Hi]]. cbn in E.
  injection E as <- <-. apply H3 in Hi. split; [apply F1|apply G1]; tauto.
Qed.
Lemma cost_ext m n C C' a : assignment m n a -> (forall i j, (i < m)%nat -> (j < n)%nat -> C i j = C' i j) -> cost C a = cost C' a.
Proof.
  intros [_ [_ [H _]]] E. apply rsum_ext. intros [i j] Hi. apply H in Hi. apply E; tauto.
Qed.
Lemma least_cost_unique m n C C' v v' : (forall i j, (i < m)%nat -> (j < n)%nat -> C i j = C' i j) ->
  least_cost m n C v -> least_cost m n C' v' -> v = v'.
Proof.
  intros E [[a [Ha <-]] Hm] [[b [Hb <-]] Hm'].
  apply Rle_antisym.
  - rewrite <- (cost_ext _ _ _ _ _ Hb E). apply Hm, Hb.
  - rewrite (cost_ext _ _ _ _ _ Ha E). apply Hm', Ha.
Qed.
Lemma least_cost_flip m n C v : least_cost m n C v -> least_cost n m (fun i j => C j i) v.
Proof.
  intros [[a [Ha <-]] Hm]. split.
  - exists (flip a). split; [apply assignment_flip, Ha|apply cost_flip].
  - intros b Hb. rewrite <- (cost_flip (fun i j => C j i) b). apply Hm, assignment_flip, Hb.
Qed.
Lemma least_cost_ext m n C C' v : (forall i j, (i < m)%nat -> (j < n)%nat -> C i j = C' i j) ->
  least_cost m n C v -> least_cost m n C' v.
Proof.
  intros E [[a [Ha <-]] Hm]. split.
  - exists a. split; [exact Ha|]. symmetry. apply (cost_ext m n); assumption.
  - intros b Hb. rewrite <- (cost_ext _ _ _ _ _ Hb E). apply Hm, Hb.
Qed.
Lemma cost_bounds m n C a lo hi : assignment m n a ->
  (forall i j, (i < m)%nat -> (j < n)%nat -> lo <= C i j <= hi) ->
  INR (Nat.min m n) * lo <= cost C a <= INR (Nat.min m n) * hi.
Proof.
  intros [_ [_ [H L]]] E. rewrite <- L. rewrite <- !(rsum_const _ a). unfold cost. split; apply rsum_le; intros [i j] Hi; apply H in Hi; apply E; tauto.
Qed.

Lemma least_bounds m n C v hi : least_cost m n C v ->
  (forall i j, (i < m)%nat -> (j < n)%nat -> 0 <= C i j <= hi) -> 0 <= v <= INR (Nat.min m n) * hi.
Proof.
  intros [[a [Ha <-]] _] H. destruct (cost_bounds m n C a 0 hi Ha H) as [H1 H2]. rewrite Rmult_0_r in H1. split; assumption.
Qed.

(** Least costs of lists with the same elements in another order. *)
Lemma least_cost_perm {A B} (d : A -> B -> R) X X' Y Y' x0 y0 v v' :
  Permutation X X' -> Permutation Y Y' ->
  least_cost (length X) (length Y) (fun i j => d (nth i X x0) (nth j Y y0)) v ->
  least_cost (length X') (length Y') (fun i j => d (nth i X' x0) (nth j Y' y0)) v' -> v = v'.
Proof.
  assert (W : forall X X' Y Y' v v', Permutation X X' -> Permutation Y Y' ->
    least_cost (length X) (length Y) (fun i j => d (nth i X x0) (nth j Y y0)) v ->
    least_cost (length X') (length Y') (fun i j => d (nth i X' x0) (nth j Y' y0)) v' -> v <= v').
  { clear. intros X X' Y Y' v v' PX PY [_ Hm] [[b [Hb <-]] _].
    apply (Permutation_nth _ _ x0) in PX as [LX [f [F1 [F2 F3]]]].
    apply (Permutation_nth _ _ y0) in PY as [LY [g [G1 [G2 G3]]]]. rewrite LX, LY in *.
    pose proof (assignment_reindex _ _ f g b F1 F2 G1 G2 Hb) as Ha.
    replace (cost _ b) with (cost (fun i j => d (nth i X x0) (nth j Y y0)) (map (fun ij => (f (fst ij), g (snd ij))) b)); [apply Hm, Ha|].
    unfold cost. rewrite map_map. cbn [fst snd]. apply rsum_ext. intros [i j] Hi. destruct Hb as [_ [_ [H3 _]]]. apply H3 in Hi.
    cbn [fst snd]. rewrite F3, G3 by tauto. reflexivity. }
  intros. apply Rle_antisym; [eapply W; eassumption|].
  eapply W; [apply Permutation_sym; eassumption|apply Permutation_sym; eassumption|eassumption|eassumption].
Qed.

(** ** a linear_sum_assignment exists (exhaustive search) *)
Fixpoint all_lists {A} (k : nat) (L : list A) : list (list A) :=
  match k with O => [[]] | S k' => flat_map (fun x => map (cons x) (all_lists k' L)) L end.
Lemma all_lists_spec {A} (L : list A) : forall k a, length a = k -> incl a L -> In a (all_lists k L).
Proof.
  induction k as [|k IH]; intros a Hl Hi; destruct a as [|x a]; try discriminate; cbn; [left; reflexivity|].
  apply in_flat_map. exists x. split; [apply Hi; left; reflexivity|]. apply in_map. apply IH; [cbn in Hl; lia|].
  intros y Hy. apply Hi. right; exact Hy.
Qed.
Fixpoint nodupb (l : list nat) : bool :=
  match l with [] => true | x :: l' => negb (existsb (Nat.eqb x) l') && nodupb l' end.
Lemma nodupb_spec l : nodupb l = true <-> NoDup l.
Proof.
  induction l as [|x l IH]; cbn; [split; [constructor|reflexivity]|]. rewrite andb_true_iff, negb_true_iff, existsb_eqb_false, IH.
  split; [intros [H1 H2]; constructor; assumption|intros H; inversion H; auto].
Qed.
Definition assignmentb (m n : nat) (a : list (nat * nat)) : bool :=
  nodupb (map fst a) && nodupb (map snd a) &&
  forallb (fun ij => (fst ij <? m)%nat && (snd ij <? n)%nat) a && (length a =? Nat.min m n)%nat.
Lemma assignmentb_spec m n a : assignmentb m n a = true <-> assignment m n a.
Proof.
  unfold assignmentb, assignment. rewrite !andb_true_iff, !nodupb_spec, Nat.eqb_eq, forallb_forall.
  assert (E : (forall x, In x a -> (fst x <? m)%nat && (snd x <? n)%nat = true) <-> (forall i j, In (i, j) a -> (i < m /\ j < n)%nat)).
  { split; intros H; [intros i j Hi; apply H in Hi; cbn [fst snd] in Hi; rewrite andb_true_iff, !Nat.ltb_lt in Hi; exact Hi|].
    intros [i j] Hi. rewrite andb_true_iff, !Nat.ltb_lt. apply H, Hi. }
  rewrite E. tauto.
Qed.
Fixpoint argmin {A} (f : A -> R) (x : A) (l : list A) : A :=
  match l with [] => x | y :: l' => argmin f (if Rlt_dec (f y) (f x) then y else x) l' end.
Lemma argmin_spec {A} (f : A -> R) l : forall x, In (argmin f x l) (x :: l) /\ forall y, In y (x :: l) -> f (argmin f x l) <= f y.
Proof.
  induction l as [|y l IH]; intros x; cbn [argmin].
  - split; [left; reflexivity|]. intros y [->|[]]. right; reflexivity.
  - destruct (IH (if Rlt_dec (f y) (f x) then y else x)) as [H1 H2]. split.
    + destruct H1 as [<-|H1]; [|right; right; exact H1]. destruct (Rlt_dec (f y) (f x)); [right; left; reflexivity|left; reflexivity].
    + intros z Hz. pose proof (H2 _ (or_introl eq_refl)) as H3. destruct (Rlt_dec (f y) (f x)) as [Hd|Hd].
      * destruct Hz as [<-|[<-|Hz]]; [lra|exact H3|apply H2; right; exact Hz].
      * destruct Hz as [<-|[<-|Hz]]; [exact H3|lra|apply H2; right; exact Hz].
Qed.
Definition brute_lsa (m n : nat) (C : nat -> nat -> option R) : result (list (nat * nat)) :=
  if forallb (fun i => forallb (fun j => is_some (C i j)) (seq 0 n)) (seq 0 m) then
    Ok (argmin (acost C) (map (fun i => (i, i)) (seq 0 (Nat.min m n)))
         (filter (assignmentb m n) (all_lists (Nat.min m n) (list_prod (seq 0 m) (seq 0 n)))))
  else Err ValueErr.
Lemma brute_lsa_ok : lsa_ok brute_lsa.
Proof.
  intros m n C. unfold brute_lsa. split.
  - intros H. assert (E : forallb (fun i => forallb (fun j => is_some (C i j)) (seq 0 n)) (seq 0 m) = true).
    { apply forallb_forall. intros i Hi. apply forallb_forall. intros j Hj. apply in_seq in Hi, Hj.
      specialize (H i j ltac:(lia) ltac:(lia)). destruct (C i j); [reflexivity|congruence]. }
    rewrite E. eexists. split; [reflexivity|]. destruct (argmin_spec (acost C) (filter (assignmentb m n) (all_lists (Nat.min m n) (list_prod (seq 0 m) (seq 0 n)))) (map (fun i => (i, i)) (seq 0 (Nat.min m n)))) as [H1 H2].
    split.
    + destruct H1 as [<-|H1]; [apply assignment_id|]. apply filter_In in H1 as [_ H1]. apply assignmentb_spec, H1.
    + intros b Hb. apply H2. right. apply filter_In. split; [|apply assignmentb_spec, Hb].
      destruct Hb as [_ [_ [Hi Hl]]]. apply all_lists_spec; [exact Hl|]. intros [i j] Hij. apply Hi in Hij.
      apply in_prod; apply in_seq; lia.
  - intros [i [j [Hi [Hj Hc]]]]. destruct (forallb _ (seq 0 m)) eqn:E; [|reflexivity]. exfalso.
    rewrite forallb_forall in E. specialize (E i). rewrite forallb_forall in E.
    specialize (E ltac:(apply in_seq; lia) j ltac:(apply in_seq; lia)). rewrite Hc in E. discriminate.
Qed.

(** ** lsa on a matrix *)
Definition nonan (m n : nat) (C : nat -> nat -> option R) : Prop := forall i j, (i < m)%nat -> (j < n)%nat -> C i j <> None.
Lemma nonan_dec m n C : nonan m n C \/ exists i j, (i < m)%nat /\ (j < n)%nat /\ C i j = None.
Proof.
  destruct (forallb (fun i => forallb (fun j => is_some (C i j)) (seq 0 n)) (seq 0 m)) eqn:E.
  - left. intros i j Hi Hj Hc. rewrite forallb_forall in E. specialize (E i). rewrite forallb_forall in E.
    specialize (E ltac:(apply in_seq; lia) j ltac:(apply in_seq; lia)). rewrite Hc in E. discriminate.
  - right. change (forallb (fun i => forallb (fun j => is_some (C i j)) (seq 0 n)) (seq 0 m)) with (all_lt (fun i => all_lt (fun j => is_some (C i j)) n) m) in E.
    apply all_lt_false in E as [i [Hi E]]. apply all_lt_false in E as [j [Hj E]]. exists i, j. split; [exact Hi|]. split; [exact Hj|].
    destruct (C i j); [discriminate|reflexivity].
Qed.
Lemma acost_cost C a : acost C a = cost (fun i j => val (C i j)) a.
Proof. reflexivity. Qed.
Lemma lsa_least lsa m n C : lsa_ok lsa -> nonan m n C ->
  exists a, lsa m n C = Ok a /\ least_cost m n (fun i j => val (C i j)) (acost C a).
Proof.
  intros L H. destruct (proj1 (L m n C) H) as [a [E [Ha Hm]]]. exists a. split; [exact E|]. split; [|exact Hm].
  exists a. split; [exact Ha|reflexivity].
Qed.
Lemma lsa_ok_nonan lsa m n C a : lsa_ok lsa -> lsa m n C = Ok a ->
  nonan m n C /\ least_cost m n (fun i j => val (C i j)) (acost C a).
Proof.
  intros L E. destruct (nonan_dec m n C) as [H|H].
  - split; [exact H|]. destruct (lsa_least lsa m n C L H) as [b [E' Hb]]. rewrite E in E'. injection E' as <-. exact Hb.
  - rewrite (proj2 (L m n C) H) in E. discriminate.
Qed.

(** ** mapM *)
Lemma mapM_ok {A B} (f : A -> result B) l ys : mapM f l = Ok ys <-> Forall2 (fun x y => f x = Ok y) l ys.
Proof.
  revert ys. induction l as [|x l IH]; intros ys; cbn [mapM].
  - split; [intros E; injection E as <-; constructor|intros H; inversion H; reflexivity].
  - split.
    + intros E. apply bind_ok in E as [y [E1 E]]. apply bind_ok in E as [ys' [E2 E]]. injection E as <-.
      constructor; [exact E1|]. apply IH, E2.
    + intros H. inversion H as [|? y ? ys' H1 H2]; subst. rewrite H1. cbn. apply IH in H2. rewrite H2. reflexivity.
Qed.
Lemma mapM_ext {A B C} (f : A -> result C) (g : B -> result C) h l : (forall x, f x = g (h x)) -> mapM f l = mapM g (map h l).
Proof. intros H. induction l as [|x l IH]; [reflexivity|]. cbn. rewrite H, IH. reflexivity. Qed.
Lemma Forall2_nth {A B} (P : A -> B -> Prop) l l' : Forall2 P l l' -> length l = length l' /\
  forall i d d', (i < length l)%nat -> P (nth i l d) (nth i l' d').
Proof.
  induction 1 as [|x y l l' H1 H2 [L IH]]; [split; [reflexivity|cbn; intros; lia]|]. split; [cbn; lia|].
  intros [|i] d d' Hi; [exact H1|]. cbn in *. apply IH. lia.
Qed.
Lemma mapM_all_ok {A B} (f : A -> result B) l : (forall x, In x l -> exists y, f x = Ok y) -> exists ys, mapM f l = Ok ys.
Proof.
  induction l as [|x l IH]; intros H; [eexists; reflexivity|]. destruct (H x (or_introl eq_refl)) as [y E].
  destruct IH as [ys E']; [intros z Hz; apply H; right; exact Hz|]. exists (y :: ys). cbn. rewrite E. cbn. rewrite E'. reflexivity.
Qed.
Lemma mapM_err {A B} (f : A -> result B) l x e : In x l -> f x = Err e -> exists e', mapM f l = Err e'.
Proof.
  induction l as [|y l IH]; intros H E; [destruct H|]. cbn [mapM]. destruct (f y) as [b|e'] eqn:Ey; [|eexists; reflexivity].
  cbn. destruct H as [->|H]; [congruence|]. destruct (IH H E) as [e' E']. rewrite E'. eexists; reflexivity.
Qed.

(** ** one time step *)
Section Step.
Variable dim : nat.
Variable inv : rmat -> rmat.
Variable det : rmat -> R.
Variable lsa : nat -> nat -> (nat -> nat -> option R) -> result (list (nat * nat)).
Hypothesis Hlsa : lsa_ok lsa.
Notation step := (ospa_step dim inv det lsa).
Notation dm := (dmat dim inv det).
Notation de := (dist_entry dim inv det).

Definition block me c p ue es ts := fun i j => npow (dm me c ue es ts i j) p.

Lemma step_ok me c p ue es ts : (0 < count es)%nat -> (0 < count ts)%nat -> nonan (count es) (count ts) (dm me c ue es ts) ->
  exists v, least_cost (count es) (count ts) (fun i j => val (dm me c ue es ts i j) ^ p) v /\
    step me c p ue es ts = Ok (root p (v / INR (Nat.max (count es) (count ts))),
                               root p (c ^ p * INR (absdiff (count es) (count ts)) / INR (Nat.max (count es) (count ts)))).
Proof.
  intros Hm Hn H. unfold ospa_step.
  destruct (Nat.eqb_spec (count ts) 0) as [E|E]; [lia|]. destruct (Nat.eqb_spec (count es) 0) as [E'|E']; [lia|]. cbn [andb orb].
  destruct (lsa_least lsa (count es) (count ts) (block me c p ue es ts) Hlsa) as [a [Ea La]].
  { intros i j Hi Hj Hc. unfold block in Hc. specialize (H i j Hi Hj). destruct (dm me c ue es ts i j); [discriminate|congruence]. }
  fold (block me c p ue es ts). rewrite Ea. cbn [bind]. exists (acost (block me c p ue es ts) a). split.
  - refine (least_cost_ext _ _ _ _ _ _ La). intros i j Hi Hj. unfold block. specialize (H i j Hi Hj). destruct (dm me c ue es ts i j); [reflexivity|congruence].
  - rewrite Nat.max_comm. do 2 f_equal; [f_equal; unfold Rdiv; ring|]. f_equal.
    replace (absdiff (count ts) (count es)) with (absdiff (count es) (count ts)) by (unfold absdiff; lia). unfold Rdiv; ring.
Qed.
Lemma step_nan me c p ue es ts : (0 < count es)%nat -> (0 < count ts)%nat ->
  (exists i j, (i < count es)%nat /\ (j < count ts)%nat /\ dm me c ue es ts i j = None) -> step me c p ue es ts = Err ValueErr.
Proof.
  intros Hm Hn [i [j [Hi [Hj H]]]]. unfold ospa_step.
  destruct (Nat.eqb_spec (count ts) 0) as [E|E]; [lia|]. destruct (Nat.eqb_spec (count es) 0) as [E'|E']; [lia|]. cbn [andb orb].
  fold (block me c p ue es ts). rewrite (proj2 (Hlsa _ _ _)); [reflexivity|]. exists i, j. split; [exact Hi|]. split; [exact Hj|].
  unfold block. rewrite H. reflexivity.
Qed.
Lemma step_00 me c p ue es ts : count es = 0%nat -> count ts = 0%nat -> step me c p ue es ts = Ok (0, 0).
Proof. intros H1 H2. unfold ospa_step. rewrite H1, H2. reflexivity. Qed.
Lemma step_one me c p ue es ts : (count es = 0 /\ 0 < count ts \/ 0 < count es /\ count ts = 0)%nat -> step me c p ue es ts = Ok (0, c).
Proof.
  intros H. unfold ospa_step. destruct (Nat.eqb_spec (count ts) 0) as [E|E], (Nat.eqb_spec (count es) 0) as [E'|E']; try reflexivity; lia.
Qed.
(** The four cases of a step. *)
Lemma step_cases me c p ue es ts :
  (count es = 0 /\ count ts = 0)%nat /\ step me c p ue es ts = Ok (0, 0) \/
  (count es = 0 /\ 0 < count ts \/ 0 < count es /\ count ts = 0)%nat /\ step me c p ue es ts = Ok (0, c) \/
  (0 < count es /\ 0 < count ts)%nat /\ (exists i j, (i < count es)%nat /\ (j < count ts)%nat /\ dm me c ue es ts i j = None) /\ step me c p ue es ts = Err ValueErr \/
  (0 < count es /\ 0 < count ts)%nat /\ nonan (count es) (count ts) (dm me c ue es ts) /\
    exists v, least_cost (count es) (count ts) (fun i j => val (dm me c ue es ts i j) ^ p) v /\
    step me c p ue es ts = Ok (root p (v / INR (Nat.max (count es) (count ts))),
                               root p (c ^ p * INR (absdiff (count es) (count ts)) / INR (Nat.max (count es) (count ts)))).
Proof.
  destruct (Nat.eq_dec (count es) 0) as [H1|H1], (Nat.eq_dec (count ts) 0) as [H2|H2].
  - left. split; [lia|]. apply step_00; assumption.
  - right; left. assert (count es = 0 /\ 0 < count ts \/ 0 < count es /\ count ts = 0)%nat by lia. split; [assumption|]. apply step_one; assumption.
  - right; left. assert (count es = 0 /\ 0 < count ts \/ 0 < count es /\ count ts = 0)%nat by lia. split; [assumption|]. apply step_one; assumption.
  - right; right. destruct (nonan_dec (count es) (count ts) (dm me c ue es ts)) as [H|H].
    + right. split; [lia|]. split; [exact H|]. apply step_ok; [lia|lia|exact H].
    + left. split; [lia|]. split; [exact H|]. apply step_nan; [lia|lia|exact H].
Qed.

Definition symm (me : method) : Prop := me = Euclidean \/ me = Manhattan.
Lemma core_sym me x y : symm me -> core dim inv det me x y = core dim inv det me y x.
Proof.
  intros [->| ->]; cbn; do 1 f_equal.
  - f_equal. apply rsumn_ext. intros i _. ring.
  - apply rsumn_ext. intros i _. apply Rabs_minus_sym.
Qed.
Lemma de_sym me c ue e t : symm me -> de me c ue e t = de me c ue t e.
Proof. intros H. unfold dist_entry. destruct e as [x|], t as [y|]; try reflexivity. rewrite (core_sym me x y H). reflexivity. Qed.
Lemma de_some me c e t : symm me -> exists v, de me c true e t = Some v.
Proof. intros [->| ->]; unfold dist_entry; destruct e, t; cbn; eexists; reflexivity. Qed.
Lemma step_sym me c p ue es ts : symm me -> step me c p ue es ts = step me c p ue ts es.
Proof.
  intros H.
  assert (D : forall i j, dm me c ue es ts i j = dm me c ue ts es j i) by (intros; unfold dmat; apply de_sym, H).
  destruct (step_cases me c p ue es ts) as [[A E]|[[A E]|[[A [[i [j [Hi [Hj Hn]]]] E]]|[A [Hn [v [Hv E]]]]]]]; rewrite E; symmetry.
  - apply step_00; tauto.
  - apply step_one; tauto.
  - apply step_nan; [tauto|tauto|]. exists j, i. rewrite <- D. auto.
  - destruct (step_ok me c p ue ts es) as [v' [Hv' E']]; [tauto|tauto| |].
    + intros i j Hi Hj. rewrite <- D. apply Hn; assumption.
    + rewrite E'. assert (v = v').
      { apply least_cost_flip in Hv. eapply least_cost_unique; [|exact Hv|exact Hv']. intros i j _ _. cbn beta. rewrite D. reflexivity. }
      subst v'. rewrite (Nat.max_comm (count ts)). replace (absdiff (count ts) (count es)) with (absdiff (count es) (count ts)) by (unfold absdiff; lia).
      reflexivity.
Qed.

(** Bounds of the distance entries. *)
Lemma core_nonneg me x y v : me <> Hellinger -> core dim inv det me x y = Some v -> 0 <= v.
Proof.
  intros H. destruct me; cbn; try congruence.
  - intros E; injection E as <-. apply rsumn_nonneg. intros. apply Rabs_pos.
  - intros E; injection E as <-. apply sqrt_pos.
  - destruct (cv x); [|discriminate]. intros E; injection E as <-. apply sqrt_pos.
Qed.
Lemma de_bounds me c ue e t v : me <> Hellinger -> 0 <= c -> de me c ue e t = Some v -> 0 <= v <= c.
Proof.
  intros H Hc E. unfold dist_entry in E.
  destruct (match e, t with Some x, Some y => core dim inv det me x y | None, None => if ue then Some 0 else None | _, _ => Some c end) as [w|] eqn:Ew; [|discriminate].
  cbn in E. injection E as <-. split; [|apply Rmin_r]. apply Rmin_glb; [|exact Hc].
  destruct e as [x|], t as [y|].
  - eapply core_nonneg; eassumption.
  - injection Ew as <-. exact Hc.
  - injection Ew as <-. exact Hc.
  - destruct ue; [|discriminate]. injection Ew as <-. right; reflexivity.
Qed.
Lemma val_bounds me c ue es ts i j : me <> Hellinger -> 0 <= c -> 0 <= val (dm me c ue es ts i j) <= c.
Proof.
  intros H Hc. unfold dmat. destruct (de me c ue (nth i es None) (nth j ts None)) as [v|] eqn:E.
  - eapply de_bounds; eassumption.
  - cbn. lra.
Qed.
Lemma pow_bounds x c p : 0 <= x <= c -> 0 <= x ^ p <= c ^ p.
Proof. intros H. split; [apply pow_le; lra|apply pow_incr; lra]. Qed.

Lemma max_pos m n : (0 < m)%nat -> 0 < INR (Nat.max m n).
Proof. intros. apply lt_0_INR. lia. Qed.
Lemma frac_bound v c k M : 0 < M -> 0 <= k <= M -> 0 <= v <= k * c -> 0 <= c -> 0 <= v / M <= c.
Proof.
  intros HM Hk Hv Hc. assert (0 < / M) by (apply Rinv_0_lt_compat; lra). split; [apply Rmult_le_pos; lra|].
  apply Rmult_le_reg_r with M; [lra|]. unfold Rdiv. rewrite Rmult_assoc, Rinv_l by lra. nra.
Qed.

Lemma step_bounds me c p ue es ts l k : me <> Hellinger -> 0 <= c -> (1 <= p)%nat ->
  step me c p ue es ts = Ok (l, k) -> 0 <= l <= c /\ 0 <= k <= c.
Proof.
  intros Hme Hc Hp E0.
  destruct (step_cases me c p ue es ts) as [[A E]|[[A E]|[[A [_ E]]|[A [Hn [v [Hv E]]]]]]]; rewrite E in E0; try discriminate; injection E0 as <- <-; try lra.
  set (m := count es) in *. set (n := count ts) in *.
  pose proof (max_pos m n ltac:(lia)) as HM.
  assert (B : 0 <= v <= INR (Nat.min m n) * c ^ p).
  { apply (least_bounds _ _ _ _ _ Hv). intros i j _ _. apply pow_bounds, val_bounds; assumption. }
  assert (Cp : 0 <= c ^ p) by (apply pow_le; exact Hc).
  assert (B1 : 0 <= v / INR (Nat.max m n) <= c ^ p).
  { apply (frac_bound v (c ^ p) (INR (Nat.min m n))); auto. split; [apply pos_INR|apply le_INR; lia]. }
  assert (B2 : 0 <= c ^ p * INR (absdiff m n) / INR (Nat.max m n) <= c ^ p).
  { apply (frac_bound _ (c ^ p) (INR (absdiff m n))); auto; [split; [apply pos_INR|apply le_INR; unfold absdiff; lia]|].
    pose proof (pos_INR (absdiff m n)). split; [nra|right; ring]. }
  assert (T : forall z, 0 <= z <= c ^ p -> root p z <= c).
  { intros z Hz. rewrite <- (root_pow p c Hp Hc). apply root_le; tauto. }
  repeat split; try apply root_nonneg; apply T; assumption.
Qed.

Lemma step_p1 me c ue es ts l k : me <> Hellinger -> 0 <= c -> step me c 1 ue es ts = Ok (l, k) -> l + k <= c.
Proof.
  intros Hme Hc E0.
  destruct (step_cases me c 1 ue es ts) as [[A E]|[[A E]|[[A [_ E]]|[A [Hn [v [Hv E]]]]]]]; rewrite E in E0; try discriminate; injection E0 as <- <-; try lra.
  set (m := count es) in *. set (n := count ts) in *.
  pose proof (max_pos m n ltac:(lia)) as HM.
  assert (B : 0 <= v <= INR (Nat.min m n) * c ^ 1).
  { apply (least_bounds _ _ _ _ _ Hv). intros i j _ _. apply pow_bounds, val_bounds; assumption. }
  rewrite pow_1 in *.
  assert (S1 : INR (Nat.max m n) = INR (Nat.min m n) + INR (absdiff m n)) by (rewrite <- plus_INR; f_equal; unfold absdiff; lia).
  pose proof (pos_INR (absdiff m n)) as P1.
  assert (Hi : 0 < / INR (Nat.max m n)) by (apply Rinv_0_lt_compat; lra).
  rewrite !root_1; [|unfold Rdiv; apply Rmult_le_pos; nra..].
  apply Rmult_le_reg_r with (INR (Nat.max m n)); [lra|]. unfold Rdiv. rewrite Rmult_plus_distr_r, !Rmult_assoc, !Rinv_l by lra. nra.
Qed.

(** The cardinality component. *)
Lemma step_card me c p ue es ts l k : 0 <= c -> (1 <= p)%nat -> step me c p ue es ts = Ok (l, k) ->
  k = if ((count es =? 0) && (count ts =? 0))%nat then 0
      else root p (c ^ p * INR (absdiff (count es) (count ts)) / INR (Nat.max (count es) (count ts))).
Proof.
  intros Hc Hp E0.
  destruct (step_cases me c p ue es ts) as [[A E]|[[A E]|[[A [_ E]]|[A [Hn [v [Hv E]]]]]]]; rewrite E in E0; try discriminate; injection E0 as <- <-.
  - destruct A as [-> ->]. reflexivity.
  - assert (absdiff (count es) (count ts) = Nat.max (count es) (count ts) /\ 0 < Nat.max (count es) (count ts))%nat as [-> M] by (unfold absdiff; lia).
    apply lt_INR in M. cbn in M. unfold Rdiv. rewrite Rmult_assoc, Rinv_r, Rmult_1_r, root_pow by (assumption || lra).
    destruct (Nat.eqb_spec (count es) 0), (Nat.eqb_spec (count ts) 0); cbn; try reflexivity; lia.
  - destruct (Nat.eqb_spec (count es) 0), (Nat.eqb_spec (count ts) 0); cbn; try reflexivity; lia.
Qed.

(** A set against itself. *)
Lemma core_self me x v : me <> Hellinger -> core dim inv det me x x = Some v -> v = 0.
Proof.
  intros H. destruct me; cbn; try congruence.
  - intros E; injection E as <-. apply rsumn_zero. intros. replace (st x i - st x i) with 0 by ring. apply Rabs_R0.
  - intros E; injection E as <-. rewrite rsumn_zero by (intros; ring). apply sqrt_0.
  - destruct (cv x); [|discriminate]. intros E; injection E as <-. unfold quad. rewrite rsumn_zero by (intros; ring). apply sqrt_0.
Qed.
Lemma step_self me c p es r : me <> Hellinger -> 0 <= c -> (1 <= p)%nat -> step me c p true es es = Ok r -> r = (0, 0).
Proof.
  intros Hme Hc Hp E0.
  destruct (step_cases me c p true es es) as [[A E]|[[A E]|[[A [_ E]]|[A [Hn [v [Hv E]]]]]]]; rewrite E in E0; try discriminate; injection E0 as <-; [reflexivity|lia|].
  set (m := count es) in *.
  assert (V : v = 0).
  { apply Rle_antisym.
    - destruct Hv as [_ Hm]. eapply Rle_trans; [apply (Hm _ (assignment_id m m))|]. right. unfold cost. rewrite map_map. cbn [fst snd].
      rewrite Nat.min_id. rewrite (rsum_ext _ (fun _ => 0)); [rewrite rsum_const; ring|]. intros i Hi. apply in_seq in Hi. specialize (Hn i i ltac:(lia) ltac:(lia)).
      unfold dmat in *. unfold dist_entry in *. destruct (nth i es None) as [x|].
      + destruct (core dim inv det me x x) as [w|] eqn:Ew; [|cbn in Hn; congruence]. apply core_self in Ew; [|exact Hme]. subst w.
        cbn. rewrite Rmin_left by lra. apply pow_i. lia.
      + cbn. rewrite Rmin_left by lra. apply pow_i. lia.
    - apply (least_bounds _ _ _ _ (c ^ p) Hv). intros i j _ _. apply pow_bounds, val_bounds; assumption. }
  subst v. unfold Rdiv. rewrite Rmult_0_l, root_0. replace (absdiff m m) with 0%nat by (unfold absdiff; lia). cbn [INR].
  rewrite Rmult_0_r, Rmult_0_l, root_0. reflexivity.
Qed.

(** Prefix-occupied slots: the documented OSPA of the two sets. *)
Lemma count_app l1 l2 : count (l1 ++ l2) = (count l1 + count l2)%nat.
Proof. unfold count. rewrite filter_app, app_length. reflexivity. Qed.
Lemma count_prefix X k : count (map Some X ++ repeat None k) = length X.
Proof.
  rewrite count_app. assert (count (map Some X) = length X) as -> by (induction X as [|x X IH]; [reflexivity|unfold count in *; cbn; rewrite IH; reflexivity]).
  assert (count (repeat None k) = 0)%nat as -> by (induction k as [|k IH]; [reflexivity|exact IH]). lia.
Qed.
Lemma present_prefix X k : present (map Some X ++ repeat None k) = X.
Proof.
  induction X as [|x X IH]; [|cbn; f_equal; exact IH]. cbn. induction k as [|k IH]; [reflexivity|exact IH].
Qed.
Lemma count_present l : count l = length (present l).
Proof. induction l as [|[x|] l IH]; [reflexivity| |exact IH]. unfold count, present, somes in *. cbn. rewrite IH. reflexivity. Qed.
Lemma nth_prefix (X : list obj) k i x0 : (i < length X)%nat -> nth i (map Some X ++ repeat None k) None = Some (nth i X x0).
Proof. intros H. rewrite app_nth1 by (rewrite map_length; exact H). apply nth_map', H. Qed.

Lemma step_prefix me c p ue es ts r : prefix_slots es -> prefix_slots ts ->
  step me c p ue es ts = Ok r ->
  ospa_of_sets (fun x y => val (core dim inv det me x y)) c p (present es) (present ts) (fst r) (snd r).
Proof.
  intros [X [k HX]] [Y [k' HY]] E0.
  assert (PX : present es = X) by (rewrite HX; apply present_prefix). assert (PY : present ts = Y) by (rewrite HY; apply present_prefix).
  assert (CX : count es = length X) by (rewrite HX; apply count_prefix). assert (CY : count ts = length Y) by (rewrite HY; apply count_prefix).
  assert (NX : forall i x0, (i < length X)%nat -> nth i es None = Some (nth i X x0)) by (intros; rewrite HX; apply nth_prefix; assumption).
  assert (NY : forall i x0, (i < length Y)%nat -> nth i ts None = Some (nth i Y x0)) by (intros; rewrite HY; apply nth_prefix; assumption).
  clear HX HY. rewrite PX, PY.
  destruct (step_cases me c p ue es ts) as [[A E]|[[A E]|[[A [_ E]]|[A [Hn [v [Hv E]]]]]]];
    rewrite E in E0; try discriminate; injection E0 as <-; rewrite CX, CY in A; cbn [fst snd].
  - destruct X, Y; cbn in A; try lia. split; reflexivity.
  - destruct X, Y; cbn in A; try lia; split; reflexivity.
  - rewrite CX, CY in *. clear PX PY CX CY. destruct X as [|x0 X], Y as [|y0 Y]; cbn in A; try lia. set (X' := x0 :: X) in *. set (Y' := y0 :: Y) in *.
    hnf. exists v. split; [|split; reflexivity]. refine (least_cost_ext _ _ _ _ _ _ Hv). intros i j Hi Hj. f_equal.
    specialize (Hn i j Hi Hj). unfold dmat in *.
    rewrite (NX i x0 Hi), (NY j y0 Hj) in Hn. rewrite (NX i x0 Hi), (NY j y0 Hj). unfold dist_entry in *.
    destruct (core dim inv det me (nth i X' x0) (nth j Y' y0)); [reflexivity|cbn in Hn; congruence].
Qed.
Lemma step_total me c p es ts : symm me -> exists r, step me c p true es ts = Ok r.
Proof.
  intros H. destruct (step_cases me c p true es ts) as [[A E]|[[A E]|[[A [[i [j [_ [_ N]]]] E]]|[A [Hn [v [Hv E]]]]]]]; try (eexists; exact E).
  unfold dmat in N. destruct (de_some me c (nth i es None) (nth j ts None) H) as [v Hv]. congruence.
Qed.
End Step.

Lemma ospa_of_sets_perm d c p X X' Y Y' l k l' k' : Permutation X X' -> Permutation Y Y' ->
  ospa_of_sets d c p X Y l k -> ospa_of_sets d c p X' Y' l' k' -> l = l' /\ k = k'.
Proof.
  intros PX PY H H'. pose proof (Permutation_length PX) as LX. pose proof (Permutation_length PY) as LY.
  destruct X as [|x0 X], X' as [|x0' X']; try discriminate; destruct Y as [|y0 Y], Y' as [|y0' Y']; try discriminate; cbn in H, H'; try (destruct H as [-> ->], H' as [-> ->]; split; reflexivity).
  destruct H as [v [Hv [-> ->]]], H' as [v' [Hv' [-> ->]]].
  change (least_cost (length (x0' :: X')) (length (y0' :: Y')) (fun i j => Rmin (d (nth i (x0' :: X') x0') (nth j (y0' :: Y') y0')) c ^ p) v') in Hv'.
  change (least_cost (length (x0 :: X)) (length (y0 :: Y)) (fun i j => Rmin (d (nth i (x0 :: X) x0) (nth j (y0 :: Y) y0)) c ^ p) v) in Hv.
  assert (v = v').
  { apply (least_cost_perm (fun x y => Rmin (d x y) c ^ p) (x0 :: X) (x0' :: X') (y0 :: Y) (y0' :: Y') x0 y0); [assumption|assumption|exact Hv|].
    refine (least_cost_ext _ _ _ _ _ _ Hv'). intros i j Hi Hj. cbn beta. rewrite (nth_indep _ x0' x0 Hi), (nth_indep _ y0' y0 Hj). reflexivity. }
  subst v'. cbn in LX, LY. injection LX as ->. injection LY as ->. split; reflexivity.
Qed.

(** ** OSPA(2) *)
Lemma existsb_map {A B} (f : B -> bool) (g : A -> B) l : existsb f (map g l) = existsb (fun x => f (g x)) l.
Proof. induction l as [|x l IH]; [reflexivity|]. cbn. rewrite IH. reflexivity. Qed.
Lemma least_cost_empty m n C : (m = 0 \/ n = 0)%nat -> least_cost m n C 0.
Proof.
  intros H. assert (Z : Nat.min m n = 0%nat) by lia.
  split; [exists []; split; [|reflexivity]|].
  - unfold assignment. rewrite Z. repeat split; try constructor; destruct H0.
  - intros b [_ [_ [_ L]]]. rewrite Z in L. destruct b; [right; reflexivity|discriminate].
Qed.
Section Step2.
Variable dim : nat.
Variable inv : rmat -> rmat.
Variable det : rmat -> R.
Variable lsa : nat -> nat -> (nat -> nat -> option R) -> result (list (nat * nat)).
Hypothesis Hlsa : lsa_ok lsa.
Notation de := (dist_entry dim inv det).
Notation cored me := (fun x y => val (core dim inv det me x y)).

Lemma nanmean_track me c (w : list nat) f g : symm me ->
  nanmean0 (map (fun t => de me c false (f t) (g t)) w) = track_dist (cored me) c (map f w) (map g w).
Proof.
  intros H. unfold nanmean0, track_dist. rewrite combine_map2.
  assert (E : somes (map (fun t => de me c false (f t) (g t)) w) =
    flat_map (fun ab => match ab with (Some x, Some y) => [Rmin (cored me x y) c] | (None, None) => [] | _ => [c] end) (map (fun t => (f t, g t)) w)).
  { induction w as [|t w IH]; [reflexivity|]. unfold somes in *. cbn [map flat_map]. rewrite IH. f_equal.
    unfold dist_entry. destruct (f t) as [x|], (g t) as [y|]; cbn; try reflexivity; try (rewrite Rmin_left by lra; reflexivity).
    destruct H as [->| ->]; reflexivity. }
  rewrite E. destruct (flat_map _ _); [cbn; unfold Rdiv; ring|reflexivity].
Qed.

Lemma step2_spec me c p est tru ne nt win : symm me ->
  exists l k, ospa2_step dim inv det lsa me c p est tru ne nt win = Ok (l, k) /\
    ospa2_of_tracks (cored me) c p (window_tracks est ne win) (window_tracks tru nt win) l k.
Proof.
  intros H. unfold ospa2_step.
  set (rows := filter (fun i => existsb (fun t => is_some (slot_at est t i)) win) (seq 0 ne)).
  set (cols := filter (fun j => existsb (fun t => is_some (slot_at tru t j)) win) (seq 0 nt)).
  assert (WR : window_tracks est ne win = map (fun i => map (fun t => slot_at est t i) win) rows).
  { unfold window_tracks, rows. rewrite filter_map. f_equal. apply filter_ext. intros i. apply existsb_map. }
  assert (WC : window_tracks tru nt win = map (fun i => map (fun t => slot_at tru t i) win) cols).
  { unfold window_tracks, cols. rewrite filter_map. f_equal. apply filter_ext. intros i. apply existsb_map. }
  assert (LR : length (window_tracks est ne win) = length rows) by (rewrite WR; apply map_length).
  assert (LC : length (window_tracks tru nt win) = length cols) by (rewrite WC; apply map_length).
  assert (NT : forall a b, (a < length rows)%nat -> (b < length cols)%nat ->
    nanmean0 (map (fun t => de me c false (slot_at est t (nth a rows 0%nat)) (slot_at tru t (nth b cols 0%nat))) win) =
    track_dist (cored me) c (nth a (window_tracks est ne win) []) (nth b (window_tracks tru nt win) [])).
  { intros a b Ha Hb. rewrite (nanmean_track me c win (fun t => slot_at est t (nth a rows 0%nat)) (fun t => slot_at tru t (nth b cols 0%nat)) H).
    rewrite WR, WC. rewrite (nth_map' _ rows a [] 0%nat Ha), (nth_map' _ cols b [] 0%nat Hb). reflexivity. }
  unfold ospa2_of_tracks. rewrite LR, LC.
  assert (HN : ~ (length cols = 0 /\ length rows = 0)%nat -> exists v,
     (if (length cols =? 0)%nat || (length rows =? 0)%nat then Ok 0
      else do a <- lsa (length rows) (length cols) (fun a b => Some (nanmean0 (map (fun t => de me c false (slot_at est t (nth a rows 0%nat)) (slot_at tru t (nth b cols 0%nat))) win) ^ p));
           Ok (acost (fun a b => Some (nanmean0 (map (fun t => de me c false (slot_at est t (nth a rows 0%nat)) (slot_at tru t (nth b cols 0%nat))) win) ^ p)) a)) = Ok v /\
     least_cost (length rows) (length cols) (fun i j => track_dist (cored me) c (nth i (window_tracks est ne win) []) (nth j (window_tracks tru nt win) []) ^ p) v).
  { intros Hz. destruct (orb (length cols =? 0) (length rows =? 0))%nat eqn:Eo.
    - exists 0. split; [reflexivity|]. apply least_cost_empty. rewrite orb_true_iff, !Nat.eqb_eq in Eo. tauto.
    - destruct (lsa_least lsa (length rows) (length cols) (fun a b => Some (nanmean0 (map (fun t => de me c false (slot_at est t (nth a rows 0%nat)) (slot_at tru t (nth b cols 0%nat))) win) ^ p)) Hlsa) as [a [Ea La]]; [intros i j _ _; discriminate|].
      rewrite Ea. cbn [bind]. eexists. split; [reflexivity|]. refine (least_cost_ext _ _ _ _ _ _ La).
      intros i j Hi Hj. cbn [val]. rewrite NT by assumption. reflexivity. }
  cbv zeta. destruct ((length cols =? 0)%nat && (length rows =? 0)%nat)%bool eqn:E.
  - exists 0, 0. split; [reflexivity|]. rewrite andb_true_iff, !Nat.eqb_eq in E. split; [split; reflexivity|].
    intros Hx. exfalso. apply Hx. split; apply length_zero_iff_nil; congruence || lia.
  - destruct HN as [v [Ev Hv]].
    { intros [E1 E2]. rewrite E1, E2 in E. discriminate. }
    rewrite Ev. cbn [bind]. do 2 eexists. split; [reflexivity|]. split.
    + intros [E1 E2]. exfalso. rewrite E1 in LR. rewrite E2 in LC. cbn in LR, LC. rewrite <- LR, <- LC in E. discriminate.
    + intros _. exists v. split; [exact Hv|]. rewrite Nat.max_comm. split; reflexivity.
Qed.
End Step2.

Lemma ospa2_of_tracks_perm d c p U U' V V' l k l' k' : Permutation U U' -> Permutation V V' ->
  ospa2_of_tracks d c p U V l k -> ospa2_of_tracks d c p U' V' l' k' -> l = l' /\ k = k'.
Proof.
  intros PU PV [H0 H] [H0' H']. pose proof (Permutation_length PU) as LU. pose proof (Permutation_length PV) as LV.
  assert (D : (U = [] /\ V = []) \/ ~ (U = [] /\ V = [])) by (destruct U, V; [left; auto|right; intros [? ?]; discriminate..]).
  destruct D as [D|D].
  - destruct (H0 D) as [-> ->]. destruct D as [-> ->]. apply Permutation_nil in PU, PV. destruct (H0' (conj PU PV)) as [-> ->]. auto.
  - destruct (H D) as [v [Hv [-> ->]]]. destruct H' as [v' [Hv' [-> ->]]].
    { intros [-> ->]. apply Permutation_sym, Permutation_nil in PU, PV. auto. }
    rewrite <- LU, <- LV. assert (v = v'); [|subst; auto].
    eapply (least_cost_perm (fun u w => track_dist d c u w ^ p) U U' V V' [] []); eassumption.
Qed.
Lemma track_dist_sym d c u v : (forall x y, d x y = d y x) -> track_dist d c u v = track_dist d c v u.
Proof.
  intros H. unfold track_dist.
  assert (E : flat_map (fun ab => match ab with (Some x, Some y) => [Rmin (d x y) c] | (None, None) => [] | _ => [c] end) (combine u v) =
              flat_map (fun ab => match ab with (Some x, Some y) => [Rmin (d x y) c] | (None, None) => [] | _ => [c] end) (combine v u)).
  { revert v. induction u as [|a u IH]; intros [|b v]; try reflexivity. cbn [combine flat_map]. rewrite IH. f_equal.
    destruct a, b; try reflexivity. rewrite H. reflexivity. }
  rewrite E. reflexivity.
Qed.
Lemma absdiff_comm m n : absdiff m n = absdiff n m.
Proof. unfold absdiff. lia. Qed.
Lemma ospa2_of_tracks_sym d c p U V l k : (forall x y, d x y = d y x) -> ospa2_of_tracks d c p U V l k -> ospa2_of_tracks d c p V U l k.
Proof.
  intros Hd [H0 H]. split; [intros [? ?]; auto|]. intros D. destruct H as [v [Hv [-> ->]]]; [tauto|]. exists v.
  split; [|rewrite Nat.max_comm, absdiff_comm; auto]. apply least_cost_flip in Hv. refine (least_cost_ext _ _ _ _ _ _ Hv).
  intros i j _ _. cbn beta. rewrite track_dist_sym by exact Hd. reflexivity.
Qed.
Lemma mean_bounds l c : (forall x, In x l -> 0 <= x <= c) -> 0 <= c -> 0 <= rsum l / INR (length l) <= c.
Proof.
  intros H Hc. destruct l as [|x l]; [cbn; unfold Rdiv; rewrite Rmult_0_l; lra|]. set (l' := x :: l) in *.
  assert (0 < INR (length l')) by (apply lt_0_INR; cbn; lia).
  apply (frac_bound _ c (INR (length l'))); try lra. split; [apply rsum_nonneg; intros y Hy; apply H, Hy|].
  rewrite <- (map_id l') at 1. rewrite <- (rsum_const c l'). apply rsum_le. intros y Hy. apply H, Hy.
Qed.
Lemma track_dist_bounds d c u v : (forall x y, 0 <= d x y) -> 0 <= c -> 0 <= track_dist d c u v <= c.
Proof.
  intros Hd Hc. apply mean_bounds; [|exact Hc]. intros z Hz. apply in_flat_map in Hz as [[[x|] [y|]] [_ Hz]]; cbn in Hz; try contradiction; destruct Hz as [<-|[]]; try lra.
  split; [apply Rmin_glb; auto|apply Rmin_r].
Qed.
Lemma ospa2_of_tracks_bounds d c p U V l k : (forall x y, 0 <= d x y) -> 0 <= c -> (1 <= p)%nat ->
  ospa2_of_tracks d c p U V l k -> 0 <= l <= c /\ 0 <= k <= c.
Proof.
  intros Hd Hc Hp [H0 H].
  assert (D : (U = [] /\ V = []) \/ ~ (U = [] /\ V = [])) by (destruct U, V; [left; auto|right; intros [? ?]; discriminate..]).
  destruct D as [D|D]; [destruct (H0 D) as [-> ->]; lra|]. destruct (H D) as [v [Hv [-> ->]]].
  set (m := length U) in *. set (n := length V) in *.
  assert (HM : 0 < INR (Nat.max m n)).
  { apply lt_0_INR. destruct U, V; cbn in *; try lia. exfalso. apply D. auto. }
  assert (B : 0 <= v <= INR (Nat.min m n) * c ^ p).
  { apply (least_bounds _ _ _ _ _ Hv). intros i j _ _. apply pow_bounds, track_dist_bounds; assumption. }
  assert (Cp : 0 <= c ^ p) by (apply pow_le; exact Hc).
  assert (B1 : 0 <= v / INR (Nat.max m n) <= c ^ p).
  { apply (frac_bound v (c ^ p) (INR (Nat.min m n))); auto. split; [apply pos_INR|apply le_INR; lia]. }
  assert (B2 : 0 <= c ^ p * INR (absdiff m n) / INR (Nat.max m n) <= c ^ p).
  { apply (frac_bound _ (c ^ p) (INR (absdiff m n))); auto; [split; [apply pos_INR|apply le_INR; unfold absdiff; lia]|].
    pose proof (pos_INR (absdiff m n)). split; [nra|right; ring]. }
  assert (T : forall z, 0 <= z <= c ^ p -> root p z <= c).
  { intros z Hz. rewrite <- (root_pow p c Hp Hc). apply root_le; tauto. }
  repeat split; try apply root_nonneg; apply T; assumption.
Qed.

(** ** whole runs *)
Lemma calc_ok dim inv det lsa est tru c p ue me tcov ecov r me' c' :
  calculate_ospa dim inv det lsa est tru c p ue me tcov ecov = Ok (r, me', c') ->
  me' = ospa_method me tcov ecov /\ c' = ospa_cut me' c /\ (length tru <= length est)%nat /\ length r = length tru /\
  forall t d, (t < length tru)%nat -> ospa_step dim inv det lsa me' c' p ue (nth t est []) (nth t tru []) = Ok (nth t r d).
Proof.
  unfold calculate_ospa. intros E. apply bind_ok in E as [r' [E1 E]]. destruct (Nat.ltb_spec (length est) (length tru)) as [Hl|Hl]; [discriminate|].
  injection E as <- <- <-. apply mapM_ok in E1. apply Forall2_nth in E1 as [L H]. rewrite combine_length, Nat.min_r in L, H by lia.
  repeat split; auto. intros t d Ht. specialize (H t ([], []) d Ht). 
  assert (EN : nth t (combine est tru) ([], []) = (nth t est [], nth t tru [])).
  {
    assert (Hc : combine est tru = map (fun i => (nth i est [], nth i tru [])) (seq 0 (length tru))).
    { clear -Hl. revert est Hl. induction tru as [|y tru IH]; intros [|x est] Hl; cbn in *; try reflexivity; try lia.
      f_equal. rewrite IH by lia. rewrite <- seq_shift, map_map. reflexivity. }
    rewrite Hc. rewrite (nth_map_seq (fun i => (nth i est [], nth i tru []))) by exact Ht. reflexivity. }
  rewrite EN in H. exact H.
Qed.
Lemma ospa_method_symm me tcov ecov : me = None \/ me = Some Euclidean \/ me = Some Manhattan -> symm (ospa_method me tcov ecov).
Proof. intros [->|[->| ->]]; cbn; unfold symm; auto. Qed.
Lemma symm_cut me c : symm me -> ospa_cut me c = c.
Proof. intros [->| ->]; reflexivity. Qed.
Lemma calc2_ok dim inv det lsa est tru ne nt c p w me tcov ecov r me' c' : lsa_ok lsa ->
  me = None \/ me = Some Euclidean \/ me = Some Manhattan ->
  calculate_ospa2 dim inv det lsa est tru ne nt c p w me tcov ecov = Ok (r, me', c') ->
  me' = ospa_method me tcov ecov /\ c' = c /\ length r = length tru /\
  forall t d, (t < length tru)%nat -> ospa2_of_tracks (fun x y => val (core dim inv det me' x y)) c p
      (window_tracks est ne (win_idx t w)) (window_tracks tru nt (win_idx t w)) (fst (nth t r d)) (snd (nth t r d)).
Proof.
  intros L Hme E. unfold calculate_ospa2 in E. apply bind_ok in E as [[[r0 me0] c0] [E0 E]].
  apply bind_ok in E as [r1 [E1 E]]. injection E as <- <- <-. apply calc_ok in E0 as [-> [-> _]].
  pose proof (ospa_method_symm me tcov ecov Hme) as S. rewrite (symm_cut _ c S) in *.
  apply mapM_ok, Forall2_nth in E1 as [Ln H]. rewrite seq_length in Ln, H.
  split; [reflexivity|]. split; [reflexivity|]. split; [auto|].
  intros t d Ht. specialize (H t 0%nat d Ht). rewrite seq_nth in H by exact Ht. cbn [plus] in H.
  destruct (step2_spec dim inv det lsa L (ospa_method me tcov ecov) c p est tru ne nt (win_idx t w) S) as [l [k [El Hs]]].
  rewrite El in H. injection H as <-. exact Hs.
Qed.
