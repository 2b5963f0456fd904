(** C201: the numbering of rows and columns, and which side is called rows, do not
    matter to assign_opt and murty_m_best. *)
From Verif Require Import Base HungModel HungSpec HungProofs HungProps MurtyModel MurtySpec MurtyProofs MurtyProps.
From Coq Require Import List Lia Permutation QArith Lqa.
Import ListNotations.
Open Scope nat_scope.

(** ** Specification *)
(** [f] renumbers 0..n-1, [g] is the inverse numbering. *)
Definition renumbering (n : nat) (f g : nat -> nat) : Prop :=
  forall i, i < n -> f i < n /\ g i < n /\ g (f i) = i /\ f (g i) = i.
(** The matrix whose row r is row [f r] of [m] and whose column c is column [g c]. *)
Definition renumbered (f g : nat -> nat) (m : mat) : mat :=
  {| mr := mr m; mc := mc m; me := fun r c => me m (f r) (g c) |}.
Definition transposed (m : mat) : mat := {| mr := mc m; mc := mr m; me := fun r c => me m c r |}.
Definition nonnegative (m : mat) : Prop := forall r c q, r < mr m -> c < mc m -> me m r c = Fin q -> (0 <= q)%Q.

(** ** Proofs *)
Definition vec (nr : nat) (P : list (nat * nat)) : list (option nat) :=
  map (fun r => option_map snd (find (fun rc => Nat.eqb (fst rc) r) P)) (seq 0 nr).
Lemma nth_vec nr P r : nth_error (vec nr P) r = if Nat.ltb r nr then Some (option_map snd (find (fun rc => Nat.eqb (fst rc) r) P)) else None.
Proof.
  unfold vec. destruct (Nat.ltb_spec r nr) as [H|H].
  - rewrite nth_error_map, (nth_error_nth' (seq 0 nr) 0) by (rewrite seq_length; exact H). rewrite seq_nth by exact H. reflexivity.
  - apply nth_error_None. rewrite map_length, seq_length. exact H.
Qed.
Lemma find_pair (P : list (nat * nat)) : NoDup (map fst P) -> forall r c, find (fun rc => Nat.eqb (fst rc) r) P = Some (r, c) <-> In (r, c) P.
Proof.
  induction P as [|[r0 c0] P IH]; intros N r c; [cbn; split; [discriminate|tauto]|]. cbn [map fst] in N. inversion N as [|x l N1 N2]; subst. cbn [find fst].
  destruct (Nat.eqb_spec r0 r) as [-> |D].
  - split; [intros E; left; congruence|]. intros [E|H]; [congruence|]. exfalso. apply N1. apply in_map_iff. exists (r, c). auto.
  - rewrite (IH N2). split; [right; assumption|]. intros [E|H]; [congruence|exact H].
Qed.
Lemma pairs_NoDup a : NoDup (pairs a).
Proof. apply (NoDup_map_inv fst), pairs_fst_NoDup. Qed.
Lemma vec_pairs nr nc P : plist_ok nr nc P -> Permutation (pairs (vec nr P)) P.
Proof.
  intros [H1 [H2 H3]]. apply NoDup_Permutation; [apply pairs_NoDup|apply (NoDup_map_inv fst), H1|]. intros [r c].
  rewrite in_pairs, nth_vec. rewrite <- (find_pair P H1 r c). split.
  - destruct (Nat.ltb r nr); [|discriminate]. destruct (find _ P) as [[r' c']|] eqn:E; [|discriminate]. cbn [option_map snd]. intros X.
    assert (c' = c) by congruence. subst c'. pose proof (find_some _ _ E) as [_ F]. cbn [fst] in F. apply Nat.eqb_eq in F. congruence.
  - intros E. rewrite E. pose proof (find_some _ _ E) as [F _]. apply H3 in F. destruct (Nat.ltb_spec r nr); [reflexivity|lia].
Qed.
Lemma vec_assign nr nc P : plist_ok nr nc P -> is_assignment nr nc (vec nr P).
Proof.
  intros H. pose proof (vec_pairs nr nc P H) as V. destruct H as [H1 [H2 H3]]. split; [unfold vec; rewrite map_length, seq_length; reflexivity|]. split.
  - intros r c Hi. apply (Permutation_in _ V) in Hi. apply H3 in Hi. tauto.
  - apply (Permutation_NoDup (Permutation_sym (Permutation_map snd V))), H2.
Qed.
Lemma same_pairs a b : length a = length b -> Permutation (pairs a) (pairs b) -> a = b.
Proof.
  intros L P. apply nth_error_ext. intros i.
  destruct (nth_error a i) as [[c|]|] eqn:Ea.
  - apply in_pairs in Ea. apply (Permutation_in _ P) in Ea. apply in_pairs in Ea. congruence.
  - destruct (nth_error b i) as [[c|]|] eqn:Eb; [|reflexivity|].
    + apply in_pairs in Eb. apply (Permutation_in _ (Permutation_sym P)) in Eb. apply in_pairs in Eb. congruence.
    + apply nth_error_None in Eb. assert (nth_error a i <> None) by congruence. apply nth_error_Some in H. lia.
  - symmetry. apply nth_error_None. apply nth_error_None in Ea. lia.
Qed.

(** A way to rewrite the cells of one problem as cells of another. *)
Record cells (nr nc nr' nc' : nat) (M M' : nat -> nat -> ext) (g : nat * nat -> nat * nat) : Prop := {
  ce_plist : forall P, plist_ok nr nc P -> plist_ok nr' nc' (map g P);
  ce_inj : forall r c r' c', r < nr -> c < nc -> r' < nr -> c' < nc -> g (r, c) = g (r', c') -> (r, c) = (r', c');
  ce_val : forall r c, r < nr -> c < nc -> M' (fst (g (r, c))) (snd (g (r, c))) = M r c }.

Section Move.
Variables (nr nc nr' nc' : nat) (M M' : nat -> nat -> ext) (g : nat * nat -> nat * nat).
Hypothesis G : cells nr nc nr' nc' M M' g.
Definition move (s : list (option nat)) : list (option nat) := vec nr' (map g (pairs s)).
Lemma move_pairs s : is_assignment nr nc s -> Permutation (pairs (move s)) (map g (pairs s)).
Proof. intros H. apply (vec_pairs nr' nc'), (ce_plist _ _ _ _ _ _ _ G), assignment_plist, H. Qed.
Lemma move_assign s : is_assignment nr nc s -> is_assignment nr' nc' (move s).
Proof. intros H. apply vec_assign, (ce_plist _ _ _ _ _ _ _ G), assignment_plist, H. Qed.
Lemma in_range s r c : is_assignment nr nc s -> In (r, c) (pairs s) -> r < nr /\ c < nc.
Proof. intros H Hi. apply assignment_plist in H as [_ [_ H]]. apply H, Hi. Qed.
Lemma move_inf s : is_assignment nr nc s -> inf_free M s -> inf_free M' (move s).
Proof.
  intros H F r c Hi. apply (Permutation_in _ (move_pairs s H)) in Hi. apply in_map_iff in Hi as [[r0 c0] [E Hi]].
  destruct (in_range s r0 c0 H Hi) as [R1 R2]. pose proof (ce_val _ _ _ _ _ _ _ G r0 c0 R1 R2) as V. rewrite E in V. cbn [fst snd] in V. rewrite V. apply F, Hi.
Qed.
Lemma move_size s : is_assignment nr nc s -> assign_size (move s) = assign_size s.
Proof. intros H. unfold assign_size. rewrite (Permutation_length (move_pairs s H)). apply map_length. Qed.
Lemma move_cost s : is_assignment nr nc s -> (assign_cost M' (move s) == assign_cost M s)%Q.
Proof.
  intros H. unfold assign_cost. rewrite (qsum_perm _ _ (Permutation_map _ (move_pairs s H))). rewrite map_map.
  match goal with |- (qsum ?a == qsum ?b)%Q => replace a with b; [reflexivity|] end. apply map_ext_in. intros [r c] Hi.
  destruct (in_range s r c H Hi) as [R1 R2]. rewrite (ce_val _ _ _ _ _ _ _ G r c R1 R2). reflexivity.
Qed.
Lemma move_inj a b : is_assignment nr nc a -> is_assignment nr nc b -> move a = move b -> a = b.
Proof.
  intros Ha Hb E. apply same_pairs; [destruct Ha as [-> _], Hb as [-> _]; reflexivity|].
  assert (P : Permutation (map g (pairs a)) (map g (pairs b))) by (rewrite <- (move_pairs a Ha), E; apply move_pairs, Hb).
  apply NoDup_Permutation; [apply pairs_NoDup|apply pairs_NoDup|]. intros [r c].
  split; intros Hi; [destruct (in_range a r c Ha Hi) as [R1 R2]|destruct (in_range b r c Hb Hi) as [R1 R2]].
  - assert (In (g (r, c)) (map g (pairs b))) as K by (apply (Permutation_in _ P), in_map, Hi).
    apply in_map_iff in K as [[r1 c1] [E1 K]]. destruct (in_range b r1 c1 Hb K) as [R3 R4]. apply (ce_inj _ _ _ _ _ _ _ G) in E1; try assumption. rewrite <- E1. exact K.
  - assert (In (g (r, c)) (map g (pairs a))) as K by (apply (Permutation_in _ (Permutation_sym P)), in_map, Hi).
    apply in_map_iff in K as [[r1 c1] [E1 K]]. destruct (in_range a r1 c1 Ha K) as [R3 R4]. apply (ce_inj _ _ _ _ _ _ _ G) in E1; try assumption. rewrite <- E1. exact K.
Qed.
Lemma move_feasible s : feasible nr nc M s -> feasible nr' nc' M' (move s).
Proof. intros [H F]. split; [apply move_assign, H|apply move_inf; assumption]. Qed.
End Move.

Lemma row_dec (a b : list (option nat)) : {a = b} + {a <> b}.
Proof. apply list_eq_dec. decide equality. apply Nat.eq_dec. Qed.
Lemma sorted_nth (l : list Q) : ForallOrdPairs (fun a b => (a <= b)%Q) l -> forall i j, i <= j -> j < length l -> (nth i l 0 <= nth j l 0)%Q.
Proof.
  induction 1 as [|x l Hx Hl IH]; intros i j Hij Hj; [cbn in Hj; lia|]. destruct i as [|i], j as [|j].
  - cbn [nth]. lra.
  - cbn [nth]. rewrite Forall_forall in Hx. apply Hx, nth_In. cbn in Hj. lia.
  - lia.
  - cbn [nth]. apply IH; cbn in Hj; lia.
Qed.
Lemma Forall2_nth' {A B} (P : A -> B -> Prop) l l' d d' : Forall2 P l l' -> length l = length l' /\ forall i, i < length l -> P (nth i l d) (nth i l' d').
Proof. induction 1 as [|x y l l' H H2 [L IH]]; [split; [reflexivity|cbn; lia]|]. split; [cbn; lia|]. intros [|i] Hi; [exact H|]. cbn [nth]. apply IH. cbn in Hi. lia. Qed.

Lemma nodup_app_l {A} (a b : list A) : NoDup (a ++ b) -> NoDup a.
Proof. induction a as [|x a IH]; intros H; [constructor|]. inversion H as [|? ? H1 H2]; subst. constructor; [intros Hi; apply H1, in_or_app; left; exact Hi|apply IH, H2]. Qed.
Section Half.
Variables (nr nc nr' nc' : nat) (M M' : nat -> nat -> ext) (g : nat * nat -> nat * nat).
Hypothesis G : cells nr' nc' nr nc M' M g.
Lemma half m sols costs sols' costs' : m_best nr nc M m sols costs -> m_best nr' nc' M' m sols' costs' ->
  forall k, k < length costs' -> k < length costs /\ (nth k costs 0 <= nth k costs' 0)%Q.
Proof.
  intros [F1 [N1 [C1 [S1 [O1 [L1 A1]]]]]] [F2 [N2 [C2 [S2 [O2 [L2 A2]]]]]] k Hk.
  destruct (Forall2_nth' _ _ _ [] 0%Q C1) as [Ln1 K1]. destruct (Forall2_nth' _ _ _ [] 0%Q C2) as [Ln2 K2].
  set (mv := move nr g). set (l := map mv (firstn (S k) sols')).
  rewrite Forall_forall in F1, F2.
  assert (Fs : forall x, In x (firstn (S k) sols') -> feasible nr' nc' M' x) by (intros x Hx; apply F2; rewrite <- (firstn_skipn (S k) sols'); apply in_or_app; left; exact Hx).
  assert (Lf : length (firstn (S k) sols') = S k) by (rewrite firstn_length; lia).
  assert (Nl : NoDup l).
  { unfold l. assert (Nf : NoDup (firstn (S k) sols')) by (apply (nodup_app_l (firstn (S k) sols') (skipn (S k) sols')); rewrite firstn_skipn; exact N2).
    revert Nf Fs. generalize (firstn (S k) sols'). induction l0 as [|x r IH]; intros Nf Fs; [constructor|]. inversion Nf as [|? ? X1 X2]; subst. cbn [map]. constructor.
    - intros Hi. apply in_map_iff in Hi as [y [E Hy]]. apply (move_inj _ _ _ _ _ _ _ G) in E; [congruence|apply Fs; right; exact Hy|apply Fs; left; reflexivity].
    - apply IH; [exact X2|]. intros y Hy. apply Fs. right. exact Hy. }
  assert (Fl : forall y, In y l -> feasible nr nc M y /\ (assign_cost M y <= nth k costs' 0)%Q).
  { intros y Hy. unfold l in Hy. apply in_map_iff in Hy as [x [<- Hx]]. split; [apply (move_feasible _ _ _ _ _ _ _ G), Fs, Hx|].
    unfold mv. rewrite (move_cost _ _ _ _ _ _ _ G) by (apply Fs, Hx). apply (In_nth _ _ []) in Hx as [j [Hj <-]]. rewrite Lf in Hj.
    assert (Ej : nth j (firstn (S k) sols') [] = nth j sols' []).
    { rewrite <- (firstn_skipn (S k) sols') at 2. rewrite app_nth1 by lia. reflexivity. }
    rewrite Ej, <- (K2 j) by lia. apply sorted_nth; [exact S2|lia|exact Hk]. }
  assert (Ll : length l = S k) by (unfold l; rewrite map_length; exact Lf).
  assert (Hk1 : k < length costs).
  { destruct (Nat.lt_ge_cases (length sols) m) as [Hm|Hm]; [|lia]. specialize (A1 Hm).
    assert (length l <= length sols) by (apply NoDup_incl_length; [exact Nl|]; intros y Hy; apply A1, Fl, Hy). lia. }
  split; [exact Hk1|].
  destruct (Exists_dec (fun y => ~ In y (firstn k sols)) l) as [X|X].
  { intros y. destruct (in_dec row_dec y (firstn k sols)); [right; tauto|left; assumption]. }
  - apply Exists_exists in X as [y [Hy X]]. destruct (Fl y Hy) as [Y1 Y2]. eapply Qle_trans; [|exact Y2].
    destruct (in_dec row_dec y sols) as [I1|I1].
    + apply (In_nth _ _ []) in I1 as [j [Hj E]]. assert (k <= j).
      { destruct (Nat.lt_ge_cases j k) as [Hjk|Hjk]; [|exact Hjk]. exfalso. apply X. rewrite <- E.
        assert (Ej : nth j sols [] = nth j (firstn k sols) []) by (rewrite <- (firstn_skipn k sols) at 1; apply app_nth1; rewrite firstn_length; lia).
        rewrite Ej. apply nth_In. rewrite firstn_length. lia. }
      rewrite <- E, <- (K1 j Hj). apply sorted_nth; [exact S1|assumption|lia].
    + apply O1; [apply nth_In; exact Hk1|exact Y1|exact I1].
  - exfalso. assert (length l <= length (firstn k sols)).
    { apply NoDup_incl_length; [exact Nl|]. intros y Hy. destruct (in_dec row_dec y (firstn k sols)) as [I1|I1]; [exact I1|]. exfalso. apply X, Exists_exists. eauto. }
    rewrite firstn_length in H. lia.
Qed.
End Half.
Lemma same_best nr nc nr' nc' M M' g h m sols costs sols' costs' : cells nr' nc' nr nc M' M g -> cells nr nc nr' nc' M M' h ->
  m_best nr nc M m sols costs -> m_best nr' nc' M' m sols' costs' -> Forall2 Qeq costs costs'.
Proof.
  intros Hg Hh B B'. pose proof (half _ _ _ _ _ _ _ Hg _ _ _ _ _ B B') as H1. pose proof (half _ _ _ _ _ _ _ Hh _ _ _ _ _ B' B) as H2.
  assert (L : length costs = length costs').
  { destruct (Nat.lt_trichotomy (length costs) (length costs')) as [H|[H|H]]; [|exact H|].
    - destruct (H1 (length costs) H). lia.
    - destruct (H2 (length costs') H). lia. }
  assert (E : forall k, k < length costs -> (nth k costs 0 == nth k costs' 0)%Q) by (intros k Hk; apply Qle_antisym; [exact (proj2 (H1 k ltac:(rewrite <- L; exact Hk)))|exact (proj2 (H2 k Hk))]).
  clear -L E. revert costs' L E. induction costs as [|x l IH]; intros [|y l'] L E; try discriminate; constructor.
  - apply (E 0). cbn. lia.
  - apply IH; [cbn in L; lia|]. intros k Hk. apply (E (S k)). cbn. lia.
Qed.
Lemma murty_costs m m' k g h : 0 < mr m -> 0 < mr m' ->
  cells (mr m') (mc m') (mr m) (mc m) (me m') (me m) g -> cells (mr m) (mc m) (mr m') (mc m') (me m) (me m') h ->
  exists rows costs rows' costs', murty_m_best (Arr2 m) k = Ok (rows, costs) /\ murty_m_best (Arr2 m') k = Ok (rows', costs') /\ Forall2 Qeq costs costs'.
Proof.
  intros Hm Hm' Hg Hh. destruct (C06_murty_m_best m k Hm) as [s [c [E [B _]]]]. destruct (C06_murty_m_best m' k Hm') as [s' [c' [E' [B' _]]]].
  do 4 eexists. split; [exact E|]. split; [exact E'|]. exact (same_best _ _ _ _ _ _ _ _ _ _ _ _ _ Hg Hh B B').
Qed.
Lemma opt_costs m m' g h : nonnegative m -> nonnegative m' ->
  cells (mr m') (mc m') (mr m) (mc m) (me m') (me m) g -> cells (mr m) (mc m) (mr m') (mc m') (me m) (me m') h ->
  exists a cost a' cost', assign_opt (Arr2 m) = Ok (a, cost) /\ assign_opt (Arr2 m') = Ok (a', cost') /\ assign_size a = assign_size a' /\ (cost == cost')%Q.
Proof.
  intros N N' Hg Hh. destruct (C02_assign_opt_inf m N) as [a [c [E [A [F [C O]]]]]]. destruct (C02_assign_opt_inf m' N') as [a' [c' [E' [A' [F' [C' O']]]]]].
  do 4 eexists. split; [exact E|]. split; [exact E'|].
  destruct (O (move (mr m) g a') (move_assign _ _ _ _ _ _ _ Hg _ A') (move_inf _ _ _ _ _ _ _ Hg _ A' F')) as [O1 O2].
  destruct (O' (move (mr m') h a) (move_assign _ _ _ _ _ _ _ Hh _ A) (move_inf _ _ _ _ _ _ _ Hh _ A F)) as [O3 O4].
  rewrite (move_size _ _ _ _ _ _ _ Hg _ A') in O1, O2. rewrite (move_size _ _ _ _ _ _ _ Hh _ A) in O3, O4.
  assert (S : assign_size a = assign_size a') by lia. split; [exact S|].
  specialize (O2 (eq_sym S)). specialize (O4 S). rewrite (move_cost _ _ _ _ _ _ _ Hg _ A'), <- C' in O2. rewrite (move_cost _ _ _ _ _ _ _ Hh _ A), <- C in O4. apply Qle_antisym; assumption.
Qed.

Lemma cells_renumber nr nc M M' f fi g gi : renumbering nr f fi -> renumbering nc g gi ->
  (forall r c, r < nr -> c < nc -> M' (f r) (g c) = M r c) -> cells nr nc nr nc M M' (fun rc => (f (fst rc), g (snd rc))).
Proof.
  intros Hf Hg V. constructor.
  - intros P [P1 [P2 P3]]. assert (Q : forall {B} (p : nat * nat -> nat) (f : nat -> B), (forall x y, In x P -> In y P -> f (p x) = f (p y) -> p x = p y) -> NoDup (map p P) -> NoDup (map (fun x => f (p x)) P)).
    { intros B p f0 Hi Hn. clear P1 P2 P3. induction P as [|x P IH]; [constructor|]. cbn [map] in *. inversion Hn as [|? ? X1 X2]; subst. constructor.
      - intros Hx. apply in_map_iff in Hx as [y [E Hy]]. apply X1. apply in_map_iff. exists y. split; [|exact Hy]. apply Hi; [right; exact Hy|left; reflexivity|exact E].
      - apply IH; [|exact X2]. intros u w Hu Hw. apply Hi; right; assumption. }
    split; [|split].
    + rewrite map_map. cbn [fst]. apply Q; [|exact P1]. intros [r c] [r' c'] Hx Hy E. cbn [fst] in *. apply P3 in Hx, Hy. destruct (Hf r) as [_ [_ [X _]]]; [tauto|]. destruct (Hf r') as [_ [_ [Y _]]]; [tauto|]. congruence.
    + rewrite map_map. cbn [snd]. apply Q; [|exact P2]. intros [r c] [r' c'] Hx Hy E. cbn [snd] in *. apply P3 in Hx, Hy. destruct (Hg c) as [_ [_ [X _]]]; [tauto|]. destruct (Hg c') as [_ [_ [Y _]]]; [tauto|]. congruence.
    + intros r c Hi. apply in_map_iff in Hi as [[r0 c0] [E Hi]]. apply P3 in Hi. cbn [fst snd] in E. injection E as <- <-. split; [apply Hf|apply Hg]; tauto.
  - intros r c r' c' R1 R2 R3 R4 E. cbn [fst snd] in E. injection E as E1 E2. destruct (Hf r R1) as [_ [_ [X1 _]]]. destruct (Hf r' R3) as [_ [_ [X2 _]]]. destruct (Hg c R2) as [_ [_ [X3 _]]]. destruct (Hg c' R4) as [_ [_ [X4 _]]]. congruence.
  - intros r c R1 R2. apply V; assumption.
Qed.
Lemma cells_transpose nr nc M M' : (forall r c, r < nr -> c < nc -> M' c r = M r c) -> cells nr nc nc nr M M' (fun rc => (snd rc, fst rc)).
Proof.
  intros V. constructor.
  - intros P [P1 [P2 P3]]. split; [rewrite map_map; exact P2|]. split; [rewrite map_map; exact P1|]. intros r c Hi. apply in_map_iff in Hi as [[r0 c0] [E Hi]]. apply P3 in Hi. injection E as <- <-. tauto.
  - intros r c r' c' _ _ _ _ E. injection E as -> ->. reflexivity.
  - intros r c R1 R2. apply V; assumption.
Qed.
Lemma renum_sym n f g : renumbering n f g -> renumbering n g f.
Proof. intros H i Hi. destruct (H i Hi) as [H1 [H2 [H3 H4]]]. auto. Qed.
Lemma renum_cells m f fi g gi : renumbering (mr m) f fi -> renumbering (mc m) g gi ->
  cells (mr m) (mc m) (mr m) (mc m) (me (renumbered f g m)) (me m) (fun rc => (f (fst rc), g (snd rc))) /\
  cells (mr m) (mc m) (mr m) (mc m) (me m) (me (renumbered f g m)) (fun rc => (fi (fst rc), gi (snd rc))).
Proof.
  intros Hf Hg. split.
  - apply (cells_renumber _ _ _ _ f fi g gi Hf Hg). reflexivity.
  - apply (cells_renumber _ _ _ _ fi f gi g (renum_sym _ _ _ Hf) (renum_sym _ _ _ Hg)). intros r c R1 R2. cbn [renumbered me]. destruct (Hf r R1) as [_ [_ [_ ->]]]. destruct (Hg c R2) as [_ [_ [_ ->]]]. reflexivity.
Qed.

(** C201: renumbering the rows and columns changes neither the costs of the m best
    assignments nor their number; *)
Theorem C201_murty_renumbered : forall m f fi g gi k, 0 < mr m -> renumbering (mr m) f fi -> renumbering (mc m) g gi ->
  exists rows costs rows' costs', murty_m_best (Arr2 m) k = Ok (rows, costs) /\
    murty_m_best (Arr2 (renumbered f g m)) k = Ok (rows', costs') /\ Forall2 Qeq costs costs'.
Proof. intros m f fi g gi k Hm Hf Hg. destruct (renum_cells m f fi g gi Hf Hg) as [H1 H2]. apply (murty_costs m (renumbered f g m) k _ _ Hm Hm H1 H2). Qed.
Theorem C201_murty_transposed : forall m k, 0 < mr m -> 0 < mc m ->
  exists rows costs rows' costs', murty_m_best (Arr2 m) k = Ok (rows, costs) /\
    murty_m_best (Arr2 (transposed m)) k = Ok (rows', costs') /\ Forall2 Qeq costs costs'.
Proof. intros m k Hm Hm'. apply (murty_costs m (transposed m) k (fun rc => (snd rc, fst rc)) (fun rc => (snd rc, fst rc)) Hm Hm'); apply cells_transpose; reflexivity. Qed.
(** nor the size and cost of the optimal assignment, *)
Theorem C201_assign_opt_renumbered : forall m f fi g gi, nonnegative m -> renumbering (mr m) f fi -> renumbering (mc m) g gi ->
  exists a cost a' cost', assign_opt (Arr2 m) = Ok (a, cost) /\ assign_opt (Arr2 (renumbered f g m)) = Ok (a', cost') /\
    assign_size a = assign_size a' /\ (cost == cost')%Q.
Proof.
  intros m f fi g gi N Hf Hg. destruct (renum_cells m f fi g gi Hf Hg) as [H1 H2].
  apply (opt_costs m (renumbered f g m) _ _ N) with (2 := H1) (3 := H2). intros r c q R1 R2 E. apply (N (f r) (g c)); [apply Hf, R1|apply Hg, R2|exact E].
Qed.
Theorem C201_assign_opt_transposed : forall m, nonnegative m ->
  exists a cost a' cost', assign_opt (Arr2 m) = Ok (a, cost) /\ assign_opt (Arr2 (transposed m)) = Ok (a', cost') /\
    assign_size a = assign_size a' /\ (cost == cost')%Q.
Proof.
  intros m N. apply (opt_costs m (transposed m) (fun rc => (snd rc, fst rc)) (fun rc => (snd rc, fst rc)) N); [|apply cells_transpose; reflexivity|apply cells_transpose; reflexivity].
  intros r c q R1 R2 E. apply (N c r q R2 R1 E).
Qed.
Print Assumptions C201_murty_renumbered.
Print Assumptions C201_murty_transposed.
Print Assumptions C201_assign_opt_renumbered.
Print Assumptions C201_assign_opt_transposed.

(** A 2x3 matrix with a forbidden cell, its rows exchanged and its columns rotated. *)
Definition num_ex : mat := {| mr := 2; mc := 3; me := fun r c => if (Nat.eqb r 1 && Nat.eqb c 0)%bool then Inf else Fin (inject_Z (Z.of_nat (3 * r + c))) |}.
Definition swap2 (i : nat) : nat := match i with 0 => 1 | 1 => 0 | _ => i end.
Definition rot3 (i : nat) : nat := match i with 0 => 1 | 1 => 2 | 2 => 0 | _ => i end.
Definition tor3 (i : nat) : nat := match i with 0 => 2 | 1 => 0 | 2 => 1 | _ => i end.
Example C201_instance : nonnegative num_ex /\ renumbering (mr num_ex) swap2 swap2 /\ renumbering (mc num_ex) rot3 tor3.
Proof.
  split; [|split].
  - intros r c q _ _. cbn [me num_ex]. destruct (_ && _)%bool; [discriminate|]. intros E. injection E as <-. change 0%Q with (inject_Z 0). rewrite <- Zle_Qle. lia.
  - intros i Hi. cbn [mr num_ex] in *. destruct i as [|[|i]]; cbn; lia.
  - intros i Hi. cbn [mc num_ex] in *. destruct i as [|[|[|i]]]; cbn; lia.
Qed.
