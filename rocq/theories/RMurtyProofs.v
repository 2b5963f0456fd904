(** Generated by mk_real.py from MurtyProofs.v: the same over the real numbers. *)
(** Proofs about the Murty model: the branching partitions the solution set. *)
From Verif Require Import RBase RHungModel RHungSpec RHungProofs RMurtyModel RMurtySpec.
From Coq Require Import Permutation.

Lemma nth_error_ext {A} (l1 l2 : list A) : (forall i, nth_error l1 i = nth_error l2 i) -> l1 = l2.
Proof.
  revert l2. induction l1 as [|a l1 IH]; intros [|b l2] H; try reflexivity;
    try (specialize (H 0); discriminate).
  pose proof (H 0) as H0. simpl in H0. inversion H0; subst. f_equal. apply IH. intros i. apply (H (S i)).
Qed.
Definition option_eq_dec_nat (a b : option (option nat)) : {a = b} + {a <> b}.
Proof. repeat decide equality. Defined.

(** * Assignment vectors *)
Lemma assignment_nth nr nc a : is_assignment nr nc a <->
  length a = nr /\
  (forall r c, nth_error a r = Some (Some c) -> c < nc) /\
  (forall r r' c, nth_error a r = Some (Some c) -> nth_error a r' = Some (Some c) -> r = r').
Proof.
  unfold is_assignment. split.
  - intros [H1 [H2 H3]]. split; [exact H1|]. split; [intros r c H; apply (H2 r), in_pairs, H|].
    intros r r' c Hr Hr'. apply in_pairs in Hr, Hr'.
    revert H3 Hr Hr'. generalize (pairs a). induction l as [|[x y] l IH]; simpl; [tauto|].
    intros Hnd. inversion Hnd; subst. intros [A|A] [B|B].
    + congruence.
    + inversion A; subst. exfalso. apply H3. apply in_map_iff. exists (r', c); auto.
    + inversion B; subst. exfalso. apply H3. apply in_map_iff. exists (r, c); auto.
    + auto.
  - intros [H1 [H2 H3]]. split; [exact H1|]. split; [intros r c H; apply (H2 r), in_pairs, H|].
    assert (HI : forall r r' c, In (r, c) (pairs a) -> In (r', c) (pairs a) -> r = r').
    { intros r r' c A B. apply in_pairs in A, B. eauto. }
    pose proof (pairs_fst_NoDup a) as Hf. revert Hf HI. generalize (pairs a).
    induction l as [|[x y] l IH]; simpl; intros Hf HI; constructor.
    + intros Hin. apply in_map_iff in Hin as [[x' y'] [E Hin]]. simpl in E. subst y'.
      assert (x' = x) by (eapply HI; eauto). subst. inversion Hf as [|? ? Hn1 Hn2]; subst. apply Hn1.
      apply in_map_iff. exists (x, y); auto.
    + inversion Hf; subst. apply IH; auto. intros r r' c A B. eapply HI; eauto.
Qed.
Lemma inf_free_nth P a : inf_free P a <->
  forall r c, nth_error a r = Some (Some c) -> exists q, P r c = Fin q.
Proof. unfold inf_free. split; intros H r c Hrc; apply H; apply in_pairs; exact Hrc. Qed.

Definition full (a : list (option nat)) : Prop := forall r, r < length a -> exists c, nth_error a r = Some (Some c).
Lemma all_assigned_full a : all_assigned a = true <-> full a.
Proof.
  unfold all_assigned, full. split.
  - intros H r Hr. destruct (nth_error a r) as [[c|]|] eqn:E.
    + eauto.
    + apply nth_error_In in E. rewrite forallb_forall in H. apply H in E. discriminate.
    + apply nth_error_None in E. lia.
  - intros H. apply forallb_forall. intros o Ho. apply In_nth_error in Ho as [r Hr].
    destruct (H r) as [c Hc]; [apply nth_error_Some; congruence|]. rewrite Hc in Hr. inversion Hr. reflexivity.
Qed.
Lemma full_size a : full a <-> assign_size a = length a.
Proof.
  unfold assign_size, pairs. split.
  - unfold full. generalize 0. induction a as [|o a IH]; intros k H; [reflexivity|].
    destruct (H 0) as [c Hc]; [simpl; lia|]. simpl in Hc. inversion Hc; subst. simpl. f_equal.
    apply IH. intros r Hr. apply (H (S r)). simpl. lia.
  - unfold full. assert (Hle : forall b k, length (pairs_from k b) <= length b).
    { induction b as [|[c|] b IHb]; intros k; simpl; [lia| |]; specialize (IHb (S k)); lia. }
    generalize 0. induction a as [|o a IH]; intros k H r Hr; simpl in *; [lia|].
    destruct o as [c|]; simpl in H.
    + destruct r as [|r]; [exists c; reflexivity|]. apply (IH (S k)); [lia|lia].
    + specialize (Hle a (S k)). lia.
Qed.

Section Murty.
Variables nr nc : nat.
Variable M : nat -> nat -> ext.     (* the caller's cost matrix *)
Variable x : R.                     (* the subtracted minimum *)
Notation ncp := (nc + nr).
Definition P0 (r c : nat) : ext := esub (if c <? nc then M r c else Fin 0) x.
Hypothesis P0_nonneg : forall r c q, r < nr -> c < ncp -> P0 r c = Fin q -> (0 <= q)%R.

(** Abstract assignment: dummy columns become "missed". *)
Definition abs (a : list (option nat)) : list (option nat) :=
  map (fun o => match o with Some c => if c <? nc then Some c else None | None => None end) a.
Lemma abs_length a : length (abs a) = length a.
Proof. apply map_length. Qed.
Lemma abs_nth a r : nth_error (abs a) r =
  match nth_error a r with
  | Some (Some c) => Some (if c <? nc then Some c else None)
  | Some None => Some None
  | None => None
  end.
Proof.
  unfold abs. destruct (nth_error a r) as [o|] eqn:E.
  - rewrite (map_nth_error _ _ _ E). destruct o as [c|]; reflexivity.
  - apply nth_error_None. rewrite map_length. apply nth_error_None, E.
Qed.

(** Matrices that occur: entries are P0's or inf; dummy columns are shared by
    the free rows, or reserved for one row, or closed. *)
Definition good (P : nat -> nat -> ext) : Prop :=
  (forall r c q, r < nr -> c < ncp -> P r c = Fin q -> P0 r c = Fin q) /\
  exists (dl : nat -> nat) (F : nat -> bool),
    (forall r, r < nr -> nc <= dl r < ncp) /\
    (forall r r', r < nr -> r' < nr -> dl r = dl r' -> r = r') /\
    forall r, r < nr ->
      (forall d, nc <= d < ncp -> P r d = Inf) \/
      (F (dl r) = true /\ forall d, nc <= d < ncp -> is_fin (P r d) = F d) \/
      (F (dl r) = false /\ forall d, nc <= d < ncp -> is_fin (P r d) = (d =? dl r)).

(** Solutions realisable in P. *)
Definition sol (P : nat -> nat -> ext) (s : list (option nat)) : Prop :=
  is_assignment nr nc s /\
  forall r, r < nr ->
    match nth_error s r with
    | Some (Some c) => is_fin (P r c) = true
    | Some None => exists d, nc <= d < ncp /\ is_fin (P r d) = true
    | None => False
    end.

Lemma is_fin_true e : is_fin e = true <-> exists q, e = Fin q.
Proof. destruct e; simpl; split; eauto; try discriminate. intros [q Hq]; discriminate. Qed.

(** A full, finite assignment of the padded matrix is a solution... *)
Lemma sol_abs P a : is_assignment nr ncp a -> inf_free P a -> full a -> sol P (abs a).
Proof.
  rewrite assignment_nth, inf_free_nth. intros [H1 [H2 H3]] Hf Hfull. split.
  - apply assignment_nth. split; [rewrite abs_length; exact H1|]. split.
    + intros r c. rewrite abs_nth. destruct (nth_error a r) as [[c'|]|]; try discriminate.
      destruct (Nat.ltb_spec c' nc) as [Hl|Hl]; intros E; inversion E; subst; assumption.
    + assert (HH : forall r c, nth_error (abs a) r = Some (Some c) -> nth_error a r = Some (Some c)).
      { intros r c. rewrite abs_nth. destruct (nth_error a r) as [[c'|]|]; try discriminate.
        destruct (c' <? nc); intros E; inversion E; subst; reflexivity. }
      intros r r' c A B. eapply H3; apply HH; eauto.
  - intros r Hr. rewrite abs_nth. destruct (Hfull r) as [c Hc]; [lia|]. rewrite Hc.
    destruct (Nat.ltb_spec c nc) as [Hl|Hl].
    + apply is_fin_true. apply (Hf r c Hc).
    + exists c. split; [split; [exact Hl|eapply H2; eauto]|]. apply is_fin_true. apply (Hf r c Hc).
Qed.

(** ... and every solution of a good matrix comes from one. *)
Lemma sol_realise P s : good P -> sol P s ->
  exists a, is_assignment nr ncp a /\ inf_free P a /\ full a /\ abs a = s.
Proof.
  intros [_ [dl [F [D1 [D2 D3]]]]] [Hs Hfin]. pose proof Hs as Hs0. apply assignment_nth in Hs as [S1 [S2 S3]].
  set (f := fun r => match nth_error s r with
                     | Some (Some c) => Some c
                     | _ => Some (dl r) end : option nat).
  set (a := map f (seq 0 nr)).
  assert (Ha : forall r, r < nr -> nth_error a r = Some (f r)) by (intros r Hr; apply nth_error_map_seq, Hr).
  assert (Hl : length a = nr) by (unfold a; rewrite map_length, seq_length; reflexivity).
  assert (Hb : forall r o, nth_error a r = Some o -> r < nr).
  { intros r o H. rewrite <- Hl. apply nth_error_Some. congruence. }
  assert (Hdl : forall r, r < nr -> nth_error s r = Some None -> is_fin (P r (dl r)) = true).
  { intros r Hr E. specialize (Hfin r Hr). rewrite E in Hfin. destruct Hfin as [d [Hd Hdf]].
    destruct (D3 r Hr) as [A|[[A B]|[A B]]].
    - rewrite A in Hdf by exact Hd. discriminate.
    - rewrite B by (apply D1, Hr). exact A.
    - rewrite B by (apply D1, Hr). apply Nat.eqb_refl. }
  assert (Hs' : forall r, r < nr -> exists o, nth_error s r = Some o).
  { intros r Hr. destruct (nth_error s r) as [o|] eqn:E; [eauto|]. apply nth_error_None in E. lia. }
  exists a. split; [|split; [|split]].
  - apply assignment_nth. split; [exact Hl|]. split.
    + intros r c H. pose proof (Hb _ _ H) as Hr. rewrite Ha in H by exact Hr. unfold f in H.
      destruct (Hs' r Hr) as [[c'|] E]; rewrite E in H; inversion H; subst.
      * apply S2 in E. lia.
      * apply D1, Hr.
    + intros r r' c H H'. pose proof (Hb _ _ H) as Hr. pose proof (Hb _ _ H') as Hr'.
      rewrite Ha in H, H' by assumption. unfold f in H, H'.
      destruct (Hs' r Hr) as [[c1|] E]; destruct (Hs' r' Hr') as [[c2|] E']; rewrite E in H; rewrite E' in H';
        inversion H; inversion H'; subst.
      * eapply S3; eauto.
      * apply S2 in E. specialize (D1 r' Hr'). lia.
      * apply S2 in E'. specialize (D1 r Hr). lia.
      * apply D2; auto.
  - apply inf_free_nth. intros r c H. pose proof (Hb _ _ H) as Hr. rewrite Ha in H by exact Hr. unfold f in H.
    destruct (Hs' r Hr) as [[c'|] E]; rewrite E in H; inversion H; subst; apply is_fin_true.
    + specialize (Hfin r Hr). rewrite E in Hfin. exact Hfin.
    + apply Hdl; auto.
  - intros r Hr. rewrite Hl in Hr. rewrite Ha by exact Hr. unfold f.
    destruct (nth_error s r) as [[c|]|]; eauto.
  - apply nth_error_ext. intros r. rewrite abs_nth. destruct (Nat.lt_ge_cases r nr) as [Hr|Hr].
    + rewrite Ha by exact Hr. unfold f. destruct (Hs' r Hr) as [[c'|] E]; rewrite E.
      * apply S2 in E. apply Nat.ltb_lt in E. rewrite E. reflexivity.
      * destruct (D1 r Hr) as [Hge _]. apply Nat.ltb_ge in Hge. rewrite Hge. reflexivity.
    + assert (E : nth_error a r = None) by (apply nth_error_None; lia). rewrite E.
      symmetry. apply nth_error_None. lia.
Qed.

(** Cost of a padded assignment versus cost of the abstract one. *)
Lemma cost_abs_gen P a : forall k,
  (forall r c, In (r, c) (pairs_from k a) -> exists q, P r c = Fin q /\ P0 r c = Fin q) ->
  (forall o, In o a -> o <> None) ->
  (rsum (map (fun rc => fin_val (P (fst rc) (snd rc))) (pairs_from k a)) =
   rsum (map (fun rc => fin_val (M (fst rc) (snd rc))) (pairs_from k (abs a))) - x * Rn (length a))%R.
Proof.
  induction a as [|o a IH]; intros k Hp Hn.
  - simpl. unfold rsum, Rn; simpl. change (IZR 0) with 0%R. lra.
  - destruct o as [c|]; [|exfalso; apply (Hn None); simpl; auto].
    specialize (IH (S k) (fun r c H => Hp r c (or_intror H)) (fun o H => Hn o (or_intror H))).
    destruct (Hp k c (or_introl eq_refl)) as [q [E1 E2]].
    unfold P0 in E2. pose proof (Rn_S (length a)) as HS. simpl length.
    cbn [pairs_from map abs fst snd]. rewrite E1. cbn [fin_val]. fold (abs a).
    destruct (c <? nc).
    + destruct (M k c) as [mq|] eqn:Em; simpl in E2; [|discriminate]. inversion E2; subst q.
      cbn [pairs_from map fst snd]. rewrite Em. cbn [fin_val].
      unfold rsum in *. cbn [fold_right] in *. rewrite IH. rewrite HS. lra.
    + simpl in E2. inversion E2; subst q. cbn [pairs_from].
      unfold rsum in *. cbn [fold_right] in *. rewrite IH. rewrite HS. lra.
Qed.
Lemma cost_abs P a : good P -> is_assignment nr ncp a -> inf_free P a -> full a ->
  (assign_cost P a = assign_cost M (abs a) - x * Rn nr)%R.
Proof.
  intros [Hg _] Ha Hf Hfull. unfold assign_cost, pairs.
  rewrite (cost_abs_gen P a 0).
  - destruct Ha as [-> _]. reflexivity.
  - intros r c H. destruct (Hf r c H) as [q E]. exists q. split; [exact E|].
    apply assignment_plist in Ha. destruct Ha as [_ [_ Ha]]. destruct (Ha r c H). apply Hg; auto.
  - intros o Ho ->. apply In_nth_error in Ho as [r Hr]. destruct (Hfull r) as [c Hc].
    + apply nth_error_Some. congruence.
    + congruence.
Qed.

(** assign_opt on a good matrix: finds a cheapest solution, or there is none. *)
Lemma good_nonneg P r c q : good P -> r < nr -> c < ncp -> P r c = Fin q -> (0 <= q)%R.
Proof. intros [Hg _] Hr Hc E. eapply P0_nonneg; eauto. Qed.

Lemma opt_good P : good P -> exists a c,
  assign_opt2 {| mr := nr; mc := ncp; me := P |} = Ok (a, c) /\
  (all_assigned a = true ->
     is_assignment nr ncp a /\ inf_free P a /\ full a /\ sol P (abs a) /\
     (c = assign_cost M (abs a) - x * Rn nr)%R /\
     forall s, sol P s -> (assign_cost M (abs a) <= assign_cost M s)%R) /\
  (all_assigned a = false -> forall s, ~ sol P s).
Proof.
  intros Hg. destruct (assign_opt2_spec {| mr := nr; mc := ncp; me := P |}) as [a [c [E [Ha [Hf [Hc Hopt]]]]]].
  { cbn. intros r k q Hr Hk Eq. eapply good_nonneg; eauto. }
  cbn [mr mc me] in *. exists a, c. split; [exact E|]. split.
  - intros Hall. apply all_assigned_full in Hall. repeat (split; [assumption|]).
    split; [apply sol_abs; assumption|]. split; [rewrite Hc; apply cost_abs; assumption|].
    intros s Hs. destruct (sol_realise P s Hg Hs) as [b [Hb [Hbf [Hbfull <-]]]].
    destruct (Hopt b Hb Hbf) as [_ Ho].
    assert (Esz : assign_size b = assign_size a).
    { apply full_size in Hbfull, Hall. destruct Ha as [Ha _]. destruct Hb as [Hb _]. congruence. }
    specialize (Ho Esz). rewrite (cost_abs P a), (cost_abs P b) in Ho by assumption. lra.
  - intros Hall s Hs. destruct (sol_realise P s Hg Hs) as [b [Hb [Hbf [Hbfull _]]]].
    destruct (Hopt b Hb Hbf) as [Hle _].
    assert (Hfa : full a); [|apply all_assigned_full in Hfa; congruence].
    apply full_size. apply full_size in Hbfull.
    assert (assign_size a <= length a).
    { unfold assign_size. rewrite <- (map_length fst), <- (seq_length (length a) 0).
      apply NoDup_incl_length; [apply pairs_fst_NoDup|]. intros r Hr.
      apply in_map_iff in Hr as [[r' k] [<- Hin]]. apply in_seq. apply pairs_row in Hin. simpl; lia. }
    destruct Ha as [Ha _]. destruct Hb as [Hb _]. lia.
Qed.

(** * Forbid and enforce *)
Notation forbid := (forbid nr ncp).
Lemma sub_ncp : ncp - nr = nc. Proof. lia. Qed.

(** The choice made for row [aw] by column [aj]. *)
Definition pick (aj : nat) : option nat := if aj <? nc then Some aj else None.

Lemma forbid_good P aw aj : good P -> aw < nr -> aj < ncp -> good (forbid P aw aj).
Proof.
  intros [Hg [dl [F [D1 [D2 D3]]]]] Haw Haj. unfold RMurtyModel.forbid. rewrite sub_ncp.
  destruct (Nat.ltb_spec aj nc) as [Hl|Hl].
  - split.
    + intros r c q Hr Hc. unfold upd2. destruct (_ && _); [discriminate|]. apply Hg; assumption.
    + exists dl, F. split; [exact D1|]. split; [exact D2|]. intros r Hr.
      assert (E : forall d, nc <= d < ncp -> upd2 P aw aj Inf r d = P r d)
        by (intros d Hd; apply upd2_other; lia).
      destruct (D3 r Hr) as [A|[[A B]|[A B]]]; [left|right; left|right; right].
      * intros d Hd. rewrite E by exact Hd. apply A, Hd.
      * split; [exact A|]. intros d Hd. rewrite E by exact Hd. apply B, Hd.
      * split; [exact A|]. intros d Hd. rewrite E by exact Hd. apply B, Hd.
  - split.
    + intros r c q Hr Hc. destruct (_ && _); [discriminate|]. apply Hg; assumption.
    + exists dl, F. split; [exact D1|]. split; [exact D2|]. intros r Hr.
      destruct (Nat.eqb_spec r aw) as [->|Hne]; simpl.
      * left. intros d Hd. assert (E : nc <=? d = true) by (apply Nat.leb_le; lia). rewrite E. reflexivity.
      * apply D3, Hr.
Qed.

Lemma forbid_sol P aw aj s : aw < nr -> aj < ncp ->
  sol (forbid P aw aj) s <-> sol P s /\ nth_error s aw <> Some (pick aj).
Proof.
  intros Haw Haj. unfold RMurtyModel.forbid. rewrite sub_ncp. unfold pick.
  destruct (Nat.ltb_spec aj nc) as [Hl|Hl].
  - split.
    + intros [Hs Hf]. split.
      * split; [exact Hs|]. intros r Hr. specialize (Hf r Hr).
        destruct (nth_error s r) as [[c|]|]; [|destruct Hf as [d [Hd Hf]]; exists d; split; [exact Hd|]|exact Hf];
          unfold upd2 in Hf; destruct (_ && _) in Hf; try discriminate; exact Hf.
      * intros E. specialize (Hf aw Haw). rewrite E, upd2_same in Hf. discriminate.
    + intros [[Hs Hf] Hne]. split; [exact Hs|]. intros r Hr. specialize (Hf r Hr).
      destruct (nth_error s r) as [[c|]|] eqn:E; [| |exact Hf].
      * rewrite upd2_other; [exact Hf|]. destruct (Nat.eq_dec r aw) as [->|]; [right|auto]. congruence.
      * destruct Hf as [d [Hd Hf]]. exists d. split; [exact Hd|]. rewrite upd2_other by lia. exact Hf.
  - split.
    + intros [Hs Hf]. split.
      * split; [exact Hs|]. intros r Hr. specialize (Hf r Hr).
        destruct (nth_error s r) as [[c|]|]; [|destruct Hf as [d [Hd Hf]]; exists d; split; [exact Hd|]|exact Hf];
          destruct (_ && _) in Hf; try discriminate; exact Hf.
      * intros E. specialize (Hf aw Haw). rewrite E in Hf. destruct Hf as [d [Hd Hf]].
        rewrite Nat.eqb_refl in Hf. assert (El : nc <=? d = true) by (apply Nat.leb_le; lia).
        rewrite El in Hf. discriminate.
    + intros [[Hs Hf] Hne]. split; [exact Hs|]. intros r Hr. specialize (Hf r Hr).
      destruct (nth_error s r) as [[c|]|] eqn:E; [| |exact Hf].
      * apply assignment_nth in Hs as [_ [S2 _]]. apply S2 in E. 
        assert (El : nc <=? c = false) by (apply Nat.leb_gt; lia). rewrite El, andb_false_r. exact Hf.
      * destruct Hf as [d [Hd Hf]]. exists d. split; [exact Hd|].
        destruct (Nat.eqb_spec r aw) as [->|]; [congruence|]. exact Hf.
Qed.

Lemma enforce_at P aw aj : enforce P aw aj aw aj = P aw aj.
Proof. unfold enforce. apply upd2_same. Qed.
Lemma enforce_row P aw aj c : c <> aj -> enforce P aw aj aw c = Inf.
Proof. intros H. unfold enforce. rewrite upd2_other by auto. rewrite Nat.eqb_refl. reflexivity. Qed.
Lemma enforce_col P aw aj r : r <> aw -> enforce P aw aj r aj = Inf.
Proof. intros H. unfold enforce. rewrite upd2_other by auto. rewrite Nat.eqb_refl, orb_true_r. reflexivity. Qed.
Lemma enforce_other P aw aj r c : r <> aw -> c <> aj -> enforce P aw aj r c = P r c.
Proof.
  intros H1 H2. unfold enforce. rewrite upd2_other by auto.
  destruct (Nat.eqb_spec r aw), (Nat.eqb_spec c aj); try contradiction. reflexivity.
Qed.
Lemma enforce_le P aw aj r c q : enforce P aw aj r c = Fin q -> P r c = Fin q.
Proof.
  destruct (Nat.eq_dec r aw) as [->|Hr].
  - destruct (Nat.eq_dec c aj) as [->|Hc]; [rewrite enforce_at; auto|rewrite enforce_row by auto; discriminate].
  - destruct (Nat.eq_dec c aj) as [->|Hc]; [rewrite enforce_col by auto; discriminate|rewrite enforce_other by auto; auto].
Qed.

Lemma enforce_good P aw aj : good P -> aw < nr -> aj < ncp -> is_fin (P aw aj) = true ->
  good (enforce P aw aj).
Proof.
  intros [Hg [dl [F [D1 [D2 D3]]]]] Haw Haj Hfin. split.
  { intros r c q Hr Hc E. apply enforce_le in E. apply Hg; assumption. }
  destruct (Nat.lt_ge_cases aj nc) as [Hl|Hl].
  - exists dl, F. split; [exact D1|]. split; [exact D2|]. intros r Hr.
    destruct (Nat.eq_dec r aw) as [->|Hne].
    + left. intros d Hd. apply enforce_row. lia.
    + assert (E : forall d, nc <= d < ncp -> enforce P aw aj r d = P r d)
        by (intros d Hd; apply enforce_other; [exact Hne|lia]).
      destruct (D3 r Hr) as [A|[[A B]|[A B]]]; [left|right; left|right; right].
      * intros d Hd. rewrite E by exact Hd. apply A, Hd.
      * split; [exact A|]. intros d Hd. rewrite E by exact Hd. apply B, Hd.
      * split; [exact A|]. intros d Hd. rewrite E by exact Hd. apply B, Hd.
  - destruct (D3 aw Haw) as [A|[[A B]|[A B]]].
    + rewrite A in Hfin by lia. discriminate.
    + (* free row takes one of the shared dummies *)
      assert (HF : F aj = true) by (rewrite <- B by lia; exact Hfin).
      set (F' := fun d => F d && negb (d =? aj)).
      set (dl' := fun r => if r =? aw then aj else if dl r =? aj then dl aw else dl r).
      exists dl', F'. split; [|split].
      * intros r Hr. unfold dl'. destruct (r =? aw); [lia|]. destruct (dl r =? aj); auto.
      * intros r r' Hr Hr'. unfold dl'.
        destruct (Nat.eqb_spec r aw) as [N1|N1]; destruct (Nat.eqb_spec r' aw) as [N2|N2].
        -- congruence.
        -- destruct (Nat.eqb_spec (dl r') aj) as [E2|E2]; intros E.
           ++ exfalso. apply N2. apply D2; auto. congruence.
           ++ congruence.
        -- destruct (Nat.eqb_spec (dl r) aj) as [E2|E2]; intros E.
           ++ exfalso. apply N1. apply D2; auto. congruence.
           ++ congruence.
        -- destruct (Nat.eqb_spec (dl r) aj) as [E1|E1]; destruct (Nat.eqb_spec (dl r') aj) as [E2|E2]; intros E.
           ++ apply D2; auto. congruence.
           ++ exfalso. apply N2. apply D2; auto.
           ++ exfalso. apply N1. apply D2; auto.
           ++ apply D2; auto.
      * intros r Hr. destruct (Nat.eq_dec r aw) as [->|Hne].
        -- right. right. unfold dl', F'. rewrite !Nat.eqb_refl. rewrite andb_false_r.
           split; [reflexivity|]. intros d Hd. destruct (Nat.eqb_spec d aj) as [->|Hd'].
           ++ rewrite enforce_at. exact Hfin.
           ++ rewrite enforce_row by exact Hd'. reflexivity.
        -- assert (Hb : r =? aw = false) by (apply Nat.eqb_neq; exact Hne).
           destruct (D3 r Hr) as [A'|[[A' B']|[A' B']]].
           ++ left. intros d Hd. destruct (Nat.eq_dec d aj) as [->|Hd'];
                [apply enforce_col, Hne|rewrite enforce_other by auto; apply A', Hd].
           ++ right. left. unfold dl'. rewrite Hb. unfold F'. split.
              ** destruct (Nat.eqb_spec (dl r) aj) as [E|E].
                 --- rewrite A. simpl. apply negb_true_iff, Nat.eqb_neq. intros E'. apply Hne. apply D2; auto. congruence.
                 --- rewrite A'. apply negb_true_iff, Nat.eqb_neq, E.
              ** intros d Hd. destruct (Nat.eqb_spec d aj) as [->|Hd'].
                 --- rewrite enforce_col by exact Hne. rewrite andb_false_r. reflexivity.
                 --- rewrite enforce_other by auto. rewrite B' by exact Hd. rewrite andb_true_r. reflexivity.
           ++ right. right. unfold dl'. rewrite Hb. 
              assert (E : dl r <> aj) by (intros E; rewrite E in A'; congruence).
              apply Nat.eqb_neq in E as E'. rewrite E'. unfold F'. split; [rewrite A'; reflexivity|].
              intros d Hd. destruct (Nat.eqb_spec d aj) as [->|Hd'].
              ** rewrite enforce_col by exact Hne. simpl. symmetry. apply Nat.eqb_neq. auto.
              ** rewrite enforce_other by auto. apply B', Hd.
    + (* row already reserved aj *)
      assert (Ej : aj = dl aw) by (rewrite B in Hfin by lia; apply Nat.eqb_eq; exact Hfin).
      exists dl, F. split; [exact D1|]. split; [exact D2|]. intros r Hr.
      destruct (Nat.eq_dec r aw) as [->|Hne].
      * right. right. split; [exact A|]. intros d Hd. destruct (Nat.eqb_spec d (dl aw)) as [E|Hd'].
        -- subst d. rewrite <- Ej. rewrite enforce_at. exact Hfin.
        -- rewrite enforce_row by congruence. reflexivity.
      * destruct (D3 r Hr) as [A'|[[A' B']|[A' B']]].
        -- left. intros d Hd. destruct (Nat.eq_dec d aj) as [->|Hd'];
                [apply enforce_col, Hne|rewrite enforce_other by auto; apply A', Hd].
        -- right. left. split; [exact A'|]. intros d Hd. destruct (Nat.eq_dec d aj) as [->|Hd'].
           ++ rewrite enforce_col by exact Hne. rewrite Ej, A. reflexivity.
           ++ rewrite enforce_other by auto. apply B', Hd.
        -- right. right. split; [exact A'|]. intros d Hd. destruct (Nat.eq_dec d aj) as [->|Hd'].
           ++ rewrite enforce_col by exact Hne. simpl. symmetry. apply Nat.eqb_neq. intros E.
              apply Hne. apply D2; auto. congruence.
           ++ rewrite enforce_other by auto. apply B', Hd.
Qed.

Lemma enforce_sol P aw aj s : good P -> aw < nr -> aj < ncp -> is_fin (P aw aj) = true ->
  (exists a, is_assignment nr ncp a /\ inf_free P a /\ full a /\ nth_error a aw = Some (Some aj)) ->
  sol (enforce P aw aj) s <-> sol P s /\ nth_error s aw = Some (pick aj).
Proof.
  intros Hg Haw Haj Hfin _. unfold pick. split.
  - intros [Hs Hf]. split.
    + split; [exact Hs|]. intros r Hr. specialize (Hf r Hr). destruct (nth_error s r) as [[c|]|]; [| |exact Hf].
      * apply is_fin_true in Hf as [q E]. apply enforce_le in E. rewrite E. reflexivity.
      * destruct Hf as [d [Hd Hf]]. exists d. split; [exact Hd|].
        apply is_fin_true in Hf as [q E]. apply enforce_le in E. rewrite E. reflexivity.
    + specialize (Hf aw Haw). destruct (nth_error s aw) as [[c|]|] eqn:E; [| |contradiction].
      * destruct (Nat.eq_dec c aj) as [->|Hne]; [|rewrite enforce_row in Hf by exact Hne; discriminate].
        apply assignment_nth in Hs as [_ [S2 _]]. apply S2, Nat.ltb_lt in E. rewrite E. reflexivity.
      * destruct Hf as [d [Hd Hf]]. destruct (Nat.eq_dec d aj) as [->|Hne];
          [|rewrite enforce_row in Hf by exact Hne; discriminate].
        destruct Hd as [Hd _]. apply Nat.ltb_ge in Hd. rewrite Hd. reflexivity.
  - intros [[Hs Hf] E]. split; [exact Hs|]. intros r Hr.
    destruct (Nat.eq_dec r aw) as [->|Hne].
    + rewrite E. destruct (Nat.ltb_spec aj nc) as [Hl|Hl].
      * rewrite enforce_at. exact Hfin.
      * exists aj. split; [lia|]. rewrite enforce_at. exact Hfin.
    + pose proof (Hf r Hr) as Hfr. destruct (nth_error s r) as [[c|]|] eqn:Er; [| |exact Hfr].
      * rewrite enforce_other; [exact Hfr|exact Hne|]. intros ->.
        apply assignment_nth in Hs as [_ [S2 S3]]. pose proof (S2 _ _ Er) as Hl. apply Nat.ltb_lt in Hl.
        rewrite Hl in E. apply Hne. eapply S3; eauto.
      * destruct Hfr as [d [Hd Hfd]]. destruct (Nat.eq_dec d aj) as [->|Hd'].
        2:{ exists d. split; [exact Hd|]. rewrite enforce_other by auto. exact Hfd. }
        (* the dummy was taken: another one is available *)
        assert (Hsr : sol P s) by (split; assumption).
        pose proof (enforce_good P aw aj Hg Haw Haj Hfin) as Hge.
        destruct Hg as [_ [dl [F [D1 [D2 D3]]]]].
        destruct (D3 r Hr) as [A|[[A B]|[A B]]].
        -- rewrite A in Hfd by exact Hd. discriminate.
        -- destruct (D3 aw Haw) as [A'|[[A' B']|[A' B']]].
           ++ rewrite A' in Hfin by exact Hd. discriminate.
           ++ destruct (Nat.eq_dec (dl r) aj) as [Ej|Ej].
              ** exists (dl aw). split; [apply D1, Haw|].
                 rewrite enforce_other; [rewrite B by (apply D1, Haw); exact A'|exact Hne|].
                 intros E'. apply Hne. apply D2; auto. congruence.
              ** exists (dl r). split; [apply D1, Hr|].
                 rewrite enforce_other by auto. rewrite B by (apply D1, Hr). exact A.
           ++ rewrite B' in Hfin by exact Hd. apply Nat.eqb_eq in Hfin. rewrite Hfin in Hfd.
              rewrite B in Hfd by (apply D1, Haw). congruence.
        -- rewrite B in Hfd by exact Hd. apply Nat.eqb_eq in Hfd.
           destruct (D3 aw Haw) as [A'|[[A' B']|[A' B']]].
           ++ rewrite A' in Hfin by exact Hd. discriminate.
           ++ rewrite B' in Hfin by exact Hd. rewrite Hfd in Hfin. congruence.
           ++ rewrite B' in Hfin by exact Hd. apply Nat.eqb_eq in Hfin. exfalso. apply Hne. apply D2; auto. congruence.
Qed.

(** * Branching *)
Definition node_ok (n : mnode) : Prop :=
  forall c, nC n = Some c ->
    good (nP n) /\ is_assignment nr ncp (nS n) /\ inf_free (nP n) (nS n) /\ full (nS n) /\
    (c = assign_cost M (abs (nS n)) - x * Rn nr)%R /\
    forall s, sol (nP n) s -> (assign_cost M (abs (nS n)) <= assign_cost M s)%R.
Definition insol (n : mnode) (s : list (option nat)) : Prop := nC n <> None /\ sol (nP n) s.
Definition disj (a b : mnode) : Prop := forall s, insol a s -> insol b s -> False.

Lemma skipn_nth {A} (l : list A) k y l' : skipn k l = y :: l' ->
  nth_error l k = Some y /\ skipn (S k) l = l'.
Proof.
  revert k. induction l as [|a l IH]; intros k H; [destruct k; discriminate|].
  destruct k as [|k]; simpl in *; [inversion H; subst; auto|]. apply IH, H.
Qed.

Lemma branch_spec a s : forall k P,
  skipn k a = s -> good P -> is_assignment nr ncp a -> inf_free P a -> full a ->
  exists kids, branch nr ncp k s P = Ok kids /\
    Forall node_ok kids /\ ForallOrdPairs disj kids /\
    (forall t, (exists n, In n kids /\ insol n t) <->
       sol P t /\ exists r, k <= r < nr /\ nth_error t r <> nth_error (abs a) r).
Proof.
  induction s as [|o s IH]; intros k P Hsk Hg Ha Hf Hfull; cbn [branch].
  - exists []. split; [reflexivity|]. split; [constructor|]. split; [constructor|].
    intros t. split; [intros [n [[] _]]|]. intros [_ [r [Hr _]]].
    assert (length a <= k).
    { assert (length (skipn k a) = 0) by (rewrite Hsk; reflexivity). rewrite skipn_length in H. lia. }
    destruct Ha as [Ha _]. lia.
  - destruct (skipn_nth _ _ _ _ Hsk) as [Hk Hsk'].
    assert (Hka : k < length a) by (apply nth_error_Some; congruence).
    pose proof Ha as Ha0. apply assignment_nth in Ha0 as [A1 [A2 A3]].
    destruct (Hfull k Hka) as [aj Haj]. rewrite Hk in Haj. inversion Haj; subst o. clear Haj.
    assert (Hajn : aj < ncp) by (eapply A2; eauto). assert (Hkn : k < nr) by lia.
    assert (Hfin : is_fin (P k aj) = true).
    { apply is_fin_true. exact (proj1 (inf_free_nth P a) Hf k aj Hk). }
    assert (Habs : nth_error (abs a) k = Some (pick aj)) by (rewrite abs_nth, Hk; reflexivity).
    destruct (opt_good _ (forbid_good P k aj Hg Hkn Hajn)) as [S_tmp [C_tmp [E [Hyes Hno]]]].
    rewrite E. cbn [bind]. destruct (all_assigned S_tmp) eqn:Eall.
    + destruct (Hyes eq_refl) as [B1 [B2 [B3 [B4 [B5 B6]]]]].
      pose proof (enforce_good P k aj Hg Hkn Hajn Hfin) as Hge.
      assert (Hfe : inf_free (enforce P k aj) a).
      { apply inf_free_nth. intros r c Hrc. pose proof (proj1 (inf_free_nth P a) Hf r c Hrc) as Hf'.
        destruct (Nat.eq_dec r k) as [->|Hne].
        - assert (c = aj) by congruence. subst. rewrite enforce_at. exact Hf'.
        - rewrite enforce_other; [exact Hf'|exact Hne|]. intros ->. apply Hne. eapply A3; eauto. }
      destruct (IH (S k) (enforce P k aj) Hsk' Hge Ha Hfe Hfull) as [kids [Ek [K1 [K2 K3]]]].
      rewrite Ek. cbn [bind].
      assert (Hes : forall t, sol (enforce P k aj) t <-> sol P t /\ nth_error t k = Some (pick aj)).
      { intros t. apply enforce_sol; auto. exists a. auto. }
      eexists. split; [reflexivity|].
      set (n0 := {| nP := forbid P k aj; nS := S_tmp; nC := Some C_tmp |}).
      assert (Hn0 : forall t, insol n0 t <-> sol P t /\ nth_error t k <> Some (pick aj)).
      { intros t. unfold insol, n0. cbn [nC nP]. rewrite forbid_sol by assumption.
        split; [tauto|]. intros H. split; [discriminate|exact H]. }
      split; [|split].
      * constructor; [|exact K1]. intros c Ec. simpl in Ec. inversion Ec; subst c. cbn.
        split; [apply forbid_good; assumption|]. auto.
      * constructor; [|exact K2]. apply Forall_forall. intros n Hn t Ht0 Htn.
        apply Hn0 in Ht0 as [_ Hneq].
        destruct (proj1 (K3 t) (ex_intro _ n (conj Hn Htn))) as [Hs _]. apply Hes in Hs. tauto.
      * intros t. split.
        -- intros [n [[<-|Hn] Hin]].
           ++ apply Hn0 in Hin as [Hs Hneq]. split; [exact Hs|]. exists k. split; [lia|]. rewrite Habs. exact Hneq.
           ++ destruct (proj1 (K3 t) (ex_intro _ n (conj Hn Hin))) as [Hs [r [Hr Hrd]]].
              apply Hes in Hs as [Hs _]. split; [exact Hs|]. exists r. split; [lia|exact Hrd].
        -- intros [Hs [r [Hr Hrd]]].
           assert (Hdec : {nth_error t k = Some (pick aj)} + {nth_error t k <> Some (pick aj)})
             by (repeat decide equality).
           destruct Hdec as [Heq|Hneq].
           ++ destruct (proj2 (K3 t)) as [n [Hn Hin]].
              { split; [apply Hes; auto|]. exists r. split; [|exact Hrd].
                destruct (Nat.eq_dec r k) as [->|]; [congruence|lia]. }
              exists n. split; [right; exact Hn|exact Hin].
           ++ exists n0. split; [left; reflexivity|]. apply Hn0. auto.
    + specialize (Hno eq_refl).
      assert (Hall : forall t, sol P t -> nth_error t k = Some (pick aj)).
      { intros t Ht. assert (Hdec : {nth_error t k = Some (pick aj)} + {nth_error t k <> Some (pick aj)})
          by (repeat decide equality).
        destruct Hdec as [|Hneq]; [assumption|]. exfalso. apply (Hno t). apply forbid_sol; auto. }
      destruct (IH (S k) P Hsk' Hg Ha Hf Hfull) as [kids [Ek [K1 [K2 K3]]]].
      exists kids. split; [exact Ek|]. split; [exact K1|]. split; [exact K2|].
      intros t. rewrite K3. split.
      * intros [Hs [r [Hr Hrd]]]. split; [exact Hs|]. exists r. split; [lia|exact Hrd].
      * intros [Hs [r [Hr Hrd]]]. split; [exact Hs|]. exists r. split; [|exact Hrd].
        destruct (Nat.eq_dec r k) as [->|]; [|lia]. exfalso. apply Hrd. rewrite Habs. apply Hall, Hs.
Qed.

(** * nanargmin *)
Lemma nanargmin_from_spec l : forall i best,
  match nanargmin_from i l best with
  | None => best = None /\ Forall (fun o => o = None) l
  | Some j =>
      exists q, ((exists k, best = Some (j, q) /\ k = 0) \/ (i <= j /\ nth_error l (j - i) = Some (Some q))) /\
        (forall j' q', best = Some (j', q') -> (q <= q')%R) /\
        (forall k q', nth_error l k = Some (Some q') -> (q <= q')%R)
  end.
Proof.
  induction l as [|o l IH]; intros i best; cbn [nanargmin_from].
  - destruct best as [[j q]|].
    + exists q. split; [left; exists 0; auto|]. split; [intros j' q' E; inversion E; subst; lra|].
      intros k q' H. destruct k; discriminate.
    + split; [reflexivity|constructor].
  - assert (Hshift : forall j, S i <= j -> j - i = S (j - S i)) by (intros; lia).
    destruct o as [q0|].
    + assert (Hstep : forall b, 
        (b = Some (i, q0) /\ (forall j' q', best = Some (j', q') -> (q0 <= q')%R) \/
         b = best /\ exists j' q', best = Some (j', q') /\ (q' <= q0)%R) ->
        match nanargmin_from (S i) l b with
        | None => best = None /\ Forall (fun o => o = None) (Some q0 :: l)
        | Some j =>
            exists q, ((exists k, best = Some (j, q) /\ k = 0) \/ (i <= j /\ nth_error (Some q0 :: l) (j - i) = Some (Some q))) /\
              (forall j' q', best = Some (j', q') -> (q <= q')%R) /\
              (forall k q', nth_error (Some q0 :: l) k = Some (Some q') -> (q <= q')%R)
        end).
      { intros b Hb. specialize (IH (S i) b). destruct (nanargmin_from (S i) l b) as [j|].
        - destruct IH as [q [H1 [H2 H3]]]. exists q. split; [|split].
          + destruct H1 as [[k [Eb _]]|[Hj Hn]].
            * destruct Hb as [[Hb _]|[Hb _]]; rewrite Hb in Eb.
              -- inversion Eb; subst. right. rewrite Nat.sub_diag. split; [lia|reflexivity].
              -- left. exists 0. auto.
            * right. split; [lia|]. rewrite Hshift by exact Hj. exact Hn.
          + intros j' q' E. destruct Hb as [[Hb Hle]|[Hb _]]; subst b.
            * specialize (H2 _ _ eq_refl). specialize (Hle _ _ E). lra.
            * eapply H2; eauto.
          + intros k q' Hk. destruct k as [|k]; [|eapply H3; eauto]. simpl in Hk. inversion Hk; subst.
            destruct Hb as [[Hb _]|[Hb [j2 [q2 [E2 Hle]]]]]; subst b; [eapply H2; eauto|].
            specialize (H2 _ _ E2). lra.
        - destruct IH as [Hb' _]. destruct Hb as [[Hb _]|[Hb [j2 [q2 [E2 _]]]]]; congruence. }
      destruct best as [[j b]|].
      * destruct (Rltb q0 b) eqn:E.
        -- apply Hstep. left. split; [reflexivity|]. intros j' q' E'. inversion E'; subst. apply Rltb_lt in E. lra.
        -- apply Hstep. right. split; [reflexivity|]. exists j, b. split; [reflexivity|]. apply Rltb_ge, E.
      * apply Hstep. left. split; [reflexivity|]. intros; discriminate.
    + specialize (IH (S i) best). destruct (nanargmin_from (S i) l best) as [j|].
      * destruct IH as [q [H1 [H2 H3]]]. exists q. split; [|split].
        -- destruct H1 as [H1|[Hj Hn]]; [left; exact H1|]. right. split; [lia|]. rewrite Hshift by exact Hj. exact Hn.
        -- exact H2.
        -- intros k q' Hk. destruct k as [|k]; [discriminate|]. eapply H3; eauto.
      * destruct IH as [H1 H2]. split; [exact H1|]. constructor; auto.
Qed.
Lemma nanargmin_none l : nanargmin l = None -> Forall (fun o => o = None) l.
Proof.
  intros H. pose proof (nanargmin_from_spec l 0 None) as Hs. unfold nanargmin in H. rewrite H in Hs. apply Hs.
Qed.
Lemma nanargmin_some l j : nanargmin l = Some j ->
  exists q, nth_error l j = Some (Some q) /\ forall k q', nth_error l k = Some (Some q') -> (q <= q')%R.
Proof.
  intros H. pose proof (nanargmin_from_spec l 0 None) as Hs. unfold nanargmin in H. rewrite H in Hs.
  destruct Hs as [q [[[k [E _]]|[_ Hn]] [_ H3]]]; [discriminate|]. exists q. rewrite Nat.sub_0_r in Hn. auto.
Qed.

(** * Main loop *)
Lemma close_at_split nodes i n : nth_error nodes i = Some n ->
  exists l1 l2, nodes = l1 ++ n :: l2 /\ close_at i nodes = l1 ++ close n :: l2.
Proof.
  revert i. induction nodes as [|a l IH]; intros i H; [destruct i; discriminate|].
  destruct i as [|i]; simpl in *.
  - inversion H; subst. exists [], l. auto.
  - destruct (IH i H) as [l1 [l2 [-> E]]]. exists (a :: l1), l2. rewrite E. auto.
Qed.
Lemma FOP_app {A} (R : A -> A -> Prop) l1 l2 : ForallOrdPairs R (l1 ++ l2) <->
  ForallOrdPairs R l1 /\ ForallOrdPairs R l2 /\ forall a b, In a l1 -> In b l2 -> R a b.
Proof.
  induction l1 as [|x0 l1 IH]; simpl.
  - split; [intros H; split; [constructor|split; [exact H|tauto]]|tauto].
  - split.
    + intros H. inversion H as [|? ? H1 H2]; subst. apply IH in H2 as [A1 [A2 A3]]. rewrite Forall_forall in H1.
      split; [constructor; [apply Forall_forall; intros y Hy; apply H1, in_app_iff; auto|exact A1]|].
      split; [exact A2|]. intros a b [<-|Ha] Hb; [apply H1, in_app_iff; auto|auto].
    + intros [H1 [H2 H3]]. inversion H1 as [|? ? B1 B2]; subst. constructor.
      * rewrite Forall_forall in *. intros y Hy. apply in_app_iff in Hy as [Hy|Hy]; auto.
      * apply IH. auto.
Qed.

Definition nopen (n : mnode) : bool := match nC n with Some _ => true | None => false end.
Definition tot (s : list (option nat)) : R := assign_cost M s.
Definition feas (s : list (option nat)) : Prop := feasible nr nc M s.

Definition linv (nodes : list mnode) (acc : list (assign_vec * R)) : Prop :=
  Forall node_ok nodes /\
  ForallOrdPairs disj nodes /\
  (forall sc, In sc acc -> length (fst sc) = nr /\ full (fst sc) /\ feas (abs (fst sc)) /\
      (snd sc = tot (abs (fst sc)) - x * Rn nr)%R) /\
  NoDup (map (fun sc => abs (fst sc)) acc) /\
  (forall s, feas s -> In s (map (fun sc => abs (fst sc)) acc) \/ exists n, In n nodes /\ insol n s) /\
  (forall n s, In n nodes -> insol n s -> feas s /\ ~ In s (map (fun sc => abs (fst sc)) acc)) /\
  (forall sc n s, In sc acc -> In n nodes -> insol n s -> (snd sc <= tot s - x * Rn nr)%R) /\
  ForallOrdPairs (fun a b => (snd a <= snd b)%R) acc /\
  length (filter (fun n => negb (nopen n)) nodes) = length acc.

Lemma disj_close n m : disj (close n) m.
Proof. intros s [H _]. exfalso. apply H. reflexivity. Qed.

Definition result_ok (m : nat) (acc : list (assign_vec * R)) : Prop :=
  (forall sc, In sc acc -> length (fst sc) = nr /\ full (fst sc) /\ feas (abs (fst sc)) /\
      (snd sc = tot (abs (fst sc)) - x * Rn nr)%R) /\
  NoDup (map (fun sc => abs (fst sc)) acc) /\
  ForallOrdPairs (fun a b => (snd a <= snd b)%R) acc /\
  (forall sc s, In sc acc -> feas s -> ~ In s (map (fun sc => abs (fst sc)) acc) ->
      (snd sc <= tot s - x * Rn nr)%R) /\
  length acc <= m /\
  (length acc < m -> forall s, feas s -> In s (map (fun sc => abs (fst sc)) acc)).

Lemma murty_loop_spec m : forall nodes acc, linv nodes acc ->
  exists ans, murty_loop nr ncp m nodes acc = Ok ans /\ result_ok (length acc + m) ans.
Proof.
  induction m as [|m IH]; intros nodes acc Hinv; cbn [murty_loop];
    destruct Hinv as [I1 [I2 [I3 [I4 [I5 [I6 [I7 [I8 I9]]]]]]]].
  - exists acc. split; [reflexivity|]. split; [exact I3|]. split; [exact I4|]. split; [exact I8|].
    split; [|split; lia]. intros sc s Hsc Hs Hn. destruct (I5 s Hs) as [|[n [Hn1 Hn2]]]; [contradiction|].
    eapply I7; eauto.
  - destruct (nanargmin (map nC nodes)) as [i|] eqn:E.
    + apply nanargmin_some in E as [c [Ec Hmin]].
      rewrite nth_error_map in Ec. destruct (nth_error nodes i) as [n|] eqn:En; [|discriminate].
      simpl in Ec. inversion Ec as [Ec']. clear Ec. destruct n as [P s oc]. simpl in Ec'. subst oc.
      assert (Hin : In {| nP := P; nS := s; nC := Some c |} nodes) by (eapply nth_error_In; eauto).
      rewrite Forall_forall in I1. pose proof (I1 _ Hin c eq_refl) as Hn. cbn [nP nS nC] in Hn.
      destruct Hn as [N1 [N2 [N3 [N4 [N5 N6]]]]].
      destruct (branch_spec s s 0 P eq_refl N1 N2 N3 N4) as [kids [Ek [K1 [K2 K3]]]].
      rewrite Ek. cbn [bind].
      set (n0 := {| nP := P; nS := s; nC := Some c |}) in *.
      destruct (close_at_split nodes i n0 En) as [l1 [l2 [El Ecl]]].
      assert (Hs0 : insol n0 (abs s)).
      { split; [discriminate|]. apply sol_abs; assumption. }
      assert (Hsplit : forall t, sol P t <-> t = abs s \/ exists k, In k kids /\ insol k t).
      { intros t. split.
        - intros Ht. assert (Hd : {t = abs s} + {t <> abs s}) by (repeat decide equality).
          destruct Hd as [|Hne]; [auto|]. right. apply K3. split; [exact Ht|].
          destruct (all_lt (fun r => if option_eq_dec_nat (nth_error t r) (nth_error (abs s) r) then true else false) nr) eqn:Ea.
          + exfalso. apply Hne. rewrite all_lt_true in Ea. apply nth_error_ext. intros r.
            destruct (Nat.lt_ge_cases r nr) as [Hr|Hr].
            * specialize (Ea r Hr). destruct (option_eq_dec_nat _ _); [assumption|discriminate].
            * destruct Ht as [[Ht _] _]. destruct N2 as [Hl _].
              rewrite (proj2 (nth_error_None t r)) by lia.
              symmetry. apply nth_error_None. rewrite abs_length. lia.
          + apply all_lt_false in Ea as [r [Hr Hd]]. exists r. split; [lia|].
            destruct (option_eq_dec_nat _ _); [discriminate|assumption].
        - intros [->|[k [Hk1 Hk2]]]; [apply Hs0|]. apply (K3 t). exists k. auto. }
      assert (Hsep : forall t k, In k kids -> insol k t -> t <> abs s).
      { intros t k Hk Hik ->. destruct (proj1 (K3 (abs s)) (ex_intro _ k (conj Hk Hik))) as [_ [r [_ Hr]]]. congruence. }
      assert (Hkin : forall k t, In k kids -> insol k t -> insol n0 t).
      { intros k t Hk Hik. split; [discriminate|]. apply Hsplit. right. exists k; auto. }
      assert (Hcmin : forall n t, In n nodes -> insol n t -> (c <= tot t - x * Rn nr)%R).
      { intros n t Hn' [Hop Ht]. destruct (nC n) as [cn|] eqn:Ecn; [|congruence].
        destruct (I1 n Hn' cn Ecn) as [_ [_ [_ [_ [Q5 Q6]]]]].
        assert (c <= cn)%R.
        { apply In_nth_error in Hn' as [k Hk]. apply (Hmin k). rewrite nth_error_map, Hk. simpl. congruence. }
        specialize (Q6 t Ht). unfold tot. lra. }
      destruct (IH (close_at i nodes ++ kids) (acc ++ [(s, c)])) as [ans [Ea Hres]].
      { rewrite Ecl. rewrite El in I2. apply FOP_app in I2 as [F1 [F2 F3]].
        inversion F2 as [|? ? F4 F5]; subst a l. rewrite Forall_forall in F4.
        assert (Hold : forall n, In n (l1 ++ close n0 :: l2) -> n = close n0 \/ (In n nodes /\ (In n l1 \/ In n l2))).
        { intros n Hn. apply in_app_iff in Hn as [Hn|[<-|Hn]]; [right|left; reflexivity|right];
            (split; [rewrite El; apply in_app_iff; simpl; auto|auto]). }
        assert (Hdn : forall n t, In n l1 \/ In n l2 -> insol n t -> insol n0 t -> False).
        { intros n t [Hn|Hn] H1 H2; [apply (F3 n n0 Hn (or_introl eq_refl) t H1 H2)|apply (F4 n Hn t H2 H1)]. }
        assert (Hnc : forall t, ~ insol (close n0) t) by (intros t [Hx _]; apply Hx; reflexivity).
        split; [|split; [|split; [|split; [|split; [|split; [|split; [|split]]]]]]].
        - apply Forall_app. split; [|exact K1]. apply Forall_forall. intros n Hn.
          destruct (Hold n Hn) as [->|[Hn' _]]; [intros c' Hc'; discriminate|apply I1, Hn'].
        - apply FOP_app. split; [|split; [exact K2|]].
          + apply FOP_app. split; [exact F1|]. split.
            * constructor; [apply Forall_forall; intros; apply disj_close|exact F5].
            * intros a b Ha [<-|Hb]; [intros t _ Ht; apply (Hnc t Ht)|apply F3; [exact Ha|right; exact Hb]].
          + intros a b Ha Hb t Hta Htb. destruct (Hold a Ha) as [->|[_ Hl]]; [apply (Hnc t Hta)|].
            apply (Hdn a t Hl Hta). eapply Hkin; eauto.
        - intros sc Hsc. apply in_app_iff in Hsc as [Hsc|[<-|[]]]; [apply I3, Hsc|]. cbn [fst snd].
          split; [apply N2|]. split; [exact N4|]. split; [apply (I6 n0 _ Hin Hs0)|exact N5].
        - rewrite map_app. cbn [map fst]. apply (Permutation_NoDup (Permutation_cons_append _ _)).
          constructor; [|exact I4]. apply (I6 n0 _ Hin Hs0).
        - intros t Ht. rewrite map_app. destruct (I5 t Ht) as [Hacc|[n [Hn Hnt]]].
          + left. apply in_app_iff. auto.
          + destruct (proj1 (in_app_iff l1 (n0 :: l2) n)) as [Hl|[<-|Hl]]; [rewrite <- El; exact Hn| | |].
            * right. exists n. split; [apply in_app_iff; left; apply in_app_iff; auto|exact Hnt].
            * destruct Hnt as [_ Hnt]. apply Hsplit in Hnt as [->|[k [Hk Hkt]]].
              -- left. apply in_app_iff. right. left. reflexivity.
              -- right. exists k. split; [apply in_app_iff; auto|exact Hkt].
            * right. exists n. split; [apply in_app_iff; left; apply in_app_iff; simpl; auto|exact Hnt].
        - intros n t Hn Hnt. rewrite map_app. apply in_app_iff in Hn as [Hn|Hn].
          + destruct (Hold n Hn) as [->|[Hn' Hl]]; [exfalso; apply (Hnc t Hnt)|].
            destruct (I6 n t Hn' Hnt) as [A B]. split; [exact A|]. intros Hx.
            apply in_app_iff in Hx as [Hx|[Hx|[]]]; [contradiction|]. cbn in Hx. subst t. apply (Hdn n _ Hl Hnt Hs0).
          + destruct (I6 n0 t Hin (Hkin n t Hn Hnt)) as [A B]. split; [exact A|]. intros Hx.
            apply in_app_iff in Hx as [Hx|[Hx|[]]]; [contradiction|]. cbn in Hx. apply (Hsep t n Hn Hnt). auto.
        - intros sc n t Hsc Hn Hnt.
          assert (Hex : exists n', In n' nodes /\ insol n' t).
          { apply in_app_iff in Hn as [Hn|Hn].
            - destruct (Hold n Hn) as [->|[Hn' _]]; [exfalso; apply (Hnc t Hnt)|eauto].
            - exists n0. split; [exact Hin|eapply Hkin; eauto]. }
          destruct Hex as [n' [Hn1 Hn2]].
          apply in_app_iff in Hsc as [Hsc|[<-|[]]]; [eapply I7; eauto|]. cbn [snd]. eapply Hcmin; eauto.
        - apply FOP_app. split; [exact I8|]. split; [constructor; constructor|].
          intros a b Ha [<-|[]]. cbn [snd]. specialize (I7 a n0 (abs s) Ha Hin Hs0).
          unfold tot in I7. lra.
        - rewrite !filter_app, !app_length. cbn [filter]. unfold nopen at 2. cbn [close nC negb length].
          rewrite El, filter_app, app_length in I9. cbn [filter] in I9. unfold nopen at 2 in I9. cbn in I9.
          assert (Ez : filter (fun n => negb (nopen n)) kids = []).
          { assert (HH : forall kk, Forall (fun n => nopen n = true) kk -> filter (fun n => negb (nopen n)) kk = []).
            { induction 1 as [|y ys Hy _ IHy]; simpl; [reflexivity|]. rewrite Hy. exact IHy. }
            apply HH. clear - Ek. revert Ek. generalize 0. intros k0. revert k0 P kids.
            induction s as [|o s IH]; intros k0 P kids Ek; cbn [branch] in Ek.
            - inversion Ek. constructor.
            - destruct o as [aj|]; [|eapply IH; eauto].
              destruct (assign_opt2 _) as [[S_tmp C_tmp]|]; cbn [bind] in Ek; [|discriminate].
              destruct (all_assigned S_tmp); [|eapply IH; eauto].
              destruct (branch nr ncp (S k0) s (enforce P k0 aj)) as [rest|] eqn:Er; cbn [bind] in Ek; [|discriminate].
              inversion Ek; subst. constructor; [reflexivity|]. eapply IH; eauto. }
          rewrite Ez. cbn [length]. lia. }
      exists ans. split; [exact Ea|]. rewrite app_length in Hres. cbn [length] in Hres.
      replace (length acc + S m) with (length acc + 1 + m) by lia. exact Hres.
    + apply nanargmin_none in E.
      assert (Hcl : Forall (fun n => nC n = None) nodes).
      { clear - E. induction nodes as [|n l IH]; constructor; inversion E; subst; auto. }
      assert (Hlen : length nodes = length acc).
      { rewrite <- I9. clear - Hcl. induction Hcl as [|n l Hn _ IH]; [reflexivity|].
        simpl. unfold nopen at 1. rewrite Hn. simpl. f_equal. exact IH. }
      rewrite Hlen, Nat.leb_refl, firstn_all. exists acc. split; [reflexivity|].
      assert (Hall : forall s, feas s -> In s (map (fun sc => abs (fst sc)) acc)).
      { intros s Hs. destruct (I5 s Hs) as [|[n [Hn [Hop _]]]]; [assumption|].
        rewrite Forall_forall in Hcl. exfalso. apply Hop, Hcl, Hn. }
      split; [exact I3|]. split; [exact I4|]. split; [exact I8|]. split; [|split; [lia|auto]].
      intros sc s Hsc Hs Hn. exfalso. apply Hn, Hall, Hs.
Qed.
End Murty.

(** * Top level *)
Lemma min_entry_spec nr nc m : 0 < nr -> 0 < nc ->
  (exists r c q, r < nr /\ c < nc /\ m r c = Fin q) ->
  exists x, min_entry nr nc m = Some (Fin x) /\
    (forall r c q, r < nr -> c < nc -> m r c = Fin q -> (x <= q)%R).
Proof.
  intros Hnr Hnc Hex. unfold min_entry.
  destruct (Nat.eqb_spec nr 0); [lia|]. destruct (Nat.eqb_spec nc 0); [lia|]. cbn [orb].
  set (lb := fun (e : ext) (P : R -> Prop) => match e with Inf => forall q, ~ P q | Fin v => forall q, P q -> (v <= q)%R end).
  assert (Hlb_step : forall e e0 P, lb e P -> lb (min_ext e e0) (fun q => P q \/ e0 = Fin q)).
  { intros e e0 P H. destruct e as [v|], e0 as [v0|]; simpl in *.
    - destruct (Rltb v0 v) eqn:E.
      + apply Rltb_lt in E. intros q [Hq|Hq]; [apply H in Hq; lra|inversion Hq; lra].
      + apply Rltb_ge in E. intros q [Hq|Hq]; [apply H, Hq|inversion Hq; subst; exact E].
    - intros q [Hq|Hq]; [apply H, Hq|discriminate].
    - intros q [Hq|Hq]; [exfalso; eapply H; eauto|inversion Hq; lra].
    - intros q [Hq|Hq]; [eapply H; eauto|discriminate]. }
  assert (Hlb_ext : forall e (P P' : R -> Prop), (forall q, P' q -> P q) -> lb e P -> lb e P').
  { intros e P P' H. destruct e; simpl; intros H1 qq Hq; [apply H1, H, Hq|apply (H1 qq), H, Hq]. }
  assert (Hin : forall r cols e P, lb e P ->
     lb (fold_left (fun acc c => min_ext acc (m r c)) cols e) (fun q => P q \/ exists c, In c cols /\ m r c = Fin q)).
  { intros r cols. induction cols as [|c cols IH]; intros e P H; cbn [fold_left].
    - eapply Hlb_ext; [|exact H]. intros q [|[c [[] _]]]; auto.
    - eapply Hlb_ext; [|apply IH, Hlb_step, H]. intros q [|[c' [[<-|Hc] E]]]; auto. right. eauto. }
  assert (Hout : forall rows e P, lb e P ->
     lb (fold_left (fun acc r => fold_left (fun acc c => min_ext acc (m r c)) (seq 0 nc) acc) rows e)
        (fun q => P q \/ exists r c, In r rows /\ In c (seq 0 nc) /\ m r c = Fin q)).
  { induction rows as [|r rows IH]; intros e P H; cbn [fold_left].
    - eapply Hlb_ext; [|exact H]. intros q [|[r [c [[] _]]]]; auto.
    - eapply Hlb_ext; [|apply IH, Hin, H]. intros q [|[r' [c' [[<-|Hr] [Hc E]]]]]; auto.
      + left. right. eauto.
      + right. eauto. }
  specialize (Hout (seq 0 nr) Inf (fun _ => False) (fun q H => H)).
  destruct (fold_left (fun acc r => fold_left (fun acc c => min_ext acc (m r c)) (seq 0 nc) acc) (seq 0 nr) Inf) as [v|];
    simpl in Hout.
  - exists v. split; [reflexivity|]. intros r c q Hr Hc E. apply Hout. right. exists r, c.
    split; [apply in_seq; lia|]. split; [apply in_seq; lia|exact E].
  - exfalso. destruct Hex as [r [c [q [Hr [Hc E]]]]]. apply (Hout q). right. exists r, c.
    split; [apply in_seq; lia|]. split; [apply in_seq; lia|exact E].
Qed.

Section Top.
Variables nr nc : nat.
Variable M : nat -> nat -> ext.
Variable x : R.
Notation ncp := (nc + nr).

Lemma P0_good : good nr nc M x (P0 nc M x).
Proof.
  split; [auto|]. exists (fun r => nc + r), (fun _ => true). split; [intros; lia|]. split; [intros; lia|].
  intros r Hr. right. left. split; [reflexivity|]. intros d Hd. unfold P0.
  destruct (Nat.ltb_spec d nc); [lia|]. reflexivity.
Qed.
Lemma P0_sol s : sol nr nc (P0 nc M x) s <-> feasible nr nc M s.
Proof.
  unfold sol, feasible. split.
  - intros [Hs Hf]. split; [exact Hs|]. apply inf_free_nth. intros r c E.
    pose proof Hs as Hs'. apply assignment_nth in Hs' as [S1 [S2 _]].
    assert (Hr : r < nr) by (rewrite <- S1; apply nth_error_Some; congruence).
    specialize (Hf r Hr). rewrite E in Hf. unfold P0 in Hf. pose proof (S2 _ _ E) as Hc.
    apply Nat.ltb_lt in Hc. rewrite Hc in Hf. destruct (M r c) as [q|]; [eauto|discriminate].
  - intros [Hs Hf]. split; [exact Hs|]. intros r Hr.
    pose proof Hs as Hs'. apply assignment_nth in Hs' as [S1 [S2 _]].
    destruct (nth_error s r) as [[c|]|] eqn:E.
    + pose proof (proj1 (inf_free_nth M s) Hf r c E) as [q Eq]. unfold P0. pose proof (S2 _ _ E) as Hc.
      apply Nat.ltb_lt in Hc. rewrite Hc, Eq. reflexivity.
    + exists nc. split; [lia|]. unfold P0. rewrite Nat.ltb_irrefl. reflexivity.
    + apply nth_error_None in E. lia.
Qed.
End Top.

Lemma none_feasible nr nc M : feasible nr nc M (repeat None nr).
Proof.
  assert (H : forall r c, nth_error (repeat (@None nat) nr) r <> Some (Some c)).
  { intros r c E. apply nth_error_In, repeat_spec in E. discriminate. }
  split.
  - apply assignment_nth. split; [apply repeat_length|]. split.
    + intros r c E. exfalso; eapply H; eauto.
    + intros r r' c E. exfalso; eapply H; eauto.
  - apply inf_free_nth. intros r c E. exfalso; eapply H; eauto.
Qed.

(** The specification of the whole function. *)
Lemma FOP_map {A B} (f : A -> B) (R : B -> B -> Prop) l :
  ForallOrdPairs (fun a b => R (f a) (f b)) l -> ForallOrdPairs R (map f l).
Proof.
  induction 1 as [|a l H1 H2 IH]; simpl; constructor; auto.
  apply Forall_map. exact H1.
Qed.
Lemma FOP_impl {A} (R R' : A -> A -> Prop) l :
  (forall a b, In a l -> In b l -> R a b -> R' a b) -> ForallOrdPairs R l -> ForallOrdPairs R' l.
Proof.
  intros H HF. induction HF as [|a l H1 H2 IH]; constructor.
  - rewrite Forall_forall in *. intros b Hb. apply H; simpl; auto.
  - apply IH. intros; apply H; simpl; auto.
Qed.

Lemma murty2_spec cost m : 0 < mr cost -> 0 < m ->
  exists sols costs, murty2 cost m = Ok (map encode sols, costs) /\
    m_best (mr cost) (mc cost) (me cost) m sols costs.
Proof.
  intros Hnr Hm. unfold murty2. destruct (Nat.eqb_spec m 0) as [|_]; [lia|].
  set (nr := mr cost) in *. set (nc := mc cost). set (M := me cost).
  set (cm0 := fun r c => if c <? nc then M r c else Fin 0).
  destruct (min_entry_spec nr (nc + nr) cm0) as [x [Ex Hx]]; [lia|lia| |].
  { exists 0, nc, 0%R. split; [lia|]. split; [lia|]. unfold cm0. rewrite Nat.ltb_irrefl. reflexivity. }
  cbn zeta. fold nr nc M cm0. rewrite Ex.
  assert (Hpos : forall r c q, r < nr -> c < nc + nr -> P0 nc M x r c = Fin q -> (0 <= q)%R).
  { intros r c q Hr Hc E. unfold P0 in E. fold (cm0 r c) in E. destruct (cm0 r c) as [q0|] eqn:E0; [|discriminate].
    simpl in E. inversion E; subst. specialize (Hx r c q0 Hr Hc E0). lra. }
  change (murty_helper nr (nc + nr) _ m) with (murty_helper nr (nc + nr) (P0 nc M x) m).
  assert (Hres : exists ans, murty_helper nr (nc + nr) (P0 nc M x) m = Ok ans /\ result_ok nr nc M x m ans).
  { unfold murty_helper.
    destruct (opt_good nr nc M x Hpos (P0 nc M x) (P0_good nr nc M x)) as [s0 [c0 [E [Hyes Hno]]]].
    rewrite E. cbn [bind].
    destruct (all_assigned s0) eqn:Ea.
    2:{ exfalso. apply (Hno eq_refl (repeat None nr)). apply P0_sol. apply none_feasible. }
    destruct (Hyes eq_refl) as [B1 [B2 [B3 [B4 [B5 B6]]]]].
    destruct (Nat.eqb_spec m 1) as [->|Hm1].
    - exists [(s0, c0)]. split; [reflexivity|]. split; [|split; [|split; [|split; [|split]]]].
      + intros sc [<-|[]]. cbn [fst snd]. split; [apply B1|]. split; [exact B3|]. split; [|exact B5].
        apply P0_sol with (x := x). exact B4.
      + constructor; [intros []|constructor].
      + constructor; constructor.
      + intros sc s [<-|[]] Hs _. cbn [snd]. rewrite B5.
        apply (P0_sol nr nc M x) in Hs. specialize (B6 s Hs). unfold tot. lra.
      + simpl; lia.
      + simpl; lia.
    - destruct (murty_loop_spec nr nc M x Hpos m [{| nP := P0 nc M x; nS := s0; nC := Some c0 |}] [])
        as [ans [Ea' Hr]].
      + split; [|split; [|split; [|split; [|split; [|split; [|split; [|split]]]]]]].
        * constructor; [|constructor]. intros c Hc. cbn [nC nP nS] in *. inversion Hc; subst c.
          split; [apply P0_good|]. auto.
        * constructor; constructor.
        * intros sc [].
        * constructor.
        * intros s Hs. right. eexists. split; [left; reflexivity|]. split; [discriminate|].
          cbn [nP]. apply P0_sol. exact Hs.
        * intros n s [<-|[]] [_ Hs]. split; [|intros []]. cbn [nP] in Hs. apply P0_sol in Hs. exact Hs.
        * intros sc n s [].
        * constructor.
        * reflexivity.
      + exists ans. split; [exact Ea'|]. exact Hr. }
  destruct Hres as [ans [Eans [R1 [R2 [R3 [R4 [R5 R6]]]]]]]. rewrite Eans. cbn [bind].
  exists (map (fun sc => abs nc (fst sc)) ans). eexists. split.
  { f_equal. f_equal. rewrite map_map. apply map_ext_in. intros sc Hsc.
    destruct (R1 sc Hsc) as [Hl _]. rewrite <- Hl, firstn_all. unfold encode, abs. rewrite map_map.
    apply map_ext. intros o. destruct o as [c|]; [|reflexivity].
    destruct (Nat.ltb_spec c nc), (Nat.ltb_spec nc (S c)); try reflexivity; lia. }
  assert (Hcost : forall sc, In sc ans -> (snd sc + x * IZR (Z.of_nat (length (filter
             (fun o => match o with Some _ => true | None => false end) (fst sc)))) =
             assign_cost M (abs nc (fst sc)))%R).
  { intros sc Hsc. destruct (R1 sc Hsc) as [Hl [Hf [_ Ec]]].
    assert (El : length (filter (fun o : option nat => match o with Some _ => true | None => false end) (fst sc)) = nr).
    { rewrite <- Hl. f_equal. apply all_assigned_full in Hf. unfold all_assigned in Hf. clear - Hf.
      induction (fst sc) as [|o l IH]; [reflexivity|]. simpl in *. apply andb_true_iff in Hf as [A B].
      rewrite A. f_equal. apply IH, B. }
    rewrite El. fold (Rn nr). rewrite Ec. unfold tot. lra. }
  split; [|split; [|split; [|split; [|split; [|split]]]]].
  - apply Forall_map, Forall_forall. intros sc Hsc. apply (R1 sc Hsc).
  - exact R2.
  - clear - Hcost. induction ans as [|sc l IH]; simpl; constructor.
    + apply Hcost. left; reflexivity.
    + apply IH. intros; apply Hcost; right; assumption.
  - apply FOP_map. eapply FOP_impl; [|exact R3]. intros a b Ha Hb Hle. cbn beta.
    rewrite (Hcost a Ha), (Hcost b Hb).
    destruct (R1 a Ha) as [_ [_ [_ Ea]]]. destruct (R1 b Hb) as [_ [_ [_ Eb]]]. unfold tot in *. lra.
  - intros c s Hc Hs Hn. apply in_map_iff in Hc as [sc [<- Hsc]]. rewrite (Hcost sc Hsc).
    specialize (R4 sc s Hsc Hs Hn). destruct (R1 sc Hsc) as [_ [_ [_ Ea]]]. unfold tot in *. lra.
  - rewrite map_length. exact R5.
  - rewrite map_length. exact R6.
Qed.
