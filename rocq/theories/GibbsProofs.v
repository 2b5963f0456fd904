(** Proofs about the gibbs model. *)
From Verif Require Import Base GibbsModel GibbsSpec.
From Coq Require Import Permutation.

Lemma qsum_cons x l : (qsum (x :: l) == x + qsum l)%Q.
Proof. reflexivity. Qed.
Lemma qsum_nonneg l : (forall x, In x l -> (0 <= x)%Q) -> (0 <= qsum l)%Q.
Proof.
  induction l as [|x l IH]; intros H; [apply Qle_refl|].
  rewrite qsum_cons. assert (0 <= x)%Q by (apply H; left; reflexivity).
  assert (0 <= qsum l)%Q by (apply IH; intros y Hy; apply H; right; exact Hy). lra.
Qed.

Lemma cumsum_above t ws : forall acc, (forall x, In x ws -> (0 < x)%Q) -> (t < acc)%Q ->
  filter (fun b => Qle_bool b t) (cumsum acc ws) = [].
Proof.
  induction ws as [|x ws IH]; intros acc H Ht; [reflexivity|]. cbn [cumsum filter].
  assert (0 < x)%Q by (apply H; left; reflexivity).
  destruct (Qle_bool (acc + x) t) eqn:E; [apply Qleb_le in E; lra|].
  apply IH; [intros y Hy; apply H; right; exact Hy|lra].
Qed.
Lemma cumsum_pos t ws : forall acc, (forall x, In x ws -> (0 < x)%Q) ->
  (acc <= t)%Q -> (t < acc + qsum ws)%Q ->
  let k := length (filter (fun b => Qle_bool b t) (cumsum acc ws)) in
  k < length ws /\ (acc + qsum (firstn k ws) <= t)%Q /\ (t < acc + qsum (firstn (S k) ws))%Q.
Proof.
  induction ws as [|x ws IH]; intros acc H H1 H2; cbn zeta.
  { change (qsum []) with 0%Q in H2. lra. }
  assert (0 < x)%Q by (apply H; left; reflexivity).
  cbn [cumsum filter]. destruct (Qle_bool (acc + x) t) eqn:E.
  - apply Qleb_le in E. rewrite qsum_cons in H2.
    destruct (IH (acc + x)%Q) as [A [B C]]; [intros y Hy; apply H; right; exact Hy|exact E|lra|].
    cbn [length]. split; [lia|].
    change (firstn (S (length (filter (fun b : Q => Qle_bool b t) (cumsum (acc + x) ws)))) (x :: ws))
      with (x :: firstn (length (filter (fun b : Q => Qle_bool b t) (cumsum (acc + x) ws))) ws).
    remember (length (filter (fun b : Q => Qle_bool b t) (cumsum (acc + x) ws))) as k.
    change (firstn (S (S k)) (x :: ws)) with (x :: firstn (S k) ws).
    rewrite !qsum_cons. split; lra.
  - apply Qleb_gt in E. rewrite cumsum_above; [|intros y Hy; apply H; right; exact Hy|exact E].
    cbn [length firstn]. split; [lia|]. rewrite qsum_cons. change (qsum []) with 0%Q.
    change (firstn 0 ws) with (@nil Q). change (qsum []) with 0%Q. split; lra.
Qed.

Lemma filter_map_div t S l : (0 < S)%Q ->
  length (filter (fun b => Qle_bool b t) (map (fun x => x / S)%Q l)) =
  length (filter (fun b => Qle_bool b (t * S)) l).
Proof.
  intros HS. induction l as [|x l IH]; [reflexivity|]. cbn [map filter].
  assert (E : Qle_bool (x / S) t = Qle_bool x (t * S)).
  { destruct (Qle_bool x (t * S)) eqn:E.
    - apply Qleb_le in E. apply Qleb_le. apply Qle_shift_div_r; assumption.
    - apply Qleb_gt in E. apply Qleb_gt. apply Qlt_shift_div_l; assumption. }
  rewrite E. destruct (Qle_bool x (t * S)); cbn [length]; rewrite IH; reflexivity.
Qed.

Lemma digitize_spec u ws : ws <> [] -> (forall x, In x ws -> (0 < x)%Q) -> (0 <= u)%Q -> (u < 1)%Q ->
  let k := digitize u (hist ws) - 1 in
  k < length ws /\ (qsum (firstn k ws) <= u * qsum ws)%Q /\ (u * qsum ws < qsum (firstn (S k) ws))%Q.
Proof.
  intros Hne Hp H0 H1. cbn zeta.
  assert (HS : (0 < qsum ws)%Q).
  { destruct ws as [|x ws]; [congruence|]. rewrite qsum_cons.
    assert (0 < x)%Q by (apply Hp; left; reflexivity).
    assert (0 <= qsum ws)%Q by (apply qsum_nonneg; intros y Hy; apply Qlt_le_weak, Hp; right; exact Hy). lra. }
  unfold digitize, hist. cbn [filter].
  assert (E : Qle_bool 0 u = true) by (apply Qleb_le; exact H0). rewrite E. cbn [length].
  rewrite Nat.sub_succ, Nat.sub_0_r. rewrite filter_map_div by exact HS.
  assert (P0 : (0 <= u * qsum ws)%Q) by (apply Qmult_le_0_compat; [exact H0|apply Qlt_le_weak; exact HS]).
  assert (P1 : (u * qsum ws < 0 + qsum ws)%Q).
  { setoid_replace (0 + qsum ws)%Q with (1 * qsum ws)%Q by ring. apply Qmult_lt_compat_r; assumption. }
  destruct (cumsum_pos (u * qsum ws) ws 0 Hp P0 P1) as [A [B C]].
  split; [exact A|]. split; lra.
Qed.

(** ** The update of one entry *)
Lemma set_nth_length l i v : i < length l -> length (set_nth l i v) = length l.
Proof. intros H. unfold set_nth. rewrite app_length. cbn [length]. rewrite firstn_length, skipn_length. lia. Qed.
Lemma set_nth_in l i v x : In x (set_nth l i v) <-> x = v \/ In x (others l i).
Proof. unfold set_nth, others. rewrite !in_app_iff. cbn [In]. intuition. Qed.
Lemma others_incl l i x : In x (others l i) -> In x l.
Proof.
  unfold others. rewrite in_app_iff. rewrite <- (firstn_skipn i l) at 3. rewrite in_app_iff.
  intros [H|H]; [left; exact H|right]. revert H. generalize i l. clear. induction i as [|i IH]; intros l H.
  - destruct l; [destruct H|right; exact H].
  - destruct l as [|a l]; [destruct H|]. cbn [skipn] in *. apply IH. exact H.
Qed.
Lemma set_nth_perm l i v : i < length l -> Permutation.Permutation (set_nth l i v) (v :: others l i).
Proof. intros _. unfold set_nth, others. symmetry. apply Permutation.Permutation_middle. Qed.
Lemma self_perm l i : i < length l -> Permutation.Permutation l (nth i l 0 :: others l i).
Proof.
  intros H. assert (E : l = set_nth l i (nth i l 0)).
  { unfold set_nth. revert i H. induction l as [|a l IH]; intros i H; [cbn in H; lia|].
    destruct i as [|i]; [reflexivity|]. cbn [firstn skipn nth app]. f_equal. apply IH. cbn in H. lia. }
  rewrite E at 1. apply set_nth_perm. exact H.
Qed.
Lemma others_nodup l i : i < length l -> NoDup l -> NoDup (others l i).
Proof.
  intros H N. apply (Permutation.Permutation_NoDup (self_perm l i H)) in N. inversion N; assumption.
Qed.
Lemma set_nth_nodup l i v : i < length l -> NoDup l -> ~ In v (others l i) -> NoDup (set_nth l i v).
Proof.
  intros H N Hv. eapply Permutation.Permutation_NoDup; [symmetry; apply set_nth_perm; exact H|].
  constructor; [exact Hv|]. apply others_nodup; assumption.
Qed.
Lemma nth_set_nth l i v k d : i < length l ->
  nth k (set_nth l i v) d = if k =? i then v else nth k l d.
Proof.
  revert i k. induction l as [|a l IH]; intros i k H; [cbn in H; lia|].
  destruct i as [|i], k as [|k]; try reflexivity.
  cbn in H. change (S k =? S i) with (k =? i). cbn [nth]. rewrite <- (IH i k); [reflexivity|lia].
Qed.

(** ** np.unique *)
Lemma lex_cmp_eq a : forall b, lex_cmp a b = Eq -> a = b.
Proof.
  induction a as [|x a IH]; intros [|y b]; cbn; try discriminate; [reflexivity|].
  destruct (Nat.compare_spec x y); try discriminate. intros H1. f_equal; auto.
Qed.
Lemma lex_cmp_lt a : forall b, lex_cmp a b = Lt -> lex_lt a b.
Proof.
  induction a as [|x a IH]; intros [|y b]; cbn; try discriminate; [auto|].
  destruct (Nat.compare_spec x y); try discriminate; auto.
Qed.
Lemma lex_cmp_gt a : forall b, lex_cmp a b = Gt -> lex_lt b a.
Proof.
  induction a as [|x a IH]; intros [|y b]; cbn; try discriminate; [auto|].
  destruct (Nat.compare_spec x y); try discriminate; auto.
Qed.
Lemma lex_lt_trans a : forall b c, lex_lt a b -> lex_lt b c -> lex_lt a c.
Proof.
  induction a as [|x a IH]; intros [|y b] [|z c]; cbn; try tauto.
  intros [H1|[H1 H2]] [H3|[H3 H4]]; subst; auto; [left; lia|right; eauto].
Qed.
Lemma lex_lt_irrefl a : ~ lex_lt a a.
Proof. induction a as [|x a IH]; cbn; [auto|]. intros [H|[_ H]]; [lia|auto]. Qed.

Lemma ins_in x y l : In y (ins x l) -> y = x \/ In y l.
Proof.
  induction l as [|z l IH]; cbn [ins]; [intros [<-|[]]; auto|].
  destruct (lex_cmp (fst x) (fst z)).
  - intros [<-|H]; [auto|right; right; exact H].
  - intros [<-|H]; auto.
  - intros [<-|H]; [right; left; reflexivity|]. destruct (IH H); [auto|right; right; assumption].
Qed.
Lemma ins_sorted x l : strictly_sorted (map fst l) -> strictly_sorted (map fst (ins x l)).
Proof.
  induction l as [|z l IH]; cbn [ins]; [cbn; intros _; split; [intros b []|exact I]|].
  intros [H1 H2]. destruct (lex_cmp (fst x) (fst z)) eqn:E.
  - apply lex_cmp_eq in E. cbn. rewrite E. auto.
  - apply lex_cmp_lt in E. cbn [map strictly_sorted]. split; [|split; assumption].
    intros b [<-|Hb]; [exact E|]. eapply lex_lt_trans; [exact E|]. apply H1; exact Hb.
  - apply lex_cmp_gt in E. cbn [map strictly_sorted]. split; [|apply IH; exact H2].
    intros b Hb. apply in_map_iff in Hb as [p [<- Hp]]. apply ins_in in Hp as [->|Hp]; [exact E|].
    apply H1. apply in_map. exact Hp.
Qed.
Lemma ins_length x l : length (ins x l) <= S (length l).
Proof.
  induction l as [|z l IH]; cbn [ins length]; [lia|].
  destruct (lex_cmp (fst x) (fst z)); cbn [length]; lia.
Qed.
Lemma ins_has x l : In x (ins x l).
Proof.
  induction l as [|z l IH]; cbn [ins]; [left; reflexivity|].
  destruct (lex_cmp (fst x) (fst z)); [left|left|right]; auto.
Qed.
Lemma ins_keeps x y l : In y l -> exists y', In y' (ins x l) /\ fst y' = fst y.
Proof.
  induction l as [|z l IH]; [intros []|]. cbn [ins].
  destruct (lex_cmp (fst x) (fst z)) eqn:E.
  - apply lex_cmp_eq in E. intros [<-|H]; [exists x; split; [left; reflexivity|exact E]|].
    exists y. split; [right; exact H|reflexivity].
  - intros H. exists y. split; [right; exact H|reflexivity].
  - intros [<-|H]; [exists z; split; [left; reflexivity|reflexivity]|].
    destruct (IH H) as [y' [A B]]. exists y'. split; [right; exact A|exact B].
Qed.
Lemma unique_in y l : In y (unique l) -> In y l.
Proof.
  induction l as [|x l IH]; cbn; [auto|]. intros H. apply ins_in in H as [->|H]; [left; reflexivity|right; auto].
Qed.
Lemma unique_sorted l : strictly_sorted (map fst (unique l)).
Proof. induction l as [|x l IH]; [exact I|]. cbn. apply ins_sorted. exact IH. Qed.
Lemma unique_length l : length (unique l) <= length l.
Proof.
  induction l as [|x l IH]; [reflexivity|]. cbn [unique fold_right length].
  pose proof (ins_length x (unique l)). unfold unique in *. lia.
Qed.
Lemma unique_keeps y l : In y l -> In (fst y) (map fst (unique l)).
Proof.
  induction l as [|x l IH]; [intros []|]. cbn. intros [->|H].
  - apply in_map. apply ins_has.
  - apply IH in H. apply in_map_iff in H as [p [A B]]. apply (ins_keeps x) in B as [p' [C D]].
    rewrite <- A, <- D. apply in_map. exact C.
Qed.
Lemma sorted_nodup l : strictly_sorted l -> NoDup l.
Proof.
  induction l as [|a l IH]; intros H; [constructor|]. destruct H as [H1 H2]. constructor; [|auto].
  intros Hin. apply (lex_lt_irrefl a). apply H1. exact Hin.
Qed.

(** ** Costs *)
Lemma combine_seq_map a : forall (g : nat -> nat -> ext) s,
  map (fun p => g (fst p) (snd p)) (combine (seq s (length a)) a) =
  map (fun i => g (s + i) (nth i a 0)) (seq 0 (length a)).
Proof.
  induction a as [|x a IH]; intros g s; [reflexivity|].
  cbn [length seq combine map fst snd nth]. f_equal; [f_equal; lia|].
  rewrite IH. rewrite <- (seq_shift (length a) 0), map_map. apply map_ext_in. intros i _. cbn [nth]. f_equal. lia.
Qed.
Lemma esum_spec l :
  match esum l with
  | Fin q => (forall e, In e l -> e <> Inf) /\ (q == fold_right (fun e s => fin_val e + s) 0 l)%Q
  | Inf => In Inf l
  end.
Proof.
  induction l as [|e l IH]; cbn [esum fold_right].
  - split; [intros e []|reflexivity].
  - change (fold_right eadd (Fin 0) l) with (esum l). destruct e as [x|]; cbn [eadd].
    + destruct (esum l) as [q|].
      * destruct IH as [A B]. split.
        -- intros e [<-|H]; [discriminate|auto].
        -- cbn [fin_val]. rewrite B. reflexivity.
      * right; exact IH.
    + left; reflexivity.
Qed.

Section G.
Context (costs : list (list ext)) (M : nat) (expw : ext -> Q) (rnd : nat -> nat -> Q).
Notation N := (length costs).

Lemma row_cost_spec a c : length a = N -> row_cost costs M a = Ok c ->
  selected_cost costs a c /\ forall j, In j a -> j < M.
Proof.
  intros L. unfold row_cost. destruct (forallb (fun j => j <? M) a) eqn:E; [|discriminate].
  intros H. inversion H as [Hc]. clear H. split.
  - unfold selected_cost. rewrite <- L. rewrite (combine_seq_map a (entry costs) 0).
    rewrite L. apply (esum_spec (map (fun i => entry costs (0 + i) (nth i a 0)) (seq 0 N))).
  - intros j Hj. rewrite forallb_forall in E. apply E in Hj. apply Nat.ltb_lt. exact Hj.
Qed.
Lemma row_cost_ok a : (forall j, In j a -> j < M) -> exists c, row_cost costs M a = Ok c.
Proof.
  intros H. unfold row_cost.
  assert (E : forallb (fun j => j <? M) a = true).
  { apply forallb_forall. intros j Hj. apply Nat.ltb_lt. auto. }
  rewrite E. eauto.
Qed.

(** Length of the solution never changes. *)
Lemma sweep_length sol vars : forall cur cur', (forall v, In v vars -> v < length cur) ->
  sweep costs M expw rnd sol vars cur = Ok cur' -> length cur' = length cur.
Proof.
  induction vars as [|v vs IH]; intros cur cur' Hv E; [inversion E; reflexivity|].
  cbn [sweep] in E. apply bind_ok in E as [j [E1 E2]].
  assert (L : length (set_nth cur v j) = length cur) by (apply set_nth_length, Hv; left; reflexivity).
  rewrite (IH _ _ (fun x Hx => eq_ind_r (fun k => x < k) (Hv x (or_intror Hx)) L) E2). exact L.
Qed.
Lemma iterate_costs k : forall sol cur l, length cur = N ->
  iterate costs M expw rnd k sol cur = Ok l ->
  length l = k /\ forall p, In p l -> length (fst p) = N /\ row_cost costs M (fst p) = Ok (snd p).
Proof.
  induction k as [|k IH]; intros sol cur l L E; cbn [iterate] in E.
  { inversion E. split; [reflexivity|intros p []]. }
  apply bind_ok in E as [cur' [E1 E]]. apply bind_ok in E as [c [E2 E]]. apply bind_ok in E as [rest [E3 E]].
  inversion E as [El]. clear E.
  assert (L' : length cur' = N).
  { rewrite <- L. eapply sweep_length; [|exact E1]. intros v Hv. apply in_seq in Hv. lia. }
  destruct (IH _ _ _ L' E3) as [A B]. split; [cbn; lia|].
  intros p [<-|Hp]; [split; [exact L'|exact E2]|apply B; exact Hp].
Qed.

(** ** Safety of the draws, for an invariant [Inv] under which a variable always
    has a column of positive weight that nobody else holds *)
Context (Hmiss : forall sol v, (0 <= rnd sol v < 1)%Q).

Lemma draw_spec cur v u : (0 <= u)%Q -> (u < 1)%Q -> old_ind costs M expw cur v <> [] ->
  exists j, draw costs M expw cur v u = Ok j /\ In j (old_ind costs M expw cur v) /\
    let oi := old_ind costs M expw cur v in let w := weight costs expw cur v in
    exists k, nth_error oi k = Some j /\
      (qsum (map w (firstn k oi)) <= u * qsum (map w oi))%Q /\
      (u * qsum (map w oi) < qsum (map w (firstn (S k) oi)))%Q.
Proof.
  intros H0 H1 Hne. unfold draw.
  destruct (digitize_spec u (map (weight costs expw cur v) (old_ind costs M expw cur v))) as [A [B C]]; auto.
  { intros E. apply map_eq_nil in E. congruence. }
  { intros x Hx. apply in_map_iff in Hx as [j [<- Hj]]. apply filter_In in Hj as [_ Hj].
    apply Qltb_lt. exact Hj. }
  set (oi := old_ind costs M expw cur v) in *.
  set (k := digitize u (hist (map (weight costs expw cur v) oi)) - 1) in *.
  rewrite map_length in A. destruct (nth_error oi k) as [j|] eqn:E; [|apply nth_error_None in E; lia].
  exists j. split; [destruct oi; [congruence|reflexivity]|]. split; [eapply nth_error_In; exact E|].
  cbn zeta. exists k. split; [exact E|]. rewrite <- !firstn_map. split; assumption.
Qed.

Definition usable cur v j := j < M /\ ~ In j (others cur v) /\ (0 < expw (entry costs v j))%Q.
Lemma old_ind_in cur v j : In j (old_ind costs M expw cur v) <-> usable cur v j.
Proof.
  unfold old_ind, usable. rewrite filter_In, in_seq, Qltb_lt. unfold weight.
  destruct (existsb (Nat.eqb j) (others cur v)) eqn:E.
  - apply existsb_exists in E as [x [Hx Ex]]. apply Nat.eqb_eq in Ex. subst x.
    split; [intros [_ H]; lra|tauto].
  - assert (~ In j (others cur v)).
    { intros H. assert (existsb (Nat.eqb j) (others cur v) = true); [|congruence].
      apply existsb_exists. exists j. split; [exact H|apply Nat.eqb_refl]. }
    split; [intros [H1 H2]; split; [lia|auto]|intros [H1 [_ H2]]; split; [lia|exact H2]].
Qed.

Context (Inv : list nat -> Prop).
Context (Inv_free : forall cur v, length cur = N -> (forall j, In j cur -> j < M) -> NoDup cur ->
  Inv cur -> v < N -> exists j, usable cur v j).
Context (Inv_step : forall cur v j, length cur = N -> Inv cur -> v < N -> usable cur v j -> Inv (set_nth cur v j)).

Lemma sweep_ok sol vars : (forall v, In v vars -> v < N) -> forall cur,
  one_to_one N M cur -> Inv cur ->
  exists cur', sweep costs M expw rnd sol vars cur = Ok cur' /\ one_to_one N M cur' /\ Inv cur'.
Proof.
  induction vars as [|v vs IH]; intros Hv cur [L [B ND]] HI; cbn [sweep].
  { exists cur. split; [reflexivity|]. split; [split; [exact L|split; assumption]|exact HI]. }
  assert (Hvn : v < N) by (apply Hv; left; reflexivity).
  destruct (Inv_free cur v L B ND HI Hvn) as [j0 Hj0].
  destruct (Hmiss sol v) as [U0 U1].
  destruct (draw_spec cur v (rnd sol v) U0 U1) as [j [E [Hj _]]].
  { intros E. apply old_ind_in in Hj0. rewrite E in Hj0. destruct Hj0. }
  rewrite E. cbn [bind]. apply old_ind_in in Hj. apply IH.
  - intros x Hx. apply Hv. right; exact Hx.
  - split; [rewrite set_nth_length; lia|]. split.
    + intros x Hx. apply set_nth_in in Hx as [->|Hx]; [apply Hj|]. apply B. eapply others_incl. exact Hx.
    + apply set_nth_nodup; [lia|exact ND|apply Hj].
  - apply Inv_step; auto.
Qed.
Lemma iterate_ok k : forall sol cur, one_to_one N M cur -> Inv cur ->
  exists l, iterate costs M expw rnd k sol cur = Ok l /\ forall p, In p l -> one_to_one N M (fst p) /\ Inv (fst p).
Proof.
  induction k as [|k IH]; intros sol cur H HI; cbn [iterate].
  { exists []. split; [reflexivity|intros p []]. }
  destruct (sweep_ok sol (seq 0 N)) with (cur := cur) as [cur' [E [H' HI']]]; [intros v Hv; apply in_seq in Hv; lia|exact H|exact HI|].
  rewrite E. cbn [bind]. destruct (row_cost_ok cur') as [c Ec]; [apply H'|]. rewrite Ec. cbn [bind].
  destruct (IH (S sol) cur' H' HI') as [l [El Hl]]. rewrite El. cbn [bind].
  exists ((cur', c) :: l). split; [reflexivity|]. intros p [<-|Hp]; [split; assumption|auto].
Qed.

Lemma gibbs_ok k : 2 * N <= M -> Inv (seq N N) ->
  exists rows cs, gibbs costs M expw rnd (S k) = Ok (rows, cs) /\
    forall a, In a rows -> one_to_one N M a /\ Inv a.
Proof.
  intros HM HI.
  assert (H0 : one_to_one N M (seq N N)).
  { split; [apply seq_length|]. split; [intros j Hj; apply in_seq in Hj; lia|apply seq_NoDup]. }
  cbn [gibbs]. destruct (row_cost_ok (seq N N)) as [c0 E0]; [apply H0|]. rewrite E0. cbn [bind].
  destruct (iterate_ok k 1 (seq N N) H0 HI) as [l [El Hl]]. rewrite El. cbn [bind].
  eexists _, _. split; [reflexivity|]. intros a Ha. apply in_map_iff in Ha as [p [<- Hp]].
  apply unique_in in Hp. destruct Hp as [<-|Hp]; [split; assumption|auto].
Qed.
End G.

(** The shape of any successful result. *)
Lemma gibbs_result costs M expw rnd n rows cs : gibbs costs M expw rnd n = Ok (rows, cs) ->
  exists l, (forall p, In p l -> length (fst p) = length costs /\ row_cost costs M (fst p) = Ok (snd p)) /\
    length l = n /\ 1 <= n /\ In (seq (length costs) (length costs)) (map fst l) /\
    rows = map fst (unique l) /\ cs = map snd (unique l).
Proof.
  destruct n as [|k]; cbn [gibbs]; [discriminate|]. intros E.
  apply bind_ok in E as [c0 [E0 E]]. apply bind_ok in E as [l [El E]]. inversion E as [[E1 E2]]. clear E.
  apply iterate_costs in El as [L Hl]; [|apply seq_length].
  exists ((seq (length costs) (length costs), c0) :: l). split.
  - intros p [<-|Hp]; [split; [apply seq_length|exact E0]|auto].
  - split; [cbn; lia|]. split; [lia|]. split; [left; reflexivity|]. auto.
Qed.

(** Pigeonhole: with more columns than others, one is free. *)
Lemma pigeon M (l : list nat) : length l < M -> exists j, j < M /\ ~ In j l.
Proof.
  intros H. destruct (any_lt (fun j => negb (existsb (Nat.eqb j) l)) M) eqn:E.
  - apply any_lt_true in E as [j [Hj Ej]]. exists j. split; [exact Hj|]. intros Hin.
    apply negb_true_iff in Ej. assert (existsb (Nat.eqb j) l = true); [|congruence].
    apply existsb_exists. exists j. split; [exact Hin|apply Nat.eqb_refl].
  - exfalso. rewrite any_lt_false in E.
    assert (incl (seq 0 M) l).
    { intros j Hj. apply in_seq in Hj. assert (Hj' : j < M) by lia. apply E in Hj'.
      apply negb_false_iff, existsb_exists in Hj' as [x [Hx Ex]]. apply Nat.eqb_eq in Ex. subst. exact Hx. }
    apply NoDup_incl_length in H0; [|apply seq_NoDup]. rewrite seq_length in H0. lia.
Qed.
Lemma others_length l i : i < length l -> length (others l i) = length l - 1.
Proof. intros H. unfold others. rewrite app_length, firstn_length, skipn_length. lia. Qed.

Lemma others_nth l i x : i < length l -> In x (others l i) <-> exists k, k < length l /\ k <> i /\ nth k l 0 = x.
Proof.
  intros Hi. unfold others. rewrite in_app_iff. split.
  - intros [H|H]; apply (In_nth _ _ 0) in H as [k [Hk Ek]].
    + rewrite firstn_length in Hk. exists k. split; [lia|]. split; [lia|]. rewrite <- Ek.
      rewrite <- (firstn_skipn i l) at 1. apply app_nth1. rewrite firstn_length. lia.
    + rewrite skipn_length in Hk. exists (S i + k). split; [lia|]. split; [lia|]. rewrite <- Ek.
      rewrite <- (firstn_skipn (S i) l) at 1. rewrite app_nth2; rewrite firstn_length; [|lia]. f_equal. lia.
  - intros [k [Hk [Hki E]]]. destruct (Nat.lt_ge_cases k i) as [H|H].
    + left. rewrite <- E. rewrite <- (firstn_skipn i l) at 1.
      rewrite app_nth1; [|rewrite firstn_length; lia]. apply nth_In. rewrite firstn_length. lia.
    + right. rewrite <- E. rewrite <- (firstn_skipn (S i) l) at 1.
      rewrite app_nth2; rewrite firstn_length; [|lia]. apply nth_In. rewrite skipn_length. lia.
Qed.

(** The weighted index range and its positive part have the same prefix sums. *)
Lemma filter_prefix_sum (f : nat -> bool) (w : nat -> Q) n : (forall x, f x = false -> w x == 0)%Q ->
  forall s k j, nth_error (filter f (seq s n)) k = Some j ->
  s <= j < s + n /\
  (qsum (map w (firstn k (filter f (seq s n)))) == qsum (map w (seq s (j - s))))%Q /\
  (qsum (map w (firstn (S k) (filter f (seq s n)))) == qsum (map w (seq s (S j - s))))%Q.
Proof.
  intros Hz. induction n as [|n IH]; intros s k j E; cbn [seq filter] in E.
  { destruct k; discriminate. }
  cbn [seq filter]. destruct (f s) eqn:F.
  - destruct k as [|k].
    + cbn in E. inversion E; subst j. split; [lia|]. rewrite Nat.sub_diag.
      replace (S s - s) with 1 by lia. split; [reflexivity|]. cbn [firstn map seq]. reflexivity.
    + cbn [nth_error] in E. destruct (IH _ _ _ E) as [A [B C]]. split; [lia|].
      rewrite !firstn_cons. cbn [map]. replace (j - s) with (S (j - S s)) by lia.
      replace (S j - s) with (S (S j - S s)) by lia. cbn [seq map].
      rewrite !qsum_cons. cbn [Nat.sub] in *. rewrite B, C. split; reflexivity.
  - destruct (IH _ _ _ E) as [A [B C]]. split; [lia|].
    replace (j - s) with (S (j - S s)) by lia. replace (S j - s) with (S (S j - S s)) by lia.
    cbn [seq map]. rewrite !qsum_cons, B, C. pose proof (Hz _ F) as Z. rewrite Z. split; ring.
Qed.
Lemma filter_full_sum (f : nat -> bool) (w : nat -> Q) l : (forall x, f x = false -> w x == 0)%Q ->
  (qsum (map w (filter f l)) == qsum (map w l))%Q.
Proof.
  intros Hz. induction l as [|x l IH]; [reflexivity|]. cbn [filter map]. destruct (f x) eqn:F; cbn [map].
  - rewrite !qsum_cons, IH. reflexivity.
  - rewrite !qsum_cons, IH, (Hz _ F). ring.
Qed.
