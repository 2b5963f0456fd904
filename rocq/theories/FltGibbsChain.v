(** C163: in double precision [gibbs] returns the states of a Gibbs chain whose
    selection probabilities are correct up to 5 M 2^-53; C164: the shape of the
    result, in any arithmetic. *)
From Coq Require Import Reals ZArith Lra Lia.
From Verif Require Import RBase GibbsModel GibbsSpec GibbsProofs GibbsChainSpec GibbsChain FltModel FltSpec FltIeee
  FltGibbsModel FltGibbs FltGibbsDraw FltGibbsTop FltGibbsProps.

Section Chain.
Context {F : Type} (f0 : F) (fplus fdiv : F -> F -> F) (flt fle : F -> F -> bool).
Context {C : Type} (cd : C) (csum : list C -> C) (costs : list (list C)) (M : nat)
        (expw : C -> F) (rnd : nat -> nat -> F).
Notation N := (length costs).
Notation sweep' := (gsweep f0 fplus fdiv flt fle cd costs M expw rnd).
Notation iterate' := (giterate f0 fplus fdiv flt fle cd csum costs M expw rnd).

Fixpoint gafter (s : nat) : list nat :=
  match s with
  | 0 => seq N N
  | S s' => match sweep' (S s') (seq 0 N) (gafter s') with Ok c => c | Err _ => [] end
  end.
Definition gstate (s v : nat) : list nat :=
  match s with
  | 0 => seq N N
  | S s' => match sweep' (S s') (seq 0 v) (gafter s') with Ok c => c | Err _ => [] end
  end.
Lemma gstate_N s : gstate s N = gafter s.
Proof. destruct s; reflexivity. Qed.
Lemma gsweep_app sol a b : forall cur, sweep' sol (a ++ b) cur = bind (sweep' sol a cur) (sweep' sol b).
Proof.
  induction a as [|v a IH]; intros cur; [reflexivity|]. cbn [app gsweep].
  destruct (gdraw f0 fplus fdiv flt fle cd costs M expw cur v (rnd sol v)) as [j|e]; cbn [bind]; [apply IH|reflexivity].
Qed.
Lemma gsweep_prefix sol n k cur c : k <= n -> sweep' sol (seq 0 n) cur = Ok c ->
  exists c', sweep' sol (seq 0 k) cur = Ok c'.
Proof.
  intros Hk E. replace n with (k + (n - k)) in E by lia. rewrite seq_app, gsweep_app in E.
  apply bind_ok in E as [c' [E' _]]. exists c'. exact E'.
Qed.
Lemma gsweep_length sol vars : forall cur cur', (forall v, In v vars -> v < length cur) ->
  sweep' sol vars cur = Ok cur' -> length cur' = length cur.
Proof.
  induction vars as [|v vs IH]; intros cur cur' H E; cbn [gsweep] in E; [inversion E; reflexivity|].
  apply bind_ok in E as [j [_ E]]. assert (L : length (set_nth cur v j) = length cur) by (apply set_nth_length, H; left; reflexivity).
  rewrite <- L. eapply IH; [|exact E]. intros x Hx. rewrite L. apply H. right. exact Hx.
Qed.
Lemma giterate_states k : forall s l, iterate' k (S s) (gafter s) = Ok l ->
  map fst l = map gafter (seq (S s) k) /\
  (forall p, In p l -> grow_cost cd csum costs M (fst p) = Ok (snd p)) /\
  forall t, s < t <= s + k -> exists c, sweep' t (seq 0 N) (gafter (t - 1)) = Ok c /\ gafter t = c.
Proof.
  induction k as [|k IH]; intros s l E; cbn [giterate] in E.
  { inversion E; subst l. split; [reflexivity|]. split; [intros p []|]. intros t Ht. lia. }
  apply bind_ok in E as [cur' [E1 E]]. apply bind_ok in E as [c [Ec E]]. apply bind_ok in E as [rest [E2 E]].
  inversion E; subst l. clear E.
  assert (EA : gafter (S s) = cur') by (cbn [gafter]; rewrite E1; reflexivity).
  rewrite <- EA in E2. destruct (IH (S s) rest E2) as [A [A2 B]]. split; [|split].
  - cbn [map fst seq]. rewrite A, EA. reflexivity.
  - intros p [<-|Hp]; [exact Ec|apply A2; exact Hp].
  - intros t Ht. destruct (Nat.eq_dec t (S s)) as [->|Hn].
    + exists cur'. replace (S s - 1) with s by lia. split; [exact E1|exact EA].
    + apply B. lia.
Qed.
Lemma gafter_length k s l : iterate' k 1 (gafter 0) = Ok l -> s <= k -> length (gafter s) = N.
Proof.
  intros E. apply giterate_states in E as [_ [_ H]]. induction s as [|s IH]; intros Hs; [apply seq_length|].
  destruct (H (S s)) as [c [E1 E2]]; [lia|]. replace (S s - 1) with s in E1 by lia. rewrite E2.
  rewrite <- (IH ltac:(lia)). eapply gsweep_length; [|exact E1]. rewrite IH by lia. intros v Hv. apply in_seq in Hv. lia.
Qed.
Lemma gins_keeps (x y : list nat * C) l : In y l -> exists y', In y' (gins x l) /\ fst y' = fst y.
Proof.
  induction l as [|z l IH]; [intros []|]. cbn [gins]. intros [->|H].
  - destruct (lex_cmp (fst x) (fst y)) eqn:E.
    + apply lex_cmp_eq in E. exists x. split; [left; reflexivity|exact E].
    + exists y. split; [right; left; reflexivity|reflexivity].
    + exists y. split; [left; reflexivity|reflexivity].
  - destruct (lex_cmp (fst x) (fst z)).
    + exists y. split; [right; exact H|reflexivity].
    + exists y. split; [right; right; exact H|reflexivity].
    + destruct (IH H) as [y' [Hy E]]. exists y'. split; [right; exact Hy|exact E].
Qed.
Lemma gins_has (x : list nat * C) l : In x (gins x l).
Proof. induction l as [|z l IH]; cbn [gins]; [left; reflexivity|]. destruct (lex_cmp (fst x) (fst z)); cbn [In]; auto. Qed.
Lemma gunique_keeps (y : list nat * C) l : In y l -> In (fst y) (map fst (gunique l)).
Proof.
  induction l as [|x l IH]; [intros []|]. cbn [gunique fold_right]. fold (gunique l). intros [->|H].
  - apply in_map, gins_has.
  - apply IH in H. apply in_map_iff in H as [z [Ez Hz]]. destruct (gins_keeps x z _ Hz) as [z' [Hz' E']].
    rewrite <- Ez, <- E'. apply in_map. exact Hz'.
Qed.
Lemma gins_sorted (x : list nat * C) l : strictly_sorted (map fst l) -> strictly_sorted (map fst (gins x l)).
Proof.
  induction l as [|y l IH]; intros H; cbn [gins map]; [split; [intros b []|exact I]|].
  destruct H as [H1 H2]. destruct (lex_cmp (fst x) (fst y)) eqn:E; cbn [map strictly_sorted].
  - apply lex_cmp_eq in E. rewrite E. split; assumption.
  - apply lex_cmp_lt in E. split; [|split; assumption]. intros b [<-|Hb]; [exact E|]. eapply lex_lt_trans; [exact E|apply H1; exact Hb].
  - apply lex_cmp_gt in E. split; [|apply IH; exact H2]. intros b Hb. apply in_map_iff in Hb as [z [<- Hz]].
    apply gins_in in Hz as [->|Hz]; [exact E|]. apply H1. apply in_map. exact Hz.
Qed.
Lemma gunique_sorted (l : list (list nat * C)) : strictly_sorted (map fst (gunique l)).
Proof. induction l as [|x l IH]; [exact I|]. cbn [gunique fold_right]. apply gins_sorted. exact IH. Qed.
Lemma gunique_length (l : list (list nat * C)) : length (gunique l) <= length l.
Proof.
  induction l as [|x l IH]; [apply Nat.le_refl|]. cbn [gunique fold_right length]. fold (gunique l).
  assert (H : length (gins x (gunique l)) <= S (length (gunique l))).
  { generalize (gunique l). induction l0 as [|y t IHt]; cbn [gins length]; [lia|].
    destruct (lex_cmp (fst x) (fst y)); cbn [length]; lia. }
  lia.
Qed.
End Chain.

(** C164: whatever the number system, the weights and the random stream, a
    successful call returns pairwise distinct rows in lexicographic order, at
    most num_iters, the initial solution among them, all columns in range, and
    with every row the sum of the costs it selects. *)
Theorem C164_gibbs_shape : forall (F : Type) (f0 : F) fplus fdiv flt fle (C : Type) (cd : C) csum costs M expw rnd num_iters rows cs,
  let N := length costs in
  ggibbs f0 fplus fdiv flt fle cd csum costs M expw rnd num_iters = Ok (rows, cs) ->
  strictly_sorted rows /\ NoDup rows /\ length rows <= num_iters /\ length cs = length rows /\
  In (seq N N) rows /\
  forall i, i < length rows ->
    let a := nth i rows [] in
    length a = N /\ (forall j, In j a -> j < M) /\
    nth i cs cd = csum (map (fun v => nth (nth v a 0) (nth v costs []) cd) (seq 0 N)).
Proof.
  intros F f0 fplus fdiv flt fle C cd csum costs M expw rnd [|k] rows cs N E; [discriminate|]. cbn [ggibbs] in E.
  apply bind_ok in E as [c0 [E0 E]]. apply bind_ok in E as [l [El E]].
  set (all := (seq (length costs) (length costs), c0) :: l) in *. inversion E as [[E1 E2]]. clear E.
  change (gins (seq (length costs) (length costs), c0) (gunique l)) with (gunique all) in *.
  change (seq (length costs) (length costs)) with (gafter f0 fplus fdiv flt fle cd costs M expw rnd 0) in El.
  pose proof (giterate_states f0 fplus fdiv flt fle cd csum costs M expw rnd k 0 l El) as [A [A2 B]].
  pose proof (gunique_sorted all) as S1. split; [exact S1|]. split; [apply sorted_nodup; exact S1|].
  split. { rewrite map_length. eapply Nat.le_trans; [apply gunique_length|]. unfold all. cbn [length].
    rewrite <- (map_length fst l), A, map_length, seq_length. apply Nat.le_refl. }
  split; [rewrite !map_length; reflexivity|]. split.
  { change (seq N N) with (fst (seq N N, c0)). apply gunique_keeps. left. reflexivity. }
  intros i Hi. cbn zeta. rewrite map_length in Hi.
  set (d := (@nil nat, cd)). change (@nil nat) with (fst d) at 1 2 3. change cd with (snd d) at 1. rewrite !map_nth.
  assert (Hin : In (nth i (gunique all) d) all) by (apply gunique_in, nth_In; exact Hi).
  set (p := nth i (gunique all) d) in *. clearbody p.
  assert (HL : length (fst p) = N /\ grow_cost cd csum costs M (fst p) = Ok (snd p)).
  { destruct Hin as [<-|Hp]; [split; [apply seq_length|exact E0]|]. split; [|apply A2; exact Hp].
    apply (in_map fst) in Hp. rewrite A in Hp. apply in_map_iff in Hp as [s [<- Hs]]. apply in_seq in Hs.
    eapply gafter_length; [exact El|lia]. }
  destruct HL as [L G]. unfold grow_cost in G. destruct (forallb (fun j => j <? M) (fst p)) eqn:Ef; [|discriminate].
  injection G as G. split; [exact L|]. split.
  - intros j Hj. apply forallb_forall with (x := j) in Ef; [|exact Hj]. apply Nat.ltb_lt. exact Ef.
  - rewrite <- G. f_equal. rewrite <- L in *. clear - L. fold N.
    assert (HH : forall a s (g : nat -> nat -> C), map (fun p => g (fst p) (snd p)) (combine (seq s (length a)) a)
       = map (fun v => g v (nth (v - s) a 0)) (seq s (length a))).
    { induction a as [|x a IH]; intros s g; [reflexivity|]. cbn [length seq combine map fst snd].
      rewrite Nat.sub_diag. cbn [nth]. f_equal. rewrite IH. apply map_ext_in. intros v Hv. apply in_seq in Hv.
      replace (v - s) with (S (v - S s)) by lia. reflexivity. }
    unfold N in *. rewrite <- L. rewrite (HH (fst p) 0 (fun i j => nth j (nth i costs []) cd)).
    apply map_ext. intros v. rewrite Nat.sub_0_r. reflexivity.
Qed.

Local Open Scope R_scope.
(** As [selects], with tolerance [tol] on the random number. *)
Definition selects_upto (tol : R) (M : nat) (W : nat -> R) (u : R) (j : nat) : Prop :=
  let total := rsum (map W (seq 0 M)) in
  (j < M)%nat /\ 0 < W j /\ rsum (map W (seq 0 j)) / total - tol <= u /\
  u < rsum (map W (seq 0 (S j))) / total + tol.
Definition column_weight64 (W : nat -> nat -> R) (x : list nat) (v j : nat) : R :=
  if in_dec Nat.eq_dec j (firstn v x ++ skipn (S v) x) then 0 else W v j.

Theorem C163_gibbs_double_is_the_chain : forall (C : Type) (cd : C) csum costs M expw rnd num_iters,
  let N := length costs in
  let W i j := expw (nth j (nth i costs []) cd) in
  (forall i j, (i < N)%nat -> (j < M)%nat -> rep64 (W i j) /\ 0 < W i j /\ 2 * INR M * W i j <= fmax64) ->
  (forall sol v, 0 <= rnd sol v < 1 /\ ((M < N + 7)%nat \/ rnd sol v < 1 - INR M / 2 ^ 52)) ->
  (2 * N <= M)%nat -> INR M <= 2 ^ 51 -> (1 <= num_iters)%nat ->
  exists rows cs X, gibbs64 cd csum costs M expw rnd num_iters = Ok (rows, cs) /\
    is_chain N (fun s x v j => selects_upto (5 * INR M / 2 ^ 53) M (column_weight64 W x v) (rnd s v) j) X num_iters /\
    forall a, In a rows <-> exists s, (s < num_iters)%nat /\ a = X s N.
Proof.
  intros C cd csum costs M expw rnd num_iters N W HW Hr H2 HM Hn.
  destruct (C159_gibbs_double_one_to_one C cd csum costs M expw rnd num_iters HW Hr H2 HM Hn) as [rows [cs [E _]]].
  exists rows, cs. destruct num_iters as [|k]; [lia|]. pose proof E as E'. unfold gibbs64 in E'. cbn [ggibbs] in E'.
  apply bind_ok in E' as [c0 [E0 E']]. apply bind_ok in E' as [l [El E']].
  set (all := (seq (length costs) (length costs), c0) :: l) in *. inversion E' as [[E1 E2]]. clear E'.
  change (gins (seq (length costs) (length costs), c0) (gunique l)) with (gunique all) in *.
  change (seq (length costs) (length costs)) with (gafter 0 add64 div64 Rltb Rleb cd costs M expw rnd 0) in El.
  pose proof (giterate_states 0 add64 div64 Rltb Rleb cd csum costs M expw rnd k 0 l El) as [A [A2 B]].
  exists (gstate 0 add64 div64 Rltb Rleb cd costs M expw rnd). split; [rewrite E1, E2; exact E|].
  assert (HM' : 4 * INR M * u64 <= 1).
  { replace 1 with (4 * 2 ^ 51 * u64) by (rewrite u64_eq; cbn [pow]; field).
    apply Rmult_le_compat_r; [apply u64_nonneg|]. lra. }
  assert (HW' : forall i j, (i < N)%nat -> (j < M)%nat -> rep64 (W i j) /\ 0 <= W i j /\ 2 * INR M * W i j <= fmax64).
  { intros i j Hi Hj. destruct (HW i j Hi Hj) as [K1 [K2 K3]]. split; [exact K1|]. split; [left; exact K2|exact K3]. }
  assert (SW : forall sol vars, (forall v, In v vars -> (v < N)%nat) -> forall cur, one_to_one N M cur ->
     exists cur', gsweep 0 add64 div64 Rltb Rleb cd costs M expw rnd sol vars cur = Ok cur' /\ one_to_one N M cur').
  { intros sol vars Hv cur Hc.
    destruct (gsweep_ok cd costs M expw HM' HW' rnd) with (Inv := fun _ : list nat => True) (sol := sol) (vars := vars) (cur := cur)
      as [cur' [G1 [G2 _]]]; try assumption; try exact I; auto.
    - intros s v. destruct (Hr s v) as [K1 K2]. split; [exact K1|]. destruct K2 as [K2|K2]; [left; exact K2|right].
      replace (2 * INR M * u64) with (INR M * (2 * u64)) by ring. rewrite two_u64. exact K2.
    - intros cur1 v L Bd ND _ Hv1. destruct (pigeon M (others cur1 v)) as [j [Hj1 Hj2]].
      { rewrite others_length; fold N in Hv1, L; lia. }
      exists j. split; [exact Hj1|]. split; [exact Hj2|]. apply (HW v j Hv1 Hj1).
    - exists cur'. split; assumption. }
  assert (OA : forall s, (s <= k)%nat -> one_to_one N M (gafter 0 add64 div64 Rltb Rleb cd costs M expw rnd s)).
  { induction s as [|s IH]; intros Hs.
    - split; [apply seq_length|]. split; [intros j Hj; apply in_seq in Hj; unfold N in *; lia|apply seq_NoDup].
    - cbn [gafter]. destruct (SW (S s) (seq 0 N)) with (cur := gafter 0 add64 div64 Rltb Rleb cd costs M expw rnd s) as [c [G1 G2]].
      + intros v Hv. apply in_seq in Hv. lia.
      + apply IH. lia.
      + unfold N in G1. rewrite G1. exact G2. }
  split; [split; [reflexivity|split]|].
  - intros s Hs. cbn [gstate seq gsweep]. unfold N. rewrite gstate_N. reflexivity.
  - intros s v Hs Hv. destruct s as [|s]; [lia|]. cbn [gstate].
    assert (OS : one_to_one N M (gafter 0 add64 div64 Rltb Rleb cd costs M expw rnd s)) by (apply OA; lia).
    destruct (SW (S s) (seq 0 v)) with (cur := gafter 0 add64 div64 Rltb Rleb cd costs M expw rnd s) as [x [Ex Ox]];
      [intros i Hi; apply in_seq in Hi; lia|exact OS|].
    destruct (SW (S s) (seq 0 (S v))) with (cur := gafter 0 add64 div64 Rltb Rleb cd costs M expw rnd s) as [y [Ey Oy]];
      [intros i Hi; apply in_seq in Hi; lia|exact OS|].
    rewrite Ex, Ey. assert (LX : length x = N) by apply Ox.
    replace (S v) with (v + 1)%nat in Ey by lia. rewrite seq_app, gsweep_app, Ex in Ey. cbn [bind seq gsweep] in Ey.
    rewrite Nat.add_0_l in Ey. apply bind_ok in Ey as [j [Ej Ey]]. inversion Ey; subst y. clear Ey.
    exists j. split; [apply replaced_set; lia|].
    destruct (Hr (S s) v) as [U1 U2].
    destruct (C160_gibbs_double_inverse_transform C cd costs M expw x v (rnd (S s) v) HW' HM Ox Hv U1 U2) as [j' [G [K1 [K2 [K3 K4]]]]].
    { destruct (pigeon M (others x v)) as [i [Hi1 Hi2]]; [rewrite others_length; lia|].
      exists i. split; [exact Hi1|]. destruct (in_dec Nat.eq_dec i _) as [Hin|_]; [contradiction|]. apply (HW v i Hv Hi1). }
    unfold draw64 in G. rewrite Ej in G. injection G as <-. split; [exact K1|]. split; [exact K2|]. split; assumption.
  - intros a.
    assert (EA : map fst all = map (gafter 0 add64 div64 Rltb Rleb cd costs M expw rnd) (seq 0 (S k))).
    { unfold all. cbn [map fst seq]. rewrite A. reflexivity. }
    split.
    + intros Ha. apply in_map_iff in Ha as [p [<- Hp]]. apply gunique_in in Hp.
      apply (in_map fst) in Hp. rewrite EA in Hp. apply in_map_iff in Hp as [s [Es Hs]]. apply in_seq in Hs.
      exists s. split; [lia|]. unfold N. rewrite gstate_N. symmetry. exact Es.
    + intros [s [Hs ->]]. unfold N. rewrite gstate_N.
      assert (Hin : In (gafter 0 add64 div64 Rltb Rleb cd costs M expw rnd s) (map fst all)).
      { rewrite EA. apply in_map. apply in_seq. lia. }
      apply in_map_iff in Hin as [p [Ep Hp]]. rewrite <- Ep. apply gunique_keeps. exact Hp.
Qed.
Print Assumptions C164_gibbs_shape.
Print Assumptions C163_gibbs_double_is_the_chain.
