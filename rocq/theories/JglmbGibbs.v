(** The real Gibbs sampler meets the contract used for the joint GLMB filter. *)
From Verif Require Import Base.
From Coq Require Import Reals Lra.
From Verif Require Import OspaModel CphdModel OspaProofs CphdProofs GlmbModel GlmbSpec GlmbProofs GibbsModel GibbsSpec GibbsProofs GibbsReal JglmbSpec.
Open Scope R_scope.

Lemma rcumsum_above t ws : forall acc, (forall x, In x ws -> 0 < x) -> t < acc ->
  filter (fun b => if Rle_dec b t then true else false) (rcumsum acc ws) = [].
Proof.
  induction ws as [|x ws IH]; intros acc H Ht; [reflexivity|]. cbn [rcumsum filter].
  assert (0 < x) by (apply H; left; reflexivity).
  destruct (Rle_dec (acc + x) t) as [Hr|Hr]; [lra|]. apply IH; [intros y Hy; apply H; right; exact Hy|lra].
Qed.
Lemma rcumsum_pos t ws : forall acc, (forall x, In x ws -> 0 < x) -> acc <= t -> t < acc + rsum ws ->
  (length (filter (fun b => if Rle_dec b t then true else false) (rcumsum acc ws)) < length ws)%nat.
Proof.
  induction ws as [|x ws IH]; intros acc H H1 H2.
  { change (rsum []) with 0 in H2. lra. }
  assert (0 < x) by (apply H; left; reflexivity).
  cbn [rcumsum filter]. rewrite rsum_cons in H2. destruct (Rle_dec (acc + x) t) as [Hr|Hr].
  - cbn [length]. apply -> Nat.succ_lt_mono. apply IH; [intros y Hy; apply H; right; exact Hy|exact Hr|lra].
  - rewrite rcumsum_above; [cbn; lia|intros y Hy; apply H; right; exact Hy|lra].
Qed.
Lemma rfilter_div t S l : 0 < S ->
  length (filter (fun b => if Rle_dec b t then true else false) (map (fun x => x / S) l)) =
  length (filter (fun b => if Rle_dec b (t * S) then true else false) l).
Proof.
  intros HS. induction l as [|x l IH]; [reflexivity|]. cbn [map filter].
  assert (Hi : x / S <= t <-> x <= t * S).
  { split; intros Hx.
    - apply (Rmult_le_compat_r S) in Hx; [|lra]. replace (x / S * S) with x in Hx by (field; lra). exact Hx.
    - apply (Rmult_le_reg_r S); [exact HS|]. replace (x / S * S) with x by (field; lra). exact Hx. }
  destruct (Rle_dec (x / S) t) as [A|A]; destruct (Rle_dec x (t * S)) as [B|B]; try tauto; cbn [length]; rewrite IH; reflexivity.
Qed.
Lemma rdigitize_lt u ws : ws <> [] -> (forall x, In x ws -> 0 < x) -> 0 <= u < 1 -> (rdigitize u (rhist ws) - 1 < length ws)%nat.
Proof.
  intros Hne Hp [H0 H1].
  assert (HS : 0 < rsum ws). { pose proof (rsum_allpos (fun x => x) ws Hne Hp) as H. rewrite map_id in H. exact H. }
  unfold rdigitize, rhist. cbn [filter]. destruct (Rle_dec 0 u) as [_|]; [|lra]. cbn [length].
  rewrite Nat.sub_succ, Nat.sub_0_r, rfilter_div by exact HS. apply rcumsum_pos; [exact Hp|apply Rmult_le_pos; lra|].
  rewrite Rplus_0_l. rewrite <- (Rmult_1_l (rsum ws)) at 2. apply Rmult_lt_compat_r; assumption.
Qed.

(** np.unique *)
Lemma rins_in x y l : In y (rins x l) -> y = x \/ In y l.
Proof.
  induction l as [|z l IH]; cbn [rins]; [intros [<-|[]]; auto|]. destruct (lex_cmp (fst x) (fst z)).
  - intros [<-|H]; [auto|right; right; exact H].
  - intros [<-|H]; auto.
  - intros [<-|H]; [right; left; reflexivity|]. destruct (IH H); [auto|right; right; assumption].
Qed.
Lemma rins_sorted x l : strictly_sorted (map fst l) -> strictly_sorted (map fst (rins x l)).
Proof.
  induction l as [|z l IH]; cbn [rins]; [cbn; intros _; split; [intros b []|exact I]|].
  intros [H1 H2]. destruct (lex_cmp (fst x) (fst z)) eqn:E.
  - apply lex_cmp_eq in E. cbn. rewrite E. auto.
  - apply lex_cmp_lt in E. cbn [map strictly_sorted]. split; [|split; assumption].
    intros b [<-|Hb]; [exact E|]. eapply lex_lt_trans; [exact E|]. apply H1; exact Hb.
  - apply lex_cmp_gt in E. cbn [map strictly_sorted]. split; [|apply IH; exact H2].
    intros b Hb. apply in_map_iff in Hb as [p [<- Hp]]. apply rins_in in Hp as [->|Hp]; [exact E|]. apply H1. apply in_map. exact Hp.
Qed.
Lemma rins_length x l : (length (rins x l) <= S (length l))%nat.
Proof. induction l as [|z l IH]; cbn [rins length]; [lia|]. destruct (lex_cmp (fst x) (fst z)); cbn [length]; lia. Qed.
Lemma runique_in y l : In y (runique l) -> In y l.
Proof. induction l as [|x l IH]; cbn; [auto|]. intros H. apply rins_in in H as [->|H]; [left; reflexivity|right; auto]. Qed.
Lemma runique_sorted l : strictly_sorted (map fst (runique l)).
Proof. induction l as [|x l IH]; [exact I|]. cbn. apply rins_sorted. exact IH. Qed.
Lemma runique_length l : (length (runique l) <= length l)%nat.
Proof. induction l as [|x l IH]; [reflexivity|]. cbn [runique fold_right length]. pose proof (rins_length x (runique l)). unfold runique in *. lia. Qed.
Lemma runique_nonempty x l : runique (x :: l) <> [].
Proof. unfold runique. cbn [fold_right]. destruct (fold_right rins [] l) as [|y r]; cbn [rins]; [discriminate|]. destruct (lex_cmp (fst x) (fst y)); discriminate. Qed.

Section G.
Context (C : nat -> nat -> R) (N M : nat) (rnd : nat -> nat -> R).
Hypothesis Hrnd : forall sol v, 0 <= rnd sol v < 1.
Hypothesis HM : (2 * N <= M)%nat.

Lemma rold_in cur v j : In j (rold_ind C M cur v) <-> (j < M)%nat /\ ~ In j (others cur v).
Proof.
  unfold rold_ind. rewrite filter_In, in_seq. unfold rweight.
  destruct (existsb (Nat.eqb j) (others cur v)) eqn:Ee.
  - apply existsb_exists in Ee as [x [Hx Ex]]. apply Nat.eqb_eq in Ex. subst x. destruct (Rlt_dec 0 0); [lra|]. split; [intros [_ H]; discriminate|tauto].
  - assert (~ In j (others cur v)).
    { intros H. assert (existsb (Nat.eqb j) (others cur v) = true); [|congruence]. apply existsb_exists. exists j. split; [exact H|apply Nat.eqb_refl]. }
    destruct (Rlt_dec 0 (exp (- C v j))) as [_|Hn]; [|exfalso; apply Hn, exp_pos]. split; [intros [H1 _]; split; [lia|assumption]|intros [H1 _]; split; [lia|reflexivity]].
Qed.
Lemma rdraw_ok cur v u : length cur = N -> (v < N)%nat -> 0 <= u < 1 ->
  exists j, rdraw C M cur v u = Ok j /\ (j < M)%nat /\ ~ In j (others cur v).
Proof.
  intros L Hv Hu. destruct (pigeon M (others cur v)) as [j0 [A0 B0]]; [rewrite others_length; lia|].
  set (oi := rold_ind C M cur v). assert (Hne : oi <> []).
  { intros E. assert (H : In j0 oi) by (apply rold_in; auto). rewrite E in H. destruct H. }
  assert (Hlt : (rdigitize u (rhist (map (rweight C cur v) oi)) - 1 < length oi)%nat).
  { rewrite <- (map_length (rweight C cur v) oi). apply rdigitize_lt; [|intros x Hx; apply in_map_iff in Hx as [j [<- Hj]]|exact Hu].
    - intros E. apply map_eq_nil in E. contradiction.
    - unfold oi, rold_ind in Hj. apply filter_In in Hj as [_ Hj]. destruct (Rlt_dec 0 (rweight C cur v j)); [assumption|discriminate]. }
  unfold rdraw. fold oi. set (pos := (rdigitize u (rhist (map (rweight C cur v) oi)) - 1)%nat) in *.
  destruct (nth_error oi pos) as [j|] eqn:Ej; [|apply nth_error_None in Ej; lia]. exists j.
  split; [destruct oi; [congruence|reflexivity]|]. apply rold_in. exact (nth_error_In _ _ Ej).
Qed.
Lemma rsweep_ok sol vars : (forall v, In v vars -> (v < N)%nat) -> forall cur, one_to_one N M cur ->
  exists cur', rsweep C M rnd sol vars cur = Ok cur' /\ one_to_one N M cur'.
Proof.
  induction vars as [|v vs IH]; intros Hv cur [L [B ND]]; cbn [rsweep].
  { exists cur. split; [reflexivity|]. split; [exact L|split; assumption]. }
  assert (Hvn : (v < N)%nat) by (apply Hv; left; reflexivity).
  destruct (rdraw_ok cur v (rnd sol v) L Hvn (Hrnd sol v)) as [j [E [Hj1 Hj2]]]. rewrite E. cbn [bind]. apply IH.
  - intros x Hx. apply Hv. right; exact Hx.
  - split; [rewrite set_nth_length; lia|]. split.
    + intros x Hx. apply set_nth_in in Hx as [->|Hx]; [exact Hj1|]. apply B. eapply others_incl. exact Hx.
    + apply set_nth_nodup; [lia|exact ND|exact Hj2].
Qed.
Definition rcost_of (row : list nat) : R := rsum (map (fun rv => C (fst rv) (snd rv)) (combine (seq 0 N) row)).
Lemma rrow_ok cur : one_to_one N M cur -> rrow_cost C N M cur = Ok (rcost_of cur).
Proof.
  intros [_ [B _]]. unfold rrow_cost. replace (forallb (fun j => (j <? M)%nat) cur) with true; [reflexivity|].
  symmetry. apply forallb_forall. intros j Hj. apply Nat.ltb_lt, B, Hj.
Qed.
Lemma riterate_ok k : forall sol cur, one_to_one N M cur ->
  exists l, riterate C N M rnd k sol cur = Ok l /\ length l = k /\ forall p, In p l -> one_to_one N M (fst p) /\ snd p = rcost_of (fst p).
Proof.
  induction k as [|k IH]; intros sol cur H; cbn [riterate].
  { exists []. split; [reflexivity|]. split; [reflexivity|intros p []]. }
  destruct (rsweep_ok sol (seq 0 N)) with (cur := cur) as [cur' [E H']]; [intros v Hv; apply in_seq in Hv; lia|exact H|].
  rewrite E. cbn [bind]. rewrite (rrow_ok cur' H'). cbn [bind]. destruct (IH (S sol) cur' H') as [l [El [Ll Hl]]]. rewrite El. cbn [bind].
  exists ((cur', rcost_of cur') :: l). split; [reflexivity|]. split; [cbn; lia|]. intros p [<-|Hp]; [split; [exact H'|reflexivity]|auto].
Qed.
Lemma rgibbs_ok it : (1 <= it)%nat -> exists rows costs, rgibbs C N M rnd it = Ok (rows, costs) /\
  length rows = length costs /\ rows <> [] /\ strictly_sorted rows /\ (length rows <= it)%nat /\
  (forall a, In a rows -> one_to_one N M a) /\ Forall2 (fun row x => x = rcost_of row) rows costs.
Proof.
  intros Hit. destruct it as [|k]; [lia|].
  assert (H0 : one_to_one N M (seq N N)).
  { split; [apply seq_length|]. split; [intros j Hj; apply in_seq in Hj; lia|apply seq_NoDup]. }
  cbn [rgibbs]. rewrite (rrow_ok _ H0). cbn [bind]. destruct (riterate_ok k 1 (seq N N) H0) as [l [El [Ll Hl]]]. rewrite El. cbn [bind].
  set (all := (seq N N, rcost_of (seq N N)) :: l). eexists _, _. split; [reflexivity|]. rewrite !map_length. split; [reflexivity|].
  assert (Ha : forall p, In p (runique all) -> one_to_one N M (fst p) /\ snd p = rcost_of (fst p)).
  { intros p Hp. apply runique_in in Hp. destruct Hp as [<-|Hp]; [split; [exact H0|reflexivity]|auto]. }
  split; [|split; [apply runique_sorted|split; [|split]]].
  - intros E. apply map_eq_nil in E. exact (runique_nonempty _ _ E).
  - pose proof (runique_length all) as H. cbn [length all] in H. rewrite Ll in H. exact H.
  - intros a Hin. apply in_map_iff in Hin as [p [<- Hp]]. exact (proj1 (Ha p Hp)).
  - clear -Ha. induction (runique all) as [|p u IH]; cbn [map]; constructor; [exact (proj2 (Ha p (or_introl eq_refl)))|]. apply IH. intros q Hq. apply Ha. right; exact Hq.
Qed.
End G.

(** For all random streams. *)
Lemma sampler_ok rnd : (forall call sol v, 0 <= rnd call sol v < 1) -> gibbs_ok (sampler_of rnd) /\ gibbs_total (sampler_of rnd).
Proof.
  intros Hr. split.
  - intros call n m C it rows costs Hm Hit H. destruct (rgibbs_ok C n m (rnd call) (Hr call) Hm it Hit) as [rows' [costs' [E [A [B [S [L [O _]]]]]]]].
    unfold sampler_of in H. rewrite E in H. injection H as <- <-. split; [exact A|]. split; [exact B|]. split; [exact (sorted_nodup _ S)|]. split; [exact L|]. intros row Hrow. exact (O row Hrow).
  - intros call n m C it Hm Hit. destruct (rgibbs_ok C n m (rnd call) (Hr call) Hm it Hit) as [rows' [costs' [E _]]]. eauto.
Qed.
Lemma sampler_cost rnd : (forall call sol v, 0 <= rnd call sol v < 1) -> gibbs_cost (sampler_of rnd).
Proof.
  intros Hr call n m C it rows costs Hm Hit H. destruct (rgibbs_ok C n m (rnd call) (Hr call) Hm it Hit) as [rows' [costs' [E [_ [_ [_ [_ [_ F]]]]]]]].
  unfold sampler_of in H. rewrite E in H. injection H as <- <-. exact F.
Qed.
Lemma rins_keeps x y l : In y (map fst (x :: l)) -> In y (map fst (rins x l)).
Proof.
  induction l as [|z l IH]; [intros H; exact H|]. cbn [rins map] in *. destruct (lex_cmp (fst x) (fst z)) eqn:El; cbn [map].
  - apply lex_cmp_eq in El. intros [<-|[<-|H]]; [left; reflexivity|left; exact El|right; exact H].
  - intros H. exact H.
  - intros [<-|[<-|H]]; [right; apply IH; left; reflexivity|left; reflexivity|right; apply IH; right; exact H].
Qed.
Lemma runique_keeps y l : In y (map fst l) -> In y (map fst (runique l)).
Proof.
  induction l as [|x l IH]; [intros []|]. intros H. change (runique (x :: l)) with (rins x (runique l)). apply rins_keeps. destruct H as [<-|H]; [left; reflexivity|right; exact (IH H)].
Qed.
Lemma sampler_start rnd : (forall call sol v, 0 <= rnd call sol v < 1) -> gibbs_start (sampler_of rnd).
Proof.
  intros Hr call n m C it rows costs Hm Hit H. unfold sampler_of in H. destruct it as [|k]; [lia|]. cbn [rgibbs] in H.
  apply bind_ok in H as [c0 [_ H]]. apply bind_ok in H as [rest [_ H]]. cbv zeta in H. injection H as H _. rewrite <- H. apply (runique_keeps (seq n n) ((seq n n, c0) :: rest)). left. reflexivity.
Qed.
