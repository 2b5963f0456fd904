(** murty_m_best in rounded arithmetic: the branching search with a solver whose
    answers are correct up to [d1] (cost) and [d2] (optimality).  Follows
    RMurtyProofs.v. *)
From Verif Require Import RBase RHungModel RHungSpec RHungProofs RMurtyModel RMurtySpec RMurtyProofs
  FltModel FltSpec FltMurtyModel FltMurtySpec.
From Coq Require Import Permutation.

Lemma Rabs_le_iff a b : (Rabs a <= b)%R <-> (- b <= a <= b)%R.
Proof. unfold Rabs. destruct (Rcase_abs a); split; lra. Qed.

Section Murty.
Variable A : farith.
Variables nr nc : nat.
Variable M : nat -> nat -> ext.
Variable x : R.
Variables d1 d2 : R.
Variable rep : R -> Prop.
Notation ncp := (nc + nr).
Notation abs := (abs nc).
Notation good := (good nr nc M x).
Notation sol := (sol nr nc).
Notation pick := (pick nc).
Notation forbid := (forbid nr ncp).
Hypothesis P0_nonneg : forall r c q, r < nr -> c < ncp -> P0 nc M x r c = Fin q -> (0 <= q)%R.
Hypothesis opt_good : forall P, good P -> exists a c,
  fassign_opt2 A {| mr := nr; mc := ncp; me := P |} = Ok (a, c) /\
  (all_assigned a = true ->
     is_assignment nr ncp a /\ inf_free P a /\ full a /\ sol P (abs a) /\
     (rep c /\ Rabs (c - (assign_cost M (abs a) - x * Rn nr)) <= d1)%R /\
     forall s, sol P s -> (assign_cost M (abs a) <= assign_cost M s + d2)%R) /\
  (all_assigned a = false -> forall s, ~ sol P s).

(** * Branching *)
Definition node_ok (n : mnode) : Prop :=
  forall c, nC n = Some c ->
    good (nP n) /\ is_assignment nr ncp (nS n) /\ inf_free (nP n) (nS n) /\ full (nS n) /\
    (rep c /\ Rabs (c - (assign_cost M (abs (nS n)) - x * Rn nr)) <= d1)%R /\
    forall s, sol (nP n) s -> (assign_cost M (abs (nS n)) <= assign_cost M s + d2)%R.
Definition insol (n : mnode) (s : list (option nat)) : Prop := nC n <> None /\ sol (nP n) s.
Definition disj (a b : mnode) : Prop := forall s, insol a s -> insol b s -> False.

Lemma fbranch_spec a s : forall k P,
  skipn k a = s -> good P -> is_assignment nr ncp a -> inf_free P a -> full a ->
  exists kids, fbranch A nr ncp k s P = Ok kids /\
    Forall node_ok kids /\ ForallOrdPairs disj kids /\
    (forall t, (exists n, In n kids /\ insol n t) <->
       sol P t /\ exists r, k <= r < nr /\ nth_error t r <> nth_error (abs a) r).
Proof.
  induction s as [|o s IH]; intros k P Hsk Hg Ha Hf Hfull; cbn [fbranch].
  - exists []. split; [reflexivity|]. split; [constructor|]. split; [constructor|].
    intros t. split; [intros [n [[] _]]|]. intros [_ [r [Hr _]]].
    assert (length a <= k).
    { assert (length (skipn k a) = 0) by (rewrite Hsk; reflexivity). rewrite skipn_length in H. lia. }
    destruct Ha as [Ha _]. lia.
  - destruct (skipn_nth _ _ _ _ Hsk) as [Hk Hsk'].
    assert (Hka : k < length a) by (apply nth_error_Some; congruence).
    pose proof Ha as Ha0. apply assignment_nth in Ha0 as [A1 [A2 A3]].
    destruct (Hfull k Hka) as [aj Haj]. rewrite Hk in Haj. inversion Haj; subst o. clear Haj.
    assert (Hajn : aj < ncp) by (eapply A2; eauto). assert (Hkn : k < nr) by lia.
    assert (Hfin : is_fin (P k aj) = true).
    { apply is_fin_true. exact (proj1 (inf_free_nth P a) Hf k aj Hk). }
    assert (Habs : nth_error (abs a) k = Some (pick aj)) by (rewrite abs_nth, Hk; reflexivity).
    destruct (opt_good _ (forbid_good nr nc M x P k aj Hg Hkn Hajn)) as [S_tmp [C_tmp [E [Hyes Hno]]]].
    rewrite E. cbn [bind]. destruct (all_assigned S_tmp) eqn:Eall.
    + destruct (Hyes eq_refl) as [B1 [B2 [B3 [B4 [B5 B6]]]]].
      pose proof (enforce_good nr nc M x P k aj Hg Hkn Hajn Hfin) as Hge.
      assert (Hfe : inf_free (enforce P k aj) a).
      { apply inf_free_nth. intros r c Hrc. pose proof (proj1 (inf_free_nth P a) Hf r c Hrc) as Hf'.
        destruct (Nat.eq_dec r k) as [->|Hne].
        - assert (c = aj) by congruence. subst. rewrite enforce_at. exact Hf'.
        - rewrite enforce_other; [exact Hf'|exact Hne|]. intros ->. apply Hne. eapply A3; eauto. }
      destruct (IH (S k) (enforce P k aj) Hsk' Hge Ha Hfe Hfull) as [kids [Ek [K1 [K2 K3]]]].
      rewrite Ek. cbn [bind].
      assert (Hes : forall t, sol (enforce P k aj) t <-> sol P t /\ nth_error t k = Some (pick aj)).
      { intros t. apply (enforce_sol nr nc M x); auto. exists a. auto. }
      eexists. split; [reflexivity|].
      set (n0 := {| nP := forbid P k aj; nS := S_tmp; nC := Some C_tmp |}).
      assert (Hn0 : forall t, insol n0 t <-> sol P t /\ nth_error t k <> Some (pick aj)).
      { intros t. unfold insol, n0. cbn [nC nP]. rewrite forbid_sol by assumption.
        split; [tauto|]. intros H. split; [discriminate|exact H]. }
      split; [|split].
      * constructor; [|exact K1]. intros c Ec. simpl in Ec. inversion Ec; subst c. cbn.
        split; [apply forbid_good; assumption|]. auto.
      * constructor; [|exact K2]. apply Forall_forall. intros n Hn t Ht0 Htn.
        apply Hn0 in Ht0 as [_ Hneq].
        destruct (proj1 (K3 t) (ex_intro _ n (conj Hn Htn))) as [Hs _]. apply Hes in Hs. tauto.
      * intros t. split.
        -- intros [n [[<-|Hn] Hin]].
           ++ apply Hn0 in Hin as [Hs Hneq]. split; [exact Hs|]. exists k. split; [lia|]. rewrite Habs. exact Hneq.
           ++ destruct (proj1 (K3 t) (ex_intro _ n (conj Hn Hin))) as [Hs [r [Hr Hrd]]].
              apply Hes in Hs as [Hs _]. split; [exact Hs|]. exists r. split; [lia|exact Hrd].
        -- intros [Hs [r [Hr Hrd]]].
           assert (Hdec : {nth_error t k = Some (pick aj)} + {nth_error t k <> Some (pick aj)})
             by (repeat decide equality).
           destruct Hdec as [Heq|Hneq].
           ++ destruct (proj2 (K3 t)) as [n [Hn Hin]].
              { split; [apply Hes; auto|]. exists r. split; [|exact Hrd].
                destruct (Nat.eq_dec r k) as [->|]; [congruence|lia]. }
              exists n. split; [right; exact Hn|exact Hin].
           ++ exists n0. split; [left; reflexivity|]. apply Hn0. auto.
    + specialize (Hno eq_refl).
      assert (Hall : forall t, sol P t -> nth_error t k = Some (pick aj)).
      { intros t Ht. assert (Hdec : {nth_error t k = Some (pick aj)} + {nth_error t k <> Some (pick aj)})
          by (repeat decide equality).
        destruct Hdec as [|Hneq]; [assumption|]. exfalso. apply (Hno t). apply forbid_sol; auto. }
      destruct (IH (S k) P Hsk' Hg Ha Hf Hfull) as [kids [Ek [K1 [K2 K3]]]].
      exists kids. split; [exact Ek|]. split; [exact K1|]. split; [exact K2|].
      intros t. rewrite K3. split.
      * intros [Hs [r [Hr Hrd]]]. split; [exact Hs|]. exists r. split; [lia|exact Hrd].
      * intros [Hs [r [Hr Hrd]]]. split; [exact Hs|]. exists r. split; [|exact Hrd].
        destruct (Nat.eq_dec r k) as [->|]; [|lia]. exfalso. apply Hrd. rewrite Habs. apply Hall, Hs.
Qed.

Definition nopen (n : mnode) : bool := match nC n with Some _ => true | None => false end.
Definition tot (s : list (option nat)) : R := assign_cost M s.
Definition feas (s : list (option nat)) : Prop := feasible nr nc M s.

Definition linv (nodes : list mnode) (acc : list (assign_vec * R)) : Prop :=
  Forall node_ok nodes /\
  ForallOrdPairs disj nodes /\
  (forall sc, In sc acc -> length (fst sc) = nr /\ full (fst sc) /\ feas (abs (fst sc)) /\
      (rep (snd sc) /\ Rabs (snd sc - (tot (abs (fst sc)) - x * Rn nr)) <= d1)%R) /\
  NoDup (map (fun sc => abs (fst sc)) acc) /\
  (forall s, feas s -> In s (map (fun sc => abs (fst sc)) acc) \/ exists n, In n nodes /\ insol n s) /\
  (forall n s, In n nodes -> insol n s -> feas s /\ ~ In s (map (fun sc => abs (fst sc)) acc)) /\
  (forall sc n s, In sc acc -> In n nodes -> insol n s -> (snd sc <= tot s - x * Rn nr + d1 + d2)%R) /\
  ForallOrdPairs (fun a b => (snd a <= snd b + 2 * d1 + d2)%R) acc /\
  length (filter (fun n => negb (nopen n)) nodes) = length acc.

Lemma disj_close n m : disj (close n) m.
Proof. intros s [H _]. exfalso. apply H. reflexivity. Qed.

Definition result_ok (m : nat) (acc : list (assign_vec * R)) : Prop :=
  (forall sc, In sc acc -> length (fst sc) = nr /\ full (fst sc) /\ feas (abs (fst sc)) /\
      (rep (snd sc) /\ Rabs (snd sc - (tot (abs (fst sc)) - x * Rn nr)) <= d1)%R) /\
  NoDup (map (fun sc => abs (fst sc)) acc) /\
  ForallOrdPairs (fun a b => (snd a <= snd b + 2 * d1 + d2)%R) acc /\
  (forall sc s, In sc acc -> feas s -> ~ In s (map (fun sc => abs (fst sc)) acc) ->
      (snd sc <= tot s - x * Rn nr + d1 + d2)%R) /\
  length acc <= m /\
  (length acc < m -> forall s, feas s -> In s (map (fun sc => abs (fst sc)) acc)).

Lemma fmurty_loop_spec m : forall nodes acc, linv nodes acc ->
  exists ans, fmurty_loop A nr ncp m nodes acc = Ok ans /\ result_ok (length acc + m) ans.
Proof.
  induction m as [|m IH]; intros nodes acc Hinv; cbn [fmurty_loop];
    destruct Hinv as [I1 [I2 [I3 [I4 [I5 [I6 [I7 [I8 I9]]]]]]]].
  - exists acc. split; [reflexivity|]. split; [exact I3|]. split; [exact I4|]. split; [exact I8|].
    split; [|split; lia]. intros sc s Hsc Hs Hn. destruct (I5 s Hs) as [|[n [Hn1 Hn2]]]; [contradiction|].
    eapply I7; eauto.
  - destruct (nanargmin (map nC nodes)) as [i|] eqn:E.
    + apply nanargmin_some in E as [c [Ec Hmin]].
      rewrite nth_error_map in Ec. destruct (nth_error nodes i) as [n|] eqn:En; [|discriminate].
      simpl in Ec. inversion Ec as [Ec']. clear Ec. destruct n as [P s oc]. simpl in Ec'. subst oc.
      assert (Hin : In {| nP := P; nS := s; nC := Some c |} nodes) by (eapply nth_error_In; eauto).
      rewrite Forall_forall in I1. pose proof (I1 _ Hin c eq_refl) as Hn. cbn [nP nS nC] in Hn.
      destruct Hn as [N1 [N2 [N3 [N4 [N5 N6]]]]].
      destruct (fbranch_spec s s 0 P eq_refl N1 N2 N3 N4) as [kids [Ek [K1 [K2 K3]]]].
      rewrite Ek. cbn [bind].
      set (n0 := {| nP := P; nS := s; nC := Some c |}) in *.
      destruct (close_at_split nodes i n0 En) as [l1 [l2 [El Ecl]]].
      assert (Hs0 : insol n0 (abs s)).
      { split; [discriminate|]. apply (sol_abs nr nc M x P0_nonneg); assumption. }
      assert (Hsplit : forall t, sol P t <-> t = abs s \/ exists k, In k kids /\ insol k t).
      { intros t. split.
        - intros Ht. assert (Hd : {t = abs s} + {t <> abs s}) by (repeat decide equality).
          destruct Hd as [|Hne]; [auto|]. right. apply K3. split; [exact Ht|].
          destruct (all_lt (fun r => if option_eq_dec_nat (nth_error t r) (nth_error (abs s) r) then true else false) nr) eqn:Ea.
          + exfalso. apply Hne. rewrite all_lt_true in Ea. apply nth_error_ext. intros r.
            destruct (Nat.lt_ge_cases r nr) as [Hr|Hr].
            * specialize (Ea r Hr). destruct (option_eq_dec_nat _ _); [assumption|discriminate].
            * destruct Ht as [[Ht _] _]. destruct N2 as [Hl _].
              rewrite (proj2 (nth_error_None t r)) by lia.
              symmetry. apply nth_error_None. rewrite abs_length. lia.
          + apply all_lt_false in Ea as [r [Hr Hd]]. exists r. split; [lia|].
            destruct (option_eq_dec_nat _ _); [discriminate|assumption].
        - intros [->|[k [Hk1 Hk2]]]; [apply Hs0|]. apply (K3 t). exists k. auto. }
      assert (Hsep : forall t k, In k kids -> insol k t -> t <> abs s).
      { intros t k Hk Hik ->. destruct (proj1 (K3 (abs s)) (ex_intro _ k (conj Hk Hik))) as [_ [r [_ Hr]]]. congruence. }
      assert (Hkin : forall k t, In k kids -> insol k t -> insol n0 t).
      { intros k t Hk Hik. split; [discriminate|]. apply Hsplit. right. exists k; auto. }
      assert (Hcmin : forall n t, In n nodes -> insol n t -> (c <= tot t - x * Rn nr + d1 + d2)%R).
      { intros n t Hn' [Hop Ht]. destruct (nC n) as [cn|] eqn:Ecn; [|congruence].
        destruct (I1 n Hn' cn Ecn) as [_ [_ [_ [_ [Q5 Q6]]]]].
        assert (c <= cn)%R.
        { apply In_nth_error in Hn' as [k Hk]. apply (Hmin k). rewrite nth_error_map, Hk. simpl. congruence. }
        specialize (Q6 t Ht). unfold tot. destruct Q5 as [_ Q5]; apply Rabs_le_iff in Q5. lra. }
      destruct (IH (close_at i nodes ++ kids) (acc ++ [(s, c)])) as [ans [Ea Hres]].
      { rewrite Ecl. rewrite El in I2. apply FOP_app in I2 as [F1 [F2 F3]].
        inversion F2 as [|? ? F4 F5]; subst a l. rewrite Forall_forall in F4.
        assert (Hold : forall n, In n (l1 ++ close n0 :: l2) -> n = close n0 \/ (In n nodes /\ (In n l1 \/ In n l2))).
        { intros n Hn. apply in_app_iff in Hn as [Hn|[<-|Hn]]; [right|left; reflexivity|right];
            (split; [rewrite El; apply in_app_iff; simpl; auto|auto]). }
        assert (Hdn : forall n t, In n l1 \/ In n l2 -> insol n t -> insol n0 t -> False).
        { intros n t [Hn|Hn] H1 H2; [apply (F3 n n0 Hn (or_introl eq_refl) t H1 H2)|apply (F4 n Hn t H2 H1)]. }
        assert (Hnc : forall t, ~ insol (close n0) t) by (intros t [Hx _]; apply Hx; reflexivity).
        split; [|split; [|split; [|split; [|split; [|split; [|split; [|split]]]]]]].
        - apply Forall_app. split; [|exact K1]. apply Forall_forall. intros n Hn.
          destruct (Hold n Hn) as [->|[Hn' _]]; [intros c' Hc'; discriminate|apply I1, Hn'].
        - apply FOP_app. split; [|split; [exact K2|]].
          + apply FOP_app. split; [exact F1|]. split.
            * constructor; [apply Forall_forall; intros; apply disj_close|exact F5].
            * intros a b Ha [<-|Hb]; [intros t _ Ht; apply (Hnc t Ht)|apply F3; [exact Ha|right; exact Hb]].
          + intros a b Ha Hb t Hta Htb. destruct (Hold a Ha) as [->|[_ Hl]]; [apply (Hnc t Hta)|].
            apply (Hdn a t Hl Hta). eapply Hkin; eauto.
        - intros sc Hsc. apply in_app_iff in Hsc as [Hsc|[<-|[]]]; [apply I3, Hsc|]. cbn [fst snd].
          split; [apply N2|]. split; [exact N4|]. split; [apply (I6 n0 _ Hin Hs0)|exact N5].
        - rewrite map_app. cbn [map fst]. apply (Permutation_NoDup (Permutation_cons_append _ _)).
          constructor; [|exact I4]. apply (I6 n0 _ Hin Hs0).
        - intros t Ht. rewrite map_app. destruct (I5 t Ht) as [Hacc|[n [Hn Hnt]]].
          + left. apply in_app_iff. auto.
          + destruct (proj1 (in_app_iff l1 (n0 :: l2) n)) as [Hl|[<-|Hl]]; [rewrite <- El; exact Hn| | |].
            * right. exists n. split; [apply in_app_iff; left; apply in_app_iff; auto|exact Hnt].
            * destruct Hnt as [_ Hnt]. apply Hsplit in Hnt as [->|[k [Hk Hkt]]].
              -- left. apply in_app_iff. right. left. reflexivity.
              -- right. exists k. split; [apply in_app_iff; auto|exact Hkt].
            * right. exists n. split; [apply in_app_iff; left; apply in_app_iff; simpl; auto|exact Hnt].
        - intros n t Hn Hnt. rewrite map_app. apply in_app_iff in Hn as [Hn|Hn].
          + destruct (Hold n Hn) as [->|[Hn' Hl]]; [exfalso; apply (Hnc t Hnt)|].
            destruct (I6 n t Hn' Hnt) as [A0 B]. split; [exact A0|]. intros Hx.
            apply in_app_iff in Hx as [Hx|[Hx|[]]]; [contradiction|]. cbn in Hx. subst t. apply (Hdn n _ Hl Hnt Hs0).
          + destruct (I6 n0 t Hin (Hkin n t Hn Hnt)) as [A0 B]. split; [exact A0|]. intros Hx.
            apply in_app_iff in Hx as [Hx|[Hx|[]]]; [contradiction|]. cbn in Hx. apply (Hsep t n Hn Hnt). auto.
        - intros sc n t Hsc Hn Hnt.
          assert (Hex : exists n', In n' nodes /\ insol n' t).
          { apply in_app_iff in Hn as [Hn|Hn].
            - destruct (Hold n Hn) as [->|[Hn' _]]; [exfalso; apply (Hnc t Hnt)|eauto].
            - exists n0. split; [exact Hin|eapply Hkin; eauto]. }
          destruct Hex as [n' [Hn1 Hn2]].
          apply in_app_iff in Hsc as [Hsc|[<-|[]]]; [eapply I7; eauto|]. cbn [snd]. eapply Hcmin; eauto.
        - apply FOP_app. split; [exact I8|]. split; [constructor; constructor|].
          intros a b Ha [<-|[]]. cbn [snd]. specialize (I7 a n0 (abs s) Ha Hin Hs0).
          unfold tot in I7. destruct N5 as [_ N5]; apply Rabs_le_iff in N5. lra.
        - rewrite !filter_app, !app_length. cbn [filter]. unfold nopen at 2. cbn [close nC negb length].
          rewrite El, filter_app, app_length in I9. cbn [filter] in I9. unfold nopen at 2 in I9. cbn in I9.
          assert (Ez : filter (fun n => negb (nopen n)) kids = []).
          { assert (HH : forall kk, Forall (fun n => nopen n = true) kk -> filter (fun n => negb (nopen n)) kk = []).
            { induction 1 as [|y ys Hy _ IHy]; simpl; [reflexivity|]. rewrite Hy. exact IHy. }
            apply HH. clear - Ek. revert Ek. generalize 0. intros k0. revert k0 P kids.
            induction s as [|o s IH]; intros k0 P kids Ek; cbn [fbranch] in Ek.
            - inversion Ek. constructor.
            - destruct o as [aj|]; [|eapply IH; eauto].
              destruct (fassign_opt2 A _) as [[S_tmp C_tmp]|]; cbn [bind] in Ek; [|discriminate].
              destruct (all_assigned S_tmp); [|eapply IH; eauto].
              destruct (fbranch A nr ncp (S k0) s (enforce P k0 aj)) as [rest|] eqn:Er; cbn [bind] in Ek; [|discriminate].
              inversion Ek; subst. constructor; [reflexivity|]. eapply IH; eauto. }
          rewrite Ez. cbn [length]. lia. }
      exists ans. split; [exact Ea|]. rewrite app_length in Hres. cbn [length] in Hres.
      replace (length acc + S m) with (length acc + 1 + m) by lia. exact Hres.
    + apply nanargmin_none in E.
      assert (Hcl : Forall (fun n => nC n = None) nodes).
      { clear - E. induction nodes as [|n l IH]; constructor; inversion E; subst; auto. }
      assert (Hlen : length nodes = length acc).
      { rewrite <- I9. clear - Hcl. induction Hcl as [|n l Hn _ IH]; [reflexivity|].
        simpl. unfold nopen at 1. rewrite Hn. simpl. f_equal. exact IH. }
      rewrite Hlen, Nat.leb_refl, firstn_all. exists acc. split; [reflexivity|].
      assert (Hall : forall s, feas s -> In s (map (fun sc => abs (fst sc)) acc)).
      { intros s Hs. destruct (I5 s Hs) as [|[n [Hn [Hop _]]]]; [assumption|].
        rewrite Forall_forall in Hcl. exfalso. apply Hop, Hcl, Hn. }
      split; [exact I3|]. split; [exact I4|]. split; [exact I8|]. split; [|split; [lia|auto]].
      intros sc s Hsc Hs Hn. exfalso. apply Hn, Hall, Hs.
Qed.
End Murty.
