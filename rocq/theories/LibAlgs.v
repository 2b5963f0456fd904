(** The library's own k_shortest and murty_m_best, over the real numbers, meet
    the contracts under which the GLMB filter is verified. *)
From Verif Require Import Base Lists.
From Coq Require Import Reals Permutation Sorted Lra Lia Classical.
From Verif Require Import OspaModel OspaProofs CphdSpec GlmbModel GlmbSpec.
From Verif Require RBase RHungModel RHungSpec RHungProofs RMurtyModel RMurtySpec RMurtyProofs RBfmModel RBfmSpec RBfmProofs RKShortModel RKShortSpec RKShortProofs.
Open Scope R_scope.

(** murty_m_best (graphs.py:309-429, RMurtyModel) on a finite real matrix, as the
    GLMB filter calls it (tracker.py:2355). *)
Definition l_murty (nr nc : nat) (M : nat -> nat -> R) (m : nat) : result (list (list nat) * list R) :=
  RMurtyModel.murty2 {| RHungModel.mr := nr; RHungModel.mc := nc; RHungModel.me := fun r c => RBase.Fin (M r c) |} m.
(** k_shortest (graphs.py:11-165, RKShortModel) on a finite real vector, as the
    GLMB filter calls it (tracker.py:2054, 2125); [si] is np.argsort, reversed
    (graphs.py:52-53).  The reported costs are finite (below). *)
Definition l_kshort (si : list R -> list nat) (lc : list R) (k : nat) : result (list (list nat) * list R) :=
  do (ps, cs) <- RKShortModel.k_shortest (si lc) (map RBase.Fin lc) k;
  Ok (ps, map RBase.fin_val cs).
(** Contract of the sort: the indices by decreasing cost, ties in any order. *)
Definition sorts_down (si : list R -> list nat) : Prop :=
  forall lc, Permutation (si lc) (seq 0 (length lc)) /\ ForallOrdPairs (fun i j => nth j lc 0 <= nth i lc 0) (si lc).

(** * murty_m_best *)
Lemma l_encode_nth s : forall r0 r v, nth_error (RMurtySpec.encode s) r = Some (S v) <-> exists o, nth_error s r = Some o /\ o = Some v /\ In ((r0 + r)%nat, v) (RHungSpec.pairs_from r0 s).
Proof.
  induction s as [|o s IH]; intros r0 [|r] v; cbn [RMurtySpec.encode map nth_error RHungSpec.pairs_from].
  - split; [discriminate|intros [o [H _]]; discriminate].
  - split; [discriminate|intros [o [H _]]; discriminate].
  - rewrite Nat.add_0_r. destruct o as [c|]; split; try discriminate.
    + intros E. injection E as <-. exists (Some c). split; [reflexivity|]. split; [reflexivity|left; reflexivity].
    + intros [o [E [-> _]]]. injection E as ->. reflexivity.
    + intros [o [E [-> _]]]. discriminate.
  - specialize (IH (S r0) r v). rewrite Nat.add_succ_r. cbn [Nat.add] in IH. change (nth_error (RMurtySpec.encode s) r = Some (S v) <-> exists o0, nth_error s r = Some o0 /\ o0 = Some v /\ In (S (r0 + r), v) (RHungSpec.pairs_from r0 (o :: s))).
    rewrite IH. cbn [RHungSpec.pairs_from]. split; intros [o' [H1 [H2 H3]]]; exists o'; (split; [exact H1|split; [exact H2|]]).
    + destruct o; [right|]; exact H3.
    + destruct o as [c|]; [|exact H3]. destruct H3 as [H3|H3]; [|exact H3]. exfalso. injection H3 as H3 _. lia.
Qed.
Lemma l_pairs_snd s : forall r0 r1 r2 v, NoDup (map snd (RHungSpec.pairs_from r0 s)) -> In (r1, v) (RHungSpec.pairs_from r0 s) -> In (r2, v) (RHungSpec.pairs_from r0 s) -> r1 = r2.
Proof.
  intros r0 r1 r2 v D H1 H2. induction (RHungSpec.pairs_from r0 s) as [|[r c] l IH]; [destruct H1|]. cbn in D. inversion D as [|? ? D1 D2]; subst. destruct H1 as [H1|H1], H2 as [H2|H2].
  - congruence.
  - injection H1 as -> ->. exfalso. apply D1. apply (in_map snd) in H2. exact H2.
  - injection H2 as -> ->. exfalso. apply D1. apply (in_map snd) in H1. exact H1.
  - exact (IH D2 H1 H2).
Qed.
Definition l_decode (row : list nat) : list (option nat) := map (fun v => match v with O => None | S c => Some c end) row.
Lemma l_dec_enc row : RMurtySpec.encode (l_decode row) = row.
Proof. unfold RMurtySpec.encode, l_decode. rewrite map_map. rewrite <- (map_id row) at 2. apply map_ext. intros [|v]; reflexivity. Qed.
Lemma l_enc_dec s : l_decode (RMurtySpec.encode s) = s.
Proof. unfold RMurtySpec.encode, l_decode. rewrite map_map. rewrite <- (map_id s) at 2. apply map_ext. intros [v|]; reflexivity. Qed.
Lemma l_enc_len s : length (RMurtySpec.encode s) = length s. Proof. unfold RMurtySpec.encode. apply map_length. Qed.
Lemma l_pairs_in s r0 r v : In ((r0 + r)%nat, v) (RHungSpec.pairs_from r0 s) <-> nth_error s r = Some (Some v).
Proof.
  split.
  - revert r0 r. induction s as [|o s IH]; intros r0 r; [intros []|]. cbn [RHungSpec.pairs_from]. destruct r as [|r].
    + rewrite Nat.add_0_r. cbn [nth_error]. assert (Hb : forall a v s k, (a < k)%nat -> ~ In (a, v) (RHungSpec.pairs_from k s)).
      { clear. intros a v s. induction s as [|[c|] s IH]; intros k Hk; cbn [RHungSpec.pairs_from]; [intros []| |].
        - intros [E|E]; [injection E as E _; lia|]. apply (IH (S k)); [lia|exact E].
        - apply IH. lia. }
      destruct o as [c|].
      * intros [E|E]; [injection E as ->; reflexivity|]. exfalso. apply (Hb r0 v s (S r0)); [lia|exact E].
      * intros E. exfalso. apply (Hb r0 v s (S r0)); [lia|exact E].
    + rewrite Nat.add_succ_r. cbn [nth_error]. intros H. apply (IH (S r0)). cbn [Nat.add]. destruct o as [c|]; [|exact H]. destruct H as [H|H]; [injection H as H _; lia|exact H].
  - intros H. assert (H' : nth_error (RMurtySpec.encode s) r = Some (S v)) by (unfold RMurtySpec.encode; rewrite nth_error_map, H; reflexivity).
    apply (l_encode_nth s r0) in H'. destruct H' as [o [_ [_ H']]]. exact H'.
Qed.
Lemma l_valid nr nc M s : RMurtySpec.feasible nr nc (fun r c => RBase.Fin (M r c)) s <-> valid_row nr nc (RMurtySpec.encode s).
Proof.
  unfold RMurtySpec.feasible, RHungSpec.is_assignment, RHungSpec.inf_free, valid_row, RHungSpec.pairs. rewrite l_enc_len. split.
  - intros [[H1 [H2 H3]] _]. split; [exact H1|]. split.
    + intros v Hv. apply In_nth_error in Hv. destruct Hv as [r Hv]. destruct v as [|v]; [lia|]. apply (l_encode_nth s 0%nat) in Hv. destruct Hv as [o [_ [_ Hv]]]. apply H2 in Hv. lia.
    + intros r1 r2 v A B. apply (l_encode_nth s 0%nat) in A, B. destruct A as [? [_ [_ A]]], B as [? [_ [_ B]]]. exact (l_pairs_snd s 0%nat r1 r2 v H3 A B).
  - intros [H1 [H2 H3]]. assert (Hin : forall r c, In (r, c) (RHungSpec.pairs_from 0 s) -> nth_error (RMurtySpec.encode s) r = Some (S c)).
    { intros r c H. apply (l_pairs_in s 0%nat r c) in H. unfold RMurtySpec.encode. rewrite nth_error_map, H. reflexivity. }
    split; [split; [exact H1|split]|].
    + intros r c H. apply Hin, nth_error_In, H2 in H. lia.
    + assert (HND : NoDup (RHungSpec.pairs_from 0 s)).
      { clear. generalize 0%nat. induction s as [|[c|] s IH]; intros k; cbn [RHungSpec.pairs_from]; [constructor| |apply IH]. constructor; [|apply IH].
        intros H. assert (Hb : forall k s x, In x (RHungSpec.pairs_from k s) -> (k <= fst x)%nat).
        { clear. intros k s. revert k. induction s as [|[c|] s IH]; intros k x; cbn [RHungSpec.pairs_from]; [intros []| |].
          - intros [<-|H]; [cbn; lia|]. apply IH in H. lia.
          - intros H. apply IH in H. lia. }
        apply Hb in H. cbn in H. lia. }
      apply NoDup_map_in; [exact HND|]. intros [r1 c1] [r2 c2] A B E. cbn in E. subst c2. rewrite (H3 r1 r2 c1 (Hin _ _ A) (Hin _ _ B)). reflexivity.
    + intros r c _. exists (M r c). reflexivity.
Qed.
Lemma l_cost_go M s : forall r0, rsum (map (fun rc => RBase.fin_val (RBase.Fin (M (fst rc) (snd rc)))) (RHungSpec.pairs_from r0 s)) = rsum (map (fun ra => match snd ra with O => 0 | S j => M (fst ra) j end) (combine (seq r0 (length s)) (RMurtySpec.encode s))).
Proof.
  induction s as [|[c|] s IH]; intros r0; [reflexivity| |]; cbn [RHungSpec.pairs_from length seq RMurtySpec.encode map combine]; rewrite ?rsum_cons; cbn [fst snd RBase.fin_val].
  - f_equal. apply IH.
  - rewrite Rplus_0_l. apply IH.
Qed.
Lemma l_cost nr M s : length s = nr -> RHungSpec.assign_cost (fun r c => RBase.Fin (M r c)) s = row_total nr M (RMurtySpec.encode s).
Proof. intros <-. apply l_cost_go. Qed.
Lemma l_murty_spec nr nc M m rows costs : l_murty nr nc M m = Ok (rows, costs) ->
  exists sols, rows = map RMurtySpec.encode sols /\ RMurtySpec.m_best nr nc (fun r c => RBase.Fin (M r c)) m sols costs.
Proof.
  unfold l_murty. intros H. destruct m as [|m].
  - cbn in H. injection H as <- <-. exists []. split; [reflexivity|]. unfold RMurtySpec.m_best. split; [constructor|]. split; [constructor|]. split; [constructor|]. split; [constructor|]. split; [intros ? ? []|]. split; [cbn; lia|]. cbn. lia.
  - destruct nr as [|nr]; [cbn in H; discriminate|].
    destruct (RMurtyProofs.murty2_spec {| RHungModel.mr := S nr; RHungModel.mc := nc; RHungModel.me := fun r c => RBase.Fin (M r c) |} (S m)) as [sols [cs [E B]]]; [cbn; lia|lia|].
    rewrite E in H. injection H as <- <-. exists sols. split; [reflexivity|exact B].
Qed.
Theorem l_murty_ok : murty_ok l_murty.
Proof.
  intros nr nc M m rows costs H. destruct (l_murty_spec _ _ _ _ _ _ H) as [sols [-> [B1 [_ [B3 _]]]]]. split.
  - rewrite map_length. exact (RKShortProofs.Forall2_length _ _ _ B3).
  - intros row Hr. apply in_map_iff in Hr. destruct Hr as [s [<- Hs]]. apply (l_valid nr nc M). rewrite Forall_forall in B1. exact (B1 s Hs).
Qed.
Theorem l_murty_cost : murty_cost l_murty.
Proof.
  intros nr nc M m rows costs H. destruct (l_murty_spec _ _ _ _ _ _ H) as [sols [-> [B1 [_ [B3 _]]]]]. clear H. induction B3 as [|s c ss cs Hc B3 IH]; cbn [map]; [constructor|]. inversion B1 as [|? ? B1a B1b]; subst. constructor; [|exact (IH B1b)].
  apply l_cost. apply B1a.
Qed.
Theorem l_murty_best : murty_best l_murty.
Proof.
  intros nr nc M m rows costs H. destruct (l_murty_spec _ _ _ _ _ _ H) as [sols [-> [B1 [B2 [B3 [_ [B5 [B6 B7]]]]]]]]. rewrite map_length.
  assert (Hin : forall row, In row (map RMurtySpec.encode sols) <-> In (l_decode row) sols).
  { intros row. rewrite in_map_iff. split; [intros [s [<- Hs]]; rewrite l_enc_dec; exact Hs|intros Hs; exists (l_decode row); split; [apply l_dec_enc|exact Hs]]. }
  split; [exact B6|]. split; [|split].
  - apply NoDup_map_in; [exact B2|]. intros a b _ _ E. rewrite <- (l_enc_dec a), E. apply l_enc_dec.
  - intros row row' Hr Hv Hn. rewrite Hin in Hr, Hn. assert (Hf : RMurtySpec.feasible nr nc (fun r c => RBase.Fin (M r c)) (l_decode row')) by (apply l_valid; rewrite l_dec_enc; exact Hv).
    rewrite Forall_forall in B1. pose proof (B1 _ Hr) as Hf1.
    assert (Hc : In (RHungSpec.assign_cost (fun r c => RBase.Fin (M r c)) (l_decode row)) costs).
    { clear - B3 Hr. induction B3 as [|s c ss cs Hc B3 IH]; [destruct Hr|]. destruct Hr as [<-|Hr]; [left; exact Hc|right; exact (IH Hr)]. }
    pose proof (B5 _ _ Hc Hf Hn) as L. rewrite !(l_cost nr), !l_dec_enc in L; [exact L|apply Hf|apply Hf1].
  - intros Hlt row Hv. apply Hin, B7; [exact Hlt|]. apply l_valid. rewrite l_dec_enc. exact Hv.
Qed.
Theorem l_murty_total : murty_total l_murty.
Proof.
  intros nr nc M m Hr Hc. destruct m as [|m]; [exists ([], []); reflexivity|].
  destruct (RMurtyProofs.murty2_spec {| RHungModel.mr := nr; RHungModel.mc := nc; RHungModel.me := fun r c => RBase.Fin (M r c) |} (S m)) as [sols [cs [E _]]]; [exact Hr|lia|]. eexists. exact E.
Qed.

(** * k_shortest *)
Section Fin.
Variables (n : nat) (G : nat -> nat -> RBase.ext) (dst : nat).
Hypothesis HG : forall u v, RBase.is_fin (G u v) = true.
Lemma l_sub_fin p : RBase.is_fin (RKShortModel.sub_cost G p) = true.
Proof.
  induction p as [|u [|v p] IH]; [reflexivity|reflexivity|]. change (RBase.is_fin (RBfmModel.eadd (G u v) (RKShortModel.sub_cost G (v :: p))) = true).
  specialize (HG u v). destruct (G u v); [|discriminate]. destruct (RKShortModel.sub_cost G (v :: p)); [reflexivity|discriminate].
Qed.
Definition pfin (st : RKShortModel.kst) : Prop := Forall (fun pc => RBase.is_fin (snd pc) = true) (RKShortModel.kP st).
Lemma l_bfm_fin N T s t d p : RBfmModel.bfm N T s t = Ok (d, p) -> p <> [] -> RBase.is_fin d = true.
Proof.
  unfold RBfmModel.bfm. destruct (RBfmModel.bfm_helper N T s) as [[pr D]|]; [|discriminate]. cbn [bind]. destruct (N <=? t)%nat; [discriminate|]. destruct (D t) as [q|].
  - destruct (RBfmModel.trace N pr s t []); [|discriminate]. cbn [bind]. intros H _. injection H as <- <-. reflexivity.
  - intros H E. injection H as _ <-. congruence.
Qed.
Lemma l_deviate_fin P sps st i st' : pfin st -> RKShortModel.deviate n G dst P sps st i = Ok st' -> pfin st'.
Proof.
  intros Hp. unfold RKShortModel.deviate. destruct (nth_error P i) as [v|]; [|discriminate]. destruct (RKShortModel.blocked_next P i (P :: sps)) as [nx|]; [|discriminate]. cbn [bind].
  destruct (RBfmModel.bfm n _ v dst) as [[d p]|] eqn:E; [|discriminate]. cbn [bind]. destruct p as [|p0 p]; intros H; injection H as <-; [exact Hp|]. unfold pfin. cbn [RKShortModel.kP]. apply Forall_app. split; [exact Hp|]. constructor; [|constructor]. cbn [snd].
  apply l_bfm_fin in E; [|discriminate]. pose proof (l_sub_fin (firstn (S i) P)) as F. change (match P with [] => [] | a :: l => a :: firstn i l end) with (firstn (S i) P). destruct (RKShortModel.sub_cost G (firstn (S i) P)); [|discriminate]. destruct d; [reflexivity|discriminate].
Qed.
Lemma l_devall_fin P sps inds : forall st st', pfin st -> RKShortModel.deviate_all n G dst P sps st inds = Ok st' -> pfin st'.
Proof.
  induction inds as [|i inds IH]; intros st st' Hp; cbn [RKShortModel.deviate_all]; [intros H; injection H as <-; exact Hp|]. destruct (RKShortModel.deviate n G dst P sps st i) as [st1|] eqn:E; [|discriminate]. cbn [bind]. apply IH. exact (l_deviate_fin _ _ _ _ _ Hp E).
Qed.
Lemma l_loop_fin k : forall fuel cur st sps cs ps' cs', pfin st -> Forall (fun c => RBase.is_fin c = true) cs -> RKShortModel.k_loop n G dst fuel k cur st sps cs = Ok (ps', cs') -> Forall (fun c => RBase.is_fin c = true) cs'.
Proof.
  induction fuel as [|f IH]; intros cur st sps cs ps' cs' Hp Hc; cbn [RKShortModel.k_loop].
  - destruct (negb (length sps <? k)%nat || (length (RKShortModel.kX st) =? 0)%nat); [|discriminate]. intros H. injection H as _ <-. exact Hc.
  - destruct (negb (length sps <? k)%nat || (length (RKShortModel.kX st) =? 0)%nat); [intros H; injection H as _ <-; exact Hc|]. cbn [RKShortModel.kP RKShortModel.kS].
    destruct (nth_error (RKShortModel.kP st) cur) as [[P c0]|]; [|discriminate]. destruct (nth_error (RKShortModel.kS st) cur) as [w|]; [|discriminate]. destruct (RKShortModel.last_pos w P) as [wi|]; [|discriminate].
    match goal with |- context [RKShortModel.deviate_all n G dst P sps ?s ?l] => destruct (RKShortModel.deviate_all n G dst P sps s l) as [st2|] eqn:E; [|discriminate] end. cbn [bind].
    assert (H2 : pfin st2) by (refine (l_devall_fin _ _ _ _ _ _ E); exact Hp). destruct (RKShortModel.kX st2) as [|x0 X].
    + apply IH; assumption.
    + destruct (nth_error (RKShortModel.kP st2) _) as [[p c]|] eqn:E2; [|discriminate]. apply IH; [exact H2|]. apply Forall_app. split; [exact Hc|]. constructor; [|constructor]. apply nth_error_In in E2. unfold pfin in H2. rewrite Forall_forall in H2. exact (H2 _ E2).
Qed.
End Fin.
(** On a finite vector every reported cost is finite, so [l_kshort] loses nothing. *)
Lemma l_costs_fin si lc k ps cs : RKShortModel.k_shortest si (map RBase.Fin lc) k = Ok (ps, cs) -> Forall (fun c => RBase.is_fin c = true) cs.
Proof.
  unfold RKShortModel.k_shortest. destruct (k =? 0)%nat; [intros H; injection H as _ <-; constructor|]. cbv zeta. rewrite map_length.
  set (G := RKShortModel.cost_pad (length lc) (map (RKShortModel.vec (map RBase.Fin lc)) si)).
  assert (HV : forall l i, RBase.is_fin (RKShortModel.vec (map RBase.Fin l) i) = true).
  { intros l i. unfold RKShortModel.vec. rewrite (map_nth RBase.Fin l 0). reflexivity. }
  assert (HG : forall u v, RBase.is_fin (G u v) = true).
  { intros u v. unfold G, RKShortModel.cost_pad. destruct (v =? S (length lc))%nat; [destruct (u <=? length lc)%nat; reflexivity|]. destruct ((1 <=? v)%nat && (v <=? length lc)%nat && (u <? v)%nat); [|reflexivity].
    unfold RKShortModel.vec at 1. destruct (Nat.ltb_spec (v - 1) (length si)) as [L|L].
    - rewrite (nth_map' _ _ _ _ 0%nat) by exact L. apply HV.
    - rewrite nth_overflow by (rewrite map_length; exact L). reflexivity. }
  unfold RKShortModel.k_helper. destruct (RBfmModel.bfm (length lc + 2) G 0 (S (length lc))) as [[d p]|] eqn:E; [|discriminate]. cbn [bind]. destruct p as [|v p]; [cbn [bind]; intros H; injection H as _ <-; constructor|].
  apply l_bfm_fin in E; [|discriminate]. match goal with |- context [RKShortModel.k_loop ?a ?b ?c ?d ?e ?f ?g ?h ?i] => destruct (RKShortModel.k_loop a b c d e f g h i) as [[ps' cs']|] eqn:EL; [|discriminate] end. cbn [bind]. intros H. injection H as _ <-.
  refine (l_loop_fin _ _ _ HG k _ _ _ _ _ _ _ _ _ EL); [constructor; [exact E|constructor]|constructor; [exact E|constructor]].
Qed.
Definition scaled_vec (lc : list R) : Prop := forall x, In x lc -> x = 0 \/ / 2 ^ 52 <= Rabs x.
Lemma l_scaled lc : scaled_vec lc <-> RKShortSpec.vec_scaled (map RBase.Fin lc).
Proof.
  unfold scaled_vec, RKShortSpec.vec_scaled, RKShortSpec.entry, RKShortSpec.machine_eps. rewrite map_length. replace (2 ^ 52) with 4503599627370496 by lra. split.
  - intros H i q Hi E. rewrite (map_nth RBase.Fin lc 0) in E. injection E as <-. apply H, nth_In, Hi.
  - intros H x Hx. apply (In_nth _ _ 0) in Hx. destruct Hx as [i [Hi E]]. apply (H i); [exact Hi|]. rewrite (map_nth RBase.Fin lc 0), E. reflexivity.
Qed.
Lemma l_overrun si lc k : Permutation si (seq 0 (length lc)) -> ~ scaled_vec lc -> (1 <= k)%nat -> RKShortModel.k_shortest si (map RBase.Fin lc) k = Err IndexErr.
Proof.
  intros Hsi Hn Hk. assert (Hx : exists i, (i < length lc)%nat /\ nth i lc 0 <> 0 /\ Rabs (nth i lc 0) < RBfmModel.eps).
  { destruct (classic (exists i, (i < length lc)%nat /\ nth i lc 0 <> 0 /\ Rabs (nth i lc 0) < RBfmModel.eps)) as [H|H]; [exact H|]. exfalso. apply Hn. intros x Hx. apply (In_nth _ _ 0) in Hx. destruct Hx as [i [Hi E]].
    destruct (Req_EM_T x 0) as [|E0]; [left; assumption|right]. apply Rnot_lt_le. intros L. apply H. exists i. rewrite E. split; [exact Hi|]. split; [exact E0|]. unfold RBfmModel.eps. replace 4503599627370496 with (2 ^ 52) by lra. exact L. }
  destruct Hx as [i [Hi [Hq Hs]]]. set (c := map RBase.Fin lc). assert (Lc : length c = length lc) by apply map_length.
  assert (Hsi' : Permutation si (seq 0 (length c))) by (rewrite Lc; exact Hsi).
  unfold RKShortModel.k_shortest. destruct (Nat.eqb_spec k 0) as [|_]; [lia|]. cbv zeta. unfold RKShortModel.k_helper, RBfmModel.bfm, RBfmModel.bfm_helper.
  destruct (Nat.leb_spec (length c + 2) 0) as [|_]; [lia|]. destruct (Nat.eqb_spec (length c + 2) 1) as [|_]; [lia|].
  assert (Hin : In i si). { eapply Permutation_in; [symmetry; exact Hsi|]. apply in_seq. lia. }
  apply In_nth with (d := 0%nat) in Hin as [j [Hj Ej]]. rewrite (RKShortProofs.si_len c si Hsi') in Hj.
  assert (Hov : (length (RBfmModel.arcs (length c + 2) (RKShortModel.cost_pad (length c) (map (RKShortModel.vec c) si)))
        < RBfmModel.count_nonzero (length c + 2) (RKShortModel.cost_pad (length c) (map (RKShortModel.vec c) si)))%nat).
  { apply (RBfmProofs.small_entry_overrun _ _ 0 (S j) (nth i lc 0)); [lia|lia| |exact Hq|exact Hs].
    rewrite (RKShortProofs.G_state c si Hsi') by lia. cbn [Nat.sub]. rewrite Nat.sub_0_r, Ej. unfold RKShortSpec.entry, c. apply (map_nth RBase.Fin lc 0). }
  apply Nat.ltb_lt in Hov. rewrite Hov. reflexivity.
Qed.
Lemma l_kshort_inv si lc k ps cs : Permutation (si lc) (seq 0 (length lc)) -> l_kshort si lc k = Ok (ps, cs) ->
  (ps = [] /\ cs = []) \/
  (scaled_vec lc /\ length ps = length cs /\ forall p, In p ps -> exists x, RKShortProofs.good (map RBase.Fin lc) (si lc) x /\ p = RKShortProofs.post (map RBase.Fin lc) (si lc) x).
Proof.
  intros Hsi. unfold l_kshort. destruct k as [|k]; [cbn; intros H; injection H as <- <-; left; split; reflexivity|].
  destruct (classic (scaled_vec lc)) as [Hsc|Hsc].
  - intros H. right. split; [exact Hsc|]. assert (Hsi' : Permutation (si lc) (seq 0 (length (map RBase.Fin lc)))) by (rewrite map_length; exact Hsi).
    destruct (RKShortProofs.k_shortest_ok _ _ (proj1 (l_scaled lc) Hsc) Hsi' (S k)) as [path [q [paths [costs' [E' [Hg0 [_ [_ [_ [_ [Hg [Hl _]]]]]]]]]]]]; [lia|]. rewrite E' in H. cbn [bind] in H. injection H as <- <-.
    split; [cbn [length map]; rewrite !map_length; f_equal; symmetry; exact Hl|]. intros p [<-|Hp]; [exists path; split; [exact Hg0|reflexivity]|]. apply in_map_iff in Hp. destruct Hp as [x [<- Hx]]. rewrite Forall_forall in Hg. exists x. split; [exact (Hg x Hx)|reflexivity].
  - rewrite (l_overrun _ _ _ Hsi Hsc) by lia. discriminate.
Qed.
Section KS.
Variable si : list R -> list nat.
Hypothesis Hsi : sorts_down si.
Theorem l_kshort_ok : kshort_ok (l_kshort si).
Proof.
  intros lc k ps cs H. destruct (l_kshort_inv si lc k ps cs (proj1 (Hsi lc)) H) as [[-> ->]|[Hsc [Hl Hp]]]; [split; [reflexivity|intros p []]|]. split; [exact Hl|].
  intros p Hin. destruct (Hp p Hin) as [x [Gx ->]]. assert (Hsi' : Permutation (si lc) (seq 0 (length (map RBase.Fin lc)))) by (rewrite map_length; exact (proj1 (Hsi lc))).
  destruct (RKShortProofs.good_post _ _ Hsi' x Gx) as [A B]. split; [exact A|]. intros i Hi. rewrite Forall_forall in B. rewrite <- (map_length RBase.Fin). exact (B i Hi).
Qed.
Theorem l_kshort_zero : kshort_zero (l_kshort si).
Proof.
  intros lc k ps cs H p i Hin Hi. destruct (l_kshort_inv si lc k ps cs (proj1 (Hsi lc)) H) as [[-> ->]|[Hsc [Hl Hp]]]; [destruct Hin|].
  destruct (Hp p Hin) as [x [Gx ->]]. destruct (RKShortProofs.good_live _ _ x i Gx Hi) as [q [E Hq]]. unfold RKShortSpec.entry in E. rewrite (map_nth RBase.Fin lc 0) in E. injection E as ->. exact Hq.
Qed.
Theorem l_kshort_none : kshort_none (l_kshort si).
Proof. intros lc. reflexivity. Qed.
Theorem l_kshort_total lc k : scaled_vec lc -> exists r, l_kshort si lc k = Ok r.
Proof.
  intros Hsc. unfold l_kshort. destruct k as [|k]; [exists ([], []); reflexivity|]. assert (Hsi' : Permutation (si lc) (seq 0 (length (map RBase.Fin lc)))) by (rewrite map_length; exact (proj1 (Hsi lc))).
  destruct (RKShortProofs.k_shortest_ok _ _ (proj1 (l_scaled lc) Hsc) Hsi' (S k)) as [path [q [paths [costs' [E' _]]]]]; [lia|]. rewrite E'. eexists. reflexivity.
Qed.
Theorem l_kshort_overrun lc k : ~ scaled_vec lc -> (1 <= k)%nat -> l_kshort si lc k = Err IndexErr.
Proof. intros Hn Hk. unfold l_kshort. rewrite (l_overrun _ _ _ (proj1 (Hsi lc)) Hn Hk). reflexivity. Qed.
End KS.
