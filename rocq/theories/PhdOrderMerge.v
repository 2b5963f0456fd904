(** Merging and capping against the order of the components (C197): with pairwise
    different weights the order does not matter. *)
From Coq Require Import List Lia Bool Arith ZArith Permutation Sorted.
From Verif Require Import RBase RLists RPhdModel RPhdSpec RPhdProofs RPhdProps PhdOrder.
From Coq Require Import Reals Lra FunctionalExtensionality.
Import ListNotations.
Open Scope R_scope.

Definition compi (g : gmix) (i : nat) : R * vec * mat := (W g i, Mn g i, P g i).
Lemma comps_compi g : aligned g -> comps g = map (compi g) (seq 0 (length (gm_w g))).
Proof. exact (comps_nth g). Qed.
Lemma weight_unique (L : list (R * vec * mat)) x y : NoDup (map weight L) -> In x L -> In y L -> weight x = weight y -> x = y.
Proof.
  induction L as [|a L IH]; intros ND Hx Hy E; [destruct Hx|]. cbn [map] in ND. apply NoDup_cons_iff in ND. destruct ND as [N ND].
  destruct Hx as [-> |Hx], Hy as [-> |Hy].
  - reflexivity.
  - exfalso. apply N. rewrite E. apply in_map, Hy.
  - exfalso. apply N. rewrite <- E. apply in_map, Hx.
  - apply IH; assumption.
Qed.
Lemma nodup_app_r {A} (l l' : list A) : NoDup (l ++ l') -> NoDup l'.
Proof. induction l as [|x l IH]; intros H; [exact H|]. cbn in H. apply NoDup_cons_iff in H. apply IH, H. Qed.
Lemma sum_compi g G (f : nat -> R) (h : R * vec * mat -> R) : (forall i, f i = h (compi g i)) -> sum_over G f = rsum (map h (map (compi g) G)).
Proof. intros H. unfold sum_over. rewrite map_map. f_equal. apply map_ext. exact H. Qed.

Section Merge.
Context {Meas : Type} (c : cfg Meas) (g g2 : gmix).
Definition near (ic : mat) (mj : vec) (x : R * vec * mat) : bool := Rleb (quad (c_dim c) ic (vsub (mean_ x) mj)) (c_merge c).
Lemma merge_det groups : forall inds l groups2 inds2 l2,
  Permutation (map (compi g) inds) (map (compi g2) inds2) -> NoDup (map weight (map (compi g) inds)) ->
  all_merged c g groups inds l -> all_merged c g2 groups2 inds2 l2 -> l = l2.
Proof.
  induction groups as [|G gs IH]; intros inds l groups2 inds2 l2 Pp ND H H2.
  - destruct l as [|x l]; [|destruct H]. cbn [all_merged] in H. subst inds. cbn [map] in Pp. apply Permutation_nil in Pp. apply map_eq_nil in Pp. subst inds2.
    destruct groups2 as [|G2 gs2]; destruct l2 as [|x2 l2]; cbn [all_merged] in H2; try tauto; try reflexivity.
    destruct H2 as [(_ & _ & _ & _ & jj & ic & [] & _) _].
  - destruct l as [|x l]; [destruct H|]. cbn [all_merged] in H. destruct H as [(E1 & N1 & M1 & P1 & jj & ic & Hj & Hmax & Hic & EG) (inds' & Pi & H)].
    assert (Hne : inds2 <> []).
    { intros E. subst inds2. cbn [map] in Pp. apply Permutation_sym, Permutation_nil, map_eq_nil in Pp. subst inds. destruct Hj. }
    destruct groups2 as [|G2 gs2]; destruct l2 as [|x2 l2]; cbn [all_merged] in H2; try tauto.
    destruct H2 as [(E2 & N2 & M2 & P2 & jj2 & ic2 & Hj2 & Hmax2 & Hic2 & EG2) (inds2' & Pi2 & H2)].
    assert (Hc : compi g jj = compi g2 jj2).
    { assert (I1 : In (compi g jj) (map (compi g) inds)) by (apply in_map, Hj).
      assert (I2 : In (compi g2 jj2) (map (compi g) inds)) by (apply (Permutation_in _ (Permutation_sym Pp)), in_map, Hj2).
      apply (weight_unique (map (compi g) inds)); try assumption. cbn [weight compi fst].
      pose proof (Permutation_in _ Pp I1) as I3. apply in_map_iff in I3. destruct I3 as (k & Ek & Hk).
      apply in_map_iff in I2. destruct I2 as (k2 & Ek2 & Hk2).
      pose proof (Hmax2 k Hk) as L1. pose proof (Hmax k2 Hk2) as L2.
      assert (W g2 k = W g jj) by (unfold compi in Ek; congruence). assert (W g k2 = W g2 jj2) by (unfold compi in Ek2; congruence).
      change (W g jj = W g2 jj2). apply Rle_antisym; congruence. }
    assert (ic = ic2) by (unfold compi in Hc; congruence). subst ic2.
    assert (PG : Permutation (map (compi g) G) (map (compi g2) G2)).
    { assert (F : forall h j L, map (compi h) (filter (within c h ic j) L) = filter (near ic (Mn h j)) (map (compi h) L)).
      { intros h j L. rewrite filter_map. reflexivity. }
      rewrite EG, EG2, !F. replace (Mn g2 jj2) with (Mn g jj) by (unfold compi in Hc; congruence). apply filter_perm, Pp. }
    assert (S0 : sum_over G2 (W g2) = sum_over G (W g)).
    { rewrite (sum_compi g G (W g) weight), (sum_compi g2 G2 (W g2) weight) by reflexivity. apply rsum_perm, Permutation_map, Permutation_sym, PG. }
    assert (SM : forall i, sum_over G2 (fun k => W g2 k * Mn g2 k i) = sum_over G (fun k => W g k * Mn g k i)).
    { intros i. rewrite (sum_compi g G _ (fun x => weight x * mean_ x i)), (sum_compi g2 G2 _ (fun x => weight x * mean_ x i)) by reflexivity. apply rsum_perm, Permutation_map, Permutation_sym, PG. }
    assert (SP : forall i j, sum_over G2 (fun k => W g2 k * P g2 k i j) = sum_over G (fun k => W g k * P g k i j)).
    { intros i j. rewrite (sum_compi g G _ (fun x => weight x * snd x i j)), (sum_compi g2 G2 _ (fun x => weight x * snd x i j)) by reflexivity. apply rsum_perm, Permutation_map, Permutation_sym, PG. }
    f_equal.
    + destruct x as [[w m] p]. destruct x2 as [[w2 m2] p2]. cbn [fst snd] in *.
      assert (Ew : w2 = w) by congruence. assert (w <> 0) by congruence. rewrite Ew in M2, P2. rewrite Ew. f_equal; [f_equal|].
      * apply functional_extensionality. intros i. apply (Rmult_eq_reg_l w); [|assumption]. rewrite M1, M2, SM. reflexivity.
      * apply functional_extensionality. intros i. apply functional_extensionality. intros j. apply (Rmult_eq_reg_l w); [|assumption]. rewrite P1, P2, SP. reflexivity.
    + assert (Q1 : Permutation (map (compi g) G ++ map (compi g) inds') (map (compi g) inds)) by (rewrite <- map_app; apply Permutation_map, Pi).
      assert (Q2 : Permutation (map (compi g2) G2 ++ map (compi g2) inds2') (map (compi g2) inds2)) by (rewrite <- map_app; apply Permutation_map, Pi2).
      apply (IH inds' l gs2 inds2' l2); try assumption.
      * apply (Permutation_app_inv_l (map (compi g) G)). rewrite Q1, Pp, <- Q2. apply Permutation_app_tail, Permutation_sym, PG.
      * assert (ND' : NoDup (map weight (map (compi g) G ++ map (compi g) inds'))) by (apply (Permutation_NoDup (Permutation_map weight (Permutation_sym Q1))), ND).
        rewrite map_app in ND'. apply nodup_app_r in ND'. exact ND'.
Qed.
End Merge.

(** With pairwise different weights merging returns the very same mixture. *)
Theorem C197_phd_merge_order_partial : forall (Meas : Type) (c : cfg Meas) g g2,
  same_mix g g2 -> RPhdSpec.positive g -> NoDup (gm_w g) -> (0 <= c_merge c) ->
  (forall p, In p (gm_p g) -> exists ic, c_inv c p = Ok ic) ->
  exists g', merge c g = Ok g' /\ merge c g2 = Ok g'.
Proof.
  intros Meas c g g2 (Ha & Ha2 & Pg) Hp ND Ht Hi.
  assert (Hin : forall x, In x (gm_w g2) -> In x (gm_w g)).
  { assert (K : forall h, aligned h -> gm_w h = map weight (comps h)).
    { intros h A. rewrite (comps_compi h A), map_map. rewrite (map_ext _ (fun i => nth i (gm_w h) 0)) by reflexivity. symmetry. apply map_nth_seq. }
    intros x Hx. rewrite (K g2 Ha2) in Hx. rewrite (K g Ha). apply (Permutation_in _ (Permutation_map weight (Permutation_sym Pg))), Hx. }
  assert (Hip : forall x, In x (gm_p g2) -> In x (gm_p g)).
  { assert (K : forall h, aligned h -> gm_p h = map snd (comps h)).
    { intros h A. rewrite (comps_compi h A), map_map. rewrite (map_ext _ (fun i => nth i (gm_p h) (fun _ _ => 0))) by reflexivity. destruct A as [_ [_ A]]. rewrite <- A. symmetry. apply map_nth_seq. }
    intros x Hx. rewrite (K g2 Ha2) in Hx. rewrite (K g Ha). apply (Permutation_in _ (Permutation_map snd (Permutation_sym Pg))), Hx. }
  assert (Hn : RPhdSpec.nonneg g) by (intros x Hx; apply Rlt_le, Hp; exact Hx).
  assert (Hp2 : RPhdSpec.positive g2) by (intros x Hx; apply Hp, Hin, Hx).
  assert (Hn2 : RPhdSpec.nonneg g2) by (intros x Hx; apply Rlt_le, Hp2; exact Hx).
  destruct (loop_total c g Ha Hn Hp Ht Hi (length (gm_w g)) (seq 0 (length (gm_w g))) (gm_w g) (init_winv g)) as [l El]; [rewrite seq_length; lia|].
  destruct (loop_total c g2 Ha2 Hn2 Hp2 Ht ltac:(intros p Hq; apply Hi, Hip, Hq) (length (gm_w g2)) (seq 0 (length (gm_w g2))) (gm_w g2) (init_winv g2)) as [l2 El2]; [rewrite seq_length; lia|].
  destruct (loop_spec c g Ha Hn _ _ _ _ (init_winv g) El) as [gs Hgs]. destruct (loop_spec c g2 Ha2 Hn2 _ _ _ _ (init_winv g2) El2) as [gs2 Hgs2].
  assert (E : l = l2).
  { apply (merge_det c g g2 gs _ l gs2 _ l2) with (3 := Hgs) (4 := Hgs2).
    - rewrite <- !comps_compi by assumption. exact Pg.
    - rewrite map_map. rewrite (map_ext _ (fun i => nth i (gm_w g) 0)) by reflexivity. rewrite map_nth_seq. exact ND. }
  subst l2. destruct Ha as [_ [L1 _]]. destruct Ha2 as [_ [L2 _]].
  eexists. unfold merge, merge_fuel. rewrite L1, L2, El, El2. cbn [bind]. split; reflexivity.
Qed.

(** ** capping *)
Lemma strict_nodup (l : list nat) : StronglySorted lt l -> NoDup l.
Proof.
  induction l as [|x l IH]; intros H; [constructor|]. apply StronglySorted_inv in H. destruct H as [H F]. constructor; [|apply IH, H].
  intros I0. rewrite Forall_forall in F. pose proof (F x I0). lia.
Qed.
(** The [k] heaviest of a list with different weights are determined. *)
Lemma heaviest_unique (L A B : list (R * vec * mat)) : NoDup (map weight L) -> NoDup A -> NoDup B ->
  incl A L -> incl B L -> length A = length B ->
  (forall x y, In x A -> In y L -> ~ In y A -> weight y <= weight x) ->
  (forall x y, In x B -> In y L -> ~ In y B -> weight y <= weight x) -> incl A B.
Proof.
  intros ND NA NB IA IB EL HA HB x Hx.
  assert (Dec : In x B \/ ~ In x B) by (apply Classical_Prop.classic). destruct Dec as [Hb|Hb]; [exact Hb|exfalso].
  assert (Sub : incl (x :: B) A).
  { intros y [<- |Hy]; [exact Hx|]. destruct (Classical_Prop.classic (In y A)) as [Hya|Hya]; [exact Hya|exfalso].
    pose proof (HB y x Hy (IA x Hx) Hb) as L1. pose proof (HA x y Hx (IB y Hy) Hya) as L2.
    assert (x = y) by (apply (weight_unique L); auto; apply Rle_antisym; assumption). subst y. contradiction. }
  assert (NX : NoDup (x :: B)) by (constructor; assumption).
  pose proof (NoDup_incl_length NX Sub) as LL. cbn [length] in LL. lia.
Qed.
Lemma in_comps g x : aligned g -> (In x (comps g) <-> exists i, (i < length (gm_w g))%nat /\ x = compi g i).
Proof.
  intros Ha. rewrite (comps_compi g Ha), in_map_iff. split; intros (i & A & B); exists i.
  - apply in_seq in B. split; [lia|congruence].
  - split; [congruence|]. apply in_seq. lia.
Qed.
Theorem C197_phd_cap_order_partial : forall (Meas : Type) (c : cfg Meas) idx idx2 g g2,
  same_mix g g2 -> RPhdSpec.positive g -> NoDup (gm_w g) -> (1 <= c_max c)%nat -> sorts idx (gm_w g) -> sorts idx2 (gm_w g2) ->
  exists g' g2', cap c idx g = Ok g' /\ cap c idx2 g2 = Ok g2' /\ Permutation (comps g') (comps g2').
Proof.
  intros Meas c idx idx2 g g2 (Ha & Ha2 & Pg) Hp ND Hm Hs Hs2.
  assert (K : forall h, aligned h -> gm_w h = map weight (comps h)).
  { intros h A. rewrite (comps_compi h A), map_map. rewrite (map_ext _ (fun i => nth i (gm_w h) 0)) by reflexivity. symmetry. apply map_nth_seq. }
  assert (Pw : Permutation (gm_w g) (gm_w g2)) by (rewrite (K g Ha), (K g2 Ha2); apply Permutation_map, Pg).
  assert (Hp2 : RPhdSpec.positive g2) by (intros x Hx; apply Hp, (Permutation_in _ (Permutation_sym Pw)), Hx).
  assert (ND2 : NoDup (gm_w g2)) by (apply (Permutation_NoDup Pw), ND).
  assert (Lw := Permutation_length Pw).
  assert (Ht : total g2 = total g) by (symmetry; apply rsum_perm, Pw).
  destruct (C37_phd_cap_real Meas c idx g Ha Hp Hm Hs) as (g' & E & _ & _ & D). destruct (C37_phd_cap_real Meas c idx2 g2 Ha2 Hp2 Hm Hs2) as (g2' & E2 & _ & _ & D2).
  exists g', g2'. split; [exact E|]. split; [exact E2|].
  destruct D as [[D ->]|[D (kept & S1 & S2 & S3 & S4 & S5 & S6 & S7)]]; destruct D2 as [[D2 ->]|[D2 (kept2 & T1 & T2 & T3 & T4 & T5 & T6 & T7)]]; try lia; [exact Pg|].
  assert (Cn : forall h hk i j, aligned h -> NoDup (gm_w h) -> (forall k, In k hk -> (k < length (gm_w h))%nat) -> In i hk -> (j < length (gm_w h))%nat -> compi h i = compi h j -> i = j).
  { intros h hk i j A N B Hi Hj Ec. assert (Ew : W h i = W h j) by (unfold compi in Ec; congruence). unfold W in Ew. rewrite (NoDup_nth (gm_w h) 0) in N. apply N; [apply B, Hi|exact Hj|exact Ew]. }
  assert (ki : forall h hk, aligned h -> NoDup (gm_w h) -> StronglySorted lt hk -> (forall k, In k hk -> (k < length (gm_w h))%nat) -> NoDup (map (compi h) hk)).
  { intros h hk A N SS B. apply strict_nodup in SS. revert SS B. induction hk as [|i hk IH]; intros SS B; [constructor|]. apply NoDup_cons_iff in SS. destruct SS as [N1 SS]. cbn [map]. constructor.
    - intros I0. apply in_map_iff in I0. destruct I0 as (j & Ej & Hj). apply N1. rewrite (Cn h (i :: hk) i j A N B) ; [exact Hj|left; reflexivity|apply B; right; exact Hj|symmetry; exact Ej].
    - apply IH; [exact SS|]. intros k Hk. apply B. right. exact Hk. }
  assert (hv : forall h hk, aligned h -> NoDup (gm_w h) -> (forall k, In k hk -> (k < length (gm_w h))%nat) -> (forall i j, In i hk -> (j < length (gm_w h))%nat -> ~ In j hk -> W h j <= W h i) ->
     forall x y, In x (map (compi h) hk) -> In y (comps h) -> ~ In y (map (compi h) hk) -> weight y <= weight x).
  { intros h hk A N B Hv x y Hx Hy Hn. apply in_map_iff in Hx. destruct Hx as (i & <- & Hi). apply (in_comps h y A) in Hy. destruct Hy as (j & Hj & ->).
    change (W h j <= W h i). apply Hv; [exact Hi|exact Hj|]. intros I0. apply Hn, in_map, I0. }
  assert (ic : forall h hk, aligned h -> (forall k, In k hk -> (k < length (gm_w h))%nat) -> incl (map (compi h) hk) (comps h)).
  { intros h hk A B x Hx. apply in_map_iff in Hx. destruct Hx as (i & <- & Hi). apply (in_comps h _ A). exists i. split; [apply B, Hi|reflexivity]. }
  assert (NDc : NoDup (map weight (comps g))) by (rewrite <- (K g Ha); exact ND).
  assert (Q1 := ki g kept Ha ND S1 S3). assert (Q2 := ki g2 kept2 Ha2 ND2 T1 T3).
  assert (I2 : incl (map (compi g2) kept2) (comps g)) by (intros x Hx; apply (Permutation_in _ (Permutation_sym Pg)), (ic g2 kept2 Ha2 T3), Hx).
  assert (V2 : forall x y, In x (map (compi g2) kept2) -> In y (comps g) -> ~ In y (map (compi g2) kept2) -> weight y <= weight x).
  { intros x y Hx Hy. apply (hv g2 kept2 Ha2 ND2 T3 T4 x y Hx). apply (Permutation_in _ Pg), Hy. }
  assert (PK : Permutation (map (compi g) kept) (map (compi g2) kept2)).
  { apply NoDup_Permutation; try assumption. intros x. split.
    - apply (heaviest_unique (comps g)); try assumption; [apply ic; assumption|rewrite !map_length; lia|exact (hv g kept Ha ND S3 S4)].
    - apply (heaviest_unique (comps g)); try assumption; [apply ic; assumption|rewrite !map_length; lia|exact (hv g kept Ha ND S3 S4)]. }
  assert (Sk : sum_over kept2 (W g2) = sum_over kept (W g)).
  { rewrite (sum_compi g kept (W g) weight), (sum_compi g2 kept2 (W g2) weight) by reflexivity. apply rsum_perm, Permutation_map, Permutation_sym, PK. }
  assert (F : forall h h' hk q, gm_m h' = map (Mn h) hk -> gm_p h' = map (P h) hk -> gm_w h' = map (fun i => W h i * q) hk -> comps h' = map (fun x => (weight x * q, mean_ x, snd x)) (map (compi h) hk)).
  { intros h h' hk q Em Ep Ew. unfold comps. rewrite Em, Ep, Ew, !combine_maps, map_map. reflexivity. }
  rewrite (F g g' kept _ S5 S6 S7), (F g2 g2' kept2 _ T5 T6 T7), Ht, Sk. apply Permutation_map, PK.
Qed.

Print Assumptions C197_phd_merge_order_partial.
Print Assumptions C197_phd_cap_order_partial.

(** Instance of the hypotheses: two components in both orders. *)
Definition mA : gmix := {| gm_w := [1; 2]; gm_m := [fun _ => 0; fun _ => 5]; gm_p := [fun _ _ => 1; fun _ _ => 2] |}.
Definition mB : gmix := {| gm_w := [2; 1]; gm_m := [fun _ => 5; fun _ => 0]; gm_p := [fun _ _ => 2; fun _ _ => 1] |}.
Example C197_ex : same_mix mA mB /\ RPhdSpec.positive mA /\ NoDup (gm_w mA) /\ 0 <= c_merge oc /\ (1 <= c_max oc)%nat /\
  (forall p, In p (gm_p mA) -> exists ic, c_inv oc p = Ok ic) /\ sorts [0; 1]%nat (gm_w mA) /\ sorts [1; 0]%nat (gm_w mB).
Proof.
  split; [split; [repeat split|split; [repeat split|apply perm_swap]]|].
  split; [intros x [<-|[<-|[]]]; lra|].
  split; [constructor; [intros [E|[]]; lra|constructor; [intros []|constructor]]|].
  split; [cbn; lra|]. split; [cbn; lia|]. split; [intros p _; eexists; reflexivity|].
  split; split; cbn [mA mB gm_w length seq]; try reflexivity; try apply perm_swap.
  - intros i j Hij. destruct i as [|i]; [|lia]. destruct j as [|[|j]]; try lia. cbn [nth]. lra.
  - intros i j Hij. destruct i as [|i]; [|lia]. destruct j as [|[|j]]; try lia. cbn [nth]. lra.
Qed.
