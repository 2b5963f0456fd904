(** Property theorems about k_shortest (C10-C15). *)
From Verif Require Import Base BfmModel BfmSpec BfmProofs KShortModel KShortSpec KShortProofs.
From Coq Require Import Permutation.

(** C10: the first index list is a cheapest subset of the (available) states,
    and the first cost is its total plus eps. *)
Theorem C10_k_shortest_first : forall c si k, vec_scaled c -> sorts_desc c si -> 1 <= k ->
  exists p cost ps costs, k_shortest si c k = Ok (p :: ps, Fin cost :: costs) /\
    subset c p /\ available c p /\ (cost == total c p + machine_eps)%Q /\
    forall s, subset c s -> available c s -> (total c p <= total c s)%Q.
Proof.
  intros c si k Hsc [Hsi _] Hk.
  destruct (k_shortest_ok c si Hsc Hsi k Hk) as [path [q [paths [costs [E [_ [H1 [H2 [H3 [H4 _]]]]]]]]]].
  destruct (path_read c si Hsi path q H1 H2 H3) as [R1 [R2 R3]].
  exists (post c si path), q, (map (post c si) paths), costs. split; [exact E|]. split; [exact R1|]. split; [exact R2|].
  split; [exact R3|]. intros s Hs Ha. destruct (mid_of_path c si Hsi s Ha Hs) as [M1 M2].
  specialize (H4 _ M1). lra.
Qed.

(** C11: always finishes; as many costs as paths; at most k, at least one when
    k >= 1, none when k = 0.  (Entries that are nonzero but below machine
    epsilon end in IndexError.) *)
Theorem C11_k_shortest_size : forall c si k, sorts_desc c si ->
  (vec_scaled c -> exists ps costs, k_shortest si c k = Ok (ps, costs) /\
     length ps = length costs /\ length ps <= k /\ (1 <= k -> 1 <= length ps)) /\
  k_shortest si c 0 = Ok ([], []) /\
  (1 <= k -> (exists i q, i < length c /\ entry c i = Fin q /\ ~ (q == 0)%Q /\ (Qabs q < machine_eps)%Q) ->
     k_shortest si c k = Err IndexErr).
Proof.
  intros c si k [Hsi _]. split.
  - intros Hsc. destruct k as [|k].
    { exists [], []. split; [reflexivity|]. simpl; split; [reflexivity|]. lia. }
    destruct (k_shortest_ok c si Hsc Hsi (S k)) as [path [q [paths [costs [E [_ [_ [_ [_ [_ [_ [H1 H2]]]]]]]]]]]]; [lia|].
    eexists _, _. split; [exact E|]. cbn [length]. rewrite map_length. split; [congruence|]. split; [exact H2|]. lia.
  - split; [reflexivity|]. intros Hk [i [q [Hi [Ei [Hq Hs]]]]]. unfold k_shortest. destruct (Nat.eqb_spec k 0) as [|_]; [lia|].
    cbn zeta. unfold k_helper. unfold bfm, bfm_helper.
    destruct (Nat.leb_spec (length c + 2) 0) as [|_]; [lia|]. destruct (Nat.eqb_spec (length c + 2) 1) as [|_]; [lia|].
    assert (Hin : In i si). { eapply Permutation_in; [symmetry; exact Hsi|]. apply in_seq. lia. }
    apply In_nth with (d := 0) in Hin as [j [Hj Ej]]. rewrite (si_len c si Hsi) in Hj.
    assert (Hov : length (arcs (length c + 2) (cost_pad (length c) (map (vec c) si)))
        < count_nonzero (length c + 2) (cost_pad (length c) (map (vec c) si))).
    { apply (small_entry_overrun _ _ 0 (S j) q); [lia|lia| |exact Hq|exact Hs].
      rewrite (G_state c si Hsi) by lia. cbn [Nat.sub]. rewrite Nat.sub_0_r, Ej. exact Ei. }
    apply Nat.ltb_lt in Hov. rewrite Hov. reflexivity.
Qed.

(** C12: every returned path is a duplicate-free list of valid indices. *)
Theorem C12_k_shortest_indices : forall c si k ps costs, vec_scaled c -> sorts_desc c si ->
  k_shortest si c k = Ok (ps, costs) -> forall p, In p ps -> subset c p.
Proof.
  intros c si k ps costs Hsc [Hsi _] E p Hp. destruct k as [|k]; [inversion E; subst; destruct Hp|].
  destruct (k_shortest_ok c si Hsc Hsi (S k)) as [path [q [paths [costs' [E' [Hg0 [H1 [H2 [H3 [_ [Hg _]]]]]]]]]]]; [lia|].
  rewrite E in E'. inversion E'; subst ps costs. destruct Hp as [<-|Hp].
  - apply (path_read c si Hsi path q H1 H2 H3).
  - apply in_map_iff in Hp as [x [<- Hx]]. apply (good_post c si Hsi). rewrite Forall_forall in Hg. auto.
Qed.

Definition fz (z : Z) : ext := Fin (inject_Z z).
(** C13 is false: costs [1,2], k = 4: the fourth answer is the single state 0
    (cost 1) with reported cost 3 + eps. *)
Theorem C13_k_shortest_cost_refuted : exists c si k ps costs i p cost,
  vec_scaled c /\ sorts_desc c si /\ k_shortest si c k = Ok (ps, costs) /\
  nth_error ps i = Some p /\ nth_error costs i = Some (Fin cost) /\
  ~ (cost == total c p + machine_eps)%Q.
Proof.
  exists [fz 1; fz 2], [1; 0], 4. eexists _, _. exists 3. eexists _, _. split; [|split; [|split; [vm_compute; reflexivity|
    split; [vm_compute; reflexivity|split; [vm_compute; reflexivity|]]]]].
  - intros i q Hi. simpl in Hi. do 2 (destruct i as [|i]; [intros E; vm_compute in E; inversion E; subst; right; vm_compute; discriminate|]). lia.
  - split; [apply perm_swap|]. repeat constructor. vm_compute. discriminate.
  - vm_compute. discriminate.
Qed.

(** C14 is false in all three parts: costs [1,2,3], k = 8: one path is returned
    twice, the costs are not in order, and the subset {0,1} (cost 3) is left
    out although an answer of reported cost 4 + eps is returned. *)
Theorem C14_k_shortest_ranked_refuted : exists c si k ps costs,
  vec_scaled c /\ sorts_desc c si /\ k_shortest si c k = Ok (ps, map Fin costs) /\
  ~ NoDup ps /\
  ~ ForallOrdPairs (fun a b => (a <= b)%Q) costs /\
  exists s cost, subset c s /\ available c s /\ (forall p, In p ps -> ~ Permutation s p) /\
    In cost costs /\ (total c s + machine_eps < cost)%Q.
Proof.
  exists [fz 1; fz 2; fz 3], [2; 1; 0], 8.
  remember (k_shortest [2;1;0] [fz 1; fz 2; fz 3] 8) as res eqn:E. vm_compute in E.
  match type of E with res = Ok (?a, ?b) => exists a, (map fin_val b) end.
  split; [|split; [|split; [exact E|split; [|split]]]].
  - intros i q Hi. simpl in Hi. do 3 (destruct i as [|i]; [intros E'; vm_compute in E'; inversion E'; subst; right; vm_compute; discriminate|]). lia.
  - split.
    + apply NoDup_Permutation; [repeat constructor; simpl; intuition lia | apply seq_NoDup |].
      intros x. rewrite in_seq. simpl. lia.
    + repeat constructor; vm_compute; discriminate.
  - intros H. inversion H as [|? ? H1 _]. apply H1. simpl. auto 10.
  - intros H. pose proof (FOP_nth _ _ H 4 5 _ _ eq_refl eq_refl ltac:(lia)) as H2. cbn beta in H2.
    vm_compute in H2. apply H2. reflexivity.
  - exists [0; 1]. eexists. split; [|split; [|split; [|split]]].
    + split; repeat constructor; simpl; intuition lia.
    + repeat constructor; eexists; reflexivity.
    + intros p Hp HP. apply Permutation_length in HP. simpl in Hp.
      repeat (destruct Hp as [<-|Hp]; [discriminate HP|]). exact Hp.
    + do 6 right. left. reflexivity.
    + vm_compute. reflexivity.
Qed.

(** C15 is false: with the single cost 0 and k = 2 only the empty subset is
    returned. *)
Theorem C15_k_shortest_zero_refuted : exists c si k ps costs s,
  vec_scaled c /\ sorts_desc c si /\ 2 ^ length c <= k /\ k_shortest si c k = Ok (ps, costs) /\
  subset c s /\ available c s /\ forall p, In p ps -> ~ Permutation s p.
Proof.
  exists [fz 0], [0], 2. eexists _, _, [0]. split; [|split; [|split; [|split; [vm_compute; reflexivity|split; [|split]]]]].
  - intros i q Hi. simpl in Hi. destruct i; [|lia]. intros E. vm_compute in E. inversion E. left. reflexivity.
  - split; [apply Permutation_refl|]. repeat constructor.
  - simpl. lia.
  - split; repeat constructor; simpl; intuition lia.
  - repeat constructor. eexists; reflexivity.
  - intros p [<-|[]] HP. apply Permutation_length in HP. discriminate.
Qed.
(** More generally: a state of cost 0 is on no returned path, whatever k. *)
Theorem C15_k_shortest_zero_never : forall c si k ps costs i, vec_scaled c -> sorts_desc c si ->
  k_shortest si c k = Ok (ps, costs) -> (exists q, entry c i = Fin q /\ (q == 0)%Q) ->
  forall p, In p ps -> ~ In i p.
Proof.
  intros c si k ps costs i Hsc [Hsi _] E [q0 [E0 H0]] p Hp Hip. destruct k as [|k]; [inversion E; subst; destruct Hp|].
  destruct (k_shortest_ok c si Hsc Hsi (S k)) as [path [q [paths [costs' [E' [Hg0 [_ [_ [_ [_ [Hg _]]]]]]]]]]]; [lia|].
  rewrite E in E'. inversion E'; subst ps costs.
  assert (Hgp : exists x, good c si x /\ p = post c si x).
  { destruct Hp as [<-|Hp]; [eauto|]. apply in_map_iff in Hp as [x [<- Hx]]. rewrite Forall_forall in Hg. eauto. }
  destruct Hgp as [x [Gx ->]]. destruct (good_live c si x i Gx Hip) as [q' [Eq' Hq']].
  rewrite E0 in Eq'. inversion Eq'; subst. contradiction.
Qed.
Print Assumptions C15_k_shortest_zero_never.

Print Assumptions C10_k_shortest_first.
Print Assumptions C11_k_shortest_size.
Print Assumptions C12_k_shortest_indices.
Print Assumptions C13_k_shortest_cost_refuted.
Print Assumptions C14_k_shortest_ranked_refuted.
Print Assumptions C15_k_shortest_zero_refuted.

(** The hypotheses of C10-C12 hold of a mixed vector (with an unavailable
    state), and the answer is the subset of the negative costs. *)
Example C10_ex : let c := [fz (-1); fz 2; Inf; fz (-3)] in let si := [2; 1; 0; 3] in
  vec_scaled c /\ sorts_desc c si /\
  exists costs, k_shortest si c 2 = Ok ([[0; 3]; [3]], costs).
Proof.
  cbn zeta. split; [|split].
  - intros i q Hi. simpl in Hi. do 4 (destruct i as [|i]; [intros E; vm_compute in E; inversion E; subst; right; vm_compute; discriminate|]). lia.
  - split.
    + apply NoDup_Permutation; [repeat constructor; simpl; intuition lia | apply seq_NoDup |].
      intros x. rewrite in_seq. simpl. lia.
    + repeat constructor; vm_compute; discriminate.
  - eexists. vm_compute. reflexivity.
Qed.
Example si_default_ex : si_default [fz (-1); fz 2; Inf; fz (-3)] = [2; 1; 0; 3].
Proof. vm_compute. reflexivity. Qed.
