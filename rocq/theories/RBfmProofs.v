(** Generated by mk_real.py from BfmProofs.v: the same over the real numbers. *)
(** Proofs about Bellman-Ford-Moore. *)
From Verif Require Import RBase RBfmModel RBfmSpec.

(** * Paths *)
Lemma path_cost_app G a x b :
  (path_cost G (a ++ x :: b) = path_cost G (a ++ [x]) + path_cost G (x :: b))%R.
Proof.
  induction a as [|u a IH].
  - cbn [app]. change (path_cost G [x]) with 0%R. lra.
  - destruct a as [|v a]; cbn [app] in *.
    + change (path_cost G (u :: x :: b)) with (fin_val (G u x) + path_cost G (x :: b))%R.
      change (path_cost G [u; x]) with (fin_val (G u x) + 0)%R. lra.
    + change (path_cost G (u :: v :: a ++ x :: b)) with (fin_val (G u v) + path_cost G (v :: a ++ x :: b))%R.
      change (path_cost G (u :: v :: a ++ [x])) with (fin_val (G u v) + path_cost G (v :: a ++ [x]))%R. lra.
Qed.
Lemma path_links_app G a x b :
  path_links G (a ++ x :: b) <-> path_links G (a ++ [x]) /\ path_links G (x :: b).
Proof.
  induction a as [|u a IH].
  - cbn [app]. change (path_links G [x]) with True. tauto.
  - destruct a as [|v a]; cbn [app] in *.
    + change (path_links G (u :: x :: b)) with (link G u x /\ path_links G (x :: b)).
      change (path_links G [u; x]) with (link G u x /\ True). tauto.
    + change (path_links G (u :: v :: a ++ x :: b)) with (link G u v /\ path_links G (v :: a ++ x :: b)).
      change (path_links G (u :: v :: a ++ [x])) with (link G u v /\ path_links G (v :: a ++ [x])). tauto.
Qed.
Lemma path_snoc_form n G s d p : is_path n G s d p -> exists a, p = a ++ [d].
Proof.
  intros [_ [_ [_ H]]]. destruct (rev p) as [|x l] eqn:E; [discriminate|]. inversion H; subst.
  exists (rev l). rewrite <- (rev_involutive p), E. reflexivity.
Qed.
Lemma path_cons_form n G s d p : is_path n G s d p -> exists a, p = s :: a.
Proof. intros [_ [_ [H _]]]. destruct p as [|x l]; [discriminate|]. inversion H; subst. eauto. Qed.
Lemma path_nil n G s : s < n -> is_path n G s s [s].
Proof. intros H. split; [repeat constructor; exact H|]. split; [exact I|]. split; reflexivity. Qed.
Lemma path_snoc n G s u v p : is_path n G s u p -> v < n -> link G u v ->
  is_path n G s v (p ++ [v]) /\ (path_cost G (p ++ [v]) = path_cost G p + fin_val (G u v))%R.
Proof.
  intros Hp Hv Hl. destruct (path_snoc_form _ _ _ _ _ Hp) as [a ->].
  destruct Hp as [H1 [H2 [H3 H4]]]. rewrite <- app_assoc. cbn [app]. split; [split; [|split; [|split]]|].
  - change [u; v] with ([u] ++ [v]). rewrite app_assoc. apply Forall_app. split; [exact H1|]. repeat constructor; exact Hv.
  - apply path_links_app. split; [exact H2|]. split; [exact Hl|exact I].
  - destruct a; cbn [app] in *; exact H3.
  - rewrite rev_app_distr. reflexivity.
  - rewrite path_cost_app. change (path_cost G [u; v]) with (fin_val (G u v) + 0)%R. lra.
Qed.
Lemma path_unsnoc n G s d p x : is_path n G s d (p ++ [x]) ->
  x = d /\ (p = [] /\ s = d \/
    exists u, is_path n G s u p /\ link G u d /\ (path_cost G (p ++ [d]) = path_cost G p + fin_val (G u d))%R).
Proof.
  intros [H1 [H2 [H3 H4]]]. rewrite rev_app_distr in H4. cbn [rev app hd_error] in H4. inversion H4; subst x.
  split; [reflexivity|]. destruct p as [|y p]; [left; cbn [app hd_error] in H3; inversion H3; auto|right].
  destruct (@exists_last _ (y :: p)) as [a [u E]]; [discriminate|]. rewrite E in *.
  exists u. rewrite <- app_assoc in H2. cbn [app] in H2. apply path_links_app in H2 as [H2 H2'].
  apply Forall_app in H1 as [H1 _].
  split; [split; [exact H1|split; [exact H2|split]]|].
  - rewrite <- app_assoc in H3. destruct a; cbn [app] in *; exact H3.
  - rewrite rev_app_distr. reflexivity.
  - split; [exact (proj1 H2')|]. rewrite <- app_assoc. cbn [app]. rewrite path_cost_app.
    change (path_cost G [u; d]) with (fin_val (G u d) + 0)%R. lra.
Qed.

(** Joining paths and removing a cycle. *)
Lemma path_join n G s x d a b : is_path n G s x (a ++ [x]) -> is_path n G x d (x :: b) ->
  is_path n G s d (a ++ x :: b).
Proof.
  intros [A1 [A2 [A3 A4]]] [B1 [B2 [B3 B4]]]. split; [|split; [|split]].
  - apply Forall_app in A1 as [A1 _]. apply Forall_app. split; assumption.
  - apply path_links_app. split; assumption.
  - destruct a; cbn [app] in *; exact A3.
  - rewrite rev_app_distr. destruct (rev (x :: b)); [discriminate|]. exact B4.
Qed.
Lemma path_split n G s x d a b : is_path n G s d (a ++ x :: b) ->
  is_path n G s x (a ++ [x]) /\ is_path n G x d (x :: b).
Proof.
  intros [A1 [A2 [A3 A4]]]. apply path_links_app in A2 as [A2 A2']. apply Forall_app in A1 as [A1 A1'].
  inversion A1' as [|? ? Hx Hb]; subst. split; (split; [|split; [|split]]); auto.
  - apply Forall_app. split; [assumption|]. repeat constructor; assumption.
  - destruct a; cbn [app] in *; exact A3.
  - rewrite rev_app_distr. reflexivity.
  - rewrite rev_app_distr in A4. destruct (rev (x :: b)) eqn:E; [|exact A4].
    apply (f_equal (@length nat)) in E. rewrite rev_length in E. discriminate.
Qed.

Lemma shorten n G s d : no_negative_cycle n G -> forall k p, length p <= k -> is_path n G s d p ->
  exists p', is_path n G s d p' /\ length p' <= n /\ (path_cost G p' <= path_cost G p)%R.
Proof.
  intros Hn. induction k as [|k IH]; intros p Hk Hp.
  - destruct Hp as [_ [_ [H _]]]. destruct p; [discriminate|simpl in Hk; lia].
  - destruct (Nat.le_gt_cases (length p) n) as [Hle|Hgt].
    { exists p. split; [exact Hp|]. split; [exact Hle|]. lra. }
    assert (Hd : ~ NoDup p).
    { intros Hd. assert (length p <= length (seq 0 n)); [|rewrite seq_length in *; lia].
      apply NoDup_incl_length; [exact Hd|]. intros v Hv. destruct Hp as [Hf _]. rewrite Forall_forall in Hf.
      apply in_seq. specialize (Hf v Hv). lia. }
    assert (Hs : exists a x b c, p = a ++ x :: b ++ x :: c).
    { clear - Hd. induction p as [|y p IHp]; [exfalso; apply Hd; constructor|].
      destruct (in_dec Nat.eq_dec y p) as [Hi|Hi].
      - apply in_split in Hi as [b [c ->]]. exists [], y, b, c. reflexivity.
      - destruct IHp as [a [x [b [c ->]]]]; [intros Hnd; apply Hd; constructor; assumption|].
        exists (y :: a), x, b, c. reflexivity. }
    destruct Hs as [a [x [b [c ->]]]].
    destruct (path_split _ _ _ _ _ _ _ Hp) as [P1 P2].
    change (x :: b ++ x :: c) with ((x :: b) ++ x :: c) in P2.
    destruct (path_split _ _ _ _ _ _ _ P2) as [P3 P4].
    pose proof (path_join _ _ _ _ _ _ _ P1 P4) as P5.
    assert (Hlen : length (a ++ x :: c) <= k).
    { rewrite app_length in Hk |- *. cbn [length] in Hk |- *. rewrite app_length in Hk. cbn [length] in Hk. lia. }
    destruct (IH _ Hlen P5) as [p' [Q1 [Q2 Q3]]].
    exists p'. split; [exact Q1|]. split; [exact Q2|].
    rewrite path_cost_app in Q3 |- *. change (x :: b ++ x :: c) with ((x :: b) ++ x :: c).
    rewrite (path_cost_app G (x :: b) x c). specialize (Hn _ _ P3). lra.
Qed.

(** * Relaxation *)
Definition ele (e : ext) (q : R) : Prop := match e with Fin d => (d <= q)%R | Inf => False end.
Definition dle (e e' : ext) : Prop := forall q, ele e' q -> ele e q.

Section Run.
Variables (n : nat) (G : nat -> nat -> ext) (r : nat).
Hypothesis Hr : r < n.
Hypothesis Hnn : no_negative_cycle n G.
Hypothesis Hws : well_scaled n G.

(** The arc list holds every link (and arcs of weight inf). *)
Lemma arcs_in u v w : In (u, v, w) (arcs n G) <-> u < n /\ v < n /\ w = G u v /\ is_arc w = true.
Proof.
  unfold arcs. rewrite in_flat_map. split.
  - intros [v' [Hv H]]. apply in_map_iff in H as [u' [E H]]. inversion E; subst.
    apply filter_In in H as [Hu H]. apply in_seq in Hv, Hu. split; [lia|]. split; [lia|]. auto.
  - intros [Hu [Hv [-> H]]]. exists v. split; [apply in_seq; lia|]. apply in_map_iff. exists u.
    split; [reflexivity|]. apply filter_In. split; [apply in_seq; lia|exact H].
Qed.
Lemma link_arc u v : u < n -> v < n -> link G u v -> In (u, v, G u v) (arcs n G).
Proof.
  intros Hu Hv [w [E Hw]]. apply arcs_in. split; [exact Hu|]. split; [exact Hv|]. split; [reflexivity|].
  rewrite E. cbn [is_arc]. apply Rleb_le. destruct (Hws u v w Hu Hv E) as [H|H]; [contradiction|exact H].
Qed.
Lemma arc_link u v q : In (u, v, Fin q) (arcs n G) -> u < n /\ v < n /\ link G u v /\ G u v = Fin q.
Proof.
  intros H. apply arcs_in in H as [Hu [Hv [E H]]]. split; [exact Hu|]. split; [exact Hv|].
  split; [|auto]. exists q. split; [auto|]. cbn [is_arc] in H. apply Rleb_le in H. intros H0.
  rewrite H0, Rabs_R0 in H. unfold eps in H. lra.
Qed.
Lemma count_arcs : count_nonzero n G = length (arcs n G).
Proof.
  unfold count_nonzero, arcs.
  assert (H : forall l, incl l (seq 0 n) ->
    length (flat_map (fun v => filter (fun u => nonzero (G u v)) (seq 0 n)) l) =
    length (flat_map (fun v => map (fun u => (u, v, G u v)) (filter (fun u => is_arc (G u v)) (seq 0 n))) l)).
  { induction l as [|v l IH]; intros Hl; [reflexivity|]. cbn [flat_map]. rewrite !app_length, map_length.
    rewrite IH by (intros x Hx; apply Hl; right; exact Hx). f_equal. f_equal. apply filter_ext_in.
    intros u Hu. assert (Hv : In v (seq 0 n)) by (apply Hl; left; reflexivity).
    apply in_seq in Hu, Hv. destruct (G u v) as [q|] eqn:E; [|reflexivity]. cbn [nonzero is_arc].
    destruct (Reqb q 0) eqn:E0; symmetry.
    - cbn [negb]. apply Reqb_eq in E0. apply Rleb_gt. rewrite E0, Rabs_R0. unfold eps. lra.
    - apply Reqb_neq in E0. apply Rleb_le. destruct (Hws u v q) as [H|H]; auto; [lia|lia|contradiction]. }
  apply H. apply incl_refl.
Qed.

(** * The invariant of the relaxation loop *)
Inductive chain (p : nat -> nat) : nat -> Prop :=
| ch_root : chain p r
| ch_step v : v <> r -> chain p (p v) -> chain p v.

Record inv (p : nat -> nat) (D : nat -> ext) : Prop := {
  i_real : forall v q, v < n -> D v = Fin q -> exists l, is_path n G r v l /\ (path_cost G l = q)%R;
  i_root : exists q, D r = Fin q /\ (q = 0)%R;
  i_pred : forall v q, v < n -> v <> r -> D v = Fin q ->
    p v < n /\ link G (p v) v /\ exists d, D (p v) = Fin d /\ (d + fin_val (G (p v) v) <= q)%R;
  i_tree : forall v q, v < n -> D v = Fin q -> chain p v
}.

(** Either v is not on the predecessor chain of u, or the chain from v to u is
    a path of cost at most D u - D v. *)
Inductive avoids (p : nat -> nat) (x : nat) : nat -> Prop :=
| av_root : x <> r -> avoids p x r
| av_step v : v <> r -> v <> x -> avoids p x (p v) -> avoids p x v.
Lemma chain_cases p D x dx : inv p D -> x < n -> D x = Fin dx -> forall u, chain p u ->
  forall du, u < n -> D u = Fin du ->
  avoids p x u \/ exists l, is_path n G x u l /\ (dx + path_cost G l <= du)%R.
Proof.
  intros I Hx Ex u Hc. induction Hc as [|u Hur Hc IH]; intros du Hu Eu.
  - destruct (Nat.eq_dec x r) as [->|Hn]; [|left; constructor; exact Hn].
    right. exists [r]. split; [apply path_nil; exact Hx|]. change (path_cost G [r]) with 0%R.
    rewrite Ex in Eu. inversion Eu; subst. lra.
  - destruct (Nat.eq_dec u x) as [->|Hn].
    { right. exists [x]. split; [apply path_nil; exact Hx|]. change (path_cost G [x]) with 0%R.
      rewrite Ex in Eu. inversion Eu; subst. lra. }
    destruct (i_pred _ _ I u du Hu Hur Eu) as [Hp [Hl [d [Ed Hd]]]].
    destruct (IH d Hp Ed) as [A|[l [L1 L2]]].
    + left. constructor; assumption.
    + right. destruct (path_snoc _ _ _ _ _ _ L1 Hu Hl) as [S1 S2].
      exists (l ++ [u]). split; [exact S1|]. rewrite S2. lra.
Qed.
Lemma avoids_chain p x y u : avoids p x u -> chain (upd p x y) u.
Proof.
  induction 1 as [Hn|v H1 H2 H3 IH]; [constructor|]. constructor; [exact H1|]. rewrite upd_other by exact H2. exact IH.
Qed.

Lemma relax_inv p D opt a : In a (arcs n G) -> inv p D ->
  let '(p', D', opt') := relax (p, D, opt) a in
  inv p' D' /\ (forall v, dle (D' v) (D v)) /\
  (let '(u, v, w) := a in forall q w', w = Fin w' -> ele (D u) q -> ele (D' v) (q + w')) /\
  (opt' = true -> opt = true /\ p' = p /\ D' = D).
Proof.
  intros Ha I. destruct a as [[u v] w]. cbn [relax].
  destruct (egt (D v) (eadd (D u) w)) eqn:E.
  2:{ split; [exact I|]. split; [intros v' q H; exact H|]. split; [|auto].
      intros q w' -> Hq. destruct (D u) as [du|]; [|destruct Hq]. cbn [eadd ele] in *.
      destruct (D v) as [dv|]; cbn [egt ele] in *; [|discriminate]. apply Rltb_ge in E. lra. }
  destruct (D u) as [du|] eqn:Eu; [|destruct (D v); discriminate].
  destruct w as [w|]; [|destruct (D v); discriminate]. cbn [eadd] in *.
  destruct (arc_link _ _ _ Ha) as [Hu [Hv [Hl Hw]]].
  assert (Hdec : forall q, D v = Fin q -> (du + w < q)%R).
  { intros q Eq. rewrite Eq in E. cbn [egt] in E. apply Rltb_lt in E. exact E. }
  destruct (i_real _ _ I u du Hu Eu) as [lu [Lu1 Lu2]].
  destruct (path_snoc _ _ _ _ _ _ Lu1 Hv Hl) as [Lv1 Lv2]. rewrite Hw in Lv2. cbn [fin_val] in Lv2.
  (* the root is never relaxed *)
  assert (Hvr : v <> r).
  { intros ->. destruct (i_root _ _ I) as [q [Eq Hq]]. specialize (Hdec q Eq).
    specialize (Hnn _ _ Lv1). lra. }
  (* v is not on the chain of u *)
  assert (Hav : avoids p v u).
  { destruct (D v) as [dv|] eqn:Edv.
    - destruct (chain_cases p D v dv I Hv Edv u (i_tree _ _ I u du Hu Eu) du Hu Eu) as [A|[l [L1 L2]]]; [exact A|exfalso].
      specialize (Hdec dv eq_refl). destruct (path_snoc _ _ _ _ _ _ L1 Hv Hl) as [S1 S2].
      rewrite Hw in S2. cbn [fin_val] in S2. specialize (Hnn _ _ S1). lra.
    - (* D v = Inf: no node of u's chain has infinite distance *)
      pose proof (i_tree _ _ I u du Hu Eu) as Hc. clear - Hc Hu Eu I Edv Hr Hvr. revert du Hu Eu.
      induction Hc as [|x Hx Hc IH]; intros du Hu Eu; [constructor; exact Hvr|].
      constructor; [exact Hx|congruence|]. destruct (i_pred _ _ I x du Hu Hx Eu) as [Hp [_ [d [Ed _]]]]. eapply IH; eauto. }
  assert (Huv : u <> v).
  { intros ->. specialize (Hdec du Eu). assert (Hc : is_path n G v v [v; v]).
    { split; [repeat constructor; assumption|]. split; [split; [exact Hl|exact Logic.I]|]. split; reflexivity. }
    specialize (Hnn _ _ Hc). change (path_cost G [v; v]) with (fin_val (G v v) + 0)%R in Hnn. rewrite Hw in Hnn.
    cbn [fin_val] in Hnn. lra. }
  split; [|split; [|split]].
  - constructor.
    + intros x q Hx Hq. destruct (Nat.eq_dec x v) as [->|Hn].
      * rewrite upd_same in Hq. inversion Hq; subst q. exists (lu ++ [v]). split; [exact Lv1|]. rewrite Lv2. lra.
      * rewrite upd_other in Hq by exact Hn. apply (i_real _ _ I x q Hx Hq).
    + rewrite upd_other by auto. apply (i_root _ _ I).
    + intros x q Hx Hxr Hq. destruct (Nat.eq_dec x v) as [->|Hn].
      * rewrite upd_same in Hq. rewrite !(upd_same p). inversion Hq; subst q. split; [exact Hu|]. split; [exact Hl|].
        exists du. rewrite upd_other by exact Huv. split; [exact Eu|]. rewrite Hw. cbn [fin_val]. lra.
      * rewrite upd_other in Hq by exact Hn. rewrite !(upd_other p) by exact Hn.
        destruct (i_pred _ _ I x q Hx Hxr Hq) as [Hp [Hl' [d [Ed Hd]]]].
        split; [exact Hp|]. split; [exact Hl'|].
        destruct (Nat.eq_dec (p x) v) as [Epv|Hnp].
        -- exists (du + w)%R. rewrite Epv, upd_same. split; [reflexivity|]. rewrite Epv in Ed, Hd.
           specialize (Hdec d Ed). lra.
        -- exists d. rewrite upd_other by exact Hnp. auto.
    + intros x q Hx Hq.
      assert (Hcu : chain (upd p v u) v).
      { constructor; [exact Hvr|]. rewrite upd_same. apply avoids_chain. exact Hav. }
      destruct (Nat.eq_dec x v) as [->|Hn]; [exact Hcu|].
      rewrite upd_other in Hq by exact Hn. pose proof (i_tree _ _ I x q Hx Hq) as Hc.
      clear - Hc Hcu. induction Hc as [|y Hy Hc IH]; [constructor|].
      destruct (Nat.eq_dec y v) as [->|Hn]; [exact Hcu|]. constructor; [exact Hy|]. rewrite upd_other by exact Hn. exact IH.
  - intros x q Hq. destruct (Nat.eq_dec x v) as [->|Hn].
    + rewrite upd_same. destruct (D v) as [dv|]; [|destruct Hq]. specialize (Hdec dv eq_refl). cbn [ele] in *. lra.
    + rewrite upd_other by exact Hn. exact Hq.
  - intros q w' Ew Hq. inversion Ew; subst w'. rewrite upd_same. cbn [ele] in *. lra.
  - discriminate.
Qed.

Lemma fold_inv : forall as_ p D opt, incl as_ (arcs n G) -> inv p D ->
  let '(p', D', opt') := fold_left relax as_ (p, D, opt) in
  inv p' D' /\ (forall v, dle (D' v) (D v)) /\
  (forall u v w q, In (u, v, Fin w) as_ -> ele (D u) q -> ele (D' v) (q + w)) /\
  (opt' = true -> opt = true /\ p' = p /\ D' = D).
Proof.
  induction as_ as [|a as_ IH]; intros p D opt Hi I; cbn [fold_left].
  - split; [exact I|]. split; [intros v q H; exact H|]. split; [intros u v w q []|auto].
  - pose proof (relax_inv p D opt a (Hi a (or_introl eq_refl)) I) as H1.
    destruct (relax (p, D, opt) a) as [[p1 D1] o1]. destruct H1 as [I1 [M1 [R1 O1]]].
    pose proof (IH p1 D1 o1 (fun x Hx => Hi x (or_intror Hx)) I1) as H2.
    destruct (fold_left relax as_ (p1, D1, o1)) as [[p2 D2] o2]. destruct H2 as [I2 [M2 [R2 O2]]].
    split; [exact I2|]. split; [intros v q H; apply M2, M1, H|]. split.
    + intros u v w q [->|Hin] Hq.
      * apply M2. apply (R1 q w eq_refl Hq).
      * apply (R2 u v w q Hin). apply M1. exact Hq.
    + intros Ho. destruct (O2 Ho) as [-> [-> ->]]. auto.
Qed.

(** D is below every path with at most k links. *)
Definition below (k : nat) (D : nat -> ext) : Prop :=
  forall l v, is_path n G r v l -> length l <= S k -> ele (D v) (path_cost G l).

Lemma below_step k D D' : below k D -> (forall v, dle (D' v) (D v)) ->
  (forall u v w q, In (u, v, Fin w) (arcs n G) -> ele (D u) q -> ele (D' v) (q + w)) -> below (S k) D'.
Proof.
  intros B M R l v Hl Hlen. destruct (path_snoc_form _ _ _ _ _ Hl) as [a ->].
  destruct (path_unsnoc _ _ _ _ _ _ Hl) as [_ [[-> Es]|[u [Pu [Lk Ec]]]]].
  - cbn [app]. rewrite <- Es. apply M. apply B; [apply path_nil; exact Hr|simpl; lia].
  - rewrite app_length in Hlen. simpl in Hlen.
    assert (Hu : u < n).
    { destruct (path_snoc_form _ _ _ _ _ Pu) as [b ->]. destruct Pu as [Hf _]. apply Forall_app in Hf as [_ Hf]. inversion Hf; assumption. }
    assert (Hv : v < n) by (destruct Hl as [Hf _]; apply Forall_app in Hf as [_ Hf]; inversion Hf; assumption).
    pose proof (link_arc u v Hu Hv Lk) as Ha. pose proof Lk as [w [Ew _]]. rewrite Ew in Ha.
    specialize (R u v w (path_cost G a) Ha (B a u Pu ltac:(lia))).
    destruct (D' v) as [d|]; cbn [ele] in *; [|exact R]. rewrite Ec, Ew. cbn [fin_val]. exact R.
Qed.
Lemma below_le k k' D : below k D -> k' <= k -> below k' D.
Proof. intros B H l v Hl Hlen. apply B; [exact Hl|lia]. Qed.

Lemma rounds_spec : forall k j p D, inv p D -> below j D ->
  let '(p', D') := rounds k (arcs n G) p D in inv p' D' /\ below (j + k) D'.
Proof.
  induction k as [|k IH]; intros j p D I B; cbn [rounds].
  - rewrite Nat.add_0_r. auto.
  - pose proof (fold_inv (arcs n G) p D true (incl_refl _) I) as H.
    destruct (fold_left relax (arcs n G) (p, D, true)) as [[p1 D1] o1]. destruct H as [I1 [M1 [R1 O1]]].
    destruct o1.
    + split; [exact I1|]. destruct (O1 eq_refl) as [_ [_ ->]].
      assert (Hall : forall i, below (j + i) D).
      { induction i as [|i IHi]; [rewrite Nat.add_0_r; exact B|]. rewrite Nat.add_succ_r.
        eapply below_step; eassumption. }
      apply Hall.
    + rewrite Nat.add_succ_r. change (S (j + k)) with (S j + k). apply IH; [exact I1|].
      eapply below_step; eassumption.
Qed.

Lemma init_inv : inv (fun _ => 0) (upd (fun _ => Inf) r (Fin 0)).
Proof.
  constructor.
  - intros v q Hv E. unfold upd in E. destruct (Nat.eqb_spec v r) as [->|]; [|discriminate].
    inversion E; subst. exists [r]. split; [apply path_nil; exact Hr|]. reflexivity.
  - exists 0%R. rewrite upd_same. split; reflexivity.
  - intros v q Hv Hn E. rewrite upd_other in E by exact Hn. discriminate.
  - intros v q Hv E. unfold upd in E. destruct (Nat.eqb_spec v r) as [->|]; [|discriminate]. constructor.
Qed.
Lemma init_below : below 0 (upd (fun _ => Inf) r (Fin 0)).
Proof.
  intros l v Hl Hlen. destruct (path_cons_form _ _ _ _ _ Hl) as [a ->]. simpl in Hlen.
  destruct a; [|simpl in Hlen; lia]. destruct Hl as [_ [_ [_ H]]]. cbn in H. inversion H; subst v.
  rewrite upd_same. cbn [ele]. apply Rle_refl.
Qed.

(** * Reconstructing the path *)
Inductive depth (p : nat -> nat) : nat -> nat -> Prop :=
| dp_root : depth p r 0
| dp_step v k : v <> r -> depth p (p v) k -> depth p v (S k).
Lemma depth_det p v k : depth p v k -> forall k', depth p v k' -> k = k'.
Proof.
  induction 1 as [|v k Hv Hd IH]; intros k' H'; inversion H' as [|v' k0 Hv' Hd']; subst; try congruence.
  f_equal. auto.
Qed.
Lemma trace_spec p D : inv p D -> forall v k, depth p v k -> forall q fuel acc, v < n -> D v = Fin q -> k <= fuel ->
  exists l, trace fuel p r v acc = Ok (l ++ acc) /\ is_path n G r v l /\ (path_cost G l <= q)%R.
Proof.
  intros I v k Hd. induction Hd as [|v k Hv Hd IH]; intros q fuel acc Hvn Eq Hk.
  - exists [r]. split; [destruct fuel; cbn [trace]; rewrite Nat.eqb_refl; reflexivity|].
    split; [apply path_nil; exact Hr|]. destruct (i_root _ _ I) as [q0 [E0 H0]].
    rewrite E0 in Eq. inversion Eq; subst. change (path_cost G [r]) with 0%R. lra.
  - destruct fuel as [|fuel]; [lia|]. cbn [trace]. destruct (Nat.eqb_spec v r) as [|_]; [contradiction|].
    destruct (i_pred _ _ I v q Hvn Hv Eq) as [Hp [Hl [d [Ed Hdq]]]].
    destruct (IH d fuel (v :: acc) Hp Ed ltac:(lia)) as [l [T1 [T2 T3]]].
    exists (l ++ [v]). rewrite T1, <- app_assoc. split; [reflexivity|].
    destruct (path_snoc _ _ _ _ _ _ T2 Hvn Hl) as [S1 S2]. split; [exact S1|]. rewrite S2. lra.
Qed.
Lemma chain_depth p D : inv p D -> forall v, chain p v -> forall q, v < n -> D v = Fin q ->
  exists k, depth p v k /\ k < n.
Proof.
  intros I v Hc q Hv Eq.
  assert (H : exists k l, depth p v k /\ length l = S k /\ NoDup l /\ Forall (fun x => x < n) l /\
     (forall x, In x l -> exists j, depth p x j /\ j <= k)).
  { revert q Hv Eq. induction Hc as [|v Hvr Hc IH]; intros q Hv Eq.
    - exists 0, [r]. split; [constructor|]. split; [reflexivity|]. split; [repeat constructor; intros []|].
      split; [repeat constructor; exact Hv|]. intros x [<-|[]]. exists 0. split; [constructor|lia].
    - destruct (i_pred _ _ I v q Hv Hvr Eq) as [Hp [_ [d [Ed _]]]].
      destruct (IH d Hp Ed) as [k [l [D1 [D2 [D3 [D4 D5]]]]]].
      exists (S k), (v :: l). split; [constructor; assumption|]. split; [simpl; congruence|].
      split; [|split].
      + constructor; [|exact D3]. intros Hin. destruct (D5 v Hin) as [j [J1 J2]].
        pose proof (depth_det _ _ _ J1 (S k) (dp_step _ _ _ Hvr D1)). lia.
      + constructor; assumption.
      + intros x [<-|Hx]; [exists (S k); split; [constructor; assumption|lia]|].
        destruct (D5 x Hx) as [j [J1 J2]]. exists j. split; [exact J1|lia]. }
  destruct H as [k [l [D1 [D2 [D3 [D4 _]]]]]]. exists k. split; [exact D1|].
  assert (length l <= length (seq 0 n)).
  { apply NoDup_incl_length; [exact D3|]. intros x Hx. rewrite Forall_forall in D4. apply in_seq.
    specialize (D4 x Hx). lia. }
  rewrite seq_length in *. lia.
Qed.

Lemma bfm_spec dst : dst < n -> 2 <= n -> exists d path, bfm n G r dst = Ok (d, path) /\
  match d with
  | Inf => path = [] /\ forall l, ~ is_path n G r dst l
  | Fin q => is_path n G r dst path /\ (path_cost G path = q)%R /\
             forall l, is_path n G r dst l -> (q <= path_cost G l)%R
  end.
Proof.
  intros Hd Hn2. unfold bfm, bfm_helper.
  destruct (Nat.leb_spec n r) as [|_]; [lia|]. destruct (Nat.eqb_spec n 1) as [|_]; [lia|].
  rewrite count_arcs, Nat.ltb_irrefl. cbn [bind].
  pose proof (rounds_spec (n - 1) 0 _ _ init_inv init_below) as H.
  destruct (rounds (n - 1) (arcs n G) (fun _ => 0) (upd (fun _ => Inf) r (Fin 0))) as [p D].
  destruct H as [I B]. cbn [Nat.add] in B. destruct (Nat.leb_spec n dst) as [|_]; [lia|].
  assert (Hlow : forall l, is_path n G r dst l -> ele (D dst) (path_cost G l)).
  { intros l Hl. destruct (shorten n G r dst Hnn (length l) l (le_n _) Hl) as [l' [L1 [L2 L3]]].
    specialize (B l' dst L1 ltac:(lia)). destruct (D dst) as [d|]; cbn [ele] in *; [lra|exact B]. }
  destruct (D dst) as [d|] eqn:Ed.
  - destruct (chain_depth p D I dst (i_tree _ _ I dst d Hd Ed) d Hd Ed) as [k [K1 K2]].
    destruct (trace_spec p D I dst k K1 d n [] Hd Ed ltac:(lia)) as [l [T1 [T2 T3]]].
    rewrite T1, app_nil_r. cbn [bind]. exists (Fin d), l. split; [reflexivity|]. split; [exact T2|].
    specialize (Hlow l T2) as Hl. cbn [ele] in Hl. split; [lra|]. intros l' Hl'. exact (Hlow l' Hl').
  - exists Inf, []. split; [reflexivity|]. split; [reflexivity|]. intros l Hl. exact (Hlow l Hl).
Qed.
End Run.

(** * Sufficient conditions for the absence of negative cycles *)
Lemma potential_no_negative_cycle n G (h : nat -> R) :
  (forall u v w, u < n -> v < n -> G u v = Fin w -> ~ (w = 0)%R -> (0 <= w + h u - h v)%R) ->
  no_negative_cycle n G.
Proof.
  intros H.
  assert (K : forall p s, Forall (fun v => v < n) (s :: p) -> path_links G (s :: p) ->
     (h (last (s :: p) 0%nat) - h s <= path_cost G (s :: p))%R).
  { induction p as [|v p IH]; intros s Hf Hl.
    - cbn [last]. change (path_cost G [s]) with 0%R. lra.
    - inversion Hf as [|? ? Hs Hf']; subst. inversion Hf' as [|? ? Hv _]; subst. destruct Hl as [[w [Ew Hw]] Hl].
      specialize (IH v Hf' Hl). specialize (H s v w Hs Hv Ew Hw).
      change (last (s :: v :: p) 0%nat) with (last (v :: p) 0%nat).
      change (path_cost G (s :: v :: p)) with (fin_val (G s v) + path_cost G (v :: p))%R. rewrite Ew. cbn [fin_val]. lra. }
  intros v p Hp. destruct (path_snoc_form _ _ _ _ _ Hp) as [a E]. destruct (path_cons_form _ _ _ _ _ Hp) as [b E'].
  destruct Hp as [H1 [H2 _]]. rewrite E' in H1, H2. specialize (K b v H1 H2). rewrite <- E' in K.
  rewrite E in K at 1. rewrite last_last in K. lra.
Qed.
Lemma dag_path_increasing n G : (forall u v, u < n -> v < n -> link G u v -> u < v) ->
  forall p s, Forall (fun v => v < n) (s :: p) -> path_links G (s :: p) -> Forall (fun v => s < v) p.
Proof.
  intros H. induction p as [|v p IH]; intros s Hf Hl; [constructor|].
  inversion Hf as [|? ? Hs Hf']; subst. inversion Hf' as [|? ? Hv _]; subst. destruct Hl as [Hl1 Hl].
  pose proof (H s v Hs Hv Hl1) as Hsv. constructor; [exact Hsv|].
  eapply Forall_impl; [|apply (IH v Hf' Hl)]. intros x Hx. cbn beta in Hx. lia.
Qed.
Lemma dag_no_negative_cycle n G : (forall u v, u < n -> v < n -> link G u v -> u < v) -> no_negative_cycle n G.
Proof.
  intros H v p Hp. destruct (path_cons_form _ _ _ _ _ Hp) as [b ->]. destruct Hp as [H1 [H2 [_ H4]]].
  pose proof (dag_path_increasing n G H b v H1 H2) as Hi.
  destruct b as [|x b]; [change (path_cost G [v]) with 0%R; lra|]. exfalso.
  assert (Hin : In v (x :: b)).
  { destruct (rev (x :: b)) as [|y l] eqn:E.
    - apply (f_equal (@length nat)) in E. rewrite rev_length in E. discriminate.
    - apply in_rev. rewrite E. change (rev (v :: x :: b)) with (rev (x :: b) ++ [v]) in H4. rewrite E in H4.
      cbn in H4. inversion H4. left; reflexivity. }
  rewrite Forall_forall in Hi. specialize (Hi v Hin). lia.
Qed.

(** A nonzero entry below eps makes the arc list shorter than the count. *)
Lemma filter_len_le {A} (f g : A -> bool) l : (forall x, f x = true -> g x = true) ->
  length (filter f l) <= length (filter g l).
Proof.
  intros H. induction l as [|x l IH]; [reflexivity|]. cbn [filter]. specialize (H x).
  destruct (f x); [rewrite H by reflexivity; simpl; lia|]. destruct (g x); simpl; lia.
Qed.
Lemma filter_len_lt {A} (f g : A -> bool) l x : (forall x, f x = true -> g x = true) -> In x l ->
  f x = false -> g x = true -> length (filter f l) < length (filter g l).
Proof.
  intros H Hx Fx Gx. induction l as [|y l IH]; [destruct Hx|]. destruct Hx as [->|Hx].
  - cbn [filter]. rewrite Fx, Gx. pose proof (filter_len_le f g l H). simpl. lia.
  - specialize (IH Hx). cbn [filter]. specialize (H y). destruct (f y); [rewrite H by reflexivity; simpl; lia|].
    destruct (g y); simpl; lia.
Qed.
Lemma arc_nonzero e : is_arc e = true -> nonzero e = true.
Proof.
  destruct e as [q|]; [|auto]. cbn. intros H. apply Rleb_le in H. apply negb_true_iff, Reqb_neq. intros E.
  rewrite E, Rabs_R0 in H. unfold eps in H. lra.
Qed.
Lemma small_entry_overrun n G u v q : u < n -> v < n -> G u v = Fin q -> ~ (q = 0)%R -> (Rabs q < eps)%R ->
  length (arcs n G) < count_nonzero n G.
Proof.
  intros Hu Hv E Hq Hs. unfold arcs, count_nonzero.
  assert (Hle : forall l, length (flat_map (fun v => map (fun u => (u, v, G u v)) (filter (fun u => is_arc (G u v)) (seq 0 n))) l)
     <= length (flat_map (fun v => filter (fun u => nonzero (G u v)) (seq 0 n)) l)).
  { induction l as [|x l IH]; [reflexivity|]. cbn [flat_map]. rewrite !app_length, map_length.
    pose proof (filter_len_le (fun u => is_arc (G u x)) (fun u => nonzero (G u x)) (seq 0 n) (fun u => arc_nonzero _)).
    lia. }
  assert (Hin : In v (seq 0 n)) by (apply in_seq; lia). revert Hin. generalize (seq 0 n) at 1 3 5.
  induction l as [|x l IH]; intros Hin; [destruct Hin|]. cbn [flat_map]. rewrite !app_length, map_length.
  destruct Hin as [->|Hin].
  - specialize (Hle l).
    pose proof (filter_len_lt (fun u => is_arc (G u v)) (fun u => nonzero (G u v)) (seq 0 n) u (fun u => arc_nonzero _)) as H.
    assert (length (filter (fun u => is_arc (G u v)) (seq 0 n)) < length (filter (fun u => nonzero (G u v)) (seq 0 n))); [|lia].
    apply H; [apply in_seq; lia| |]; rewrite E; cbn.
    + apply Rleb_gt. exact Hs.
    + apply negb_true_iff, Reqb_neq. exact Hq.
  - specialize (IH Hin).
    pose proof (filter_len_le (fun u => is_arc (G u x)) (fun u => nonzero (G u x)) (seq 0 n) (fun u => arc_nonzero _)). lia.
Qed.
