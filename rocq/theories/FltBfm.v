(** Bellman-Ford-Moore with an arbitrary monotone addition of costs: the
    invariant of RBfmProofs.v with running sums in place of exact costs. *)
From Verif Require Import RBase RBfmModel RBfmSpec RBfmProofs RKShortModel FltBfmModel FltBfmSpec.

Section Walk.
Context (add : R -> R -> R) (ok : R -> Prop) (Hadd : cost_addition add ok).
Local Notation ws := (walk_sum add).
Lemma ok0 : ok 0%R.
Proof. apply Hadd. Qed.
Lemma ok_add a w : ok a -> ok (add a w).
Proof. apply Hadd. Qed.
Lemma add_mono a b w : ok a -> ok b -> (a <= b)%R -> (add a w <= add b w)%R.
Proof. apply Hadd. Qed.
Lemma ws_cons x G u v t : ws x G (u :: v :: t) = ws (add x (fin_val (G u v))) G (v :: t).
Proof. reflexivity. Qed.
Lemma ws_ok G : forall p x, ok x -> ok (ws x G p).
Proof.
  induction p as [|u [|v t] IH]; intros x Hx; [exact Hx|exact Hx|]. rewrite ws_cons. apply IH, ok_add, Hx.
Qed.
Lemma ws_mono G : forall p x y, ok x -> ok y -> (x <= y)%R -> (ws x G p <= ws y G p)%R.
Proof.
  induction p as [|u [|v t] IH]; intros x y Hx Hy H; [exact H|exact H|]. rewrite !ws_cons.
  apply IH; [apply ok_add, Hx|apply ok_add, Hy|]. apply add_mono; assumption.
Qed.
Lemma ws_app G a x b : forall z, ws z G (a ++ x :: b) = ws (ws z G (a ++ [x])) G (x :: b).
Proof.
  induction a as [|u a IH]; intros z; [reflexivity|].
  destruct a as [|v a]; cbn [app] in *; [reflexivity|]. rewrite !ws_cons. apply IH.
Qed.
Lemma ws_snoc n G s u v z p : is_path n G s u p -> ws z G (p ++ [v]) = add (ws z G p) (fin_val (G u v)).
Proof.
  intros Hp. destruct (path_snoc_form _ _ _ _ _ Hp) as [a ->]. rewrite <- app_assoc. cbn [app].
  rewrite ws_app. reflexivity.
Qed.
Lemma shortenf n G s d : no_shrinking_cycle add ok n G -> forall k p, length p <= k -> is_path n G s d p ->
  exists p', is_path n G s d p' /\ length p' <= n /\ (ws 0 G p' <= ws 0 G p)%R.
Proof.
  intros Hn. induction k as [|k IH]; intros p Hk Hp.
  - destruct Hp as [_ [_ [H _]]]. destruct p; [discriminate|simpl in Hk; lia].
  - destruct (Nat.le_gt_cases (length p) n) as [Hle|Hgt].
    { exists p. split; [exact Hp|]. split; [exact Hle|]. lra. }
    assert (Hd : ~ NoDup p).
    { intros Hd. assert (length p <= length (seq 0 n)); [|rewrite seq_length in *; lia].
      apply NoDup_incl_length; [exact Hd|]. intros v Hv. destruct Hp as [Hf _]. rewrite Forall_forall in Hf.
      apply in_seq. specialize (Hf v Hv). lia. }
    assert (Hs : exists a x b c, p = a ++ x :: b ++ x :: c).
    { clear - Hd. induction p as [|y p IHp]; [exfalso; apply Hd; constructor|].
      destruct (in_dec Nat.eq_dec y p) as [Hi|Hi].
      - apply in_split in Hi as [b [c ->]]. exists [], y, b, c. reflexivity.
      - destruct IHp as [a [x [b [c ->]]]]; [intros Hnd; apply Hd; constructor; assumption|].
        exists (y :: a), x, b, c. reflexivity. }
    destruct Hs as [a [x [b [c ->]]]].
    destruct (path_split _ _ _ _ _ _ _ Hp) as [P1 P2].
    change (x :: b ++ x :: c) with ((x :: b) ++ x :: c) in P2.
    destruct (path_split _ _ _ _ _ _ _ P2) as [P3 P4].
    pose proof (path_join _ _ _ _ _ _ _ P1 P4) as P5.
    assert (Hlen : length (a ++ x :: c) <= k).
    { rewrite app_length in Hk |- *. cbn [length] in Hk |- *. rewrite app_length in Hk. cbn [length] in Hk. lia. }
    destruct (IH _ Hlen P5) as [p' [Q1 [Q2 Q3]]].
    exists p'. split; [exact Q1|]. split; [exact Q2|].
    eapply Rle_trans; [exact Q3|]. rewrite (ws_app G a x c), (ws_app G a x (b ++ x :: c)).
    change (x :: b ++ x :: c) with ((x :: b) ++ x :: c). rewrite (ws_app G (x :: b) x c).
    assert (Hok : ok (ws 0 G (a ++ [x]))) by (apply ws_ok, ok0).
    apply ws_mono; [exact Hok|apply ws_ok, Hok|]. exact (Hn _ _ _ P3 Hok).
Qed.
End Walk.

Section Run.
Context (add : R -> R -> R) (ok : R -> Prop) (Hadd : cost_addition add ok).
Local Notation ws := (walk_sum add).
Variables (n : nat) (G : nat -> nat -> ext) (r : nat).
Hypothesis Hr : r < n.
Hypothesis Hnn : no_shrinking_cycle add ok n G.
Hypothesis Hws : well_scaled n G.

(** * The invariant of the relaxation loop *)
Inductive chain (p : nat -> nat) : nat -> Prop :=
| ch_root : chain p r
| ch_step v : v <> r -> chain p (p v) -> chain p v.

Record inv (p : nat -> nat) (D : nat -> ext) : Prop := {
  i_real : forall v q, v < n -> D v = Fin q -> exists l, is_path n G r v l /\ (ws 0 G l = q)%R;
  i_root : exists q, D r = Fin q /\ (q = 0)%R;
  i_pred : forall v q, v < n -> v <> r -> D v = Fin q ->
    p v < n /\ link G (p v) v /\ exists d, D (p v) = Fin d /\ (add d (fin_val (G (p v) v)) <= q)%R;
  i_tree : forall v q, v < n -> D v = Fin q -> chain p v
}.
Lemma okD p D v q : inv p D -> v < n -> D v = Fin q -> ok q.
Proof.
  intros I Hv E. destruct (i_real _ _ I v q Hv E) as [l [_ <-]]. apply (ws_ok add ok Hadd). apply (ok0 add ok Hadd).
Qed.

(** Either v is not on the predecessor chain of u, or the chain from v to u is
    a path that leads from the cost D v to at most D u. *)
Inductive avoids (p : nat -> nat) (x : nat) : nat -> Prop :=
| av_root : x <> r -> avoids p x r
| av_step v : v <> r -> v <> x -> avoids p x (p v) -> avoids p x v.
Lemma chain_cases p D x dx : inv p D -> x < n -> D x = Fin dx -> forall u, chain p u ->
  forall du, u < n -> D u = Fin du ->
  avoids p x u \/ exists l, is_path n G x u l /\ (ws dx G l <= du)%R.
Proof.
  intros I Hx Ex u Hc. induction Hc as [|u Hur Hc IH]; intros du Hu Eu.
  - destruct (Nat.eq_dec x r) as [->|Hn]; [|left; constructor; exact Hn].
    right. exists [r]. split; [apply path_nil; exact Hx|]. change (ws dx G [r]) with dx.
    rewrite Ex in Eu. injection Eu as ->. lra.
  - destruct (Nat.eq_dec u x) as [->|Hn].
    { right. exists [x]. split; [apply path_nil; exact Hx|]. change (ws dx G [x]) with dx.
      rewrite Ex in Eu. injection Eu as ->. lra. }
    destruct (i_pred _ _ I u du Hu Hur Eu) as [Hp [Hl [d [Ed Hd]]]].
    destruct (IH d Hp Ed) as [A|[l [L1 L2]]].
    + left. constructor; assumption.
    + right. destruct (path_snoc _ _ _ _ _ _ L1 Hu Hl) as [S1 _].
      exists (l ++ [u]). split; [exact S1|]. rewrite (ws_snoc add n G x (p u) u dx l L1).
      eapply Rle_trans; [|exact Hd]. apply (add_mono add ok Hadd); [|exact (okD _ _ _ _ I Hp Ed)|exact L2].
      apply (ws_ok add ok Hadd). exact (okD _ _ _ _ I Hx Ex).
Qed.
Lemma avoids_chain p x y u : avoids p x u -> chain (upd p x y) u.
Proof.
  induction 1 as [Hn|v H1 H2 H3 IH]; [constructor|]. constructor; [exact H1|]. rewrite upd_other by exact H2. exact IH.
Qed.

Lemma relax_inv p D opt a : In a (arcs n G) -> inv p D ->
  let '(p', D', opt') := relaxf add (p, D, opt) a in
  inv p' D' /\ (forall v, dle (D' v) (D v)) /\
  (let '(u, v, w) := a in forall q w', w = Fin w' -> ok q -> ele (D u) q -> ele (D' v) (add q w')) /\
  (opt' = true -> opt = true /\ p' = p /\ D' = D).
Proof.
  intros Ha I. destruct a as [[u v] w]. cbn [relaxf].
  destruct (egt (D v) (eaddf add (D u) w)) eqn:E.
  2:{ split; [exact I|]. split; [intros v' q H; exact H|]. split; [|auto].
      intros q w' -> Okq Hq. destruct (D u) as [du|] eqn:Eu; [|destruct Hq]. cbn [eaddf ele] in *.
      destruct (D v) as [dv|]; cbn [egt ele] in *; [|discriminate]. apply Rltb_ge in E.
      destruct (arc_link n G r Hr _ _ _ Ha) as [Hu _].
      eapply Rle_trans; [exact E|]. apply (add_mono add ok Hadd); [exact (okD _ _ _ _ I Hu Eu)|exact Okq|exact Hq]. }
  destruct (D u) as [du|] eqn:Eu; [|destruct (D v); discriminate].
  destruct w as [w|]; [|destruct (D v); discriminate]. cbn [eaddf] in *.
  destruct (arc_link n G r Hr _ _ _ Ha) as [Hu [Hv [Hl Hw]]].
  assert (Hdec : forall q, D v = Fin q -> (add du w < q)%R).
  { intros q Eq. rewrite Eq in E. cbn [egt] in E. apply Rltb_lt in E. exact E. }
  destruct (i_real _ _ I u du Hu Eu) as [lu [Lu1 Lu2]].
  destruct (path_snoc _ _ _ _ _ _ Lu1 Hv Hl) as [Lv1 _].
  pose proof (ws_snoc add n G r u v 0 lu Lu1) as Lv2. rewrite Lu2, Hw in Lv2. cbn [fin_val] in Lv2.
  assert (Okdu : ok du) by exact (okD _ _ _ _ I Hu Eu).
  (* the root is never relaxed *)
  assert (Hvr : v <> r).
  { intros ->. destruct (i_root _ _ I) as [q [Eq Hq]]. specialize (Hdec q Eq).
    specialize (Hnn _ _ 0%R Lv1 (ok0 add ok Hadd)). rewrite Lv2 in Hnn. lra. }
  (* v is not on the chain of u *)
  assert (Hav : avoids p v u).
  { destruct (D v) as [dv|] eqn:Edv.
    - destruct (chain_cases p D v dv I Hv Edv u (i_tree _ _ I u du Hu Eu) du Hu Eu) as [A|[l [L1 L2]]]; [exact A|exfalso].
      specialize (Hdec dv eq_refl). destruct (path_snoc _ _ _ _ _ _ L1 Hv Hl) as [S1 _].
      assert (Okdv : ok dv) by exact (okD _ _ _ _ I Hv Edv).
      specialize (Hnn _ _ dv S1 Okdv). rewrite (ws_snoc add n G v u v dv l L1), Hw in Hnn. cbn [fin_val] in Hnn.
      pose proof (add_mono add ok Hadd _ _ w (ws_ok add ok Hadd G l dv Okdv) Okdu L2) as Hm. lra.
    - (* D v = Inf: no node of u's chain has infinite distance *)
      pose proof (i_tree _ _ I u du Hu Eu) as Hc. clear - Hc Hu Eu I Edv Hr Hvr. revert du Hu Eu.
      induction Hc as [|x Hx Hc IH]; intros du Hu Eu; [constructor; exact Hvr|].
      constructor; [exact Hx|congruence|]. destruct (i_pred _ _ I x du Hu Hx Eu) as [Hp [_ [d [Ed _]]]]. eapply IH; eauto. }
  assert (Huv : u <> v).
  { intros ->. specialize (Hdec du Eu). assert (Hc : is_path n G v v [v; v]).
    { split; [repeat constructor; assumption|]. split; [split; [exact Hl|exact Logic.I]|]. split; reflexivity. }
    specialize (Hnn _ _ du Hc Okdu). change (ws du G [v; v]) with (add du (fin_val (G v v))) in Hnn. rewrite Hw in Hnn.
    cbn [fin_val] in Hnn. lra. }
  split; [|split; [|split]].
  - constructor.
    + intros x q Hx Hq. destruct (Nat.eq_dec x v) as [->|Hn].
      * rewrite upd_same in Hq. inversion Hq; subst q. exists (lu ++ [v]). split; [exact Lv1|]. exact Lv2.
      * rewrite upd_other in Hq by exact Hn. apply (i_real _ _ I x q Hx Hq).
    + rewrite upd_other by auto. apply (i_root _ _ I).
    + intros x q Hx Hxr Hq. destruct (Nat.eq_dec x v) as [->|Hn].
      * rewrite upd_same in Hq. rewrite !(upd_same p). inversion Hq; subst q. split; [exact Hu|]. split; [exact Hl|].
        exists du. rewrite upd_other by exact Huv. split; [exact Eu|]. rewrite Hw. cbn [fin_val]. lra.
      * rewrite upd_other in Hq by exact Hn. rewrite !(upd_other p) by exact Hn.
        destruct (i_pred _ _ I x q Hx Hxr Hq) as [Hp [Hl' [d [Ed Hd]]]].
        split; [exact Hp|]. split; [exact Hl'|].
        destruct (Nat.eq_dec (p x) v) as [Epv|Hnp].
        -- exists (add du w). rewrite Epv, upd_same. split; [reflexivity|]. rewrite Epv in Ed, Hd.
           specialize (Hdec d Ed).
           eapply Rle_trans; [|exact Hd]. apply (add_mono add ok Hadd);
             [apply (ok_add add ok Hadd); exact Okdu|exact (okD _ _ _ _ I Hv Ed)|lra].
        -- exists d. rewrite upd_other by exact Hnp. auto.
    + intros x q Hx Hq.
      assert (Hcu : chain (upd p v u) v).
      { constructor; [exact Hvr|]. rewrite upd_same. apply avoids_chain. exact Hav. }
      destruct (Nat.eq_dec x v) as [->|Hn]; [exact Hcu|].
      rewrite upd_other in Hq by exact Hn. pose proof (i_tree _ _ I x q Hx Hq) as Hc.
      clear - Hc Hcu. induction Hc as [|y Hy Hc IH]; [constructor|].
      destruct (Nat.eq_dec y v) as [->|Hn]; [exact Hcu|]. constructor; [exact Hy|]. rewrite upd_other by exact Hn. exact IH.
  - intros x q Hq. destruct (Nat.eq_dec x v) as [->|Hn].
    + rewrite upd_same. destruct (D v) as [dv|]; [|destruct Hq]. specialize (Hdec dv eq_refl). cbn [ele] in *. lra.
    + rewrite upd_other by exact Hn. exact Hq.
  - intros q w' Ew Okq Hq. injection Ew as <-. rewrite upd_same. cbn [ele] in *.
    apply (add_mono add ok Hadd); assumption.
  - discriminate.
Qed.

Lemma fold_inv : forall as_ p D opt, incl as_ (arcs n G) -> inv p D ->
  let '(p', D', opt') := fold_left (relaxf add) as_ (p, D, opt) in
  inv p' D' /\ (forall v, dle (D' v) (D v)) /\
  (forall u v w q, In (u, v, Fin w) as_ -> ok q -> ele (D u) q -> ele (D' v) (add q w)) /\
  (opt' = true -> opt = true /\ p' = p /\ D' = D).
Proof.
  induction as_ as [|a as_ IH]; intros p D opt Hi I; cbn [fold_left].
  - split; [exact I|]. split; [intros v q H; exact H|]. split; [intros u v w q []|auto].
  - pose proof (relax_inv p D opt a (Hi a (or_introl eq_refl)) I) as H1.
    destruct (relaxf add (p, D, opt) a) as [[p1 D1] o1]. destruct H1 as [I1 [M1 [R1 O1]]].
    pose proof (IH p1 D1 o1 (fun x Hx => Hi x (or_intror Hx)) I1) as H2.
    destruct (fold_left (relaxf add) as_ (p1, D1, o1)) as [[p2 D2] o2]. destruct H2 as [I2 [M2 [R2 O2]]].
    split; [exact I2|]. split; [intros v q H; apply M2, M1, H|]. split.
    + intros u v w q [->|Hin] Okq Hq.
      * apply M2. apply (R1 q w eq_refl Okq Hq).
      * apply (R2 u v w q Hin Okq). apply M1. exact Hq.
    + intros Ho. destruct (O2 Ho) as [-> [-> ->]]. auto.
Qed.

(** D is below every path with at most k links. *)
Definition below (k : nat) (D : nat -> ext) : Prop :=
  forall l v, is_path n G r v l -> length l <= S k -> ele (D v) (ws 0 G l).

Lemma below_step k D D' : below k D -> (forall v, dle (D' v) (D v)) ->
  (forall u v w q, In (u, v, Fin w) (arcs n G) -> ok q -> ele (D u) q -> ele (D' v) (add q w)) -> below (S k) D'.
Proof.
  intros B M R l v Hl Hlen. destruct (path_snoc_form _ _ _ _ _ Hl) as [a ->].
  destruct (path_unsnoc _ _ _ _ _ _ Hl) as [_ [[-> Es]|[u [Pu [Lk _]]]]].
  - cbn [app]. rewrite <- Es. apply M. apply B; [apply path_nil; exact Hr|simpl; lia].
  - rewrite app_length in Hlen. simpl in Hlen.
    assert (Hu : u < n).
    { destruct (path_snoc_form _ _ _ _ _ Pu) as [b ->]. destruct Pu as [Hf _]. apply Forall_app in Hf as [_ Hf]. inversion Hf; assumption. }
    assert (Hv : v < n) by (destruct Hl as [Hf _]; apply Forall_app in Hf as [_ Hf]; inversion Hf; assumption).
    pose proof (link_arc n G r Hr Hws u v Hu Hv Lk) as Ha. pose proof Lk as [w [Ew _]]. rewrite Ew in Ha.
    assert (Hla : length a <= S k) by lia.
    specialize (R u v w (ws 0 G a) Ha (ws_ok add ok Hadd G a 0%R (ok0 add ok Hadd)) (B a u Pu Hla)).
    destruct (D' v) as [d|]; cbn [ele] in *; [|exact R]. rewrite (ws_snoc add n G r u v 0 a Pu), Ew. cbn [fin_val]. exact R.
Qed.
Lemma below_le k k' D : below k D -> k' <= k -> below k' D.
Proof. intros B H l v Hl Hlen. apply B; [exact Hl|lia]. Qed.

Lemma rounds_spec : forall k j p D, inv p D -> below j D ->
  let '(p', D') := roundsf add k (arcs n G) p D in inv p' D' /\ below (j + k) D'.
Proof.
  induction k as [|k IH]; intros j p D I B; cbn [roundsf].
  - rewrite Nat.add_0_r. auto.
  - pose proof (fold_inv (arcs n G) p D true (incl_refl _) I) as H.
    destruct (fold_left (relaxf add) (arcs n G) (p, D, true)) as [[p1 D1] o1]. destruct H as [I1 [M1 [R1 O1]]].
    destruct o1.
    + split; [exact I1|]. destruct (O1 eq_refl) as [_ [_ ->]].
      assert (Hall : forall i, below (j + i) D).
      { induction i as [|i IHi]; [rewrite Nat.add_0_r; exact B|]. rewrite Nat.add_succ_r.
        eapply below_step; eassumption. }
      apply Hall.
    + rewrite Nat.add_succ_r. change (S (j + k)) with (S j + k). apply IH; [exact I1|].
      eapply below_step; eassumption.
Qed.

Lemma init_inv : inv (fun _ => 0) (upd (fun _ => Inf) r (Fin 0)).
Proof.
  constructor.
  - intros v q Hv E. unfold upd in E. destruct (Nat.eqb_spec v r) as [->|]; [|discriminate].
    inversion E; subst. exists [r]. split; [apply path_nil; exact Hr|]. reflexivity.
  - exists 0%R. rewrite upd_same. split; reflexivity.
  - intros v q Hv Hn E. rewrite upd_other in E by exact Hn. discriminate.
  - intros v q Hv E. unfold upd in E. destruct (Nat.eqb_spec v r) as [->|]; [|discriminate]. constructor.
Qed.
Lemma init_below : below 0 (upd (fun _ => Inf) r (Fin 0)).
Proof.
  intros l v Hl Hlen. destruct (path_cons_form _ _ _ _ _ Hl) as [a ->]. simpl in Hlen.
  destruct a; [|simpl in Hlen; lia]. destruct Hl as [_ [_ [_ H]]]. cbn in H. inversion H; subst v.
  rewrite upd_same. cbn [ele]. apply Rle_refl.
Qed.

(** * Reconstructing the path *)
Inductive depth (p : nat -> nat) : nat -> nat -> Prop :=
| dp_root : depth p r 0
| dp_step v k : v <> r -> depth p (p v) k -> depth p v (S k).
Lemma depth_det p v k : depth p v k -> forall k', depth p v k' -> k = k'.
Proof.
  induction 1 as [|v k Hv Hd IH]; intros k' H'; inversion H' as [|v' k0 Hv' Hd']; subst; try congruence.
  f_equal. auto.
Qed.
Lemma trace_spec p D : inv p D -> forall v k, depth p v k -> forall q fuel acc, v < n -> D v = Fin q -> k <= fuel ->
  exists l, trace fuel p r v acc = Ok (l ++ acc) /\ is_path n G r v l /\ length l = S k /\ (ws 0 G l <= q)%R.
Proof.
  intros I v k Hd. induction Hd as [|v k Hv Hd IH]; intros q fuel acc Hvn Eq Hk.
  - exists [r]. split; [destruct fuel; cbn [trace]; rewrite Nat.eqb_refl; reflexivity|].
    split; [apply path_nil; exact Hr|]. split; [reflexivity|]. destruct (i_root _ _ I) as [q0 [E0 H0]].
    rewrite E0 in Eq. inversion Eq; subst. change (ws 0 G [r]) with 0%R. lra.
  - destruct fuel as [|fuel]; [lia|]. cbn [trace]. destruct (Nat.eqb_spec v r) as [|_]; [contradiction|].
    destruct (i_pred _ _ I v q Hvn Hv Eq) as [Hp [Hl [d [Ed Hdq]]]].
    destruct (IH d fuel (v :: acc) Hp Ed ltac:(lia)) as [l [T1 [T2 [TL T3]]]].
    exists (l ++ [v]). rewrite T1, <- app_assoc. split; [reflexivity|].
    destruct (path_snoc _ _ _ _ _ _ T2 Hvn Hl) as [S1 _]. split; [exact S1|]. split; [rewrite app_length, TL; simpl; lia|].
    rewrite (ws_snoc add n G r (p v) v 0 l T2). eapply Rle_trans; [|exact Hdq].
    apply (add_mono add ok Hadd); [apply (ws_ok add ok Hadd), (ok0 add ok Hadd)|exact (okD _ _ _ _ I Hp Ed)|exact T3].
Qed.
Lemma chain_depth p D : inv p D -> forall v, chain p v -> forall q, v < n -> D v = Fin q ->
  exists k, depth p v k /\ k < n.
Proof.
  intros I v Hc q Hv Eq.
  assert (H : exists k l, depth p v k /\ length l = S k /\ NoDup l /\ Forall (fun x => x < n) l /\
     (forall x, In x l -> exists j, depth p x j /\ j <= k)).
  { revert q Hv Eq. induction Hc as [|v Hvr Hc IH]; intros q Hv Eq.
    - exists 0, [r]. split; [constructor|]. split; [reflexivity|]. split; [repeat constructor; intros []|].
      split; [repeat constructor; exact Hv|]. intros x [<-|[]]. exists 0. split; [constructor|lia].
    - destruct (i_pred _ _ I v q Hv Hvr Eq) as [Hp [_ [d [Ed _]]]].
      destruct (IH d Hp Ed) as [k [l [D1 [D2 [D3 [D4 D5]]]]]].
      exists (S k), (v :: l). split; [constructor; assumption|]. split; [simpl; congruence|].
      split; [|split].
      + constructor; [|exact D3]. intros Hin. destruct (D5 v Hin) as [j [J1 J2]].
        pose proof (depth_det _ _ _ J1 (S k) (dp_step _ _ _ Hvr D1)). lia.
      + constructor; assumption.
      + intros x [<-|Hx]; [exists (S k); split; [constructor; assumption|lia]|].
        destruct (D5 x Hx) as [j [J1 J2]]. exists j. split; [exact J1|lia]. }
  destruct H as [k [l [D1 [D2 [D3 [D4 _]]]]]]. exists k. split; [exact D1|].
  assert (length l <= length (seq 0 n)).
  { apply NoDup_incl_length; [exact D3|]. intros x Hx. rewrite Forall_forall in D4. apply in_seq.
    specialize (D4 x Hx). lia. }
  rewrite seq_length in *. lia.
Qed.

Lemma bfmf_spec fuel dst : dst < n -> 2 <= n -> n <= fuel ->
  exists res, bfmf add fuel n G r dst = Ok res /\ shortest_by_sums add n G r dst res.
Proof.
  intros Hd Hn2 Hf. unfold bfmf, bfm_helperf.
  destruct (Nat.leb_spec n r) as [|_]; [lia|]. destruct (Nat.eqb_spec n 1) as [|_]; [lia|].
  rewrite (count_arcs n G r Hr Hws), Nat.ltb_irrefl. cbn [bind].
  pose proof (rounds_spec (n - 1) 0 _ _ init_inv init_below) as H.
  destruct (roundsf add (n - 1) (arcs n G) (fun _ => 0) (upd (fun _ => Inf) r (Fin 0))) as [p D].
  destruct H as [I B]. cbn [Nat.add] in B. destruct (Nat.leb_spec n dst) as [|_]; [lia|].
  assert (Hlow : forall l, is_path n G r dst l -> ele (D dst) (ws 0 G l)).
  { intros l Hl. destruct (shortenf add ok Hadd n G r dst Hnn (length l) l (le_n _) Hl) as [l' [L1 [L2 L3]]].
    assert (Hl' : length l' <= S (n - 1)) by lia.
    specialize (B l' dst L1 Hl'). destruct (D dst) as [d|]; cbn [ele] in *; [lra|exact B]. }
  destruct (D dst) as [d|] eqn:Ed.
  - destruct (chain_depth p D I dst (i_tree _ _ I dst d Hd Ed) d Hd Ed) as [k [K1 K2]].
    assert (Hk : k <= fuel) by lia.
    destruct (trace_spec p D I dst k K1 d fuel [] Hd Ed Hk) as [l [T1 [T2 [TL T3]]]].
    rewrite T1, app_nil_r. cbn [bind]. exists (Fin d, l). split; [reflexivity|].
    unfold shortest_by_sums. cbn [fst snd]. split; [exact T2|]. split; [lia|].
    specialize (Hlow l T2) as Hl. cbn [ele] in Hl. split; [apply Rle_antisym; assumption|]. intros l' Hl'. exact (Hlow l' Hl').
  - exists (Inf, []). split; [reflexivity|]. unfold shortest_by_sums. cbn [fst snd]. split; [reflexivity|]. intros l Hl. exact (Hlow l Hl).
Qed.
End Run.

(** * Sufficient conditions *)
Lemma forward_end n G : forward_links n G -> forall p s d, is_path n G s d p -> p = [s] /\ s = d \/ s < d.
Proof.
  intros Hf. induction p as [|u [|v t] IH]; intros s d Hp.
  - destruct Hp as [_ [_ [H _]]]. discriminate.
  - left. destruct Hp as [_ [_ [H1 H2]]]. cbn in H1, H2. injection H1 as ->. injection H2 as ->. auto.
  - right. destruct (path_cons_form _ _ _ _ _ Hp) as [t' E]. injection E as -> <-.
    destruct (path_split n G s v d [s] t Hp) as [P1 P2].
    assert (Hl : link G s v) by (destruct Hp as [_ [[H _] _]]; exact H).
    assert (Hsv : s < v).
    { destruct Hp as [Hin _]. inversion Hin as [|? ? H1 H2]; subst. inversion H2; subst. apply Hf; assumption. }
    destruct (IH v d P2) as [[_ <-]|H]; lia.
Qed.
Lemma forward_no_shrink add ok n G : forward_links n G -> no_shrinking_cycle add ok n G.
Proof.
  intros Hf v p x Hp _. destruct (forward_end n G Hf p v v Hp) as [[-> _]|H]; [apply Rle_refl|lia].
Qed.
Lemma nonneg_no_shrink add ok n G : cost_addition add ok ->
  (forall a w, ok a -> (0 <= w)%R -> (a <= add a w)%R) ->
  nonneg_links n G -> no_shrinking_cycle add ok n G.
Proof.
  intros Hadd Hge Hn v p x [Hin [_ _]] Hx. revert x Hx.
  induction p as [|u [|v' t] IH]; intros x Hx; [apply Rle_refl|apply Rle_refl|].
  rewrite ws_cons. inversion Hin as [|? ? H1 H2]; subst. inversion H2; subst.
  eapply Rle_trans; [|apply (IH H2); apply (ok_add add ok Hadd); exact Hx].
  apply Hge; [exact Hx|]. destruct (G u v') as [w|] eqn:E; cbn [fin_val]; [|apply Rle_refl]. apply (Hn u v' w); assumption.
Qed.
