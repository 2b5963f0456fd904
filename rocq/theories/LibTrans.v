(** k_shortest over the reals on rational inputs is k_shortest over the
    rationals: lets the real model be evaluated. *)
From Coq Require Import Reals Qreals Lra Lia.
From Verif Require Import Base Lists BfmModel KShortModel.
From Verif Require RBase RBfmModel RKShortModel.
Open Scope nat_scope.

Definition inj (e : ext) : RBase.ext := match e with Fin q => RBase.Fin (Q2R q) | Inf => RBase.Inf end.
Lemma t_q0 : Q2R 0 = 0%R. Proof. unfold Q2R. cbn. apply Rmult_0_l. Qed.
Lemma t_leb a b : RBase.Rleb (Q2R a) (Q2R b) = Qle_bool a b.
Proof.
  destruct (Qle_bool a b) eqn:E.
  - apply RBase.Rleb_le. apply Qle_Rle, Qleb_le, E.
  - apply RBase.Rleb_gt. apply Qlt_Rlt, Qleb_gt, E.
Qed.
Lemma t_ltb a b : RBase.Rltb (Q2R a) (Q2R b) = Qltb a b.
Proof. unfold RBase.Rltb, Qltb. rewrite t_leb. reflexivity. Qed.
Lemma t_zero q : RBase.Reqb (Q2R q) 0 = Qeq_bool q 0.
Proof.
  destruct (Qeq_bool q 0) eqn:E.
  - apply RBase.Reqb_eq. apply Qeqb_eq in E. rewrite (Qeq_eqR _ _ E). apply t_q0.
  - apply RBase.Reqb_neq. apply Qeqb_neq in E. intros H. apply E. apply eqR_Qeq. rewrite H. symmetry. apply t_q0.
Qed.
Lemma t_abs q : Rabs (Q2R q) = Q2R (Qabs q).
Proof.
  assert (H0 : Q2R 0 = 0%R) by exact t_q0.
  apply Qabs_case; intros H; apply Qle_Rle in H; rewrite H0 in H.
  - apply Rabs_right, Rle_ge, H.
  - rewrite Q2R_opp. apply Rabs_left1. exact H.
Qed.
Lemma t_eps : RBfmModel.eps = Q2R eps. Proof. unfold RBfmModel.eps, eps, Q2R. cbn [Qnum Qden]. rewrite Rmult_1_l. reflexivity. Qed.
Lemma t_arc e : RBfmModel.is_arc (inj e) = is_arc e.
Proof. destruct e as [q|]; [|reflexivity]. cbn [inj RBfmModel.is_arc is_arc]. rewrite t_abs, t_eps. apply t_leb. Qed.
Lemma t_nonzero e : RBfmModel.nonzero (inj e) = nonzero e.
Proof. destruct e as [q|]; [|reflexivity]. cbn [inj RBfmModel.nonzero nonzero]. rewrite t_zero. reflexivity. Qed.
Lemma t_add a b : RBfmModel.eadd (inj a) (inj b) = inj (eadd a b).
Proof. destruct a, b; cbn [inj RBfmModel.eadd eadd]; try reflexivity. rewrite Q2R_plus. reflexivity. Qed.
Lemma t_gt a b : RBfmModel.egt (inj a) (inj b) = egt a b.
Proof. destruct a, b; cbn [inj RBfmModel.egt egt]; try reflexivity. apply t_ltb. Qed.

(** ** Bellman-Ford-Moore *)
Definition same (G : nat -> nat -> ext) (H : nat -> nat -> RBase.ext) : Prop := forall u v, H u v = inj (G u v).
Definition injarc (a : nat * nat * ext) : nat * nat * RBase.ext := (fst a, inj (snd a)).
Lemma t_arcs n G H : same G H -> RBfmModel.arcs n H = map injarc (arcs n G).
Proof.
  intros S. unfold RBfmModel.arcs, arcs. rewrite flat_map_concat_map, flat_map_concat_map, concat_map, map_map. f_equal. apply map_ext. intros v. rewrite map_map. rewrite (filter_ext (fun u => RBfmModel.is_arc (H u v)) (fun u => is_arc (G u v))) by (intros u; rewrite S; apply t_arc).
  apply map_ext. intros u. rewrite S. reflexivity.
Qed.
Lemma t_count n G H : same G H -> RBfmModel.count_nonzero n H = count_nonzero n G.
Proof.
  intros S. unfold RBfmModel.count_nonzero, count_nonzero. f_equal. rewrite !flat_map_concat_map. f_equal. apply map_ext. intros v. apply filter_ext. intros u. rewrite S. apply t_nonzero.
Qed.
Lemma t_upd D D' v e : (forall x, D' x = inj (D x)) -> forall x, upd D' v (inj e) x = inj (upd D v e x).
Proof. intros H x. unfold upd. destruct (_ =? _); [reflexivity|apply H]. Qed.
Lemma t_relax l : forall p D D' b, (forall x, D' x = inj (D x)) -> exists D1 D1' p1 b1, fold_left RBfmModel.relax (map injarc l) (p, D', b) = (p1, D1', b1) /\ fold_left relax l (p, D, b) = (p1, D1, b1) /\ forall x, D1' x = inj (D1 x).
Proof.
  induction l as [|[[u v] w] l IH]; intros p D D' b H; [exists D, D', p, b; auto|]. cbn [map fold_left]. change (injarc (u, v, w)) with (u, v, inj w). cbn [RBfmModel.relax relax].
  rewrite !H, t_add, t_gt. destruct (egt (D v) (eadd (D u) w)); apply IH; [apply t_upd|]; exact H.
Qed.
Lemma t_rounds k l : forall p D D', (forall x, D' x = inj (D x)) -> exists D1 D1' p1, RBfmModel.rounds k (map injarc l) p D' = (p1, D1') /\ rounds k l p D = (p1, D1) /\ forall x, D1' x = inj (D1 x).
Proof.
  induction k as [|k IH]; intros p D D' H; [exists D, D', p; auto|]. cbn [RBfmModel.rounds rounds]. destruct (t_relax l p D D' true H) as [D1 [D1' [p1 [b1 [E1 [E2 H1]]]]]]. rewrite E1, E2. destruct b1; [exists D1, D1', p1; auto|]. apply IH, H1.
Qed.
Definition injr {A B} (f : A -> B) (r : result A) : result B := match r with Ok x => Ok (f x) | Err e => Err e end.
Lemma t_trace fuel p s v : forall acc, RBfmModel.trace fuel p s v acc = trace fuel p s v acc.
Proof. revert v. induction fuel as [|f IH]; intros v acc; cbn; [reflexivity|]. destruct (v =? s); [reflexivity|]. apply IH. Qed.
Lemma t_bfm n G H s d : same G H -> RBfmModel.bfm n H s d = injr (fun x => (inj (fst x), snd x)) (bfm n G s d).
Proof.
  intros S. unfold RBfmModel.bfm, bfm, RBfmModel.bfm_helper, bfm_helper. destruct (n <=? s); [reflexivity|]. destruct (n =? 1); [reflexivity|]. rewrite (t_arcs n G H S), (t_count n G H S), map_length. destruct (_ <? _); [reflexivity|]. cbn [bind].
  destruct (t_rounds (n - 1) (arcs n G) (fun _ => 0) (upd (fun _ => Inf) s (Fin 0)) (upd (fun _ => RBase.Inf) s (RBase.Fin 0))) as [D1 [D1' [p1 [E1 [E2 H1]]]]].
  { intros x. replace (RBase.Fin 0) with (inj (Fin 0)) by (cbn [inj]; rewrite t_q0; reflexivity). apply (t_upd (fun _ => Inf) (fun _ => RBase.Inf)). reflexivity. }
  rewrite E1, E2. destruct (n <=? d); [reflexivity|]. rewrite H1. destruct (D1 d) as [q|]; cbn [inj]; [|reflexivity]. rewrite t_trace. destruct (trace n p1 s d []); reflexivity.
Qed.

(** ** k_shortest *)
Definition injp (pc : list nat * ext) : list nat * RBase.ext := (fst pc, inj (snd pc)).
Definition injx (x : nat * ext) : nat * RBase.ext := (fst x, inj (snd x)).
Definition injst (st : kst) : RKShortModel.kst := {| RKShortModel.kP := map injp (kP st); RKShortModel.kS := kS st; RKShortModel.kX := map injx (kX st) |}.
Lemma t_list_eqb a : forall b, RKShortModel.list_eqb a b = list_eqb a b.
Proof. induction a as [|x a IH]; intros [|y b]; cbn; try reflexivity; rewrite IH; reflexivity. Qed.
Lemma t_blocked P i sps : RKShortModel.blocked_next P i sps = blocked_next P i sps.
Proof. induction sps as [|sp sps IH]; [reflexivity|]. cbn [RKShortModel.blocked_next blocked_next]. rewrite t_list_eqb, IH. reflexivity. Qed.
Lemma t_sub G H p : same G H -> RKShortModel.sub_cost H p = inj (sub_cost G p).
Proof.
  intros S. assert (H0 : RBase.Fin 0 = inj (Fin 0)) by (cbn [inj]; rewrite t_q0; reflexivity).
  induction p as [|u [|v p] IH]; [exact H0|exact H0|]. change (RBfmModel.eadd (H u v) (RKShortModel.sub_cost H (v :: p)) = inj (eadd (G u v) (sub_cost G (v :: p)))). rewrite S, IH. apply t_add.
Qed.
Section T.
Variables (n : nat) (G : nat -> nat -> ext) (H : nat -> nat -> RBase.ext) (dst : nat).
Hypothesis S0 : same G H.
Lemma t_deviate P sps st i : RKShortModel.deviate n H dst P sps (injst st) i = injr injst (deviate n G dst P sps st i).
Proof.
  unfold RKShortModel.deviate, deviate. destruct (nth_error P i) as [v|]; [|reflexivity]. rewrite t_blocked. destruct (blocked_next P i (P :: sps)) as [nx|]; [|reflexivity]. cbn [bind].
  assert (S2 : same (block_links (block_nodes G (firstn (i - 1) P)) v nx) (RKShortModel.block_links (RKShortModel.block_nodes H (firstn (i - 1) P)) v nx)).
  { intros a b. unfold block_links, RKShortModel.block_links, block_nodes, RKShortModel.block_nodes. destruct (_ && _); [reflexivity|]. destruct (_ || _); [reflexivity|apply S0]. }
  rewrite (t_bfm n _ _ v dst S2). destruct (bfm n _ v dst) as [[d p]|]; [|reflexivity]. cbn [injr bind fst snd]. destruct p as [|p0 p]; [reflexivity|]. unfold injr, injst. cbn [kP kS kX RKShortModel.kP RKShortModel.kS RKShortModel.kX]. rewrite !map_app, map_length, (t_sub G H _ S0), t_add. reflexivity.
Qed.
Lemma t_devall P sps inds : forall st, RKShortModel.deviate_all n H dst P sps (injst st) inds = injr injst (deviate_all n G dst P sps st inds).
Proof.
  induction inds as [|i inds IH]; intros st; [reflexivity|]. cbn [RKShortModel.deviate_all deviate_all]. rewrite t_deviate. destruct (deviate n G dst P sps st i) as [st'|]; [|reflexivity]. cbn [injr bind]. apply IH.
Qed.
Lemma t_del cur X : RKShortModel.del_x cur (map injx X) = map injx (del_x cur X).
Proof. induction X as [|x X IH]; [reflexivity|]. cbn [map RKShortModel.del_x del_x]. change (fst (injx x)) with (fst x). destruct (fst x =? cur); [reflexivity|]. cbn [map]. rewrite IH. reflexivity. Qed.
Lemma t_min X : forall x0, RKShortModel.min_x (injx x0) (map injx X) = injx (min_x x0 X).
Proof.
  induction X as [|x X IH]; intros x0; [reflexivity|]. unfold RKShortModel.min_x, min_x in *. cbn [map fold_left]. change (snd (injx x0)) with (inj (snd x0)). change (snd (injx x)) with (inj (snd x)). rewrite t_gt. destruct (egt (snd x0) (snd x)); apply IH.
Qed.
Lemma t_loop k : forall fuel cur st sps cs, RKShortModel.k_loop n H dst fuel k cur (injst st) sps (map inj cs) = injr (fun x => (fst x, map inj (snd x))) (k_loop n G dst fuel k cur st sps cs).
Proof.
  induction fuel as [|f IH]; intros cur st sps cs; cbn [RKShortModel.k_loop k_loop]; change (RKShortModel.kX (injst st)) with (map injx (kX st)); rewrite map_length; destruct (negb (length sps <? k) || (length (kX st) =? 0)); try reflexivity.
  cbn [RKShortModel.kP RKShortModel.kS kP kS]. change (RKShortModel.kP (injst st)) with (map injp (kP st)). change (RKShortModel.kS (injst st)) with (kS st). rewrite nth_error_map. destruct (nth_error (kP st) cur) as [[P c0]|]; [|reflexivity]. cbn [option_map injp fst snd].
  destruct (nth_error (kS st) cur) as [w|]; [|reflexivity]. change (RKShortModel.last_pos w P) with (last_pos w P). destruct (last_pos w P) as [wi|]; [|reflexivity].
  rewrite t_del. change {| RKShortModel.kP := map injp (kP st); RKShortModel.kS := kS st; RKShortModel.kX := map injx (del_x cur (kX st)) |} with (injst {| kP := kP st; kS := kS st; kX := del_x cur (kX st) |}).
  rewrite t_devall. destruct (deviate_all n G dst P sps _ _) as [st2|]; [|reflexivity]. cbn [injr bind]. change (RKShortModel.kX (injst st2)) with (map injx (kX st2)). destruct (kX st2) as [|x0 X] eqn:EX; cbn [map].
  - apply IH.
  - rewrite t_min. change (fst (injx (min_x x0 X))) with (fst (min_x x0 X)). change (RKShortModel.kP (injst st2)) with (map injp (kP st2)). rewrite nth_error_map. destruct (nth_error (kP st2) (fst (min_x x0 X))) as [[p c]|]; [|reflexivity]. cbn [option_map injp fst snd].
    change [inj c] with (map inj [c]). rewrite <- map_app. apply IH.
Qed.
End T.
Theorem t_kshortest si c k : RKShortModel.k_shortest si (map inj c) k = injr (fun x => (fst x, map inj (snd x))) (k_shortest si c k).
Proof.
  unfold RKShortModel.k_shortest, k_shortest. destruct (k =? 0); [reflexivity|]. cbv zeta. rewrite map_length.
  assert (H0 : RBase.Fin 0 = inj (Fin 0)) by (cbn [inj]; rewrite t_q0; reflexivity).
  assert (HV : forall l i, RKShortModel.vec (map inj l) i = inj (vec l i)) by (intros l i; unfold RKShortModel.vec, vec; rewrite H0; apply map_nth).
  assert (S : same (cost_pad (length c) (map (vec c) si)) (RKShortModel.cost_pad (length c) (map (RKShortModel.vec (map inj c)) si))).
  { intros u v. unfold cost_pad, RKShortModel.cost_pad. destruct (v =? S (length c)); [destruct (u <=? length c); [cbn [inj]; rewrite t_eps; reflexivity|exact H0]|]. destruct ((1 <=? v) && (v <=? length c) && (u <? v)); [|exact H0].
    rewrite (map_ext _ (fun i => inj (vec c i))) by (intros i; apply HV). rewrite <- (map_map (vec c) inj). apply HV. }
  unfold RKShortModel.k_helper, k_helper. rewrite (t_bfm _ _ _ _ _ S). destruct (bfm _ _ 0 (Datatypes.S (length c))) as [[d p]|]; [|reflexivity]. cbn [injr bind fst snd]. destruct p as [|v p]; [reflexivity|].
  change {| RKShortModel.kP := [(v :: p, inj d)]; RKShortModel.kS := [v]; RKShortModel.kX := [(0, inj d)] |} with (injst {| kP := [(v :: p, d)]; kS := [v]; kX := [(0, d)] |}). change [inj d] with (map inj [d]).
  rewrite (t_loop _ _ _ _ S). destruct (k_loop _ _ _ k k 0 _ _ _) as [[ps cs]|]; [|reflexivity]. cbn [injr bind fst snd]. reflexivity.
Qed.
