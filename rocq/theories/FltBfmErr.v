(** Rounding errors of accumulated path costs in double precision. *)
From Coq Require Import Reals ZArith Lia Lra Permutation Sorted.
From Flocq Require Import Core Relative.
From Verif Require Import RBase RBfmModel RBfmSpec RBfmProofs RKShortModel RKShortSpec RKShortProofs
  FltIeee FltGibbs FltGibbsProps FltNear FltOspa FltPhd FltPhdMerge FltBfmModel FltBfmSpec FltBfm FltKShort.
Local Open Scope R_scope.

Lemma cost64 : cost_addition add64 fmt.
Proof.
  split; [apply generic_format_0|]. split; [intros a w _; apply rnd_fmt|].
  intros a b w _ _ H. apply rnd64_mono. lra.
Qed.
Lemma grow64 a w : fmt a -> 0 <= w -> a <= add64 a w.
Proof. intros Ha Hw. rewrite <- (rnd_fix a Ha) at 1. apply rnd64_mono. lra. Qed.
Lemma add64_zero a : fmt a -> add64 a 0 = a.
Proof. intros H. unfold add64. rewrite Rplus_0_r. apply rnd_fix, H. Qed.

(** Every finite link cost along the node list is a double. *)
Fixpoint fmt_links (G : nat -> nat -> ext) (p : list nat) : Prop :=
  match p with
  | u :: ((v :: _) as t) => fmt (fin_val (G u v)) /\ fmt_links G t
  | _ => True
  end.
Lemma path_abs_nonneg G : forall p, 0 <= path_abs G p.
Proof.
  induction p as [|u [|v t] IH]; [apply Rle_refl|apply Rle_refl|].
  change (path_abs G (u :: v :: t)) with (Rabs (fin_val (G u v)) + path_abs G (v :: t)).
  pose proof (Rabs_pos (fin_val (G u v))). lra.
Qed.
Lemma ws_err G : forall p x, fmt x -> fmt_links G p ->
  Rabs (walk_sum add64 x G p - (x + path_cost G p)) <= (g (length p - 1) - 1) * (Rabs x + path_abs G p).
Proof.
  induction p as [|u [|v t] IH]; intros x Hx Hl.
  - change (walk_sum add64 x G []) with x. change (path_cost G []) with 0. cbn [length]. change (0 - 1)%nat with 0%nat.
    replace (x - (x + 0)) with 0 by ring. rewrite Rabs_R0. change (g 0) with 1. lra.
  - change (walk_sum add64 x G [u]) with x. change (path_cost G [u]) with 0. cbn [length]. change (1 - 1)%nat with 0%nat.
    replace (x - (x + 0)) with 0 by ring. rewrite Rabs_R0. change (g 0) with 1. lra.
  - destruct Hl as [Hw Hl]. change (path_cost G (u :: v :: t)) with (fin_val (G u v) + path_cost G (v :: t)).
    change (path_abs G (u :: v :: t)) with (Rabs (fin_val (G u v)) + path_abs G (v :: t)). rewrite ws_cons.
    set (w := fin_val (G u v)) in *. specialize (IH (add64 x w) (rnd_fmt _) Hl).
    replace (length (u :: v :: t) - 1)%nat with (S (length (v :: t) - 1)) by (cbn [length]; lia). rewrite g_S.
    set (m := (length (v :: t) - 1)%nat) in *. pose proof (add_err x w Hx Hw) as E. pose proof (g_pos m) as Gp.
    pose proof (path_abs_nonneg G (v :: t)) as PA. pose proof u64_pos as U. pose proof (Rabs_triang x w) as T.
    set (z := add64 x w) in *. set (pa := path_abs G (v :: t)) in *. set (pc := path_cost G (v :: t)) in *.
    set (W := walk_sum add64 z G (v :: t)) in *. clearbody z pa pc W.
    assert (Hz : Rabs z <= (1 + u64) * (Rabs x + Rabs w)).
    { replace z with ((z - (x + w)) + (x + w)) by ring. eapply Rle_trans; [apply Rabs_triang|].
      assert (u64 * Rabs (x + w) <= u64 * (Rabs x + Rabs w)) by (apply Rmult_le_compat_l; lra). lra. }
    replace (W - (x + (w + pc))) with ((W - (z + pc)) + (z - (x + w))) by ring.
    eapply Rle_trans; [apply Rabs_triang|].
    assert (H1 : (g m - 1) * (Rabs z + pa) <= (g m - 1) * ((1 + u64) * (Rabs x + Rabs w + pa))).
    { apply Rmult_le_compat_l; [lra|]. assert (0 <= u64 * pa) by (apply Rmult_le_pos; lra). lra. }
    assert (H2 : u64 * Rabs (x + w) <= u64 * (Rabs x + Rabs w + pa)) by (apply Rmult_le_compat_l; lra).
    assert (H3 : (g m * (1 + u64) - 1) * (Rabs x + (Rabs w + pa)) =
      (g m - 1) * ((1 + u64) * (Rabs x + Rabs w + pa)) + u64 * (Rabs x + Rabs w + pa)) by ring.
    lra.
Qed.
(** In round numbers: [m u] for at most [m] nodes. *)
Lemma ws_err_lin G p m : fmt_links G p -> (length p <= m)%nat -> INR m * u64 <= / 4 ->
  Rabs (walk_sum add64 0 G p - path_cost G p) <= 2 * (INR m * u64) * path_abs G p.
Proof.
  intros Hl Hm Hu. pose proof (ws_err G p 0 (generic_format_0 _ _) Hl) as E. rewrite Rabs_R0, !Rplus_0_l in E.
  eapply Rle_trans; [exact E|]. apply Rmult_le_compat_r; [apply path_abs_nonneg|].
  pose proof (g_lin m Hu). assert (g (length p - 1) <= g m) by (apply FltGibbs.g_mono; lia). lra.
Qed.
Lemma doubles_fmt_links n G : (forall u v w, (u < n)%nat -> (v < n)%nat -> G u v = Fin w -> rep64 w) ->
  forall p, Forall (fun v => (v < n)%nat) p -> fmt_links G p.
Proof.
  intros H. induction p as [|u [|v t] IH]; intros Hf; [exact Logic.I|exact Logic.I|].
  inversion Hf as [|? ? Hu Hf']; subst. split; [|apply IH, Hf']. inversion Hf'; subst.
  destruct (G u v) as [w|] eqn:E; cbn [fin_val]; [|apply generic_format_0]. apply rep64_fmt, (H u v w); assumption.
Qed.
Lemma nonneg_abs n G : nonneg_links n G -> forall p, Forall (fun v => (v < n)%nat) p -> path_abs G p = path_cost G p.
Proof.
  intros H. induction p as [|u [|v t] IH]; intros Hf; [reflexivity|reflexivity|].
  inversion Hf as [|? ? Hu Hf']; subst. inversion Hf'; subst.
  change (path_cost G (u :: v :: t)) with (fin_val (G u v) + path_cost G (v :: t)).
  change (path_abs G (u :: v :: t)) with (Rabs (fin_val (G u v)) + path_abs G (v :: t)).
  rewrite (IH Hf'). f_equal. apply Rabs_pos_eq.
  destruct (G u v) as [w|] eqn:E; cbn [fin_val]; [|apply Rle_refl]. apply (H u v w); assumption.
Qed.
Lemma nonneg_nnc n G : nonneg_links n G -> no_negative_cycle n G.
Proof.
  intros H. apply (potential_no_negative_cycle n G (fun _ => 0)). intros u v w Hu Hv E _. specialize (H u v w Hu Hv E). lra.
Qed.
Lemma no_shrink64 n G : forward_links n G \/ nonneg_links n G -> no_shrinking_cycle add64 fmt n G.
Proof.
  intros [H|H]; [apply forward_no_shrink, H|]. apply nonneg_no_shrink; [exact cost64|exact grow64|exact H].
Qed.

(** ** Costs of the paths of [k_shortest] *)
Section K.
Context (c : list ext) (si : list nat).
Hypothesis Hsi : Permutation si (seq 0 (length c)).
Local Notation n := (length c).
Local Notation G := (cost_pad (length c) (map (vec c) si)).
Local Notation valof := (fun x => fin_val (entry c (nth (x - 1) si 0%nat))).
Lemma mid_ws add : forall mid u z, (u < S n)%nat -> incr (u :: mid ++ [S n]) ->
  walk_sum add z G (u :: mid ++ [S n]) = add (fold_left add (map valof mid) z) eps.
Proof.
  induction mid as [|v mid IH]; intros u z Hu Hi.
  - cbn [app map fold_left]. rewrite ws_cons. rewrite (G_sink c si) by lia. reflexivity.
  - cbn [app map fold_left]. rewrite ws_cons. inversion Hi as [|? ? H1 H2]; subst. cbn [app] in H1. inversion H2; subst.
    assert (Hv : (v < S n)%nat). { inversion H1 as [|? ? _ Hf]; subst. apply Forall_app in Hf as [_ Hf]. inversion Hf; assumption. }
    rewrite IH by assumption. rewrite (G_state c si Hsi) by lia. reflexivity.
Qed.
Lemma mid_abs : forall mid u, (u < S n)%nat -> incr (u :: mid ++ [S n]) ->
  path_abs G (u :: mid ++ [S n]) = rsum (map (fun x => Rabs (valof x)) mid) + eps.
Proof.
  induction mid as [|v mid IH]; intros u Hu Hi.
  - cbn [app map]. change (path_abs G [u; S n]) with (Rabs (fin_val (G u (S n))) + 0).
    rewrite (G_sink c si) by lia. cbn [fin_val]. rewrite Rabs_pos_eq by (unfold eps; lra). unfold rsum. cbn [fold_right]. lra.
  - cbn [app map]. change (path_abs G (u :: v :: mid ++ [S n])) with (Rabs (fin_val (G u v)) + path_abs G (v :: mid ++ [S n])).
    inversion Hi as [|? ? H1 H2]; subst. cbn [app] in H1. inversion H2; subst.
    assert (Hv : (v < S n)%nat). { inversion H1 as [|? ? _ Hf]; subst. apply Forall_app in Hf as [_ Hf]. inversion Hf; assumption. }
    rewrite IH by assumption. rewrite (G_state c si Hsi) by lia. unfold rsum. cbn [fold_right]. lra.
Qed.
(** A source-sink path as its states. *)
Lemma path_mid p : is_path (n + 2) G 0 (S n) p -> exists mid, p = 0%nat :: mid ++ [S n] /\ incr (0%nat :: mid ++ [S n]) /\
  (length mid <= n)%nat /\ post c si p = map (fun x => nth (x - 1) si 0%nat) mid.
Proof.
  intros Hp.
  assert (Hi : incr p) by (destruct Hp as [F [L _]]; eapply dag_incr; [|exact F|exact L]; apply (restr_dag c si), restr_G).
  destruct (path_snoc_form _ _ _ _ _ Hp) as [a ->]. destruct (path_cons_form _ _ _ _ _ Hp) as [b Eb].
  destruct a as [|x mid]; [cbn [app] in Eb; inversion Eb|]. cbn [app] in *. inversion Eb; subst x.
  exists mid. split; [reflexivity|]. split; [exact Hi|]. split.
  - pose proof (incr_NoDup _ Hi) as Hnd. apply NoDup_incl_length with (l' := seq 0 (n + 2)) in Hnd.
    + rewrite seq_length in Hnd. cbn [length] in Hnd. rewrite app_length in Hnd. cbn [length] in Hnd. lia.
    + intros y Hy. destruct Hp as [Hf _]. rewrite Forall_forall in Hf. apply in_seq. specialize (Hf y Hy). lia.
  - unfold post. destruct (list_eqb (0%nat :: mid ++ [S n]) [0%nat; S n]) eqn:E.
    + apply list_eqb_eq in E. inversion E as [E']. destruct mid as [|y mid]; [reflexivity|].
      cbn [app] in E'. inversion E' as [[E1 E2]]. destruct mid; discriminate.
    + cbn [tl]. rewrite removelast_last. reflexivity.
Qed.
End K.
