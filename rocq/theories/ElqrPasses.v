(** The passes of one turn satisfy the recursion of ElqrSpec.turn. *)
From Verif Require Import Base Lists.
From Coq Require Import Reals Lra.
From Verif Require Import OspaModel OspaProofs GuidModel GuidSpec GuidProofs ElqrModel ElqrSpec ElqrProofs ElqrInit ElqrProps.
Open Scope R_scope.

Lemma get_inv {A} (l : list A) k x : get l k = Ok x -> nth_error l k = Some x.
Proof. unfold get. destruct (nth_error l k); intro H; [now injection H as ->|easy]. Qed.
(** [l'] is [l] with entry [k] set to [v]. *)
Definition upd_at {A} (l : list A) (k : nat) (v : A) (l' : list A) : Prop := nth_error l' k = Some v /\ forall j, j <> k -> nth_error l' j = nth_error l j.
Lemma setl_inv {A} (l : list A) k v l' : setl l k v = Ok l' -> upd_at l k v l' /\ length l' = length l.
Proof.
  intro H. destruct (Nat.lt_ge_cases k (length l)) as [Hk|Hk].
  - destruct (setl_lt l k v Hk) as [l1 [E [L1 [L2 L3]]]]. rewrite E in H. injection H as <-. split; [now split|exact L1].
  - unfold setl in H. destruct (Nat.ltb_spec k (length l)); [lia|easy].
Qed.
Lemma mapM_nth {A B} (f : A -> result B) l : forall l', mapM f l = Ok l' -> length l' = length l /\ forall i y, nth_error l' i = Some y -> exists x, nth_error l i = Some x /\ f x = Ok y.
Proof.
  induction l as [|a l IH]; intros l' H; cbn [mapM] in H.
  - injection H as <-. split; [reflexivity|]. intros [|i] y Hy; easy.
  - apply bind_ok in H as [b [Hb H]]. apply bind_ok in H as [bs [Hbs H]]. injection H as <-. destruct (IH _ Hbs) as [L K]. cbn [length]. split; [congruence|].
    intros [|i] y Hy; cbn [nth_error] in *; [injection Hy as <-; now exists a|now apply K].
Qed.
Lemma index_nth {A} (l : list A) i j x : nth_error (index l) i = Some (j, x) -> j = i /\ nth_error l i = Some x.
Proof.
  unfold index. intro H. apply nth_error_combine in H as [H1 H2]. split; [|exact H2].
  assert (Hi : (i < length (seq 0 (length l)))%nat) by (apply nth_error_Some; congruence).
  rewrite nth_error_nth' with (d := 0%nat) in H1 by exact Hi. rewrite seq_length in Hi. rewrite seq_nth in H1 by exact Hi. now injection H1 as <-.
Qed.
Lemma index_length {A} (l : list A) : length (index l) = length l.
Proof. unfold index. rewrite combine_length, seq_length. lia. Qed.
Lemma row_write_inv dim w r fb ff x u : row_write w r (policy_val dim fb ff x) = Ok u -> control_of dim fb ff x u.
Proof.
  unfold row_write, control_of, policy_val. destruct (r =? w)%nat; intro H; [injection H as <-; now left|].
  destruct (r =? 1)%nat; [injection H as <-; now right|easy].
Qed.
Lemma nth_error_len {A B} (l : list A) (l' : list B) i y : length l' = length l -> nth_error l' i = Some y -> exists x, nth_error l i = Some x.
Proof.
  intros L H. assert (Hi : (i < length l)%nat) by (rewrite <- L; apply nth_error_Some; congruence).
  destruct (nth_error l i) as [x|] eqn:E; [now exists x|]. apply nth_error_None in E. lia.
Qed.

Lemma last_row_stepped fs x u : last_row fs x u = stepped fs x u.
Proof.
  apply FunctionalExtensionality.functional_extensionality. intros j. unfold last_row, stepped. revert j.
  induction fs as [|f fs IH]; intros [|j]; cbn [nth_error map nth]; try reflexivity. apply IH.
Qed.
Section Q.
Variables (dim : nat) (inv : mat -> mat) (h : nat) (tg : gmx) (fwd bwd : pass_in -> result pass_out).
Variable qfinal : vec -> vec -> option vec -> result (mat * mat).

(** Everything but the controls. *)
Record same (e e' : eobj) : Prop := { S_m : g_means (e_obj e') = g_means (e_obj e); S_fb : g_fb (e_obj e') = g_fb (e_obj e); S_ff : g_ff (e_obj e') = g_ff (e_obj e);
  S_ccm : g_ccm (e_obj e') = g_ccm (e_obj e); S_ccv : g_ccv (e_obj e') = g_ccv (e_obj e); S_cgm : g_cgm (e_obj e') = g_cgm (e_obj e); S_cgv : g_cgv (e_obj e') = g_cgv (e_obj e);
  S_inv : g_inv (e_obj e') = g_inv (e_obj e) }.
Lemma update_inv kk src e e' : update_ctl dim kk src e = Ok e' ->
  same e e' /\ exists fb ff x u, nth_error (g_fb (e_obj e)) kk = Some fb /\ nth_error (g_ff (e_obj e)) kk = Some ff /\ nth_error (g_means (e_obj e)) src = Some x /\
    control_of dim fb ff x u /\ upd_at (ctl_rows e) kk u (ctl_rows e').
Proof.
  unfold update_ctl. intro H.
  apply bind_ok in H as [fb [E1 H]]. apply bind_ok in H as [x [E2 H]]. apply bind_ok in H as [ff [E3 H]]. apply bind_ok in H as [r [E4 H]].
  apply bind_ok in H as [u [E5 H]]. apply bind_ok in H as [u0 [E6 H]]. apply bind_ok in H as [v [E7 H]]. apply bind_ok in H as [rows [E8 H]]. injection H as <-.
  apply get_inv in E1, E2, E3. apply row_write_inv in E7. apply setl_inv in E8 as [E8 _]. split; [constructor; reflexivity|].
  exists fb, ff, x, v. repeat split; try assumption.
  - unfold ctl_rows. cbn [e_obj with_ctl g_ctrl_input u_rows]. apply E8.
  - unfold ctl_of in E5. unfold ctl_rows. cbn [e_obj with_ctl g_ctrl_input u_rows]. destruct (g_ctrl_input (e_obj e)) as [u'|]; [|easy]. injection E5 as ->. apply E8.
Qed.
(** The arguments of a pass. *)
Definition args_of (kk src : nat) (xs all : list vec) (ii : nat) (e : eobj) (a : pass_in) : Prop :=
  p_kk a = kk /\ p_num a = ii /\ p_all a = all /\ row xs ii (p_start a) /\ row (g_means (e_obj e)) src (p_x a) /\ row (ctl_rows e) kk (p_u a) /\
  row (g_fb (e_obj e)) kk (p_fb a) /\ row (g_ff (e_obj e)) kk (p_ff a) /\ row (g_ccm (e_obj e)) kk (p_ccm a) /\ row (g_ccv (e_obj e)) kk (p_ccv a) /\
  row (g_cgm (e_obj e)) (S kk) (p_cgm a) /\ row (g_cgv (e_obj e)) (S kk) (p_cgv a).
Lemma pass_args_inv kk src xs all ii e a : pass_args kk src xs all ii e = Ok a -> args_of kk src xs all ii e a.
Proof.
  unfold pass_args. rewrite Nat.add_1_r. intro H.
  apply bind_ok in H as [x [E1 H]]. apply bind_ok in H as [u [E2 H]]. apply bind_ok in H as [uk [E3 H]]. apply bind_ok in H as [fb [E4 H]]. apply bind_ok in H as [ff [E5 H]].
  apply bind_ok in H as [c1 [E6 H]]. apply bind_ok in H as [c2 [E7 H]]. apply bind_ok in H as [c3 [E8 H]]. apply bind_ok in H as [c4 [E9 H]]. apply bind_ok in H as [s [E10 H]]. injection H as <-.
  apply get_inv in E1, E3, E4, E5, E6, E7, E8, E9, E10. unfold args_of, row. cbn [p_kk p_num p_all p_start p_x p_u p_fb p_ff p_ccm p_ccv p_cgm p_cgv].
  repeat split; try assumption. unfold ctl_of in E2. unfold ctl_rows. destruct (g_ctrl_input (e_obj e)) as [u'|]; [|easy]. injection E2 as ->. exact E3.
Qed.
Lemma forward_inv kk xs all ii e e' : forward_obj fwd kk xs all (ii, e) = Ok e' -> exists a q, args_of kk kk xs all ii e a /\ fwd a = Ok q /\
  upd_at (g_means (e_obj e)) (S kk) (q_x q) (g_means (e_obj e')) /\ upd_at (g_fb (e_obj e)) kk (q_fb q) (g_fb (e_obj e')) /\ upd_at (g_ff (e_obj e)) kk (q_ff q) (g_ff (e_obj e')) /\
  upd_at (g_ccm (e_obj e)) (S kk) (q_m q) (g_ccm (e_obj e')) /\ upd_at (g_ccv (e_obj e)) (S kk) (q_v q) (g_ccv (e_obj e')) /\
  g_cgm (e_obj e') = g_cgm (e_obj e) /\ g_cgv (e_obj e') = g_cgv (e_obj e) /\ g_inv (e_obj e') = g_inv (e_obj e) /\ length (g_means (e_obj e')) = length (g_means (e_obj e)) /\
  length (g_ccm (e_obj e')) = length (g_ccm (e_obj e)) /\ length (g_ccv (e_obj e')) = length (g_ccv (e_obj e)).
Proof.
  unfold forward_obj. rewrite Nat.add_1_r. intro H.
  apply bind_ok in H as [a [E1 H]]. apply bind_ok in H as [q [E2 H]]. apply bind_ok in H as [l1 [E3 H]]. apply bind_ok in H as [l2 [E4 H]]. apply bind_ok in H as [l3 [E5 H]].
  apply bind_ok in H as [l4 [E6 H]]. apply bind_ok in H as [l5 [E7 H]]. apply bind_ok in H as [l6 [E8 H]]. injection H as <-.
  apply pass_args_inv in E1. apply setl_inv in E3 as [E3 _], E4 as [E4 _], E6 as [E6 L6], E7 as [E7 L7], E8 as [E8 L8].
  exists a, q. cbn [e_obj with_lists g_means g_fb g_ff g_ccm g_ccv g_cgm g_cgv g_inv]. now repeat (split; [assumption || reflexivity|]).
Qed.
Lemma backward_inv kk xs all ii e e' : backward_obj bwd kk xs all (ii, e) = Ok e' -> exists a q, args_of kk (S kk) xs all ii e a /\ bwd a = Ok q /\
  upd_at (g_means (e_obj e)) kk (q_x q) (g_means (e_obj e')) /\ upd_at (g_fb (e_obj e)) kk (q_fb q) (g_fb (e_obj e')) /\ upd_at (g_ff (e_obj e)) kk (q_ff q) (g_ff (e_obj e')) /\
  upd_at (g_cgm (e_obj e)) kk (q_m q) (g_cgm (e_obj e')) /\ upd_at (g_cgv (e_obj e)) kk (q_v q) (g_cgv (e_obj e')) /\
  g_ccm (e_obj e') = g_ccm (e_obj e) /\ g_ccv (e_obj e') = g_ccv (e_obj e) /\ g_inv (e_obj e') = g_inv (e_obj e) /\ ctl_rows e' = ctl_rows e.
Proof.
  unfold backward_obj. rewrite Nat.add_1_r. intro H.
  apply bind_ok in H as [a [E1 H]]. apply bind_ok in H as [q [E2 H]]. apply bind_ok in H as [l1 [E3 H]]. apply bind_ok in H as [l2 [E4 H]]. apply bind_ok in H as [l3 [E5 H]].
  apply bind_ok in H as [l4 [E6 H]]. apply bind_ok in H as [l5 [E7 H]]. apply bind_ok in H as [l6 [E8 H]]. injection H as <-.
  apply pass_args_inv in E1. apply setl_inv in E3 as [E3 _], E4 as [E4 _], E6 as [E6 L6], E7 as [E7 L7], E8 as [E8 L8].
  exists a, q. unfold ctl_rows. cbn [e_obj with_lists g_means g_fb g_ff g_ccm g_ccv g_cgm g_cgv g_inv g_ctrl_input]. now repeat (split; [assumption || reflexivity|]).
Qed.

(** * Forward *)
Section F.
Variables (xs : list vec) (es0 : list eobj).
(** Object [i] after the forward steps [0 .. n-1]. *)
Definition FK (all_es : list eobj) (i k : nat) (e0 e : eobj) : Prop := exists a q, fwd a = Ok q /\ p_kk a = k /\ p_num a = i /\ row xs i (p_start a) /\
  row (g_means (e_obj e)) k (p_x a) /\ control_of dim (p_fb a) (p_ff a) (p_x a) (p_u a) /\ row (g_fb (e_obj e0)) k (p_fb a) /\ row (g_ff (e_obj e0)) k (p_ff a) /\
  row (g_ccm (e_obj e)) k (p_ccm a) /\ row (g_ccv (e_obj e)) k (p_ccv a) /\ row (g_cgm (e_obj e0)) (S k) (p_cgm a) /\ row (g_cgv (e_obj e0)) (S k) (p_cgv a) /\
  (forall j ej, row all_es j ej -> nth_error (p_all a) j = nth_error (g_means (e_obj ej)) k) /\
  row (g_means (e_obj e)) (S k) (q_x q) /\ row (g_ccm (e_obj e)) (S k) (q_m q) /\ row (g_ccv (e_obj e)) (S k) (q_v q) /\
  row (g_fb (e_obj e)) k (q_fb q) /\ row (g_ff (e_obj e)) k (q_ff q).
Definition FINV (n : nat) (es : list eobj) : Prop := length es = length es0 /\ forall i e0 e, row es0 i e0 -> row es i e ->
  g_cgm (e_obj e) = g_cgm (e_obj e0) /\ g_cgv (e_obj e) = g_cgv (e_obj e0) /\ nth_error (g_means (e_obj e)) 0 = nth_error (g_means (e_obj e0)) 0 /\
  (forall k, (n <= k)%nat -> nth_error (g_fb (e_obj e)) k = nth_error (g_fb (e_obj e0)) k /\ nth_error (g_ff (e_obj e)) k = nth_error (g_ff (e_obj e0)) k) /\
  forall k, (k < n)%nat -> FK es i k e0 e.
Lemma FINV_0 : FINV 0 es0.
Proof. split; [reflexivity|]. intros i e0 e H H'. unfold row in *. rewrite H in H'. injection H' as <-. repeat split; lia. Qed.
Lemma FINV_step n es es' : FINV n es -> forward_step dim fwd xs es n = Ok es' -> FINV (S n) es'.
Proof.
  intros [HL H] E. unfold forward_step in E. apply bind_ok in E as [cur [Ecur E]]. apply bind_ok in E as [es1 [E1 E2]].
  apply mapM_nth in Ecur as [Lc Kc], E1 as [L1 K1], E2 as [L2 K2]. rewrite index_length in L2.
  assert (HL' : length es' = length es) by congruence.
  (* what happened to each object *)
  assert (St : forall i e', row es' i e' -> exists e e1 a q, row es i e /\ update_ctl dim n n e = Ok e1 /\ args_of n n xs cur i e1 a /\ fwd a = Ok q /\
    upd_at (g_means (e_obj e)) (S n) (q_x q) (g_means (e_obj e')) /\ upd_at (g_fb (e_obj e)) n (q_fb q) (g_fb (e_obj e')) /\ upd_at (g_ff (e_obj e)) n (q_ff q) (g_ff (e_obj e')) /\
    upd_at (g_ccm (e_obj e)) (S n) (q_m q) (g_ccm (e_obj e')) /\ upd_at (g_ccv (e_obj e)) (S n) (q_v q) (g_ccv (e_obj e')) /\
    g_cgm (e_obj e') = g_cgm (e_obj e) /\ g_cgv (e_obj e') = g_cgv (e_obj e) /\ same e e1 /\
    exists fb ff x u, nth_error (g_fb (e_obj e)) n = Some fb /\ nth_error (g_ff (e_obj e)) n = Some ff /\ nth_error (g_means (e_obj e)) n = Some x /\
    control_of dim fb ff x u /\ upd_at (ctl_rows e) n u (ctl_rows e1)).
  { intros i e' He'. destruct (K2 i e' He') as [[j e1] [Hi Hf]]. apply index_nth in Hi as [-> Hi]. destruct (K1 i e1 Hi) as [e [He Hu]].
    apply forward_inv in Hf as [a [q [A1 [A2 [A3 [A4 [A5 [A6 [A7 [A8 [A9 _]]]]]]]]]]]. assert (Hu' := Hu). apply update_inv in Hu' as [Sm Hc].
    rewrite (S_m _ _ Sm) in A3. rewrite (S_fb _ _ Sm) in A4. rewrite (S_ff _ _ Sm) in A5. rewrite (S_ccm _ _ Sm) in A6. rewrite (S_ccv _ _ Sm) in A7. rewrite (S_cgm _ _ Sm) in A8. rewrite (S_cgv _ _ Sm) in A9.
    exists e, e1, a, q. now repeat (split; [assumption|]). }
  assert (Cur : forall j ej, row es j ej -> nth_error cur j = nth_error (g_means (e_obj ej)) n).
  { intros j ej Hj. destruct (nth_error_len cur es j ej) as [y Hy]; [congruence|exact Hj|]. destruct (Kc j y Hy) as [e [He Hg]]. unfold row in Hj. rewrite Hj in He. injection He as <-.
    apply get_inv in Hg. congruence. }
  assert (Mean : forall j ej' , row es' j ej' -> exists ej, row es j ej /\ forall k, (k <= n)%nat -> nth_error (g_means (e_obj ej')) k = nth_error (g_means (e_obj ej)) k).
  { intros j ej' Hj. destruct (St j ej' Hj) as [e [e1 [a [q [He [_ [_ [_ [[_ U] _]]]]]]]]]. exists e. split; [exact He|]. intros k Hk. apply U. lia. }
  split; [congruence|]. intros i e0 e' H0 He'.
  destruct (St i e' He') as (e & e1 & a & q & He & Hup & Ha & Hq & [M1 M2] & [FB1 FB2] & [FF1 FF2] & [CM1 CM2] & [CV1 CV2] & G1 & G2 & Sm & fb & ff & x & u & Q1 & Q2 & Q3 & Q4 & Q5 & _).
  destruct (H i e0 e H0 He) as [I1 [I2 [I3 [I4 I5]]]].
  split; [congruence|]. split; [congruence|]. split; [rewrite M2 by lia; exact I3|]. split.
  { intros k Hk. rewrite FB2, FF2 by lia. apply I4. lia. }
  intros k Hk. destruct (Nat.eq_dec k n) as [->|Nk].
  - destruct Ha as [B1 [B2 [B3 [B4 [B5 [B6 [B7 [B8 [B9 [B10 [B11 B12]]]]]]]]]]]. unfold row in *.
    rewrite (S_m _ _ Sm) in B5. rewrite (S_fb _ _ Sm) in B7. rewrite (S_ff _ _ Sm) in B8. rewrite (S_ccm _ _ Sm) in B9. rewrite (S_ccv _ _ Sm) in B10. rewrite (S_cgm _ _ Sm) in B11. rewrite (S_cgv _ _ Sm) in B12.
    destruct (I4 n (le_n n)) as [J1 J2].
    assert (Ec : control_of dim (p_fb a) (p_ff a) (p_x a) (p_u a)).
    { rewrite Q1 in B7. injection B7 as <-. rewrite Q2 in B8. injection B8 as <-. rewrite Q3 in B5. injection B5 as <-. rewrite Q5 in B6. injection B6 as <-. exact Q4. }
    exists a, q. unfold row. split; [exact Hq|]. split; [exact B1|]. split; [exact B2|]. split; [exact B4|]. split; [rewrite M2 by lia; exact B5|]. split; [exact Ec|].
    split; [congruence|]. split; [congruence|]. split; [rewrite CM2 by lia; exact B9|]. split; [rewrite CV2 by lia; exact B10|]. split; [congruence|]. split; [congruence|].
    split; [|now repeat (split; [assumption|])].
    intros j ej' Hj. destruct (Mean j ej' Hj) as [ej [Hej Hm]]. rewrite Hm by lia. rewrite B3. now apply Cur.
  - destruct (I5 k ltac:(lia)) as [a' [q' [B1 [B2 [B3 [B4 [B5 [B6 [B7 [B8 [B9 [B10 [B11 [B12 [B13 [B14 [B15 [B16 [B17 B18]]]]]]]]]]]]]]]]]]].
    unfold row in *. exists a', q'. unfold row.
    rewrite (M2 k), (M2 (S k)), (CM2 k), (CM2 (S k)), (CV2 k), (CV2 (S k)), (FB2 k), (FF2 k) by lia.
    repeat (split; [assumption|]). split; [|now repeat (split; [assumption|])].
    intros j ej' Hj. destruct (Mean j ej' Hj) as [ej [Hej Hm]]. rewrite Hm by lia. now apply B13.
Qed.
Lemma FINV_fold m : forall n es es', FINV n es -> foldM (forward_step dim fwd xs) (seq n m) es = Ok es' -> FINV (n + m) es'.
Proof.
  induction m as [|m IH]; intros n es es' H E; cbn [seq foldM] in E; [injection E as <-; now rewrite Nat.add_0_r|].
  apply bind_ok in E as [es1 [E1 E]]. rewrite Nat.add_succ_r. apply (IH (S n) es1 es'); [|exact E]. exact (FINV_step _ _ _ H E1).
Qed.
End F.

(** * The end of the horizon *)
Definition lens (e : eobj) : Prop := length (g_means (e_obj e)) = h /\ length (g_cgm (e_obj e)) = h /\ length (g_cgv (e_obj e)) = h /\ length (g_ccm (e_obj e)) = h /\ length (g_ccv (e_obj e)) = h.
Lemma final_inv e e' : lens e -> final_obj dim inv tg qfinal e = Ok e' ->
  turn_end dim inv qfinal (t_m tg) h (g_means (e_obj e)) (e_obj e') /\
  g_fb (e_obj e') = g_fb (e_obj e) /\ g_ff (e_obj e') = g_ff (e_obj e) /\ g_ccm (e_obj e') = g_ccm (e_obj e) /\ g_ccv (e_obj e') = g_ccv (e_obj e).
Proof.
  intros (L1 & L2 & L3 & L4 & L5) H. unfold final_obj, get_last, set_last in H. rewrite L1, L2, L3, L4, L5 in H.
  apply bind_ok in H as [x [E1 H]]. apply bind_ok in H as [u [E2 H]]. apply bind_ok in H as [uk [E3 H]]. apply bind_ok in H as [[M v] [E4 H]].
  apply bind_ok in H as [l1 [E5 H]]. apply bind_ok in H as [l2 [E6 H]]. apply bind_ok in H as [M' [E7 H]]. apply bind_ok in H as [v' [E8 H]]. apply bind_ok in H as [l3 [E9 H]]. injection H as <-.
  apply get_inv in E1, E7, E8. apply setl_inv in E5 as [[E5 _] _], E6 as [[E6 _] _], E9 as [[E9 _] _].
  cbn [e_obj with_lists g_means g_fb g_ff g_ccm g_ccv g_cgm g_cgv]. split; [|now repeat split].
  unfold turn_end, row. cbn [e_obj with_lists g_means g_fb g_ff g_ccm g_ccv g_cgm g_cgv]. eexists x, uk, M, v, M', v', _. repeat (split; [eassumption|]). intro j. reflexivity.
Qed.

(** * Backward *)
Section B.
Variables (xs : list vec) (es2 : list eobj).
Definition BK (all_es : list eobj) (i k : nat) (e2 e : eobj) : Prop := exists b r, bwd b = Ok r /\ p_kk b = k /\ p_num b = i /\ row xs i (p_start b) /\
  row (g_means (e_obj e)) (S k) (p_x b) /\ control_of dim (p_fb b) (p_ff b) (p_x b) (p_u b) /\ row (ctl_rows e) k (p_u b) /\
  row (g_fb (e_obj e2)) k (p_fb b) /\ row (g_ff (e_obj e2)) k (p_ff b) /\
  row (g_ccm (e_obj e)) k (p_ccm b) /\ row (g_ccv (e_obj e)) k (p_ccv b) /\ row (g_cgm (e_obj e)) (S k) (p_cgm b) /\ row (g_cgv (e_obj e)) (S k) (p_cgv b) /\
  (forall j ej, row all_es j ej -> exists x u, row (g_means (e_obj ej)) (S k) x /\ row (ctl_rows ej) k u /\ row (p_all b) j (stepped (g_inv (e_obj ej)) x u)) /\
  row (g_means (e_obj e)) k (q_x r) /\ row (g_fb (e_obj e)) k (q_fb r) /\ row (g_ff (e_obj e)) k (q_ff r) /\ row (g_cgm (e_obj e)) k (q_m r) /\ row (g_cgv (e_obj e)) k (q_v r).
Definition BINV (n : nat) (es : list eobj) : Prop := length es = length es2 /\ forall i e2 e, row es2 i e2 -> row es i e ->
  g_ccm (e_obj e) = g_ccm (e_obj e2) /\ g_ccv (e_obj e) = g_ccv (e_obj e2) /\
  (forall k, (h - 1 <= k)%nat -> nth_error (g_cgm (e_obj e)) k = nth_error (g_cgm (e_obj e2)) k /\ nth_error (g_cgv (e_obj e)) k = nth_error (g_cgv (e_obj e2)) k /\
      nth_error (g_means (e_obj e)) k = nth_error (g_means (e_obj e2)) k) /\
  (forall k, (k < n)%nat -> nth_error (g_fb (e_obj e)) k = nth_error (g_fb (e_obj e2)) k /\ nth_error (g_ff (e_obj e)) k = nth_error (g_ff (e_obj e2)) k) /\
  forall k, (n <= k < h - 1)%nat -> BK es i k e2 e.
Lemma BINV_0 : BINV (h - 1) es2.
Proof. split; [reflexivity|]. intros i e0 e H H'. unfold row in *. rewrite H in H'. injection H' as <-. repeat split; lia. Qed.
Lemma BINV_step n es es' : (n < h - 1)%nat -> BINV (S n) es -> backward_step dim bwd xs es n = Ok es' -> BINV n es'.
Proof.
  intros Hn [HL H] E. unfold backward_step in E. apply bind_ok in E as [ps [Eps E2]].
  apply mapM_nth in Eps as [L1 K1], E2 as [L2 K2]. rewrite index_length, map_length in L2.
  assert (HL' : length es' = length es) by congruence.
  assert (Pv : forall i e, row es i e -> exists e1 y, row ps i (e1, y) /\ backward_prev dim n e = Ok (e1, y)).
  { intros i e He. destruct (nth_error_len ps es i e) as [[e1 y] Hy]; [congruence|exact He|]. destruct (K1 i (e1, y) Hy) as [e' [He' Hp]]. unfold row in *. rewrite He in He'. injection He' as <-. now exists e1, y. }
  assert (St : forall i e', row es' i e' -> exists e e1 y a q, row es i e /\ row ps i (e1, y) /\ args_of n (S n) xs (map snd ps) i e1 a /\ bwd a = Ok q /\
    upd_at (g_means (e_obj e)) n (q_x q) (g_means (e_obj e')) /\ upd_at (g_fb (e_obj e)) n (q_fb q) (g_fb (e_obj e')) /\ upd_at (g_ff (e_obj e)) n (q_ff q) (g_ff (e_obj e')) /\
    upd_at (g_cgm (e_obj e)) n (q_m q) (g_cgm (e_obj e')) /\ upd_at (g_cgv (e_obj e)) n (q_v q) (g_cgv (e_obj e')) /\
    g_ccm (e_obj e') = g_ccm (e_obj e) /\ g_ccv (e_obj e') = g_ccv (e_obj e) /\ g_inv (e_obj e') = g_inv (e_obj e) /\ ctl_rows e' = ctl_rows e1 /\ same e e1 /\
    exists fb ff x u, nth_error (g_fb (e_obj e)) n = Some fb /\ nth_error (g_ff (e_obj e)) n = Some ff /\ nth_error (g_means (e_obj e)) (S n) = Some x /\
    control_of dim fb ff x u /\ upd_at (ctl_rows e) n u (ctl_rows e1) /\ y = stepped (g_inv (e_obj e)) x u).
  { intros i e' He'. destruct (K2 i e' He') as [[j e1] [Hi Hf]]. apply index_nth in Hi as [-> Hi].
    rewrite nth_error_map in Hi. destruct (nth_error ps i) as [[e1' y]|] eqn:Ep; [|easy]. cbn [option_map fst] in Hi. injection Hi as ->.
    destruct (K1 i (e1, y) Ep) as [e [He Hp]]. unfold backward_prev in Hp. rewrite Nat.add_1_r in Hp. apply bind_ok in Hp as [e1' [Hu Hp]].
    apply bind_ok in Hp as [x [Hx Hp]]. apply bind_ok in Hp as [cu [Hcu Hp]]. apply bind_ok in Hp as [uk [Huk Hp]].
    destruct (dim <? length (g_inv (e_obj e1')))%nat; [easy|]. injection Hp as -> Hy. rewrite last_row_stepped in Hy.
    apply backward_inv in Hf as (a & q & A1 & A2 & A3 & A4 & A5 & A6 & A7 & A8 & A9 & A10 & A11). apply update_inv in Hu as [Sm (fb & ff & x' & u & Q1 & Q2 & Q3 & Q4 & Q5)].
    apply get_inv in Hx, Huk. rewrite (S_m _ _ Sm) in Hx. rewrite Q3 in Hx. injection Hx as <-.
    assert (Eu : uk = u).
    { destruct Q5 as [Q5 _]. unfold ctl_of in Hcu. unfold ctl_rows in Q5 at 1. destruct (g_ctrl_input (e_obj e1)) as [c|]; [|easy]. injection Hcu as ->. congruence. }
    subst uk.
    rewrite (S_m _ _ Sm) in A3. rewrite (S_fb _ _ Sm) in A4. rewrite (S_ff _ _ Sm) in A5. rewrite (S_cgm _ _ Sm) in A6. rewrite (S_cgv _ _ Sm) in A7. rewrite (S_ccm _ _ Sm) in A8. rewrite (S_ccv _ _ Sm) in A9. rewrite (S_inv _ _ Sm) in A10, Hy.
    exists e, e1, y, a, q. repeat (split; [assumption|]). exists fb, ff, x', u. now repeat (split; [assumption|]). }
  (* rows of index > n are kept *)
  assert (Keep : forall j ej', row es' j ej' -> exists ej, row es j ej /\ g_inv (e_obj ej') = g_inv (e_obj ej) /\ (forall k, (n < k)%nat -> nth_error (g_means (e_obj ej')) k = nth_error (g_means (e_obj ej)) k) /\
     (forall k, k <> n -> nth_error (ctl_rows ej') k = nth_error (ctl_rows ej) k) /\
     exists x u, row (g_means (e_obj ej')) (S n) x /\ row (ctl_rows ej') n u /\ row (map snd ps) j (stepped (g_inv (e_obj ej')) x u)).
  { intros j ej' Hj. destruct (St j ej' Hj) as (e & e1 & y & a & q & He & Hps & _ & _ & [_ M2] & _ & _ & _ & _ & _ & _ & Gi & Gc & _ & fb & ff & x & u & _ & _ & Q3 & _ & [Q5 Q6] & Ey).
    exists e. split; [exact He|]. split; [exact Gi|]. split; [intros k Hk; apply M2; lia|]. split; [intros k Hk; rewrite Gc; now apply Q6|].
    exists x, u. unfold row in *. rewrite M2 by lia. split; [exact Q3|]. split; [rewrite Gc; exact Q5|]. rewrite nth_error_map, Hps. cbn [option_map snd]. now rewrite Gi, Ey. }
  split; [congruence|]. intros i e2 e' H0 He'.
  destruct (St i e' He') as (e & e1 & y & a & q & He & Hps & Ha & Hq & [M1 M2] & [FB1 FB2] & [FF1 FF2] & [CM1 CM2] & [CV1 CV2] & G1 & G2 & Gi & Gc & Sm & fb & ff & x & u & Q1 & Q2 & Q3 & Q4 & [Q5 Q6] & Ey).
  destruct (H i e2 e H0 He) as (I1 & I2 & I3 & I4 & I5).
  split; [congruence|]. split; [congruence|]. split; [intros k Hk; rewrite CM2, CV2, M2 by lia; now apply I3|]. split.
  { intros k Hk. rewrite FB2, FF2 by lia. apply I4. lia. }
  intros k Hk. destruct (Nat.eq_dec k n) as [->|Nk].
  - destruct Ha as (B1 & B2 & B3 & B4 & B5 & B6 & B7 & B8 & B9 & B10 & B11 & B12). unfold row in *.
    rewrite (S_m _ _ Sm) in B5. rewrite (S_fb _ _ Sm) in B7. rewrite (S_ff _ _ Sm) in B8. rewrite (S_ccm _ _ Sm) in B9. rewrite (S_ccv _ _ Sm) in B10. rewrite (S_cgm _ _ Sm) in B11. rewrite (S_cgv _ _ Sm) in B12.
    destruct (I4 n ltac:(lia)) as [J1 J2].
    assert (Ec : control_of dim (p_fb a) (p_ff a) (p_x a) (p_u a)).
    { rewrite Q1 in B7. injection B7 as <-. rewrite Q2 in B8. injection B8 as <-. rewrite Q3 in B5. injection B5 as <-. rewrite Q5 in B6. injection B6 as <-. exact Q4. }
    exists a, q. unfold row. split; [exact Hq|]. split; [exact B1|]. split; [exact B2|]. split; [exact B4|]. split; [rewrite M2 by lia; exact B5|]. split; [exact Ec|].
    split; [congruence|]. split; [congruence|]. split; [congruence|]. split; [congruence|]. split; [congruence|]. split; [rewrite CM2 by lia; exact B11|]. split; [rewrite CV2 by lia; exact B12|].
    split; [|now repeat (split; [assumption|])].
    intros j ej' Hj. destruct (Keep j ej' Hj) as (ej & _ & _ & _ & _ & Hx). rewrite B3. exact Hx.
  - destruct (I5 k ltac:(lia)) as (a' & q' & B1 & B2 & B3 & B4 & B5 & B6 & B7 & B8 & B9 & B10 & B11 & B12 & B13 & B14 & B15 & B16 & B17 & B18 & B19).
    unfold row in *. exists a', q'. unfold row.
    rewrite (M2 k), (M2 (S k)), (CM2 k), (CM2 (S k)), (CV2 k), (CV2 (S k)), (FB2 k), (FF2 k), Gc, (Q6 k), G1, G2 by lia.
    repeat (split; [assumption|]). split; [|now repeat (split; [assumption|])].
    intros j ej' Hj. destruct (Keep j ej' Hj) as (ej & Hej & Hi & Hm & Hcr & _). rewrite Hm, Hcr, Hi by lia. now apply B14.
Qed.
Lemma BINV_fold m : forall es es', (m <= h - 1)%nat -> BINV m es -> foldM (backward_step dim bwd xs) (rev (seq 0 m)) es = Ok es' -> BINV 0 es'.
Proof.
  induction m as [|m IH]; intros es es' Hm H E; [cbn in E; injection E as <-; exact H|].
  rewrite seq_S, rev_app_distr in E. cbn [rev app Nat.add foldM] in E. apply bind_ok in E as [es1 [E1 E]].
  apply (IH es1 es'); [lia| |exact E]. apply (BINV_step m es es1); [lia|exact H|exact E1].
Qed.
End B.

Lemma passes_turn xs es es' : (forall es1, foldM (forward_step dim fwd xs) (seq 0 (h - 1)) es = Ok es1 -> forall i e, row es1 i e -> lens e) ->
  passes dim inv h tg fwd bwd qfinal es xs = Ok es' -> turn dim inv fwd bwd qfinal (t_m tg) h xs es es'.
Proof.
  intros Hlen E. unfold passes in E. apply bind_ok in E as [es1 [E1 E]]. apply bind_ok in E as [es2 [E2 E3]].
  specialize (Hlen es1 E1). apply FINV_fold with (es0 := es) in E1; [|apply FINV_0]. cbn [Nat.add] in E1. destruct E1 as [L1 F].
  apply mapM_nth in E2 as [L2 K2]. apply BINV_fold with (es2 := es2) in E3; [|lia|apply BINV_0]. destruct E3 as [L3 B].
  split; [congruence|]. exists (map (fun e => g_means (e_obj e)) es1). split; [now rewrite map_length|].
  intros i eb ea mid Hb Ha Hm.
  assert (H2 : exists e2, row es2 i e2) by (apply (nth_error_len es2 es' i ea); [congruence|exact Ha]). destruct H2 as [e2 H2].
  destruct (K2 i e2 H2) as [e1 [H1 Hf]].
  assert (Emid : mid = g_means (e_obj e1)) by (unfold row in Hm; rewrite nth_error_map, H1 in Hm; now injection Hm as <-). subst mid.
  apply final_inv in Hf as (T & T1 & T2 & T3 & T4); [|now apply (Hlen i)].
  destruct (F i eb e1 Hb H1) as (F1 & F2 & F3 & F4 & F5). destruct (B i e2 ea H2 Ha) as (B1 & B2 & B3 & B4 & B5).
  split; [exact F3|]. split.
  { destruct T as (x & u & M & v & M' & v' & y & X1 & X2 & X3 & X4 & X5 & X6 & X7 & X8). exists x, u, M, v, M', v', y. unfold row in *.
    destruct (B3 (h - 1)%nat (le_n _)) as (Y1 & Y2 & Y3). rewrite Y1, Y2, Y3, B1, B2. now repeat (split; [assumption|]). }
  intros k Hk. destruct (F5 k ltac:(lia)) as (a & q & P1 & P2 & P3 & P4 & P5 & P6 & P7 & P8 & P9 & P10 & P11 & P12 & P13 & P14 & P15 & P16 & P17 & P18).
  destruct (B5 k ltac:(lia)) as (b & r & R1 & R2 & R3 & R4 & R5 & R6 & R7 & R8 & R9 & R10 & R11 & R12 & R13 & R14 & R15 & R16 & R17 & R18 & R19).
  unfold row in *. rewrite T1 in R8. rewrite T2 in R9. rewrite P17 in R8. injection R8 as R8. rewrite P18 in R9. injection R9 as R9.
  exists a, q, b, r. unfold row. rewrite B1, B2, T3, T4 in *.
  repeat (split; [first [assumption | congruence]|]). split.
  { intros j m Hj. rewrite nth_error_map in Hj. destruct (nth_error es1 j) as [ej|] eqn:Ej; [|easy]. injection Hj as <-. now apply P13. }
  repeat (split; [first [assumption | congruence]|]). assumption.
Qed.
End Q.

(** * C153 *)
(** Every turn of a call is one forward recursion of the cost-to-come and one
    backward recursion of the cost-to-go in the sense of ElqrSpec.turn, from the
    objects the turn before left (the first one from objects that stand still
    at the measured means). *)
Theorem C153_turns_are_recursions dim pdf inv det chi2_ppf h max_iters cost_tol thresh safety y_ref tg fwd bwd qfinal fcost gs mg dyn invd nin nom nomr es tr :
  good_call dim inv chi2_ppf thresh tg fwd bwd qfinal gs mg dyn invd nin nom nomr -> inputs_fit nin -> (2 <= h)%nat -> t_m mg <> [] ->
  iterate dim pdf inv det chi2_ppf h max_iters cost_tol thresh safety y_ref tg fwd bwd qfinal fcost gs mg dyn invd nin nom nomr = Ok (es, tr) ->
  exists start : list eobj,
    length start = length (t_m mg) /\
    (forall i e m, nth_error start i = Some e -> nth_error (t_m mg) i = Some m -> g_means (e_obj e) = repeat m h) /\
    forall k r, nth_error tr k = Some r ->
      turn dim inv fwd bwd qfinal (t_m tg) h (s_start r)
        (match k with O => start | S k' => match nth_error tr k' with Some r' => s_objs r' | None => [] end end) (s_objs r).
Proof.
  intros Hc Hin Hh Hne E.
  rewrite (loop_of_call dim pdf inv det chi2_ppf h max_iters cost_tol thresh safety y_ref tg fwd bwd qfinal fcost gs mg dyn invd nin nom nomr Hc Hne) in E.
  destruct (Nat.leb_spec 2 h) as [_|N]; [|lia].
  set (ds := map (desc_at mg dyn invd nin) (seq 0 (length (t_m mg)))).
  set (st := map (eobj_at h mg dyn invd nin nom) (seq 0 (length (t_m mg)))) in *.
  exists st. split; [unfold st; now rewrite map_length, seq_length|]. split.
  { intros i e m He Hm. assert (Hi : (i < length (t_m mg))%nat) by (apply nth_error_Some; congruence). unfold st in He. rewrite nth_error_map in He.
    rewrite nth_error_nth' with (d := 0%nat) in He by now rewrite seq_length. rewrite seq_nth in He by exact Hi. cbn [option_map Nat.add] in He. injection He as <-.
    cbn [eobj_at e_obj fresh_at fresh_obj g_means]. now rewrite (nth_error_nth _ _ _ Hm). }
  assert (Hst : Forall2 (wfe h []) ds st) by apply setup_wfe. clearbody st.
  assert (G : forall n old st0 xs0 es1 tr1, Forall2 (wfe h []) ds st0 -> length xs0 = length (t_m mg) ->
    iter_loop dim pdf inv det h cost_tol safety y_ref tg fwd bwd qfinal fcost n old st0 xs0 = Ok (es1, tr1) ->
    forall k r, nth_error tr1 k = Some r -> turn dim inv fwd bwd qfinal (t_m tg) h (s_start r)
        (match k with O => st0 | S k' => match nth_error tr1 k' with Some r' => s_objs r' | None => [] end end) (s_objs r)).
  { induction n as [|n IH]; intros old st0 xs0 es1 tr1 H0 Hx H1 k r Hk; cbn [iter_loop] in H1; [injection H1 as <- <-; now destruct k|].
    destruct (turn_ok dim pdf inv det chi2_ppf h thresh safety y_ref tg fwd bwd qfinal fcost gs mg dyn invd nin nom nomr Hc Hh Hne Hin st0 xs0 H0 Hx) as (es' & c & xs' & T1 & T2 & T3 & T4 & T5 & T6 & T7).
    rewrite T1 in H1. cbn [bind] in H1.
    assert (HT : turn dim inv fwd bwd qfinal (t_m tg) h xs0 st0 es').
    { apply passes_turn; [|exact T5]. intros es2 E2 i e He.
      destruct Hc as [F1 [F2 [F3 [F4 [G [Nm M]]]]]].
      destruct (fold_steps h (forward_step dim fwd xs0) ds (length xs0)) with (l := seq 0 (h - 1)) (dn := @nil nat) (es := st0) as [es3 [E3 H3]]; try assumption.
      { intros dn e0 kk H4 Hkk Hn. apply forward_step_ok; assumption. }
      { intros j Hj. apply in_seq in Hj. lia. }
      { rewrite Hx. rewrite <- (F2_len _ _ _ H0). unfold ds. now rewrite map_length, seq_length. }
      rewrite E2 in E3. injection E3 as <-.
      assert (W : exists d dn, wfe h dn d e).
      { clear - H3 He. revert i He. induction H3 as [|d e1 D S He1 _ IH]; intros [|i] He; try easy; cbn in He; [injection He as ->; exists d; eexists; exact He1|exact (IH i He)]. }
      destruct W as [d [dn W]]. repeat split; [apply (W_m _ _ _ _ W)|apply (W_cgm _ _ _ _ W)|apply (W_cgv _ _ _ _ W)|apply (W_ccm _ _ _ _ W)|apply (W_ccv _ _ _ _ W)]. }
    destruct (converged cost_tol old c).
    - injection H1 as <- <-. destruct k as [|[|k]]; [|easy|easy]. injection Hk as <-. exact HT.
    - apply bind_ok in H1 as [[es3 t] [H1 H2]]. injection H2 as <- <-. destruct k as [|k]; [injection Hk as <-; exact HT|]. cbn [nth_error] in Hk |- *.
      specialize (IH (Some c) es' xs' es3 t T2 T3 H1 k r Hk). destruct k as [|k]; exact IH. }
  exact (G max_iters None st (t_m mg) es tr Hst eq_refl E).
Qed.
Example C153_ex : exists es tr r, iterate 1 (fun _ _ _ => 1) (fun m => m) (fun _ => 1) (fun _ _ => 1) 4 10 (1 / 100) (95 / 100) 1 (9 / 10) one_target idle idle idle_final fdist
    [] two_gaussians [line_dyn; line_dyn] [line_inv; line_inv] [1; 1]%nat None [] = Ok (es, tr) /\ nth_error tr 0 = Some r.
Proof.
  assert (Hf : inputs_fit [1; 1]%nat) by (intros n [<-|[<-|[]]]; now left).
  assert (Hne : t_m two_gaussians <> []) by discriminate.
  destruct (C146_iterate_returns 1 (fun _ _ _ => 1) (fun m => m) (fun _ => 1) (fun _ _ => 1) 4 10 (1 / 100) (95 / 100) 1 (9 / 10) one_target idle idle idle_final fdist
    [] two_gaussians [line_dyn; line_dyn] [line_inv; line_inv] [1; 1]%nat None [] (ex_call [1; 1]%nat eq_refl) Hf ltac:(lia) Hne) as (es & tr & E & _ & _ & L3 & _).
  destruct tr as [|r tr]; [|exists es, (r :: tr), r; split; [exact E|reflexivity]].
  destruct (L3 ltac:(cbn; lia)) as [a [b [Hk _]]]. cbn in Hk. lia.
Qed.
Print Assumptions C153_turns_are_recursions.

(** * C154 *)
(** REFUTED: the controls an object is left with are those of its feedback law
    along its trajectory.  They come from the law of the forward pass: here every
    law that is returned says 2 and every recorded control of the horizon is 1. *)
Definition two (a : pass_in) : result pass_out :=
  Ok {| q_x := p_x a; q_rows := p_width a; q_fb := fun _ _ => 0; q_ff := fun _ _ => 2; q_m := p_ccm a; q_v := p_ccv a |}.
Theorem C154_recorded_controls_refuted : exists es tr, iterate 1 (fun _ _ _ => 1) (fun m => m) (fun _ => 1) (fun _ _ => 1) 4 1 (1 / 100) (95 / 100) 1 (9 / 10) one_target idle two idle_final fdist
    [] two_gaussians [line_dyn; line_dyn] [line_inv; line_inv] [1; 1]%nat None [] = Ok (es, tr) /\ length es = 2%nat /\
  forall e k, In e es -> (k < 3)%nat -> exists x u fb ff, row (g_means (e_obj e)) k x /\ row (ctl_rows e) k u /\ row (g_fb (e_obj e)) k fb /\ row (g_ff (e_obj e)) k ff /\
    u 0%nat = 1 /\ rsumn 1 (fun j => fb 0%nat j * x j) + ff 0%nat 0%nat = 2.
Proof.
  assert (Hf : inputs_fit [1; 1]%nat) by (intros n [<-|[<-|[]]]; now left).
  assert (Hne : t_m two_gaussians <> []) by discriminate.
  assert (Hc : good_call 1 (fun m => m) (fun _ _ => 1) (95 / 100) one_target idle two idle_final [] two_gaussians [line_dyn; line_dyn] [line_inv; line_inv] [1; 1]%nat None []).
  { destruct (ex_call [1; 1]%nat eq_refl) as (H1 & _ & H3). split; [exact H1|]. split; [intro a; eexists; split; reflexivity|exact H3]. }
  destruct (C146_iterate_returns 1 (fun _ _ _ => 1) (fun m => m) (fun _ => 1) (fun _ _ => 1) 4 1 (1 / 100) (95 / 100) 1 (9 / 10) one_target idle two idle_final fdist
    [] two_gaussians [line_dyn; line_dyn] [line_inv; line_inv] [1; 1]%nat None [] Hc Hf ltac:(lia) Hne) as (es & tr & E & L1 & _ & L3 & L4 & _).
  destruct (C153_turns_are_recursions _ _ _ _ _ _ _ _ _ _ _ _ _ _ _ _ _ _ _ _ _ _ _ _ _ Hc Hf (le_S _ _ (le_S _ _ (le_n 2))) Hne E) as (st & Ls & _ & K).
  destruct (C150_turn_costs_partial 1 (fun _ _ _ => 1) (fun m => m) (fun _ => 1) (fun _ _ => 1) 4 1 (1 / 100) (95 / 100) 1 (9 / 10) one_target idle two idle_final fdist
    [] two_gaussians [line_dyn; line_dyn] [line_inv; line_inv] [1; 1]%nat None [] Hc ltac:(lia) Hne) with (2 := E) as (_ & _ & _ & K4 & _).
  { intros n [<-|[<-|[]]]; reflexivity. }
  destruct tr as [|r [|? ?]]; [destruct (L3 ltac:(cbn; lia)) as (a & b & Hk & _); cbn in Hk; lia| |cbn in L1; lia].
  exists es, [r]. split; [exact E|]. split; [exact L4|]. clear E. specialize (K4 r eq_refl). subst es. specialize (K 0%nat r eq_refl). cbn in K.
  destruct K as (Kl & mids & Km & K). intros e k He Hk. apply In_nth_error in He as [i Hi].
  destruct (nth_error_len st (s_objs r) i e Kl Hi) as [eb Hb]. destruct (nth_error_len mids (s_objs r) i e) as [mid Hm]; [congruence|exact Hi|].
  destruct (K i eb e mid Hb Hi Hm) as (_ & _ & T). destruct (T k ltac:(lia)) as (a & q & b & w & Fq & Fr & T1). unfold idle in Fq. injection Fq as <-. unfold two in Fr. injection Fr as <-.
  cbn [q_x q_fb q_ff q_m q_v] in T1.
  destruct T1 as (_ & _ & _ & _ & _ & _ & _ & _ & _ & _ & _ & _ & _ & _ & _ & _ & _ & _ & X1 & X2 & X3 & X4 & X5 & _ & _ & _ & _ & _ & Y1 & Y2 & Y3 & _).
  exists (p_x b), (p_u b), (fun _ _ => 0), (fun _ _ => 2). repeat (split; [assumption|]).
  rewrite X4, X5 in X2. split; [|cbn [rsumn]; lra]. destruct X2 as [X2|X2]; rewrite X2; cbn [rsumn]; lra.
Qed.
Print Assumptions C154_recorded_controls_refuted.
