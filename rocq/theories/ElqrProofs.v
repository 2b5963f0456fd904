(** Proofs about the controller's main loop. *)
From Verif Require Import Base Lists.
From Coq Require Import Reals Lra.
From Verif Require Import OspaModel OspaProofs GuidModel GuidSpec GuidProofs ElqrModel ElqrSpec.
Open Scope R_scope.

Lemma get_lt {A} (l : list A) k : (k < length l)%nat -> exists x, get l k = Ok x /\ nth_error l k = Some x.
Proof. intro H. unfold get. destruct (nth_error l k) as [x|] eqn:E; [now exists x|]. apply nth_error_None in E. lia. Qed.
Lemma setl_lt {A} (l : list A) k v : (k < length l)%nat -> exists l', setl l k v = Ok l' /\ length l' = length l /\
  nth_error l' k = Some v /\ forall j, j <> k -> nth_error l' j = nth_error l j.
Proof.
  intro H. unfold setl. destruct (Nat.ltb_spec k (length l)) as [_|N]; [|lia].
  assert (Hf : length (firstn k l) = k) by (rewrite firstn_length; lia).
  eexists. split; [reflexivity|]. split; [|split].
  - rewrite app_length, Hf. cbn [length]. rewrite skipn_length. lia.
  - rewrite nth_error_app2 by lia. rewrite Hf, Nat.sub_diag. reflexivity.
  - intros j Hj. assert (E : l = firstn k l ++ skipn k l) by (symmetry; apply firstn_skipn).
    assert (Hk : exists y, skipn k l = y :: skipn (S k) l).
    { destruct (nth_error l k) as [y|] eqn:Ey; [exists y; now apply skipn_cons|]. apply nth_error_None in Ey. lia. }
    destruct Hk as [y Hk]. rewrite E at 3. rewrite Hk.
    destruct (Nat.lt_ge_cases j k) as [Hl|Hl].
    + now rewrite !nth_error_app1 by lia.
    + rewrite !nth_error_app2 by lia. rewrite Hf. destruct (j - k)%nat as [|m] eqn:Em; [lia|]. reflexivity.
Qed.
Lemma mapM_F2 {D A B} (R1 : D -> A -> Prop) (R2 : D -> B -> Prop) (f : A -> result B) ds es :
  (forall d e, R1 d e -> exists e', f e = Ok e' /\ R2 d e') -> Forall2 R1 ds es -> exists es', mapM f es = Ok es' /\ Forall2 R2 ds es'.
Proof.
  intros Hf. induction 1 as [|d e ds es H1 _ [es' [IH1 IH2]]]; [exists []; now split|].
  destruct (Hf d e H1) as [e' [E1 E2]]. exists (e' :: es'). cbn [mapM]. rewrite E1. cbn [bind]. rewrite IH1. cbn [bind]. split; [reflexivity|]. now constructor.
Qed.
Lemma mapM_index {D A B} (R1 : D -> A -> Prop) (R2 : D -> B -> Prop) (f : nat * A -> result B) n : forall s ds es,
  (forall i d e, (i < n)%nat -> R1 d e -> exists e', f (i, e) = Ok e' /\ R2 d e') -> Forall2 R1 ds es -> (s + length es <= n)%nat ->
  exists es', mapM f (combine (seq s (length es)) es) = Ok es' /\ Forall2 R2 ds es'.
Proof.
  intros s ds es Hf H. revert s. induction H as [|d e ds es H1 _ IH]; intros s Hn; [exists []; now split|]. cbn [length] in Hn.
  destruct (Hf s d e ltac:(lia) H1) as [e' [E1 E2]]. destruct (IH (S s)) as [es' [IH1 IH2]]; [lia|].
  exists (e' :: es'). cbn [length seq combine mapM]. rewrite E1. cbn [bind]. rewrite IH1. cbn [bind]. split; [reflexivity|]. now constructor.
Qed.
Lemma sumL_total l f : (forall x, In x l -> exists r, f x = Ok r) -> exists r, sumL l f = Ok r.
Proof.
  induction l as [|x l IH]; intro H; cbn [sumL]; [now eexists|]. destruct (H x (or_introl eq_refl)) as [r ->]. cbn [bind].
  destruct IH as [r' ->]; [intros y Hy; apply H; now right|]. cbn [bind]. now eexists.
Qed.
Lemma foldM_app {A B} (f : A -> B -> result A) l1 : forall l2 a, foldM f (l1 ++ l2) a = (do a' <- foldM f l1 a; foldM f l2 a').
Proof. induction l1 as [|b l1 IH]; intros l2 a; [reflexivity|]. cbn [app foldM]. destruct (f a b); cbn [bind]; [apply IH|reflexivity]. Qed.

Lemma row_write_ok w r v : r = w \/ r = 1%nat -> exists u, row_write w r v = Ok u.
Proof. intros [-> | ->]; unfold row_write; [rewrite Nat.eqb_refl; now eexists|]. destruct (1 =? w)%nat; now eexists. Qed.

Lemma mapM_seq {A B} (f : A -> result B) (g : nat -> B) l : forall s, (forall i x, nth_error l i = Some x -> f x = Ok (g (s + i)%nat)) -> mapM f l = Ok (map g (seq s (length l))).
Proof.
  induction l as [|x l IH]; intros s H; [reflexivity|]. cbn [mapM length seq map]. rewrite (H 0%nat x eq_refl). cbn [bind]. rewrite (IH (S s)).
  - cbn [bind]. now rewrite Nat.add_0_r.
  - intros i y Hi. replace (S s + i)%nat with (s + S i)%nat by lia. now apply H.
Qed.
Lemma nth_error_combine {A B} (l : list A) : forall (l' : list B) i a b, nth_error (combine l l') i = Some (a, b) -> nth_error l i = Some a /\ nth_error l' i = Some b.
Proof. induction l as [|x l IH]; intros [|y l'] [|i] a b H; cbn in *; try easy; [now injection H as <- <-|now apply IH]. Qed.
(** The part of an object that iterate does not change. *)
Record edesc := { d_w : nat; d_cov : mat; d_wt : R; d_dyn : list dynf; d_inv : list dynf; d_ctrl : ctl }.

Section P.
Variables (dim : nat) (pdf : vec -> vec -> mat -> R) (inv : mat -> mat) (det : mat -> R) (chi2_ppf : R -> nat -> R).
Variables (h max_iters : nat) (cost_tol thresh safety y_ref : R) (tg : gmx).
Variables (fwd bwd : pass_in -> result pass_out).
Variable qfinal : vec -> vec -> option vec -> result (mat * mat).
Variable fcost : vec -> option vec -> R.
Hypothesis Hfwd : pass_answers fwd.
Hypothesis Hbwd : pass_answers bwd.
Hypothesis Hqf : final_answers qfinal.
Hypothesis Htg : good_targets tg.
Hypothesis Hh : (2 <= h)%nat.

Lemma density_total os ws ps : os <> [] -> length ws = length os -> length ps = length os ->
  exists c, density_based_cost dim pdf inv det safety y_ref tg os ws ps = Ok c.
Proof.
  intros Ho Hw Hp. destruct Htg as [l [Hl ->]]. unfold density_based_cost. cbn [mix_of t_m t_w t_p].
  destruct (target_center_ok (map gm l)) as [c [Ec _]]; [now destruct l|]. rewrite Ec. cbn [bind].
  destruct (pymax_ok (map (max_diag dim) ps)) as [v1 ->]; [destruct ps; [destruct os; easy|easy]|]. cbn [bind].
  destruct (pymax_ok (map (max_diag dim) (map gp l))) as [v2 ->]; [now destruct l|]. cbn [bind].
  assert (G : forall {A} (k : list A) i n, In i (seq 0 n) -> length k = n -> exists x, get k i = Ok x).
  { intros A k i n Hi Hk. apply in_seq in Hi. destruct (get_lt k i) as [x [E _]]; [lia|]. now exists x. }
  assert (Hm1 : length (map gm l) = length (map gm l)) by reflexivity.
  assert (Hm2 : length (map gw l) = length (map gm l)) by now rewrite !map_length.
  assert (Hm3 : length (map gp l) = length (map gm l)) by now rewrite !map_length.
  match goal with |- context [bind (sumL ?a ?f)] => destruct (sumL_total a f) as [r1 ->] end.
  { intros o Hoo. apply sumL_total. intros i Hi. destruct (G _ os o _ Hoo eq_refl) as [? ->], (G _ os i _ Hi eq_refl) as [? ->], (G _ ws o _ Hoo Hw) as [? ->], (G _ ws i _ Hi Hw) as [? ->],
      (G _ ps o _ Hoo Hp) as [? ->], (G _ ps i _ Hi Hp) as [? ->]. cbn [bind]. now eexists. }
  cbn [bind].
  match goal with |- context [bind (sumL ?a ?f)] => destruct (sumL_total a f) as [r2 ->] end.
  { intros o Hoo. apply sumL_total. intros i Hi. destruct (G _ os o _ Hoo eq_refl) as [? ->], (G _ ws o _ Hoo Hw) as [? ->], (G _ ps o _ Hoo Hp) as [? ->],
      (G _ _ i _ Hi Hm1) as [? ->], (G _ _ i _ Hi Hm2) as [? ->], (G _ _ i _ Hi Hm3) as [? ->]. cbn [bind]. now eexists. }
  cbn [bind].
  match goal with |- context [bind (sumL ?a ?f)] => destruct (sumL_total a f) as [r3 ->] end.
  { intros o Hoo. apply sumL_total. intros i Hi. destruct (G _ os o _ Hoo eq_refl) as [? ->], (G _ ws o _ Hoo Hw) as [? ->], (G _ ps o _ Hoo Hp) as [? ->],
      (G _ _ i _ Hi Hm1) as [? ->], (G _ _ i _ Hi Hm2) as [? ->], (G _ _ i _ Hi Hm3) as [? ->]. cbn [bind]. now eexists. }
  cbn [bind].
  match goal with |- context [bind (sumL ?a ?f)] => destruct (sumL_total a f) as [r4 ->] end.
  { intros o Hoo. apply sumL_total. intros i Hi.
    destruct (G _ _ o _ Hoo Hm1) as [? ->], (G _ _ i _ Hi Hm1) as [? ->], (G _ _ o _ Hoo Hm2) as [? ->], (G _ _ i _ Hi Hm2) as [? ->], (G _ _ o _ Hoo Hm3) as [? ->], (G _ _ i _ Hi Hm3) as [? ->].
    cbn [bind]. now eexists. }
  cbn [bind]. now eexists.
Qed.

(** Shape of an object during iterate; rows in [done] were written by a pass. *)
Record wfe (dn : list nat) (d : edesc) (e : eobj) : Prop := {
  W_m : length (g_means (e_obj e)) = h; W_fb : length (g_fb (e_obj e)) = h; W_ff : length (g_ff (e_obj e)) = h;
  W_ccm : length (g_ccm (e_obj e)) = h; W_ccv : length (g_ccv (e_obj e)) = h; W_cgm : length (g_cgm (e_obj e)) = h; W_cgv : length (g_cgv (e_obj e)) = h;
  W_u : exists u, g_ctrl_input (e_obj e) = Some u /\ length (u_rows u) = h /\ u_width u = d_w d;
  W_r : length (e_rows e) = h;
  W_w : forall k r, nth_error (e_rows e) k = Some r -> r = d_w d \/ r = 1%nat;
  W_done : forall k, In k dn -> nth_error (e_rows e) k = Some (d_w d);
  W_s1 : g_cov (e_obj e) = d_cov d; W_s2 : g_w (e_obj e) = d_wt d; W_s3 : g_dyn (e_obj e) = d_dyn d; W_s4 : g_inv (e_obj e) = d_inv d;
  W_s5 : g_ctrl_inputs (e_obj e) = d_ctrl d }.

Lemma update_ctl_ok dn d e kk src : wfe dn d e -> (kk < h)%nat -> (src < h)%nat -> exists e', update_ctl dim kk src e = Ok e' /\ wfe dn d e'.
Proof.
  intros [m1 m2 m3 m4 m5 m6 m7 [u [u1 [u2 u3]]] r1 r2 r3 s1 s2 s3 s4 s5] Hk Hs. unfold update_ctl.
  destruct (get_lt (g_fb (e_obj e)) kk) as [fb [-> _]]; [lia|]. cbn [bind].
  destruct (get_lt (g_means (e_obj e)) src) as [x [-> _]]; [lia|]. cbn [bind].
  destruct (get_lt (g_ff (e_obj e)) kk) as [ff [-> _]]; [lia|]. cbn [bind].
  destruct (get_lt (e_rows e) kk) as [r [-> Er]]; [lia|]. cbn [bind].
  unfold ctl_of. rewrite u1. cbn [bind].
  destruct (get_lt (u_rows u) kk) as [y [-> _]]; [lia|]. cbn [bind].
  destruct (row_write_ok (u_width u) r (policy_val dim fb ff x)) as [v ->]; [rewrite u3; eapply r2; exact Er|]. cbn [bind].
  destruct (setl_lt (u_rows u) kk v) as [l' [-> [L _]]]; [lia|]. cbn [bind].
  eexists. split; [reflexivity|]. constructor; cbn [e_obj e_rows with_ctl g_means g_fb g_ff g_ccm g_ccv g_cgm g_cgv g_ctrl_input g_ctrl_inputs g_cov g_w g_dyn g_inv]; try assumption.
  eexists. split; [reflexivity|]. cbn [u_rows u_width]. split; [congruence|exact u3].
Qed.
Lemma pass_args_ok dn d e kk src xs all ii : wfe dn d e -> (kk + 1 < h)%nat -> (src < h)%nat -> (ii < length xs)%nat ->
  exists a, pass_args kk src xs all ii e = Ok a /\ p_width a = d_w d.
Proof.
  intros [m1 m2 m3 m4 m5 m6 m7 [u [u1 [u2 u3]]] r1 r2 r3 s1 s2 s3 s4 s5] Hk Hs Hi. unfold pass_args.
  destruct (get_lt (g_means (e_obj e)) src) as [x [-> _]]; [lia|]. cbn [bind]. unfold ctl_of. rewrite u1. cbn [bind].
  destruct (get_lt (u_rows u) kk) as [uk [-> _]]; [lia|]. cbn [bind].
  destruct (get_lt (g_fb (e_obj e)) kk) as [fb [-> _]]; [lia|]. cbn [bind].
  destruct (get_lt (g_ff (e_obj e)) kk) as [ff [-> _]]; [lia|]. cbn [bind].
  destruct (get_lt (g_ccm (e_obj e)) kk) as [v1 [-> _]]; [lia|]. cbn [bind].
  destruct (get_lt (g_ccv (e_obj e)) kk) as [v2 [-> _]]; [lia|]. cbn [bind].
  destruct (get_lt (g_cgm (e_obj e)) (kk + 1)) as [v3 [-> _]]; [lia|]. cbn [bind].
  destruct (get_lt (g_cgv (e_obj e)) (kk + 1)) as [v4 [-> _]]; [lia|]. cbn [bind].
  destruct (get_lt xs ii) as [v5 [-> _]]; [lia|]. cbn [bind].
  eexists. split; [reflexivity|]. exact u3.
Qed.
Ltac fields := cbn [e_obj e_rows with_lists g_means g_fb g_ff g_ccm g_ccv g_cgm g_cgv g_ctrl_input g_ctrl_inputs g_cov g_w g_dyn g_inv].
Lemma rows_step dn d (e : eobj) kk (rows : list nat) :
  (forall k r, nth_error (e_rows e) k = Some r -> r = d_w d \/ r = 1%nat) ->
  nth_error rows kk = Some (d_w d) -> (forall j, j <> kk -> nth_error rows j = nth_error (e_rows e) j) ->
  (forall k, In k dn -> nth_error (e_rows e) k = Some (d_w d)) ->
  (forall k r, nth_error rows k = Some r -> r = d_w d \/ r = 1%nat) /\ (forall k, In k (kk :: dn) -> nth_error rows k = Some (d_w d)).
Proof.
  intros H1 H2 H3 H4. split.
  - intros k r Hk. destruct (Nat.eq_dec k kk) as [->|N]; [left; congruence|]. rewrite H3 in Hk by exact N. now apply H1 in Hk.
  - intros k [<-|Hk]; [exact H2|]. destruct (Nat.eq_dec k kk) as [->|N]; [exact H2|]. rewrite H3 by exact N. now apply H4.
Qed.
Lemma forward_obj_ok dn d e kk xs all ii : wfe dn d e -> (kk + 1 < h)%nat -> (ii < length xs)%nat ->
  exists e', forward_obj fwd kk xs all (ii, e) = Ok e' /\ wfe (kk :: dn) d e'.
Proof.
  intros H Hk Hi. destruct (pass_args_ok dn d e kk kk xs all ii H) as [a [Ha Hw]]; [lia|lia|exact Hi|]. unfold forward_obj. rewrite Ha. cbn [bind].
  destruct (Hfwd a) as [q [-> Hq]]. cbn [bind]. rewrite Hw in Hq.
  destruct H as [m1 m2 m3 m4 m5 m6 m7 [u [u1 [u2 u3]]] r1 r2 r3 s1 s2 s3 s4 s5].
  destruct (setl_lt (g_fb (e_obj e)) kk (q_fb q)) as [l1 [-> [L1 _]]]; [lia|]. cbn [bind].
  destruct (setl_lt (g_ff (e_obj e)) kk (q_ff q)) as [l2 [-> [L2 _]]]; [lia|]. cbn [bind].
  destruct (setl_lt (e_rows e) kk (q_rows q)) as [l3 [-> [L3 [L3a L3b]]]]; [lia|]. cbn [bind].
  destruct (setl_lt (g_ccm (e_obj e)) (kk + 1) (q_m q)) as [l4 [-> [L4 _]]]; [lia|]. cbn [bind].
  destruct (setl_lt (g_ccv (e_obj e)) (kk + 1) (q_v q)) as [l5 [-> [L5 _]]]; [lia|]. cbn [bind].
  destruct (setl_lt (g_means (e_obj e)) (kk + 1) (q_x q)) as [l6 [-> [L6 _]]]; [lia|]. cbn [bind].
  rewrite Hq in L3a. destruct (rows_step dn d e kk l3 r2 L3a L3b r3) as [N1 N2].
  eexists. split; [reflexivity|]. constructor; fields; try assumption; try congruence. now exists u.
Qed.
Lemma backward_obj_ok dn d e kk xs all ii : wfe dn d e -> (kk + 1 < h)%nat -> (ii < length xs)%nat ->
  exists e', backward_obj bwd kk xs all (ii, e) = Ok e' /\ wfe (kk :: dn) d e'.
Proof.
  intros H Hk Hi. destruct (pass_args_ok dn d e kk (kk + 1) xs all ii H) as [a [Ha Hw]]; [lia|lia|exact Hi|]. unfold backward_obj. rewrite Ha. cbn [bind].
  destruct (Hbwd a) as [q [-> Hq]]. cbn [bind]. rewrite Hw in Hq.
  destruct H as [m1 m2 m3 m4 m5 m6 m7 [u [u1 [u2 u3]]] r1 r2 r3 s1 s2 s3 s4 s5].
  destruct (setl_lt (g_fb (e_obj e)) kk (q_fb q)) as [l1 [-> [L1 _]]]; [lia|]. cbn [bind].
  destruct (setl_lt (g_ff (e_obj e)) kk (q_ff q)) as [l2 [-> [L2 _]]]; [lia|]. cbn [bind].
  destruct (setl_lt (e_rows e) kk (q_rows q)) as [l3 [-> [L3 [L3a L3b]]]]; [lia|]. cbn [bind].
  destruct (setl_lt (g_cgm (e_obj e)) kk (q_m q)) as [l4 [-> [L4 _]]]; [lia|]. cbn [bind].
  destruct (setl_lt (g_cgv (e_obj e)) kk (q_v q)) as [l5 [-> [L5 _]]]; [lia|]. cbn [bind].
  destruct (setl_lt (g_means (e_obj e)) kk (q_x q)) as [l6 [-> [L6 _]]]; [lia|]. cbn [bind].
  rewrite Hq in L3a. destruct (rows_step dn d e kk l3 r2 L3a L3b r3) as [N1 N2].
  eexists. split; [reflexivity|]. constructor; fields; try assumption; try congruence. now exists u.
Qed.
Lemma F2_len {A B} (P : A -> B -> Prop) l l' : Forall2 P l l' -> length l = length l'.
Proof. induction 1; cbn; congruence. Qed.
Lemma F2_impl {A B} (P Q : A -> B -> Prop) l l' : (forall a b, P a b -> Q a b) -> Forall2 P l l' -> Forall2 Q l l'.
Proof. intro H. induction 1; constructor; auto. Qed.
Lemma forward_step_ok dn ds es xs kk : Forall2 (wfe dn) ds es -> (kk + 1 < h)%nat -> length xs = length es ->
  exists es', forward_step dim fwd xs es kk = Ok es' /\ Forall2 (wfe (kk :: dn)) ds es'.
Proof.
  intros H Hk Hx. unfold forward_step.
  destruct (mapM_F2 (wfe dn) (fun _ _ => True) (fun e => get (g_means (e_obj e)) kk) ds es) as [cur [-> _]]; [|exact H|].
  { intros d e He. destruct (get_lt (g_means (e_obj e)) kk) as [x [-> _]]; [rewrite (W_m _ _ _ He); lia|]. now exists x. }
  cbn [bind].
  destruct (mapM_F2 (wfe dn) (wfe dn) (update_ctl dim kk kk) ds es) as [es1 [-> H1]]; [|exact H|].
  { intros d e He. apply update_ctl_ok; [exact He|lia|lia]. }
  cbn [bind]. unfold index. eapply (mapM_index (wfe dn) _ _ (length xs)); [|exact H1|].
  - intros i d e Hi He. now apply forward_obj_ok.
  - rewrite <- (F2_len _ _ _ H1), (F2_len _ _ _ H). lia.
Qed.
Lemma backward_step_ok dn ds es xs kk : Forall2 (wfe dn) ds es -> (kk + 1 < h)%nat -> length xs = length es -> (forall d, In d ds -> (length (d_inv d) <= dim)%nat) ->
  exists es', backward_step dim bwd xs es kk = Ok es' /\ Forall2 (wfe (kk :: dn)) ds es'.
Proof.
  intros H Hk Hx Hi. unfold backward_step.
  assert (H' : Forall2 (fun d e => wfe dn d e /\ (length (d_inv d) <= dim)%nat) ds es).
  { clear - H Hi. induction H as [|d e ds es He _ IH]; constructor; [split; [exact He|apply Hi; now left]|]. apply IH. intros x Hxx. apply Hi. now right. }
  destruct (mapM_F2 (fun d e => wfe dn d e /\ (length (d_inv d) <= dim)%nat) (fun d p => wfe dn d (fst p)) (backward_prev dim kk) ds es) as [ps [-> H1]]; [|exact H'|].
  { intros d e [He Hle]. unfold backward_prev. destruct (update_ctl_ok dn d e kk (kk + 1) He) as [e1 [-> H1]]; [lia|lia|]. cbn [bind].
    destruct (W_u _ _ _ H1) as [u [u1 [u2 u3]]].
    destruct (get_lt (g_means (e_obj e1)) (kk + 1)) as [x [-> _]]; [rewrite (W_m _ _ _ H1); lia|]. cbn [bind]. unfold ctl_of. rewrite u1. cbn [bind].
    destruct (get_lt (u_rows u) kk) as [uk [-> _]]; [lia|]. cbn [bind]. rewrite (W_s4 _ _ _ H1).
    destruct (Nat.ltb_spec dim (length (d_inv d))) as [N|_]; [lia|]. eexists. split; [reflexivity|]. exact H1. }
  cbn [bind].
  assert (H2 : Forall2 (wfe dn) ds (map fst ps)) by (clear - H1; induction H1; cbn [map]; now constructor).
  unfold index. eapply (mapM_index (wfe dn) _ _ (length xs)); [|exact H2|].
  - intros i d e Hii He. now apply backward_obj_ok.
  - rewrite <- (F2_len _ _ _ H2), (F2_len _ _ _ H). lia.
Qed.
Lemma fold_steps (step : list eobj -> nat -> result (list eobj)) ds n :
  (forall dn es kk, Forall2 (wfe dn) ds es -> (kk + 1 < h)%nat -> n = length es -> exists es', step es kk = Ok es' /\ Forall2 (wfe (kk :: dn)) ds es') ->
  forall l dn es, (forall k, In k l -> (k + 1 < h)%nat) -> Forall2 (wfe dn) ds es -> n = length es ->
  exists es', foldM step l es = Ok es' /\ Forall2 (wfe (rev l ++ dn)) ds es'.
Proof.
  intros Hs. induction l as [|k l IH]; intros dn es Hl H Hn; cbn [foldM rev]; [now exists es|].
  destruct (Hs dn es k H (Hl k (or_introl eq_refl)) Hn) as [es1 [-> H1]]. cbn [bind].
  destruct (IH (k :: dn) es1) as [es2 [-> H2]]; [intros j Hj; apply Hl; now right|exact H1| |].
  { rewrite Hn. rewrite <- (F2_len _ _ _ H), (F2_len _ _ _ H1). reflexivity. }
  exists es2. split; [reflexivity|]. now rewrite <- app_assoc.
Qed.
Lemma final_obj_ok dn d e : wfe dn d e -> exists e', final_obj dim inv tg qfinal e = Ok e' /\ wfe dn d e'.
Proof.
  intros [m1 m2 m3 m4 m5 m6 m7 [u [u1 [u2 u3]]] r1 r2 r3 s1 s2 s3 s4 s5]. unfold final_obj, get_last, set_last.
  destruct (get_lt (g_means (e_obj e)) (length (g_means (e_obj e)) - 1)) as [x [-> _]]; [lia|]. cbn [bind]. unfold ctl_of. rewrite u1. cbn [bind].
  destruct (get_lt (u_rows u) (length (u_rows u) - 1)) as [uk [-> _]]; [lia|]. cbn [bind].
  destruct (Hqf x uk (find_nearest_target dim (t_m tg) x)) as [[M v] ->]. cbn [bind].
  match goal with |- context [setl ?l ?k ?w] => destruct (setl_lt l k w) as [l1 [-> [L1 _]]]; [lia|] end. cbn [bind].
  match goal with |- context [setl ?l ?k ?w] => destruct (setl_lt l k w) as [l2 [-> [L2 _]]]; [lia|] end. cbn [bind].
  destruct (get_lt (g_ccm (e_obj e)) (length (g_ccm (e_obj e)) - 1)) as [M' [-> _]]; [lia|]. cbn [bind].
  destruct (get_lt (g_ccv (e_obj e)) (length (g_ccv (e_obj e)) - 1)) as [v' [-> _]]; [lia|]. cbn [bind].
  match goal with |- context [setl ?l ?k ?w] => destruct (setl_lt l k w) as [l3 [-> [L3 _]]]; [lia|] end. cbn [bind].
  eexists. split; [reflexivity|]. constructor; fields; try assumption; try congruence. now exists u.
Qed.
Lemma wfe_mono dn dn' d e : (forall k, In k dn' -> In k dn) -> wfe dn d e -> wfe dn' d e.
Proof. intros Hk [m1 m2 m3 m4 m5 m6 m7 m8 r1 r2 r3 s1 s2 s3 s4 s5]. constructor; try assumption. intros k Hkk. apply r3. now apply Hk. Qed.
(** The passes of one turn. *)
Definition passes (es : list eobj) (xs : list vec) : result (list eobj) :=
  do es1 <- foldM (forward_step dim fwd xs) (seq 0 (h - 1)) es;
  do es2 <- mapM (final_obj dim inv tg qfinal) es1;
  foldM (backward_step dim bwd xs) (rev (seq 0 (h - 1))) es2.
Lemma passes_ok ds es xs : Forall2 (wfe []) ds es -> length xs = length es -> (forall d, In d ds -> (length (d_inv d) <= dim)%nat) ->
  exists es', passes es xs = Ok es' /\ Forall2 (wfe (seq 0 (h - 1))) ds es'.
Proof.
  intros H Hx Hi. unfold passes.
  assert (Hlt : forall k, In k (seq 0 (h - 1)) -> (k + 1 < h)%nat) by (intros k Hk; apply in_seq in Hk; lia).
  destruct (fold_steps (forward_step dim fwd xs) ds (length xs)) with (l := seq 0 (h - 1)) (dn := @nil nat) (es := es) as [es1 [-> H1]]; try assumption.
  { intros dn es0 kk H0 Hk Hn. now apply forward_step_ok. }
  cbn [bind].
  destruct (mapM_F2 (wfe (rev (seq 0 (h - 1)) ++ [])) (wfe (rev (seq 0 (h - 1)) ++ [])) (final_obj dim inv tg qfinal) ds es1) with (2 := H1) as [es2 [-> H2]].
  { intros d e He. now apply final_obj_ok. }
  cbn [bind].
  destruct (fold_steps (backward_step dim bwd xs) ds (length xs)) with (l := rev (seq 0 (h - 1))) (dn := rev (seq 0 (h - 1)) ++ []) (es := es2) as [es3 [-> H3]].
  { intros dn es0 kk H0 Hk Hn. now apply backward_step_ok. }
  { intros k Hk. apply in_rev in Hk. now apply Hlt. }
  { exact H2. }
  { rewrite Hx, <- (F2_len _ _ _ H), (F2_len _ _ _ H2). reflexivity. }
  exists es3. split; [reflexivity|]. rewrite rev_involutive in H3.
  eapply F2_impl; [|exact H3]. intros d e He. eapply wfe_mono; [|exact He]. intros k Hk. apply in_or_app. now left.
Qed.
Lemma sweep_passes es xs : sweep dim pdf inv det h safety y_ref tg fwd bwd qfinal fcost es xs
  = do es' <- passes es xs; do r <- trajectory_cost dim pdf inv det h safety y_ref tg fcost es' xs; Ok (es', r).
Proof.
  unfold sweep, passes. destruct (foldM _ _ es) as [es1|]; cbn [bind]; [|reflexivity]. destruct (mapM _ es1) as [es2|]; cbn [bind]; reflexivity.
Qed.

(** * The cost of the trajectory *)
Lemma move_ok dn d e x n kk : wfe dn d e -> (kk < h)%nat -> (length (d_dyn d) <= dim)%nat -> d_w d = n \/ d_w d = 1%nat ->
  exists y, move_obj dim n kk (e, x) = Ok y.
Proof.
  intros H Hk Hd Hw. unfold move_obj.
  destruct (get_lt (g_fb (e_obj e)) kk) as [fb [-> _]]; [rewrite (W_fb _ _ _ H); lia|]. cbn [bind].
  destruct (get_lt (g_ff (e_obj e)) kk) as [ff [-> _]]; [rewrite (W_ff _ _ _ H); lia|]. cbn [bind].
  destruct (get_lt (e_rows e) kk) as [r [-> Er]]; [rewrite (W_r _ _ _ H); lia|]. cbn [bind].
  destruct (row_write_ok n r (policy_val dim fb ff x)) as [v ->].
  { apply (W_w _ _ _ H) in Er. destruct Er as [-> | ->]; [exact Hw|now right]. }
  cbn [bind]. rewrite (W_s3 _ _ _ H). destruct (Nat.ltb_spec dim (length (d_dyn d))) as [N|_]; [lia|]. now eexists.
Qed.
Lemma moves_ok dn n kk ds es : Forall2 (wfe dn) ds es -> (kk < h)%nat -> (forall d, In d ds -> (length (d_dyn d) <= dim)%nat /\ (d_w d = n \/ d_w d = 1%nat)) ->
  forall xs, length xs = length es -> exists ys, mapM (move_obj dim n kk) (combine es xs) = Ok ys /\ length ys = length es.
Proof.
  intros H Hk. induction H as [|d e ds es He _ IH]; intros Hd xs Hx; [exists []; now destruct xs|].
  destruct xs as [|x xs]; [easy|]. injection Hx as Hx.
  destruct (Hd d (or_introl eq_refl)) as [Hd1 Hd2]. destruct (move_ok dn d e x n kk He Hk Hd1 Hd2) as [y Hy].
  destruct (IH (fun d' Hd' => Hd d' (or_intror Hd')) xs Hx) as [ys [Hys Hl]].
  exists (y :: ys). cbn [combine mapM]. rewrite Hy. cbn [bind]. rewrite Hys. cbn [bind length]. split; [reflexivity|congruence].
Qed.
Lemma rows_zero ds es d0 : Forall2 (wfe (seq 0 (h - 1))) (d0 :: ds) es ->
  exists e0 es', es = e0 :: es' /\ get es 0 = Ok e0 /\ get (e_rows e0) 0 = Ok (d_w d0).
Proof.
  intro H. inversion H as [|d e ds' es' He Hes]; subst. exists e, es'. split; [reflexivity|]. split; [reflexivity|].
  unfold get. rewrite (W_done _ _ _ He 0%nat); [reflexivity|]. apply in_seq. lia.
Qed.
Lemma cost_total ds d0 es xs : Forall2 (wfe (seq 0 (h - 1))) (d0 :: ds) es -> length xs = length es ->
  (forall d, In d (d0 :: ds) -> (length (d_dyn d) <= dim)%nat /\ (d_w d = d_w d0 \/ d_w d = 1%nat)) ->
  exists c ys, trajectory_cost dim pdf inv det h safety y_ref tg fcost es xs = Ok (c, ys) /\ length ys = length es.
Proof.
  intros H Hx Hd. destruct (rows_zero _ _ _ H) as [e0 [es' [E0 [E1 E2]]]]. unfold trajectory_cost. rewrite E1. cbn [bind]. rewrite E2. cbn [bind].
  match goal with |- context [foldM ?f _ _] => set (F := f) end.
  assert (HF : forall l c ys, (forall k, In k l -> (k < h)%nat) -> length ys = length es -> exists c' ys', foldM F l (c, ys) = Ok (c', ys') /\ length ys' = length es).
  { induction l as [|k l IH]; intros c ys Hl Hy; cbn [foldM]; [now exists c, ys|].
    unfold F at 1. destruct (density_total ys (map (fun e => g_w (e_obj e)) es) (map (fun e => g_cov (e_obj e)) es)) as [v ->].
    { rewrite E0 in Hy. now destruct ys. } { now rewrite map_length. } { now rewrite map_length. }
    cbn [bind]. destruct (moves_ok _ (d_w d0) k _ _ H (Hl k (or_introl eq_refl)) Hd ys Hy) as [ys' [-> Hys]]. cbn [bind].
    apply IH; [intros j Hj; apply Hl; now right|exact Hys]. }
  destruct (HF (seq 0 (h - 1)) 0 xs) as [c [ys [-> Hy]]]; [intros k Hk; apply in_seq in Hk; lia|exact Hx|]. cbn [bind].
  eexists _, ys. split; [reflexivity|exact Hy].
Qed.
Lemma mapM_value {A B} (f : A -> result B) l : (forall x, In x l -> (exists y, f x = Ok y) \/ f x = Err ValueErr) -> (exists x, In x l /\ f x = Err ValueErr) -> mapM f l = Err ValueErr.
Proof.
  induction l as [|x l IH]; intros H [z [Hz Ez]]; [easy|]. cbn [mapM].
  destruct (H x (or_introl eq_refl)) as [[y Hy]|Hy]; rewrite Hy; cbn [bind]; [|reflexivity].
  rewrite IH; [reflexivity|intros w Hw; apply H; now right|]. destruct Hz as [->|Hz]; [congruence|]. now exists z.
Qed.
Lemma cost_mismatch ds d0 es xs : Forall2 (wfe (seq 0 (h - 1))) (d0 :: ds) es -> length xs = length es ->
  (forall d, In d (d0 :: ds) -> (length (d_dyn d) <= dim)%nat) ->
  (exists d, In d (d0 :: ds) /\ d_w d <> d_w d0 /\ d_w d <> 1%nat) ->
  trajectory_cost dim pdf inv det h safety y_ref tg fcost es xs = Err ValueErr.
Proof.
  intros H Hx Hd [d [Hin [Hw1 Hw2]]]. destruct (rows_zero _ _ _ H) as [e0 [es' [E0 [E1 E2]]]]. unfold trajectory_cost. rewrite E1. cbn [bind]. rewrite E2. cbn [bind].
  destruct (h - 1)%nat as [|m] eqn:Em; [lia|]. cbn [seq foldM].
  destruct (density_total xs (map (fun e => g_w (e_obj e)) es) (map (fun e => g_cov (e_obj e)) es)) as [v ->].
  { rewrite E0 in Hx. now destruct xs. } { now rewrite map_length. } { now rewrite map_length. }
  cbn [bind].
  assert (HM : mapM (move_obj dim (d_w d0) 0) (combine es xs) = Err ValueErr); [|now rewrite HM].
  assert (Hone : forall dd e x, wfe (seq 0 (h - 1)) dd e -> In dd (d0 :: ds) ->
     move_obj dim (d_w d0) 0 (e, x) = Err ValueErr /\ d_w dd <> d_w d0 /\ d_w dd <> 1%nat \/ (exists y, move_obj dim (d_w d0) 0 (e, x) = Ok y) /\ (d_w dd = d_w d0 \/ d_w dd = 1%nat)).
  { intros dd e x He Hdd. destruct (Nat.eq_dec (d_w dd) (d_w d0)) as [E|N1].
    { right. split; [|now left]. eapply move_ok; [exact He|lia|now apply Hd|now left]. }
    destruct (Nat.eq_dec (d_w dd) 1) as [E|N2].
    { right. split; [|now right]. eapply move_ok; [exact He|lia|now apply Hd|now right]. }
    left. split; [|easy]. unfold move_obj.
    destruct (get_lt (g_fb (e_obj e)) 0) as [fb [-> _]]; [rewrite (W_fb _ _ _ He); lia|]. cbn [bind].
    destruct (get_lt (g_ff (e_obj e)) 0) as [ff [-> _]]; [rewrite (W_ff _ _ _ He); lia|]. cbn [bind].
    unfold get at 1. rewrite (W_done _ _ _ He 0%nat) by (apply in_seq; lia). cbn [bind].
    unfold row_write. destruct (Nat.eqb_spec (d_w dd) (d_w d0)); [easy|]. destruct (Nat.eqb_spec (d_w dd) 1); [easy|]. reflexivity. }
  assert (HF : Forall2 (fun dd e => wfe (seq 0 (h - 1)) dd e /\ In dd (d0 :: ds)) (d0 :: ds) es).
  { rewrite Em. clear - H. remember (d0 :: ds) as L eqn:EL. clear EL.
    assert (G : forall L', (forall x, In x L' -> In x L) -> forall es, Forall2 (wfe (seq 0 (S m))) L' es -> Forall2 (fun dd e => wfe (seq 0 (S m)) dd e /\ In dd L) L' es).
    { induction L' as [|a L' IH]; intros HL es0 H0; inversion H0; subst; constructor; [split; [assumption|apply HL; now left]|]. apply IH; [intros x Hx; apply HL; now right|assumption]. }
    now apply G. }
  apply mapM_value.
  - clear - HF Hone Hx. revert xs Hx. induction HF as [|dd e L es [He Hdd] _ IH]; intros xs Hx [e1 x] Hin; [easy|].
    destruct xs as [|x0 xs]; [easy|]. injection Hx as Hx. destruct Hin as [E|Hin]; [|now apply (IH xs Hx)].
    injection E as <- <-. destruct (Hone dd e x0 He Hdd) as [[Hc _]|[Hc _]]; [now right|now left].
  - 
    assert (G : forall L es, Forall2 (fun dd e => wfe (seq 0 (h - 1)) dd e /\ In dd (d0 :: ds)) L es -> forall xs, length xs = length es -> In d L ->
       exists x, In x (combine es xs) /\ move_obj dim (d_w d0) 0 x = Err ValueErr).
    { clear - Hone Hw1 Hw2. induction 1 as [|dd e L es [He Hdd] _ IH]; intros xs Hx Hin; [easy|].
      destruct xs as [|x0 xs]; [easy|]. injection Hx as Hx. destruct Hin as [->|Hin].
      - exists (e, x0). split; [now left|]. destruct (Hone d e x0 He Hdd) as [[Hc _]|[_ [Hc|Hc]]]; easy.
      - destruct (IH xs Hx Hin) as [p [Hp1 Hp2]]. exists p. split; [now right|exact Hp2]. }
    exact (G _ _ HF xs Hx Hin).
Qed.
Lemma moves_closed dn ds es w kk states : Forall2 (wfe dn) ds es -> In kk dn -> (kk < h)%nat -> (forall d, In d ds -> (length (d_dyn d) <= dim)%nat /\ d_w d = w) ->
  length states = length es ->
  mapM (move_obj dim w kk) (combine es states) = Ok (joint_move (law dim es) (dyn_of es) kk states).
Proof.
  intros H Hin Hk Hd Hl. unfold joint_move. rewrite Hl. replace (length es) with (length (combine es states)) by (rewrite combine_length; lia).
  apply mapM_seq. intros i [e x] Hi. apply nth_error_combine in Hi as [H1 H2]. cbn [Nat.add].
  assert (He : exists d, In d ds /\ wfe dn d e).
  { clear - H H1. revert i H1. induction H as [|d e0 ds es He _ IH]; intros [|i] H1; try easy; cbn in H1.
    - injection H1 as ->. exists d. split; [now left|exact He].
    - destruct (IH i H1) as [d' [Hd1 Hd2]]. exists d'. split; [now right|exact Hd2]. }
  destruct He as [d [Hdin He]]. destruct (Hd d Hdin) as [Hd1 Hd2]. unfold move_obj.
  destruct (get_lt (g_fb (e_obj e)) kk) as [fb [-> E1]]; [rewrite (W_fb _ _ _ He); lia|]. cbn [bind].
  destruct (get_lt (g_ff (e_obj e)) kk) as [ff [-> E2]]; [rewrite (W_ff _ _ _ He); lia|]. cbn [bind].
  unfold get at 1. rewrite (W_done _ _ _ He kk Hin). cbn [bind]. unfold row_write. rewrite Hd2, Nat.eqb_refl. cbn [bind].
  unfold dyn_of, law. rewrite H1. rewrite (W_s3 _ _ _ He). destruct (Nat.ltb_spec dim (length (d_dyn d))) as [N|_]; [lia|].
  rewrite (nth_error_nth _ _ _ H2), (nth_error_nth _ _ _ E1), (nth_error_nth _ _ _ E2). reflexivity.
Qed.
Lemma joint_move_length p dn k xs : length (joint_move p dn k xs) = length xs.
Proof. unfold joint_move. now rewrite map_length, seq_length. Qed.
Lemma closed_loop_length es xs k : length (closed_loop dim es xs k) = length xs.
Proof. unfold closed_loop. induction k as [|k IH]; cbn [traj]; [reflexivity|]. now rewrite joint_move_length. Qed.

Lemma cost_closed_loop ds d0 es xs : Forall2 (wfe (seq 0 (h - 1))) (d0 :: ds) es -> length xs = length es ->
  (forall d, In d (d0 :: ds) -> (length (d_dyn d) <= dim)%nat /\ d_w d = d_w d0) ->
  exists g : nat -> R, (forall k, (k < h - 1)%nat -> density_based_cost dim pdf inv det safety y_ref tg (closed_loop dim es xs k) (map (fun e => g_w (e_obj e)) es) (map (fun e => g_cov (e_obj e)) es) = Ok (g k)) /\
    trajectory_cost dim pdf inv det h safety y_ref tg fcost es xs
    = Ok (rsum (map g (seq 0 (h - 1))) + final_cost dim tg fcost (closed_loop dim es xs (h - 1)), closed_loop dim es xs (h - 1)).
Proof.
  intros H Hx Hd. destruct (rows_zero _ _ _ H) as [e0 [es' [E0 [E1 E2]]]]. unfold trajectory_cost. rewrite E1. cbn [bind]. rewrite E2. cbn [bind].
  assert (G : forall k, exists v, density_based_cost dim pdf inv det safety y_ref tg (closed_loop dim es xs k) (map (fun e => g_w (e_obj e)) es) (map (fun e => g_cov (e_obj e)) es) = Ok v).
  { intro k. apply density_total.
    - intro N. apply (f_equal (@length _)) in N. rewrite closed_loop_length, Hx, E0 in N. easy.
    - now rewrite map_length, closed_loop_length.
    - now rewrite map_length, closed_loop_length. }
  exists (fun k => match density_based_cost dim pdf inv det safety y_ref tg (closed_loop dim es xs k) (map (fun e => g_w (e_obj e)) es) (map (fun e => g_cov (e_obj e)) es) with Ok v => v | Err _ => 0 end).
  split; [intros k _; now destruct (G k) as [v ->]|].
  match goal with |- context [foldM ?f _ _] => set (F := f) end.
  match goal with |- context [map ?f _] => set (gg := f) end.
  assert (HF : forall m, (m <= h - 1)%nat -> foldM F (seq 0 m) (0, xs) = Ok (rsum (map gg (seq 0 m)), closed_loop dim es xs m)).
  { induction m as [|m IH]; intro Hm; [reflexivity|]. rewrite seq_S, foldM_app, IH by lia. cbn [bind Nat.add foldM].
    unfold F at 1. destruct (G m) as [v Hv]. rewrite Hv. cbn [bind].
    assert (Hin : In m (seq 0 (h - 1))) by (apply in_seq; lia). assert (Hmh : (m < h)%nat) by lia.
    assert (Hcl : length (closed_loop dim es xs m) = length es) by now rewrite closed_loop_length.
    rewrite (moves_closed _ _ _ (d_w d0) m _ H Hin Hmh Hd Hcl).
    cbn [bind]. rewrite map_app, rsum_app. cbn [map]. rewrite rsum_cons. change (rsum []) with 0. rewrite Rplus_0_r.
    assert (Hgm : gg m = v) by (unfold gg; now rewrite Hv). rewrite Hgm. reflexivity. }
  rewrite HF by lia. reflexivity.
Qed.

(** * The loop *)
Notation loop := (iter_loop dim pdf inv det h cost_tol safety y_ref tg fwd bwd qfinal fcost).
Notation swp := (sweep dim pdf inv det h safety y_ref tg fwd bwd qfinal fcost).
Lemma loop_total ds n (Pr : sweep_rec -> Prop) :
  (forall es xs, Forall2 (wfe []) ds es -> length xs = n -> exists es' c xs', swp es xs = Ok (es', (c, xs')) /\ Forall2 (wfe []) ds es' /\ length xs' = n /\
     Pr {| s_start := xs; s_cost := c; s_objs := es'; s_end := xs' |}) ->
  forall m old es xs, Forall2 (wfe []) ds es -> length xs = n -> exists es' tr, loop m old es xs = Ok (es', tr) /\ Forall2 (wfe []) ds es' /\ Forall Pr tr.
Proof.
  intros Hs. induction m as [|m IH]; intros old es xs H Hx; cbn [iter_loop]; [exists es, []; now repeat split|].
  destruct (Hs es xs H Hx) as [es' [c [xs' [-> [H1 [H2 H3]]]]]]. cbn [bind].
  destruct (converged cost_tol old c); [eexists _, _; split; [reflexivity|]; split; [exact H1|]; now repeat constructor|].
  destruct (IH (Some c) es' xs' H1 H2) as [es'' [tr [-> [H4 H5]]]]. cbn [bind]. eexists _, _. split; [reflexivity|]. split; [exact H4|]. now constructor.
Qed.
Fixpoint chained (xs : list vec) (tr : list sweep_rec) : Prop :=
  match tr with [] => True | r :: tr' => s_start r = xs /\ chained (s_end r) tr' end.
Lemma settled_S costs a k : settled cost_tol (a :: costs) (S k) <-> match k with O => exists b, nth_error costs 0 = Some b /\ Rabs (a - b) < cost_tol | S _ => settled cost_tol costs k end.
Proof.
  unfold settled. destruct k as [|k].
  - split; [intros [x [y [_ [E1 [E2 E3]]]]]; cbn in E1, E2; injection E1 as <-; now exists y|]. intros [b [E1 E2]]. exists a, b. repeat split; [lia|exact E1|exact E2].
  - split; intros [x [y [_ [E1 [E2 E3]]]]]; exists x, y; replace (S (S k) - 1)%nat with (S k) in * by lia; replace (S k - 1)%nat with k in * by lia; cbn [nth_error] in *; repeat split; assumption || lia.
Qed.
Lemma converged_some o c : converged cost_tol (Some o) c = true <-> Rabs (o - c) < cost_tol.
Proof. cbn. destruct (Rlt_dec _ _); split; easy. Qed.
Lemma loop_some m : forall o es xs es' tr, loop m (Some o) es xs = Ok (es', tr) ->
  (length tr <= m)%nat /\ (forall k, (k < length tr)%nat -> (S k < length tr)%nat -> ~ settled cost_tol (o :: map s_cost tr) (S k)) /\
  ((length tr < m)%nat -> settled cost_tol (o :: map s_cost tr) (length tr)) /\ chained xs tr /\ (tr = [] -> es' = es) /\ (forall d, tr <> [] -> es' = s_objs (last tr d)).
Proof.
  induction m as [|m IH]; intros o es xs es' tr H; cbn [iter_loop] in H.
  { injection H as <- <-. repeat split; cbn; try lia; easy. }
  apply bind_ok in H as [[es1 [c xs1]] [Hs H]]. destruct (converged cost_tol (Some o) c) eqn:Ec.
  - injection H as <- <-. apply converged_some in Ec. cbn [length map s_cost]. split; [lia|]. split; [intros; lia|]. split; [|repeat split; easy].
    intros _. apply settled_S. exists c. now split.
  - apply bind_ok in H as [[es2 t] [Hl H]]. injection H as <- <-. apply IH in Hl as [L1 [L2 [L3 [L4 [L5 L6]]]]].
    assert (Nc : ~ Rabs (o - c) < cost_tol) by (intro N; apply converged_some in N; congruence).
    cbn [length map s_cost]. split; [lia|]. split; [|split; [|split; [|split]]].
    + intros k _ Hk Hset. apply settled_S in Hset. destruct k as [|k].
      * destruct Hset as [b [Hb Hlt]]. cbn in Hb. injection Hb as <-. easy.
      * apply (L2 k); [lia|lia|exact Hset].
    + intro Hlt. apply settled_S. destruct (length t) as [|k] eqn:Et.
      * apply length_zero_iff_nil in Et. subst t. exfalso. assert (Hs2 := L3 ltac:(cbn; lia)). destruct Hs2 as [x [y [Hs2 _]]]. cbn in Hs2. lia.
      * rewrite <- Et. rewrite Et. apply L3. lia.
    + cbn [chained s_start s_end]. now split.
    + easy.
    + intros d _. destruct t as [|r t]; [now rewrite L5|]. rewrite (L6 d ltac:(easy)). reflexivity.
Qed.
Lemma loop_shape m es xs es' tr : loop m None es xs = Ok (es', tr) ->
  (length tr <= m)%nat /\ (forall k, (S k < length tr)%nat -> ~ settled cost_tol (map s_cost tr) k) /\
  ((length tr < m)%nat -> settled cost_tol (map s_cost tr) (length tr - 1)) /\ chained xs tr /\ (tr = [] -> es' = es) /\ (forall d, tr <> [] -> es' = s_objs (last tr d)).
Proof.
  destruct m as [|m]; intro H; cbn [iter_loop] in H.
  { injection H as <- <-. repeat split; cbn; try lia; easy. }
  apply bind_ok in H as [[es1 [c xs1]] [Hs H]]. cbn [converged] in H.
  apply bind_ok in H as [[es2 t] [Hl H]]. injection H as <- <-. apply loop_some in Hl as [L1 [L2 [L3 [L4 [L5 L6]]]]].
  cbn [length map s_cost]. split; [lia|]. split; [|split; [|split; [|split]]].
  - intros [|k] Hk Hset; [destruct Hset as [x [y [Hc _]]]; lia|]. apply (L2 k); [lia|lia|exact Hset].
  - intro Hlt. replace (S (length t) - 1)%nat with (length t) by lia. apply L3. lia.
  - cbn [chained s_start s_end]. now split.
  - easy.
  - intros d _. destruct t as [|r t]; [now rewrite L5|]. rewrite (L6 d ltac:(easy)). reflexivity.
Qed.
End P.
