(** Proofs about the CPHD model. *)
From Verif Require Import Base Lists.
From Coq Require Import Reals Permutation Lra.
From Verif Require Import OspaModel OspaProofs CphdModel CphdSpec.
Open Scope R_scope.

(** * Sums, logarithms *)
Lemma mapM_map {A B} (f : A -> result B) (g : A -> B) l : (forall x, In x l -> f x = Ok (g x)) -> mapM f l = Ok (map g l).
Proof.
  induction l as [|x l IH]; intros H; [reflexivity|]. cbn [mapM map]. rewrite (H x) by (left; reflexivity). cbn [bind].
  rewrite IH by (intros y Hy; apply H; right; exact Hy). reflexivity.
Qed.
Lemma mapM_length {A B} (f : A -> result B) l ys : mapM f l = Ok ys -> length ys = length l.
Proof. intros H. apply mapM_ok in H. symmetry. apply (Forall2_nth _ _ _ H). Qed.
Lemma mapM_in {A B} (f : A -> result B) l ys y : mapM f l = Ok ys -> In y ys -> exists x, In x l /\ f x = Ok y.
Proof.
  intros H. apply mapM_ok in H. induction H as [|x y' l l' Hx _ IH]; intros [].
  - subst. exists x. split; [left; reflexivity|exact Hx].
  - destruct (IH H) as [x' [H1 H2]]. exists x'. split; [right; exact H1|exact H2].
Qed.
Lemma sumM_map l f g : (forall x, In x l -> f x = Ok (g x)) -> sumM l f = Ok (rsum (map g l)).
Proof. intros H. unfold sumM. rewrite (mapM_map f g l H). reflexivity. Qed.
Lemma sumM_nonneg l f v : (forall x y, In x l -> f x = Ok y -> 0 <= y) -> sumM l f = Ok v -> 0 <= v.
Proof.
  intros H E. apply bind_ok in E. destruct E as [ys [E1 E2]]. injection E2 as <-.
  apply rsum_nonneg. intros y Hy. destruct (mapM_in _ _ _ _ E1 Hy) as [x [Hx Ef]]. eapply H; eassumption.
Qed.
Lemma rsum_pos l : (forall x, In x l -> 0 <= x) -> (exists x, In x l /\ 0 < x) -> 0 < rsum l.
Proof.
  intros H [x [Hx Hp]]. induction l as [|y l IH]; [destruct Hx|]. rewrite rsum_cons.
  assert (0 <= rsum l) by (apply rsum_nonneg; intros z Hz; apply H; right; exact Hz).
  destruct Hx as [->|Hx]; [lra|]. assert (0 < rsum l) by (apply IH; [intros z Hz; apply H; right; exact Hz|exact Hx]).
  specialize (H y (or_introl eq_refl)). lra.
Qed.
Lemma rsum_scale {A} k (f : A -> R) l : rsum (map (fun x => k * f x) l) = k * rsum (map f l).
Proof. induction l as [|x l IH]; cbn [map]; [cbn; ring|]. rewrite !rsum_cons, IH. ring. Qed.
Lemma range_0 n : range 0 n = seq 0 n.
Proof. unfold range. rewrite Nat.sub_0_r. reflexivity. Qed.
Lemma sum_ab_range a b f : rsum (map f (range a (b + 1))) = sum_ab a b f.
Proof. unfold range, sum_ab. replace (b + 1)%nat with (S b) by lia. reflexivity. Qed.
Lemma sum_ab_ext a b f g : (forall i, (a <= i <= b)%nat -> f i = g i) -> sum_ab a b f = sum_ab a b g.
Proof. intros H. unfold sum_ab. apply rsum_ext. intros i Hi. apply in_seq in Hi. apply H. lia. Qed.
Lemma sum_ab_scale a b k f : sum_ab a b (fun i => k * f i) = k * sum_ab a b f.
Proof. unfold sum_ab. apply rsum_scale. Qed.
Lemma sum_ab_nonneg a b f : (forall i, (a <= i <= b)%nat -> 0 <= f i) -> 0 <= sum_ab a b f.
Proof.
  intros H. apply rsum_nonneg. intros x Hx. apply in_map_iff in Hx. destruct Hx as [i [<- Hi]]. apply in_seq in Hi. apply H. lia.
Qed.
Lemma sum_ab_pos a b f i : (forall i, (a <= i <= b)%nat -> 0 <= f i) -> (a <= i <= b)%nat -> 0 < f i -> 0 < sum_ab a b f.
Proof.
  intros H Hi Hp. apply rsum_pos.
  - intros x Hx. apply in_map_iff in Hx. destruct Hx as [k [<- Hk]]. apply in_seq in Hk. apply H. lia.
  - exists (f i). split; [|exact Hp]. apply in_map, in_seq. lia.
Qed.
Lemma lnfact_S n : lnfact (S n) = lnfact n + ln (INR (S n)).
Proof. reflexivity. Qed.
Lemma exp_lnfact n : exp (lnfact n) = INR (fact n).
Proof.
  induction n as [|n IH]; [unfold lnfact; cbn [rsumn fact]; rewrite exp_0; reflexivity|].
  rewrite lnfact_S, exp_plus, IH, exp_ln by (apply lt_0_INR; lia).
  change (fact (S n)) with (S n * fact n)%nat. rewrite mult_INR. ring.
Qed.
Lemma fact_pos n : 0 < INR (fact n).
Proof. apply lt_0_INR, lt_O_fact. Qed.
Lemma exp_nlnfact n : exp (- lnfact n) = / INR (fact n).
Proof. rewrite exp_Ropp, exp_lnfact. reflexivity. Qed.
Lemma exp_kln k x : 0 < x -> exp (INR k * ln x) = x ^ k.
Proof. intros H. fold (Rpower x (INR k)). apply Rpower_pow, H. Qed.
Lemma llog_pos x : 0 < x -> llog x = LFin (ln x).
Proof. intros H. unfold llog. destruct (Rlt_dec 0 x); [reflexivity|contradiction]. Qed.
Lemma llog_zero : llog 0 = LNinf.
Proof. unfold llog. destruct (Rlt_dec 0 0); [lra|]. destruct (Req_EM_T 0 0); [reflexivity|lra]. Qed.
Lemma lexp_nonneg x v : lexp x = Ok v -> 0 <= v.
Proof. destruct x; cbn; intros H; inversion H; [left; apply exp_pos|lra]. Qed.
Lemma ladd_bad x : ladd x LBad = LBad.
Proof. destruct x; reflexivity. Qed.

(** * Normalisation *)
Lemma rdiv_ok x y v : rdiv x y = Ok v -> y <> 0 /\ v = x / y.
Proof. unfold rdiv. destruct (Req_EM_T y 0); [discriminate|]. intros H. injection H as <-. split; [assumption|reflexivity]. Qed.
Lemma rdiv_val x y : y <> 0 -> rdiv x y = Ok (x / y).
Proof. intros H. unfold rdiv. destruct (Req_EM_T y 0); [contradiction|reflexivity]. Qed.
Lemma normaliseR_val l : rsum l <> 0 -> normaliseR l = Ok (map (fun x => x / rsum l) l).
Proof. intros H. apply mapM_map. intros x _. apply rdiv_val, H. Qed.
Lemma normaliseR_ok l r : l <> [] -> normaliseR l = Ok r -> rsum l <> 0 /\ r = map (fun x => x / rsum l) l.
Proof.
  intros Hl H. assert (Hn : rsum l <> 0).
  { destruct l as [|x l']; [contradiction|]. unfold normaliseR in H. cbn [mapM] in H. apply bind_ok in H.
    destruct H as [y [H _]]. apply rdiv_ok in H. tauto. }
  split; [exact Hn|]. rewrite (normaliseR_val l Hn) in H. injection H as <-. reflexivity.
Qed.
Lemma normaliseR_dist mx l r : length l = S mx -> (forall x, In x l -> 0 <= x) -> normaliseR l = Ok r -> distribution mx r.
Proof.
  intros Hl Hp H. apply normaliseR_ok in H; [|destruct l; discriminate]. destruct H as [Hn ->].
  assert (H0 : 0 <= rsum l) by (apply rsum_nonneg, Hp). assert (Hs : 0 < rsum l) by lra.
  split; [rewrite map_length; exact Hl|]. split.
  - intros x Hx. apply in_map_iff in Hx. destruct Hx as [y [<- Hy]]. apply Rmult_le_pos; [apply Hp, Hy|].
    left. apply Rinv_0_lt_compat, Hs.
  - rewrite (rsum_ext _ (fun x => / rsum l * id x)) by (intros; unfold id; field; lra).
    rewrite rsum_scale, map_id. field. lra.
Qed.
Lemma init_card_dist mx : distribution mx (init_card mx).
Proof.
  unfold init_card. split; [cbn [length]; rewrite repeat_length; reflexivity|]. split.
  - intros x [<-|Hx]; [lra|]. apply repeat_spec in Hx. lra.
  - rewrite rsum_cons. assert (E : rsum (repeat 0 mx) = 0); [|rewrite E; ring].
    induction mx as [|n IH]; [reflexivity|]. cbn [repeat]. rewrite rsum_cons, IH. ring.
Qed.

Section Proofs.
Context {V M Meas : Type}.
Implicit Types (c : ccfg V M Meas) (g : rmix V M) (s : cphd V M Meas).

(** * Prediction *)
Lemma surv_term_val c rho j i : 0 < k_ps c < 1 -> surv_term c rho j i =
  Ok (INR (fact i) * / INR (fact j) * INR (fact (i - j)) * k_ps c ^ j * (1 - k_ps c) ^ (i - j) * nth i rho 0).
Proof.
  intros H. unfold surv_term, prob_death. rewrite !llog_pos by lra. cbn [lmul ladd lexp bind].
  rewrite !exp_plus, !exp_kln, exp_nlnfact, !exp_lnfact by lra. reflexivity.
Qed.
Definition survived (ps : R) (mx : nat) (rho : list R) (j : nat) : R :=
  sum_ab j mx (fun i => INR (fact i) * / INR (fact j) * INR (fact (i - j)) * ps ^ j * (1 - ps) ^ (i - j) * nth i rho 0).
Lemma survive_val c mx rho : 0 < k_ps c < 1 ->
  survive c mx rho = Ok (map (survived (k_ps c) mx rho) (seq 0 mx) ++ [0]).
Proof.
  intros H. unfold survive. rewrite (mapM_map _ (survived (k_ps c) mx rho)).
  - cbn [bind]. rewrite range_0. reflexivity.
  - intros j _. unfold survived. rewrite <- sum_ab_range. apply sumM_map. intros i _. apply surv_term_val, H.
Qed.
Lemma birth_sum_iff c b : birth_sum c = Ok b <-> first_weights (k_birth c) b.
Proof.
  unfold birth_sum, first_weights. split.
  - intros E. apply bind_ok in E as [l [E E']]. injection E' as <-. exists l. split; [|reflexivity]. apply mapM_ok in E.
    induction E as [|g w gs ws H _ IH]; constructor; [|exact IH]. destruct (rm_w g); [discriminate|]. injection H as ->. reflexivity.
  - intros [l [H ->]]. assert (E : mapM (fun b => match rm_w b with [] => Err IndexErr | w :: _ => Ok w end) (k_birth c) = Ok l).
    { apply mapM_ok. induction H as [|g w gs ws H _ IH]; constructor; [|exact IH]. destruct (rm_w g); [discriminate|]. injection H as ->. reflexivity. }
    rewrite E. reflexivity.
Qed.
Lemma birth_term_val c b sv n j : birth_sum c = Ok b -> 0 < b ->
  birth_term c sv n j = Ok (exp b * b ^ (n - j) * / INR (fact (n - j)) * nth j sv 0).
Proof.
  intros Hb H. unfold birth_term. rewrite Hb. cbn [bind]. rewrite llog_pos by exact H. cbn [lmul ladd lexp bind].
  rewrite !exp_plus, exp_kln, exp_nlnfact by exact H. reflexivity.
Qed.
Definition birthed (b : R) (sv : list R) (n : nat) : R :=
  sum_ab 0 n (fun j => exp b * b ^ (n - j) * / INR (fact (n - j)) * nth j sv 0).
Lemma cdn_val c mx b sv : birth_sum c = Ok b -> 0 < b ->
  cdn_predict c mx sv = Ok (map (birthed b sv) (seq 0 (S mx))).
Proof.
  intros Hb H. unfold cdn_predict. rewrite (mapM_map _ (birthed b sv)).
  - rewrite range_0. replace (mx + 1)%nat with (S mx) by lia. reflexivity.
  - intros n _. unfold birthed. rewrite <- sum_ab_range. apply sumM_map. intros j _. apply birth_term_val; assumption.
Qed.

Lemma nth_snoc_map f mx j : nth j (map f (seq 0 mx) ++ [0]) 0 = if (j <? mx)%nat then f j else 0.
Proof.
  destruct (j <? mx)%nat eqn:E.
  - apply Nat.ltb_lt in E. rewrite app_nth1 by (rewrite map_length, seq_length; lia). apply nth_map_seq, E.
  - apply Nat.ltb_ge in E. rewrite app_nth2 by (rewrite map_length, seq_length; lia). rewrite map_length, seq_length.
    destruct (j - mx)%nat as [|[|k]]; reflexivity.
Qed.
(** What the code computes for n objects, up to the common factor. *)
Definition predicted_code (ps b : R) (mx : nat) (rho : list R) (n : nat) : R :=
  sum_ab 0 n (fun j => exp b * b ^ (n - j) * / INR (fact (n - j)) *
                       (if (j <? mx)%nat then survived ps mx rho j else 0)).
Lemma survived_nonneg ps mx rho j : 0 <= ps <= 1 -> (forall x, In x rho -> 0 <= x) -> 0 <= survived ps mx rho j.
Proof.
  intros H Hr. apply sum_ab_nonneg. intros i Hi.
  assert (0 <= nth i rho 0) by (destruct (nth_in_or_default i rho 0) as [Hin| ->]; [apply Hr, Hin|lra]).
  pose proof (fact_pos i). pose proof (fact_pos j). pose proof (fact_pos (i - j)).
  assert (0 < / INR (fact j)) by (apply Rinv_0_lt_compat; assumption).
  assert (0 <= ps ^ j) by (apply pow_le; lra). assert (0 <= (1 - ps) ^ (i - j)) by (apply pow_le; lra).
  repeat apply Rmult_le_pos; lra.
Qed.
Lemma birthed_code ps b mx rho n :
  birthed b (map (survived ps mx rho) (seq 0 mx) ++ [0]) n = predicted_code ps b mx rho n.
Proof. unfold birthed, predicted_code. apply sum_ab_ext. intros j Hj. rewrite nth_snoc_map. reflexivity. Qed.
Lemma coef_pos b k : 0 < b -> 0 < exp b * b ^ k * / INR (fact k).
Proof.
  intros H. pose proof (exp_pos b). assert (0 < b ^ k) by (apply pow_lt, H). pose proof (fact_pos k).
  assert (0 < / INR (fact k)) by (apply Rinv_0_lt_compat; assumption).
  apply Rmult_lt_0_compat; [apply Rmult_lt_0_compat|]; assumption.
Qed.
Lemma predicted_code_nonneg ps b mx rho n : 0 <= ps <= 1 -> 0 < b -> (forall x, In x rho -> 0 <= x) -> 0 <= predicted_code ps b mx rho n.
Proof.
  intros H Hb Hr. apply sum_ab_nonneg. intros j Hj. apply Rmult_le_pos; [left; apply coef_pos, Hb|].
  destruct (j <? mx)%nat; [apply survived_nonneg; assumption|lra].
Qed.
Lemma rsum_nz_ex l : rsum l <> 0 -> (forall x, In x l -> 0 <= x) -> exists i, (i < length l)%nat /\ 0 < nth i l 0.
Proof.
  induction l as [|x l IH]; intros Hs Hp; [cbn in Hs; lra|].
  destruct (Rlt_dec 0 x) as [H|H]; [exists 0%nat; split; [cbn; lia|exact H]|].
  assert (x = 0) by (specialize (Hp x (or_introl eq_refl)); lra). subst x. rewrite rsum_cons in Hs.
  destruct IH as [i [Hi Hn]]; [lra|intros y Hy; apply Hp; right; exact Hy|].
  exists (S i). split; [cbn; lia|exact Hn].
Qed.
Lemma predicted_code0_pos ps b mx rho : 0 < ps < 1 -> 0 < b -> distribution mx rho -> (0 < mx)%nat ->
  0 < predicted_code ps b mx rho 0.
Proof.
  intros H Hb [Hl [Hp Hs]] Hm. unfold predicted_code.
  assert (Hsv : 0 < survived ps mx rho 0).
  { destruct (rsum_nz_ex rho) as [i [Hi Hn]]; [lra|exact Hp|].
    unfold survived. apply (sum_ab_pos _ _ _ i); [|lia|].
    - intros k Hk. assert (0 <= nth k rho 0) by (destruct (nth_in_or_default k rho 0) as [Hin| ->]; [apply Hp, Hin|lra]).
      pose proof (fact_pos k). pose proof (fact_pos 0). pose proof (fact_pos (k - 0)).
      assert (0 < / INR (fact 0)) by (apply Rinv_0_lt_compat; assumption).
      assert (0 <= ps ^ 0) by (apply pow_le; lra). assert (0 <= (1 - ps) ^ (k - 0)) by (apply pow_le; lra).
      repeat apply Rmult_le_pos; lra.
    - pose proof (fact_pos i). pose proof (fact_pos 0). pose proof (fact_pos (i - 0)).
      assert (0 < / INR (fact 0)) by (apply Rinv_0_lt_compat; assumption).
      assert (0 < ps ^ 0) by (apply pow_lt; lra). assert (0 < (1 - ps) ^ (i - 0)) by (apply pow_lt; lra).
      repeat apply Rmult_lt_0_compat; assumption. }
  apply (sum_ab_pos _ _ _ 0%nat); [|lia|].
  - intros j Hj. replace j with 0%nat by lia. apply Rmult_le_pos; [left; apply coef_pos, Hb|].
    apply Nat.ltb_lt in Hm. rewrite Hm. lra.
  - apply Rmult_lt_0_compat; [apply coef_pos, Hb|]. apply Nat.ltb_lt in Hm. rewrite Hm. exact Hsv.
Qed.
(** The predicted distribution, in closed form. *)
Lemma pred_card_val c mx rho b : 0 < k_ps c < 1 -> birth_sum c = Ok b -> 0 < b -> distribution mx rho -> (0 < mx)%nat ->
  pred_card c mx rho = Ok (map (fun n => predicted_code (k_ps c) b mx rho n / sum_ab 0 mx (predicted_code (k_ps c) b mx rho))
                              (seq 0 (S mx))).
Proof.
  intros Hps Hb Hpos Hd Hm. unfold pred_card. rewrite (survive_val c mx rho Hps). cbn [bind].
  rewrite (cdn_val c mx b _ Hb Hpos). cbn [bind].
  rewrite (map_ext _ (predicted_code (k_ps c) b mx rho)) by (intros n; apply birthed_code).
  assert (E : rsum (map (predicted_code (k_ps c) b mx rho) (seq 0 (S mx))) = sum_ab 0 mx (predicted_code (k_ps c) b mx rho)).
  { unfold sum_ab. rewrite Nat.sub_0_r. reflexivity. }
  assert (Hs : 0 < sum_ab 0 mx (predicted_code (k_ps c) b mx rho)).
  { apply (sum_ab_pos _ _ _ 0%nat); [|lia|apply predicted_code0_pos; assumption].
    intros n _. apply predicted_code_nonneg; [lra|exact Hpos|apply Hd]. }
  rewrite normaliseR_val by (rewrite E; lra). rewrite E, map_map. reflexivity.
Qed.
Lemma nth_nonneg l i : (forall x, In x l -> 0 <= x) -> 0 <= nth i l 0.
Proof. intros H. destruct (nth_in_or_default i l 0) as [Hin| ->]; [apply H, Hin|lra]. Qed.
Lemma pred_card_dist c mx rho r : (forall x, In x rho -> 0 <= x) -> pred_card c mx rho = Ok r -> distribution mx r.
Proof.
  intros Hr H. apply bind_ok in H. destruct H as [sv [Hsv H]]. apply bind_ok in H. destruct H as [cdn [Hc H]].
  assert (Hsn : forall x, In x sv -> 0 <= x).
  { apply bind_ok in Hsv. destruct Hsv as [l [Hl E]]. injection E as <-. intros x Hx. apply in_app_or in Hx.
    destruct Hx as [Hx|[<-|[]]]; [|lra]. destruct (mapM_in _ _ _ _ Hl Hx) as [j [_ Ej]].
    eapply sumM_nonneg; [|exact Ej]. intros i y _ Hy. apply bind_ok in Hy. destruct Hy as [e [He Hy]]. injection Hy as <-.
    apply Rmult_le_pos; [eapply lexp_nonneg, He|apply nth_nonneg, Hr]. }
  apply (normaliseR_dist mx cdn); [| |exact H].
  - apply mapM_length in Hc. rewrite Hc. unfold range. rewrite seq_length. lia.
  - intros x Hx. destruct (mapM_in _ _ _ _ Hc Hx) as [n [_ En]]. eapply sumM_nonneg; [|exact En].
    intros j y _ Hy. apply bind_ok in Hy. destruct Hy as [b [_ Hy]]. apply bind_ok in Hy. destruct Hy as [e [He Hy]]. injection Hy as <-.
    apply Rmult_le_pos; [eapply lexp_nonneg, He|apply nth_nonneg, Hsn].
Qed.

(** * Elementary symmetric functions *)
Lemma esym_nonneg l : (forall x, In x l -> 0 <= x) -> forall j, 0 <= esym l j.
Proof.
  induction l as [|x l IH]; intros H j; destruct j as [|j]; cbn [esym]; try lra.
  assert (H' : forall y, In y l -> 0 <= y) by (intros y Hy; apply H; right; exact Hy).
  pose proof (IH H' (S j)). pose proof (IH H' j). pose proof (H x (or_introl eq_refl)).
  assert (0 <= x * esym l j) by (apply Rmult_le_pos; assumption). lra.
Qed.
Lemma esf_nonneg f l : esf_ok f -> (forall x, In x l -> 0 <= x) -> forall x, In x (f l) -> 0 <= x.
Proof.
  intros Hf Hl x Hx. rewrite (Hf l) in Hx. apply in_map_iff in Hx. destruct Hx as [j [<- _]]. apply esym_nonneg, Hl.
Qed.
Lemma nth_esf f l j : esf_ok f -> (j <= length l)%nat -> nth j (f l) 0 = esym l j.
Proof. intros Hf Hj. rewrite (Hf l). apply (nth_map_seq (esym l)). lia. Qed.

(** * Correction *)
Lemma ups_term_nonneg c tot u zl es nn jj y : (forall x, In x es -> 0 <= x) -> ups_term c tot u zl es nn jj = Ok y -> 0 <= y.
Proof.
  intros H E. apply bind_ok in E. destruct E as [e [He E]]. injection E as <-.
  apply Rmult_le_pos; [eapply lexp_nonneg, He|apply nth_nonneg, H].
Qed.
Lemma ups0_nonneg c tot z es nn v : (forall x, In x es -> 0 <= x) -> ups0 c tot z es nn = Ok v -> 0 <= v.
Proof. intros H E. eapply sumM_nonneg; [|exact E]. intros j y _ Hy. eapply ups_term_nonneg; eassumption. Qed.
Lemma ups1_nonneg c tot z es nn v : (forall x, In x es -> 0 <= x) -> ups1 c tot z es nn = Ok v -> 0 <= v.
Proof.
  intros H E. eapply sumM_nonneg; [|exact E]. intros j y _ Hy. cbn beta in Hy.
  destruct (j + 1 <=? nn)%nat; [eapply ups_term_nonneg; eassumption|injection Hy as <-; lra].
Qed.
Lemma ups_term_val c tot u zl xi nn jj : esf_ok (k_esf c) -> 0 < k_ps c < 1 -> 0 < k_rate c -> 0 < tot ->
  (jj <= length xi)%nat -> zl = length xi ->
  ups_term c tot u zl (k_esf c xi) nn jj =
  Ok (exp (- k_rate c) * k_rate c ^ (length xi - jj) * (INR (fact nn) / INR (fact (nn - (jj + u)))) *
      (1 - k_ps c) ^ (nn - (jj + u)) / tot ^ (jj + u) * esym xi jj).
Proof.
  intros He Hps Hr Ht Hj ->. unfold ups_term, prob_death. rewrite !llog_pos by lra. cbn [lmul lmulneg ladd lexp bind].
  rewrite !exp_plus, !exp_kln, exp_nlnfact, exp_lnfact by lra. rewrite nth_esf by assumption.
  replace (- INR (jj + u) * ln tot) with (- (INR (jj + u) * ln tot)) by ring. rewrite (exp_Ropp (INR (jj + u) * ln tot)), exp_kln by exact Ht.
  unfold Rdiv. f_equal. ring.
Qed.
Lemma ups0_val c tot xi nn : esf_ok (k_esf c) -> 0 < k_ps c < 1 -> 0 < k_rate c -> 0 < tot ->
  ups0 c tot (length xi) (k_esf c xi) nn = Ok (upsilon (k_rate c) tot (1 - k_ps c) 0 xi nn).
Proof.
  intros He Hps Hr Ht. unfold ups0, upsilon. rewrite <- sum_ab_range. apply sumM_map. intros j Hj.
  unfold range in Hj. apply in_seq in Hj. rewrite ups_term_val by (assumption || lia || reflexivity).
  assert (E : (j + 0 <=? nn)%nat = true) by (apply Nat.leb_le; lia). rewrite E. reflexivity.
Qed.
Lemma ups1_val c tot xi nn : esf_ok (k_esf c) -> 0 < k_ps c < 1 -> 0 < k_rate c -> 0 < tot ->
  ups1 c tot (length xi) (k_esf c xi) nn = Ok (upsilon (k_rate c) tot (1 - k_ps c) 1 xi nn).
Proof.
  intros He Hps Hr Ht. unfold ups1, upsilon. rewrite <- sum_ab_range. apply sumM_map. intros j Hj.
  unfold range in Hj. apply in_seq in Hj. destruct (j + 1 <=? nn)%nat; [|reflexivity].
  apply ups_term_val; (assumption || lia || reflexivity).
Qed.
Lemma prod6_nonneg a b k d e f : 0 < a -> 0 < b -> 0 < k -> 0 <= d -> 0 < e -> 0 <= f -> 0 <= a * b * k * d / e * f.
Proof.
  intros. assert (0 < / e) by (apply Rinv_0_lt_compat; assumption). unfold Rdiv. repeat apply Rmult_le_pos; lra.
Qed.
Lemma prod6_pos a b k d e f : 0 < a -> 0 < b -> 0 < k -> 0 < d -> 0 < e -> 0 < f -> 0 < a * b * k * d / e * f.
Proof.
  intros. assert (0 < / e) by (apply Rinv_0_lt_compat; assumption). unfold Rdiv. repeat apply Rmult_lt_0_compat; lra.
Qed.
Lemma ups_summand_nonneg rate tot q u xi n j : 0 < rate -> 0 < tot -> 0 <= q -> (forall x, In x xi -> 0 <= x) ->
  0 <= if (j + u <=? n)%nat then
      exp (- rate) * rate ^ (length xi - j) * (INR (fact n) / INR (fact (n - (j + u)))) *
      q ^ (n - (j + u)) / tot ^ (j + u) * esym xi j
    else 0.
Proof.
  intros Hr Ht Hq Hx. destruct (j + u <=? n)%nat; [|lra]. apply prod6_nonneg.
  - apply exp_pos.
  - apply pow_lt, Hr.
  - apply Rdiv_lt_0_compat; apply fact_pos.
  - apply pow_le, Hq.
  - apply pow_lt, Ht.
  - apply esym_nonneg, Hx.
Qed.
Lemma upsilon_nonneg rate tot q u xi n : 0 < rate -> 0 < tot -> 0 <= q -> (forall x, In x xi -> 0 <= x) -> 0 <= upsilon rate tot q u xi n.
Proof. intros Hr Ht Hq Hx. apply sum_ab_nonneg. intros j _. apply ups_summand_nonneg; assumption. Qed.
Lemma upsilon0_pos rate tot q xi n : 0 < rate -> 0 < tot -> 0 < q -> (forall x, In x xi -> 0 <= x) -> 0 < upsilon rate tot q 0 xi n.
Proof.
  intros Hr Ht Hq Hx. unfold upsilon. apply (sum_ab_pos _ _ _ 0%nat).
  - intros j _. apply ups_summand_nonneg; (assumption || lra).
  - lia.
  - cbn [Nat.add Nat.leb]. apply prod6_pos.
    + apply exp_pos.
    + apply pow_lt, Hr.
    + apply Rdiv_lt_0_compat; apply fact_pos.
    + apply pow_lt, Hq.
    + cbn. lra.
    + destruct xi; cbn; lra.
Qed.

Lemma dot_nonneg a b : (forall x, In x a -> 0 <= x) -> (forall x, In x b -> 0 <= x) -> 0 <= dot a b.
Proof.
  intros Ha Hb. apply rsum_nonneg. intros x Hx. apply in_map_iff in Hx. destruct Hx as [[u v] [<- Hin]].
  cbn. apply Rmult_le_pos; [apply Ha|apply Hb]; [eapply in_combine_l|eapply in_combine_r]; exact Hin.
Qed.
Lemma dot_inner f rho mx : length rho = S mx -> dot (map f (seq 0 (S mx))) rho = inner mx f rho.
Proof.
  intros Hl. unfold dot, inner, sum_ab. rewrite Nat.sub_0_r.
  rewrite <- (map_nth_seq rho 0) at 1. rewrite Hl, combine_map2, map_map. reflexivity.
Qed.

Lemma combine_map {A B A' B'} (f : A -> A') (g : B -> B') l l' :
  combine (map f l) (map g l') = map (fun p => (f (fst p), g (snd p))) (combine l l').
Proof. revert l'. induction l as [|a l IH]; intros [|b l']; [reflexivity..|]. cbn. f_equal. apply IH. Qed.
Lemma flat_map_map {A B K} (f : B -> list K) (g : A -> B) l : flat_map f (map g l) = flat_map (fun x => f (g x)) l.
Proof. induction l as [|x l IH]; [reflexivity|]. cbn. rewrite IH. reflexivity. Qed.
Lemma delete_at_length {A} j (l : list A) : (j < length l)%nat -> length (delete_at j l) = (length l - 1)%nat.
Proof. intros H. unfold delete_at. rewrite app_length, firstn_length, skipn_length. lia. Qed.
Lemma delete_at_in {A} j (l : list A) x : In x (delete_at j l) -> In x l.
Proof.
  intros H. rewrite <- (firstn_skipn j l). apply in_app_or in H. apply in_or_app. destruct H as [H|H]; [left; exact H|right].
  revert H. clear. revert l. induction j as [|j IH]; intros [|y l] H; try (destruct H; fail); [right; exact H|]. apply (IH l H).
Qed.

(** Likelihoods of all components per measurement. *)
Definition lik c g (meas : list Meas) : list (list R) := map (fun z => qz_of (corr_all c g z)) meas.
Lemma xi_code c g meas : map (fun col => k_pd c / k_den c * dot (rm_w g) (qz_of col)) (map (corr_all c g) meas) =
  xi_of (k_pd c) (k_den c) (rm_w g) (lik c g meas).
Proof. unfold xi_of, lik. rewrite !map_map. reflexivity. Qed.
Lemma xi_nonneg pd den w L : 0 <= pd -> 0 <= den -> (forall x, In x w -> 0 <= x) -> (forall q x, In q L -> In x q -> 0 <= x) ->
  forall x, In x (xi_of pd den w L) -> 0 <= x.
Proof.
  intros Hp Hd Hw HL x Hx. apply in_map_iff in Hx. destruct Hx as [q [<- Hq]]. apply Rmult_le_pos.
  - destruct (Req_dec den 0) as [->|Hn]; [unfold Rdiv; rewrite Rinv_0; lra|].
    apply Rmult_le_pos; [exact Hp|]. left. apply Rinv_0_lt_compat. lra.
  - apply (dot_nonneg w q Hw). intros y Hy. eapply HL; eassumption.
Qed.

Lemma correct_density_val c mx rho meas g :
  esf_ok (k_esf c) -> 0 < k_ps c < 1 -> 0 <= k_pd c -> 0 < k_rate c -> 0 < k_den c ->
  raligned g -> rm_w g <> [] -> (forall x, In x (rm_w g) -> 0 <= x) -> 0 < rsum (rm_w g) ->
  (forall q x, In q (lik c g meas) -> In x q -> 0 <= x) -> distribution mx rho ->
  correct_density c mx rho meas g = Ok
    ({| rm_w := cphd_weights (k_rate c) (k_den c) (k_pd c) (1 - k_ps c) mx rho (rm_w g) (lik c g meas);
        rm_m := rm_m g ++ flat_map (fun z => map (fun x => fst (fst x)) (corr_all c g z)) meas;
        rm_p := rm_p g ++ flat_map (fun _ => map (fun x => snd (fst x)) (last (map (corr_all c g) meas) [])) meas |},
     map (cphd_card (k_rate c) (k_den c) (k_pd c) (1 - k_ps c) mx rho (rm_w g) (lik c g meas)) (seq 0 (S mx))).
Proof.
  intros He Hps Hpd Hr Hd [Ha1 Ha2] Hne Hw Ht Hq [Hl [Hrp Hrs]]. unfold correct_density.
  rewrite Ha1, Ha2, Hl, !Nat.eqb_refl. replace (S mx =? mx + 1)%nat with true by (symmetry; apply Nat.eqb_eq; lia).
  cbn [andb negb]. destruct (rm_m g) as [|m0 ms] eqn:Em.
  { destruct (rm_w g); [contradiction|discriminate]. }
  rewrite <- Em in Ha1 |- *. clear m0 ms Em. rewrite rdiv_val by lra. cbn [bind].
  set (xi := map _ (map (corr_all c g) meas)). set (tot := rsum (rm_w g)) in *.
  assert (Exi : xi = xi_of (k_pd c) (k_den c) (rm_w g) (lik c g meas)) by apply xi_code.
  assert (Lxi : length xi = length meas) by (unfold xi; rewrite !map_length; reflexivity).
  assert (Pxi : forall x, In x xi -> 0 <= x) by (rewrite Exi; apply xi_nonneg; (assumption || lra)).
  assert (Rg : range 0 (mx + 1) = seq 0 (S mx)) by (rewrite range_0; f_equal; lia).
  rewrite Rg. rewrite <- Lxi.
  rewrite (mapM_map (ups0 c tot (length xi) (k_esf c xi)) (upsilon (k_rate c) tot (1 - k_ps c) 0 xi))
    by (intros; apply ups0_val; assumption). cbn [bind].
  rewrite (mapM_map (ups1 c tot (length xi) (k_esf c xi)) (upsilon (k_rate c) tot (1 - k_ps c) 1 xi))
    by (intros; apply ups1_val; assumption). cbn [bind].
  assert (ED : mapM (fun es => mapM (ups1 c tot (length xi - 1) es) (seq 0 (S mx)))
                 (map (fun j => k_esf c (delete_at j xi)) (range 0 (length xi))) =
               Ok (map (fun j => map (upsilon (k_rate c) tot (1 - k_ps c) 1 (delete_at j xi)) (seq 0 (S mx))) (range 0 (length xi)))).
  { rewrite <- (mapM_ext (fun j => mapM (ups1 c tot (length xi - 1) (k_esf c (delete_at j xi))) (seq 0 (S mx)))) by reflexivity.
    apply mapM_map. intros j Hj. unfold range in Hj. apply in_seq in Hj. apply mapM_map. intros n _.
    rewrite <- (delete_at_length j xi) by lia. apply ups1_val; assumption. }
  rewrite ED. cbn [bind]. clear ED.
  rewrite !(dot_inner _ rho mx Hl).
  assert (Hpos : 0 < inner mx (upsilon (k_rate c) tot (1 - k_ps c) 0 xi) rho).
  { destruct (rsum_nz_ex rho) as [i [Hi Hn]]; [lra|exact Hrp|]. unfold inner. apply (sum_ab_pos _ _ _ i).
    - intros n _. apply Rmult_le_pos; [left; apply upsilon0_pos; (assumption || lra)|apply nth_nonneg, Hrp].
    - lia.
    - apply Rmult_lt_0_compat; [apply upsilon0_pos; (assumption || lra)|exact Hn]. }
  rewrite rdiv_val by lra. cbn [bind].
  rewrite <- (mapM_ext (fun j => rdiv (dot (map (upsilon (k_rate c) tot (1 - k_ps c) 1 (delete_at j xi)) (seq 0 (S mx))) rho)
                 (inner mx (upsilon (k_rate c) tot (1 - k_ps c) 0 xi) rho))) by reflexivity.
  rewrite (mapM_map _ (fun j => inner mx (upsilon (k_rate c) tot (1 - k_ps c) 1 (delete_at j xi)) rho /
                 inner mx (upsilon (k_rate c) tot (1 - k_ps c) 0 xi) rho))
    by (intros j _; rewrite dot_inner by exact Hl; apply rdiv_val; lra).
  cbn [bind].
  assert (EU : map (fun p => fst p * snd p) (combine (map (upsilon (k_rate c) tot (1 - k_ps c) 0 xi) (seq 0 (S mx))) rho) =
               map (fun n => upsilon (k_rate c) tot (1 - k_ps c) 0 xi n * nth n rho 0) (seq 0 (S mx))).
  { rewrite <- (map_nth_seq rho 0) at 1. rewrite Hl, combine_map2, map_map. reflexivity. }
  rewrite EU. clear EU.
  assert (ES : rsum (map (fun n => upsilon (k_rate c) tot (1 - k_ps c) 0 xi n * nth n rho 0) (seq 0 (S mx))) =
               inner mx (upsilon (k_rate c) tot (1 - k_ps c) 0 xi) rho).
  { unfold inner, sum_ab. rewrite Nat.sub_0_r. reflexivity. }
  rewrite normaliseR_val by (rewrite ES; lra). cbn [bind]. rewrite ES, map_map. rewrite !flat_map_map.
  f_equal. f_equal.
  - f_equal. unfold cphd_weights. fold tot. rewrite <- Exi. f_equal. rewrite range_0.
    assert (EC : combine (seq 0 (length xi)) (lik c g meas) =
                 map (fun p => (fst p, qz_of (corr_all c g (snd p)))) (combine (seq 0 (length xi)) meas)).
    { rewrite <- (map_id (seq 0 (length xi))) at 1. unfold lik. rewrite combine_map. reflexivity. }
    replace (length (lik c g meas)) with (length xi) by (unfold lik; rewrite map_length; exact Lxi).
    rewrite EC, flat_map_map. rewrite combine_map, flat_map_map. reflexivity.
  - unfold cphd_card. fold tot. rewrite <- Exi. reflexivity.
Qed.

(** * Invariant of runs *)
Definition cfg_ok c : Prop :=
  esf_ok (k_esf c) /\ 0 <= k_ps c /\ 0 <= k_pd c <= 1 /\ 0 <= k_den c /\
  (forall b, In b (k_birth c) -> raligned b /\ rnonneg b) /\
  (forall z m p, 0 <= snd (k_fcorr c z m p)).
Definition cinv s : Prop := distribution (cp_max s) (cp_card s) /\ raligned (cp_mix s) /\ rnonneg (cp_mix s).

Lemma fold_app_ok l : forall g, raligned g -> rnonneg g -> (forall b, In b l -> raligned b /\ rnonneg b) ->
  raligned (fold_left (@rm_app V M) l g) /\ rnonneg (fold_left (@rm_app V M) l g).
Proof.
  induction l as [|b l IH]; intros g Ha Hn Hb; [split; assumption|]. cbn [fold_left]. destruct (Hb b (or_introl eq_refl)) as [B1 B2].
  apply IH; [| |intros b' Hb'; apply Hb; right; exact Hb'].
  - destruct Ha, B1. split; cbn; rewrite !app_length; lia.
  - intros x Hx. cbn in Hx. apply in_app_or in Hx. destruct Hx; [apply Hn|apply B2]; assumption.
Qed.
Lemma pred_mix_ok c g : cfg_ok c -> raligned g -> rnonneg g -> raligned (pred_mix c g) /\ rnonneg (pred_mix c g).
Proof.
  intros (_ & Hps & _ & _ & Hb & _) [Ha1 Ha2] Hn. apply fold_app_ok; [| |exact Hb].
  - split; cbn; rewrite !map_length, combine_length; lia.
  - intros x Hx. cbn in Hx. apply in_map_iff in Hx. destruct Hx as [y [<- Hy]]. apply Rmult_le_pos; [exact Hps|apply Hn, Hy].
Qed.
Lemma flat_map_length_const {A B} (f : A -> list B) l n : (forall x, In x l -> length (f x) = n) -> length (flat_map f l) = (length l * n)%nat.
Proof.
  induction l as [|x l IH]; intros H; [reflexivity|]. cbn. rewrite app_length, (H x) by (left; reflexivity).
  rewrite IH by (intros y Hy; apply H; right; exact Hy). reflexivity.
Qed.
Lemma correct_density_inv c mx rho meas g g' rho' : cfg_ok c -> rnonneg g -> (forall x, In x rho -> 0 <= x) ->
  correct_density c mx rho meas g = Ok (g', rho') ->
  distribution mx rho' /\ raligned g' /\ rnonneg g' /\ length (rm_w g') = (S (length meas) * length (rm_w g))%nat.
Proof.
  intros (He & Hps & Hpd & Hden & _ & Hlik) Hw Hrho H. unfold correct_density in H.
  destruct ((length (rm_m g) =? length (rm_w g)) && (length (rm_p g) =? length (rm_w g)) && (length rho =? mx + 1))%nat eqn:El;
    [|discriminate]. cbn [negb] in H.
  apply andb_true_iff in El. destruct El as [El E3]. apply andb_true_iff in El. destruct El as [E1 E2].
  apply Nat.eqb_eq in E1, E2, E3.
  destruct (rm_m g) as [|m0 ms] eqn:Em; [discriminate|]. rewrite <- Em in H, E1. clear m0 ms Em.
  apply bind_ok in H. destruct H as [pdc [Hpdc H]]. apply rdiv_ok in Hpdc. destruct Hpdc as [Hd0 ->].
  assert (Hd : 0 < k_den c) by lra. cbn zeta in H.
  set (xi := map _ (map (corr_all c g) meas)) in H. set (tot := rsum (rm_w g)) in H.
  assert (Hq : forall z x, In x (qz_of (corr_all c g z)) -> 0 <= x).
  { intros z x Hx. unfold qz_of, corr_all in Hx. rewrite map_map in Hx. apply in_map_iff in Hx. destruct Hx as [mp [<- _]]. apply Hlik. }
  assert (Pxi : forall x, In x xi -> 0 <= x).
  { intros x Hx. unfold xi in Hx. rewrite map_map in Hx. apply in_map_iff in Hx. destruct Hx as [z [<- _]].
    apply Rmult_le_pos; [apply Rmult_le_pos; [lra|left; apply Rinv_0_lt_compat; exact Hd]|]. apply dot_nonneg; [exact Hw|apply Hq]. }
  pose proof (esf_nonneg _ xi He Pxi) as PE.
  apply bind_ok in H. destruct H as [u0 [Hu0 H]]. apply bind_ok in H. destruct H as [u1 [Hu1 H]].
  apply bind_ok in H. destruct H as [uD [HuD H]]. apply bind_ok in H. destruct H as [r1 [Hr1 H]].
  apply bind_ok in H. destruct H as [rs [Hrs H]]. apply bind_ok in H. destruct H as [rho1 [Hrho1 H]].
  injection H as <- <-.
  assert (P0 : forall x, In x u0 -> 0 <= x).
  { intros x Hx. destruct (mapM_in _ _ _ _ Hu0 Hx) as [n [_ En]]. eapply ups0_nonneg; [|exact En]; exact PE. }
  assert (P1 : forall x, In x u1 -> 0 <= x).
  { intros x Hx. destruct (mapM_in _ _ _ _ Hu1 Hx) as [n [_ En]]. eapply ups1_nonneg; [|exact En]; exact PE. }
  assert (PD : forall col x, In col uD -> In x col -> 0 <= x).
  { intros col x Hcol Hx. destruct (mapM_in _ _ _ _ HuD Hcol) as [es [Hes En]].
    destruct (mapM_in _ _ _ _ En Hx) as [n [_ En']]. eapply ups1_nonneg; [|exact En'].
    apply in_map_iff in Hes. destruct Hes as [j [<- _]]. apply esf_nonneg; [exact He|].
    intros y Hy. apply Pxi, (delete_at_in j), Hy. }
  apply rdiv_ok in Hr1. destruct Hr1 as [Hn0 ->]. pose proof (dot_nonneg _ _ P0 Hrho) as D0.
  assert (D0' : 0 < / dot u0 rho) by (apply Rinv_0_lt_compat; lra).
  assert (PR : forall x, In x rs -> 0 <= x).
  { intros x Hx. destruct (mapM_in _ _ _ _ Hrs Hx) as [col [Hcol En]]. apply rdiv_ok in En. destruct En as [_ ->].
    apply Rmult_le_pos; [|lra]. apply dot_nonneg; [intros y Hy; eapply PD; eassumption|exact Hrho]. }
  split.
  { apply (normaliseR_dist mx _ _) in Hrho1; [exact Hrho1| |].
    - rewrite map_length, combine_length, (mapM_length _ _ _ Hu0). unfold range. rewrite seq_length. lia.
    - intros x Hx. apply in_map_iff in Hx. destruct Hx as [[a b] [<- Hin]]. cbn.
      apply Rmult_le_pos; [apply P0; eapply in_combine_l, Hin|apply Hrho; eapply in_combine_r, Hin]. }
  assert (Lrs : length rs = length meas).
  { rewrite (mapM_length _ _ _ Hrs), (mapM_length _ _ _ HuD), map_length. unfold range. rewrite seq_length. lia. }
  assert (Lc : forall z, length (corr_all c g z) = length (rm_w g)).
  { intros z. unfold corr_all. rewrite map_length, combine_length. lia. }
  assert (Ldet : length (flat_map (fun rc : R * list (V * M * R) => map (fun wq => fst rc * (k_pd c * snd wq / k_den c * fst wq))
           (combine (rm_w g) (qz_of (snd rc)))) (combine rs (map (corr_all c g) meas))) = (length meas * length (rm_w g))%nat).
  { rewrite (flat_map_length_const _ _ (length (rm_w g))).
    - rewrite combine_length, map_length, Lrs. lia.
    - intros [r col] Hin. apply in_combine_r in Hin. apply in_map_iff in Hin. destruct Hin as [z [<- _]]. cbn [snd].
      rewrite map_length, combine_length. unfold qz_of. rewrite map_length, Lc. lia. }
  split; [|split].
  - split; cbn [rm_w rm_m rm_p]; rewrite !app_length, Ldet, map_length.
    + rewrite (flat_map_length_const _ _ (length (rm_w g))); [rewrite map_length; lia|].
      intros col Hin. apply in_map_iff in Hin. destruct Hin as [z [<- _]]. rewrite map_length. apply Lc.
    + rewrite (flat_map_length_const _ _ (length (rm_w g))); [rewrite map_length; lia|].
      intros col Hin. rewrite map_length. destruct meas as [|z0 meas']; [destruct Hin|].
      assert (HL : In (last (map (corr_all c g) (z0 :: meas')) []) (map (corr_all c g) (z0 :: meas'))).
      { clear. assert (G : forall (l : list (list (V * M * R))) d, l <> [] -> In (last l d) l).
        { induction l as [|a l IH]; intros d Hne; [contradiction|]. destruct l as [|b l]; [left; reflexivity|].
          right. apply IH. discriminate. }
        apply G. discriminate. }
      apply in_map_iff in HL. destruct HL as [z [<- _]]. apply Lc.
  - intros x Hx. cbn [rm_w] in Hx. apply in_app_or in Hx. destruct Hx as [Hx|Hx].
    + apply in_map_iff in Hx. destruct Hx as [w [<- Hw']]. apply Rmult_le_pos; [apply Rmult_le_pos|apply Hw, Hw'].
      * apply Rmult_le_pos; [apply dot_nonneg; assumption|lra].
      * unfold prob_miss. lra.
    + apply in_flat_map in Hx. destruct Hx as [[r col] [Hin Hx]]. cbn [fst snd] in Hx. apply in_map_iff in Hx.
      destruct Hx as [[w q] [<- Hwq]]. cbn [fst snd].
      assert (Hr0 : 0 <= r) by (apply PR; eapply in_combine_l, Hin).
      apply in_combine_r in Hin. apply in_map_iff in Hin. destruct Hin as [z [<- _]].
      assert (Hq0 : 0 <= q) by (apply (Hq z); eapply in_combine_r, Hwq).
      assert (Hw0 : 0 <= w) by (apply Hw; eapply in_combine_l, Hwq).
      assert (0 < / k_den c) by (apply Rinv_0_lt_compat; exact Hd).
      apply Rmult_le_pos; [exact Hr0|]. apply Rmult_le_pos; [|exact Hw0]. unfold Rdiv. repeat apply Rmult_le_pos; lra.
  - cbn [rm_w]. rewrite app_length, map_length, Ldet. lia.
Qed.

Definition op_ok (o : cop V M Meas) : Prop :=
  match o with
  | CClean f => forall g g', raligned g -> rnonneg g -> f g = Ok g' -> raligned g' /\ rnonneg g'
  | _ => True
  end.
Lemma cstep_inv c argsort o s s' : cfg_ok c -> op_ok o -> cinv s -> cstep c argsort o s = Ok s' -> cinv s'.
Proof.
  intros Hc Ho (Hd & Ha & Hn) H. destruct o as [|meas| |x|f]; cbn [cstep] in H.
  - apply bind_ok in H. destruct H as [rho [Hr H]]. injection H as <-.
    destruct (pred_mix_ok c _ Hc Ha Hn) as [A N]. split; [|split; assumption]. cbn.
    eapply pred_card_dist; [|exact Hr]. apply Hd.
  - apply bind_ok in H. destruct H as [ms [_ H]]. apply bind_ok in H. destruct H as [[g rho] [Hcd H]].
    apply bind_ok in H. destruct H as [h [_ H]]. injection H as <-.
    destruct (correct_density_inv _ _ _ _ _ _ _ Hc Hn (proj1 (proj2 Hd)) Hcd) as (A & B & C & _). split; [exact A|split; assumption].
  - apply bind_ok in H. destruct H as [card [_ H]]. cbn zeta in H. apply bind_ok in H. destruct H as [st [_ H]].
    apply bind_ok in H. destruct H as [cv [_ H]]. injection H as <-. split; [exact Hd|split; assumption].
  - injection H as <-. split; [apply init_card_dist|split; assumption].
  - apply bind_ok in H. destruct H as [g [Hf H]]. injection H as <-. cbn in Ho. destruct (Ho _ _ Ha Hn Hf).
    split; [exact Hd|split; assumption].
Qed.
Lemma crun_inv c argsort ops : forall s s', cfg_ok c -> (forall o, In o ops -> op_ok o) -> cinv s -> crun c argsort ops s = Ok s' -> cinv s'.
Proof.
  induction ops as [|o ops IH]; intros s s' Hc Ho Hs H; cbn [crun] in H; [injection H as <-; exact Hs|].
  apply bind_ok in H. destruct H as [s1 [H1 H]]. apply (IH s1); [exact Hc|intros o' Ho'; apply Ho; right; exact Ho'| |exact H].
  eapply cstep_inv; [exact Hc|apply Ho; left; reflexivity|exact Hs|exact H1].
Qed.
Lemma cphd_new_inv mx : cinv (cphd_new mx).
Proof. split; [apply init_card_dist|]. split; [split; reflexivity|intros x []]. Qed.

(** * Failure for certain survival, without births, without clutter *)
Lemma survive_nan c mx rho : k_ps c = 1 \/ k_ps c = 0 -> (0 < mx)%nat -> exists e, survive c mx rho = Err e.
Proof.
  intros H Hm. unfold survive.
  assert (E : exists e, surv_term c rho 0 0 = Err e).
  { exists NanErr. unfold surv_term, prob_death. destruct H as [-> | ->].
    - replace (1 - 1) with 0 by ring. rewrite llog_zero, llog_pos by lra. reflexivity.
    - rewrite llog_zero. cbn [lmul Nat.eqb ladd lexp bind]. reflexivity. }
  destruct E as [e E].
  destruct (mapM_err (surv_term c rho 0) (range 0 (mx + 1)) 0%nat e) as [e1 E1]; [unfold range; apply in_seq; lia|exact E|].
  destruct (mapM_err (fun j => sumM (range j (mx + 1)) (surv_term c rho j)) (range 0 mx) 0%nat e1) as [e2 E2].
  - unfold range. apply in_seq. lia.
  - unfold sumM. rewrite E1. reflexivity.
  - exists e2. rewrite E2. reflexivity.
Qed.
Lemma cdn_nan c mx sv : birth_sum c = Ok 0 -> exists e, cdn_predict c mx sv = Err e.
Proof.
  intros H. unfold cdn_predict.
  assert (E : birth_term c sv 0 0 = Err NanErr) by (unfold birth_term; rewrite H; cbn [bind]; rewrite llog_zero; reflexivity).
  destruct (mapM_err (birth_term c sv 0) (range 0 (0 + 1)) 0%nat NanErr) as [e1 E1]; [left; reflexivity|exact E|].
  destruct (mapM_err (fun n => sumM (range 0 (n + 1)) (birth_term c sv n)) (range 0 (mx + 1)) 0%nat e1) as [e2 E2].
  - unfold range. apply in_seq. lia.
  - unfold sumM. rewrite E1. reflexivity.
  - exists e2. exact E2.
Qed.

(** * Extraction *)
Lemma argmaxR_spec l m : argmaxR l = Ok m -> is_mode l m.
Proof.
  destruct l as [|x l]; [discriminate|]. intros H. injection H as <-.
  assert (G : forall l pre best bv, (best < length pre)%nat -> bv = nth best pre 0 ->
    (forall k, (k < length pre)%nat -> nth k pre 0 <= bv) -> (forall k, (k < best)%nat -> nth k pre 0 < bv) ->
    is_mode (pre ++ l) (argmaxR_from (length pre) best bv l)).
  { clear. induction l as [|x l IH]; intros pre best bv Hb Hv Hle Hlt; cbn [argmaxR_from].
    - rewrite app_nil_r. subst bv. split; [exact Hb|split; assumption].
    - replace (pre ++ x :: l) with ((pre ++ [x]) ++ l) by (rewrite <- app_assoc; reflexivity).
      assert (Lp : length (pre ++ [x]) = S (length pre)) by (rewrite app_length; cbn; lia).
      assert (Nx : nth (length pre) (pre ++ [x]) 0 = x) by (rewrite app_nth2, Nat.sub_diag by lia; reflexivity).
      assert (Np : forall k, (k < length pre)%nat -> nth k (pre ++ [x]) 0 = nth k pre 0) by (intros k Hk; apply app_nth1, Hk).
      destruct (Rlt_dec bv x) as [Hx|Hx]; rewrite <- Lp; apply IH.
      + lia.
      + symmetry. exact Nx.
      + intros k Hk. rewrite Lp in Hk. destruct (Nat.eq_dec k (length pre)) as [->|Hn]; [rewrite Nx; lra|].
        rewrite Np by lia. specialize (Hle k ltac:(lia)). lra.
      + intros k Hk. rewrite Np by lia. specialize (Hle k ltac:(lia)). lra.
      + lia.
      + rewrite Np by lia. exact Hv.
      + intros k Hk. rewrite Lp in Hk. destruct (Nat.eq_dec k (length pre)) as [->|Hn]; [rewrite Nx; lra|].
        rewrite Np by lia. apply Hle. lia.
      + intros k Hk. rewrite Np by lia. apply Hlt. lia. }
  apply (G l [x] 0%nat x); [cbn; lia|reflexivity| |intros k Hk; lia].
  intros k Hk. cbn in Hk. replace k with 0%nat by lia. cbn. lra.
Qed.
Lemma roundR_spec x : nearest_even x (roundR x).
Proof.
  unfold roundR, nearest_even. destruct (base_Int_part x) as [H1 H2]. set (f := Int_part x) in *.
  assert (Hf : x - 1 < IZR f) by lra.
  destruct (Rlt_dec (x - IZR f) (1 / 2)) as [A|A]; [split; [lra|intros [E|E]; lra]|].
  destruct (Rlt_dec (1 / 2) (x - IZR f)) as [B|B].
  { rewrite plus_IZR. split; [lra|intros [E|E]; lra]. }
  assert (E : x = IZR f + 1 / 2) by lra. destruct (Z.even f) eqn:Ev; [split; [lra|intros _; exact Ev]|].
  rewrite plus_IZR. split; [lra|]. intros _. rewrite Z.even_add, Ev. reflexivity.
Qed.
Lemma extract_loop_spec ws card : forall order tot, exists k, (k <= length order)%nat /\
  extract_loop ws card order tot = map (fun i => (i, roundR (nth i ws 0%R))) (firstn k order) /\
  (forall i, In i (firstn k order) -> (0 < roundR (nth i ws 0%R))%Z) /\
  (forall m, (m < k)%nat -> (tot + zsum (map (fun i => roundR (nth i ws 0%R)) (firstn m order)) < Z.of_nat card)%Z) /\
  (k = length order \/ (Z.of_nat card <= tot + zsum (map (fun i => roundR (nth i ws 0%R)) (firstn k order)))%Z \/
   (roundR (nth (nth k order 0%nat) ws 0%R) <= 0)%Z).
Proof.
  induction order as [|idx order IH]; intros tot; cbn [extract_loop].
  { exists 0%nat. cbn. split; [lia|]. split; [reflexivity|]. split; [intros i []|]. split; [lia|left; reflexivity]. }
  destruct (tot <? Z.of_nat card)%Z eqn:E1.
  - apply Z.ltb_lt in E1. cbn zeta. destruct (roundR (nth idx ws 0%R) <=? 0)%Z eqn:E2.
    + apply Z.leb_le in E2. exists 0%nat. cbn. split; [lia|]. split; [reflexivity|]. split; [intros i []|]. split; [lia|right; right; exact E2].
    + apply Z.leb_gt in E2. destruct (IH (tot + roundR (nth idx ws 0%R))%Z) as (k & Hk & He & Hp & Hm & Hs).
      exists (S k). cbn [length firstn map]. split; [lia|]. split; [f_equal; exact He|]. split; [intros i [<-|Hi]; [exact E2|apply Hp, Hi]|].
      split.
      * intros m Hmk. destruct m as [|m]; [cbn; lia|]. cbn [firstn map zsum fold_right]. specialize (Hm m ltac:(lia)).
        unfold zsum in Hm. lia.
      * destruct Hs as [Hs|[Hs|Hs]]; [left; lia|right; left|right; right; exact Hs]. cbn [zsum fold_right]. unfold zsum in Hs. lia.
  - apply Z.ltb_ge in E1. exists 0%nat. cbn. split; [lia|]. split; [reflexivity|]. split; [intros i []|]. split; [lia|right; left; lia].
Qed.
End Proofs.
