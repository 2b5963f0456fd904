(** Properties C131-C133 and C135 of the mixture classes. *)
From Verif Require Import Base Lists.
From Coq Require Import Reals Permutation Lra Lia.
From Verif Require Import OspaModel OspaProofs CphdSpec CphdProofs GibbsReal GlmbProofs GlmbInv MixModel.
Open Scope R_scope.

(** ** the density *)
Section P.
Context {V S : Type}.
(** a density function that does not raise *)
Definition total_dens (f : V -> V -> S -> R) : V -> V -> S -> result R := fun x m s => Ok (f x m s).
(** the components that count: one mean, one matrix, one weight each *)
Definition components (g : gmix V S) : list (V * S * R) := combine (combine (gm_m g) (gm_c g)) (gm_w g).
Lemma mloop_total f x l : forall p, mloop (total_dens f) x p l = Ok (p + rsum (map (fun c : V * S * R => snd c * f x (fst (fst c)) (snd (fst c))) l)).
Proof.
  induction l as [|[[m s] w] l IH]; intros p; cbn [mloop map]; [change (rsum []) with 0; f_equal; ring|]. unfold total_dens at 1. cbn [bind]. rewrite IH, rsum_cons. cbn [fst snd]. f_equal. ring.
Qed.
Lemma mloop_in (dens : V -> V -> S -> result R) x l : forall p v, mloop dens x p l = Ok v -> forall c, In c l -> exists d, dens x (fst (fst c)) (snd (fst c)) = Ok d.
Proof.
  induction l as [|[[m s] w] l IH]; intros p v H c Hc; [destruct Hc|]. cbn [mloop] in H. apply bind_ok in H as [d [Hd H]]. destruct Hc as [<-|Hc]; [exists d; exact Hd|exact (IH _ _ H c Hc)].
Qed.
End P.

(** * C131: the density is the weighted sum of the components' densities *)
Theorem C131_mixture_pdf : forall {V S} (f : V -> V -> S -> R) (g : gmix V S) x,
  mpdf (total_dens f) g x = Ok (rsum (map (fun c => snd c * f x (fst (fst c)) (snd (fst c))) (components g))).
Proof. intros V S f g x. unfold mpdf. rewrite mloop_total. f_equal. unfold components. ring. Qed.
Print Assumptions C131_mixture_pdf.
(** ... it does not depend on the order of the components, *)
Theorem C131_pdf_order : forall {V S} (f : V -> V -> S -> R) (g h : gmix V S) x,
  Permutation (components g) (components h) -> mpdf (total_dens f) g x = mpdf (total_dens f) h x.
Proof. intros V S f g h x H. rewrite !C131_mixture_pdf. f_equal. apply rsum_perm, Permutation_map, H. Qed.
Print Assumptions C131_pdf_order.
(** ... is not negative if the weights are not, *)
Theorem C131_pdf_nonneg : forall {V S} (f : V -> V -> S -> R) (g : gmix V S) x, (forall y m s, 0 <= f y m s) -> (forall w, In w (gm_w g) -> 0 <= w) ->
  exists v, mpdf (total_dens f) g x = Ok v /\ 0 <= v.
Proof.
  intros V S f g x Hf Hw. eexists. split; [apply C131_mixture_pdf|]. apply rsum_nonneg. intros y Hy. apply in_map_iff in Hy as [[[m s] w] [<- Hc]]. cbn [fst snd].
  apply Rmult_le_pos; [|apply Hf]. apply in_combine_r in Hc. exact (Hw w Hc).
Qed.
Print Assumptions C131_pdf_nonneg.
(** ... and integrates to the sum of the weights: [I] is any linear functional on
    functions of the state under which every component's density integrates to 1. *)
Theorem C131_pdf_mass : forall {V S} (f : V -> V -> S -> R) (g : gmix V S) (I : (V -> R) -> R) (p : V -> R),
  (forall a b h k, I (fun x => a * h x + b * k x) = a * I h + b * I k) -> (forall h k, (forall x, h x = k x) -> I h = I k) ->
  (forall m s, In m (gm_m g) -> In s (gm_c g) -> I (fun x => f x m s) = 1) ->
  length (gm_m g) = length (gm_w g) -> length (gm_c g) = length (gm_w g) -> (forall x, mpdf (total_dens f) g x = Ok (p x)) ->
  I p = rsum (gm_w g).
Proof.
  intros V S f g I p HL HE H1 Lm Lc Hp.
  assert (Hz : I (fun _ => 0) = 0).
  { pose proof (HL 0 0 (fun _ => 0) (fun _ => 0)) as H. rewrite (HE _ (fun _ => 0)) in H by (intros; ring). lra. }
  assert (A : forall l, (forall c, In c l -> I (fun x => f x (fst (fst c)) (snd (fst c))) = 1) ->
    I (fun x => rsum (map (fun c : V * S * R => snd c * f x (fst (fst c)) (snd (fst c))) l)) = rsum (map snd l)).
  { induction l as [|[[m s] w] l IH]; intros Hc; [exact Hz|]. rewrite (HE _ (fun x => w * f x m s + 1 * rsum (map (fun c : V * S * R => snd c * f x (fst (fst c)) (snd (fst c))) l))).
    2: { intros x. cbn [map fst snd]. rewrite rsum_cons. ring. }
    rewrite HL, IH by (intros c Hi; apply Hc; right; exact Hi). pose proof (Hc (m, s, w) (or_introl eq_refl)) as X. cbn [fst snd] in X. rewrite X.
    cbn [map snd]. rewrite rsum_cons. ring. }
  rewrite (HE p (fun x => rsum (map (fun c => snd c * f x (fst (fst c)) (snd (fst c))) (components g)))).
  2: { intros x. specialize (Hp x). rewrite C131_mixture_pdf in Hp. injection Hp as <-. reflexivity. }
  rewrite A.
  - f_equal. unfold components. assert (L : length (combine (gm_m g) (gm_c g)) = length (gm_w g)) by (rewrite combine_length; lia). revert L. generalize (combine (gm_m g) (gm_c g)) as a. generalize (gm_w g) as b.
    induction b as [|y b IH]; intros [|z a] L; try discriminate; [reflexivity|]. cbn [combine map snd]. f_equal. apply IH. cbn in L. lia.
  - intros [[m s] w] Hc. cbn [fst snd]. apply in_combine_l in Hc. apply H1; [exact (in_combine_l _ _ _ _ Hc)|exact (in_combine_r _ _ _ _ Hc)].
Qed.
Print Assumptions C131_pdf_mass.

(** ** the choice of the component *)
(** What numpy accepts as probabilities for [n] values. *)
Definition acceptable (n : nat) (p : list R) : Prop := n <> 0%nat /\ length p = n /\ (forall q, In q p -> 0 <= q) /\ Rabs (rsum p - 1) <= / 2 ^ 26.
Lemma existsb_neg p : existsb (fun q => if Rlt_dec q 0 then true else false) p = false <-> forall q, In q p -> 0 <= q.
Proof.
  split.
  - intros H q Hq. destruct (Rlt_dec q 0) as [Hn|Hn]; [|lra]. exfalso. assert (X : existsb (fun q => if Rlt_dec q 0 then true else false) p = true); [|congruence].
    apply existsb_exists. exists q. split; [exact Hq|]. destruct (Rlt_dec q 0); [reflexivity|contradiction].
  - intros H. destruct (existsb _ p) eqn:E; [|reflexivity]. apply existsb_exists in E as [q [Hq E]]. specialize (H q Hq). destruct (Rlt_dec q 0); [lra|discriminate].
Qed.
Lemma choice_err n p u : ~ acceptable n p -> choice n p u = Err ValueErr.
Proof.
  intros H. unfold choice. destruct (Nat.eqb_spec n 0); [reflexivity|]. destruct (Nat.eqb_spec (length p) n); [cbn [negb]|reflexivity].
  destruct (existsb _ p) eqn:E; [reflexivity|]. destruct (Rlt_dec _ _) as [|Hn]; [reflexivity|]. exfalso. apply H. split; [assumption|]. split; [assumption|]. split; [apply existsb_neg, E|lra].
Qed.
Lemma acceptable_pos n p : acceptable n p -> 0 < rsum p.
Proof.
  intros [_ [_ [_ H]]]. assert (X : / 2 ^ 26 < 1) by (rewrite <- Rinv_1; apply Rinv_lt_contravar; [rewrite Rmult_1_l; apply pow_lt; lra|apply Rlt_pow_R1; [lra|lia]]).
  unfold Rabs in H. destruct (Rcase_abs (rsum p - 1)); lra.
Qed.
Lemma count_le t ws : forall acc, (forall x, In x ws -> 0 <= x) -> acc <= t -> t < acc + rsum ws ->
  let k := length (filter (fun b => if Rle_dec b t then true else false) (rcumsum acc ws)) in
  (k < length ws)%nat /\ acc + rsum (firstn k ws) <= t /\ t < acc + rsum (firstn (S k) ws).
Proof.
  induction ws as [|x ws IH]; intros acc H H1 H2.
  { change (rsum []) with 0 in H2. lra. }
  assert (0 <= x) by (apply H; left; reflexivity).
  assert (H' : forall y, In y ws -> 0 <= y) by (intros y Hy; apply H; right; exact Hy).
  cbn [rcumsum filter]. rewrite rsum_cons in H2. destruct (Rle_dec (acc + x) t) as [Hr|Hr].
  - destruct (IH (acc + x) H' Hr ltac:(lra)) as [A [B C]]. cbn [length]. split; [lia|]. cbn [firstn]. rewrite !rsum_cons. cbn [firstn] in C. lra.
  - assert (E : forall a, acc + x <= a -> filter (fun b => if Rle_dec b t then true else false) (rcumsum a ws) = []).
    { clear -H' Hr. induction ws as [|y ws IH]; intros a Ha; [reflexivity|]. cbn [rcumsum filter]. assert (0 <= y) by (apply H'; left; reflexivity).
      destruct (Rle_dec (a + y) t); [lra|]. apply IH; [intros z Hz; apply H'; right; exact Hz|lra]. }
    rewrite E by lra. cbn [length firstn]. split; [lia|]. rewrite rsum_cons. change (rsum []) with 0. lra.
Qed.
Lemma choice_spec n p u : acceptable n p -> 0 <= u < 1 ->
  exists i, choice n p u = Ok i /\ (i < n)%nat /\ rsum (firstn i p) <= u * rsum p /\ u * rsum p < rsum (firstn (S i) p).
Proof.
  intros Ha Hu. pose proof (acceptable_pos n p Ha) as HS. destruct Ha as [H1 [H2 [H3 H4]]]. unfold choice.
  destruct (Nat.eqb_spec n 0); [contradiction|]. rewrite H2, Nat.eqb_refl. cbn [negb]. rewrite (proj2 (existsb_neg p) H3). destruct (Rlt_dec _ _); [lra|].
  eexists. split; [reflexivity|].
  assert (E : length (filter (fun c => if Rle_dec c u then true else false) (map (fun c => c / rsum p) (rcumsum 0 p))) = length (filter (fun b => if Rle_dec b (u * rsum p) then true else false) (rcumsum 0 p))).
  { generalize (rcumsum 0 p) as l. induction l as [|y l IH]; [reflexivity|]. cbn [map filter].
    destruct (Rle_dec (y / rsum p) u) as [A|A], (Rle_dec y (u * rsum p)) as [B|B]; cbn [length]; rewrite ?IH; try reflexivity; exfalso.
    - apply B. apply (Rmult_le_compat_r (rsum p)) in A; [|lra]. unfold Rdiv in A. rewrite Rmult_assoc, Rinv_l in A by lra. lra.
    - apply A. apply (Rmult_le_reg_r (rsum p)); [lra|]. unfold Rdiv. rewrite Rmult_assoc, Rinv_l by lra. lra. }
  rewrite E. destruct (count_le (u * rsum p) p 0 H3) as [A [B C]]; [apply Rmult_le_pos; lra| |].
  - assert (u * rsum p < 1 * rsum p) by (apply Rmult_lt_compat_r; lra). lra.
  - rewrite H2 in A. split; [exact A|]. lra.
Qed.

(** * C132: sampling *)
(** A mixture can be sampled exactly when its weights are probabilities; the
    component is drawn by inverse transform, so with its weight as probability. *)
Theorem C132_sample : forall {V S} (rv : V -> S -> result V) (g : gmix V S) u,
  length (gm_c g) = length (gm_m g) -> 0 <= u < 1 -> acceptable (length (gm_m g)) (gm_w g) ->
  exists i m s w, nth_error (gm_m g) i = Some m /\ nth_error (gm_c g) i = Some s /\ nth_error (gm_w g) i = Some w /\ 0 < w /\
    msample rv g u = rv m s /\
    rsum (firstn i (gm_w g)) / rsum (gm_w g) <= u < rsum (firstn i (gm_w g)) / rsum (gm_w g) + w / rsum (gm_w g).
Proof.
  intros V S rv g u Hl Hu Ha. pose proof (acceptable_pos _ _ Ha) as HS. destruct (choice_spec _ _ u Ha Hu) as [i [Hi [Hn [A B]]]]. destruct Ha as [_ [Hw _]].
  destruct (nth_error (gm_m g) i) as [m|] eqn:Em; [|apply nth_error_None in Em; lia]. destruct (nth_error (gm_c g) i) as [s|] eqn:Es; [|apply nth_error_None in Es; lia].
  destruct (nth_error (gm_w g) i) as [w|] eqn:Ew; [|apply nth_error_None in Ew; lia].
  assert (F : rsum (firstn (Datatypes.S i) (gm_w g)) = rsum (firstn i (gm_w g)) + w).
  { clear -Ew. revert i Ew. induction (gm_w g) as [|y l IH]; intros [|i] E; try discriminate.
    - injection E as ->. cbn [firstn]. rewrite rsum_cons. change (rsum []) with 0. ring.
    - cbn [nth_error] in E. specialize (IH i E). change (firstn (Datatypes.S (Datatypes.S i)) (y :: l)) with (y :: firstn (Datatypes.S i) l). change (firstn (Datatypes.S i) (y :: l)) with (y :: firstn i l). rewrite !rsum_cons. lra. }
  rewrite F in B. exists i, m, s, w. split; [exact Em|]. split; [exact Es|]. split; [exact Ew|]. split; [lra|]. split.
  - unfold msample. rewrite Hi. cbn [bind]. rewrite Em, Es. reflexivity.
  - split.
    + apply (Rmult_le_reg_r (rsum (gm_w g))); [exact HS|]. unfold Rdiv. rewrite Rmult_assoc, Rinv_l by lra. lra.
    + apply (Rmult_lt_reg_r (rsum (gm_w g))); [exact HS|]. unfold Rdiv. rewrite Rmult_plus_distr_r, !Rmult_assoc, Rinv_l by lra. lra.
Qed.
Print Assumptions C132_sample.
Theorem C132_sample_refused : forall {V S} (rv : V -> S -> result V) (g : gmix V S) u, ~ acceptable (length (gm_m g)) (gm_w g) -> msample rv g u = Err ValueErr.
Proof. intros V S rv g u H. unfold msample. rewrite choice_err by exact H. reflexivity. Qed.
Print Assumptions C132_sample_refused.
(** So the mixture of a PHD filter, whose weights add up to the expected number of
    objects, can in general not be sampled: three objects. *)
Theorem C132_intensity_not_sampled : forall {V S} (rv : V -> S -> result V) (m : V) (s : S) u,
  msample rv {| gm_m := [m; m; m]; gm_c := [s; s; s]; gm_w := [1; 1; 1] |} u = Err ValueErr.
Proof.
  intros V S rv m s u. apply C132_sample_refused. intros [_ [_ [_ H]]]. cbn [gm_w] in H. rewrite !rsum_cons in H. change (rsum []) with 0 in H.
  assert (X : / 2 ^ 26 < 1) by (rewrite <- Rinv_1; apply Rinv_lt_contravar; [rewrite Rmult_1_l; apply pow_lt; lra|apply Rlt_pow_R1; [lra|lia]]).
  unfold Rabs in H. destruct (Rcase_abs _); lra.
Qed.
Print Assumptions C132_intensity_not_sampled.
Example C132_ex : acceptable 2 [1 / 4; 3 / 4].
Proof.
  split; [discriminate|]. split; [reflexivity|]. split; [intros q [<-|[<-|[]]]; lra|]. rewrite !rsum_cons. change (rsum []) with 0. replace (1 / 4 + (3 / 4 + 0) - 1) with 0 by field.
  rewrite Rabs_R0. apply Rlt_le, Rinv_0_lt_compat, pow_lt. lra.
Qed.

(** * C133: Student's t covariances *)
Theorem C133_covariances : forall {S} (scale : R -> S -> S) d scal,
  (2 < d -> tcovs scale (DofNum d) scal = Ok (map (scale (d / (d - 2))) scal) /\ 1 < d / (d - 2)) /\
  (d <= 2 -> tcovs scale (DofNum d) scal = Err RuntimeErr).
Proof.
  intros S scale d scal. unfold tcovs. split.
  - intros H. destruct (Rle_dec d 2); [lra|]. split; [reflexivity|]. apply (Rmult_lt_reg_r (d - 2)); [lra|]. unfold Rdiv. rewrite Rmult_assoc, Rinv_l by lra. lra.
  - intros H. destruct (Rle_dec d 2); [reflexivity|lra].
Qed.
Print Assumptions C133_covariances.
(** The density of a Student's t mixture with one number of degrees of freedom is
    scipy's, weighted, when that number is positive, and raises otherwise. *)
Theorem C133_pdf_dof : forall {V S} (f : R -> V -> V -> S -> result R) d (g : gmix V S) x,
  (0 < d -> mpdf (tdens f (DofNum d)) g x = mpdf (f d) g x) /\
  (d <= 0 -> components g <> [] -> mpdf (tdens f (DofNum d)) g x = Err ValueErr).
Proof.
  intros V S f d g x. split.
  - intros H. assert (E : forall y m s, tdens f (DofNum d) y m s = f d y m s) by (intros; unfold tdens; destruct (Rle_dec d 0); [lra|reflexivity]).
    unfold mpdf. fold (components g). set (l := components g). clearbody l. generalize 0.
    induction l as [|[[m s] w] l IH]; intros r; [reflexivity|]. cbn [mloop]. rewrite E. destruct (f d x m s); cbn [bind]; [apply IH|reflexivity].
  - intros H N. unfold mpdf. fold (components g). destruct (components g) as [|[[m s] w] l]; [congruence|]. cbn. destruct (Rle_dec d 0); [reflexivity|lra].
Qed.
Print Assumptions C133_pdf_dof.
(** * C135. Per-component degrees of freedom work in sample but nowhere else: whenever there
    is a component, pdf raises, and covariances always raises. *)
Theorem C135_dof_list_refuted : forall {V S} (scale : R -> S -> S) (f : R -> V -> V -> S -> result R) l (g : gmix V S) x, components g <> [] ->
  mpdf (tdens f (DofList l)) g x = Err TypeErr /\ tcovs scale (DofList l) (gm_c g) = Err TypeErr.
Proof. intros V S scale f l g x H. split; [|reflexivity]. unfold mpdf. fold (components g). destruct (components g) as [|[[m s] w] c]; [congruence|]. reflexivity. Qed.
Print Assumptions C135_dof_list_refuted.
Theorem C135_dof_list_sample : forall {V S} (draw : R -> V -> S -> result V) l (g : gmix V S) gen u glob,
  length (gm_c g) = length (gm_m g) -> length l = length (gm_m g) -> (forall v, In v l -> 0 < v) -> 0 <= u < 1 -> acceptable (length (gm_m g)) (gm_w g) ->
  exists i v m s, nth_error l i = Some v /\ nth_error (gm_m g) i = Some m /\ nth_error (gm_c g) i = Some s /\ snd (tsample draw (DofList l) g gen u glob) = draw v m s.
Proof.
  intros V S draw l g gen u glob Hc Hl Hv Hu Ha. destruct (choice_spec _ _ u Ha Hu) as [i [Hi [Hn _]]].
  destruct (nth_error (gm_m g) i) as [m|] eqn:Em; [|apply nth_error_None in Em; lia]. destruct (nth_error (gm_c g) i) as [s|] eqn:Es; [|apply nth_error_None in Es; lia].
  destruct (nth_error l i) as [v|] eqn:Ev; [|apply nth_error_None in Ev; lia]. exists i, v, m, s. split; [exact Ev|]. split; [exact Em|]. split; [exact Es|].
  unfold tsample. cbn [snd]. rewrite Hi. cbn [bind]. rewrite Ev. cbn [bind]. rewrite Em, Es. specialize (Hv v (nth_error_In _ _ Ev)). destruct (Rle_dec v 0); [lra|reflexivity].
Qed.
Print Assumptions C135_dof_list_sample.
