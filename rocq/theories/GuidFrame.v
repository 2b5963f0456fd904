(** The density based cost and the choice of coordinate frame (C195). *)
From Verif Require Import Base Lists.
From Coq Require Import Reals Lra Lia Permutation.
From Verif Require Import OspaModel OspaProofs OspaMetric GuidModel GuidSpec GuidProofs GuidProps.
Open Scope R_scope.

(** ** specification *)
(** A Gaussian seen from a frame moved by [v] ... *)
Definition moved (v : vec) (g : wg) : wg := {| gw := gw g; gm := fun i => gm g i + v i; gp := gp g |}.
(** ... or turned by the matrix [Q]: m -> Q m, P -> Q P Q^T. *)
Definition conj (dim : nat) (Q P : mat) : mat := fun i j => rsumn dim (fun a => rsumn dim (fun b => Q i a * P a b * Q j b)).
Definition turned (dim : nat) (Q : mat) (g : wg) : wg := {| gw := gw g; gm := mapply dim Q (gm g); gp := conj dim Q (gp g) |}.
(** Columns of [Q] are orthonormal. *)
Definition orthonormal (dim : nat) (Q : mat) : Prop :=
  forall a b, (a < dim)%nat -> (b < dim)%nat -> rsumn dim (fun i => Q i a * Q i b) = if (a =? b)%nat then 1 else 0.
(** What la.det and la.inv do with a turned covariance. *)
Definition turns_det (dim : nat) (det : mat -> R) (Q : mat) : Prop :=
  forall P P', (forall i j, (i < dim)%nat -> (j < dim)%nat -> P' i j = conj dim Q P i j) -> det P' = det P.
Definition turns_inv (dim : nat) (inv : mat -> mat) (det : mat -> R) (Q : mat) : Prop :=
  forall P P', (forall i j, (i < dim)%nat -> (j < dim)%nat -> P' i j = conj dim Q P i j) -> 0 < det P ->
    forall i j, (i < dim)%nat -> (j < dim)%nat -> inv P' i j = conj dim Q (inv P) i j.

(** ** proofs *)
Section Frame.
Variables (dim : nat) (pdf : vec -> vec -> mat -> R) (inv : mat -> mat) (det : mat -> R).
Hypothesis Hpdf : forall x m P, pdf x m P = gauss dim inv det x m P.
Let N (a b : wg) := gauss dim inv det (gm a) (gm b) (mplus (gp a) (gp b)).

Lemma pairsum_map {A B A' B'} (s : A -> A') (t : B -> B') l l' (f : A' -> B' -> R) (g : A -> B -> R) :
  (forall a b, In a l -> In b l' -> f (s a) (t b) = g a b) -> pairsum (map s l) (map t l') f = pairsum l l' g.
Proof.
  intros H. unfold pairsum. rewrite map_map. apply rsum_ext. intros a Ha. rewrite map_map. apply rsum_ext. intros b Hb. apply H; assumption.
Qed.
(** Any change of frame that keeps weights, densities, distances and the largest variances. *)
Lemma cost_frame (T : wg -> wg) safety y_ref tgts objs sg sd :
  (0 < dim)%nat -> objs <> [] -> tgts <> [] ->
  (forall g, gw (T g) = gw g) ->
  (forall o t, In o objs -> In t tgts -> 0 < det (mplus (gp t) (gp o)) /\ 0 < det (mplus (gp (T t)) (gp (T o)))) ->
  (forall a b, In a (objs ++ tgts) -> In b (objs ++ tgts) -> N (T a) (T b) = N a b) ->
  (forall a, In a (objs ++ tgts) -> edist dim (gm (T a)) (mean_of (map gm (map T tgts))) = edist dim (gm a) (mean_of (map gm tgts))) ->
  greatest (variances dim objs) sg -> greatest (variances dim tgts) sd ->
  greatest (variances dim (map T objs)) sg -> greatest (variances dim (map T tgts)) sd ->
  density_based_cost dim pdf inv det safety y_ref (mix_of (map T tgts)) (map gm (map T objs)) (map gw (map T objs)) (map gp (map T objs))
  = density_based_cost dim pdf inv det safety y_ref (mix_of tgts) (map gm objs) (map gw objs) (map gp objs).
Proof.
  intros Hd Ho Ht Hw Hdet HN He Hsg Hsd Hsg' Hsd'.
  destruct (greatest_exists (map (fun t => edist dim (gm t) (mean_of (map gm tgts))) tgts)) as [rho Hrho]; [now apply map_nonnil|].
  destruct (greatest_exists (map (fun t => edist dim (gm t) (mean_of (map gm tgts))) objs)) as [delta Hdelta]; [now apply map_nonnil|].
  rewrite (C68_cost_closed_form dim pdf inv det safety y_ref tgts objs sg sd rho delta); try assumption; [|intros o t H1 H2; apply (Hdet o t H1 H2)].
  rewrite (C68_cost_closed_form dim pdf inv det safety y_ref (map T tgts) (map T objs) sg sd rho delta); try assumption; try now apply map_nonnil.
  - f_equal. unfold doc_cost. rewrite !map_length. unfold N in HN. 
    rewrite (pairsum_map T T objs objs _ (fun j i => gw j * gw i * gauss dim inv det (gm j) (gm i) (mplus (gp j) (gp i)))) by (intros; rewrite !Hw, HN; try reflexivity; apply in_or_app; tauto).
    rewrite (pairsum_map T T tgts objs _ (fun j i => gw j * gw i * gauss dim inv det (gm j) (gm i) (mplus (gp j) (gp i)))) by (intros; rewrite !Hw, HN; try reflexivity; apply in_or_app; tauto).
    rewrite (pairsum_map T T tgts tgts _ (fun j i => gw j * gw i * gauss dim inv det (gm j) (gm i) (mplus (gp j) (gp i)))) by (intros; rewrite !Hw, HN; try reflexivity; apply in_or_app; tauto).
    rewrite (pairsum_map T T tgts objs _ (fun j i => gw j * gw i * ln (gauss dim inv det (gm j) (gm i) (mplus (gp j) (gp i))))) by (intros; rewrite !Hw, HN; try reflexivity; apply in_or_app; tauto).
    reflexivity.
  - intros o t H1 H2. apply in_map_iff in H1. apply in_map_iff in H2. destruct H1 as (o' & <- & H1). destruct H2 as (t' & <- & H2). apply (Hdet o' t' H1 H2).
  - rewrite map_map. erewrite map_ext_in; [exact Hrho|]. intros a Ha. cbn beta. apply He. apply in_or_app. tauto.
  - rewrite map_map. erewrite map_ext_in; [exact Hdelta|]. intros a Ha. cbn beta. apply He. apply in_or_app. tauto.
Qed.

(** *** moving *)
Lemma mean_moved v l i : l <> [] -> mean_of (map gm (map (moved v) l)) i = mean_of (map gm l) i + v i.
Proof.
  intros H. unfold mean_of. rewrite !map_map, !map_length. cbn [moved gm].
  assert (E : rsum (map (fun x => gm x i + v i) l) = rsum (map (fun x => gm x i) l) + INR (length l) * v i).
  { rewrite <- (rsum_const (v i) l). clear. induction l as [|a l IH]; cbn [map]; rewrite ?rsum_cons; [change (rsum []) with 0; ring|rewrite IH; ring]. }
  rewrite E. field. apply not_0_INR. destruct l; [congruence|discriminate].
Qed.
Lemma variances_moved v l : variances dim (map (moved v) l) = variances dim l.
Proof. unfold variances. induction l as [|a l IH]; [reflexivity|]. cbn [map flat_map]. rewrite IH. reflexivity. Qed.

(** *** turning *)
Variable Q : mat.
Hypothesis HQ : orthonormal dim Q.
Lemma back_turn d a : (a < dim)%nat -> rsumn dim (fun i => Q i a * mapply dim Q d i) = d a.
Proof.
  intros Ha. unfold mapply.
  rewrite (rsumn_ext dim _ (fun i => rsumn dim (fun b => d b * (Q i a * Q i b)))) by (intros i _; rewrite rsumn_mult_l; apply rsumn_ext; intros; ring).
  rewrite rsumn_swap. rewrite (rsumn_ext dim _ (fun b => d b * (if (b =? a)%nat then 1 else 0))).
  - apply rsumn_delta, Ha.
  - intros b Hb. rewrite <- rsumn_mult_l. rewrite (HQ a b Ha Hb), Nat.eqb_sym. reflexivity.
Qed.
Lemma turn_norm d : rsumn dim (fun i => mapply dim Q d i ^ 2) = rsumn dim (fun i => d i ^ 2).
Proof.
  rewrite (rsumn_ext dim _ (fun i => rsumn dim (fun a => d a * (Q i a * mapply dim Q d i)))).
  - rewrite rsumn_swap. apply rsumn_ext. intros a Ha. rewrite <- rsumn_mult_l, (back_turn d a Ha). ring.
  - intros i _. replace (mapply dim Q d i ^ 2) with (mapply dim Q d i * mapply dim Q d i) by ring. unfold mapply at 1. rewrite rsumn_mult_r. apply rsumn_ext. intros; ring.
Qed.
Lemma turn_form A d :
  rsumn dim (fun i => rsumn dim (fun j => mapply dim Q d i * conj dim Q A i j * mapply dim Q d j)) = rsumn dim (fun a => rsumn dim (fun b => d a * A a b * d b)).
Proof.
  set (y := mapply dim Q d).
  rewrite (rsumn_ext dim _ (fun i => rsumn dim (fun a => rsumn dim (fun b => rsumn dim (fun j => A a b * (Q i a * y i) * (Q j b * y j)))))).
  - rewrite rsumn_swap. apply rsumn_ext. intros a Ha. rewrite rsumn_swap. apply rsumn_ext. intros b Hb.
    rewrite (rsumn_ext dim _ (fun i => A a b * d b * (Q i a * y i))).
    + rewrite <- rsumn_mult_l. unfold y. rewrite (back_turn d a Ha). ring.
    + intros i _. rewrite <- rsumn_mult_l. unfold y at 2. rewrite (back_turn d b Hb). ring.
  - intros i _. 
    rewrite (rsumn_ext dim _ (fun j => rsumn dim (fun a => rsumn dim (fun b => A a b * (Q i a * y i) * (Q j b * y j))))).
    + rewrite rsumn_swap. apply rsumn_ext. intros a _. apply rsumn_swap.
    + intros j _. unfold conj. rewrite rsumn_mult_l, rsumn_mult_r. apply rsumn_ext. intros a _. rewrite rsumn_mult_l, rsumn_mult_r. apply rsumn_ext. intros; ring.
Qed.
Lemma mapply_sub x m i : mapply dim Q x i - mapply dim Q m i = mapply dim Q (fun j => x j - m j) i.
Proof.
  unfold mapply. replace (rsumn dim (fun j => Q i j * m j)) with (- 1 * rsumn dim (fun j => - 1 * (Q i j * m j))).
  - rewrite rsumn_scale. unfold Rminus. rewrite Ropp_mult_distr_l. replace (- -1) with 1 by lra. rewrite Rmult_1_l.
    transitivity (rsumn dim (fun j => Q i j * x j) + rsumn dim (fun j => -1 * (Q i j * m j))); [rewrite rsumn_scale; ring|].
    rewrite <- rsumn_plus. apply rsumn_ext. intros; ring.
  - rewrite rsumn_scale. ring.
Qed.
Lemma conj_plus A B i j : mplus (conj dim Q A) (conj dim Q B) i j = conj dim Q (mplus A B) i j.
Proof. unfold mplus, conj. rewrite <- rsumn_plus. apply rsumn_ext. intros a _. rewrite <- rsumn_plus. apply rsumn_ext. intros; ring. Qed.
Lemma mean_turned l i : mean_of (map gm (map (turned dim Q) l)) i = mapply dim Q (mean_of (map gm l)) i.
Proof.
  unfold mean_of. rewrite !map_map, !map_length. cbn [turned gm]. unfold mapply, Rdiv.
  rewrite (rsumn_ext dim _ (fun j => / INR (length l) * (Q i j * rsum (map (fun x => gm x j) l)))) by (intros; rewrite ?map_map; ring).
  rewrite <- rsumn_mult_l, Rmult_comm. f_equal. clear.
  induction l as [|a l IH].
  - cbn [map]. change (rsum []) with 0. symmetry. apply rsumn_zero. intros; ring.
  - cbn [map]. rewrite rsum_cons, IH, <- rsumn_plus. apply rsumn_ext. intros j _. rewrite rsum_cons. ring.
Qed.
End Frame.

(** ** theorems *)
(** Moving the origin does not change the cost. *)
Theorem C195_cost_origin_partial dim pdf inv det safety y_ref tgts objs v :
  (0 < dim)%nat -> objs <> [] -> tgts <> [] ->
  (forall x m P, pdf x m P = gauss dim inv det x m P) ->
  (forall o t, In o objs -> In t tgts -> 0 < det (mplus (gp t) (gp o))) ->
  let tgts' := map (moved v) tgts in let objs' := map (moved v) objs in
  density_based_cost dim pdf inv det safety y_ref (mix_of tgts') (map gm objs') (map gw objs') (map gp objs')
  = density_based_cost dim pdf inv det safety y_ref (mix_of tgts) (map gm objs) (map gw objs) (map gp objs).
Proof.
  intros Hd Ho Ht Hpdf Hdet tgts' objs'. unfold tgts', objs'.
  destruct (greatest_exists (variances dim objs)) as [sg Hsg]; [now apply variances_nonnil|].
  destruct (greatest_exists (variances dim tgts)) as [sd Hsd]; [now apply variances_nonnil|].
  apply (cost_frame dim pdf inv det Hpdf (moved v) safety y_ref tgts objs sg sd); try assumption; try (rewrite variances_moved; assumption).
  - reflexivity.
  - intros o t H1 H2. split; exact (Hdet o t H1 H2).
  - intros a b _ _. unfold gauss. cbn [moved gm gp]. do 3 f_equal. apply rsumn_ext. intros i _. apply rsumn_ext. intros j _. ring.
  - intros a _. unfold edist. f_equal. apply rsumn_ext. intros i _. rewrite (mean_moved v tgts i Ht). cbn [moved gm]. f_equal. ring.
Qed.

(** Turning the axes does not change it either, if it keeps the largest variances. *)
Theorem C195_cost_axes_partial dim pdf inv det safety y_ref tgts objs Q sg sd :
  (0 < dim)%nat -> objs <> [] -> tgts <> [] ->
  (forall x m P, pdf x m P = gauss dim inv det x m P) ->
  (forall a b, In a (objs ++ tgts) -> In b (objs ++ tgts) -> 0 < det (mplus (gp a) (gp b))) ->
  orthonormal dim Q -> turns_det dim det Q -> turns_inv dim inv det Q ->
  let tgts' := map (turned dim Q) tgts in let objs' := map (turned dim Q) objs in
  greatest (variances dim objs) sg -> greatest (variances dim tgts) sd ->
  greatest (variances dim objs') sg -> greatest (variances dim tgts') sd ->
  density_based_cost dim pdf inv det safety y_ref (mix_of tgts') (map gm objs') (map gw objs') (map gp objs')
  = density_based_cost dim pdf inv det safety y_ref (mix_of tgts) (map gm objs) (map gw objs) (map gp objs).
Proof.
  intros Hd Ho Ht Hpdf Hdet HQ HD HI tgts' objs' Hsg Hsd Hsg' Hsd'.
  assert (Ep : forall a b, forall i j, (i < dim)%nat -> (j < dim)%nat -> mplus (gp (turned dim Q a)) (gp (turned dim Q b)) i j = conj dim Q (mplus (gp a) (gp b)) i j).
  { intros a b i j _ _. apply conj_plus. }
  apply (cost_frame dim pdf inv det Hpdf (turned dim Q) safety y_ref tgts objs sg sd); try assumption.
  - reflexivity.
  - intros o t H1 H2. assert (P : 0 < det (mplus (gp t) (gp o))) by (apply Hdet; apply in_or_app; tauto).
    split; [exact P|]. rewrite (HD (mplus (gp t) (gp o)) _ (Ep t o)). exact P.
  - intros a b Ha Hb. unfold gauss. rewrite (HD (mplus (gp a) (gp b)) _ (Ep a b)). do 3 f_equal.
    rewrite <- (turn_form dim Q HQ (inv (mplus (gp a) (gp b))) (fun j => gm a j - gm b j)).
    apply rsumn_ext. intros i Hi. apply rsumn_ext. intros j Hj. cbn [turned gm]. rewrite !mapply_sub.
    rewrite (HI (mplus (gp a) (gp b)) _ (Ep a b) (Hdet a b Ha Hb) i j Hi Hj). reflexivity.
  - intros a _. unfold edist. f_equal. rewrite <- (turn_norm dim Q HQ (fun i => gm a i - mean_of (map gm tgts) i)).
    apply rsumn_ext. intros i _. rewrite (mean_turned dim Q tgts i). cbn [turned gm]. rewrite mapply_sub. reflexivity.
Qed.

(** *** But the largest variance depends on the axes. *)
Definition det2 (P : mat) : R := P 0%nat 0%nat * P 1%nat 1%nat - P 0%nat 1%nat * P 1%nat 0%nat.
Definition inv2 (P : mat) : mat := fun i j => match i, j with
  | O, O => P 1%nat 1%nat / det2 P | O, S O => - P 0%nat 1%nat / det2 P
  | S O, O => - P 1%nat 0%nat / det2 P | S O, S O => P 0%nat 0%nat / det2 P | _, _ => 0 end.
Definition Qturn : mat := fun i j => match i, j with O, O => 3/5 | O, S O => - (4/5) | S O, O => 4/5 | S O, S O => 3/5 | _, _ => 0 end.
Definition diag2 (a b : R) : mat := fun i j => match i, j with O, O => a | S O, S O => b | _, _ => 0 end.
Lemma Qturn_orth : orthonormal 2 Qturn.
Proof.
  intros [|[|a]] [|[|b]] Ha Hb; try lia; cbn [rsumn Qturn Nat.eqb]; field.
Qed.
Lemma Qturn_det : turns_det 2 det2 Qturn.
Proof.
  intros P P' H. unfold det2. rewrite !H by lia. unfold conj. cbn [rsumn Qturn]. field.
Qed.
Lemma Qturn_inv : turns_inv 2 inv2 det2 Qturn.
Proof.
  intros P P' H Pd i j Hi Hj. assert (E : det2 P' = det2 P) by (apply Qturn_det, H).
  destruct i as [|[|i]]; destruct j as [|[|j]]; try lia; unfold inv2 at 1; rewrite E, H by lia; unfold conj; cbn [rsumn Qturn inv2]; field; lra.
Qed.
Definition fobj : wg := {| gw := 1; gm := vzero; gp := diag2 2 1 |}.
Definition ftgt : wg := {| gw := 1; gm := vzero; gp := diag2 1 1 |}.
Lemma gauss_centre a b P d : (forall i, (i < 2)%nat -> gm a i = gm b i) -> det2 P = d ->
  gauss 2 inv2 det2 (gm a) (gm b) P = Rpower (2 * PI) (- (1 / 2) * INR 2) / sqrt d.
Proof.
  intros H E. unfold gauss. rewrite E. replace (rsumn 2 _) with 0.
  - rewrite Rmult_0_r, exp_0, Rmult_1_r. reflexivity.
  - symmetry. apply rsumn_zero. intros i Hi. apply rsumn_zero. intros j Hj. rewrite (H i Hi). ring.
Qed.
Lemma single_cost o t sg sd safety y_ref :
  gw o = 1 -> gw t = 1 -> (forall i, (i < 2)%nat -> gm o i = 0 /\ gm t i = 0) ->
  det2 (mplus (gp o) (gp o)) = 8 -> det2 (mplus (gp t) (gp o)) = 6 -> det2 (mplus (gp t) (gp t)) = 4 ->
  greatest (variances 2 [o]) sg -> greatest (variances 2 [t]) sd ->
  let K := Rpower (2 * PI) (- (1 / 2) * INR 2) in
  density_based_cost 2 (gauss 2 inv2 det2) inv2 det2 safety y_ref (mix_of [t]) (map gm [o]) (map gw [o]) (map gp [o]) =
  Ok (10 * sg * (K / sqrt 8 - 2 * sd * (K / sqrt 6)) + K / sqrt 4 + (1 / (1 + exp (- (0 - (safety * 0 + ln (1 / y_ref - 1)))))) * ln (K / sqrt 6)).
Proof.
  intros Wo Wt Hm D8 D6 D4 Hsg Hsd K.
  assert (Ed : forall g, (g = o \/ g = t) -> edist 2 (gm g) (mean_of (map gm [t])) = 0).
  { intros g Hg. unfold edist. replace (rsumn 2 _) with 0; [apply sqrt_0|]. symmetry. apply rsumn_zero. intros i Hi. unfold mean_of. cbn [map length]. rewrite rsum_cons. change (rsum []) with 0.
    destruct (Hm i Hi) as [H1 H2]. rewrite H2. change (INR 1) with 1. assert (E : gm g i = 0) by (destruct Hg as [-> | ->]; assumption). rewrite E. field. }
  assert (G0 : greatest [0] 0) by (split; [left; reflexivity|intros x [<-|[]]; lra]).
  rewrite (C68_cost_closed_form 2 _ inv2 det2 safety y_ref [t] [o] sg sd 0 0); try assumption; try discriminate; try lia; try reflexivity.
  - f_equal. unfold doc_cost, pairsum. cbn [map length]. rewrite !rsum_cons. change (rsum []) with 0. change (INR 1) with 1. rewrite Wo, Wt.
    rewrite (gauss_centre o o _ 8), (gauss_centre t o _ 6), (gauss_centre t t _ 4); try assumption; try reflexivity; [fold K; ring|].
    intros i Hi. destruct (Hm i Hi). congruence.
  - intros o' t' [<-|[]] [<-|[]]. rewrite D6. lra.
  - cbn [map]. rewrite Ed by tauto. exact G0.
  - cbn [map]. rewrite Ed by tauto. exact G0.
Qed.
Theorem C195_cost_axes_refuted : forall safety y_ref,
  orthonormal 2 Qturn /\ turns_det 2 det2 Qturn /\ turns_inv 2 inv2 det2 Qturn /\
  let cost tgts objs := density_based_cost 2 (gauss 2 inv2 det2) inv2 det2 safety y_ref (mix_of tgts) (map gm objs) (map gw objs) (map gp objs) in
  exists a b, cost [ftgt] [fobj] = Ok a /\ cost [turned 2 Qturn ftgt] [turned 2 Qturn fobj] = Ok b /\ b <> a.
Proof.
  intros safety y_ref. split; [exact Qturn_orth|]. split; [exact Qturn_det|]. split; [exact Qturn_inv|]. intros cost.
  eexists. eexists. split; [|split].
  - apply (single_cost fobj ftgt 2 1); try reflexivity; try (unfold det2, mplus; cbn [fobj ftgt gp diag2]; lra).
    + intros i _. split; reflexivity.
    + split; [left; reflexivity|]. intros x [<-|[<-|[]]]; cbn [fobj gp diag2]; lra.
    + split; [left; reflexivity|]. intros x [<-|[<-|[]]]; cbn [ftgt gp diag2]; lra.
  - apply (single_cost (turned 2 Qturn fobj) (turned 2 Qturn ftgt) (41/25) 1); try reflexivity;
      try (unfold det2, mplus; cbn [turned gp]; unfold conj; cbn [rsumn Qturn fobj ftgt gp diag2]; field).
    + intros i _. cbn [turned gm]. unfold mapply, vzero. cbn [rsumn fobj ftgt gm vzero]. unfold vzero. split; ring.
    + split; [right; left; cbn [turned gp]; unfold conj; cbn [rsumn Qturn fobj gp diag2]; field|]. intros x [<-|[<-|[]]]; cbn [turned gp]; unfold conj; cbn [rsumn Qturn fobj gp diag2]; lra.
    + split; [left; cbn [turned gp]; unfold conj; cbn [rsumn Qturn ftgt gp diag2]; field|]. intros x [<-|[<-|[]]]; cbn [turned gp]; unfold conj; cbn [rsumn Qturn ftgt gp diag2]; lra.
  - set (K := Rpower _ _). assert (PK : 0 < K) by apply exp_pos. set (al := _ * ln _).
    assert (P6 : 0 < sqrt 6) by (apply sqrt_lt_R0; lra). assert (L : sqrt 6 < sqrt 8) by (apply sqrt_lt_1; lra).
    assert (I : / sqrt 8 < / sqrt 6) by (apply Rinv_lt_contravar; [apply Rmult_lt_0_compat; lra|exact L]).
    assert (I8 : 0 < / sqrt 8) by (apply Rinv_0_lt_compat; lra).
    assert (X : K * / sqrt 8 < 2 * (K * / sqrt 6)) by (assert (K * / sqrt 8 < K * / sqrt 6) by (apply Rmult_lt_compat_l; assumption); assert (0 < K * / sqrt 8) by (apply Rmult_lt_0_compat; assumption); lra).
    intros E. fold (K / sqrt 8) in X. fold (K / sqrt 6) in X. lra.
Qed.

Print Assumptions C195_cost_origin_partial.
Print Assumptions C195_cost_axes_partial.
Print Assumptions C195_cost_axes_refuted.

(** Instance of the hypotheses: round covariances keep their variances. *)
Definition robj : wg := {| gw := 1/2; gm := fun i => INR i + 3; gp := diag2 3 3 |}.
Example C195_ex :
  (forall a b, In a ([robj] ++ [ftgt]) -> In b ([robj] ++ [ftgt]) -> 0 < det2 (mplus (gp a) (gp b))) /\
  orthonormal 2 Qturn /\ turns_det 2 det2 Qturn /\ turns_inv 2 inv2 det2 Qturn /\
  greatest (variances 2 [robj]) 3 /\ greatest (variances 2 [ftgt]) 1 /\
  greatest (variances 2 (map (turned 2 Qturn) [robj])) 3 /\ greatest (variances 2 (map (turned 2 Qturn) [ftgt])) 1.
Proof.
  split; [|split; [exact Qturn_orth|split; [exact Qturn_det|split; [exact Qturn_inv|]]]].
  - intros a b [<-|[<-|[]]] [<-|[<-|[]]]; unfold det2, mplus; cbn [robj ftgt gp diag2]; lra.
  - split; [split; [left; reflexivity|intros x [<-|[<-|[]]]; cbn [robj gp diag2]; lra]|].
    split; [split; [left; reflexivity|intros x [<-|[<-|[]]]; cbn [ftgt gp diag2]; lra]|].
    split; (split; [left; cbn [turned gp]; unfold conj; cbn [rsumn Qturn robj ftgt gp diag2]; field|
      intros x [<-|[<-|[]]]; cbn [turned gp]; unfold conj; cbn [rsumn Qturn robj ftgt gp diag2]; lra]).
Qed.
