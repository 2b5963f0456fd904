(** Lemmas about the guidance model. *)
From Verif Require Import Base Lists.
From Coq Require Import Reals Lra Lia Permutation.
From Verif Require Import OspaModel OspaSpec OspaProofs OspaMetric GuidModel GuidSpec.
Open Scope R_scope.

Lemma fold_vplus l : forall a i, fold_left vplus l a i = a i + rsum (map (fun m => m i) l).
Proof.
  induction l as [|x l IH]; intros a i; cbn [fold_left map]; [unfold rsum; cbn; lra|].
  rewrite IH, rsum_cons. unfold vplus. lra.
Qed.
Lemma target_center_ok l : l <> [] -> exists c, target_center l = Ok c /\ forall i, c i = mean_of l i.
Proof.
  intro H. destruct l as [|x l]; [easy|]. eexists. split; [reflexivity|]. intro i. cbv beta.
  rewrite fold_vplus. unfold mean_of, vzero. f_equal. lra.
Qed.

(** * Maxima *)
Definition rmaxf (m d : R) : R := if Rlt_dec m d then d else m.
Lemma fold_rmaxf l : forall x, In (fold_left rmaxf l x) (x :: l) /\ forall y, In y (x :: l) -> y <= fold_left rmaxf l x.
Proof.
  induction l as [|d l IH]; intro x; cbn [fold_left].
  - split; [now left|]. intros y [->|[]]. lra.
  - destruct (IH (rmaxf x d)) as [H1 H2]. split.
    + destruct H1 as [H1|H1]; [|right; now right]. rewrite <- H1. unfold rmaxf. destruct (Rlt_dec x d); [right; now left|now left].
    + assert (Hx : x <= rmaxf x d /\ d <= rmaxf x d) by (unfold rmaxf; destruct (Rlt_dec x d); lra).
      assert (Hm := H2 _ (or_introl eq_refl)).
      intros y [<-|[<-|Hy]]; [lra|lra|]. apply H2. now right.
Qed.
Lemma fold_Rmax l : forall x, In (fold_left Rmax l x) (x :: l) /\ forall y, In y (x :: l) -> y <= fold_left Rmax l x.
Proof.
  induction l as [|d l IH]; intro x; cbn [fold_left].
  - split; [now left|]. intros y [->|[]]. lra.
  - destruct (IH (Rmax x d)) as [H1 H2]. split.
    + destruct H1 as [H1|H1]; [|right; now right]. rewrite <- H1. unfold Rmax. destruct (Rle_dec x d); [right; now left|now left].
    + assert (Hm := H2 _ (or_introl eq_refl)). assert (H3 := Rmax_l x d). assert (H4 := Rmax_r x d).
      intros y [<-|[<-|Hy]]; [lra|lra|]. apply H2. now right.
Qed.
Lemma greatest_unique l l' a b : (forall x, In x l <-> In x l') -> greatest l a -> greatest l' b -> a = b.
Proof. intros H [H1 H2] [H3 H4]. apply Rle_antisym; [apply H4, H, H1|apply H2, H, H3]. Qed.
Lemma max_dist_greatest l : l <> [] -> (forall x, In x l -> 0 <= x) -> greatest l (max_dist l).
Proof.
  intros Hn Hp. change (max_dist l) with (fold_left rmaxf l 0).
  destruct (fold_rmaxf l 0) as [H1 H2]. split; [|intros x Hx; apply H2; now right].
  destruct H1 as [H1|H1]; [|exact H1]. destruct l as [|x l]; [easy|].
  assert (Hx := H2 x (or_intror (or_introl eq_refl))). assert (Hx' := Hp x (or_introl eq_refl)). left. lra.
Qed.
Lemma pymax_greatest l v : pymax l = Ok v -> greatest l v.
Proof.
  destruct l as [|x l]; [easy|]. intro H. injection H as <-. change (greatest (x :: l) (fold_left rmaxf l x)). apply fold_rmaxf.
Qed.
Lemma pymax_ok l : l <> [] -> exists v, pymax l = Ok v.
Proof. destruct l as [|x l]; [easy|]. intros _. now eexists. Qed.
Lemma max_diag_greatest dim p : (0 < dim)%nat -> greatest (map (fun i => p i i) (seq 0 dim)) (max_diag dim p).
Proof.
  intro H. destruct dim as [|d]; [lia|]. unfold max_diag. cbn [seq map]. apply fold_Rmax.
Qed.
Lemma greatest_flat {A} (f : A -> list R) (g : A -> R) l v :
  (forall a, In a l -> greatest (f a) (g a)) -> greatest (map g l) v -> greatest (flat_map f l) v.
Proof.
  intros Hg [H1 H2]. apply in_map_iff in H1 as [a [<- Ha]]. split.
  - apply in_flat_map. exists a. split; [exact Ha|]. now apply Hg.
  - intros x Hx. apply in_flat_map in Hx as [b [Hb Hx]].
    apply Rle_trans with (g b); [now apply Hg|]. apply H2. now apply in_map.
Qed.

(** * Sums *)
Lemma get_map {A B} (f : A -> B) l i : get (map f l) i = match nth_error l i with Some x => Ok (f x) | None => Err IndexErr end.
Proof. unfold get. rewrite nth_error_map. now destruct (nth_error l i). Qed.
Lemma sumL_ok {A} (d : A) (L : list A) (f : nat -> result R) (g : A -> R) :
  (forall i, (i < length L)%nat -> f i = Ok (g (nth i L d))) -> sumL (seq 0 (length L)) f = Ok (rsum (map g L)).
Proof.
  intro H. assert (HH : forall k L', (forall i, (i < length L')%nat -> f (k + i)%nat = Ok (g (nth i L' d))) ->
    sumL (seq k (length L')) f = Ok (rsum (map g L'))).
  { clear. intros k L'. revert k. induction L' as [|x L' IH]; intros k H; cbn [length seq sumL map]; [reflexivity|].
    assert (H0 := H 0%nat ltac:(cbn; lia)). rewrite Nat.add_0_r in H0. cbn [nth] in H0. rewrite H0. cbn [bind].
    rewrite (IH (S k)); [reflexivity|]. intros i Hi. specialize (H (S i) ltac:(cbn; lia)). cbn [nth] in H.
    rewrite <- H. f_equal. lia. }
  apply HH. exact H.
Qed.
Lemma pairsum_ext {A B} (l : list A) (l' : list B) f g : (forall a b, In a l -> In b l' -> f a b = g a b) -> pairsum l l' f = pairsum l l' g.
Proof. intro H. unfold pairsum. apply rsum_ext. intros a Ha. apply rsum_ext. intros b Hb. now apply H. Qed.
Lemma rsum_map_plus {A} (f g : A -> R) l : rsum (map (fun a => f a + g a) l) = rsum (map f l) + rsum (map g l).
Proof. induction l as [|x l IH]; cbn [map]; [unfold rsum; cbn; lra|]. rewrite !rsum_cons, IH. lra. Qed.
Lemma pairsum_swap {A B} (l : list A) (l' : list B) f : pairsum l l' f = pairsum l' l (fun b a => f a b).
Proof.
  unfold pairsum. induction l as [|x l IH]; cbn [map].
  - symmetry. unfold rsum at 2. cbn. rewrite (rsum_const 0). unfold rsum. cbn. lra.
  - rewrite rsum_cons, IH. symmetry.
    rewrite (rsum_ext _ (fun b => f x b + rsum (map (fun a => f a b) l))); [|intros b _; apply rsum_cons].
    apply rsum_map_plus.
Qed.
Lemma pairsum_perm {A B} (l1 l2 : list A) (k1 k2 : list B) f : Permutation l1 l2 -> Permutation k1 k2 -> pairsum l1 k1 f = pairsum l2 k2 f.
Proof.
  intros H1 H2. unfold pairsum. rewrite (rsum_ext _ (fun a => rsum (map (fun b => f a b) k2))).
  - apply rsum_perm. now apply Permutation_map.
  - intros a _. apply rsum_perm. now apply Permutation_map.
Qed.
Lemma pairsum_pos {A B} (l : list A) (l' : list B) f : l <> [] -> l' <> [] -> (forall a b, In a l -> In b l' -> 0 < f a b) -> 0 < pairsum l l' f.
Proof.
  intros Hl Hl' H. assert (Hs : forall T (g : T -> R) k, k <> [] -> (forall x, In x k -> 0 < g x) -> 0 < rsum (map g k)).
  { clear. intros T g k Hk H. destruct k as [|x k]; [easy|]. clear Hk. cbn [map]. rewrite rsum_cons.
    assert (0 < g x) by (apply H; now left). assert (0 <= rsum (map g k)); [|lra].
    apply rsum_nonneg. intros y Hy. apply in_map_iff in Hy as [z [<- Hz]]. apply Rlt_le, H. now right. }
  unfold pairsum. apply Hs; [exact Hl|]. intros a Ha. apply Hs; [exact Hl'|]. intros b Hb. now apply H.
Qed.

Lemma norm2_dist dim x y : norm2 dim (vminus x y) = edist dim x y.
Proof. unfold norm2, edist, vminus. f_equal. apply rsumn_ext. intros. ring. Qed.
Lemma edist_sym dim x y : edist dim x y = edist dim y x.
Proof. unfold edist. f_equal. apply rsumn_ext. intros. ring. Qed.
Lemma edist_ext dim x x' y y' : (forall i, x i = x' i) -> (forall i, y i = y' i) -> edist dim x y = edist dim x' y'.
Proof. intros H H'. unfold edist. f_equal. apply rsumn_ext. intros. now rewrite H, H'. Qed.
Lemma rsumn_mult_r n f c : rsumn n f * c = rsumn n (fun i => f i * c).
Proof. induction n as [|n IH]; cbn [rsumn]; [lra|]. rewrite <- IH. lra. Qed.
Lemma rsumn_mult_l n f c : c * rsumn n f = rsumn n (fun i => c * f i).
Proof. induction n as [|n IH]; cbn [rsumn]; [lra|]. rewrite <- IH. lra. Qed.
Lemma rsumn_swap n m f : rsumn n (fun i => rsumn m (fun j => f i j)) = rsumn m (fun j => rsumn n (fun i => f i j)).
Proof.
  induction n as [|n IH]; cbn [rsumn].
  - symmetry. now apply rsumn_zero.
  - rewrite IH. rewrite <- rsumn_plus. apply rsumn_ext. intros. reflexivity.
Qed.
Lemma qform_sum dim M d : qform dim M d = rsumn dim (fun i => rsumn dim (fun j => d i * M i j * d j)).
Proof.
  unfold qform. rewrite rsumn_swap. apply rsumn_ext. intros j _. apply rsumn_mult_r.
Qed.

Lemma gauss_sym dim inv det x y P : gauss dim inv det x y P = gauss dim inv det y x P.
Proof.
  unfold gauss. f_equal. f_equal. f_equal. apply rsumn_ext. intros. apply rsumn_ext. intros. ring.
Qed.
Lemma gauss_pos dim inv det x y P : 0 < det P -> 0 < gauss dim inv det x y P.
Proof.
  intro H. unfold gauss. apply Rmult_lt_0_compat; [|apply exp_pos]. apply Rdiv_lt_0_compat; [apply exp_pos|]. now apply sqrt_lt_R0.
Qed.
Lemma ln_gauss dim inv det x y P : 0 < det P -> ln (gauss dim inv det x y P)
  = ln (Rpower (2 * PI) (- (1 / 2) * INR dim) / sqrt (det P)) - 1 / 2 * qform dim (inv P) (vminus x y).
Proof.
  intro H. unfold gauss. rewrite ln_mult; [|apply Rdiv_lt_0_compat; [apply exp_pos|now apply sqrt_lt_R0]|apply exp_pos].
  rewrite ln_exp, qform_sum. unfold vminus. lra.
Qed.

Definition wg0 : wg := {| gw := 0; gm := vzero; gp := fun _ _ => 0 |}.
Lemma get_map_nth {B} (f : wg -> B) l i : (i < length l)%nat -> get (map f l) i = Ok (f (nth i l wg0)).
Proof. intro H. rewrite get_map. now rewrite (nth_error_nth' l wg0 H). Qed.
Lemma mplus_comm a b : mplus a b = mplus b a.
Proof.
  apply FunctionalExtensionality.functional_extensionality. intro i.
  apply FunctionalExtensionality.functional_extensionality. intro j. unfold mplus. apply Rplus_comm.
Qed.

Section Cost.
Variables (dim : nat) (pdf : vec -> vec -> mat -> R) (inv : mat -> mat) (det : mat -> R).
Let Nd (a b : wg) : R := gauss dim inv det (gm a) (gm b) (mplus (gp a) (gp b)).

Lemma cost_closed safety y_ref tg os sg sd rho delta : (0 < dim)%nat -> os <> [] -> tg <> [] ->
  (forall x m P, pdf x m P = gauss dim inv det x m P) ->
  (forall o t, In o os -> In t tg -> 0 < det (mplus (gp t) (gp o))) ->
  greatest (variances dim os) sg -> greatest (variances dim tg) sd ->
  greatest (map (fun t => edist dim (gm t) (mean_of (map gm tg))) tg) rho ->
  greatest (map (fun o => edist dim (gm o) (mean_of (map gm tg))) os) delta ->
  density_based_cost dim pdf inv det safety y_ref (mix_of tg) (map gm os) (map gw os) (map gp os)
  = Ok (doc_cost 2 Nd os tg sg sd (1 / (1 + exp (- (delta - (safety * rho + ln (1 / y_ref - 1))))))).
Proof.
  intros Hd Hos Htg Hpdf Hdet Hsg Hsd Hrho Hdelta.
  unfold density_based_cost. cbn [mix_of t_m t_w t_p].
  destruct (target_center_ok (map gm tg)) as [c [Ec Hc]]; [now destruct tg|]. rewrite Ec. cbn [bind].
  assert (E1 : max_dist (map (fun m => norm2 dim (vminus m c)) (map gm tg)) = rho).
  { rewrite map_map. eapply greatest_unique; [|apply max_dist_greatest; [now destruct tg|]|exact Hrho].
    - intro x. rewrite (map_ext _ (fun t => edist dim (gm t) (mean_of (map gm tg)))); [reflexivity|].
      intro t. rewrite norm2_dist. now apply edist_ext.
    - intros x Hx. apply in_map_iff in Hx as [t [<- _]]. apply sqrt_pos. }
  assert (E2 : max_dist (map (fun x => norm2 dim (vminus c x)) (map gm os)) = delta).
  { rewrite map_map. eapply greatest_unique; [|apply max_dist_greatest; [now destruct os|]|exact Hdelta].
    - intro x. rewrite (map_ext _ (fun t => edist dim (gm t) (mean_of (map gm tg)))); [reflexivity|].
      intro t. rewrite norm2_dist, edist_sym. now apply edist_ext.
    - intros x Hx. apply in_map_iff in Hx as [t [<- _]]. apply sqrt_pos. }
  rewrite E1, E2.
  destruct (pymax_ok (map (max_diag dim) (map gp os))) as [v1 Hv1]; [now destruct os|]. rewrite Hv1. cbn [bind].
  destruct (pymax_ok (map (max_diag dim) (map gp tg))) as [v2 Hv2]; [now destruct tg|]. rewrite Hv2. cbn [bind].
  assert (v1 = sg).
  { apply pymax_greatest in Hv1. rewrite map_map in Hv1.
    apply (greatest_unique (variances dim os) (variances dim os)); [reflexivity| |exact Hsg].
    unfold variances. eapply greatest_flat; [|exact Hv1]. intros g _. now apply max_diag_greatest. }
  assert (v2 = sd).
  { apply pymax_greatest in Hv2. rewrite map_map in Hv2.
    apply (greatest_unique (variances dim tg) (variances dim tg)); [reflexivity| |exact Hsd].
    unfold variances. eapply greatest_flat; [|exact Hv2]. intros g _. now apply max_diag_greatest. }
  subst v1 v2. rewrite !map_length.
  erewrite (sumL_ok wg0 os _ (fun o => rsum (map (fun i => gw o * gw i * Nd o i) os))).
  2:{ intros i Hi. apply (sumL_ok wg0). intros j Hj. rewrite !get_map_nth by assumption. cbn [bind]. now rewrite Hpdf. }
  cbn [bind].
  erewrite (sumL_ok wg0 os _ (fun o => rsum (map (fun t => gw o * gw t * Nd t o) tg))).
  2:{ intros i Hi. apply (sumL_ok wg0). intros j Hj. rewrite !get_map_nth by assumption. cbn [bind]. rewrite Hpdf, gauss_sym.
      unfold Nd. now rewrite (mplus_comm (gp (nth i os wg0))). }
  cbn [bind].
  erewrite (sumL_ok wg0 os _ (fun o => rsum (map (fun t => gw o * gw t * ln (Nd t o)) tg))).
  2:{ intros i Hi. apply (sumL_ok wg0). intros j Hj. rewrite !get_map_nth by assumption. cbn [bind].
      unfold Nd. rewrite gauss_sym, ln_gauss by (apply Hdet; now apply nth_In).
      now rewrite (mplus_comm (gp (nth i os wg0))). }
  cbn [bind].
  erewrite (sumL_ok wg0 tg _ (fun o => rsum (map (fun i => gw o * gw i * Nd o i) tg))).
  2:{ intros i Hi. apply (sumL_ok wg0). intros j Hj. rewrite !get_map_nth by assumption. cbn [bind]. now rewrite Hpdf. }
  cbn [bind]. f_equal. unfold doc_cost.
  rewrite (pairsum_swap tg os), (pairsum_swap tg os).
  unfold pairsum.
  rewrite (rsum_ext (fun o => rsum (map (fun t => gw o * gw t * Nd t o) tg)) (fun a => rsum (map (fun b => gw b * gw a * Nd b a) tg)));
    [|intros a _; apply rsum_ext; intros b _; ring].
  rewrite (rsum_ext (fun o => rsum (map (fun t => gw o * gw t * ln (Nd t o)) tg)) (fun a => rsum (map (fun b => gw b * gw a * ln (Nd b a)) tg)));
    [|intros a _; apply rsum_ext; intros b _; ring].
  reflexivity.
Qed.
End Cost.

Lemma greatest_exists l : l <> [] -> exists v, greatest l v.
Proof. destruct l as [|x l]; [easy|]. intros _. exists (fold_left rmaxf l x). apply fold_rmaxf. Qed.
Lemma greatest_perm l l' v : (forall x, In x l <-> In x l') -> greatest l v -> greatest l' v.
Proof. intros H [H1 H2]. split; [now apply H|]. intros x Hx. apply H2, H, Hx. Qed.
Lemma mean_of_perm l l' i : Permutation l l' -> mean_of l i = mean_of l' i.
Proof.
  intro H. unfold mean_of. rewrite (Permutation_length H). f_equal. apply rsum_perm. now apply Permutation_map.
Qed.
Lemma doc_cost_perm k N o o' t t' sg sd al : Permutation o o' -> Permutation t t' -> doc_cost k N o t sg sd al = doc_cost k N o' t' sg sd al.
Proof.
  intros H1 H2. unfold doc_cost. rewrite (Permutation_length H1), (Permutation_length H2).
  rewrite (pairsum_perm o o' o o'), (pairsum_perm t t' o o'), (pairsum_perm t t' t t'), (pairsum_perm t t' o o') by assumption. reflexivity.
Qed.

(** * Wayareas *)
Lemma congruence_sym dim (C : mat) v i j :
  rsumn dim (fun k => C i k * v k * C j k) = rsumn dim (fun k => C j k * v k * C i k).
Proof. apply rsumn_ext. intros. ring. Qed.
Lemma congruence_quad dim (C : mat) v x :
  rsumn dim (fun i => rsumn dim (fun j => x i * rsumn dim (fun k => C i k * v k * C j k) * x j))
  = rsumn dim (fun k => v k * (rsumn dim (fun i => x i * C i k)) ^ 2).
Proof.
  transitivity (rsumn dim (fun i => rsumn dim (fun k => rsumn dim (fun j => x i * (C i k * v k * C j k) * x j)))).
  { apply rsumn_ext. intros i _. rewrite rsumn_swap. apply rsumn_ext. intros j _. rewrite rsumn_mult_l, rsumn_mult_r. reflexivity. }
  rewrite rsumn_swap. apply rsumn_ext. intros k _.
  set (y := rsumn dim (fun i => x i * C i k)).
  transitivity (rsumn dim (fun i => (x i * C i k) * (v k * y))).
  - apply rsumn_ext. intros i _. unfold y. rewrite !rsumn_mult_l. apply rsumn_ext. intros j _. ring.
  - rewrite <- rsumn_mult_r. fold y. ring.
Qed.
Lemma rsumn_delta n f j : (j < n)%nat -> rsumn n (fun k => f k * (if (k =? j)%nat then 1 else 0)) = f j.
Proof.
  induction n as [|n IH]; intro H; [lia|]. cbn [rsumn]. destruct (Nat.eq_dec n j) as [->|Hn].
  - rewrite Nat.eqb_refl. rewrite rsumn_zero; [lra|]. intros i Hi. destruct (Nat.eqb_spec i j); [lia|lra].
  - rewrite IH by lia. destruct (Nat.eqb_spec n j); [lia|lra].
Qed.
Lemma inv_transpose dim (C D : mat) :
  (forall i j, (i < dim)%nat -> (j < dim)%nat -> rsumn dim (fun k => C k i * C k j) = if (i =? j)%nat then 1 else 0) ->
  (forall i j, (i < dim)%nat -> (j < dim)%nat -> rsumn dim (fun k => C i k * D k j) = if (i =? j)%nat then 1 else 0) ->
  forall k j, (k < dim)%nat -> (j < dim)%nat -> D k j = C j k.
Proof.
  intros Ho Hi k j Hk Hj.
  transitivity (rsumn dim (fun i => D i j * (if (i =? k)%nat then 1 else 0))); [symmetry; now apply rsumn_delta with (f := fun i => D i j)|].
  transitivity (rsumn dim (fun i => rsumn dim (fun l => C l k * (C l i * D i j)))).
  { apply rsumn_ext. intros i Hi'. rewrite Nat.eqb_sym, <- Ho by assumption. rewrite rsumn_mult_l. apply rsumn_ext. intros. ring. }
  rewrite rsumn_swap.
  transitivity (rsumn dim (fun l => C l k * (if (l =? j)%nat then 1 else 0))).
  { apply rsumn_ext. intros l Hl. rewrite <- Hi by assumption. symmetry. apply rsumn_mult_l. }
  now apply rsumn_delta with (f := fun l => C l k).
Qed.
Lemma mmul_diag dim (C D : mat) v i j : 
  mmulR dim (mmulR dim C (diagm v)) D i j = rsumn dim (fun k => C i k * v k * D k j).
Proof.
  unfold mmulR at 1. apply rsumn_ext. intros k Hk. f_equal. unfold mmulR, diagm.
  transitivity (rsumn dim (fun l => (C i l * v l) * (if (l =? k)%nat then 1 else 0))).
  - apply rsumn_ext. intros l _. destruct (l =? k)%nat; ring.
  - now apply rsumn_delta with (f := fun l => C i l * v l).
Qed.
Lemma congruence_psd dim (C D : mat) v :
  (forall k j, (k < dim)%nat -> (j < dim)%nat -> D k j = C j k) -> (forall k, (k < dim)%nat -> 0 <= v k) ->
  psd dim (mmulR dim (mmulR dim C (diagm v)) D).
Proof.
  intros HD Hv.
  assert (E : forall i j, (i < dim)%nat -> (j < dim)%nat ->
    mmulR dim (mmulR dim C (diagm v)) D i j = rsumn dim (fun k => C i k * v k * C j k)).
  { intros i j Hi Hj. rewrite mmul_diag. apply rsumn_ext. intros k Hk. now rewrite HD. }
  split.
  - intros i j Hi Hj. rewrite !E by assumption. apply congruence_sym.
  - intro x. rewrite (rsumn_ext _ _ (fun i => rsumn dim (fun j => x i * rsumn dim (fun k => C i k * v k * C j k) * x j))).
    + rewrite congruence_quad. apply rsumn_nonneg. intros k Hk. apply Rmult_le_pos; [now apply Hv|]. apply pow2_ge_0.
    + intros i Hi. apply rsumn_ext. intros j Hj. now rewrite E.
Qed.
Lemma proj_vals_nonneg dim C dirs i : 0 <= proj_vals dim C dirs i.
Proof.
  unfold proj_vals. apply (fold_rmaxf (map (fun o : nat -> R => Rabs (rsumn dim (fun k => C k i * o k))) dirs) 0). now left.
Qed.

Lemma skipn_cons {A} i : forall (l : list A) m, nth_error l i = Some m -> skipn i l = m :: skipn (S i) l.
Proof. induction i as [|i IH]; intros [|x l] m H; try easy; [now injection H as ->|]. cbn [skipn]. now apply IH. Qed.
Lemma append_loop_ok f : forall i means new, (length means - i <= f)%nat ->
  append_loop false f i means new = Ok (new ++ skipn i means).
Proof.
  induction f as [|f IH]; intros i means new H; cbn [append_loop].
  - rewrite (proj2 (nth_error_None means i)) by lia. rewrite skipn_all2 by lia. now rewrite app_nil_r.
  - destruct (nth_error means i) as [m|] eqn:E.
    + rewrite IH by lia. rewrite <- app_assoc. f_equal. f_equal. cbn [app].
      symmetry. now apply skipn_cons.
    + apply nth_error_None in E. rewrite skipn_all2 by lia. now rewrite app_nil_r.
Qed.
Lemma append_loop_same f : forall i means new, (i < length new)%nat -> append_loop true f i means new = Err OutOfFuel.
Proof.
  induction f as [|f IH]; intros i means new H; cbn [append_loop]; destruct (nth_error new i) as [m|] eqn:E;
    try (apply nth_error_None in E; lia); [reflexivity|].
  apply IH. rewrite app_length. cbn. lia.
Qed.
Lemma weights_sum {A} (l : list A) : l <> [] -> rsum (map (fun _ => 1 / INR (length l)) l) = 1.
Proof.
  intro H. rewrite rsum_const. field. apply not_0_INR. now destruct l.
Qed.

(** * Nearest target *)
Lemma nearest_from_spec dim s gs : forall b,
  match nearest_from dim s gs b with
  | None => b = None /\ gs = []
  | Some g =>
      match b with
      | Some (d, g0) => (g = g0 /\ forall k, In k gs -> d <= edist dim s k) \/
          exists l1 l2, gs = l1 ++ g :: l2 /\ edist dim s g < d /\ (forall k, In k l1 -> edist dim s g < edist dim s k)
             /\ forall k, In k l2 -> edist dim s g <= edist dim s k
      | None => exists l1 l2, gs = l1 ++ g :: l2 /\ (forall k, In k l1 -> edist dim s g < edist dim s k)
             /\ forall k, In k l2 -> edist dim s g <= edist dim s k
      end
  end.
Proof.
  induction gs as [|k gs IH]; intro b; cbn [nearest_from].
  - destruct b as [[d g0]|]; [left; now split|easy].
  - rewrite norm2_dist. destruct b as [[d g0]|].
    + destruct (Rlt_dec (edist dim s k) d) as [Hl|Hl].
      * specialize (IH (Some (edist dim s k, k))). destruct (nearest_from dim s gs _) as [g|]; [|easy].
        right. destruct IH as [[-> H]|[l1 [l2 [-> [H1 [H2 H3]]]]]].
        -- exists [], gs. repeat split; [exact Hl|easy|exact H].
        -- exists (k :: l1), l2. repeat split; [lra| |exact H3]. intros x [<-|Hx]; [exact H1|now apply H2].
      * specialize (IH (Some (d, g0))). destruct (nearest_from dim s gs _) as [g|]; [|easy].
        destruct IH as [[-> H]|[l1 [l2 [-> [H1 [H2 H3]]]]]].
        -- left. split; [reflexivity|]. intros x [<-|Hx]; [lra|now apply H].
        -- right. exists (k :: l1), l2. repeat split; [lra| |exact H3]. intros x [<-|Hx]; [lra|now apply H2].
    + specialize (IH (Some (edist dim s k, k))). destruct (nearest_from dim s gs _) as [g|]; [|easy].
      destruct IH as [[-> H]|[l1 [l2 [-> [H1 [H2 H3]]]]]].
      * exists [], gs. repeat split; [easy|exact H].
      * exists (k :: l1), l2. repeat split; [|exact H3]. intros x [<-|Hx]; [exact H1|now apply H2].
Qed.

(** * initialize *)
Section Init.
Variables (dim : nat) (inv : mat -> mat) (chi2_ppf : R -> nat -> R).
Definition fitc (obs : vec) (g : gobj) : R := qform dim (inv (g_cov g)) (vminus obs (nth 1 (g_means g) vzero)).

Lemma fitc_mahal obs g : mahal dim inv obs g = fitc obs g.
Proof. unfold fitc. now rewrite qform_sum. Qed.

Lemma best_fit_spec obs gs : forall jj b best, best_fit_from dim inv obs gs jj b = Ok best ->
  (forall g, In g gs -> 2 <= length (g_means g))%nat /\
  match best with
  | None => b = None /\ gs = []
  | Some (ind, f) =>
      (b = Some (ind, f) \/ (jj <= ind < jj + length gs)%nat /\ exists g, nth_error gs (ind - jj) = Some g /\ f = fitc obs g)
      /\ (forall g, In g gs -> f <= fitc obs g) /\ match b with Some (_, f0) => f <= f0 | None => True end
  end.
Proof.
  induction gs as [|g gs IH]; intros jj b best; cbn [best_fit_from].
  - intro H. injection H as <-. split; [easy|]. destruct b as [[i f]|]; [|easy].
    split; [now left|]. split; [easy|]. lra.
  - unfold get at 1. destruct (nth_error (g_means g) 1) as [m1|] eqn:E; cbn [bind]; [|easy].
    assert (El : (2 <= length (g_means g))%nat) by (assert (1 < length (g_means g))%nat by (apply nth_error_Some; congruence); lia).
    assert (Em : nth 1 (g_means g) vzero = m1) by now apply nth_error_nth.
    assert (Ef : qform dim (inv (g_cov g)) (vminus obs m1) = fitc obs g) by (unfold fitc; now rewrite Em).
    rewrite Ef. intro H. apply IH in H as [H1 H2].
    split; [intros x [<-|Hx]; [exact El|now apply H1]|].
    destruct best as [[ind f]|]; [|destruct b as [[i0 f0]|]; [destruct (Rlt_dec _ _); easy|easy]].
    destruct H2 as [H2 [H3 H4]].
    assert (Hf : f <= fitc obs g) by (destruct b as [[i0 f0]|]; [destruct (Rlt_dec _ _); lra|exact H4]).
    split; [|split; [intros x [<-|Hx]; [exact Hf|now apply H3]|
             destruct b as [[i0 f0]|]; [destruct (Rlt_dec _ _); lra|exact I]]].
    destruct H2 as [H2|[H2 [x [H5 H6]]]].
    + destruct b as [[i0 f0]|].
      * destruct (Rlt_dec _ _) as [Hl|Hl].
        -- right. injection H2 as <- <-. cbn [length]. split; [lia|]. exists g. now rewrite Nat.sub_diag.
        -- left. exact H2.
      * right. injection H2 as <- <-. cbn [length]. split; [lia|]. exists g. now rewrite Nat.sub_diag.
    + right. cbn [length]. split; [lia|]. exists x. split; [|exact H6]. replace (ind - jj)%nat with (S (ind - S jj)) by lia. exact H5.
Qed.
Lemma best_fit_total obs gs : forall jj b, (forall g, In g gs -> 2 <= length (g_means g))%nat -> exists best, best_fit_from dim inv obs gs jj b = Ok best.
Proof.
  induction gs as [|g gs IH]; intros jj b H; cbn [best_fit_from]; [now eexists|].
  unfold get at 1. destruct (nth_error (g_means g) 1) as [m1|] eqn:E; cbn [bind].
  - apply IH. intros x Hx. apply H. now right.
  - apply nth_error_None in E. specialize (H g (or_introl eq_refl)). lia.
Qed.

Lemma pop_nth {A} (l : list A) i : pop i l = firstn i l ++ skipn (S i) l.
Proof. reflexivity. Qed.
Lemma pop_map {A B} (f : A -> B) i l : pop i (map f l) = map f (pop i l).
Proof. unfold pop. now rewrite map_app, firstn_map, skipn_map. Qed.
Lemma pop_In {A} i (l : list A) x : NoDup l -> nth_error l i = Some x -> forall y, In y (pop i l) <-> In y l /\ y <> x.
Proof.
  intros Hn Hx y. apply nth_error_split in Hx as [l1 [l2 [-> <-]]]. unfold pop.
  rewrite firstn_app, Nat.sub_diag, firstn_O, app_nil_r, firstn_all.
  rewrite skipn_app, (skipn_all2 l1) by lia. replace (S (length l1) - length l1)%nat with 1%nat by lia. cbn [app skipn].
  apply NoDup_remove in Hn as [_ Hn]. rewrite !in_app_iff. cbn [In]. rewrite in_app_iff in Hn. split.
  - intros [H|H]; (split; [tauto|intros ->; tauto]).
  - intros [[H|[H|H]] H']; [tauto|congruence|tauto].
Qed.
Lemma pop_NoDup {A} i (l : list A) x : NoDup l -> nth_error l i = Some x -> NoDup (pop i l).
Proof.
  intros Hn Hx. apply nth_error_split in Hx as [l1 [l2 [-> <-]]]. unfold pop.
  rewrite firstn_app, Nat.sub_diag, firstn_O, app_nil_r, firstn_all.
  rewrite skipn_app, (skipn_all2 l1) by lia. replace (S (length l1) - length l1)%nat with 1%nat by lia. cbn [app skipn].
  now apply NoDup_remove in Hn as [Hn _].
Qed.

Definition avail_in (avail : list nat) (src : list (option nat)) (i j : nat) : Prop :=
  In j avail /\ forall k, (k < i)%nat -> nth k src None <> Some j.
Definition leftover (avail : list nat) (src : list (option nat)) : list nat := filter (fun j => negb (existsb (takes j) src)) avail.
Lemma pop_filter i (l : list nat) x : NoDup l -> nth_error l i = Some x -> pop i l = filter (fun j => negb (x =? j)%nat) l.
Proof.
  intros Hn Hx. apply nth_error_split in Hx as [l1 [l2 [-> <-]]]. unfold pop.
  rewrite firstn_app, Nat.sub_diag, firstn_O, app_nil_r, firstn_all.
  rewrite skipn_app, (skipn_all2 l1) by lia. replace (S (length l1) - length l1)%nat with 1%nat by lia. cbn [app skipn].
  apply NoDup_remove in Hn as [_ Hn]. rewrite in_app_iff in Hn. rewrite filter_app. cbn [filter]. rewrite Nat.eqb_refl. cbn [negb].
  assert (Hf : forall l', ~ In x l' -> filter (fun j => negb (x =? j)%nat) l' = l').
  { clear. induction l' as [|y l' IH]; intro H; [reflexivity|]. cbn [filter]. destruct (Nat.eqb_spec x y) as [->|Hne].
    - exfalso. apply H. now left.
    - cbn [negb]. rewrite IH; [reflexivity|]. intro H'. apply H. now right. }
  rewrite !Hf by tauto. reflexivity.
Qed.
Lemma filter_filter {A} (f g : A -> bool) l : filter f (filter g l) = filter (fun x => g x && f x) l.
Proof. induction l as [|x l IH]; [reflexivity|]. cbn [filter]. destruct (g x); cbn [filter andb]; [|exact IH]. now rewrite IH. Qed.
Lemma leftover_cons avail x src : leftover (filter (fun j => negb (x =? j)%nat) avail) src = leftover avail (Some x :: src).
Proof.
  unfold leftover. rewrite filter_filter. apply filter_ext. intro j. cbn [existsb takes]. now rewrite negb_orb.
Qed.
Lemma leftover_none avail src : leftover avail (None :: src) = leftover avail src.
Proof. reflexivity. Qed.

Lemma init_loop_spec h thresh mg dyn invd nin nom gs0 : forall iis avail os rest,
  NoDup avail -> (forall j, In j avail -> (j < length gs0)%nat) ->
  init_loop dim inv chi2_ppf h thresh mg dyn invd nin nom iis (map (fun j => nth j gs0 g0) avail) = Ok (os, rest) ->
  exists src, length src = length iis /\ length os = length iis /\
    rest = map (fun j => nth j gs0 g0) (leftover avail src) /\
    forall k ii, nth_error iis k = Some ii ->
      exists mean cov w o, nth_error (t_m mg) ii = Some mean /\ nth_error (t_p mg) ii = Some cov /\ nth_error (t_w mg) ii = Some w /\
        nth_error os k = Some o /\
        match nth k src None with
        | Some j => avail_in avail src k j /\ fitc mean (nth j gs0 g0) < chi2_ppf thresh dim
            /\ (forall j', avail_in avail src k j' -> fitc mean (nth j gs0 g0) <= fitc mean (nth j' gs0 g0))
            /\ exists first, matched_obj h mean cov w first (nth j gs0 g0) = Ok o
        | None => (forall j', avail_in avail src k j' -> chi2_ppf thresh dim <= fitc mean (nth j' gs0 g0))
            /\ exists n fs is un, o = fresh_obj h mean cov w n fs is un
               /\ nth_error nin ii = Some n /\ nth_error dyn ii = Some fs /\ nth_error invd ii = Some is
               /\ match nom with None => un = vzero | Some l => nth_error l ii = Some un end
        end.
Proof.
  induction iis as [|ii iis IH]; intros avail os rest Hn Hlt; cbn [init_loop].
  { intro H. injection H as <- <-. exists []. repeat split.
    - f_equal. unfold leftover. symmetry. cbn [existsb negb]. clear. induction avail as [|x l IH]; [reflexivity|]. cbn [filter]. now rewrite IH.
    - intros k jj Hk. now destruct k. }
  intro H.
  unfold get at 1 in H. destruct (nth_error (t_m mg) ii) as [mean|] eqn:Em; cbn [bind] in H; [|easy].
  apply bind_ok in H as [best [Hb H]]. apply best_fit_spec in Hb as [Hlen Hb].
  unfold get at 1 in H. destruct (nth_error (t_p mg) ii) as [cov|] eqn:Ec; cbn [bind] in H; [|easy].
  unfold get at 1 in H. destruct (nth_error (t_w mg) ii) as [w|] eqn:Ew; cbn [bind] in H; [|easy].
  apply bind_ok in H as [[o gs1] [Ho H]].
  apply bind_ok in H as [[os' rest'] [Hrec H]]. injection H as <- <-.
  set (gs := map (fun j => nth j gs0 g0) avail) in *.
  assert (Hcase : (exists j pos, nth_error avail pos = Some j /\ gs1 = map (fun j => nth j gs0 g0) (pop pos avail) /\
        fitc mean (nth j gs0 g0) < chi2_ppf thresh dim /\ (forall j', In j' avail -> fitc mean (nth j gs0 g0) <= fitc mean (nth j' gs0 g0)) /\
        exists first, matched_obj h mean cov w first (nth j gs0 g0) = Ok o) \/
      (gs1 = gs /\ (forall j', In j' avail -> chi2_ppf thresh dim <= fitc mean (nth j' gs0 g0)) /\
        exists n fs is un, o = fresh_obj h mean cov w n fs is un
               /\ nth_error nin ii = Some n /\ nth_error dyn ii = Some fs /\ nth_error invd ii = Some is
               /\ match nom with None => un = vzero | Some l => nth_error l ii = Some un end)).
  { assert (Hfresh : forall r, r = Ok (o, gs1) -> r = (do n <- get nin ii; do fs <- get dyn ii; do is <- get invd ii;
        do un <- match nom with None => Ok vzero | Some l => get l ii end; Ok (fresh_obj h mean cov w n fs is un, gs)) ->
        gs1 = gs /\ exists n fs is un, o = fresh_obj h mean cov w n fs is un
               /\ nth_error nin ii = Some n /\ nth_error dyn ii = Some fs /\ nth_error invd ii = Some is
               /\ match nom with None => un = vzero | Some l => nth_error l ii = Some un end).
    { intros r -> Hr. unfold get in Hr.
      destruct (nth_error nin ii) as [n|] eqn:E1; cbn [bind] in Hr; [|easy].
      destruct (nth_error dyn ii) as [fs|] eqn:E2; cbn [bind] in Hr; [|easy].
      destruct (nth_error invd ii) as [is|] eqn:E3; cbn [bind] in Hr; [|easy].
      destruct nom as [l|].
      - destruct (nth_error l ii) as [un|] eqn:E4; cbn [bind] in Hr; [|easy]. injection Hr as -> ->. split; [reflexivity|].
        now exists n, fs, is, un.
      - cbn [bind] in Hr. injection Hr as -> ->. split; [reflexivity|]. now exists n, fs, is, vzero. }
    destruct best as [[ind f]|].
    - destruct Hb as [Hb [Hmin _]]. destruct Hb as [Hb|[Hind [g [Hg Hf]]]]; [easy|].
      rewrite Nat.sub_0_r in Hg. unfold gs in Hg. rewrite nth_error_map in Hg.
      destruct (nth_error avail ind) as [j|] eqn:Ej; cbn [option_map] in Hg; [|easy]. injection Hg as <-. subst f.
      assert (Hmin' : forall j', In j' avail -> fitc mean (nth j gs0 g0) <= fitc mean (nth j' gs0 g0)).
      { intros j' Hj'. apply Hmin. unfold gs. now apply (in_map (fun j => nth j gs0 g0)). }
      destruct (Rlt_dec _ _) as [Hl|Hl].
      + left. exists j, ind. split; [exact Ej|].
        unfold get at 1 in Ho. unfold gs in Ho at 1. rewrite nth_error_map, Ej in Ho. cbn [option_map bind] in Ho.
        apply bind_ok in Ho as [first [_ Ho]]. apply bind_ok in Ho as [o' [Hm Ho]]. injection Ho as -> <-.
        split; [unfold gs; apply pop_map|]. split; [exact Hl|]. split; [exact Hmin'|]. now exists first.
      + right. destruct (Hfresh _ Ho eq_refl) as [-> HH]. split; [reflexivity|]. split; [|exact HH].
        intros j' Hj'. specialize (Hmin' j' Hj'). lra.
    - right. destruct (Hfresh _ Ho eq_refl) as [-> HH]. split; [reflexivity|]. split; [|exact HH].
      intros j' Hj'. destruct Hb as [_ Hb]. unfold gs in Hb. apply map_eq_nil in Hb. now rewrite Hb in Hj'. }
  clear Ho Hb.
  destruct Hcase as [[j [pos [Hpos [-> [Hl [Hmin Hm]]]]]]|[-> [Hbd Hfr]]].
  - apply IH in Hrec as [src [L1 [L2 [L3 L4]]]].
    2:{ now apply pop_NoDup with (x := j). }
    2:{ intros j' Hj'. apply (pop_In _ _ _ Hn Hpos) in Hj' as [Hj' _]. now apply Hlt. }
    exists (Some j :: src). split; [cbn; now rewrite L1|]. split; [cbn; now rewrite L2|].
    split; [rewrite L3, (pop_filter _ _ _ Hn Hpos); now rewrite leftover_cons|].
    intros k jj Hk. destruct k as [|k]; cbn [nth_error] in Hk.
    + injection Hk as <-. exists mean, cov, w, o. repeat split; try assumption.
      * now apply nth_error_In in Hpos.
      * intros k Hk. lia.
      * intros j' [Hj' _]. now apply Hmin.
    + destruct (L4 k jj Hk) as [mean' [cov' [w' [o' [M1 [M2 [M3 [M4 M5]]]]]]]].
      exists mean', cov', w', o'. repeat split; try assumption. cbn [nth].
      assert (Hav : forall j', avail_in avail (Some j :: src) (S k) j' <-> avail_in (pop pos avail) src k j').
      { intro j'. unfold avail_in. rewrite (pop_In _ _ _ Hn Hpos). split.
        - intros [A1 A2]. split; [split; [exact A1|]|].
          + intros ->. exact (A2 0%nat ltac:(lia) eq_refl).
          + intros k' Hk'. exact (A2 (S k') ltac:(lia)).
        - intros [[A1 A2] A3]. split; [exact A1|]. intros [|k'] Hk'; cbn [nth]; [congruence|]. apply A3. lia. }
      destruct (nth k src None) as [x|].
      * destruct M5 as [M5 [M6 [M7 M8]]]. split; [now apply Hav|]. split; [exact M6|]. split; [|exact M8]. intros j' Hj'. apply M7. now apply Hav.
      * destruct M5 as [M5 M6]. split; [|exact M6]. intros j' Hj'. apply M5. now apply Hav.
  - apply IH in Hrec as [src [L1 [L2 [L3 L4]]]]; [|assumption|assumption].
    exists (None :: src). split; [cbn; now rewrite L1|]. split; [cbn; now rewrite L2|].
    split; [exact L3|].
    intros k jj Hk. destruct k as [|k]; cbn [nth_error] in Hk.
    + injection Hk as <-. exists mean, cov, w, o. repeat split; try assumption.
      intros j' [Hj' _]. now apply Hbd.
    + destruct (L4 k jj Hk) as [mean' [cov' [w' [o' [M1 [M2 [M3 [M4 M5]]]]]]]].
      exists mean', cov', w', o'. repeat split; try assumption. cbn [nth].
      assert (Hav : forall j', avail_in avail (None :: src) (S k) j' <-> avail_in avail src k j').
      { intro j'. unfold avail_in. split.
        - intros [A1 A2]. split; [exact A1|]. intros k' Hk'. exact (A2 (S k') ltac:(lia)).
        - intros [A1 A3]. split; [exact A1|]. intros [|k'] Hk'; cbn [nth]; [congruence|]. apply A3. lia. }
      destruct (nth k src None) as [x|].
      * destruct M5 as [M5 [M6 [M7 M8]]]. split; [now apply Hav|]. split; [exact M6|]. split; [|exact M8]. intros j' Hj'. apply M7. now apply Hav.
      * destruct M5 as [M5 M6]. split; [|exact M6]. intros j' Hj'. apply M5. now apply Hav.
Qed.
Lemma matched_fields h mean cov w first old o : matched_obj h mean cov w first old = Ok o ->
  (2 <= h)%nat /\ length (g_means o) = h /\ nth_error (g_means o) 0 = Some mean /\ g_cov o = cov /\ g_w o = w /\
  g_ctrl_input o = None /\ u_rows (g_ctrl_inputs o) = tl (u_rows (g_ctrl_inputs old)) ++ [vzero] /\
  length (u_rows (g_ctrl_inputs old)) = h /\
  (forall k, (1 <= k < h - 1)%nat -> nth_error (g_means o) k = nth_error (g_means old) (S k)) /\
  g_dyn o = g_dyn old /\ g_inv o = g_inv old /\ g_nom o = g_nom old /\
  g_ccv o = tl (g_cgv old) ++ [last (tl (g_cgv old)) (fun _ _ => 0)] /\
  g_cgv o = tl (g_cgv old) ++ [last (tl (g_cgv old)) (fun _ _ => 0)] /\
  g_ccm o = tl (g_ccm old) ++ [last (tl (g_ccm old)) (fun _ _ => 0)] /\
  g_cgm o = tl (g_cgm old) ++ [last (tl (g_cgm old)) (fun _ _ => 0)] /\
  g_ff o = tl (g_ff old) ++ [fun _ _ => 0] /\ g_fb o = tl (g_fb old) ++ [fun _ _ => 0].
Proof.
  unfold matched_obj. remember (skipn 2 (g_means old)) as tail eqn:Et. remember (skipn 1 (u_rows (g_ctrl_inputs old))) as src eqn:Es.
  destruct (negb _) eqn:E1; [easy|]. destruct (negb (length tail =? _)%nat) eqn:E2; [easy|].
  destruct (Nat.ltb_spec h 2) as [|Hh]; [easy|].
  apply negb_false_iff in E1. apply andb_true_iff in E1 as [E1 E1']. apply Nat.eqb_eq in E1.
  apply negb_false_iff in E2. apply Nat.eqb_eq in E2.
  intro H. apply bind_ok in H as [x [Hx H]]. apply bind_ok in H as [u [Hu H]].
  apply bind_ok in H as [ff [H1 H]]. apply bind_ok in H as [fb [H2 H]]. apply bind_ok in H as [ccm [H3 H]].
  apply bind_ok in H as [ccv [H4 H]]. apply bind_ok in H as [cgm [H5 H]]. apply bind_ok in H as [cgv [H6 H]].
  injection H as <-. cbn [g_means g_cov g_w g_ctrl_input g_ctrl_inputs u_rows u_width g_dyn g_inv g_nom g_ccv g_cgv g_ccm g_cgm g_ff g_fb].
  assert (S1 : forall (l : list mat), skipn 1 l = tl l) by now intros [|? ?].
  assert (S2 : forall (l : list vec), skipn 1 l = tl l) by now intros [|? ?].
  assert (SL : forall l r, shift_last l = Ok r -> r = tl l ++ [last (tl l) (fun _ _ => 0)]).
  { intros l r. unfold shift_last. rewrite S1. destruct (tl l); [easy|]. intro H. now injection H as <-. }
  assert (SZ : forall l l' r, shift_zero l l' = Ok r -> r = tl l' ++ [fun _ _ => 0]).
  { intros l l' r. unfold shift_zero. rewrite S1. destruct l; [easy|]. intro H. now injection H as <-. }
  split; [exact Hh|]. split; [cbn [app length]; rewrite app_length; cbn [length]; lia|].
  split; [reflexivity|]. split; [reflexivity|]. split; [reflexivity|]. split; [reflexivity|].
  split; [now rewrite Es, S2|].
  split; [rewrite Es, skipn_length in E1; lia|].
  split.
  { intros [|k] Hk; [lia|]. cbn [app nth_error]. rewrite nth_error_app1 by lia.
    rewrite Et. clear -Hk. destruct (g_means old) as [|a [|b l]]; destruct k; reflexivity. }
  repeat split; try (now apply SL); now apply SZ with (l := g_ff old).
Qed.
End Init.
