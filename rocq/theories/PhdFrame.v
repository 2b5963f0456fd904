(** C203: the PHD filter does not depend on the coordinate frame and the units in
    which states and measurements are written. *)
From Verif Require Import Base RBase RPhdModel RPhdSpec RPhdProofs RPhdProps.
From Coq Require Import Reals Lra Lia List FunctionalExtensionality.
Import ListNotations.
Open Scope R_scope.

(** ** Specification *)
Definition vlinear (A : vec -> vec) : Prop :=
  (forall u v, A (vadd u v) = vadd (A u) (A v)) /\ (forall a v, A (vscale a v) = vscale a (A v)).
Definition mlinear (B : mat -> mat) : Prop :=
  (forall u v, B (madd u v) = madd (B u) (B v)) /\ (forall a v, B (mscale a v) = mscale a (B v)).
Definition map_ok {X Y} (f : X -> Y) (r : result X) : result Y := match r with Ok x => Ok (f x) | Err e => Err e end.

Section Frame.
Context {Meas Meas' : Type}.
(** States are rewritten by [fun m => A m + t], covariances by [B], measurements by
    [fz], likelihoods (densities over measurements) by the factor [k]. *)
Variables (A : vec -> vec) (t : vec) (B : mat -> mat) (fz : Meas -> Meas') (k : R).
Definition fm (m : vec) : vec := vadd (A m) t.
Definition moved_mix (g : gmix) : gmix := {| gm_w := gm_w g; gm_m := map fm (gm_m g); gm_p := map B (gm_p g) |}.
Definition moved_phd (s : phd Meas) : phd Meas' :=
  {| ph_mix := moved_mix (ph_mix s); ph_states := map (map fm) (ph_states s);
     ph_covs := map (map B) (ph_covs s); ph_meas := map (map fz) (ph_meas s) |}.
Definition moved_op (o : op Meas) : op Meas' :=
  match o with Predict => Predict | Correct ms => Correct (map fz ms) | Extract => Extract
  | Cleanup a b c d => Cleanup a b c d end.
(** The same filter set up in the other coordinates: same probabilities, thresholds
    and options; clutter density in the new units; births, inner filter, gate and
    Mahalanobis form rewritten. *)
Record same_filter (c : cfg Meas) (c' : cfg Meas') : Prop := {
  sf_A : vlinear A; sf_B : mlinear B; sf_k : 0 < k;
  sf_pd : c_pd c' = c_pd c; sf_ps : c_ps c' = c_ps c; sf_kappa : c_kappa c' = k * c_kappa c;
  sf_extract : c_extract c' = c_extract c; sf_prune : c_prune c' = c_prune c; sf_merge : c_merge c' = c_merge c;
  sf_max : c_max c' = c_max c; sf_gating : c_gating c' = c_gating c; sf_covs : c_save_covs c' = c_save_covs c;
  sf_birth : c_birth c' = map moved_mix (c_birth c);
  sf_predict : forall m p, fpredict (c_filter c') (fm m) (B p) =
    (fm (fst (fpredict (c_filter c) m p)), B (snd (fpredict (c_filter c) m p)));
  sf_correct : forall z m p, fcorrect (c_filter c') (fz z) (fm m) (B p) =
    let '(m1, p1, q) := fcorrect (c_filter c) z m p in (fm m1, B p1, k * q);
  sf_gate : forall ms g, c_gate c' (map fz ms) (moved_mix g) = map_ok (map fz) (c_gate c ms g);
  sf_inv : forall p, match c_inv c p with
    | Ok ic => exists ic', c_inv c' (B p) = Ok ic' /\ forall d, quad (c_dim c') ic' (A d) = quad (c_dim c) ic d
    | Err e => c_inv c' (B p) = Err e
    end }.

(** ** Proofs *)
Section Proofs.
Variables (c : cfg Meas) (c' : cfg Meas').
Hypothesis H : same_filter c c'.

Lemma mv_app a b : moved_mix (gm_app a b) = gm_app (moved_mix a) (moved_mix b).
Proof. unfold moved_mix, gm_app. cbn [gm_w gm_m gm_p]. rewrite !map_app. reflexivity. Qed.
Lemma mv_pred_density g : predict_density c' (moved_mix g) = moved_mix (predict_density c g).
Proof.
  unfold predict_density, moved_mix. cbn [gm_w gm_m gm_p]. rewrite (sf_ps _ _ H).
  assert (E : map (fun mp => fpredict (c_filter c') (fst mp) (snd mp)) (combine (map fm (gm_m g)) (map B (gm_p g))) =
    map (fun x => (fm (fst x), B (snd x))) (map (fun mp => fpredict (c_filter c) (fst mp) (snd mp)) (combine (gm_m g) (gm_p g)))).
  { generalize (gm_p g). induction (gm_m g) as [|m l IH]; intros [|p p']; try reflexivity. cbn [map combine fst snd]. f_equal; [apply (sf_predict _ _ H)|apply IH]. }
  rewrite E, !map_map. reflexivity.
Qed.
Lemma mv_predict g : predict c' (moved_mix g) = moved_mix (predict c g).
Proof.
  unfold predict. rewrite (sf_birth _ _ H), mv_pred_density. generalize (predict_density c g). induction (c_birth c) as [|b l IH]; intros g0; [reflexivity|].
  cbn [map fold_left]. rewrite <- mv_app. apply IH.
Qed.
Lemma mv_correct_one z w m : forall p, correct_one c' (fz z) w (map fm m) (map B p) =
  map_ok (map (fun x => (fm (fst (fst x)), B (snd (fst x)), k * snd x))) (correct_one c z w m p).
Proof.
  revert w. induction m as [|m0 m IH]; intros w p; [reflexivity|]. destruct p as [|p0 p], w as [|w0 w]; try reflexivity. cbn [map correct_one].
  rewrite (sf_correct _ _ H). destruct (fcorrect (c_filter c) z m0 p0) as [[m1 p1] q]. rewrite IH, (sf_pd _ _ H).
  destruct (correct_one c z w m p) as [r|e]; [|reflexivity]. cbn [bind map_ok map fst snd]. do 3 f_equal. ring.
Qed.
Lemma rsum_factor l : rsum (map (fun x => k * x) l) = k * rsum l.
Proof. induction l as [|x l IH]; [cbn; ring|]. cbn [map]. change (k * x + rsum (map (fun x => k * x) l) = k * (x + rsum l)). rewrite IH. ring. Qed.
Lemma mv_normalise l : normalise (c_kappa c') (map (fun x => k * x) l) = normalise (c_kappa c) l.
Proof.
  pose proof (sf_k _ _ H) as Hk. destruct l as [|x l]; [reflexivity|]. unfold normalise. rewrite rsum_factor, (sf_kappa _ _ H).
  replace (k * c_kappa c + k * rsum (x :: l)) with (k * (c_kappa c + rsum (x :: l))) by ring. set (den := c_kappa c + rsum (x :: l)). cbv zeta. change (map (fun x => k * x) (x :: l)) with (k * x :: map (fun x => k * x) l). cbv iota.
  change (k * x :: map (fun x => k * x) l) with (map (fun x => k * x) (x :: l)).
  destruct (Reqb den 0) eqn:E1, (Reqb (k * den) 0) eqn:E2; try reflexivity.
  - unfold Reqb in *. destruct (Req_EM_T den 0) as [D|]; [|discriminate]. destruct (Req_EM_T (k * den) 0) as [|N]; [discriminate|]. exfalso. apply N. rewrite D. ring.
  - unfold Reqb in *. destruct (Req_EM_T den 0) as [|D]; [discriminate|]. destruct (Req_EM_T (k * den) 0) as [N|]; [|discriminate]. apply Rmult_integral in N as [N|N]; [lra|contradiction].
  - f_equal. rewrite map_map. apply map_ext. intros y. unfold Reqb in E1. destruct (Req_EM_T den 0) as [|D]; [discriminate|]. field. split; [exact D|lra].
Qed.
Lemma mv_correct_density ms g : correct_density c' (map fz ms) (moved_mix g) = map_ok moved_mix (correct_density c ms g).
Proof.
  induction ms as [|z ms IH]; [reflexivity|]. cbn [map correct_density]. rewrite IH. cbn [moved_mix gm_w gm_m gm_p].
  rewrite mv_correct_one. destruct (correct_one c z (gm_w g) (gm_m g) (gm_p g)) as [l|e]; [|reflexivity]. cbn [map_ok bind].
  rewrite !map_map. cbn [fst snd]. rewrite <- (map_map snd (fun x => k * x)), mv_normalise.
  destruct (normalise (c_kappa c) (map snd l)) as [ws|e]; [|reflexivity]. cbn [bind].
  destruct (correct_density c ms g) as [r|e]; [|reflexivity]. cbn [map_ok bind]. rewrite mv_app. unfold moved_mix at 2. cbn [gm_w gm_m gm_p]. rewrite !map_map. reflexivity.
Qed.
Lemma mv_correct ms g : correct c' (map fz ms) (moved_mix g) = map_ok (fun x => (map fz (fst x), moved_mix (snd x))) (correct c ms g).
Proof.
  unfold correct. rewrite (sf_gating _ _ H), (sf_pd _ _ H).
  assert (E : (if c_gating c then c_gate c' (map fz ms) (moved_mix g) else Ok (map fz ms)) = map_ok (map fz) (if c_gating c then c_gate c ms g else Ok ms)).
  { destruct (c_gating c); [apply (sf_gate _ _ H)|reflexivity]. }
  rewrite E. destruct (if c_gating c then c_gate c ms g else Ok ms) as [ms1|e]; [|reflexivity]. cbn [map_ok bind]. rewrite mv_correct_density.
  destruct (correct_density c ms1 g) as [g1|e]; [|reflexivity]. cbn [map_ok bind fst snd]. rewrite mv_app. reflexivity.
Qed.
Lemma mv_del {X Y} (f : X -> Y) idx l : del_idx idx (map f l) = map_ok (map f) (del_idx idx l).
Proof.
  unfold del_idx, keep_idx. rewrite map_length. destruct (forallb (fun i => (i <? length l)%nat) idx); [|reflexivity]. cbn [map_ok]. f_equal.
  generalize (seq 0 (length l)). induction l as [|x l IH]; intros [|n s]; try reflexivity. cbn [map combine filter fst].
  destruct (negb _); cbn [map snd]; rewrite ?IH; reflexivity.
Qed.
Lemma mv_prune g : prune c' (moved_mix g) = map_ok moved_mix (prune c g).
Proof.
  unfold prune. rewrite (sf_prune _ _ H). cbn [moved_mix gm_w gm_m gm_p]. rewrite !mv_del. cbv zeta.
  destruct (del_idx _ (gm_m g)) as [m|e]; [|reflexivity]. cbn [map_ok bind]. destruct (del_idx _ (gm_w g)) as [w|e]; [|reflexivity]. cbn [bind].
  destruct (del_idx _ (gm_p g)) as [p|e]; reflexivity.
Qed.
Lemma mv_cap idx g : cap c' idx (moved_mix g) = map_ok moved_mix (cap c idx g).
Proof.
  unfold cap. rewrite (sf_max _ _ H). cbn [moved_mix gm_w gm_m gm_p]. destruct (c_max c <? length (gm_w g))%nat; [|reflexivity]. rewrite !mv_del. cbv zeta.
  destruct (del_idx _ (gm_m g)) as [m|e]; [|reflexivity]. cbn [map_ok bind]. destruct (del_idx _ (gm_w g)) as [w|e]; [|reflexivity]. cbn [bind].
  destruct (del_idx _ (gm_p g)) as [p|e]; [|reflexivity]. cbn [map_ok bind]. destruct (Reqb (rsum w) 0); reflexivity.
Qed.
Lemma A_zero : A (fun _ => 0) = (fun _ => 0).
Proof.
  destruct (sf_A _ _ H) as [_ S]. pose proof (S 0 (fun _ => 0)) as E. replace (vscale 0 (fun _ => 0)) with (fun _ : nat => 0) in E by (apply functional_extensionality; intros i; unfold vscale; ring).
  rewrite E. apply functional_extensionality. intros i. unfold vscale. ring.
Qed.
Lemma B_zero : B (fun _ _ => 0) = (fun _ _ => 0).
Proof.
  destruct (sf_B _ _ H) as [_ S]. pose proof (S 0 (fun _ _ => 0)) as E. replace (mscale 0 (fun _ _ => 0)) with (fun _ _ : nat => 0) in E by (apply functional_extensionality; intros i; apply functional_extensionality; intros j; unfold mscale; ring).
  rewrite E. apply functional_extensionality; intros i; apply functional_extensionality; intros j. unfold mscale. ring.
Qed.
Lemma A_sub u v : vsub (fm u) (fm v) = A (vsub u v).
Proof.
  destruct (sf_A _ _ H) as [P S]. replace (vsub u v) with (vadd u (vscale (-1) v)) by (apply functional_extensionality; intros i; unfold vsub, vadd, vscale; ring).
  rewrite P, S. apply functional_extensionality; intros i. unfold fm, vsub, vadd, vscale. ring.
Qed.
Lemma A_div v a : vdiv (A v) a = A (vdiv v a).
Proof.
  destruct (sf_A _ _ H) as [P S]. replace (vdiv v a) with (vscale (/ a) v) by (apply functional_extensionality; intros i; unfold vdiv, vscale, Rdiv; ring).
  rewrite S. apply functional_extensionality; intros i. unfold vdiv, vscale, Rdiv. ring.
Qed.
Lemma B_div v a : mdiv (B v) a = B (mdiv v a).
Proof.
  destruct (sf_B _ _ H) as [P S]. replace (mdiv v a) with (mscale (/ a) v) by (apply functional_extensionality; intros i; apply functional_extensionality; intros j; unfold mdiv, mscale, Rdiv; ring).
  rewrite S. apply functional_extensionality; intros i; apply functional_extensionality; intros j. unfold mdiv, mscale, Rdiv. ring.
Qed.
Lemma mv_vsum (wt : nat -> R) (x : nat -> vec) comp : forall acc a,
  fold_left vadd (map (fun i => vscale (wt i) (fm (x i))) comp) (vadd (A acc) (vscale a t)) =
  vadd (A (fold_left vadd (map (fun i => vscale (wt i) (x i)) comp) acc)) (vscale (a + rsum (map wt comp)) t).
Proof.
  destruct (sf_A _ _ H) as [P S]. induction comp as [|i comp IH]; intros acc a.
  - cbn [map fold_left]. apply functional_extensionality; intros j. unfold vadd, vscale. change (rsum []) with 0. ring.
  - cbn [map fold_left].
    replace (vadd (vadd (A acc) (vscale a t)) (vscale (wt i) (fm (x i)))) with (vadd (A (vadd acc (vscale (wt i) (x i)))) (vscale (a + wt i) t)).
    + rewrite IH. f_equal. f_equal. change (rsum (wt i :: map wt comp)) with (wt i + rsum (map wt comp)). ring.
    + rewrite P, S. apply functional_extensionality; intros j. unfold fm, vadd, vscale. ring.
Qed.
Lemma mv_mean (wt : nat -> R) (x : nat -> vec) comp : rsum (map wt comp) <> 0 ->
  vdiv (vsum (map (fun i => vscale (wt i) (fm (x i))) comp)) (rsum (map wt comp)) = fm (vdiv (vsum (map (fun i => vscale (wt i) (x i)) comp)) (rsum (map wt comp))).
Proof.
  intros N. unfold vsum. pose proof (mv_vsum wt x comp (fun _ => 0) 0) as E. rewrite A_zero in E.
  replace (vadd (fun _ : nat => 0) (vscale 0 t)) with (fun _ : nat => 0) in E by (apply functional_extensionality; intros j; unfold vadd, vscale; ring).
  rewrite E. unfold fm. rewrite <- A_div. apply functional_extensionality; intros j. unfold vdiv, vadd, vscale. field. exact N.
Qed.
Lemma mv_msum (wt : nat -> R) (x : nat -> mat) comp : forall acc,
  fold_left madd (map (fun i => mscale (wt i) (B (x i))) comp) (B acc) = B (fold_left madd (map (fun i => mscale (wt i) (x i)) comp) acc).
Proof. destruct (sf_B _ _ H) as [P S]. induction comp as [|i comp IH]; intros acc; [reflexivity|]. cbn [map fold_left]. rewrite <- S, <- P. apply IH. Qed.
Definition mv3 (x : R * vec * mat) : R * vec * mat := (fst (fst x), fm (snd (fst x)), B (snd x)).
Lemma mv_turn g inds ws : (forall i, In i inds -> (i < length (gm_m g))%nat) ->
  merge_turn c' (moved_mix g) inds ws = map_ok (fun x => (mv3 (fst (fst x)), snd (fst x), snd x)) (merge_turn c g inds ws).
Proof.
  intros Hi. unfold merge_turn. destruct (argmax ws) as [jj|e]; [|reflexivity]. cbn [bind]. cbn [moved_mix gm_m gm_p]. rewrite !nth_error_map.
  destruct (nth_error (gm_p g) jj) as [pj|]; [|reflexivity]. destruct (nth_error (gm_m g) jj) as [mj|]; [|reflexivity]. cbn [option_map].
  pose proof (sf_inv _ _ H pj) as V. destruct (c_inv c pj) as [ic|e]; [|rewrite V; reflexivity]. destruct V as (ic' & -> & V). cbn [bind].
  assert (Nm : forall i, In i inds -> nth i (map fm (gm_m g)) (fun _ => 0) = fm (nth i (gm_m g) (fun _ => 0))).
  { intros i Hin. rewrite (nth_indep (map fm (gm_m g)) (fun _ => 0) (fm (fun _ => 0))) by (rewrite map_length; apply Hi, Hin). apply map_nth. }
  assert (Np : forall i, nth i (map B (gm_p g)) (fun _ _ => 0) = B (nth i (gm_p g) (fun _ _ => 0))) by (intros i; rewrite <- B_zero at 1; apply map_nth).
  assert (Ec : filter (fun ii => Rleb (quad (c_dim c') ic' (vsub (nth ii (map fm (gm_m g)) (fun _ => 0)) (fm mj))) (c_merge c')) inds =
    filter (fun ii => Rleb (quad (c_dim c) ic (vsub (nth ii (gm_m g) (fun _ => 0)) mj)) (c_merge c)) inds).
  { apply filter_ext_in. intros i Hin. rewrite (Nm i Hin), A_sub, V, (sf_merge _ _ H). reflexivity. }
  cbv zeta. rewrite Ec. set (comp := filter _ inds).
  destruct (Reqb (rsum (map (fun ii => nth ii ws 0) comp)) 0) eqn:Ez; [reflexivity|]. cbn [map_ok fst snd]. unfold mv3. cbn [fst snd].
  assert (Nz : rsum (map (fun ii => nth ii ws 0) comp) <> 0) by (unfold Reqb in Ez; destruct (Req_EM_T (rsum (map (fun ii => nth ii ws 0) comp)) 0); [discriminate|assumption]).
  rewrite <- (mv_mean (fun ii => nth ii ws 0) (fun ii => nth ii (gm_m g) (fun _ => 0)) comp Nz).
  rewrite <- B_div. unfold msum. pose proof (mv_msum (fun ii => nth ii ws 0) (fun ii => nth ii (gm_p g) (fun _ _ => 0)) comp (fun _ _ => 0)) as Em. rewrite B_zero in Em. rewrite <- Em.
  rewrite (map_ext_in (fun ii => vscale (nth ii ws 0) (nth ii (map fm (gm_m g)) (fun _ => 0))) (fun ii => vscale (nth ii ws 0) (fm (nth ii (gm_m g) (fun _ => 0)))) comp)
    by (intros i Hin; f_equal; apply Nm; unfold comp in Hin; apply filter_In in Hin; tauto).
  rewrite (map_ext (fun ii => mscale (nth ii ws 0) (nth ii (map B (gm_p g)) (fun _ _ => 0))) (fun ii => mscale (nth ii ws 0) (B (nth ii (gm_p g) (fun _ _ => 0)))))
    by (intros i; f_equal; apply Np).
  reflexivity.
Qed.
Lemma turn_inds g inds ws x : merge_turn c g inds ws = Ok x -> incl (snd (fst x)) inds.
Proof.
  unfold merge_turn. intros E. apply bind_ok in E as [jj [_ E]]. destruct (nth_error (gm_p g) jj); [|discriminate]. destruct (nth_error (gm_m g) jj); [|discriminate].
  apply bind_ok in E as [ic [_ E]]. cbv zeta in E. destruct (Reqb _ 0); [discriminate|]. injection E as <-. cbn [fst snd]. intros i Hi. apply filter_In in Hi. tauto.
Qed.
Lemma mv_loop g fuel : forall inds ws, (forall i, In i inds -> (i < length (gm_m g))%nat) ->
  merge_loop c' (moved_mix g) fuel inds ws = map_ok (map mv3) (merge_loop c g fuel inds ws).
Proof.
  induction fuel as [|f IH]; intros inds ws Hi; [destruct inds; reflexivity|]. destruct inds as [|i0 inds]; [reflexivity|]. cbn [merge_loop]. rewrite (mv_turn g (i0 :: inds) ws Hi).
  destruct (merge_turn c g (i0 :: inds) ws) as [[[new i1] w1]|e] eqn:Et; [|reflexivity]. cbn [map_ok bind fst snd].
  rewrite IH by (intros i Hin; apply Hi, (turn_inds _ _ _ _ Et); exact Hin). destruct (merge_loop c g f i1 w1) as [r|e]; reflexivity.
Qed.
Lemma mv_merge g : merge c' (moved_mix g) = map_ok moved_mix (merge c g).
Proof.
  unfold merge, merge_fuel. cbn [moved_mix gm_m gm_w]. rewrite map_length. rewrite mv_loop by (intros i Hi; apply in_seq in Hi; lia).
  destruct (merge_loop c g (length (gm_m g)) (seq 0 (length (gm_m g))) (gm_w g)) as [l|e]; [|reflexivity]. cbn [map_ok bind]. unfold moved_mix. cbn [gm_w gm_m gm_p]. rewrite !map_map. reflexivity.
Qed.
Lemma flat_map_map' {X Y} (f : X -> Y) (h : nat -> list X) l : map f (flat_map h l) = flat_map (fun i => map f (h i)) l.
Proof. induction l as [|x l IH]; [reflexivity|]. cbn [flat_map]. rewrite map_app, IH. reflexivity. Qed.
Lemma flat_map_ext' {X} (f h : nat -> list X) l : (forall i, In i l -> f i = h i) -> flat_map f l = flat_map h l.
Proof. induction l as [|x l IH]; intros E; [reflexivity|]. cbn [flat_map]. rewrite (E x (or_introl eq_refl)), IH; [reflexivity|]. intros i Hi. apply E. right. exact Hi. Qed.
Lemma map_repeat' {X Y} (f : X -> Y) x n : map f (repeat x n) = repeat (f x) n.
Proof. induction n as [|n IH]; [reflexivity|]. cbn. rewrite IH. reflexivity. Qed.
Lemma mv_extract g : extract c' (moved_mix g) = map_ok (fun x => (map fm (fst x), map B (snd x))) (extract c g).
Proof.
  unfold extract. rewrite (sf_extract _ _ H), (sf_covs _ _ H). cbn [moved_mix gm_w gm_m gm_p]. rewrite !map_length. cbv zeta.
  set (inds := filter _ (seq 0 (length (gm_w g)))).
  destruct (forallb (fun i => (i <? length (gm_m g))%nat) inds) eqn:Fm; [|reflexivity].
  destruct (c_save_covs c) eqn:Es; cbn [negb orb andb].
  - destruct (forallb (fun i => (i <? length (gm_p g))%nat) inds); [|reflexivity]. cbn [map_ok fst snd]. do 2 f_equal.
    + rewrite flat_map_map'. apply flat_map_ext'. intros i Hi. rewrite map_repeat'. f_equal. rewrite forallb_forall in Fm. apply Fm, Nat.ltb_lt in Hi.
      rewrite (nth_indep (map fm (gm_m g)) (fun _ => 0) (fm (fun _ => 0))) by (rewrite map_length; exact Hi). apply map_nth.
    + rewrite flat_map_map'. apply flat_map_ext'. intros i Hi. rewrite map_repeat'. f_equal. rewrite <- B_zero at 1. apply map_nth.
  - cbn [map_ok fst snd]. do 2 f_equal.
    rewrite flat_map_map'. apply flat_map_ext'. intros i Hi. rewrite map_repeat'. f_equal. rewrite forallb_forall in Fm. apply Fm, Nat.ltb_lt in Hi.
    rewrite (nth_indep (map fm (gm_m g)) (fun _ => 0) (fm (fun _ => 0))) by (rewrite map_length; exact Hi). apply map_nth.
Qed.
Lemma mv_do_extract s : do_extract c' (moved_phd s) = map_ok moved_phd (do_extract c s).
Proof.
  unfold do_extract. cbn [moved_phd ph_mix ph_states ph_covs ph_meas]. rewrite mv_extract. destruct (extract c (ph_mix s)) as [[sl cl]|e]; [|reflexivity]. cbn [map_ok bind fst snd].
  unfold moved_phd. cbn [ph_mix ph_states ph_covs ph_meas]. rewrite (sf_covs _ _ H). destruct (c_save_covs c); rewrite ?map_app; reflexivity.
Qed.
Lemma mv_cleanup argsort pr ca me ex s : cleanup c' argsort pr ca me ex (moved_phd s) = map_ok moved_phd (cleanup c argsort pr ca me ex s).
Proof.
  unfold cleanup. cbn [moved_phd ph_mix].
  assert (E1 : (if pr then prune c' (moved_mix (ph_mix s)) else Ok (moved_mix (ph_mix s))) = map_ok moved_mix (if pr then prune c (ph_mix s) else Ok (ph_mix s))) by (destruct pr; [apply mv_prune|reflexivity]).
  rewrite E1. destruct (if pr then prune c (ph_mix s) else Ok (ph_mix s)) as [g1|e]; [|reflexivity]. cbn [map_ok bind].
  assert (E2 : (if me then merge c' (moved_mix g1) else Ok (moved_mix g1)) = map_ok moved_mix (if me then merge c g1 else Ok g1)) by (destruct me; [apply mv_merge|reflexivity]).
  rewrite E2. destruct (if me then merge c g1 else Ok g1) as [g2|e]; [|reflexivity]. cbn [map_ok bind].
  assert (E3 : (if ca then cap c' (argsort (gm_w (moved_mix g2))) (moved_mix g2) else Ok (moved_mix g2)) = map_ok moved_mix (if ca then cap c (argsort (gm_w g2)) g2 else Ok g2)) by (destruct ca; [apply mv_cap|reflexivity]).
  rewrite E3. destruct (if ca then cap c (argsort (gm_w g2)) g2 else Ok g2) as [g3|e]; [|reflexivity]. cbn [map_ok bind].
  change (with_mix (moved_phd s) (moved_mix g3)) with (moved_phd (with_mix s g3)). destruct ex; [apply mv_do_extract|reflexivity].
Qed.
Lemma mv_step argsort o s : step c' argsort (moved_op o) (moved_phd s) = map_ok moved_phd (step c argsort o s).
Proof.
  destruct o as [|ms| |pr ca me ex]; cbn [moved_op step].
  - cbn [map_ok moved_phd ph_mix]. rewrite mv_predict. reflexivity.
  - cbn [moved_phd ph_mix ph_states ph_covs ph_meas]. rewrite mv_correct. destruct (correct c ms (ph_mix s)) as [[ms1 g]|e]; [|reflexivity]. cbn [map_ok bind fst snd].
    unfold moved_phd. cbn [ph_mix ph_states ph_covs ph_meas]. rewrite map_app. reflexivity.
  - apply mv_do_extract.
  - apply mv_cleanup.
Qed.
End Proofs.

(** C203: run in the other coordinates on the rewritten measurements, every history
    of calls gives the rewritten mixture, estimates, covariances and stored
    measurements, and raises when (and what) the original run raises. *)
Theorem C203_phd_frame : forall c c' argsort ops s, same_filter c c' ->
  run c' argsort (map moved_op ops) (moved_phd s) = map_ok moved_phd (run c argsort ops s).
Proof.
  intros c c' argsort ops s H. revert s. induction ops as [|o ops IH]; intros s; [reflexivity|]. cbn [map run]. rewrite (mv_step c c' H).
  destruct (step c argsort o s) as [s1|e]; [|reflexivity]. cbn [map_ok bind]. apply IH.
Qed.
End Frame.

(** ** Changes of origin and unit *)
(** States are shifted by [t] and then expressed in units [1/a]: covariances are
    multiplied by [a ^ 2]; the inverse of a scaled matrix is the inverse divided by
    the scale. *)
Lemma unit_vlinear a : vlinear (vscale a).
Proof. split; intros; apply functional_extensionality; intros i; unfold vadd, vscale; ring. Qed.
Lemma unit_mlinear a : mlinear (mscale (a ^ 2)).
Proof. split; intros; apply functional_extensionality; intros i; apply functional_extensionality; intros j; unfold madd, mscale; ring. Qed.
Lemma rsum_scale' {X} k (f : X -> R) l : rsum (map (fun x => k * f x) l) = k * rsum (map f l).
Proof. induction l as [|x l IH]; [cbn; ring|]. cbn [map]. change (k * f x + rsum (map (fun x => k * f x) l) = k * (f x + rsum (map f l))). rewrite IH. ring. Qed.
Theorem C203_unit_quad : forall a n ic d, 0 < a -> quad n (mscale (/ a ^ 2) ic) (vscale a d) = quad n ic d.
Proof.
  intros a n ic d Ha. unfold quad, rsumn_. f_equal. apply map_ext. intros i. unfold mvmul, rsumn_, vscale, mscale.
  rewrite (map_ext (fun j => / a ^ 2 * ic i j * (a * d j)) (fun j => / a * (ic i j * d j))) by (intros j; field; lra).
  rewrite rsum_scale'. field. lra.
Qed.
(** The mixture, options and inner filter [c] rewritten that way, over the same
    measurements with densities in the old unit. *)
Definition in_units {Meas} (a : R) (t : vec) (c : cfg Meas) : cfg Meas :=
  let back m := vscale (/ a) (vsub m t) in
  let backp p := mscale (/ a ^ 2) p in
  {| c_filter := {| fpredict := fun m p => let r := fpredict (c_filter c) (back m) (backp p) in (fm (vscale a) t (fst r), mscale (a ^ 2) (snd r));
                    fcorrect := fun z m p => let '(m1, p1, q) := fcorrect (c_filter c) z (back m) (backp p) in (fm (vscale a) t m1, mscale (a ^ 2) p1, q) |};
     c_pd := c_pd c; c_ps := c_ps c; c_birth := map (moved_mix (vscale a) t (mscale (a ^ 2))) (c_birth c); c_kappa := c_kappa c;
     c_extract := c_extract c; c_prune := c_prune c; c_merge := c_merge c; c_max := c_max c; c_gating := c_gating c; c_save_covs := c_save_covs c;
     c_dim := c_dim c; c_inv := fun p => map_ok (mscale (/ a ^ 2)) (c_inv c (backp p));
     c_gate := fun ms g => c_gate c ms {| gm_w := gm_w g; gm_m := map back (gm_m g); gm_p := map backp (gm_p g) |} |}.
Lemma map_ext_id {X} (f : X -> X) l : (forall x, f x = x) -> map f l = l.
Proof. intros E. induction l as [|x l IH]; [reflexivity|]. cbn [map]. rewrite E, IH. reflexivity. Qed.
Theorem C203_phd_units : forall {Meas} a t (c : cfg Meas) argsort ops s, 0 < a ->
  run (in_units a t c) argsort ops (moved_phd (vscale a) t (mscale (a ^ 2)) (fun z => z) s) =
  map_ok (moved_phd (vscale a) t (mscale (a ^ 2)) (fun z => z)) (run c argsort ops s).
Proof.
  intros Meas a t c argsort ops s Ha.
  assert (Bk : forall m, vscale (/ a) (vsub (fm (vscale a) t m) t) = m) by (intros m; apply functional_extensionality; intros i; unfold fm, vscale, vsub, vadd; field; lra).
  assert (Bp : forall p, mscale (/ a ^ 2) (mscale (a ^ 2) p) = p) by (intros p; apply functional_extensionality; intros i; apply functional_extensionality; intros j; unfold mscale; field; lra).
  rewrite <- (map_id ops) at 1. rewrite (map_ext (fun x => x) (moved_op (fun z : Meas => z))).
  - apply (C203_phd_frame _ _ _ _ 1). constructor; try reflexivity.
    + apply unit_vlinear.
    + apply unit_mlinear.
    + lra.
    + cbn [in_units c_kappa]. ring.
    + intros m p. cbn [in_units c_filter fpredict]. rewrite Bk, Bp. reflexivity.
    + intros z m p. cbn [in_units c_filter fcorrect]. rewrite Bk, Bp. destruct (fcorrect (c_filter c) z m p) as [[m1 p1] q]. rewrite Rmult_1_l. reflexivity.
    + intros ms g. cbn [in_units c_gate moved_mix gm_w gm_m gm_p]. assert (E1 : forall l, map (fun m => vscale (/ a) (vsub m t)) (map (fm (vscale a) t) l) = l) by (intros l; rewrite map_map; apply map_ext_id, Bk).
      assert (E2 : forall l, map (fun p => mscale (/ a ^ 2) p) (map (mscale (a ^ 2)) l) = l) by (intros l; rewrite map_map; apply map_ext_id, Bp).
      rewrite E1, E2, map_id. destruct g as [w m p]. cbn [gm_w gm_m gm_p]. destruct (c_gate c ms {| gm_w := w; gm_m := m; gm_p := p |}); [cbn [map_ok]; rewrite map_id|]; reflexivity.
    + intros p. cbn [in_units c_inv c_dim]. rewrite Bp. destruct (c_inv c p) as [ic|e]; [|reflexivity]. cbn [map_ok]. exists (mscale (/ a ^ 2) ic). split; [reflexivity|]. intros d. apply C203_unit_quad, Ha.
  - intros [|ms| |]; try reflexivity. cbn [moved_op]. rewrite map_id. reflexivity.
Qed.
(** Only the ratio of likelihood and clutter density matters: expressing both per
    another unit of measurement changes nothing. *)
Definition per_unit {Meas} (k : R) (c : cfg Meas) : cfg Meas :=
  {| c_filter := {| fpredict := fpredict (c_filter c);
                    fcorrect := fun z m p => let '(m1, p1, q) := fcorrect (c_filter c) z m p in (m1, p1, k * q) |};
     c_pd := c_pd c; c_ps := c_ps c; c_birth := c_birth c; c_kappa := k * c_kappa c;
     c_extract := c_extract c; c_prune := c_prune c; c_merge := c_merge c; c_max := c_max c; c_gating := c_gating c; c_save_covs := c_save_covs c;
     c_dim := c_dim c; c_inv := c_inv c; c_gate := c_gate c |}.
Theorem C203_density_unit : forall {Meas} k (c : cfg Meas) argsort ops s, 0 < k ->
  run (per_unit k c) argsort ops s = run c argsort ops s.
Proof.
  intros Meas k c argsort ops s Hk. set (A := fun v : vec => v). set (t := (fun _ => 0) : vec). set (B := fun p : mat => p). set (fz := fun z : Meas => z).
  assert (F : forall m, fm A t m = m) by (intros m; apply functional_extensionality; intros i; unfold fm, vadd, A, t; ring).
  assert (Mm : forall g, moved_mix A t B g = g) by (intros [w m p]; unfold moved_mix; cbn [gm_w gm_m gm_p]; rewrite (map_ext_id (fm A t) m F), (map_ext_id B p (fun p => eq_refl)); reflexivity).
  assert (Mp : forall s, moved_phd A t B fz s = s).
  { intros [g st cv ms]. unfold moved_phd. cbn [ph_mix ph_states ph_covs ph_meas]. rewrite Mm.
    rewrite (map_ext_id (map (fm A t)) st (fun l => map_ext_id _ l F)), (map_ext_id (map B) cv (fun l => map_ext_id B l (fun p => eq_refl))), (map_ext_id (map fz) ms (fun l => map_ext_id fz l (fun p => eq_refl))). reflexivity. }
  assert (Mo : forall l, map (moved_op fz) l = l) by (intros l; apply map_ext_id; intros [|ms| |]; try reflexivity; cbn [moved_op]; rewrite (map_ext_id fz ms (fun z => eq_refl)); reflexivity).
  assert (S : same_filter A t B fz k c (per_unit k c)).
  { constructor; try reflexivity; try exact Hk.
    - split; reflexivity.
    - split; reflexivity.
    - cbn [per_unit c_birth]. symmetry. apply map_ext_id, Mm.
    - intros m p. rewrite !F. unfold B. cbn [per_unit c_filter fpredict]. destruct (fpredict (c_filter c) m p); reflexivity.
    - intros z m p. rewrite F. unfold B, fz. cbn [per_unit c_filter fcorrect]. destruct (fcorrect (c_filter c) z m p) as [[m1 p1] q]. rewrite F. reflexivity.
    - intros ms g. rewrite Mm. cbn [per_unit c_gate]. rewrite (map_ext_id fz ms (fun z => eq_refl)). destruct (c_gate c ms g) as [x|e]; [|reflexivity]. cbn [map_ok]. rewrite (map_ext_id fz x (fun z => eq_refl)). reflexivity.
    - intros p. cbn [per_unit c_inv c_dim]. unfold B. destruct (c_inv c p) as [ic|e]; [|reflexivity]. exists ic. split; reflexivity. }
  pose proof (C203_phd_frame A t B fz k c (per_unit k c) argsort ops s S) as E. rewrite Mo, Mp in E. rewrite E.
  destruct (run c argsort ops s) as [x|e]; [|reflexivity]. cbn [map_ok]. rewrite Mp. reflexivity.
Qed.
Print Assumptions C203_density_unit.
(** The filter's own gate (tracker.py:221-272) follows a shift of the origins of
    state space ([t]) and measurement space ([tz]). *)
Theorem C203_gate_shift : forall n d H H' est est' Rcov chol inv gate t tz meas g,
  (forall m, H' (vadd m t) = H m) -> (forall m, est' (vadd m t) = vadd (est m) tz) ->
  gate_meas n d H' est' Rcov chol inv gate (map (fun z => vadd z tz) meas) (moved_mix (fun v => v) t (fun p => p) g) =
  map (fun z => vadd z tz) (gate_meas n d H est Rcov chol inv gate meas g).
Proof.
  intros n d H H' est est' Rcov chol inv gate t tz meas g Hh He. rewrite !C39_gate_filter_real. cbn [moved_mix gm_m gm_p].
  assert (D : forall m p z, gate_dist n d H' est' Rcov chol inv (fm (fun v => v) t m) p (vadd z tz) = gate_dist n d H est Rcov chol inv m p z).
  { intros m p z. unfold gate_dist, meas_pred_cov, fm. rewrite Hh, He.
    replace (vsub (vadd z tz) (vadd (est m) tz)) with (vsub z (est m)) by (apply functional_extensionality; intros i; unfold vsub, vadd; ring). reflexivity. }
  assert (X : forall z, existsb (fun mp => Rltb (gate_dist n d H' est' Rcov chol inv (fst mp) (snd mp) (vadd z tz)) gate) (combine (map (fm (fun v => v) t) (gm_m g)) (map (fun p => p) (gm_p g))) =
    existsb (fun mp => Rltb (gate_dist n d H est Rcov chol inv (fst mp) (snd mp) z) gate) (combine (gm_m g) (gm_p g))).
  { intros z. generalize (gm_p g). induction (gm_m g) as [|m l IH]; intros [|p p']; try reflexivity. cbn [map combine existsb fst snd]. rewrite D, IH. reflexivity. }
  induction meas as [|z meas IH]; [reflexivity|]. cbn [map filter]. rewrite X. destruct (existsb _ (combine (gm_m g) (gm_p g))); cbn [map]; rewrite IH; reflexivity.
Qed.
Print Assumptions C203_gate_shift.
Print Assumptions C203_phd_frame.
Print Assumptions C203_phd_units.
Print Assumptions C203_unit_quad.
