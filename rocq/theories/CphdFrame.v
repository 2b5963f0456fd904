(** C210: the CPHD filter does not depend on the coordinate frame in which states and
    measurements are written, nor on the unit of the densities over measurements. *)
From Verif Require Import Base Lists.
From Coq Require Import Reals Lra Lia List.
From Verif Require Import OspaModel CphdModel CphdSpec.
Import ListNotations.
Open Scope R_scope.

(** ** Specification *)
Definition map_ok {X Y} (f : X -> Y) (r : result X) : result Y := match r with Ok x => Ok (f x) | Err e => Err e end.
Section Frame.
Context {V M Meas V' M' Meas' : Type}.
(** States, covariances and measurements are rewritten by [fV], [fM], [fz]; likelihoods
    and the clutter density are [k] times as large in the new unit. *)
Variables (fV : V -> V') (fM : M -> M') (fz : Meas -> Meas') (k : R).
Definition moved_rmix (g : rmix V M) : rmix V' M' := {| rm_w := rm_w g; rm_m := map fV (rm_m g); rm_p := map fM (rm_p g) |}.
Definition moved_cphd (s : cphd V M Meas) : cphd V' M' Meas' :=
  {| cp_mix := moved_rmix (cp_mix s); cp_card := cp_card s; cp_max := cp_max s; cp_hist := cp_hist s; cp_meas := map (map fz) (cp_meas s);
     cp_states := map (map fV) (cp_states s); cp_covs := map (map fM) (cp_covs s); cp_agents := cp_agents s |}.
Inductive moved_cop : cop V M Meas -> cop V' M' Meas' -> Prop :=
| mo_predict : moved_cop (CPredict) (CPredict)
| mo_correct ms : moved_cop (CCorrect ms) (CCorrect (map fz ms))
| mo_extract : moved_cop (CExtract) (CExtract)
| mo_max x : moved_cop (CSetMax x) (CSetMax x)
| mo_clean f f' : (forall g, f' (moved_rmix g) = map_ok moved_rmix (f g)) -> moved_cop (CClean f) (CClean f').
(** The same filter set up in the other frame. *)
Record same_ccfg (c : ccfg V M Meas) (c' : ccfg V' M' Meas') : Prop := {
  sc_k : 0 < k; sc_ps : k_ps c' = k_ps c; sc_pd : k_pd c' = k_pd c; sc_rate : k_rate c' = k_rate c; sc_den : k_den c' = k * k_den c;
  sc_esf : k_esf c' = k_esf c; sc_gating : k_gating c' = k_gating c; sc_covs : k_save_covs c' = k_save_covs c;
  sc_birth : k_birth c' = map moved_rmix (k_birth c);
  sc_pred : forall m p, k_fpred c' (fV m) (fM p) = (fV (fst (k_fpred c m p)), fM (snd (k_fpred c m p)));
  sc_corr : forall z m p, k_fcorr c' (fz z) (fV m) (fM p) = let '(m1, p1, q) := k_fcorr c z m p in (fV m1, fM p1, k * q);
  sc_gate : forall ms g, k_gate c' (map fz ms) (moved_rmix g) = map_ok (map fz) (k_gate c ms g) }.

(** ** Proofs *)
Section Proofs.
Variables (c : ccfg V M Meas) (c' : ccfg V' M' Meas').
Hypothesis H : same_ccfg c c'.
Lemma mv_app a b : moved_rmix (rm_app a b) = rm_app (moved_rmix a) (moved_rmix b).
Proof. unfold moved_rmix, rm_app. cbn [rm_w rm_m rm_p]. rewrite !map_app. reflexivity. Qed.
Lemma mv_pred g : pred_mix c' (moved_rmix g) = moved_rmix (pred_mix c g).
Proof.
  unfold pred_mix. cbv zeta. rewrite (sc_birth _ _ H), (sc_ps _ _ H). cbn [moved_rmix rm_w rm_m rm_p].
  assert (E : map (fun mp => k_fpred c' (fst mp) (snd mp)) (combine (map fV (rm_m g)) (map fM (rm_p g))) =
    map (fun x => (fV (fst x), fM (snd x))) (map (fun mp => k_fpred c (fst mp) (snd mp)) (combine (rm_m g) (rm_p g)))).
  { generalize (rm_p g). induction (rm_m g) as [|m l IH]; intros [|p p']; try reflexivity. cbn [map combine fst snd]. f_equal; [apply (sc_pred _ _ H)|apply IH]. }
  rewrite E. set (l := map (fun mp => k_fpred c (fst mp) (snd mp)) (combine (rm_m g) (rm_p g))).
  replace (map fst (map (fun x : V * M => (fV (fst x), fM (snd x))) l)) with (map fV (map fst l)) by (rewrite !map_map; reflexivity).
  replace (map snd (map (fun x : V * M => (fV (fst x), fM (snd x))) l)) with (map fM (map snd l)) by (rewrite !map_map; reflexivity).
  change {| rm_w := map (fun x => k_ps c * x) (rm_w g); rm_m := map fV (map fst l); rm_p := map fM (map snd l) |} with (moved_rmix {| rm_w := map (fun x => k_ps c * x) (rm_w g); rm_m := map fst l; rm_p := map snd l |}).
  generalize {| rm_w := map (fun x => k_ps c * x) (rm_w g); rm_m := map fst l; rm_p := map snd l |}.
  induction (k_birth c) as [|b bs IH]; intros g0; [reflexivity|]. cbn [map fold_left]. rewrite <- mv_app. apply IH.
Qed.
Lemma mapM_ext' {A B} (f g : A -> result B) l : (forall x, f x = g x) -> mapM f l = mapM g l.
Proof. intros E. induction l as [|x l IH]; [reflexivity|]. cbn [mapM]. rewrite E, IH. reflexivity. Qed.
Lemma mv_surv mx rho : survive c' mx rho = survive c mx rho.
Proof.
  unfold survive. f_equal. apply mapM_ext'. intros j. unfold sumM. f_equal. apply mapM_ext'. intros i. unfold surv_term, prob_death. rewrite (sc_ps _ _ H). reflexivity.
Qed.
Lemma mv_birth_sum : birth_sum c' = birth_sum c.
Proof. unfold birth_sum. rewrite (sc_birth _ _ H). f_equal. induction (k_birth c) as [|b bs IH]; [reflexivity|]. cbn [map mapM]. rewrite IH. reflexivity. Qed.
Lemma mv_pred_card mx rho : pred_card c' mx rho = pred_card c mx rho.
Proof.
  unfold pred_card. rewrite mv_surv. destruct (survive c mx rho) as [sv|]; [|reflexivity]. cbn [bind]. f_equal. unfold cdn_predict. apply mapM_ext'. intros n.
  unfold sumM. f_equal. apply mapM_ext'. intros j. unfold birth_term. rewrite mv_birth_sum. reflexivity.
Qed.
Lemma mv_predict s : cp_predict c' (moved_cphd s) = map_ok moved_cphd (cp_predict c s).
Proof.
  unfold cp_predict. cbn [moved_cphd cp_mix cp_card cp_max cp_hist cp_meas cp_states cp_covs cp_agents]. rewrite mv_pred_card, mv_pred.
  destruct (pred_card c (cp_max s) (cp_card s)); reflexivity.
Qed.
Notation up3 := (fun x : V * M * R => (fV (fst (fst x)), fM (snd (fst x)), k * snd x)).
Lemma mv_corr_all g z : corr_all c' (moved_rmix g) (fz z) = map up3 (corr_all c g z).
Proof.
  unfold corr_all. cbn [moved_rmix rm_w rm_m rm_p]. generalize (rm_p g). induction (rm_m g) as [|m l IH]; intros [|p p']; try reflexivity.
  cbn [map combine fst snd]. rewrite (sc_corr _ _ H), IH. destruct (k_fcorr c z m p) as [[m1 p1] q]. reflexivity.
Qed.
Lemma mv_ups_term tot u zl es nn jj : ups_term c' tot u zl es nn jj = ups_term c tot u zl es nn jj.
Proof. unfold ups_term, prob_death. rewrite (sc_ps _ _ H), (sc_rate _ _ H). reflexivity. Qed.
Lemma mv_ups0 tot zl es nn : ups0 c' tot zl es nn = ups0 c tot zl es nn.
Proof. unfold ups0, sumM. f_equal. apply mapM_ext'. intros jj. apply mv_ups_term. Qed.
Lemma mv_ups1 tot zl es nn : ups1 c' tot zl es nn = ups1 c tot zl es nn.
Proof. unfold ups1, sumM. f_equal. apply mapM_ext'. intros jj. rewrite mv_ups_term. reflexivity. Qed.
Lemma mv_qz col : qz_of (map up3 col) = map (fun q => k * q) (qz_of col).
Proof. unfold qz_of. rewrite !map_map. reflexivity. Qed.
Lemma dot_scale w q : dot w (map (fun x => k * x) q) = k * dot w q.
Proof.
  unfold dot. revert q. induction w as [|x w IH]; intros [|y q]; cbn [map combine]; try (change (rsum []) with 0; ring).
  change (x * (k * y) + rsum (map (fun p => fst p * snd p) (combine w (map (fun x => k * x) q))) = k * (x * y + rsum (map (fun p => fst p * snd p) (combine w q)))). rewrite IH. ring.
Qed.
Lemma mv_density mx rho ms g : correct_density c' mx rho (map fz ms) (moved_rmix g) = map_ok (fun x => (moved_rmix (fst x), snd x)) (correct_density c mx rho ms g).
Proof.
  pose proof (sc_k _ _ H) as Hk.
  unfold correct_density. cbn [moved_rmix rm_w rm_m rm_p]. rewrite !map_length. destruct (negb _); [reflexivity|]. destruct (rm_m g) as [|m0 ml] eqn:Em; [reflexivity|]. cbn [map]. cbv zeta.
  change (fV m0 :: map fV ml) with (map fV (m0 :: ml)). rewrite <- Em.
  set (tab := map (corr_all c g) ms).
  assert (Et : map (corr_all c' (moved_rmix g)) (map fz ms) = map (map up3) tab).
  { unfold tab. rewrite !map_map. apply map_ext. intros z. apply mv_corr_all. }
  rewrite Et. rewrite (sc_pd _ _ H), (sc_den _ _ H), (sc_esf _ _ H). 
  assert (R1 : k_den c = 0 -> rdiv (k_pd c) (k * k_den c) = Err NanErr /\ rdiv (k_pd c) (k_den c) = Err NanErr).
  { intros D. rewrite D, Rmult_0_r. unfold rdiv. destruct (Req_EM_T 0 0); [auto|contradiction]. }
  assert (R2 : k_den c <> 0 -> rdiv (k_pd c) (k * k_den c) = Ok (k_pd c / (k * k_den c)) /\ rdiv (k_pd c) (k_den c) = Ok (k_pd c / k_den c)).
  { intros D. unfold rdiv. destruct (Req_EM_T (k_den c) 0); [contradiction|]. destruct (Req_EM_T (k * k_den c) 0) as [D'|]; [|auto]. apply Rmult_integral in D' as [D'|D']; [lra|contradiction]. }
  destruct (Req_EM_T (k_den c) 0) as [D|D]; [destruct (R1 D) as [-> ->]; reflexivity|]. destruct (R2 D) as [-> ->]. clear R1 R2.
  cbn [bind].
  assert (Ex : map (fun col => k_pd c / (k * k_den c) * dot (rm_w g) (qz_of col)) (map (map up3) tab) = map (fun col => k_pd c / k_den c * dot (rm_w g) (qz_of col)) tab).
  { rewrite map_map. apply map_ext. intros col. rewrite mv_qz, dot_scale. field. split; [exact D|lra]. }
  rewrite Ex. set (xiv := map (fun col => k_pd c / k_den c * dot (rm_w g) (qz_of col)) tab).
  rewrite (mapM_ext' (ups0 c' _ _ _) (ups0 c (rsum (rm_w g)) (length ms) (k_esf c xiv))) by (intros; apply mv_ups0).
  destruct (mapM (ups0 c _ _ _) _) as [u0|]; [|reflexivity]. cbn [bind].
  rewrite (mapM_ext' (ups1 c' _ _ _) (ups1 c (rsum (rm_w g)) (length ms) (k_esf c xiv))) by (intros; apply mv_ups1).
  destruct (mapM (ups1 c _ _ _) _) as [u1|]; [|reflexivity]. cbn [bind].
  rewrite (mapM_ext' (fun es => mapM (ups1 c' (rsum (rm_w g)) (length ms - 1) es) (range 0 (mx + 1))) (fun es => mapM (ups1 c (rsum (rm_w g)) (length ms - 1) es) (range 0 (mx + 1))))
    by (intros es; apply mapM_ext'; intros; apply mv_ups1).
  destruct (mapM (fun es => mapM _ _) _) as [uD|]; [|reflexivity]. cbn [bind].
  destruct (rdiv (dot u1 rho) (dot u0 rho)) as [r1|]; [|reflexivity]. cbn [bind].
  destruct (mapM (fun col => rdiv _ _) uD) as [rs|]; [|reflexivity]. cbn [bind].
  destruct (normaliseR _) as [rho'|]; [|reflexivity]. cbn [bind map_ok fst snd]. do 2 f_equal. unfold moved_rmix. cbn [rm_w rm_m rm_p]. unfold prob_miss. rewrite (sc_pd _ _ H). f_equal.
  - f_equal. clear Ex Et xiv. generalize rs. induction tab as [|col tab' IH]; intros [|r rs']; try reflexivity. cbn [map combine flat_map fst snd]. rewrite IH. f_equal.
    clear IH. rewrite mv_qz. generalize (qz_of col). induction (rm_w g) as [|x w IHw]; intros [|q l]; try reflexivity. cbn [map combine fst snd]. rewrite IHw. f_equal. field. split; [exact D|lra].
  - rewrite map_app. f_equal. clear. induction tab as [|col tab' IH]; [reflexivity|]. cbn [map flat_map]. rewrite IH, map_app, !map_map. reflexivity.
  - rewrite map_app. f_equal. replace (map (fun x : V' * M' * R => snd (fst x)) (last (map (map up3) tab) [])) with (map fM (map (fun x => snd (fst x)) (last tab []))).
    + generalize (map (fun x : V * M * R => snd (fst x)) (last tab [])). intros cv. clear. induction tab as [|col tab' IH]; [reflexivity|]. cbn [map flat_map]. rewrite IH, map_app. reflexivity.
    + clear. induction tab as [|x [|y tab'] IH]; [reflexivity|cbn [map last]; rewrite !map_map; reflexivity|exact IH].
Qed.
Lemma mv_correct ms s : cp_correct c' (map fz ms) (moved_cphd s) = map_ok moved_cphd (cp_correct c ms s).
Proof.
  unfold cp_correct. cbn [moved_cphd cp_mix cp_card cp_max cp_hist cp_meas cp_states cp_covs cp_agents]. rewrite (sc_gating _ _ H).
  assert (E : (if k_gating c then k_gate c' (map fz ms) (moved_rmix (cp_mix s)) else Ok (map fz ms)) = map_ok (map fz) (if k_gating c then k_gate c ms (cp_mix s) else Ok ms)).
  { destruct (k_gating c); [apply (sc_gate _ _ H)|reflexivity]. }
  rewrite E. destruct (if k_gating c then k_gate c ms (cp_mix s) else Ok ms) as [ms1|]; [|reflexivity]. cbn [map_ok bind]. rewrite mv_density.
  destruct (correct_density c (cp_max s) (cp_card s) ms1 (cp_mix s)) as [[g rho]|]; [|reflexivity]. cbn [map_ok bind fst snd].
  destruct (argmaxR rho) as [h|]; [|reflexivity]. cbn [bind map_ok]. unfold moved_cphd. cbn [cp_mix cp_card cp_max cp_hist cp_meas cp_states cp_covs cp_agents]. rewrite map_app. reflexivity.
Qed.
Lemma mapM_nth_map {X Y} (f : X -> Y) (l : list X) (ps : list (nat * Z)) :
  mapM (fun p => match nth_error (map f l) (fst p) with Some x => Ok x | None => Err IndexErr end) ps =
  map_ok (map f) (mapM (fun p => match nth_error l (fst p) with Some x => Ok x | None => Err IndexErr end) ps).
Proof.
  induction ps as [|p ps IH]; [reflexivity|]. cbn [mapM]. rewrite nth_error_map, IH. clear IH. destruct (nth_error l (fst p)); [|reflexivity]. cbn [option_map bind].
  match goal with |- context [map_ok (map f) ?r] => destruct r end; reflexivity.
Qed.
Lemma mv_extract argsort s : cp_extract c' argsort (moved_cphd s) = map_ok moved_cphd (cp_extract c argsort s).
Proof.
  unfold cp_extract. cbn [moved_cphd cp_mix cp_card cp_max cp_hist cp_meas cp_states cp_covs cp_agents]. cbn [moved_rmix rm_w rm_m rm_p]. rewrite (sc_covs _ _ H).
  destruct (argmaxR (cp_card s)) as [card|]; [|reflexivity]. cbn [bind]. rewrite !mapM_nth_map. set (l := extract_loop _ _ _ _).
  destruct (mapM _ l) as [st|]; [|reflexivity]. cbn [map_ok bind]. destruct (k_save_covs c).
  - destruct (mapM _ l) as [cv|]; [|reflexivity]. cbn [map_ok bind]. unfold moved_cphd. cbn [cp_mix cp_card cp_max cp_hist cp_meas cp_states cp_covs cp_agents]. rewrite !map_app. reflexivity.
  - cbn [map_ok bind]. unfold moved_cphd. cbn [cp_mix cp_card cp_max cp_hist cp_meas cp_states cp_covs cp_agents]. rewrite !map_app. reflexivity.
Qed.
Lemma mv_step argsort o o' s : moved_cop o o' -> cstep c' argsort o' (moved_cphd s) = map_ok moved_cphd (cstep c argsort o s).
Proof.
  intros [ | | | |f f' Hf]; cbn [cstep].
  - apply mv_predict.
  - apply mv_correct.
  - apply mv_extract.
  - reflexivity.
  - cbn [moved_cphd cp_mix]. rewrite Hf. destruct (f (cp_mix s)); reflexivity.
Qed.
End Proofs.

(** C210: any history of calls in the other frame gives the rewritten filter: same
    weights, cardinality distribution, number of agents; rewritten mixture, estimates,
    covariances and stored measurements; or the same exception. *)
Theorem C210_cphd_frame : forall c c' argsort os os' s, same_ccfg c c' -> Forall2 moved_cop os os' ->
  crun c' argsort os' (moved_cphd s) = map_ok moved_cphd (crun c argsort os s).
Proof.
  intros c c' argsort os os' s H F. revert s. induction F as [|o o' os os' Ho F IH]; intros s; [reflexivity|]. cbn [crun].
  rewrite (mv_step c c' H argsort o o' s Ho). destruct (cstep c argsort o s) as [s1|]; [|reflexivity]. cbn [map_ok bind]. apply IH.
Qed.
End Frame.

(** Only the ratio of likelihood and clutter density matters: expressing both per
    another unit of measurement changes nothing at all. *)
Definition per_unit {V M Meas} (k : R) (c : ccfg V M Meas) : ccfg V M Meas :=
  {| k_fpred := k_fpred c; k_fcorr := fun z m p => let '(m1, p1, q) := k_fcorr c z m p in (m1, p1, k * q);
     k_ps := k_ps c; k_pd := k_pd c; k_birth := k_birth c; k_rate := k_rate c; k_den := k * k_den c; k_esf := k_esf c;
     k_gating := k_gating c; k_gate := k_gate c; k_save_covs := k_save_covs c |}.
Theorem C210_density_unit : forall {V M Meas} k (c : ccfg V M Meas) argsort os s, 0 < k ->
  crun (per_unit k c) argsort os s = crun c argsort os s.
Proof.
  intros V M Meas k c argsort os s Hk. set (iV := fun v : V => v). set (iM := fun p : M => p). set (iz := fun z : Meas => z).
  assert (Mm : forall g, moved_rmix iV iM g = g) by (intros [w m p]; unfold moved_rmix; cbn [rm_w rm_m rm_p]; unfold iV, iM; rewrite !map_id; reflexivity).
  assert (Id : forall {X} (l : list (list X)), map (map (fun x => x)) l = l) by (intros X l; rewrite (map_ext _ (fun x => x)) by (intros; apply map_id); apply map_id).
  assert (Mp : forall s0, moved_cphd iV iM iz s0 = s0) by (intros [g a b h ms st cv ag]; unfold moved_cphd; cbn [cp_mix cp_card cp_max cp_hist cp_meas cp_states cp_covs cp_agents]; rewrite Mm; unfold iV, iM, iz; rewrite !Id; reflexivity).
  assert (Mok : forall r, map_ok (moved_rmix iV iM) r = r) by (intros [g|e]; cbn [map_ok]; rewrite ?Mm; reflexivity).
  assert (Mo : Forall2 (moved_cop iV iM iz) os os).
  { induction os as [|o os IH]; constructor; [|exact IH]. destruct o as [|ms| |x|f]; try constructor.
    - pose proof (mo_correct iV iM iz ms) as K. replace (map iz ms) with ms in K by (symmetry; apply map_id). exact K.
    - intros g. rewrite Mm, Mok. reflexivity. }
  assert (S : same_ccfg iV iM iz k c (per_unit k c)).
  { constructor; try reflexivity; try exact Hk.
    - cbn [per_unit k_birth]. rewrite (map_ext _ (fun g => g) Mm). symmetry. apply map_id.
    - intros m p. cbn [per_unit k_fpred]. unfold iV, iM. destruct (k_fpred c m p); reflexivity.
    - intros ms g. rewrite Mm. cbn [per_unit k_gate]. unfold iz. rewrite map_id. destruct (k_gate c ms g); cbn [map_ok]; rewrite ?map_id; reflexivity. }
  pose proof (C210_cphd_frame iV iM iz k c (per_unit k c) argsort os os s S Mo) as E. rewrite Mp in E. rewrite E.
  destruct (crun c argsort os s); cbn [map_ok]; rewrite ?Mp; reflexivity.
Qed.
Print Assumptions C210_cphd_frame.
Print Assumptions C210_density_unit.

(** The hypotheses are met: targets on a line, written in metres ([a = 1]) and in units
    [a] times smaller; densities over measurements are then [1 / a] times as large. *)
Definition line_ccfg (a : R) : ccfg R R R :=
  {| k_fpred := fun m p => (m + a, p + a * a); k_fcorr := fun z m p => ((m + z) / 2, p / 2, / a * exp (- ((z - m) / a * ((z - m) / a))));
     k_ps := 1 / 2; k_pd := 9 / 10; k_birth := [{| rm_w := [1]; rm_m := [a * 3]; rm_p := [a * a * 4] |}]; k_rate := 1; k_den := / a * (1 / 10);
     k_esf := fun l => 1 :: l; k_gating := false; k_gate := fun ms _ => Ok ms; k_save_covs := true |}.
Definition heaviest_two (g : rmix R R) : result (rmix R R) :=
  Ok {| rm_w := firstn 2 (rm_w g); rm_m := firstn 2 (rm_m g); rm_p := firstn 2 (rm_p g) |}.
Example C210_instance : forall a, 0 < a ->
  same_ccfg (fun x => a * x) (fun p => a * a * p) (fun z => a * z) (/ a) (line_ccfg 1) (line_ccfg a) /\
  Forall2 (moved_cop (fun x => a * x) (fun p => a * a * p) (fun z => a * z))
    [CPredict; CCorrect [2; 5]; CClean heaviest_two; CExtract] [CPredict; CCorrect [a * 2; a * 5]; CClean heaviest_two; CExtract].
Proof.
  intros a Ha. split.
  - constructor; try reflexivity.
    + apply Rinv_0_lt_compat, Ha.
    + cbn [line_ccfg k_den]. field. lra.
    + cbn [line_ccfg k_birth map moved_rmix rm_w rm_m rm_p]. unfold moved_rmix. cbn [rm_w rm_m rm_p map]. repeat f_equal; ring.
    + intros m p. cbn [line_ccfg k_fpred fst snd]. f_equal; ring.
    + intros z m p. cbn [line_ccfg k_fcorr]. f_equal; [f_equal; field|]. rewrite Rinv_1, Rmult_1_l. f_equal. f_equal. field. lra.
  - constructor; [constructor|]. constructor; [exact (mo_correct _ _ _ [2; 5])|]. constructor; [|constructor; [constructor|constructor]].
    constructor. intros g. unfold heaviest_two. cbn [map_ok]. unfold moved_rmix. cbn [rm_w rm_m rm_p]. rewrite !firstn_map. reflexivity.
Qed.
