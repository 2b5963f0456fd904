(** The controller's main loop: C146-C152. *)
From Verif Require Import Base Lists.
From Coq Require Import Reals Lra.
From Verif Require Import OspaModel OspaProofs GuidModel GuidSpec GuidProofs GuidProps ElqrModel ElqrSpec ElqrProofs ElqrInit.
Open Scope R_scope.

Section T.
Variables (dim : nat) (pdf : vec -> vec -> mat -> R) (inv : mat -> mat) (det : mat -> R) (chi2_ppf : R -> nat -> R).
Variables (h max_iters : nat) (cost_tol thresh safety y_ref : R) (tg : gmx) (fwd bwd : pass_in -> result pass_out).
Variables (qfinal : vec -> vec -> option vec -> result (mat * mat)) (fcost : vec -> option vec -> R).
Variables (gs : list gobj) (mg : gmx) (dyn invd : list (list dynf)) (nin : list nat) (nom : option (list vec)) (nomr : list nat).
Notation ITERATE := (iterate dim pdf inv det chi2_ppf h max_iters cost_tol thresh safety y_ref tg fwd bwd qfinal fcost gs mg dyn invd nin nom nomr).
(** What a caller has to provide. *)
Definition good_call : Prop :=
  pass_answers fwd /\ pass_answers bwd /\ final_answers qfinal /\ good_targets tg /\
  good_measurement dim mg dyn invd nin /\ no_match dim inv (chi2_ppf thresh dim) gs mg /\
  match nom with None => True | Some l => length l = length nin /\ nomr = nin end.
(** Either all Gaussians have as many inputs as the first one, or just one. *)
Definition inputs_fit : Prop := forall n, In n nin -> n = hd 0%nat nin \/ n = 1%nat.

Lemma loop_of_call : good_call -> t_m mg <> [] ->
  ITERATE = if (2 <=? h)%nat then iter_loop dim pdf inv det h cost_tol safety y_ref tg fwd bwd qfinal fcost max_iters None
                 (map (eobj_at h mg dyn invd nin nom) (seq 0 (length (t_m mg)))) (t_m mg) else Err IndexErr.
Proof.
  intros [_ [_ [_ [_ [G [N M]]]]]] Hne. apply iterate_setup; try assumption.
  - destruct nom; [apply M|exact I].
  - intro Hnn. destruct nom; [apply M|easy].
Qed.
Let ds := map (desc_at mg dyn invd nin) (seq 0 (length (t_m mg))).
Lemma ds_cons : t_m mg <> [] -> length nin = length (t_m mg) -> exists d0 ds', ds = d0 :: ds' /\ d_w d0 = hd 0%nat nin /\ forall d, In d ds -> In (d_w d) nin.
Proof.
  intros Hne Hl. unfold ds. destruct (t_m mg) as [|m ms] eqn:E; [easy|]. cbn [length seq map]. eexists _, _. split; [reflexivity|]. cbn [desc_at d_w]. split; [now destruct nin|].
  intros d Hd. assert (Hd' : In d (map (desc_at mg dyn invd nin) (seq 0 (S (length ms))))) by exact Hd.
  apply in_map_iff in Hd' as [i [<- Hi]]. apply in_seq in Hi. cbn [desc_at d_w]. apply nth_In. rewrite Hl. cbn [length]. lia.
Qed.
Lemma ds_inputs n : length nin = length (t_m mg) -> In n nin -> exists d, In d ds /\ d_w d = n.
Proof.
  intros Hl Hn. apply (In_nth nin n 0%nat) in Hn as [i [Hi En]]. exists (desc_at mg dyn invd nin i). split; [|exact En].
  unfold ds. apply in_map. apply in_seq. lia.
Qed.
(** One turn of the loop, for fitting inputs. *)
Lemma turn_ok : good_call -> (2 <= h)%nat -> t_m mg <> [] -> inputs_fit -> forall es xs, Forall2 (wfe h []) ds es -> length xs = length (t_m mg) ->
  exists es' c xs', sweep dim pdf inv det h safety y_ref tg fwd bwd qfinal fcost es xs = Ok (es', (c, xs')) /\ Forall2 (wfe h []) ds es' /\ length xs' = length (t_m mg) /\
   (Forall2 (wfe h (seq 0 (h - 1))) ds es' /\ passes dim inv h tg fwd bwd qfinal es xs = Ok es' /\ trajectory_cost dim pdf inv det h safety y_ref tg fcost es' xs = Ok (c, xs') /\ length xs = length (t_m mg)).
Proof.
  intros [F1 [F2 [F3 [F4 [G [N M]]]]]] Hh Hne Hin es xs Hes Hx.
  assert (Hle : length es = length (t_m mg)) by (rewrite <- (F2_len _ _ _ Hes); unfold ds; now rewrite map_length, seq_length).
  destruct (passes_ok dim inv h tg fwd bwd qfinal F1 F2 F3 Hh ds es xs Hes) as [es' [Hp Hes']]; [congruence| |].
  { intros d Hd. now apply (desc_small dim mg dyn invd nin G d Hd). }
  assert (Hle' : length es' = length (t_m mg)) by (rewrite <- (F2_len _ _ _ Hes'), (F2_len _ _ _ Hes); exact Hle).
  destruct (ds_cons Hne) as [d0 [ds' [Eds [Ew Hw]]]]; [apply G|].
  destruct (cost_total dim pdf inv det h safety y_ref tg fcost F4 Hh ds' d0 es' xs) as [c [ys [Hc Hy]]].
  { now rewrite <- Eds. } { congruence. }
  { rewrite <- Eds. intros d Hd. split; [now apply (desc_small dim mg dyn invd nin G d Hd)|]. rewrite Ew. apply Hin. now apply Hw. }
  exists es', c, ys. rewrite sweep_passes, Hp. cbn [bind]. rewrite Hc. cbn [bind]. split; [reflexivity|]. split; [|split; [congruence|]].
  - eapply F2_impl; [|exact Hes']. intros d e He. eapply wfe_mono; [|exact He]. easy.
  - now repeat split.
Qed.

(** C146.  A call with at least one measured Gaussian returns; it takes at most
    max_iters turns, goes on as long as the cost has not settled, and stops as
    soon as it has; every measured Gaussian keeps its covariance, weight and
    dynamics and has a trajectory and controls over the whole horizon. *)
Theorem C146_iterate_returns : good_call -> inputs_fit -> (2 <= h)%nat -> t_m mg <> [] ->
  exists es tr, ITERATE = Ok (es, tr) /\
    (length tr <= max_iters)%nat /\
    (forall k, (S k < length tr)%nat -> ~ settled cost_tol (map s_cost tr) k) /\
    ((length tr < max_iters)%nat -> settled cost_tol (map s_cost tr) (length tr - 1)) /\
    length es = length (t_m mg) /\
    forall i e, nth_error es i = Some e ->
      nth_error (t_p mg) i = Some (g_cov (e_obj e)) /\ nth_error (t_w mg) i = Some (g_w (e_obj e)) /\ nth_error dyn i = Some (g_dyn (e_obj e)) /\
      length (g_means (e_obj e)) = h /\ exists u, g_ctrl_input (e_obj e) = Some u /\ length (u_rows u) = h /\ nth_error nin i = Some (u_width u).
Proof.
  intros Hc Hin Hh Hne. rewrite (loop_of_call Hc Hne). destruct (Nat.leb_spec 2 h) as [_|N]; [|lia].
  destruct (loop_total dim pdf inv det h cost_tol safety y_ref tg fwd bwd qfinal fcost ds (length (t_m mg)) (fun _ => True)) with
    (m := max_iters) (old := @None R) (es := map (eobj_at h mg dyn invd nin nom) (seq 0 (length (t_m mg)))) (xs := t_m mg) as [es [tr [E [Hes _]]]].
  { intros es xs H1 H2. destruct (turn_ok Hc Hh Hne Hin es xs H1 H2) as [es' [c [xs' [T1 [T2 [T3 _]]]]]]. exists es', c, xs'. now repeat split. }
  { apply setup_wfe. } { reflexivity. }
  exists es, tr. split; [exact E|]. apply loop_shape in E as [L1 [L2 [L3 _]]]; [|exact Hh]. split; [exact L1|]. split; [exact L2|]. split; [exact L3|].
  split; [rewrite <- (F2_len _ _ _ Hes); unfold ds; now rewrite map_length, seq_length|].
  intros i e He.
  assert (Hd : nth_error ds i = Some (desc_at mg dyn invd nin i) /\ wfe h [] (desc_at mg dyn invd nin i) e /\ (i < length (t_m mg))%nat).
  { assert (Hi : (i < length (t_m mg))%nat).
    { assert (Hi : (i < length es)%nat) by (apply nth_error_Some; congruence). rewrite <- (F2_len _ _ _ Hes) in Hi. unfold ds in Hi. now rewrite map_length, seq_length in Hi. }
    assert (Ed : nth_error ds i = Some (desc_at mg dyn invd nin i)).
    { unfold ds. rewrite nth_error_map. rewrite nth_error_nth' with (d := 0%nat) by now rewrite seq_length. now rewrite seq_nth. }
    split; [exact Ed|]. split; [|exact Hi]. clear - Hes Ed He. revert i Ed He.
    assert (G : forall ds es, Forall2 (wfe h []) ds es -> forall i d, nth_error ds i = Some d -> nth_error es i = Some e -> wfe h [] d e).
    { induction 1 as [|d e0 D E H0 _ IH]; intros [|i] dd H1 H2; cbn in *; try easy; [injection H1 as <-; injection H2 as <-; exact H0|now apply IH with (i := i)]. }
    intros i Ed He. exact (G _ _ Hes i _ Ed He). }
  destruct Hd as [_ [W Hi]]. destruct Hc as [_ [_ [_ [_ [[G1 [G2 [G3 [G4 [G5 _]]]]] _]]]]].
  rewrite (W_s1 _ _ _ _ W), (W_s2 _ _ _ _ W), (W_s3 _ _ _ _ W), (W_m _ _ _ _ W). cbn [desc_at d_cov d_wt d_dyn].
  repeat split; try (apply nth_error_nth'; lia).
  destruct (W_u _ _ _ _ W) as [u [u1 [u2 u3]]]. exists u. repeat split; try assumption. rewrite u3. cbn [desc_at d_w]. apply nth_error_nth'. lia.
Qed.

(** An empty measurement: the controller is emptied and the call returns. *)
Theorem C146_empty_measurement : t_m mg = [] -> ITERATE = Ok ([], []).
Proof. intro E. unfold iterate, initialize. rewrite E. reflexivity. Qed.

(** C147, REFUTED: Gaussians with different numbers of control inputs.  The call
    raises as soon as one Gaussian has neither one input nor as many as the
    first Gaussian. *)
Theorem C147_different_inputs_refuted : good_call -> (2 <= h)%nat -> (1 <= max_iters)%nat -> t_m mg <> [] ->
  (exists n, In n nin /\ n <> hd 0%nat nin /\ n <> 1%nat) -> ITERATE = Err ValueErr.
Proof.
  intros Hc Hh Hm Hne [n [Hn [N1 N2]]]. rewrite (loop_of_call Hc Hne). destruct (Nat.leb_spec 2 h) as [_|N]; [|lia].
  destruct Hc as [F1 [F2 [F3 [F4 [G [_ _]]]]]]. destruct max_iters as [|m] eqn:Em; [lia|]. cbn [iter_loop].
  destruct (passes_ok dim inv h tg fwd bwd qfinal F1 F2 F3 Hh ds (map (eobj_at h mg dyn invd nin nom) (seq 0 (length (t_m mg)))) (t_m mg)) as [es' [Hp Hes']].
  { apply setup_wfe. } { now rewrite map_length, seq_length. } { intros d Hd. now apply (desc_small dim mg dyn invd nin G d Hd). }
  destruct (ds_cons Hne) as [d0 [ds' [Eds [Ew Hw]]]]; [apply G|].
  rewrite sweep_passes, Hp. cbn [bind]. rewrite (cost_mismatch dim pdf inv det h safety y_ref tg fcost F4 Hh ds' d0); [reflexivity| | | |].
  - now rewrite <- Eds.
  - rewrite <- (F2_len _ _ _ Hes'). unfold ds. now rewrite map_length, seq_length.
  - rewrite <- Eds. intros d Hd. now apply (desc_small dim mg dyn invd nin G d Hd).
  - rewrite <- Eds. destruct (ds_inputs n) as [d [D1 D2]]; [apply G|exact Hn|]. exists d. split; [exact D1|]. rewrite D2, Ew. now split.
Qed.
Theorem C147_inputs_iff_partial : good_call -> (2 <= h)%nat -> (1 <= max_iters)%nat -> t_m mg <> [] ->
  ((exists r, ITERATE = Ok r) <-> inputs_fit).
Proof.
  intros Hc Hh Hm Hne. split.
  - intros [r Hr] n Hn. destruct (Nat.eq_dec n (hd 0%nat nin)) as [E|N1]; [now left|]. destruct (Nat.eq_dec n 1) as [E|N2]; [now right|].
    rewrite C147_different_inputs_refuted in Hr; try assumption; [easy|]. now exists n.
  - intro Hf. destruct (C146_iterate_returns Hc Hf Hh Hne) as [es [tr [E _]]]. now exists (es, tr).
Qed.

(** C148, REFUTED: a horizon of one step.  Whatever is measured, the call
    raises. *)
Theorem C148_horizon_one_refuted : good_call -> h = 1%nat -> t_m mg <> [] -> ITERATE = Err IndexErr.
Proof. intros Hc E Hne. rewrite (loop_of_call Hc Hne). now rewrite E. Qed.

(** C150, what does hold: the first turn starts from the measured means, and the
    cost of every turn is the cost of following the law the turn produced from
    the turn's start states. *)
Theorem C150_turn_costs_partial : good_call -> (2 <= h)%nat -> t_m mg <> [] -> (forall n, In n nin -> n = hd 0%nat nin) ->
  forall es tr, ITERATE = Ok (es, tr) ->
  (forall r, nth_error tr 0 = Some r -> s_start r = t_m mg) /\
  (forall k r r', nth_error tr k = Some r -> nth_error tr (S k) = Some r' -> s_start r' = closed_loop dim (s_objs r) (s_start r) (h - 1)) /\
  (forall k r, nth_error tr k = Some r -> exists stage : nat -> R,
     (forall j, (j < h - 1)%nat -> density_based_cost dim pdf inv det safety y_ref tg (closed_loop dim (s_objs r) (s_start r) j) (t_w mg) (t_p mg) = Ok (stage j)) /\
     s_cost r = rsum (map stage (seq 0 (h - 1))) + rsum (map (fun x => fcost x (find_nearest_target dim (t_m tg) x)) (closed_loop dim (s_objs r) (s_start r) (h - 1)))) /\
  (forall r, nth_error tr (length tr - 1) = Some r -> s_objs r = es) /\
  forall k r, nth_error tr k = Some r -> length (s_objs r) = length (t_m mg) /\ forall i, (i < length (t_m mg))%nat -> nth_error dyn i = Some (dyn_of (s_objs r) i).
Proof.
  intros Hc Hh Hne Hin es tr. rewrite (loop_of_call Hc Hne). destruct (Nat.leb_spec 2 h) as [_|N]; [|lia]. intro E.
  assert (Hfit : inputs_fit) by (intros n Hn; left; now apply Hin).
  set (Pr := fun r : sweep_rec => length (s_start r) = length (t_m mg) /\ Forall2 (wfe h (seq 0 (h - 1))) ds (s_objs r) /\
       trajectory_cost dim pdf inv det h safety y_ref tg fcost (s_objs r) (s_start r) = Ok (s_cost r, s_end r)).
  assert (HP : Forall Pr tr).
  { destruct (loop_total dim pdf inv det h cost_tol safety y_ref tg fwd bwd qfinal fcost ds (length (t_m mg)) Pr) with
    (m := max_iters) (old := @None R) (es := map (eobj_at h mg dyn invd nin nom) (seq 0 (length (t_m mg)))) (xs := t_m mg) as [es1 [tr1 [E1 [_ HP]]]].
    { intros es0 xs H1 H2. destruct (turn_ok Hc Hh Hne Hfit es0 xs H1 H2) as [es' [c [xs' [T1 [T2 [T3 [T4 [T5 [T6 T7]]]]]]]]]. exists es', c, xs'.
      split; [exact T1|]. split; [exact T2|]. split; [exact T3|]. now repeat split. }
    { apply setup_wfe. } { reflexivity. }
    rewrite E in E1. injection E1 as <- <-. exact HP. }
  apply loop_shape in E as [L1 [L2 [L3 [L4 [L5 L6]]]]]; [|exact Hh].
  destruct (ds_cons Hne) as [d0 [ds' [Eds [Ew Hw]]]]; [apply Hc|].
  assert (HG : good_measurement dim mg dyn invd nin) by apply Hc.
  assert (Hcl : forall r, Pr r -> s_end r = closed_loop dim (s_objs r) (s_start r) (h - 1) /\ exists stage : nat -> R,
     (forall j, (j < h - 1)%nat -> density_based_cost dim pdf inv det safety y_ref tg (closed_loop dim (s_objs r) (s_start r) j) (t_w mg) (t_p mg) = Ok (stage j)) /\
     s_cost r = rsum (map stage (seq 0 (h - 1))) + rsum (map (fun x => fcost x (find_nearest_target dim (t_m tg) x)) (closed_loop dim (s_objs r) (s_start r) (h - 1)))).
  { intros r [P1 [P2 P3]].
    assert (Hlen : length (s_objs r) = length (t_m mg)) by (rewrite <- (F2_len _ _ _ P2); unfold ds; now rewrite map_length, seq_length).
    destruct (cost_closed_loop dim pdf inv det h safety y_ref tg fcost (proj1 (proj2 (proj2 (proj2 Hc)))) Hh ds' d0 (s_objs r) (s_start r)) as [g [Hg HT]].
    { now rewrite <- Eds. } { congruence. }
    { rewrite <- Eds. intros d Hd. split; [now apply (desc_small dim mg dyn invd nin HG d Hd)|]. rewrite Ew. apply Hin. now apply Hw. }
    rewrite P3 in HT. injection HT as Hc1 Hc2. split; [exact Hc2|]. exists g. split; [|exact Hc1].
    assert (Ews : map (fun e => g_w (e_obj e)) (s_objs r) = t_w mg /\ map (fun e => g_cov (e_obj e)) (s_objs r) = t_p mg).
    { assert (HH : forall D S, Forall2 (wfe h (seq 0 (h - 1))) D S -> map (fun e => g_w (e_obj e)) S = map d_wt D /\ map (fun e => g_cov (e_obj e)) S = map d_cov D).
      { clear. induction 1 as [|d e D S He _ [IH1 IH2]]; [easy|]. cbn [map]. now rewrite IH1, IH2, (W_s1 _ _ _ _ He), (W_s2 _ _ _ _ He). }
      destruct (HH _ _ P2) as [H1 H2]. rewrite H1, H2. unfold ds. rewrite !map_map. cbn [desc_at d_wt d_cov].
      destruct HG as [G1 [G2 _]]. split; [rewrite <- G2|rewrite <- G1]; apply map_nth_seq. }
    destruct Ews as [E1 E2]. rewrite <- E1, <- E2. exact Hg. }
  split; [|split; [|split; [|split]]].
  - intros r Hr. destruct tr as [|r0 tr]; [easy|]. injection Hr as <-. apply L4.
  - intros k r r' Hk Hk'. rewrite Forall_forall in HP. destruct (Hcl r) as [<- _]; [apply HP; now apply nth_error_In in Hk|].
    clear - L4 Hk Hk'. revert k Hk Hk' L4. generalize (t_m mg) as xs.
    induction tr as [|r0 tr IH]; intros xs [|k] Hk Hk' L4; try easy; cbn [nth_error chained] in *.
    + injection Hk as ->. destruct tr as [|r1 tr]; [easy|]. injection Hk' as ->. apply L4.
    + now apply (IH (s_end r0) k).
  - intros k r Hk. apply Hcl. rewrite Forall_forall in HP. apply HP. now apply nth_error_In in Hk.
  - intros r Hr. destruct tr as [|r0 tr0]; [easy|]. rewrite (L6 r ltac:(easy)). set (tr := r0 :: tr0) in *.
    symmetry. f_equal. clear - Hr. assert (Ht : tr <> []) by easy. clearbody tr.
    rewrite (app_removelast_last r Ht) in Hr. rewrite app_length in Hr. cbn [length] in Hr. rewrite Nat.add_sub in Hr.
    rewrite nth_error_app2, Nat.sub_diag in Hr by lia. now injection Hr.
  - intros k r Hk. rewrite Forall_forall in HP. destruct (HP r) as [_ [P2 _]]; [now apply nth_error_In in Hk|].
    assert (Hlen : length (s_objs r) = length (t_m mg)) by (rewrite <- (F2_len _ _ _ P2); unfold ds; now rewrite map_length, seq_length).
    split; [exact Hlen|]. intros i Hi. unfold dyn_of. destruct (nth_error (s_objs r) i) as [e|] eqn:Ee; [|apply nth_error_None in Ee; lia].
    assert (W : wfe h (seq 0 (h - 1)) (desc_at mg dyn invd nin i) e).
    { assert (Ed : nth_error ds i = Some (desc_at mg dyn invd nin i)).
      { unfold ds. rewrite nth_error_map. rewrite nth_error_nth' with (d := 0%nat) by now rewrite seq_length. now rewrite seq_nth. }
      assert (G : forall D S, Forall2 (wfe h (seq 0 (h - 1))) D S -> forall i d, nth_error D i = Some d -> nth_error S i = Some e -> wfe h (seq 0 (h - 1)) d e).
      { clear. induction 1 as [|d e0 D S H0 _ IH]; intros [|i] dd H1 H2; cbn in *; try easy; [injection H1 as <-; injection H2 as <-; exact H0|now apply IH with (i := i)]. }
      exact (G _ _ P2 i _ Ed Ee). }
    rewrite (W_s3 _ _ _ _ W). cbn [desc_at d_dyn]. apply nth_error_nth'. destruct HG as [_ [_ [G3 _]]]. lia.
Qed.
End T.

(** C149, REFUTED: calling iterate again.  After a first call, a measurement in
    which any Gaussian is close to the planned next state of an object makes
    the second call raise. *)
Theorem C149_second_call_refuted dim pdf inv det chi2_ppf h max_iters cost_tol thresh safety y_ref tg fwd bwd qfinal fcost mg dyn invd nin nom nomr es tr
    mg2 dyn2 invd2 nin2 nom2 nomr2 :
  good_call dim inv chi2_ppf thresh tg fwd bwd qfinal [] mg dyn invd nin nom nomr -> inputs_fit nin -> (2 <= h)%nat -> t_m mg <> [] ->
  iterate dim pdf inv det chi2_ppf h max_iters cost_tol thresh safety y_ref tg fwd bwd qfinal fcost [] mg dyn invd nin nom nomr = Ok (es, tr) ->
  good_measurement dim mg2 dyn2 invd2 nin2 -> match nom2 with None => True | Some l => length l = length nin2 end ->
  (exists m e, In m (t_m mg2) /\ In e es /\ mahal dim inv m (e_obj e) < chi2_ppf thresh dim) ->
  iterate dim pdf inv det chi2_ppf h max_iters cost_tol thresh safety y_ref tg fwd bwd qfinal fcost (map e_obj es) mg2 dyn2 invd2 nin2 nom2 nomr2 = Err ValueErr.
Proof.
  intros Hc Hin Hh Hne E Hmg2 Hnom2 [m [e [Hm [He Hfit]]]].
  rewrite (loop_of_call dim pdf inv det chi2_ppf h max_iters cost_tol thresh safety y_ref tg fwd bwd qfinal fcost [] mg dyn invd nin nom nomr Hc Hne) in E. destruct (Nat.leb_spec 2 h) as [_|N]; [|lia].
  assert (Hes : Forall2 (wfe h []) (map (desc_at mg dyn invd nin) (seq 0 (length (t_m mg)))) es).
  { destruct (loop_total dim pdf inv det h cost_tol safety y_ref tg fwd bwd qfinal fcost (map (desc_at mg dyn invd nin) (seq 0 (length (t_m mg)))) (length (t_m mg)) (fun _ => True)) with
      (m := max_iters) (old := @None R) (es := map (eobj_at h mg dyn invd nin nom) (seq 0 (length (t_m mg)))) (xs := t_m mg) as [es1 [tr1 [E1 [Hes _]]]].
    { intros es0 xs H1 H2.
      destruct (turn_ok dim pdf inv det chi2_ppf h thresh safety y_ref tg fwd bwd qfinal fcost [] mg dyn invd nin nom nomr Hc Hh Hne Hin es0 xs H1 H2) as [es' [c [xs' [T1 [T2 [T3 _]]]]]].
      exists es', c, xs'. now repeat split. }
    { apply setup_wfe. } { reflexivity. }
    rewrite E in E1. injection E1 as <- <-. exact Hes. }
  assert (Hobj : forall g, In g (map e_obj es) -> length (g_means g) = h /\ g_ctrl_inputs g = ctl_default).
  { intros g Hg. apply in_map_iff in Hg as [e0 [<- He0]]. apply In_nth_error in He0 as [i Hi].
    assert (Hd : exists d, In d (map (desc_at mg dyn invd nin) (seq 0 (length (t_m mg)))) /\ wfe h [] d e0).
    { clear - Hes Hi. revert i Hi. induction Hes as [|d e1 D E1 He _ IH]; intros [|i] Hi; try easy; cbn in Hi.
      - injection Hi as ->. exists d. split; [now left|exact He].
      - destruct (IH i Hi) as [d' [H1 H2]]. exists d'. split; [now right|exact H2]. }
    destruct Hd as [d [Hd W]]. split; [apply (W_m _ _ _ _ W)|]. rewrite (W_s5 _ _ _ _ W). apply in_map_iff in Hd as [j [<- _]]. reflexivity. }
  unfold iterate, initialize. destruct (t_m mg2) as [|m0 ms] eqn:Em; [easy|]. rewrite <- Em in *.
  rewrite (init_loop_match dim inv chi2_ppf h thresh mg2 dyn2 invd2 nin2 nom2 Hmg2 Hnom2); [reflexivity|exact Hh|exact Hobj| |].
  - intros i Hi. apply in_seq in Hi. lia.
  - apply (In_nth _ _ vzero) in Hm as [i [Hi Emi]]. exists i, (e_obj e). split; [apply in_seq; lia|]. split; [now apply in_map|]. now rewrite Emi.
Qed.
(** In particular when a Gaussian is measured exactly where it was planned. *)
Corollary C149_as_planned_refuted dim pdf inv det chi2_ppf h max_iters cost_tol thresh safety y_ref tg fwd bwd qfinal fcost mg dyn invd nin nom nomr es tr
    mg2 dyn2 invd2 nin2 nom2 nomr2 :
  good_call dim inv chi2_ppf thresh tg fwd bwd qfinal [] mg dyn invd nin nom nomr -> inputs_fit nin -> (2 <= h)%nat -> t_m mg <> [] -> 0 < chi2_ppf thresh dim ->
  iterate dim pdf inv det chi2_ppf h max_iters cost_tol thresh safety y_ref tg fwd bwd qfinal fcost [] mg dyn invd nin nom nomr = Ok (es, tr) ->
  good_measurement dim mg2 dyn2 invd2 nin2 -> match nom2 with None => True | Some l => length l = length nin2 end ->
  (exists m e, In m (t_m mg2) /\ In e es /\ nth_error (g_means (e_obj e)) 1 = Some m) ->
  iterate dim pdf inv det chi2_ppf h max_iters cost_tol thresh safety y_ref tg fwd bwd qfinal fcost (map e_obj es) mg2 dyn2 invd2 nin2 nom2 nomr2 = Err ValueErr.
Proof.
  intros Hc Hin Hh Hne Hpos E Hmg2 Hnom2 [m [e [Hm [He Hfit]]]]. eapply C149_second_call_refuted; try eassumption.
  exists m, e. split; [exact Hm|]. split; [exact He|]. unfold mahal. rewrite (nth_error_nth _ _ _ Hfit).
  replace (rsumn dim _) with 0; [exact Hpos|]. symmetry.
  assert (Hz : forall n f, (forall i, f i = 0) -> rsumn n f = 0).
  { intros n f Hf. induction n as [|n IH]; [reflexivity|]. cbn [rsumn]. rewrite IH, Hf. lra. }
  apply Hz. intro i. apply Hz. intro j. ring.
Qed.

(** * Concrete cases *)
Definition idle (a : pass_in) : result pass_out :=
  Ok {| q_x := p_x a; q_rows := p_width a; q_fb := fun _ _ => 0; q_ff := fun _ _ => 1; q_m := p_ccm a; q_v := p_ccv a |}.
Definition idle_final (x u : vec) (g : option vec) : result (mat * mat) := Ok ((fun _ _ => 1), fun _ _ => 0).
Definition one_target : gmx := {| t_w := [1]; t_m := [vzero]; t_p := [fun _ _ => 1] |}.
Definition fdist (x : vec) (g : option vec) : R := match g with Some y => (x 0%nat - y 0%nat) ^ 2 | None => 0 end.
(** Two Gaussians on a line, moving by the control. *)
Definition line_dyn : list dynf := [fun x u => x 0%nat + u 0%nat].
Definition line_inv : list dynf := [fun x u => x 0%nat - u 0%nat].
Definition two_gaussians : gmx := {| t_w := [1; 1]; t_m := [(fun _ => 5) : vec; (fun _ => 9) : vec]; t_p := [(fun _ _ => 1) : mat; (fun _ _ => 2) : mat] |}.
Lemma ex_call nin : length nin = 2%nat -> good_call 1 (fun m => m) (fun _ _ => 1) (95 / 100) one_target idle idle idle_final [] two_gaussians [line_dyn; line_dyn] [line_inv; line_inv] nin None [].
Proof.
  intro Hn. split; [intro a; eexists; split; reflexivity|]. split; [intro a; eexists; split; reflexivity|]. split; [intros x u g; now eexists|].
  split; [exists [{| gw := 1; gm := vzero; gp := fun _ _ => 1 |}]; split; [easy|reflexivity]|].
  split; [|split; [easy|exact I]]. repeat split; try reflexivity; try (cbn; congruence); intros fs [<-|[<-|[]]]; cbn; lia.
Qed.
Example C146_ex : exists es tr, iterate 1 (fun _ _ _ => 1) (fun m => m) (fun _ => 1) (fun _ _ => 1) 4 10 (1 / 100) (95 / 100) 1 (9 / 10) one_target idle idle idle_final fdist
    [] two_gaussians [line_dyn; line_dyn] [line_inv; line_inv] [1; 1]%nat None [] = Ok (es, tr) /\ length es = 2%nat.
Proof.
  destruct (C146_iterate_returns 1 (fun _ _ _ => 1) (fun m => m) (fun _ => 1) (fun _ _ => 1) 4 10 (1 / 100) (95 / 100) 1 (9 / 10) one_target idle idle idle_final fdist
    [] two_gaussians [line_dyn; line_dyn] [line_inv; line_inv] [1; 1]%nat None []) as [es [tr [E [_ [_ [_ [L _]]]]]]].
  - now apply ex_call.
  - intros n [<-|[<-|[]]]; now left.
  - lia.
  - easy.
  - exists es, tr. now split.
Qed.
(** Two and three inputs: the call raises. *)
Example C147_ex : iterate 1 (fun _ _ _ => 1) (fun m => m) (fun _ => 1) (fun _ _ => 1) 4 10 (1 / 100) (95 / 100) 1 (9 / 10) one_target idle idle idle_final fdist
    [] two_gaussians [line_dyn; line_dyn] [line_inv; line_inv] [2; 3]%nat None [] = Err ValueErr.
Proof. apply C147_different_inputs_refuted; [now apply ex_call|lia|lia|easy|]. exists 3%nat. cbn. split; [now right; left|]. split; easy. Qed.
Example C148_ex : iterate 1 (fun _ _ _ => 1) (fun m => m) (fun _ => 1) (fun _ _ => 1) 1 10 (1 / 100) (95 / 100) 1 (9 / 10) one_target idle idle idle_final fdist
    [] two_gaussians [line_dyn; line_dyn] [line_inv; line_inv] [1; 1]%nat None [] = Err IndexErr.
Proof. apply C148_horizon_one_refuted; [now apply ex_call|reflexivity|easy]. Qed.

Example C149_ex : exists es tr m, iterate 1 (fun _ _ _ => 1) (fun m => m) (fun _ => 1) (fun _ _ => 1) 4 10 (1 / 100) (95 / 100) 1 (9 / 10) one_target idle idle idle_final fdist
    [] two_gaussians [line_dyn; line_dyn] [line_inv; line_inv] [1; 1]%nat None [] = Ok (es, tr) /\
  iterate 1 (fun _ _ _ => 1) (fun m => m) (fun _ => 1) (fun _ _ => 1) 4 10 (1 / 100) (95 / 100) 1 (9 / 10) one_target idle idle idle_final fdist
    (map e_obj es) {| t_w := [1]; t_m := [m]; t_p := [fun _ _ => 1] |} [line_dyn] [line_inv] [1]%nat None [] = Err ValueErr.
Proof.
  assert (Hf : inputs_fit [1; 1]%nat) by (intros n [<-|[<-|[]]]; now left).
  assert (Hne : t_m two_gaussians <> []) by discriminate.
  destruct (C146_iterate_returns 1 (fun _ _ _ => 1) (fun m => m) (fun _ => 1) (fun _ _ => 1) 4 10 (1 / 100) (95 / 100) 1 (9 / 10) one_target idle idle idle_final fdist
    [] two_gaussians [line_dyn; line_dyn] [line_inv; line_inv] [1; 1]%nat None [] (ex_call [1; 1]%nat eq_refl) Hf ltac:(lia) Hne) as [es [tr [E [_ [_ [_ [L K]]]]]]].
  destruct es as [|e es]; [discriminate L|]. destruct (K 0%nat e eq_refl) as [_ [_ [_ [Lm _]]]].
  exists (e :: es), tr, (nth 1 (g_means (e_obj e)) vzero). split; [exact E|].
  assert (Hm : good_measurement 1 {| t_w := [1]; t_m := [nth 1 (g_means (e_obj e)) vzero]; t_p := [fun _ _ => 1] |} [line_dyn] [line_inv] [1]%nat).
  { clear. repeat split; try reflexivity; intros fs [<-|[]]; cbn; lia. }
  assert (Hx : exists m e0, In m [nth 1 (g_means (e_obj e)) vzero] /\ In e0 (e :: es) /\ nth_error (g_means (e_obj e0)) 1 = Some m).
  { clear - Lm. exists (nth 1 (g_means (e_obj e)) vzero), e. split; [now left|]. split; [now left|]. apply nth_error_nth'. lia. }
  exact (C149_as_planned_refuted _ _ _ _ _ _ _ _ _ _ _ _ _ _ _ _ _ _ _ _ _ _ _ _ _ _ _ _ None _ (ex_call [1; 1]%nat eq_refl) Hf (le_S _ _ (le_S _ _ (le_n 2))) Hne Rlt_0_1 E Hm I Hx).
Qed.

(** C150, REFUTED: every turn starts from the measured states.  Here the second
    turn is handed (and is charged from) states the Gaussians are not in. *)
Theorem C150_start_states_refuted : exists es tr r,
  iterate 1 (fun _ _ _ => 1) (fun m => m) (fun _ => 1) (fun _ _ => 1) 2 2 0 (95 / 100) 1 (9 / 10) one_target idle idle idle_final fdist
    [] two_gaussians [[fun x u => x 0%nat + 1]; [fun x u => x 0%nat + 1]] [line_inv; line_inv] [1; 1]%nat None [] = Ok (es, tr) /\
  nth_error tr 1 = Some r /\ map (fun x : vec => x 0%nat) (s_start r) = [6; 10] /\ map (fun x : vec => x 0%nat) (t_m two_gaussians) = [5; 9].
Proof.
  assert (Hne : t_m two_gaussians <> []) by discriminate.
  set (D := [[fun x u : vec => x 0%nat + 1]; [fun x u : vec => x 0%nat + 1]]).
  assert (Hc : good_call 1 (fun m => m) (fun _ _ => 1) (95 / 100) one_target idle idle idle_final [] two_gaussians D [line_inv; line_inv] [1; 1]%nat None []).
  { split; [intro a; eexists; split; reflexivity|]. split; [intro a; eexists; split; reflexivity|]. split; [intros x u g; now eexists|].
    split; [exists [{| gw := 1; gm := vzero; gp := fun _ _ => 1 |}]; split; [easy|reflexivity]|].
    split; [|split; [easy|exact I]]. repeat split; try reflexivity; intros fs [<-|[<-|[]]]; cbn; lia. }
  destruct (C146_iterate_returns 1 (fun _ _ _ => 1) (fun m => m) (fun _ => 1) (fun _ _ => 1) 2 2 0 (95 / 100) 1 (9 / 10) one_target idle idle idle_final fdist
    [] two_gaussians D [line_inv; line_inv] [1; 1]%nat None [] Hc) as [es [tr [E [L1 [L2 [L3 _]]]]]].
  { intros n [<-|[<-|[]]]; now left. } { lia. } { exact Hne. }
  assert (Hl : length tr = 2%nat).
  { destruct (Nat.lt_ge_cases (length tr) 2) as [Hlt|]; [|lia]. apply L3 in Hlt as [a [b [_ [_ [_ Hab]]]]]. pose proof (Rabs_pos (a - b)). lra. }
  destruct (C150_turn_costs_partial 1 (fun _ _ _ => 1) (fun m => m) (fun _ => 1) (fun _ _ => 1) 2 2 0 (95 / 100) 1 (9 / 10) one_target idle idle idle_final fdist
    [] two_gaussians D [line_inv; line_inv] [1; 1]%nat None [] Hc) with (4 := E) as [K1 [K2 [_ [_ K4]]]].
  { lia. } { exact Hne. } { intros n [<-|[<-|[]]]; reflexivity. }
  destruct tr as [|r0 [|r1 [|? ?]]]; try discriminate Hl. exists es, [r0; r1], r1. split; [exact E|]. split; [reflexivity|]. split; [|reflexivity].
  rewrite (K2 0%nat r0 r1 eq_refl eq_refl), (K1 r0 eq_refl). destruct (K4 0%nat r0 eq_refl) as [_ Hd].
  assert (Hd0 := Hd 0%nat ltac:(cbn; lia)). assert (Hd1 := Hd 1%nat ltac:(cbn; lia)). cbn [D nth_error] in Hd0, Hd1.
  change (2 - 1)%nat with 1%nat. unfold closed_loop. cbn [traj]. unfold joint_move. cbn [two_gaussians t_m length seq map].
  injection Hd0 as Hd0. injection Hd1 as Hd1. rewrite <- Hd0, <- Hd1. cbn [nth_error nth]. f_equal; [lra|]. f_equal; lra.
Qed.

(** * C151 *)
(** The quadratic model of the non-quadratic cost at the current state has the
    gradient the Jacobian routine reports, a positive semidefinite second-order
    term (for orthonormal eigenvectors), and both are computed from the cost as
    a function of this object's state alone: all other states are left as they
    are and at the current state it is the cost itself. *)
Lemma nth_error_eq {A} (l : list A) : forall l', (forall j, nth_error l j = nth_error l' j) -> l = l'.
Proof.
  induction l as [|x l IH]; intros [|y l'] H; [reflexivity|discriminate (H 0%nat)|discriminate (H 0%nat)|].
  assert (E := H 0%nat). injection E as <-. f_equal. apply IH. intro j. exact (H (S j)).
Qed.
Theorem C151_quadratization dim pdf inv det safety y_ref tg hessian jacobian eig all num ws ps Q q :
  quadratize_non_quad_state dim pdf inv det safety y_ref tg hessian jacobian eig all num ws ps = Ok (Q, q) ->
  exists x cost H J, nth_error all num = Some x /\
    (forall y, exists all', cost y = density_based_cost dim pdf inv det safety y_ref tg all' ws ps /\ length all' = length all /\
       nth_error all' num = Some y /\ forall j, j <> num -> nth_error all' j = nth_error all j) /\
    cost x = density_based_cost dim pdf inv det safety y_ref tg all ws ps /\
    hessian x cost = Ok H /\ jacobian x cost = Ok J /\
    (forall i, mapply dim Q x i + q i = J i) /\
    ((forall i j, (i < dim)%nat -> (j < dim)%nat -> rsumn dim (fun k => snd (eig H) k i * snd (eig H) k j) = if (i =? j)%nat then 1 else 0) ->
     inverse_of dim (snd (eig H)) (inv (snd (eig H))) -> psd dim Q).
Proof.
  unfold quadratize_non_quad_state. unfold get at 1. destruct (nth_error all num) as [x|] eqn:Ex; cbn [bind]; [|easy].
  intro E. apply bind_ok in E as [H [EH E]]. destruct (eig H) as [lam V] eqn:Eeig. apply bind_ok in E as [J [EJ E]]. injection E as <- <-.
  assert (Hn : (num < length all)%nat) by (apply nth_error_Some; congruence).
  exists x, (cost_of_state dim pdf inv det safety y_ref tg all num ws ps), H, J.
  split; [reflexivity|]. split; [|split; [|split; [exact EH|split; [exact EJ|split]]]].
  - intro y. destruct (setl_lt all num y Hn) as [l [El [L1 [L2 L3]]]]. exists l. unfold cost_of_state. rewrite El. now repeat split.
  - unfold cost_of_state. destruct (setl_lt all num x Hn) as [l [El [L1 [L2 L3]]]]. rewrite El. cbn [bind]. f_equal.
    apply nth_error_eq. intro j. destruct (Nat.eq_dec j num) as [->|N]; [congruence|now apply L3].
  - intro i. unfold mapply. ring.
  - rewrite Eeig. cbn [snd]. intros H1 H2. now apply (C87_regularised_psd dim inv V lam H1 H2).
Qed.
Example C151_ex : exists Q q, quadratize_non_quad_state 1 (fun _ _ _ => 1) (fun m => m) (fun _ => 1) 1 (9 / 10) one_target (fun _ _ => Ok (fun _ _ => 2))
   (fun _ _ => Ok (fun _ => 3)) (fun M => (fun i => M i i, fun i j => if (i =? j)%nat then 1 else 0)) (t_m two_gaussians) 1 [1; 1] (t_p two_gaussians) = Ok (Q, q).
Proof. eexists _, _. reflexivity. Qed.

(** * C152 *)
(** REFUTED: nominal controls given under the documented keyword u_nom_lst are
    used.  Only the key ctrl_nom_lst is looked at. *)
From Coq Require Import String.
Local Open Scope string_scope.
Theorem C152_documented_keyword_refuted {A} (l : A) kwargs : (forall v, ~ In ("ctrl_nom_lst", v) kwargs) -> nominal_of (("u_nom_lst", l) :: kwargs) = None.
Proof.
  intro H. unfold nominal_of. cbn. induction kwargs as [|[k v] kwargs IH]; [reflexivity|]. cbn [find fst].
  destruct (String.eqb_spec k "ctrl_nom_lst") as [->|N]; [exfalso; apply (H v); now left|]. apply IH. intros v' Hv'. apply (H v'). now right.
Qed.
Theorem C152_actual_keyword_partial {A} (l : A) kwargs : nominal_of (("ctrl_nom_lst", l) :: kwargs) = Some l.
Proof. reflexivity. Qed.

Print Assumptions C146_iterate_returns.
Print Assumptions C147_inputs_iff_partial.
Print Assumptions C149_as_planned_refuted.
Print Assumptions C150_turn_costs_partial.
Print Assumptions C150_start_states_refuted.
Print Assumptions C151_quadratization.
Print Assumptions C152_documented_keyword_refuted.
