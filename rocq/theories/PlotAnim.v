(** C219: the frames of animate_state_plot of the PHD filters. *)
From Verif Require Import Base Lists PhdModel PhdSpec PhdProofs PhdProps PhdHist PhdRecord.
From Coq Require Import Lqa.

(** ** model *)
(** What a frame shows: the points of the state scatter, the ellipses added so far as
    (centre, covariance) and the points of the measurement scatter. *)
Record frame (Z : Type) := { fr_states : list vec; fr_ell : list (vec * mat); fr_meas : list Z }.
Arguments fr_states {Z}. Arguments fr_ell {Z}. Arguments fr_meas {Z}. Arguments Build_frame {Z}.
Definition blank {Z} : frame Z := {| fr_states := []; fr_ell := []; fr_meas := [] |}.
(** update, tracker.py:1249-1278, with __ani_state_plotting (931-977), which returns
    before touching the scatter when the step has no states (944-945) and adds the
    ellipses without removing earlier ones.  [show] is show_sig, [pm] is plt_meas.
    The frame number, colours and legends are not modelled; the figure and the
    random generator are given. *)
Definition update {Z} (show pm : bool) (s : phd Z) (k : nat) (fr : frame Z) : result (frame Z) :=
  match nth_error (ph_states s) k with
  | None => Err IndexErr
  | Some row =>
      do fr1 <- match row with
                | [] => Ok fr
                | _ => do es <- (if show then match nth_error (ph_covs s) k with
                                              | None => Err IndexErr
                                              | Some cl => if length cl <=? length row then Ok (combine row cl) else Err IndexErr
                                              end else Ok []);
                       Ok {| fr_states := row; fr_ell := fr_ell fr ++ es; fr_meas := fr_meas fr |}
                end;
      if pm then match nth_error (ph_meas s) k with
                 | None => Err IndexErr
                 | Some ms => Ok {| fr_states := fr_states fr1; fr_ell := fr_ell fr1; fr_meas := ms |}
                 end
      else Ok fr1
  end.
(** FuncAnimation calls update for a sequence of frames (0, 1, ... and again from 0
    when repeating); any sequence here. *)
Fixpoint play {Z} (show pm : bool) (s : phd Z) (fs : list nat) (fr : frame Z) : result (frame Z) :=
  match fs with [] => Ok fr | k :: r => do fr1 <- update show pm s k fr; play show pm s r fr1 end.

(** ** proofs *)
Lemma play_app {Z} show pm (s : phd Z) f1 f2 : forall fr, play show pm s (f1 ++ f2) fr = bind (play show pm s f1 fr) (play show pm s f2).
Proof. induction f1 as [|t f1 IH]; intros fr; [reflexivity|]. cbn [app play]. destruct (update show pm s t fr); [|reflexivity]. cbn [bind]. apply IH. Qed.
Lemma update_ok {Z} (s : phd Z) k fr : k < length (ph_states s) -> k < length (ph_meas s) ->
  exists fr', update false true s k fr = Ok fr' /\ nth_error (ph_meas s) k = Some (fr_meas fr') /\
    fr_ell fr' = fr_ell fr /\ fr_states fr' = match nth k (ph_states s) [] with [] => fr_states fr | row => row end.
Proof.
  intros H1 H2. unfold update. rewrite (nth_error_nth' _ [] H1), (nth_error_nth' _ [] H2). destruct (nth k (ph_states s) []) as [|x row]; cbn [bind].
  - eexists. split; [reflexivity|]. repeat split.
  - eexists. split; [reflexivity|]. cbn [fr_states fr_ell fr_meas]. rewrite app_nil_r. repeat split.
Qed.

(** ** theorems *)
(** Without ellipses, and with a correction for every extraction: whatever frames were
    shown before, the frame of step [k] shows the measurements of correction [k]
    and, if extraction [k] reported something, exactly its states. *)
Theorem C219_animation_partial : forall {Meas} argsort (l : list (cfg Meas * op Meas)) s fs k, hrun argsort l phd_init = Ok s ->
  length (extractions l) <= length (corrections l) -> (forall f, In f (fs ++ [k]) -> f < length (extractions l)) ->
  exists fr, play false true s (fs ++ [k]) blank = Ok fr /\ fr_ell fr = [] /\
    (exists z ms, nth_error (corrections l) k = Some z /\ nth_error (ph_meas s) k = Some ms /\ used_by z ms /\ fr_meas fr = ms) /\
    (nth k (ph_states s) [] <> [] -> fr_states fr = nth k (ph_states s) []).
Proof.
  intros Meas argsort l s fs k H Hl Hf. destruct (C181_phd_records_new Meas argsort l s H) as [A [B _]].
  assert (L : length (ph_meas s) = length (corrections l)) by (clear - A; induction A; cbn [length]; congruence).
  assert (P : exists fr, play false true s fs blank = Ok fr /\ fr_ell fr = []).
  { assert (Hf' : forall f, In f fs -> f < length (extractions l)) by (intros f Hi; apply Hf, in_or_app; left; exact Hi). clear Hf.
    assert (G : forall fr : frame Meas, fr_ell fr = [] -> exists fr', play false true s fs fr = Ok fr' /\ fr_ell fr' = []); [|apply G; reflexivity].
    induction fs as [|f fs IH]; intros fr Hfr; [exists fr; split; [reflexivity|exact Hfr]|]. cbn [play].
    assert (Hff : f < length (extractions l)) by (apply Hf'; left; reflexivity).
    destruct (update_ok s f fr) as [fr1 [E [_ [El _]]]]; [lia|lia|]. rewrite E. cbn [bind]. apply IH; [intros g Hg; apply Hf'; right; exact Hg|]. rewrite El. exact Hfr. }
  destruct P as [fr0 [P0 P1]]. assert (Ht : k < length (extractions l)) by (apply Hf, in_or_app; right; left; reflexivity).
  destruct (update_ok s k fr0) as [fr [E [Em [El Es]]]]; [lia|lia|]. exists fr. rewrite play_app, P0. cbn [bind play]. rewrite E. cbn [bind].
  split; [reflexivity|]. split; [congruence|]. split.
  - assert (N : k < length (corrections l)) by lia. destruct (nth_error (corrections l) k) as [z|] eqn:Ez; [|apply nth_error_None in Ez; lia].
    exists z, (fr_meas fr). split; [reflexivity|]. split; [exact Em|]. split; [|reflexivity].
    clear - A Ez Em. revert k Ez Em. induction A as [|z0 m0 zs mm H A IH]; intros [|k] Ez Em; try discriminate; cbn [nth_error] in *; [injection Ez as ->; injection Em as ->; exact H|apply (IH k Ez Em)].
  - intros Hn. rewrite Es. destruct (nth k (ph_states s) []); [contradiction|reflexivity].
Qed.
Print Assumptions C219_animation_partial.

(** A step in which nothing is reported shows the states and the ellipses of an
    earlier step. *)
Definition lost_ops : list (cfg nat * op nat) :=
  [(h_cfg 1, Predict); (h_cfg 1, Correct [1; 2]); (h_cfg 1, Cleanup true true true true);
   (h_cfg 1, Predict); (h_cfg 1, Correct []); (h_cfg 1, Cleanup true true true true)].
Theorem C219_stale_frame_refuted : exists s fr0 fr1, hrun q_argsort lost_ops phd_init = Ok s /\
  (forall c o, In (c, o) lost_ops -> phd_ok (pos_def 1) c /\ careful o) /\
  nth 1 (ph_states s) [] = [] /\
  play true true s [0] blank = Ok fr0 /\ play true true s [0; 1] blank = Ok fr1 /\
  fr_states fr1 = nth 0 (ph_states s) [] /\ fr_states fr1 <> [] /\ fr_ell fr1 = fr_ell fr0 /\ fr_ell fr1 <> [] /\ fr_meas fr1 = [].
Proof.
  eexists _, _, _. split; [vm_compute; reflexivity|]. split.
  { intros c o Hi. repeat (destruct Hi as [Hi|Hi]; [injection Hi as <- <-; split; [apply h_ok; lra|cbn; auto]|]). destruct Hi. }
  split; [reflexivity|]. split; [reflexivity|]. split; [reflexivity|]. split; [reflexivity|]. split; [discriminate|]. split; [reflexivity|]. split; [discriminate|reflexivity].
Qed.
Print Assumptions C219_stale_frame_refuted.
(** Instances of the hypotheses of C219_animation_partial: the same history. *)
Example C219_ex : exists s, hrun q_argsort lost_ops phd_init = Ok s /\ length (extractions lost_ops) = 2 /\ length (corrections lost_ops) = 2 /\
  nth 0 (ph_states s) [] <> [].
Proof. eexists. split; [vm_compute; reflexivity|]. split; [reflexivity|]. split; [reflexivity|]. discriminate. Qed.
