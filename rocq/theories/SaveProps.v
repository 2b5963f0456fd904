(** C59, C97: saving and loading tracker instances. *)
From Verif Require Import Base SaveModel SaveSpec.
From Coq Require Import String.
Open Scope string_scope.

Section P.
Context {FO CL FT : Type}.
Variable F : fenv FO CL FT.
Notation pv := (pv FO CL FT).
Notation dict := (list (string * pv)).
(** What load writes, given what save read. *)
Definition loaded_filter (v : option pv) : option pv := match v with Some (VFilt f) => v | _ => Some (VPair None None) end.
Definition loaded (c : cls) (o : dict) (a : string) : option pv :=
  if (a =? "_filter")%string then loaded_filter (look "_filter" o)
  else if (a =? "_ospa2_params")%string then look "_ospa_params" o
  else if (a =? "_old_track_tab")%string then option_map VCopy (look a o) else look a o.
Ltac grab H a := let v := fresh "v" in let E := fresh "E" in destruct (H a) as [v E]; [cbn; tauto|].
(** Saving and loading into any instance [o0] at all: every attribute a
    constructor of GLMB or of the joint filter assigns is overwritten. *)
Lemma round_trip c (o o0 : dict) : is_phd c = false -> instance c o -> filters_ok F ->
  exists d o', save F c o = Ok d /\ load F c d o0 = Ok o' /\
    (forall a, In a (base_attrs ++ glmb_attrs ++ (if is_joint c then ["_old_track_tab"] else [])) -> look a o' = loaded c o a) /\
    (forall a, In a smc_attrs -> look a o' = look a o0).
Proof.
  intros Hc [Ha [H1 H2]] HF.
  assert (Hb : forall a, In a (base_attrs ++ glmb_attrs) -> exists v, look a o = Some v).
  { intros a Hi. apply Ha. unfold attrs. rewrite app_assoc. apply in_or_app. left. exact Hi. }
  assert (Hj : is_joint c = true -> exists v, look "_old_track_tab" o = Some v).
  { intros J. apply Ha. unfold attrs. rewrite !in_app_iff. right. right. destruct c; try discriminate J; cbn; tauto. }
  grab Hb "prob_detection". grab Hb "prob_survive". grab Hb "birth_terms". grab Hb "clutter_rate". grab Hb "clutter_den". grab Hb "inv_chi2_gate". grab Hb "save_covs".
  grab Hb "debug_plots". grab Hb "ospa". grab Hb "ospa_localization". grab Hb "ospa_cardinality". grab Hb "_ospa_params". grab Hb "_states". grab Hb "_meas_tab". grab Hb "_covs".
  grab Hb "req_births". grab Hb "req_surv". grab Hb "req_upd". grab Hb "gating_on". grab Hb "prune_threshold". grab Hb "max_hyps". grab Hb "decimal_places". grab Hb "save_measurements".
  grab Hb "_track_tab". grab Hb "_labels". grab Hb "_extractable_hists". grab Hb "_hypotheses". grab Hb "_card_dist". grab Hb "_time_index_cntr". grab Hb "ospa2". grab Hb "ospa2_localization".
  grab Hb "ospa2_cardinality". grab Hb "_ospa2_params".
  unfold save, load. rewrite Hc. unfold glmb_save, base_save, get_filter. rewrite Hc.
  assert (Hp1 : exists w1, look "_filter" o = Some w1 /\ filt_pair F w1 = Ok (match w1 with VFilt f => VPair (Some (f_type F f)) (Some (f_save F f)) | _ => VPair None None end)).
  { destruct H1 as [H|[f H]]; eexists; (split; [exact H|reflexivity]). }
  assert (Hp2 : exists w2, look "_baseFilter" o = Some w2 /\ filt_pair F w2 = Ok (match w2 with VFilt f => VPair (Some (f_type F f)) (Some (f_save F f)) | _ => VPair None None end)).
  { destruct H2 as [H|[f H]]; eexists; (split; [exact H|reflexivity]). }
  destruct Hp1 as [w1 [W1 P1]]. destruct Hp2 as [w2 [W2 P2]].
  unfold attr. rewrite W1. cbn [bind]. rewrite P1. cbn [bind base_saves save_all]. unfold attr.
  repeat match goal with H : look ?a o = Some _ |- context [look ?a o] => rewrite H; cbn [bind] end.
  cbn [glmb_saves1 save_all]. unfold attr. repeat match goal with H : look ?a o = Some _ |- context [look ?a o] => rewrite H; cbn [bind] end.
  rewrite P2. cbn [bind glmb_saves2 save_all]. unfold attr. repeat match goal with H : look ?a o = Some _ |- context [look ?a o] => rewrite H; cbn [bind] end.
  assert (Hc1 : w1 = VNone \/ exists f, w1 = VFilt f) by (destruct H1 as [H|[f H]]; rewrite W1 in H; injection H as ->; [left; reflexivity|right; exists f; reflexivity]).
  assert (Hc2 : w2 = VNone \/ exists f, w2 = VFilt f) by (destruct H2 as [H|[f H]]; rewrite W2 in H; injection H as ->; [left; reflexivity|right; exists f; reflexivity]).
  unfold glmb_load, base_load, set_filter. rewrite Hc.
  unfold loaded.
  destruct (is_joint c); [destruct (Hj eq_refl) as [vj Ej]; rewrite Ej; cbn [bind]|clear Hj];
  destruct Hc1 as [->|[f1 ->]]; destruct Hc2 as [->|[f2 ->]];
  do 2 eexists; (split; [reflexivity|]);
  (split; [cbn -[attrs]; rewrite ?HF; reflexivity|]);
  (split; [intros a Hi; cbn in Hi; repeat (destruct Hi as [<-|Hi]; [cbn -[attrs]; first [symmetry; assumption | rewrite ?W1, ?W2, ?Ej; reflexivity]|]); try contradiction
          |intros a Hi; cbn in Hi; repeat (destruct Hi as [<-|Hi]; [cbn; reflexivity|]); contradiction]).
Qed.
Lemma attrs_cases c a : In a (attrs c) -> In a (base_attrs ++ glmb_attrs ++ (if is_joint c then ["_old_track_tab"] else [])) \/ (is_smc c = true /\ In a smc_attrs).
Proof.
  unfold attrs. intros H. rewrite !in_app_iff in *. destruct H as [H|[H|H]]; [left; tauto|left; tauto|].
  destruct c; cbn [is_joint is_smc]; try (left; right; right; exact H); try (right; split; [reflexivity|exact H]).
  apply in_app_or in H as [H|H]; [right; auto|left; right; right; exact H].
Qed.
End P.
Lemma not_phd c : c <> CPhd -> c <> CCphd -> is_phd c = false.
Proof. destruct c; intros H1 H2; cbn; congruence. Qed.
Lemma pair_none_ne {FO CL FT} (v : option (pv FO CL FT)) : is_filter v -> ~ same (Some (VPair None None)) v.
Proof. intros [->|[f ->]] H; discriminate H. Qed.

(** C59, the part that holds: for every class that is neither PHD nor CPHD, and
    whatever the instance the state is loaded into, saving and loading succeed
    and every attribute the constructors assign has its old content again,
    except _ospa2_params, except a missing inner filter, and except what an SMC
    variant adds. *)
Theorem C59_round_trip_partial : forall {FO CL FT} (F : fenv FO CL FT) c o o0, c <> CPhd -> c <> CCphd -> instance c o -> filters_ok F ->
  exists d o', save F c o = Ok d /\ load F c d o0 = Ok o' /\
    forall a, In a (attrs c) -> a <> "_ospa2_params" -> (a = "_filter" -> look a o <> Some VNone) -> ~ In a smc_attrs -> same (look a o') (look a o).
Proof.
  intros FO CL FT F c o o0 Hc1 Hc2 Hi HF. pose proof (not_phd c Hc1 Hc2) as Hc. destruct (round_trip F c o o0 Hc Hi HF) as [d [o' [S [L [A _]]]]]. exists d, o'. split; [exact S|]. split; [exact L|].
  intros a Ha N1 N2 N3. destruct (attrs_cases c a Ha) as [Hb|[_ Hb]]; [|contradiction]. rewrite (A a Hb). unfold loaded.
  destruct (String.eqb_spec a "_filter") as [->|_].
  - destruct Hi as [_ [[H|[f H]] _]]; rewrite H; [exfalso; apply (N2 eq_refl); exact H|reflexivity].
  - destruct (String.eqb_spec a "_ospa2_params"); [contradiction|]. destruct (String.eqb_spec a "_old_track_tab") as [->|_]; [|reflexivity].
    destruct (look "_old_track_tab" o); reflexivity.
Qed.
Print Assumptions C59_round_trip_partial.
(** C59 as stated is false: _ospa2_params is saved from _ospa_params (1929), and
    a filter that was None comes back as a pair of Nones (151).  The round trip
    is complete exactly for instances where neither can be seen. *)
Theorem C59_round_trip_refuted : forall {FO CL FT} (F : fenv FO CL FT) c o o0 d o', c <> CPhd -> c <> CCphd -> instance c o -> filters_ok F ->
  save F c o = Ok d -> load F c d o0 = Ok o' ->
  look "_ospa2_params" o' = look "_ospa_params" o /\
  (look "_filter" o = Some VNone -> look "_filter" o' = Some (VPair None None)) /\
  (c <> CSmc -> c <> CJSmc -> ((forall a, In a (attrs c) -> same (look a o') (look a o)) <->
     same (look "_ospa_params" o) (look "_ospa2_params" o) /\ look "_filter" o <> Some VNone)).
Proof.
  intros FO CL FT F c o o0 d o' Hc1 Hc2 Hi HF S L. pose proof (not_phd c Hc1 Hc2) as Hc. destruct (round_trip F c o o0 Hc Hi HF) as [d1 [o1 [S1 [L1 [A _]]]]].
  rewrite S in S1. injection S1 as <-. rewrite L in L1. injection L1 as <-.
  assert (A1 : look "_ospa2_params" o' = look "_ospa_params" o) by (apply A; unfold base_attrs, glmb_attrs; rewrite !in_app_iff; right; left; cbn; tauto).
  assert (A2 : look "_filter" o' = loaded_filter (look "_filter" o)) by (apply A; unfold base_attrs, glmb_attrs; rewrite !in_app_iff; right; left; cbn; tauto).
  split; [exact A1|]. split; [intros H; rewrite A2, H; reflexivity|]. intros Hs1 Hs2. assert (Hs : is_smc c = false) by (destruct c; cbn; congruence). split.
  - intros H. split.
    + rewrite <- A1. apply H. unfold attrs. rewrite !in_app_iff. right. left. cbn. tauto.
    + intros H0. assert (Hf : In "_filter" (attrs c)) by (unfold attrs; rewrite !in_app_iff; right; left; cbn; tauto).
      specialize (H _ Hf). rewrite A2, H0 in H. apply (pair_none_ne (Some VNone)) in H; [exact H|]. left. reflexivity.
  - intros [H1 H2] a Ha. destruct (attrs_cases c a Ha) as [Hb|[Hb _]]; [|congruence].
    destruct (string_dec a "_ospa2_params") as [->|N1]; [rewrite A1; exact H1|].
    rewrite (A a Hb). unfold loaded. destruct (String.eqb_spec a "_filter") as [->|_].
    + destruct Hi as [_ [[H|[f H]] _]]; rewrite H; [contradiction|reflexivity].
    + destruct (String.eqb_spec a "_ospa2_params"); [contradiction|]. destruct (String.eqb_spec a "_old_track_tab") as [->|_]; [|reflexivity].
      destruct (look "_old_track_tab" o); reflexivity.
Qed.
Print Assumptions C59_round_trip_refuted.
(** And no PHD or CPHD filter, in whatever state, can be saved or loaded. *)
Theorem C59_phd_refused : forall {FO CL FT} (F : fenv FO CL FT) c o d o0, c = CPhd \/ c = CCphd ->
  (exists e, save F c o = Err e) /\ (exists e, load F c d o0 = Err e).
Proof. intros FO CL FT F c o d o0 [->| ->]; split; eexists; reflexivity. Qed.
Print Assumptions C59_phd_refused.
(** C97: the two callables of an SMC filter are not part of its saved state:
    after loading, they are whatever the target instance had before (None in a
    fresh one); all PHD and CPHD instances refuse to be saved or loaded. *)
Theorem C97_smc_state_incomplete_refuted : forall {FO CL FT} (F : fenv FO CL FT) c o o0 a, c = CSmc \/ c = CJSmc -> instance c o -> filters_ok F -> In a smc_attrs ->
  exists d o', save F c o = Ok d /\ look a d = None /\ load F c d o0 = Ok o' /\ look a o' = look a o0 /\ (look a o0 = Some VNone -> look a o <> Some VNone -> look a o' <> look a o).
Proof.
  intros FO CL FT F c o o0 a Hs Hi HF Ha. assert (Hc : is_phd c = false) by (destruct Hs as [->| ->]; reflexivity).
  destruct (round_trip F c o o0 Hc Hi HF) as [d [o' [S [L [_ A]]]]]. specialize (A a Ha). exists d, o'. split; [exact S|]. split; [|split; [exact L|split; [exact A|]]].
  - clear A L. unfold save in S. rewrite Hc in S. unfold glmb_save, base_save in S.
    assert (Hsv : forall l (o1 d1 d2 : list (string * pv FO CL FT)), existsb (fun ka => (a =? fst ka)%string) l = false -> save_all l o1 d1 = Ok d2 -> look a d2 = look a d1).
    { induction l as [|[k b] l IH]; intros o1 d1 d2 Hn E; [injection E as <-; reflexivity|]. cbn [save_all existsb fst] in *. apply Bool.orb_false_iff in Hn as [N1 N2].
      destruct (attr b o1) as [v|]; [|discriminate]. cbn [bind] in E. rewrite (IH _ _ _ N2 E). unfold put. cbn [look]. rewrite N1. reflexivity. }
    assert (Hn : existsb (fun ka => (a =? fst ka)%string) base_saves = false /\ existsb (fun ka => (a =? fst ka)%string) glmb_saves1 = false /\ existsb (fun ka => (a =? fst ka)%string) glmb_saves2 = false /\
                 (a =? "filter")%string = false /\ (a =? "_baseFilter")%string = false /\ (a =? "_old_track_tab")%string = false).
    { cbn in Ha. repeat (destruct Ha as [<-|Ha]; [repeat split; reflexivity|]). destruct Ha. }
    destruct Hn as [N1 [N2 [N3 [N4 [N5 N6]]]]].
    destruct (get_filter c o) as [f|]; [|discriminate]. cbn [bind] in S. destruct (filt_pair F f) as [p|]; [|discriminate]. cbn [bind] in S.
    destruct (save_all base_saves o (put "filter" p [])) as [d1|] eqn:E1; [|discriminate]. cbn [bind] in S.
    destruct (save_all glmb_saves1 o d1) as [d2|] eqn:E2; [|discriminate]. cbn [bind] in S.
    destruct (attr "_baseFilter" o) as [b|]; [|discriminate]. cbn [bind] in S. destruct (filt_pair F b) as [p2|]; [|discriminate]. cbn [bind] in S.
    destruct (save_all glmb_saves2 o (put "_baseFilter" p2 d2)) as [d3|] eqn:E3; [|discriminate]. cbn [bind] in S.
    assert (D3 : look a d3 = None).
    { rewrite (Hsv _ _ _ _ N3 E3). unfold put at 1. cbn [look]. rewrite N5, (Hsv _ _ _ _ N2 E2), (Hsv _ _ _ _ N1 E1). unfold put. cbn [look]. rewrite N4. reflexivity. }
    destruct (is_joint c); [|injection S as <-; exact D3]. destruct (attr "_old_track_tab" o) as [v|]; [|discriminate]. injection S as <-. unfold put. cbn [look]. rewrite N6. exact D3.
  - intros H1 H2 H3. congruence.
Qed.
Print Assumptions C97_smc_state_incomplete_refuted.
(** Hypotheses: an instance of every class, with one filter class. *)
Definition ex_fenv : fenv nat unit nat := {| f_type := fun _ => tt; f_new := fun _ => 0; f_save := fun f => f; f_load := fun _ s => s |}.
Definition ex_inst (c : cls) : list (string * pv nat unit nat) :=
  ("_filter", VFilt 7) :: ("_baseFilter", VFilt 3) :: map (fun a => (a, VObj (String.length a))) (attrs c).
Lemma ex_inst_ok c : instance c (ex_inst c).
Proof.
  split; [|split; right; eexists; reflexivity]. intros a Ha. unfold ex_inst. cbn [look].
  destruct (a =? "_filter")%string; [eexists; reflexivity|]. destruct (a =? "_baseFilter")%string; [eexists; reflexivity|].
  induction (attrs c) as [|b l IH]; [destruct Ha|]. cbn [map look]. destruct (String.eqb_spec a b) as [->|N]; [eexists; reflexivity|]. apply IH. destruct Ha; congruence.
Qed.
Example C59_ex : filters_ok ex_fenv /\ (forall c, instance c (ex_inst c)) /\
  exists d o', save ex_fenv CGlmb (ex_inst CGlmb) = Ok d /\ load ex_fenv CGlmb d [] = Ok o' /\
    look "_hypotheses" o' = Some (VObj 11) /\ look "_filter" o' = Some (VFilt 7) /\ look "_ospa2_params" (ex_inst CGlmb) = Some (VObj 13) /\ look "_ospa2_params" o' = Some (VObj 12).
Proof.
  split; [intros f; reflexivity|]. split; [exact ex_inst_ok|]. do 2 eexists. split; [vm_compute; reflexivity|]. split; [vm_compute; reflexivity|]. repeat split; reflexivity.
Qed.
