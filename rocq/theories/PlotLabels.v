(** C213, C214: the data drawn by plot_card_history and plot_states_labels of the
    labelled filters. *)
From Verif Require Import Base Lists OspaModel CphdModel OspaProofs GlmbModel GlmbSpec GlmbProofs GlmbInv GlmbExtract GlmbProps2 PlotModel.
From Verif Require Import JglmbModel JglmbInv GibbsReal JglmbGibbs JglmbProps SmcModel SmcSpec SmcJModel SmcJProofs SmcJProps NewestAll AlignAll AlignDemo.
From Coq Require Import Reals Lra Lia.
Open Scope R_scope.

(** ** specification *)
Section S.
Context {ST : Type}.
Variable sts : list (list ST).
Variable lbs : list (list label).
(** Track [l] was reported at step [tt] in state [x]. *)
Definition reported (l : label) (tt : nat) (x : ST) : Prop :=
  exists i, nth_error (nth tt lbs []) i = Some l /\ nth_error (nth tt sts []) i = Some x.
(** The line of one track over [n] steps: its state at each step at which it was
    reported, a gap at the others, the name at the earliest report. *)
Definition trajectory (n : nat) (l : label) (cols : list (option ST)) (name_at : ST) : Prop :=
  length cols = n /\
  (forall tt x, nth_error cols tt = Some (Some x) <-> reported l tt x) /\
  exists t0, nth_error cols t0 = Some (Some name_at) /\ forall tt, (tt < t0)%nat -> nth_error cols tt = Some None.
(** The whole picture: one line per track ever reported. *)
Definition picture (n : nat) (lines : list (label * list (option ST) * ST)) : Prop :=
  NoDup (map (fun x => fst (fst x)) lines) /\
  (forall l, In l (map (fun x => fst (fst x)) lines) <-> exists tt x, reported l tt x) /\
  forall l cols p, In (l, cols, p) lines -> trajectory n l cols p.
End S.

(** ** proofs *)
Lemma u_labels_spec lbs : NoDup (u_labels lbs) /\ forall l, In l (u_labels lbs) <-> exists ls, In ls lbs /\ In l ls.
Proof.
  assert (G : forall ls u, NoDup u -> NoDup (fold_left add_label ls u) /\ forall l, In l (fold_left add_label ls u) <-> In l u \/ In l ls).
  { induction ls as [|x ls IH]; intros u Hu; cbn [fold_left]; [split; [exact Hu|intros l; cbn [In]; tauto]|].
    assert (A : NoDup (add_label u x) /\ forall l, In l (add_label u x) <-> In l u \/ l = x).
    { unfold add_label. destruct (existsb (label_eqb x) u) eqn:E.
      - apply existsb_exists in E. destruct E as [y [Hy E]]. apply label_eqb_spec in E. subst y. split; [exact Hu|]. intros l. split; [auto|]. intros [H | ->]; assumption.
      - split; [|intros l; rewrite in_app_iff; cbn [In]; intuition congruence].
        assert (N : ~ In x u). { intros H. assert (F : existsb (label_eqb x) u = true) by (apply existsb_exists; exists x; split; [exact H|apply label_eqb_spec; reflexivity]). rewrite E in F. discriminate. }
        clear - Hu N. induction u as [|y u IH]; cbn [app]; [constructor; [intros []|constructor]|]. inversion Hu; subst. constructor; [|apply IH; [assumption|intros F; apply N; right; exact F]].
        rewrite in_app_iff. cbn [In]. intros [F|[F|[]]]; [contradiction|]. apply N. left. symmetry. exact F. }
    destruct A as [A1 A2]. destruct (IH _ A1) as [B1 B2]. split; [exact B1|]. intros l. rewrite B2, A2. cbn [In]. intuition congruence. }
  unfold u_labels. destruct (G (concat lbs) [] ltac:(constructor)) as [A B]. split; [exact A|]. intros l. rewrite B, in_concat. cbn [In]. split; [intros [[]|H]; exact H|auto].
Qed.
Lemma index_of_some l ls i : index_of l ls = Some i -> nth_error ls i = Some l.
Proof.
  revert i. induction ls as [|x ls IH]; intros i; cbn [index_of]; [discriminate|]. destruct (label_eqb x l) eqn:E.
  - intros H. injection H as <-. apply label_eqb_spec in E. subst x. reflexivity.
  - destruct (index_of l ls) as [j|]; [|discriminate]. intros H. injection H as <-. apply (IH j eq_refl).
Qed.
Lemma index_of_none l ls : index_of l ls = None -> ~ In l ls.
Proof.
  induction ls as [|x ls IH]; cbn [index_of]; [intros _ []|]. destruct (label_eqb x l) eqn:E; [discriminate|]. destruct (index_of l ls); [discriminate|].
  intros _ [-> |H]; [|apply IH; auto]. assert (F : label_eqb l l = true) by (apply label_eqb_spec; reflexivity). rewrite E in F. discriminate.
Qed.

Section P.
Context {ST : Type}.
Variable dim : ST -> nat.
Variable d : nat.
Lemma x_dim_some (sts : list (list ST)) : (forall row x, In row sts -> In x row -> dim x = d) -> (exists row x, In row sts /\ In x row) -> x_dim dim sts = Some d.
Proof.
  induction sts as [|[|y row] sts IH]; intros Hd [r [x [Hr Hx]]].
  - destruct Hr.
  - cbn [x_dim]. apply IH; [intros r' x' H1 H2; apply (Hd r' x'); [right; exact H1|exact H2]|]. destruct Hr as [<- |Hr]; [destruct Hx|]. eauto.
  - cbn [x_dim]. f_equal. apply (Hd (y :: row) y); left; reflexivity.
Qed.
Lemma column_spec (sts : list (list ST)) (lbs : list (list label)) l tt :
  length sts = length lbs -> (tt < length lbs)%nat -> length (nth tt sts []) = length (nth tt lbs []) -> NoDup (nth tt lbs []) ->
  (forall row x, In row sts -> In x row -> dim x = d) ->
  exists o, column dim d l sts tt (nth tt lbs []) = Ok o /\ forall x, o = Some x <-> reported sts lbs l tt x.
Proof.
  intros Ln Ht Lr Nd Hd. unfold column. destruct (index_of l (nth tt lbs [])) as [i|] eqn:E.
  - apply index_of_some in E. assert (Hi : (i < length (nth tt sts []))%nat) by (rewrite Lr; apply nth_error_Some; rewrite E; discriminate).
    unfold geti at 1. rewrite (nth_error_nth' sts [] (n := tt)) by lia. cbn [bind]. unfold geti.
    destruct (nth_error (nth tt sts []) i) as [x|] eqn:Ex; [|apply nth_error_None in Ex; lia]. cbn [bind].
    assert (D : dim x = d) by (apply (Hd (nth tt sts [])); [apply nth_In; lia|apply nth_error_In with i, Ex]). rewrite D, Nat.eqb_refl.
    exists (Some x). split; [reflexivity|]. intros y. split.
    + intros H. injection H as <-. exists i. split; assumption.
    + intros [j [Hj Hy]]. assert (j = i) as ->.
      { apply (proj1 (NoDup_nth_error (nth tt lbs [])) Nd); [apply nth_error_Some; rewrite Hj; discriminate|congruence]. }
      congruence.
  - exists None. split; [reflexivity|]. intros y. split; [discriminate|]. intros [j [Hj _]]. exfalso. apply (index_of_none _ _ E). apply nth_error_In with j, Hj.
Qed.
Lemma first_some_spec (cols : list (option ST)) : (exists tt x, nth_error cols tt = Some (Some x)) ->
  exists p t0, first_some cols = Some p /\ nth_error cols t0 = Some (Some p) /\ forall tt, (tt < t0)%nat -> nth_error cols tt = Some None.
Proof.
  induction cols as [|[y|] cols IH]; intros [tt [x H]]; [destruct tt; discriminate H| |].
  - exists y, 0%nat. cbn. repeat split. intros t Ht. lia.
  - destruct tt as [|tt]; [discriminate H|]. destruct IH as [p [t0 [A [B C]]]]; [exists tt, x; exact H|].
    exists p, (S t0). cbn [first_some]. split; [exact A|]. split; [exact B|]. intros [|t] Ht; [reflexivity|]. cbn [nth_error]. apply C. lia.
Qed.
Lemma columns_spec n (sts : list (list ST)) (lbs : list (list label)) l :
  length sts = n -> length lbs = n -> (forall tt, length (nth tt sts []) = length (nth tt lbs []) /\ NoDup (nth tt lbs [])) ->
  (forall row x, In row sts -> In x row -> dim x = d) ->
  exists cols, columns dim d l sts lbs = Ok cols /\ length cols = n /\ forall tt x, nth_error cols tt = Some (Some x) <-> reported sts lbs l tt x.
Proof.
  intros L1 L2 HA Hd. unfold columns. rewrite L1, L2, Nat.sub_diag.
  set (ps := combine (seq 0 n) lbs).
  assert (Lp : length ps = n) by (unfold ps; rewrite combine_length, seq_length; lia).
  assert (Np : forall tt, (tt < n)%nat -> nth tt ps (0%nat, []) = (tt, nth tt lbs [])).
  { intros tt Ht. unfold ps. rewrite combine_nth by (rewrite seq_length; lia). rewrite seq_nth by exact Ht. reflexivity. }
  destruct (mapM_all_ok (fun tl => column dim d l sts (fst tl) (snd tl)) ps) as [cols Ec].
  { intros p Hp. apply In_nth with (d := (0%nat, [])) in Hp. destruct Hp as [tt [Ht <-]]. rewrite Lp in Ht. rewrite Np by exact Ht. cbn [fst snd].
    destruct (column_spec sts lbs l tt) as [o [Eo _]]; [lia|lia|apply HA..|exact Hd|]. eauto. }
  rewrite Ec. cbn [bind repeat]. rewrite app_nil_r. exists cols. split; [reflexivity|].
  apply mapM_ok in Ec. destruct (Forall2_nth _ _ _ Ec) as [Lc Hc]. rewrite Lp in Lc, Hc. split; [lia|]. intros tt x.
  destruct (le_lt_dec n tt) as [Hge|Hlt].
  - split; [intros H; exfalso; assert (tt < length cols)%nat by (apply nth_error_Some; rewrite H; discriminate); lia|]. intros [i [Hi _]]. rewrite nth_overflow in Hi by lia. destruct i; discriminate Hi.
  - specialize (Hc tt (0%nat, []) None Hlt). rewrite Np in Hc by exact Hlt. cbn [fst snd] in Hc.
    destruct (column_spec sts lbs l tt) as [o [Eo Ho]]; [lia|lia|apply HA..|exact Hd|].
    rewrite Eo in Hc. injection Hc as Hc. rewrite (nth_error_nth' cols None) by lia. rewrite <- Hc, <- Ho. split; [congruence|intros ->; reflexivity].
Qed.
End P.

Lemma F2_impl {A B} (P Q : A -> B -> Prop) l l' : (forall a b, P a b -> Q a b) -> Forall2 P l l' -> Forall2 Q l l'.
Proof. intros H. induction 1; constructor; auto. Qed.
Lemma Forall2_in_l {A B} (P : A -> B -> Prop) l l' : Forall2 P l l' -> Forall2 (fun a b => In a l /\ P a b) l l'.
Proof.
  induction 1 as [|a b l l' H F IH]; [constructor|]. constructor; [split; [left; reflexivity|exact H]|].
  eapply F2_impl; [|exact IH]. cbv beta. intros x y [Hx Hy]. split; [right; exact Hx|exact Hy].
Qed.
(** Any aligned report gives the picture. *)
Lemma picture_of {ST} (dim : ST -> nat) d n (sts : list (list ST)) lbs :
  length sts = n -> length lbs = n -> (forall tt, length (nth tt sts []) = length (nth tt lbs []) /\ NoDup (nth tt lbs [])) ->
  (forall row x, In row sts -> In x row -> dim x = d) ->
  exists lines, plot_states_labels dim sts lbs = Ok lines /\ picture sts lbs n lines.
Proof.
  intros L1 L2 HA Hd. destruct (u_labels_spec lbs) as [U1 U2].
  assert (RI : forall l, In l (u_labels lbs) <-> exists tt x, reported sts lbs l tt x).
  { intros l. rewrite U2. split.
    - intros [ls [Hls Hl]]. apply In_nth with (d := []) in Hls. destruct Hls as [tt [Ht <-]]. apply In_nth_error in Hl. destruct Hl as [i Hi].
      destruct (nth_error (nth tt sts []) i) as [x|] eqn:Ex; [exists tt, x, i; split; assumption|]. apply nth_error_None in Ex.
      assert (i < length (nth tt lbs []))%nat by (apply nth_error_Some; rewrite Hi; discriminate). destruct (HA tt) as [HB _]. lia.
    - intros [tt [x [i [Hi _]]]]. exists (nth tt lbs []). split; [|apply nth_error_In with i, Hi].
      apply nth_In. destruct (le_lt_dec (length lbs) tt) as [Hge|Hlt]; [|exact Hlt]. rewrite nth_overflow in Hi by exact Hge. destruct i; discriminate Hi. }
  assert (Line : forall l, In l (u_labels lbs) -> exists cols p, 
    match x_dim dim sts with None => Err TypeErr | Some d0 => do c <- columns dim d0 l sts lbs;
      match first_some c with None => Err IndexErr | Some p => Ok (l, c, p) end end = Ok (l, cols, p) /\ trajectory sts lbs n l cols p).
  { intros l Hl. apply RI in Hl. destruct Hl as [tt [x Hr]]. rewrite (x_dim_some dim d) by
      (exact Hd || (destruct Hr as [i [_ Hi]]; exists (nth tt sts []), x; split; [|apply nth_error_In with i, Hi]; apply nth_In;
       destruct (le_lt_dec (length sts) tt) as [Hge|Hlt]; [|exact Hlt]; rewrite nth_overflow in Hi by exact Hge; destruct i; discriminate Hi)).
    destruct (columns_spec dim d n sts lbs l L1 L2 HA Hd) as [cols [Ec [Lc Hc]]]. rewrite Ec. cbn [bind].
    destruct (first_some_spec cols) as [p [t0 [A [B C]]]]; [exists tt, x; apply Hc, Hr|]. rewrite A. exists cols, p. split; [reflexivity|].
    split; [exact Lc|]. split; [exact Hc|]. exists t0. split; assumption. }
  unfold plot_states_labels.
  match goal with |- exists lines, mapM ?f _ = _ /\ _ => destruct (mapM_all_ok f (u_labels lbs)) as [lines El]; [intros l Hl; destruct (Line l Hl) as [cols [p [E _]]]; eauto|] end.
  exists lines. split; [exact El|]. apply mapM_ok in El.
  assert (F : Forall2 (fun l line => fst (fst line) = l /\ In l (u_labels lbs) /\ trajectory sts lbs n l (snd (fst line)) (snd line)) (u_labels lbs) lines).
  { apply Forall2_in_l in El. eapply F2_impl; [|exact El]. cbv beta. intros l line [Hl E].
    destruct (Line l Hl) as [cols [p [E' T]]]. rewrite E' in E. injection E as <-. cbn [fst snd]. auto. }
  assert (M : map (fun x => fst (fst x)) lines = u_labels lbs).
  { clear - F. induction F as [|l line ls lines' [E _] F IH]; [reflexivity|]. cbn [map]. rewrite E, IH. reflexivity. }
  unfold picture. rewrite M. split; [exact U1|]. split; [exact RI|]. intros l cols p Hin. apply In_nth with (d := (l, cols, p)) in Hin. destruct Hin as [k [Hk E]].
  destruct (Forall2_nth _ _ _ F) as [Lf Hf]. specialize (Hf k l (l, cols, p) ltac:(lia)). rewrite E in Hf. cbn [fst snd] in Hf. destruct Hf as [El' [_ T]]. rewrite <- El' in T. exact T.
Qed.

(** ** theorems *)
(** C214.  [dim] is the size of a state vector. *)
Theorem C214_labels_plot : forall {FS ST CV MS} (dim : ST -> nat) d n (s : glmb FS ST CV MS),
  lists_aligned n s -> (forall row x, In row (g_states s) -> In x row -> dim x = d) ->
  exists lines, plot_states_labels dim (g_states s) (g_labels s) = Ok lines /\ picture (g_states s) (g_labels s) n lines.
Proof.
  intros FS ST CV MS dim d n s [A [B [_ C]]] Hd. eapply picture_of; [exact A|exact B| |exact Hd]. intros tt. destruct (C tt) as [D [_ F]]. split; assumption.
Qed.
Print Assumptions C214_labels_plot.
Theorem C214_glmb_labels_plot : forall {FS ST CV MS} (dim : ST -> nat) d (E : genv FS ST CV MS) c os s u k o s',
  kshort_ok (v_kshort E) -> murty_ok (v_murty E) -> NoDup (map (v_rnd E) (predict_times os)) ->
  run E c os glmb_new = Ok s -> extract_states c u k s = Ok (o, s') ->
  (forall row x, In row (g_states s') -> In x row -> dim x = d) ->
  exists lines, plot_states_labels dim (g_states s') (g_labels s') = Ok lines /\ picture (g_states s') (g_labels s') (length (filter is_clean os)) lines.
Proof.
  intros FS ST CV MS dim d E c os s u k o s' Hk Hm Hn R X Hd. eapply C214_labels_plot; [|exact Hd]. exact (C55_glmb_outputs_aligned E c os s u k o s' Hk Hm Hn R X).
Qed.
Print Assumptions C214_glmb_labels_plot.
Theorem C214_smc_labels_plot : forall {P X ST CV MS} (dim : ST -> nat) d (Z : senv P X ST CV MS) c bs os s u k o s',
  kshort_ok (v_kshort (z_g Z)) -> murty_ok (v_murty (z_g Z)) -> NoDup (map (v_rnd (z_g Z)) (spredict_times os)) ->
  srun Z c bs os glmb_new = Ok s -> extract_states c u k s = Ok (o, s') ->
  (forall row x, In row (g_states s') -> In x row -> dim x = d) ->
  exists lines, plot_states_labels dim (g_states s') (g_labels s') = Ok lines /\ picture (g_states s') (g_labels s') (length (filter is_sclean os)) lines.
Proof. intros P X ST CV MS dim d Z c bs os s u k o s' Hk Hm Hn R Ex Hd. eapply C214_labels_plot; [|exact Hd]. exact (C190_smc_outputs_aligned Z c bs os s u k o s' Hk Hm Hn R Ex). Qed.
Print Assumptions C214_smc_labels_plot.
Theorem C214_jglmb_labels_plot : forall {FS ST CV MS} (dim : ST -> nat) d (E : genv FS ST CV MS) rnd gt c os s u k o g,
  uniform rnd -> NoDup (map (v_rnd E) (predict_times os)) -> settled false (os ++ [OpExtract u k]) ->
  jrun E (sampler_of rnd) gt c os jst_new = Ok s -> extract_states c u k (y_g s) = Ok (o, g) ->
  (forall row x, In row (g_states g) -> In x row -> dim x = d) ->
  exists lines, plot_states_labels dim (g_states g) (g_labels g) = Ok lines /\ picture (g_states g) (g_labels g) (length (filter is_clean os)) lines.
Proof. intros FS ST CV MS dim d E rnd gt c os s u k o g Hu Hn Hs R Ex Hd. eapply C214_labels_plot; [|exact Hd]. exact (C190_jglmb_outputs_aligned E rnd gt c os s u k o g Hu Hn Hs R Ex). Qed.
Print Assumptions C214_jglmb_labels_plot.
Theorem C214_smc_jglmb_labels_plot : forall {P X ST CV MS} (dim : ST -> nat) d rnd gt (vs : list (sjcall P X ST CV MS)) c s u k o g,
  uniform rnd -> NoDup (sjtimes vs) -> ssettled false (sjops vs ++ [SExtract u k]) ->
  sjrun (sampler_of rnd) gt vs jst_new = Ok s -> extract_states c u k (y_g s) = Ok (o, g) ->
  (forall row x, In row (g_states g) -> In x row -> dim x = d) ->
  exists lines, plot_states_labels dim (g_states g) (g_labels g) = Ok lines /\ picture (g_states g) (g_labels g) (length (filter is_sclean (sjops vs))) lines.
Proof. intros P X ST CV MS dim d rnd gt vs c s u k o g Hu Hn Hs R Ex Hd. eapply C214_labels_plot; [|exact Hd]. exact (C190_smc_jglmb_outputs_aligned rnd gt vs c s u k o g Hu Hn Hs R Ex). Qed.
Print Assumptions C214_smc_jglmb_labels_plot.

(** C213: with a time vector the plot shows how many tracks were reported at each
    step, provided it has one time per completed step. *)
Theorem C213_glmb_card_plot_partial : forall {FS ST CV MS} n (s : glmb FS ST CV MS) v, lists_aligned n s ->
  (length v = n -> plot_glmb_card (g_states s) (Some v) = Ok (combine v (map (fun l => INR (length l)) (g_labels s)))) /\
  (length v <> n -> plot_glmb_card (g_states s) (Some v) = Err ValueErr).
Proof.
  intros FS ST CV MS n s v [A [B [_ C]]]. unfold plot_glmb_card, draw. rewrite map_length, A.
  assert (E : map (fun l => INR (length l)) (g_states s) = map (fun l => INR (length l)) (g_labels s)).
  { apply (nth_ext _ _ 0 0); [rewrite !map_length; congruence|]. intros k _. pose proof (map_nth (fun l : list ST => INR (length l)) (g_states s) [] k) as H1. pose proof (map_nth (fun l : list label => INR (length l)) (g_labels s) [] k) as H2.
    cbv beta in H1, H2. change (INR (length (@nil ST))) with 0 in H1. change (INR (length (@nil label))) with 0 in H2. rewrite H1, H2. destruct (C k) as [D _]. rewrite D. reflexivity. }
  rewrite E. split; intros H; [apply Nat.eqb_eq in H | apply Nat.eqb_neq in H]; rewrite H; reflexivity.
Qed.
Print Assumptions C213_glmb_card_plot_partial.
(** Without one it raises AttributeError, here after one step with one track reported. *)
Theorem C213_default_time_refuted : 
  (forall {FS ST CV MS} (s : glmb FS ST CV MS), plot_glmb_card (g_states s) None = Err AttributeErr) /\
  exists (Z : senv R unit R unit unit) c bs os s o s',
    srun Z c bs os glmb_new = Ok s /\ extract_states c true true s = Ok (o, s') /\ lists_aligned 1 s' /\
    length (last (g_labels s') []) = 1%nat /\ plot_glmb_card (g_states s') None = Err AttributeErr.
Proof.
  split; [reflexivity|]. destruct C190_smc_hypotheses as [Z [c [bs [f [s [o [s' [_ [_ [_ [R1 [R2 [R3 R4]]]]]]]]]]]]].
  eexists Z, c, bs, _, s, o, s'. split; [exact R1|]. split; [exact R2|]. split; [exact R3|]. split; [exact R4|]. reflexivity.
Qed.
Print Assumptions C213_default_time_refuted.

(** Instances: two steps, two tracks, one of them missing at the first step. *)
Example C214_ex : let a := (0%Z, 0%nat) in let b := (1%Z, 0%nat) in
  plot_states_labels (fun _ : nat => 4%nat) [[10%nat]; [20%nat; 11%nat]] [[a]; [b; a]] =
  Ok [(a, [Some 10%nat; Some 11%nat], 10%nat); (b, [None; Some 20%nat], 20%nat)].
Proof. reflexivity. Qed.
Example C213_ex : exists (s : glmb (pfs R unit) R unit unit) x, lists_aligned 1 s /\ length (last (g_labels s) []) = 1%nat /\ plot_glmb_card (g_states s) (Some [7]) = Ok [(7, x)].
Proof.
  destruct C190_smc_hypotheses as [Z [c [bs [f [s [o [s' [_ [_ [_ [_ [_ [R3 R4]]]]]]]]]]]]].
  pose proof (proj1 (C213_glmb_card_plot_partial 1 s' [7] R3) eq_refl) as H. destruct R3 as [A [B C]].
  destruct (g_labels s') as [|l [|? ?]] eqn:E; try discriminate B. exists s', (INR (length l)). rewrite E. split; [|split; [exact R4|exact H]].
  unfold lists_aligned. rewrite E. split; [exact A|]. split; [reflexivity|]. exact C.
Qed.
