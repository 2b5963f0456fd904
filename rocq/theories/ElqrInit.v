(** What [iterate] starts from when no measured Gaussian matches an old object,
    and what a match does. *)
From Verif Require Import Base Lists.
From Coq Require Import Reals Lra.
From Verif Require Import OspaModel OspaProofs GuidModel GuidSpec GuidProofs ElqrModel ElqrSpec ElqrProofs.
Open Scope R_scope.

Section I.
Variables (dim : nat) (inv : mat -> mat) (chi2_ppf : R -> nat -> R) (h : nat) (thresh : R).
Variables (mg : gmx) (dyn invd : list (list dynf)) (nin : list nat) (nom : option (list vec)).
Hypothesis Hmg : good_measurement dim mg dyn invd nin.
Hypothesis Hnom : match nom with None => True | Some l => length l = length nin end.
Let zm : mat := fun _ _ => 0.
Definition nom_at (i : nat) : vec := match nom with None => vzero | Some l => nth i l vzero end.
Definition fresh_at (i : nat) : gobj :=
  fresh_obj h (nth i (t_m mg) vzero) (nth i (t_p mg) zm) (nth i (t_w mg) 0) (nth i nin 0%nat) (nth i dyn []) (nth i invd []) (nom_at i).
Lemma get_nth {A} (l : list A) i d : (i < length l)%nat -> get l i = Ok (nth i l d).
Proof. intro H. destruct (get_lt l i H) as [x [-> E]]. now rewrite (nth_error_nth _ _ _ E). Qed.

(** The first measurement in [iis] with a match decides. *)
Lemma init_loop_cases gs iis : (forall g, In g gs -> (2 <= length (g_means g))%nat) -> (forall i, In i iis -> (i < length (t_m mg))%nat) ->
  (forall i g, In i iis -> In g gs -> chi2_ppf thresh dim <= mahal dim inv (nth i (t_m mg) vzero) g) ->
  init_loop dim inv chi2_ppf h thresh mg dyn invd nin nom iis gs = Ok (map fresh_at iis, gs).
Proof.
  destruct Hmg as [G1 [G2 [G3 [G4 [G5 _]]]]].
  intros Hg. induction iis as [|ii iis IH]; intros Hi Hb; cbn [init_loop map]; [reflexivity|].
  assert (Hii := Hi ii (or_introl eq_refl)). rewrite (get_nth (t_m mg) ii vzero Hii). cbn [bind].
  destruct (best_fit_total dim inv (nth ii (t_m mg) vzero) gs 0 None Hg) as [best Hbest]. rewrite Hbest. cbn [bind].
  rewrite (get_nth (t_p mg) ii zm) by lia. cbn [bind]. rewrite (get_nth (t_w mg) ii 0) by lia. cbn [bind].
  rewrite (get_nth nin ii 0%nat) by lia. cbn [bind]. rewrite (get_nth dyn ii []) by lia. cbn [bind]. rewrite (get_nth invd ii []) by lia. cbn [bind].
  assert (En : match nom with None => Ok vzero | Some l => get l ii end = Ok (nom_at ii)).
  { unfold nom_at. destruct nom as [l|]; [|reflexivity]. apply get_nth. lia. }
  rewrite En. cbn [bind].
  assert (Hrest := IH (fun i H => Hi i (or_intror H)) (fun i g H1 H2 => Hb i g (or_intror H1) H2)).
  apply best_fit_spec in Hbest as [_ Hbest]. destruct best as [[ind f]|].
  - destruct Hbest as [[E|[_ [g [Eg Ef]]]] _]; [easy|].
    destruct (Rlt_dec f (chi2_ppf thresh dim)) as [Hl|_].
    { exfalso. specialize (Hb ii g (or_introl eq_refl) (nth_error_In _ _ Eg)). rewrite (fitc_mahal dim inv) in Hb. lra. }
    cbn [bind]. rewrite Hrest. reflexivity.
  - cbn [bind]. rewrite Hrest. reflexivity.
Qed.
Lemma init_fresh gs : no_match dim inv (chi2_ppf thresh dim) gs mg ->
  initialize dim inv chi2_ppf h thresh gs mg dyn invd nin nom = Ok (map fresh_at (seq 0 (length (t_m mg))), match t_m mg with [] => gs | _ => gs end).
Proof.
  intro Hn. unfold initialize. destruct (t_m mg) as [|m ms] eqn:Em; [reflexivity|]. rewrite <- Em.
  rewrite init_loop_cases; [destruct (t_m mg); reflexivity|intros g Hg; now apply Hn| |].
  - intros i Hi. apply in_seq in Hi. lia.
  - intros i g Hi Hg. apply in_seq in Hi. apply Hn; [exact Hg|]. apply nth_In. lia.
Qed.
(** Any match of an object that initialize made before ends the call. *)
Lemma init_loop_match gs iis : (2 <= h)%nat -> (forall g, In g gs -> length (g_means g) = h /\ g_ctrl_inputs g = ctl_default) -> (forall i, In i iis -> (i < length (t_m mg))%nat) ->
  (exists i g, In i iis /\ In g gs /\ mahal dim inv (nth i (t_m mg) vzero) g < chi2_ppf thresh dim) ->
  init_loop dim inv chi2_ppf h thresh mg dyn invd nin nom iis gs = Err ValueErr.
Proof.
  intros Hh Hg. destruct Hmg as [G1 [G2 [G3 [G4 [G5 _]]]]].
  induction iis as [|ii iis IH]; intros Hi [i [g [Hin [Hgin Hfit]]]]; [easy|]. cbn [init_loop].
  assert (Hii := Hi ii (or_introl eq_refl)). rewrite (get_nth (t_m mg) ii vzero Hii). cbn [bind].
  destruct (best_fit_total dim inv (nth ii (t_m mg) vzero) gs 0 None) as [best Hbest]; [intros x Hx; apply Hg in Hx; lia|]. rewrite Hbest. cbn [bind].
  rewrite (get_nth (t_p mg) ii zm) by lia. cbn [bind]. rewrite (get_nth (t_w mg) ii 0) by lia. cbn [bind].
  rewrite (get_nth nin ii 0%nat) by lia. cbn [bind]. rewrite (get_nth dyn ii []) by lia. cbn [bind]. rewrite (get_nth invd ii []) by lia. cbn [bind].
  assert (En : match nom with None => Ok vzero | Some l => get l ii end = Ok (nom_at ii)).
  { unfold nom_at. destruct nom as [l|]; [|reflexivity]. apply get_nth. lia. }
  rewrite En. cbn [bind].
  apply best_fit_spec in Hbest as [_ Hbest]. destruct best as [[ind f]|]; [|destruct Hbest as [_ ->]; easy].
  destruct Hbest as [[E|[_ [x [Ex Ef]]]] [Hmin _]]; [easy|]. rewrite Nat.sub_0_r in Ex.
  destruct (Rlt_dec f (chi2_ppf thresh dim)) as [Hl|Hl].
  - unfold get at 1. rewrite Ex. cbn [bind]. destruct gs as [|g1 gs]; [easy|]. unfold get at 1. cbn [nth_error bind].
    assert (Hx' := nth_error_In _ _ Ex). apply Hg in Hx' as [_ Hx']. unfold matched_obj at 1. rewrite Hx'. cbn [u_rows ctl_default skipn length].
    destruct (Nat.eqb_spec 0 (h - 1)); [lia|]. reflexivity.
  - cbn [bind]. rewrite IH; [reflexivity|intros j Hj; apply Hi; now right|].
    destruct Hin as [->|Hin]; [exfalso|now exists i, g].
    specialize (Hmin g Hgin). rewrite (fitc_mahal dim inv) in Hfit. lra.
Qed.

Variables (pdf : vec -> vec -> mat -> R) (det : mat -> R).
Variables (max_iters : nat) (cost_tol safety y_ref : R) (tg : gmx) (fwd bwd : pass_in -> result pass_out).
Variables (qfinal : vec -> vec -> option vec -> result (mat * mat)) (fcost : vec -> option vec -> R).
Notation iter gs nomr := (iterate dim pdf inv det chi2_ppf h max_iters cost_tol thresh safety y_ref tg fwd bwd qfinal fcost gs mg dyn invd nin nom nomr).
Notation loop := (iter_loop dim pdf inv det h cost_tol safety y_ref tg fwd bwd qfinal fcost).
Definition eobj_at (i : nat) : eobj := {| e_obj := fresh_at i; e_rows := repeat (nth i nin 0%nat) h |}.
Definition desc_at (i : nat) : edesc :=
  {| d_w := nth i nin 0%nat; d_cov := nth i (t_p mg) zm; d_wt := nth i (t_w mg) 0; d_dyn := nth i dyn []; d_inv := nth i invd []; d_ctrl := ctl_default |}.
Lemma mapM_map1 {A B C} (f : B -> result C) (g : A -> B) l : mapM f (map g l) = mapM (fun a => f (g a)) l.
Proof. induction l as [|a l IH]; [reflexivity|]. cbn [map mapM]. now rewrite IH. Qed.
Lemma iterate_setup gs nomr : no_match dim inv (chi2_ppf thresh dim) gs mg -> t_m mg <> [] -> (nom <> None -> nomr = nin) ->
  iter gs nomr = if (2 <=? h)%nat then loop max_iters None (map eobj_at (seq 0 (length (t_m mg)))) (t_m mg) else Err IndexErr.
Proof.
  intros Hn Hne Hr. unfold iterate. rewrite init_fresh by exact Hn. cbn [bind].
  assert (Erows : match nom with None => nin | Some _ => nomr end = nin) by (destruct nom; [now apply Hr|reflexivity]). rewrite Erows.
  assert (Ees : map (fun ir => {| e_obj := snd ir; e_rows := repeat (nth (fst ir) nin 0%nat) h |}) (index (map fresh_at (seq 0 (length (t_m mg))))) = map eobj_at (seq 0 (length (t_m mg)))).
  { unfold index. rewrite map_length, seq_length. generalize (seq 0 (length (t_m mg))) as l. induction l as [|a l IH]; [reflexivity|]. cbn [map combine fst snd]. now rewrite IH. }
  cbv zeta. rewrite Ees.
  destruct (t_m mg) as [|m0 ms] eqn:Em; [easy|]. rewrite <- Em in *. 
  assert (Hcons : exists a l, map eobj_at (seq 0 (length (t_m mg))) = a :: l) by (rewrite Em; cbn; now eexists _, _).
  destruct Hcons as [a [l Hcons]].
  destruct (Nat.leb_spec 2 h) as [Hh|Hh].
  - assert (Exs : mapM (fun e => get (g_means (e_obj e)) 1) (map eobj_at (seq 0 (length (t_m mg)))) = Ok (t_m mg)).
    { rewrite mapM_map1. cbn [eobj_at e_obj fresh_at fresh_obj g_means].
      rewrite (mapM_seq _ (fun i => nth i (t_m mg) vzero) _ 0).
      - rewrite seq_length. f_equal. apply map_nth_seq.
      - intros i x Hx. cbn [Nat.add]. assert (x = i) as ->.
        { assert (Hil : (i < length (t_m mg))%nat) by (rewrite <- (seq_length (length (t_m mg)) 0); apply nth_error_Some; congruence).
          rewrite nth_error_nth' with (d := 0%nat) in Hx by now rewrite seq_length. rewrite seq_nth in Hx by exact Hil. now injection Hx. }
        destruct h as [|[|h']]; [lia|lia|]. reflexivity. }
    rewrite Exs. cbn [bind]. rewrite Hcons. reflexivity.
  - rewrite Hcons. cbn [mapM]. 
    assert (Ea : get (g_means (e_obj a)) 1 = Err IndexErr).
    { assert (Ha : a = eobj_at 0) by (rewrite Em in Hcons; cbn in Hcons; now injection Hcons). rewrite Ha. cbn [eobj_at e_obj fresh_at fresh_obj g_means].
      unfold get. destruct (nth_error _ 1) eqn:E; [|reflexivity]. exfalso.
      assert (Hlt : (1 < length (repeat (nth 0 (t_m mg) vzero) h))%nat) by (apply nth_error_Some; congruence). rewrite repeat_length in Hlt. lia. }
    rewrite Ea. reflexivity.
Qed.
Lemma setup_wfe : Forall2 (wfe h []) (map desc_at (seq 0 (length (t_m mg)))) (map eobj_at (seq 0 (length (t_m mg)))).
Proof.
  generalize (seq 0 (length (t_m mg))) as l. induction l as [|i l IH]; cbn [map]; constructor; [|exact IH].
  constructor; cbn [eobj_at e_obj e_rows fresh_at fresh_obj g_means g_fb g_ff g_ccm g_ccv g_cgm g_cgv g_ctrl_input g_ctrl_inputs g_cov g_w g_dyn g_inv desc_at d_w d_cov d_wt d_dyn d_inv d_ctrl];
    rewrite ?repeat_length; try reflexivity.
  - eexists. split; [reflexivity|]. cbn [ctl_zeros u_rows u_width]. now rewrite repeat_length.
  - intros k r Hk. left. apply nth_error_In in Hk. now apply repeat_spec in Hk.
  - easy.
Qed.
Lemma desc_small d : In d (map desc_at (seq 0 (length (t_m mg)))) -> (length (d_dyn d) <= dim)%nat /\ (length (d_inv d) <= dim)%nat.
Proof.
  intro H. apply in_map_iff in H as [i [<- Hi]]. apply in_seq in Hi. destruct Hmg as [G1 [G2 [G3 [G4 [G5 [G6 G7]]]]]]. cbn [desc_at d_dyn d_inv].
  split; [apply G6|apply G7]; apply nth_In; lia.
Qed.
End I.
