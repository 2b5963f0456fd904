(** What extract_most_prob_states returns, exactly (C58): every hypothesis of the
    most probable cardinality that reaches the threshold, in order, and possibly the
    first hypothesis of the list at the end. *)
From Verif Require Import Base Lists.
From Coq Require Import Reals Permutation Sorted Lra Lia.
From Verif Require Import OspaModel CphdModel OspaProofs CphdSpec CphdProofs GlmbModel GlmbSpec GlmbProofs GlmbInv GlmbExtract GlmbMost GlmbTotal GlmbProps GlmbProps2 GlmbDemo GlmbProps3.
Open Scope R_scope.

Section M.
Context {FS ST CV MS : Type}.
Implicit Types (c : gcfg ST CV) (s : glmb FS ST CV MS).
Variables (hs : list hyp) (n : nat) (th : R).
Hypothesis Hpos : forall h, In h hs -> 0 < h_p h.
Hypothesis Hth : 0 < th.
(** Hypotheses with the probabilities of the indices [z] set to zero. *)
Definition zeroed (z : list nat) (hs' : list hyp) : Prop :=
  length hs' = length hs /\ forall i h, nth_error hs i = Some h -> exists h', nth_error hs' i = Some h' /\ h_ts h' = h_ts h /\ h_p h' = if existsb (Nat.eqb i) z then 0 else h_p h.
Lemma mem_in i z : existsb (Nat.eqb i) z = true <-> In i z.
Proof. rewrite existsb_exists. split; [intros [x [A B]]; apply Nat.eqb_eq in B; subst; exact A|intros H; exists i; split; [exact H|apply Nat.eqb_refl]]. Qed.
Lemma mem_not i z : existsb (Nat.eqb i) z = false <-> ~ In i z.
Proof. rewrite <- mem_in. destruct (existsb _ _); split; congruence. Qed.
Lemma zeroed_step z hs' i : zeroed z hs' -> zeroed (i :: z) (set_prob0 i hs').
Proof.
  intros [L H]. split; [rewrite <- (map_length h_ts), set_prob0_ts, map_length; exact L|]. intros j h Hj. destruct (H j h Hj) as [h' [A [B C]]]. rewrite set_prob0_nth, A. cbn [existsb]. destruct (Nat.eqb_spec j i) as [E|E].
  - cbn [option_map orb]. eexists. split; [reflexivity|]. split; [exact B|reflexivity].
  - cbn [orb]. exists h'. auto.
Qed.
Definition cardi (i : nat) : Prop := exists h, nth_error hs i = Some h /\ length (h_ts h) = n.
Definition reach (i : nat) : Prop := exists h, nth_error hs i = Some h /\ th <= h_p h.
Notation prob i := (nth i (map h_p hs) 0).
Lemma prob_of i h : nth_error hs i = Some h -> prob i = h_p h.
Proof. intros H. exact (nth_error_nth _ _ _ (map_nth_error h_p i hs H)). Qed.
(** The index found by one extraction. *)
Lemma pick s z i : argmaxR (g_card s) = Ok n -> zeroed z (g_hyps s) -> map_index s = Ok i ->
  (i < length hs)%nat /\
  ((cardi i /\ ~ In i z /\ forall j, cardi j -> ~ In j z -> prob j <= prob i) \/ ((forall j, cardi j -> In j z) /\ i = 0%nat)).
Proof.
  intros Hc [L HZ] Hi. unfold map_index in Hi. rewrite Hc in Hi. cbn [bind] in Hi. apply argmaxR_spec in Hi. set (v := map _ (g_hyps s)) in Hi.
  assert (Lv : length v = length hs) by (unfold v; rewrite map_length; exact L). destruct Hi as [H1 [H2 H3]]. rewrite Lv in H1, H2. split; [exact H1|].
  assert (V : forall j h, nth_error hs j = Some h -> nth j v 0 = if (length (h_ts h) =? n)%nat then (if existsb (Nat.eqb j) z then 0 else h_p h) else 0).
  { intros j h Hj. destruct (HZ j h Hj) as [h' [A [B C]]]. unfold v.
    rewrite (nth_error_nth _ _ _ (map_nth_error (fun h0 => if (length (h_ts h0) =? n)%nat then h_p h0 * 1 else h_p h0 * 0) j _ A)), B, C. destruct (length (h_ts h) =? n)%nat; lra. }
  assert (V0 : forall j, 0 <= nth j v 0).
  { intros j. destruct (nth_error hs j) as [h|] eqn:Ej; [|rewrite nth_overflow; [lra|rewrite Lv; apply nth_error_None, Ej]]. rewrite (V j h Ej). specialize (Hpos h (nth_error_In _ _ Ej)). destruct (_ =? _)%nat; [destruct (existsb _ _)|]; lra. }
  destruct (nth_error hs i) as [hi|] eqn:Ei; [|apply nth_error_None in Ei; lia]. pose proof (V i hi Ei) as Vi.
  destruct (Rlt_dec 0 (nth i v 0)) as [P|P].
  - left. destruct (Nat.eqb_spec (length (h_ts hi)) n) as [E|E]; [|lra]. destruct (existsb (Nat.eqb i) z) eqn:Em; [lra|]. split; [exists hi; auto|]. split; [apply mem_not, Em|].
    intros j [h [Hj Cj]] Nj. apply mem_not in Nj. pose proof (V j h Hj) as Vj. rewrite Cj, Nat.eqb_refl, Nj in Vj. rewrite (prob_of j h Hj), (prob_of i hi Ei), <- Vj, <- Vi. apply H2. apply nth_error_Some. congruence.
  - right. assert (Zi : nth i v 0 = 0) by (specialize (V0 i); lra). split.
    + intros j [h [Hj Cj]]. apply mem_in. destruct (existsb (Nat.eqb j) z) eqn:Em; [reflexivity|]. exfalso. pose proof (V j h Hj) as Vj. rewrite Cj, Nat.eqb_refl, Em in Vj.
      specialize (H2 j ltac:(apply nth_error_Some; congruence)). specialize (Hpos h (nth_error_In _ _ Hj)). lra.
    + destruct i as [|i]; [reflexivity|]. specialize (H3 0%nat ltac:(lia)). specialize (V0 0%nat). lra.
Qed.
Notation outs := (Forall2 (fun i (o : list (list ST) * list (list label) * list (list (option CV)) * R) => exists h, nth_error hs i = Some h /\ h_p h = snd o)).
Definition Res c fuel s z : Prop :=
  exists main extra out, most_loop fuel c th s = Ok out /\ outs (main ++ extra) out /\ NoDup (main ++ extra) /\ (forall i, In i (main ++ extra) -> ~ In i z) /\
    (forall i, In i main <-> cardi i /\ reach i /\ ~ In i z) /\ StronglySorted (fun i j => prob j <= prob i) main /\
    (extra = [] \/ (extra = [0%nat] /\ ~ cardi 0 /\ reach 0 /\ forall j, cardi j -> In j z \/ reach j)).
Lemma most_loop_exact c : forall fuel s z, Extractable c s -> argmaxR (g_card s) = Ok n -> zeroed z (g_hyps s) -> NoDup z -> (forall i, In i z -> (i < length hs)%nat) -> (length hs <= fuel + length z)%nat ->
  Res c fuel s z.
Proof.
  induction fuel as [|fuel IH]; intros s z HE Hc HZ Hn Hr Hf.
  all: destruct (map_index_ok s (proj1 HE) (proj1 (proj2 HE))) as [i Hi]; destruct (pick s z i Hc HZ Hi) as [Hil Hcase];
    destruct (nth_error hs i) as [hi|] eqn:Ei; [|apply nth_error_None in Ei; lia]; destruct (proj2 HZ i hi Ei) as [hi' [Ei' [Ti Pi]]].
  all: assert (Hstop : forall f, h_p hi' < th -> Res c f s z) by (intros f Hlt; exists [], [], []; rewrite (most_loop_stop c th f s i hi' HE Hi Ei' Hlt); split; [reflexivity|]; split; [constructor|]; split; [constructor|]; split; [intros k []|]; split; [|split; [constructor|left; reflexivity]];
    intros k; split; [intros []|]; intros [Ck [[hk [Ek Rk]] Nk]]; destruct Hcase as [[Ci [Ni Mi]]|[Ci _]]; [|exact (Nk (Ci k Ck))];
    specialize (Mi k Ck Nk); rewrite (prob_of k hk Ek), (prob_of i hi Ei) in Mi; apply mem_not in Ni; rewrite Ni in Pi; lra).
  - destruct (Rle_dec th (h_p hi')) as [Hle|Hle]; [|apply Hstop; lra]. exfalso. destruct (existsb (Nat.eqb i) z) eqn:Em; [lra|]. apply mem_not in Em.
    assert (Hl : (length (i :: z) <= length (seq 0 (length hs)))%nat) by (apply NoDup_incl_length; [constructor; assumption|intros k [<-|Hk]; apply in_seq; [lia|specialize (Hr k Hk); lia]]). rewrite seq_length in Hl. cbn [length] in Hl. lia.
  - destruct (Rle_dec th (h_p hi')) as [Hle|Hle]; [|apply Hstop; lra]. clear Hstop. destruct (existsb (Nat.eqb i) z) eqn:Em; [lra|]. apply mem_not in Em. rewrite Pi in Hle.
    destruct (most_loop_step c th fuel s i hi' HE Hi Ei' ltac:(lra)) as [s1 [o [G1 [G2 [G3 [G4 G5]]]]]].
    destruct (IH s1 (i :: z) G3 ltac:(rewrite G2; exact Hc)) as [main [extra [out [A1 [A2 [A3 [A4 [A5 [A6 A7]]]]]]]]].
    { rewrite G1. apply zeroed_step, HZ. } { constructor; assumption. } { intros k [<-|Hk]; [exact Hil|exact (Hr k Hk)]. } { cbn [length]. lia. }
    assert (Ho : exists h, nth_error hs i = Some h /\ h_p h = snd o) by (exists hi; split; [exact Ei|congruence]).
    destruct Hcase as [[Ci [Ni Mi]]|[Ci E0]].
    + exists (i :: main), extra, (o :: out). rewrite G5, A1. cbn [bind app]. split; [reflexivity|]. split; [constructor; assumption|].
      split; [constructor; [intros Hin; apply (A4 i Hin); left; reflexivity|exact A3]|]. split; [intros k [<-|Hk]; [exact Em|intros Hz; apply (A4 k Hk); right; exact Hz]|].
      split; [|split].
      * intros k. cbn [In]. rewrite A5. cbn [In]. split.
        -- intros [<-|[B1 [B2 B3]]]; [split; [exact Ci|]; split; [exists hi; auto|exact Ni]|]. split; [exact B1|]. split; [exact B2|]. intros Hz. apply B3. right. exact Hz.
        -- intros [B1 [B2 B3]]. destruct (Nat.eq_dec i k) as [E|E]; [left; exact E|right; split; [exact B1|split; [exact B2|intros [E'|E']; [exact (E E')|exact (B3 E')]]]].
      * constructor; [exact A6|]. apply Forall_forall. intros k Hk. apply A5 in Hk as [B1 [_ B3]]. apply Mi; [exact B1|]. intros Hz. apply B3. right. exact Hz.
      * destruct A7 as [A7|[B1 [B2 [B3 B4]]]]; [left; exact A7|right]. split; [exact B1|]. split; [exact B2|]. split; [exact B3|]. intros j Cj. destruct (B4 j Cj) as [[<-|Hz]|B]; [right; exists hi; auto|left; exact Hz|right; exact B].
    + subst i. assert (Hmain : main = []).
      { destruct main as [|k main]; [reflexivity|]. exfalso. destruct (proj1 (A5 k) (or_introl eq_refl)) as [B1 [_ B3]]. apply B3. right. exact (Ci k B1). }
      assert (Hex : extra = []).
      { destruct A7 as [A7|[B1 _]]; [exact A7|]. exfalso. apply (A4 0%nat); [rewrite B1; apply in_or_app; right; left; reflexivity|left; reflexivity]. }
      subst main extra. exists [], [0%nat], (o :: out). rewrite G5, A1. cbn [bind app] in *. split; [reflexivity|]. split; [constructor; assumption|].
      split; [constructor; [intros []|constructor]|]. split; [intros k [<-|[]]; exact Em|].
      split; [intros k; split; [intros []|intros [B1 [_ B3]]; exact (B3 (Ci k B1))]|]. split; [constructor|]. right. split; [reflexivity|]. split; [intros C0; exact (Em (Ci 0%nat C0))|]. split; [exists hi; auto|]. intros j Cj. left. exact (Ci j Cj).
Qed.
End M.

Lemma most_prob_exact {FS ST CV MS} c (s : glmb FS ST CV MS) th : Extractable c s -> 0 < th ->
  (forall h, In h (g_hyps s) -> 0 < h_p h) -> card_matches (g_card s) (g_hyps s) ->
  let hs := g_hyps s in
  let prob i := nth i (map h_p hs) 0 in
  exists n main extra out,
    (** [n] is the most probable cardinality, its hypotheses of probability at least
        [th] are all in [main] with no others but the first, which is a most
        probable one *)
    is_mode (g_card s) n /\
    (forall i h, nth_error hs i = Some h -> length (h_ts h) = n -> th <= h_p h -> In i main) /\
    (forall i, In i main -> exists h, nth_error hs i = Some h /\ length (h_ts h) = n) /\
    (exists first rest, main = first :: rest /\ (forall i, In i rest -> th <= prob i) /\ (forall i h, nth_error hs i = Some h -> length (h_ts h) = n -> h_p h <= prob first)) /\
    (** in order of probability, each once *)
    StronglySorted (fun i j => prob j <= prob i) main /\ NoDup (main ++ extra) /\
    (** at most one more: the first of the list, of another cardinality *)
    (extra = [] \/ (extra = [0%nat] /\ th <= prob 0%nat /\ (forall h, nth_error hs 0 = Some h -> length (h_ts h) <> n))) /\
    (** these are the results *)
    Forall2 (fun i o => (i < length hs)%nat /\ snd o = prob i) (main ++ extra) out /\
    forall fuel, (length hs <= fuel)%nat -> most_prob fuel c th s = Ok out.
Proof.
  intros HE Hth Hpos Hcm hs prob. pose proof (proj1 (proj2 HE)) as Hne.
  destruct (argmax_ok (g_card s) (proj1 HE)) as [n Hn]. destruct (map_index_ok s (proj1 HE) (proj1 (proj2 HE))) as [i Hi].
  assert (HZ : zeroed hs [] (g_hyps s)) by (split; [reflexivity|intros j h Hj; exists h; cbn; auto]).
  destruct (pick hs n Hpos s [] i Hn HZ Hi) as [Hil Hcase].
  assert (Hex : exists j h, nth_error hs j = Some h /\ length (h_ts h) = n).
  { pose proof (argmaxR_spec _ _ Hn) as [_ [M _]]. assert (I0 : exists h0, In h0 (g_hyps s)) by (destruct (g_hyps s) as [|h0 l]; [congruence|exists h0; left; reflexivity]). destruct I0 as [h0 I0].
    destruct (filter (fun h => (length (h_ts h) =? n)%nat) (g_hyps s)) as [|h l] eqn:Ef.
    - exfalso. assert (Z0 : nth n (g_card s) 0 = 0) by (rewrite (Hcm n); unfold mass; rewrite Ef; reflexivity).
      set (m := length (h_ts h0)). assert (Pm : 0 < nth m (g_card s) 0).
      { rewrite (Hcm m). unfold mass. apply rsum_allpos; [|intros h Hh; apply filter_In in Hh as [Hh _]; exact (Hpos h Hh)].
        intros E0. assert (I : In h0 (filter (fun h => (length (h_ts h) =? m)%nat) (g_hyps s))) by (apply filter_In; split; [exact I0|apply Nat.eqb_refl]). rewrite E0 in I. destruct I. }
      destruct (Nat.ltb_spec m (length (g_card s))) as [L|L]; [specialize (M m L); lra|]. rewrite nth_overflow in Pm by exact L. lra.
    - assert (I : In h (filter (fun h => (length (h_ts h) =? n)%nat) (g_hyps s))) by (rewrite Ef; left; reflexivity). apply filter_In in I as [I1 I2]. apply Nat.eqb_eq in I2. apply In_nth_error in I1 as [j Hj]. exists j, h. auto. }
  destruct Hcase as [[Ci [_ Mi]]|[Ci _]]; [|exfalso; destruct Hex as [j [h Hj]]; destruct (Ci j (ex_intro _ h Hj))].
  destruct Ci as [hi [Ei Ci]].
  assert (Hstep : forall fuel, (length hs <= fuel)%nat -> exists main extra out, most_prob fuel c th s = Ok out /\
     Forall2 (fun i (o : list (list ST) * list (list label) * list (list (option CV)) * R) => exists h, nth_error hs i = Some h /\ h_p h = snd o) ((i :: main) ++ extra) out /\ NoDup ((i :: main) ++ extra) /\
     (forall k, In k main <-> cardi hs n k /\ reach hs th k /\ ~ In k [i]) /\ StronglySorted (fun i j => prob j <= prob i) main /\
     (extra = [] \/ (extra = [0%nat] /\ ~ cardi hs n 0 /\ reach hs th 0))).
  { intros fuel Hf. destruct (most_prob_step c th fuel s i hi HE Hi Ei) as [s1 [o [G1 [G2 [G3 [G4 G5]]]]]].
    destruct (most_loop_exact hs n th Hpos Hth c fuel s1 [i] G3 ltac:(rewrite G2; exact Hn)) as [main [extra [out [A1 [A2 [A3 [A4 [A5 [A6 A7]]]]]]]]].
    { rewrite G1. exact (zeroed_step hs [] _ i HZ). } { constructor; [intros []|constructor]. } { intros k [<-|[]]. exact Hil. } { cbn [length]. lia. }
    exists main, extra, (o :: out). rewrite G5, A1. cbn [bind app]. split; [reflexivity|]. split; [constructor; [exists hi; auto|exact A2]|].
    split; [constructor; [intros Hin; apply (A4 i Hin); left; reflexivity|exact A3]|]. split; [exact A5|]. split; [exact A6|]. destruct A7 as [A7|[B1 [B2 [B3 _]]]]; auto. }
  destruct (Hstep (length hs) (le_n _)) as [main [extra [out [Q [F [N [A5 [A6 A7]]]]]]]].
  exists n, (i :: main), extra, out. split; [exact (argmaxR_spec _ _ Hn)|]. split; [|split; [|split; [|split; [|split; [exact N|split; [|split]]]]]].
  - intros j h Hj Cj Lj. destruct (Nat.eq_dec i j) as [D|D]; [left; exact D|right]. apply A5. split; [exists h; auto|]. split; [exists h; auto|intros [D'|[]]; exact (D D')].
  - intros j [<-|Hj]; [exists hi; auto|]. apply A5 in Hj as [[h Hj] _]. exists h. exact Hj.
  - exists i, main. split; [reflexivity|]. split.
    + intros j Hj. apply A5 in Hj as [_ [[h [Hj L]] _]]. unfold prob. rewrite (prob_of hs j h Hj). exact L.
    + intros j h Hj Cj. specialize (Mi j (ex_intro _ h (conj Hj Cj)) (fun f => f)). rewrite (prob_of hs j h Hj) in Mi. exact Mi.
  - constructor; [exact A6|]. apply Forall_forall. intros j Hj. apply A5 in Hj as [B1 _]. exact (Mi j B1 (fun f => f)).
  - destruct A7 as [A7|[B1 [B2 [h [B3 B4]]]]]; [left; exact A7|right]. split; [exact B1|]. split; [unfold prob; rewrite (prob_of hs 0 h B3); exact B4|]. intros h' Hh' L. apply B2. exists h'. auto.
  - eapply F2_impl; [|exact F]. intros j o _ [h [Hj Lj]]. split; [apply nth_error_Some; congruence|]. unfold prob. rewrite (prob_of hs j h Hj). symmetry. exact Lj.
  - intros fuel Hf. assert (Hmono : forall f1 f2 (s0 : glmb FS ST CV MS) r0, (f1 <= f2)%nat -> most_loop f1 c th s0 = Ok r0 -> most_loop f2 c th s0 = Ok r0).
    { clear. induction f1 as [|f1 IH]; intros f2 s0 r0 Hle H0; destruct f2 as [|f2]; [exact H0| |lia|]; cbn [most_loop] in *;
        apply bind_ok in H0 as [[oi s1] [A H0]]; rewrite A; cbn [bind]; destruct oi as [i|]; [|exact H0| |exact H0];
        apply bind_ok in H0 as [h [B H0]]; rewrite B; cbn [bind]; destruct (Rle_dec th (h_p h)); try discriminate; try exact H0.
      apply bind_ok in H0 as [r1 [D H0]]. rewrite (IH f2 _ _ ltac:(lia) D). exact H0. }
    unfold most_prob in *. apply bind_ok in Q as [[oi s1] [A Q]]. rewrite A. cbn [bind]. destruct oi as [k|]; [|exact Q].
    apply bind_ok in Q as [h [B Q]]. rewrite B. cbn [bind]. apply bind_ok in Q as [r1 [D Q]]. rewrite (Hmono _ fuel _ _ Hf D). exact Q.
Qed.
(** * C58: what extract_most_prob_states returns *)
Theorem C58_most_prob_exact_partial : forall {FS ST CV MS} (E : genv FS ST CV MS) c os s th,
  kshort_ok (v_kshort E) -> murty_ok (v_murty E) -> births_ok c -> run E c os glmb_new = Ok s ->
  protocol 0 os = Some 0%nat -> (exists t, In (OpPredict t) os) -> g_hyps s <> [] -> 0 < th ->
  (forall h, In h (g_hyps s) -> 0 < h_p h) -> card_matches (g_card s) (g_hyps s) ->
  let hs := g_hyps s in
  let prob i := nth i (map h_p hs) 0 in
  exists n main extra out,
    (** [n] is the most probable cardinality, its hypotheses of probability at least
        [th] are all in [main] with no others but the first, which is a most
        probable one *)
    is_mode (g_card s) n /\
    (forall i h, nth_error hs i = Some h -> length (h_ts h) = n -> th <= h_p h -> In i main) /\
    (forall i, In i main -> exists h, nth_error hs i = Some h /\ length (h_ts h) = n) /\
    (exists first rest, main = first :: rest /\ (forall i, In i rest -> th <= prob i) /\ (forall i h, nth_error hs i = Some h -> length (h_ts h) = n -> h_p h <= prob first)) /\
    (** in order of probability, each once *)
    StronglySorted (fun i j => prob j <= prob i) main /\ NoDup (main ++ extra) /\
    (** at most one more: the first of the list, of another cardinality *)
    (extra = [] \/ (extra = [0%nat] /\ th <= prob 0%nat /\ (forall h, nth_error hs 0 = Some h -> length (h_ts h) <> n))) /\
    (** these are the results *)
    Forall2 (fun i o => (i < length hs)%nat /\ snd o = prob i) (main ++ extra) out /\
    forall fuel, (length hs <= fuel)%nat -> most_prob fuel c th s = Ok out.
Proof.
  intros FS ST CV MS E c os s th Hk Hm Hb H Hp Ht Hne Hth Hpos Hcm. apply most_prob_exact; [eapply reach_extractable; eauto|exact Hth|exact Hpos|exact Hcm].
Qed.
Print Assumptions C58_most_prob_exact_partial.

(** The hypotheses are met: one cycle of the demo filter of GlmbDemo. *)
Example C58_exact_hypotheses : exists (E : genv unit unit unit unit) c os s,
  kshort_ok (v_kshort E) /\ murty_ok (v_murty E) /\ births_ok c /\ run E c os glmb_new = Ok s /\ protocol 0 os = Some 0%nat /\ (exists t, In (OpPredict t) os) /\
  g_hyps s <> [] /\ (forall h, In h (g_hyps s) -> 0 < h_p h) /\ card_matches (g_card s) (g_hyps s).
Proof.
  set (E := d_env false). set (c := d_cfg (1 / 10)).
  assert (R1 : run E c [OpPredict 0] glmb_new = Ok wS1) by (apply w_predict; lra).
  destruct (w_cor wS1 (b_ent 0 0) [] 0 eq_refl eq_refl ltac:(cbn; lia)) as [s2 [e2 [C2 [H2 _]]]]. fold E c in C2.
  assert (R3 : run E c [OpPredict 0; OpCorrect 0 [tt]; OpCleanup false false false] glmb_new = Ok (bump s2)).
  { change [OpPredict 0; OpCorrect 0 [tt]; OpCleanup false false false] with ([OpPredict 0] ++ [OpCorrect 0 [tt]; OpCleanup (MS := unit) false false false]). rewrite run_app, R1. cbn [bind run exec]. rewrite C2. reflexivity. }
  exists E, c, [OpPredict 0; OpCorrect 0 [tt]; OpCleanup false false false], (bump s2).
  split; [exact d_kshort_ok|]. split; [exact d_murty_ok|]. split; [apply d_births|]. split; [exact R3|]. split; [reflexivity|]. split; [exists 0; left; reflexivity|].
  cbn [bump g_hyps g_card]. assert (Hne : g_hyps s2 <> []) by (rewrite H2; discriminate). split; [exact Hne|]. split.
  - rewrite H2. intros h [<-|[]]. cbn [h_p]. lra.
  - apply (proj1 (C47_glmb_cardinality_partial E c 0 [tt] wS1) s2 d_murty_ok); [intros; discriminate|exact C2|exact Hne].
Qed.
