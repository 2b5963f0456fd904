(** Extraction of states in the GLMB model. *)
From Verif Require Import Base Lists.
From Coq Require Import Reals Permutation Lra.
From Verif Require Import OspaModel CphdModel OspaProofs CphdSpec CphdProofs GlmbModel GlmbSpec GlmbProofs GlmbInv.
Open Scope R_scope.

Lemma set_nth_len {A} (x : A) l : forall i, length (set_nth i x l) = length l.
Proof. induction l as [|y l IH]; intros [|i]; cbn; auto. Qed.
Lemma set_nth_nth {A} (x d : A) l : forall i k, (i < length l)%nat -> nth k (set_nth i x l) d = if (k =? i)%nat then x else nth k l d.
Proof.
  induction l as [|y l IH]; intros i k Hi; cbn in Hi; [lia|]. destruct i as [|i], k as [|k]; cbn; try reflexivity. apply IH. lia.
Qed.
Lemma set_nth_map {A B} (f : A -> B) x l : forall i, map f (set_nth i x l) = set_nth i (f x) (map f l).
Proof. induction l as [|y l IH]; intros [|i]; cbn; [reflexivity|reflexivity|reflexivity|]. rewrite IH. reflexivity. Qed.

Section P.
Context {FS ST CV MS : Type}.
Variable E : genv FS ST CV MS.
Notation entry := (entry FS ST CV).
Notation gcfg := (gcfg ST CV).
Notation glmb := (glmb FS ST CV MS).
Notation ehist := (ehist ST CV).
Notation gop := (gop MS).
Implicit Types (c : gcfg) (s : glmb).
Notation item := (ST * label * option CV)%type.

(** ** the output lists *)
(** slots made of per-time-step columns: untouched columns still are the shared list *)
Definition slots_of {A} (f : item -> A) (cols : list (list item)) : slots A :=
  (map (fun l => match l with [] => None | _ => Some (map f l) end) cols, []).
Definition outs_of (cols : list (list item)) : outs (ST := ST) (CV := CV) :=
  {| o_st := slots_of (fun x => fst (fst x)) cols; o_lb := slots_of (fun x => snd (fst x)) cols; o_cv := slots_of snd cols |}.
Lemma slots_of_read {A} (f : item -> A) cols : slot_read (slots_of f cols) = map (map f) cols.
Proof. unfold slot_read, slots_of. cbn. rewrite map_map. apply map_ext. intros [|x l]; reflexivity. Qed.
Lemma slots_of_new {A} (f : item -> A) n : slots_of f (repeat [] n) = slots_new n.
Proof. unfold slots_of, slots_new. f_equal. induction n; cbn; [reflexivity|]. f_equal. exact IHn. Qed.
Lemma slots_of_get {A} (f : item -> A) cols tt : (tt < length cols)%nat -> slot_get (slots_of f cols) tt = Ok (map f (nth tt cols [])).
Proof.
  intros H. unfold slot_get, slots_of. cbn [fst snd]. unfold geti.
  destruct (nth_error cols tt) as [l|] eqn:El; [|apply nth_error_None in El; lia].
  rewrite (map_nth_error _ _ _ El), (nth_error_nth _ _ _ El). cbn. destruct l; reflexivity.
Qed.
Definition add_col (tt : nat) (x : item) (cols : list (list item)) := set_nth tt (nth tt cols [] ++ [x]) cols.
Lemma slots_of_set {A} (f : item -> A) cols tt x : (tt < length cols)%nat -> nth tt cols [] = [] ->
  slot_set (slots_of f cols) tt [f x] = Ok (slots_of f (add_col tt x cols)).
Proof.
  intros H Hn. unfold slot_set, slots_of, add_col. cbn [fst snd]. unfold geti.
  destruct (nth_error cols tt) as [l|] eqn:El; [|apply nth_error_None in El; lia].
  rewrite (map_nth_error _ _ _ El). cbn [bind]. rewrite Hn, set_nth_map. reflexivity.
Qed.
Lemma slots_of_append {A} (f : item -> A) cols tt x : (tt < length cols)%nat -> nth tt cols [] <> [] ->
  slot_append (slots_of f cols) tt (f x) = Ok (slots_of f (add_col tt x cols)).
Proof.
  intros H Hn. unfold slot_append, slots_of, add_col. cbn [fst snd]. unfold geti.
  destruct (nth_error cols tt) as [l|] eqn:El; [|apply nth_error_None in El; lia].
  rewrite (map_nth_error _ _ _ El). cbn [bind]. rewrite (nth_error_nth _ _ _ El) in *. destruct l as [|y l]; [congruence|].
  rewrite set_nth_map. cbn. rewrite map_app. reflexivity.
Qed.
Lemma put_one_ok tt x lab cv cols : (tt < length cols)%nat -> put_one tt x lab cv (outs_of cols) = Ok (outs_of (add_col tt (x, lab, cv) cols)).
Proof.
  intros H. unfold put_one, outs_of. cbn [o_st o_lb o_cv]. rewrite slots_of_get by exact H. cbn [bind].
  destruct (nth tt cols []) as [|y l] eqn:En; cbn [map].
  - pose proof (slots_of_set (fun y => fst (fst y)) cols tt (x, lab, cv) H En) as S1.
    pose proof (slots_of_set (fun y => snd (fst y)) cols tt (x, lab, cv) H En) as S2.
    pose proof (slots_of_set (@snd (ST * label) (option CV)) cols tt (x, lab, cv) H En) as S3.
    cbn [fst snd] in S1, S2, S3. rewrite S1, S2, S3. reflexivity.
  - assert (Hn : nth tt cols [] <> []) by (rewrite En; discriminate).
    pose proof (slots_of_append (fun y => fst (fst y)) cols tt (x, lab, cv) H Hn) as S1.
    pose proof (slots_of_append (fun y => snd (fst y)) cols tt (x, lab, cv) H Hn) as S2.
    pose proof (slots_of_append (@snd (ST * label) (option CV)) cols tt (x, lab, cv) H Hn) as S3.
    cbn [fst snd] in S1, S2, S3. rewrite S1, S2, S3. reflexivity.
Qed.
Lemma put_one_err tt x lab cv cols : (length cols <= tt)%nat -> put_one tt x lab cv (outs_of cols) = Err IndexErr.
Proof.
  intros H. unfold put_one, outs_of. cbn [o_lb]. unfold slot_get, slots_of. cbn [fst]. unfold geti.
  rewrite (proj2 (nth_error_None _ _)); [reflexivity|]. rewrite map_length. exact H.
Qed.
(** what a track contributes to time step tt *)
Definition contrib (lab : label) (b : nat) (sc : list (ST * option CV)) (tt : nat) : list item :=
  if (b <=? tt)%nat then match nth_error sc (tt - b) with Some (x, cv) => [(x, lab, cv)] | None => [] end else [].
Lemma add_col_len tt x cols : length (add_col tt x cols) = length cols.
Proof. apply set_nth_len. Qed.
Lemma add_col_nth tt x cols k : (tt < length cols)%nat -> nth k (add_col tt x cols) [] = nth k cols [] ++ (if (k =? tt)%nat then [x] else []).
Proof.
  intros H. unfold add_col. rewrite set_nth_nth by exact H. destruct (Nat.eqb_spec k tt) as [->|]; [reflexivity|]. rewrite app_nil_r. reflexivity.
Qed.
Lemma put_track_ok lab : forall sc tt cols, (sc = [] \/ tt + length sc <= length cols)%nat ->
  exists cols', put_track lab tt sc (outs_of cols) = Ok (outs_of cols') /\ length cols' = length cols /\
    forall k, nth k cols' [] = nth k cols [] ++ contrib lab tt sc k.
Proof.
  induction sc as [|[x cv] sc IH]; intros tt cols H.
  - exists cols. split; [reflexivity|]. split; [reflexivity|]. intros k. unfold contrib. rewrite nth_error_nil'. destruct (tt <=? k)%nat; rewrite app_nil_r; reflexivity.
  - destruct H as [H|H]; [discriminate|]. cbn [length] in H. cbn [put_track]. rewrite put_one_ok by lia. cbn [bind].
    destruct (IH (S tt) (add_col tt (x, lab, cv) cols)) as [cols' [H1 [H2 H3]]]; [right; rewrite add_col_len; lia|].
    exists cols'. split; [exact H1|]. split; [rewrite H2, add_col_len; reflexivity|]. intros k. rewrite H3, add_col_nth by lia.
    rewrite <- app_assoc. f_equal. unfold contrib.
    destruct (Nat.eqb_spec k tt) as [->|Hk].
    + destruct (Nat.leb_spec (S tt) tt); [lia|]. rewrite Nat.leb_refl, Nat.sub_diag. reflexivity.
    + destruct (Nat.leb_spec tt k) as [Hle|Hle].
      * destruct (Nat.leb_spec (S tt) k); [|lia]. replace (k - tt)%nat with (S (k - S tt)) by lia. reflexivity.
      * destruct (Nat.leb_spec (S tt) k); [lia|]. reflexivity.
Qed.
Lemma put_track_range lab : forall sc tt cols o, put_track lab tt sc (outs_of cols) = Ok o -> (sc = [] \/ tt + length sc <= length cols)%nat.
Proof.
  induction sc as [|[x cv] sc IH]; intros tt cols o H; [left; reflexivity|right]. cbn [put_track] in H. cbn [length].
  destruct (Nat.lt_ge_cases tt (length cols)) as [Hl|Hl]; [|rewrite put_one_err in H by exact Hl; discriminate].
  rewrite put_one_ok in H by exact Hl. cbn [bind] in H. apply IH in H. rewrite add_col_len in H. destruct H as [->|H]; [cbn; lia|lia].
Qed.
Definition column (xs : list ehist) (tt : nat) : list item :=
  flat_map (fun x => contrib (x_label x) (x_time x) (combine (x_st x) (x_cov x)) tt) xs.
Definition in_range (n : nat) (x : ehist) : Prop :=
  combine (x_st x) (x_cov x) = [] \/ (x_time x + length (combine (x_st x) (x_cov x)) <= n)%nat.
Lemma put_all_ok : forall xs cols, (forall x, In x xs -> in_range (length cols) x) ->
  exists cols', put_all xs (outs_of cols) = Ok (outs_of cols') /\ length cols' = length cols /\
    forall k, nth k cols' [] = nth k cols [] ++ column xs k.
Proof.
  induction xs as [|x xs IH]; intros cols H.
  - exists cols. split; [reflexivity|]. split; [reflexivity|]. intros k. cbn. rewrite app_nil_r. reflexivity.
  - cbn [put_all]. destruct (put_track_ok (x_label x) _ _ cols (H x (or_introl eq_refl))) as [c1 [H1 [H2 H3]]]. rewrite H1. cbn [bind].
    destruct (IH c1) as [c2 [G1 [G2 G3]]]; [intros y Hy; rewrite H2; apply H; right; exact Hy|].
    exists c2. split; [exact G1|]. split; [congruence|]. intros k. rewrite G3, H3. unfold column. cbn [flat_map]. rewrite app_assoc. reflexivity.
Qed.
Lemma put_all_range : forall xs cols o, put_all xs (outs_of cols) = Ok o -> forall x, In x xs -> in_range (length cols) x.
Proof.
  induction xs as [|x xs IH]; intros cols o H y Hy; [destruct Hy|]. cbn [put_all] in H.
  apply bind_ok in H as [o' [H1 H]]. pose proof (put_track_range _ _ _ _ _ H1) as Hr.
  destruct (put_track_ok (x_label x) _ _ cols Hr) as [c1 [G1 [G2 G3]]]. rewrite G1 in H1. inversion H1; subst o'.
  destruct Hy as [<-|Hy]; [exact Hr|]. rewrite <- G2. eapply IH; eauto.
Qed.
Lemma cols_eq (cols : list (list item)) f n : length cols = n -> (forall k, (k < n)%nat -> nth k cols [] = f k) -> cols = map f (seq 0 n).
Proof.
  intros Hl H. rewrite <- (map_nth_seq cols []), Hl. apply map_ext_in. intros k Hk. apply in_seq in Hk. apply H. lia.
Qed.
Lemma outs_new n : {| o_st := slots_new n; o_lb := slots_new n; o_cv := slots_new n |} = outs_of (repeat [] n).
Proof. unfold outs_of. rewrite !slots_of_new. reflexivity. Qed.
Lemma nth_repeat_nil {A} k n : nth k (repeat (@nil A) n) [] = [].
Proof. revert k; induction n; intros [|k]; cbn; auto. Qed.
(** the three output lists, exactly *)
Lemma put_all_out xs n o : put_all xs {| o_st := slots_new n; o_lb := slots_new n; o_cv := slots_new n |} = Ok o ->
  slot_read (o_st o) = map (fun tt => map (fun x => fst (fst x)) (column xs tt)) (seq 0 n) /\
  slot_read (o_lb o) = map (fun tt => map (fun x => snd (fst x)) (column xs tt)) (seq 0 n) /\
  slot_read (o_cv o) = map (fun tt => map snd (column xs tt)) (seq 0 n).
Proof.
  rewrite outs_new. intros H. pose proof (put_all_range _ _ _ H) as Hr.
  destruct (put_all_ok xs _ Hr) as [cols [H1 [H2 H3]]]. rewrite H in H1. inversion H1; subst o. rewrite repeat_length in H2.
  assert (Hc : cols = map (column xs) (seq 0 n)). { apply cols_eq; [exact H2|]. intros k _. rewrite H3, nth_repeat_nil. reflexivity. }
  unfold outs_of; cbn [o_st o_lb o_cv]. rewrite !slots_of_read, Hc, !map_map. auto.
Qed.

(** ** the shared list of used measurements *)
Definition shared (n : nat) (l : list nat) : slots nat := (repeat None n, l).
Lemma shared_get n l tt : slot_get (shared n l) tt = if (tt <? n)%nat then Ok l else Err IndexErr.
Proof.
  unfold slot_get, shared, geti. cbn [fst snd]. destruct (Nat.ltb_spec tt n) as [H|H].
  - rewrite nth_error_repeat by exact H. reflexivity.
  - rewrite (proj2 (nth_error_None _ _)) by (rewrite repeat_length; exact H). reflexivity.
Qed.
Lemma shared_append n l tt x : (tt < n)%nat -> slot_append (shared n l) tt x = Ok (shared n (l ++ [x])).
Proof. intros H. unfold slot_append, shared, geti. cbn [fst snd]. rewrite nth_error_repeat by exact H. reflexivity. Qed.
(** mentioned measurement indices of an association history *)
Definition mentions (ms : list (option nat)) (m : nat) : Prop := In (Some m) ms.
Definition fits (n tt : nat) (ms : list (option nat)) : Prop := forall k m, nth_error ms k = Some (Some m) -> (tt + k < n)%nat.
Lemma fits_cons n tt x ms : fits n tt (x :: ms) -> fits n (S tt) ms.
Proof. intros H k m Hk. specialize (H (S k) m Hk). lia. Qed.
Lemma mark_used_ok n : forall ms tt l, fits n tt ms -> exists l', mark_used tt ms (shared n l) = Ok (shared n l') /\
  forall m, In m l' <-> In m l \/ mentions ms m.
Proof.
  induction ms as [|[x|] ms IH]; intros tt l H; cbn [mark_used].
  - exists l. split; [reflexivity|]. intros m. unfold mentions. cbn. tauto.
  - assert (Ht : (tt < n)%nat) by (specialize (H 0%nat x eq_refl); lia). rewrite shared_get.
    destruct (Nat.ltb_spec tt n); [|lia]. cbn [bind]. unfold is_used.
    destruct (existsb (Nat.eqb x) l) eqn:Ex.
    + cbn [bind]. destruct (IH (S tt) l (fits_cons _ _ _ _ H)) as [l' [H1 H2]]. exists l'. split; [exact H1|].
      intros m. rewrite H2. unfold mentions. cbn. apply existsb_eqb in Ex. split; [intros [?|?]; auto|intros [?|[E0|?]]; auto]. inversion E0; subst; auto.
    + rewrite shared_append by exact Ht. cbn [bind]. destruct (IH (S tt) (l ++ [x]) (fits_cons _ _ _ _ H)) as [l' [H1 H2]]. exists l'. split; [exact H1|].
      intros m. rewrite H2, in_app_iff. unfold mentions. cbn. split.
      * intros [[?|[->|[]]]|?]; auto.
      * intros [?|[E0|?]]; auto. inversion E0; subst; auto.
  - destruct (IH (S tt) l (fits_cons _ _ _ _ H)) as [l' [H1 H2]]. exists l'. split; [exact H1|]. intros m. rewrite H2. unfold mentions. cbn.
    split; [intros [?|?]; auto|intros [?|[?|?]]; auto; discriminate].
Qed.
Lemma mark_used_fits n : forall ms tt l u, mark_used tt ms (shared n l) = Ok u -> fits n tt ms.
Proof.
  induction ms as [|[x|] ms IH]; intros tt l u H k m Hk; cbn [mark_used] in H.
  - rewrite nth_error_nil' in Hk. discriminate.
  - rewrite shared_get in H. destruct (Nat.ltb_spec tt n) as [Ht|Ht]; [|discriminate]. cbn [bind] in H.
    destruct k as [|k]; [lia|]. cbn in Hk. destruct (is_used x l); [|rewrite shared_append in H by exact Ht]; cbn [bind] in H;
      specialize (IH _ _ _ H k m Hk); lia.
  - destruct k as [|k]; [discriminate|]. cbn in Hk. specialize (IH _ _ _ H k m Hk). lia.
Qed.
Lemma clashes_spec n l : forall ms tt, fits n tt ms -> exists b, clashes tt ms (shared n l) = Ok b /\ (b = true <-> exists m, mentions ms m /\ In m l).
Proof.
  induction ms as [|[x|] ms IH]; intros tt H; cbn [clashes].
  - exists false. split; [reflexivity|]. split; [discriminate|intros [m [[] _]]].
  - assert (Ht : (tt < n)%nat) by (specialize (H 0%nat x eq_refl); lia). rewrite shared_get. destruct (Nat.ltb_spec tt n); [|lia]. cbn [bind].
    unfold is_used. destruct (existsb (Nat.eqb x) l) eqn:Ex.
    + apply existsb_eqb in Ex. exists true. split; [reflexivity|]. split; [intros _; exists x; split; [left; reflexivity|exact Ex]|reflexivity].
    + destruct (IH (S tt) (fits_cons _ _ _ _ H)) as [b [H1 H2]]. exists b. split; [exact H1|]. rewrite H2. apply existsb_eqb_false in Ex.
      split; intros [m [Hm Hl]]; exists m; (split; [|exact Hl]); [right; exact Hm|]. destruct Hm as [E0|Hm]; [inversion E0; subst; contradiction|exact Hm].
  - destruct (IH (S tt) (fits_cons _ _ _ _ H)) as [b [H1 H2]]. exists b. split; [exact H1|]. rewrite H2.
    split; intros [m [Hm Hl]]; exists m; (split; [|exact Hl]); [right; exact Hm|]. destruct Hm as [E0|Hm]; [discriminate|exact Hm].
Qed.
(** without range: a successful answer [false] means no clash *)
Lemma clashes_false n l : forall ms tt, clashes tt ms (shared n l) = Ok false -> forall m, mentions ms m -> ~ In m l.
Proof.
  induction ms as [|[x|] ms IH]; intros tt H m Hm; cbn [clashes] in H; [destruct Hm| |].
  - rewrite shared_get in H. destruct (tt <? n)%nat; [|discriminate]. cbn [bind] in H. unfold is_used in H.
    destruct (existsb (Nat.eqb x) l) eqn:Ex; [discriminate|]. destruct Hm as [E0|Hm]; [inversion E0; subst; apply existsb_eqb_false, Ex|eapply IH; eauto].
  - destruct Hm as [E0|Hm]; [discriminate|eapply IH; eauto].
Qed.
Definition hist_of (e : entry) (st : list ST) (cv : list (option CV)) : ehist :=
  {| x_label := e_label e; x_meas := e_assoc e; x_time := e_time e; x_st := st; x_cov := cv |}.
Lemma new_hists_inv c n : forall es l xs u, new_hists c es (shared n l) = Ok (xs, u) ->
  Forall2 (fun e x => exists st cv, extract_helper c e = Ok (st, cv) /\ x = hist_of e st cv) es xs /\
  (forall e, In e es -> fits n (e_time e) (e_assoc e)) /\
  exists l', u = shared n l' /\ forall m, In m l' <-> In m l \/ exists e, In e es /\ mentions (e_assoc e) m.
Proof.
  induction es as [|e es IH]; intros l xs u H; cbn [new_hists] in H.
  - inversion H; subst. split; [constructor|]. split; [intros e []|]. exists l. split; [reflexivity|]. intros m. split; [auto|]. intros [?|[e [[] _]]]; assumption.
  - apply bind_ok in H as [[st cv] [E1 H]]. apply bind_ok in H as [u1 [E2 H]]. apply bind_ok in H as [[hs u2] [E3 H]]. inversion H; subst.
    pose proof (mark_used_fits _ _ _ _ _ E2) as Hf. destruct (mark_used_ok n _ _ l Hf) as [l1 [F1 F2]]. rewrite F1 in E2. inversion E2; subst u1.
    destruct (IH _ _ _ E3) as [G1 [G2 [l' [G3 G4]]]]. split; [constructor; [exists st, cv; auto|exact G1]|].
    split; [intros e' [<-|He']; auto|]. exists l'. split; [exact G3|]. intros m. rewrite G4, F2. split.
    + intros [[?|?]|[e' [He' Hm]]]; [auto|right; exists e; split; [left; reflexivity|assumption]|right; exists e'; split; [right; exact He'|exact Hm]].
    + intros [?|[e' [[<-|He'] Hm]]]; [auto|auto|right; exists e'; auto].
Qed.
Lemma label_eqb_spec a b : label_eqb a b = true <-> a = b.
Proof.
  destruct a as [a1 a2], b as [b1 b2]. unfold label_eqb; cbn. rewrite Bool.andb_true_iff, Z.eqb_eq, Nat.eqb_eq.
  split; [intros [-> ->]; reflexivity|intros H; inversion H; auto].
Qed.
Lemma existsb_label a l : existsb (label_eqb a) l = true <-> In a l.
Proof.
  rewrite existsb_exists. split; [intros [x [Hx He]]; apply label_eqb_spec in He; subst; exact Hx|]. intros H. exists a. split; [exact H|apply label_eqb_spec; reflexivity].
Qed.
Definition keeps (labels : list label) (used : slots nat) (x : ehist) : bool :=
  negb (existsb (label_eqb (x_label x)) labels) && match clashes (x_time x) (x_meas x) used with Ok false => true | _ => false end.
Lemma keep_hists_filter labels used : forall (xs r : list ehist), keep_hists labels used xs = Ok r -> r = filter (keeps labels used) xs.
Proof.
  induction xs as [|y xs IH]; intros r H; cbn [keep_hists] in H; [inversion H; reflexivity|].
  apply bind_ok in H as [d [E3 E4]]. apply bind_ok in E4 as [r2 [E5 E6]]. rewrite (IH _ E5) in E6. cbn [filter].
  assert (Hg : keeps labels used y = negb d).
  { unfold keeps. destruct (existsb _ labels); [inversion E3; reflexivity|]. rewrite E3. destruct d; reflexivity. }
  rewrite Hg. inversion E6. destruct d; reflexivity.
Qed.
Lemma keeps_label labels used x : keeps labels used x = true -> ~ In (x_label x) labels.
Proof.
  intros H Hi. apply andb_prop in H as [H1 _]. apply existsb_label in Hi. rewrite Hi in H1. discriminate.
Qed.
(** exactly which extracted tracks are kept *)
Lemma keep_hists_exact labels n l : forall (xs r : list ehist), keep_hists labels (shared n l) xs = Ok r -> (forall x, In x xs -> fits n (x_time x) (x_meas x)) ->
  forall x, In x r <-> In x xs /\ ~ In (x_label x) labels /\ forall m, mentions (x_meas x) m -> ~ In m l.
Proof.
  induction xs as [|y xs IH]; intros r H Hf x; cbn [keep_hists] in H.
  - inversion H; subst. split; [intros []|intros [[] _]].
  - apply bind_ok in H as [drop [E1 H]]. apply bind_ok in H as [r1 [E2 H]]. inversion H; subst r; clear H.
    specialize (IH _ E2 (fun x Hx => Hf x (or_intror Hx)) x).
    assert (Hd : drop = true <-> In (x_label y) labels \/ exists m, mentions (x_meas y) m /\ In m l).
    { destruct (existsb _ labels) eqn:Ex.
      - inversion E1; subst drop. apply existsb_label in Ex. split; auto.
      - destruct (clashes_spec n l _ _ (Hf y (or_introl eq_refl))) as [b [F1 F2]]. rewrite F1 in E1. inversion E1; subst b. rewrite F2.
        split; [auto|]. intros [Hi|?]; [|assumption]. exfalso. apply existsb_label in Hi. congruence. }
    destruct drop.
    + rewrite IH. split; [intros [? ?]; split; [right; assumption|assumption]|]. intros [[<-|Hi] [H1 H2]]; [|auto].
      exfalso. destruct (proj1 Hd eq_refl) as [?|[m [Hm Hl]]]; [contradiction|]. apply (H2 m Hm Hl).
    + assert (Hk : ~ In (x_label y) labels /\ forall m, mentions (x_meas y) m -> ~ In m l).
      { split; [intros Hi|intros m Hm Hl]; (assert (Hft : false = true) by (apply Hd; eauto)); discriminate. }
      cbn [In]. rewrite IH. split.
      * intros [<-|[? ?]]; [split; [left; reflexivity|exact Hk]|split; [right; assumption|assumption]].
      * intros [[<-|?] ?]; [left; reflexivity|right; auto].
Qed.

(** ** update_hist *)
Lemma shared_new n : slots_new n = shared n [].
Proof. reflexivity. Qed.
Lemma update_hist_inv c s idx xs : update_hist c s idx = Ok xs -> exists h es news l,
  nth_error (g_hyps s) idx = Some h /\ Forall2 (fun i e => nth_error (g_tab s) i = Some e) (h_ts h) es /\
  Forall2 (fun e x => exists st cv, extract_helper c e = Ok (st, cv) /\ x = hist_of e st cv) es news /\
  (forall e, In e es -> fits (g_cnt s) (e_time e) (e_assoc e)) /\
  (forall m, In m l <-> exists e, In e es /\ mentions (e_assoc e) m) /\
  keep_hists (map e_label es) (shared (g_cnt s) l) (g_ext s) = Ok (filter (keeps (map e_label es) (shared (g_cnt s) l)) (g_ext s)) /\
  xs = filter (keeps (map e_label es) (shared (g_cnt s) l)) (g_ext s) ++ news.
Proof.
  unfold update_hist. intros H. apply bind_ok in H as [h [E1 H]]. apply geti_ok in E1. apply bind_ok in H as [es [E2 H]].
  apply bind_ok in H as [[news u] [E3 H]]. apply bind_ok in H as [kept [E4 H]]. inversion H; subst xs.
  rewrite shared_new in E3. destruct (new_hists_inv _ _ _ _ _ _ E3) as [F1 [F2 [l [-> F4]]]].
  exists h, es, news, l. split; [exact E1|]. split.
  { apply mapM_ok in E2. eapply F2_impl; [|exact E2]. cbn. intros i e _ Hi. apply geti_ok, Hi. }
  split; [exact F1|]. split; [exact F2|]. split; [intros m; rewrite F4; cbn; tauto|].
  rewrite (keep_hists_filter _ _ _ _ E4) in E4 |- *. split; [exact E4|reflexivity].
Qed.
Lemma extract_inv c u k s o s' : extract_states c u k s = Ok (o, s') ->
  (g_hyps s = [] /\ o = None /\ g_ext s' = g_ext s /\ g_states s' = repeat [] (g_cnt s) /\ g_labels s' = repeat [] (g_cnt s) /\ g_covs s' = repeat [] (g_cnt s)) \/
  (exists idx xs oo, g_hyps s <> [] /\ o = Some idx /\ map_index s = Ok idx /\ (if u then update_hist c s idx = Ok xs else xs = g_ext s) /\
     g_ext s' = xs /\ (if k then put_all xs {| o_st := slots_new (g_cnt s); o_lb := slots_new (g_cnt s); o_cv := slots_new (g_cnt s) |} = Ok oo
                       else oo = {| o_st := slots_new (g_cnt s); o_lb := slots_new (g_cnt s); o_cv := slots_new (g_cnt s) |}) /\
     g_states s' = slot_read (o_st oo) /\ g_labels s' = slot_read (o_lb oo) /\ g_covs s' = slot_read (o_cv oo)).
Proof.
  assert (Hnew : forall A n, slot_read (@slots_new A n) = repeat [] n).
  { intros A n. unfold slot_read, slots_new. cbn. induction n; cbn; [reflexivity|]. f_equal. exact IHn. }
  unfold extract_states. intros H. apply bind_ok in H as [a [_ H]]. cbn zeta in H. destruct (g_hyps s) as [|h0 hs0] eqn:Eh.
  - inversion H; subst. left. cbn [set_out g_ext g_states g_labels g_covs o_st o_lb o_cv]. rewrite !Hnew. repeat split.
  - right. apply bind_ok in H as [idx [E1 H]]. apply bind_ok in H as [xs [E2 H]]. apply bind_ok in H as [oo [E3 H]]. inversion H; subst. cbn.
    exists idx, xs, oo. split; [discriminate|]. split; [reflexivity|]. split; [exact E1|]. split; [destruct u; [exact E2|congruence]|].
    split; [reflexivity|]. split; [destruct k; [exact E3|congruence]|]. auto.
Qed.

(** ** labels of the extracted tracks are different *)
Lemma filter_map_nodup {A B} (f : A -> B) (g : A -> bool) l : NoDup (map f l) -> NoDup (map f (filter g l)).
Proof.
  induction l as [|x l IH]; cbn; intros H; [constructor|]. inversion H as [|? ? H1 H2]; subst. destruct (g x); cbn; [|apply IH, H2].
  constructor; [|apply IH, H2]. intros Hi. apply H1. apply in_map_iff in Hi as [y [E0 Hy]]. apply filter_In in Hy as [Hy _]. apply in_map_iff. eauto.
Qed.
Lemma nodup_app_intro {A} (l1 l2 : list A) : NoDup l1 -> NoDup l2 -> (forall x, In x l1 -> ~ In x l2) -> NoDup (l1 ++ l2).
Proof.
  induction l1 as [|x l1 IH]; cbn; intros H1 H2 H; [exact H2|]. inversion H1; subst. constructor.
  - intros Hi. apply in_app_or in Hi as [Hi|Hi]; [contradiction|]. apply (H x); [left; reflexivity|exact Hi].
  - apply IH; [assumption|assumption|]. intros y Hy. apply H. right. exact Hy.
Qed.
Lemma news_labels c es news : Forall2 (fun e x => exists st cv, extract_helper c e = Ok (st, cv) /\ x = hist_of e st cv) es news ->
  map x_label news = map e_label es.
Proof. intros H. induction H as [|e x es xs [st [cv [_ ->]]] _ IH]; cbn; [reflexivity|]. rewrite IH. reflexivity. Qed.
Lemma ext_labels_extract c u k s o s' : extract_states c u k s = Ok (o, s') -> HInv lab_ne (g_tab s) (g_hyps s) ->
  NoDup (map x_label (g_ext s)) -> NoDup (map x_label (g_ext s')).
Proof.
  intros H HI Hn. destruct (extract_inv _ _ _ _ _ _ H) as [[_ [_ [-> _]]]|[idx [xs [oo [_ [_ [_ [Hu [-> _]]]]]]]]]; [exact Hn|].
  destruct u; [|subst; exact Hn]. destruct (update_hist_inv _ _ _ _ Hu) as [h [es [news [l [E1 [F1 [F2 [_ [_ [_ ->]]]]]]]]]].
  rewrite map_app, (news_labels _ _ _ F2). apply nodup_app_intro.
  - apply filter_map_nodup, Hn.
  - destruct (HI h (nth_error_In _ _ E1)) as [es' [F1' HP]]. apply pairs_nodup.
    rewrite <- (tracks_view _ _ _ F1), (tracks_view _ _ _ F1'). exact HP.
  - intros y Hy. apply in_map_iff in Hy as [x [<- Hx]]. apply filter_In in Hx as [_ Hx]. eapply keeps_label; eauto.
Qed.
Lemma cleaned_hinv D c pr ca s : HInv D (g_tab s) (g_hyps s) -> HInv D (g_tab (cleaned E c pr ca s)) (g_hyps (cleaned E c pr ca s)).
Proof. intros H. destruct (cleaned_inv E c pr ca s) as [A [_ [_ B]]]. rewrite A. eapply HInv_sub; eauto. Qed.
Lemma ext_labels_run c os : forall s s' used, kshort_ok (v_kshort E) -> murty_ok (v_murty E) -> run E c os s = Ok s' ->
  NoDup (map (v_rnd E) (predict_times os)) -> (forall z, In z used -> ~ In z (map (v_rnd E) (predict_times os))) -> LInv used s ->
  NoDup (map x_label (g_ext s)) -> NoDup (map x_label (g_ext s')).
Proof.
  induction os as [|o os IH]; intros s s' used Hk Hm H Hnd Hdis HI HX; cbn in H; [inversion H; subst; exact HX|].
  apply bind_ok in H as [s1 [H1 H]].
  assert (Hnew : forall t, o = OpPredict t -> ~ In (v_rnd E t) used).
  { intros t -> Hi. apply (Hdis _ Hi). cbn. left. reflexivity. }
  apply (IH s1 s' (match o with OpPredict t => v_rnd E t :: used | _ => used end) Hk Hm H).
  - destruct o; cbn in Hnd; try exact Hnd. inversion Hnd; assumption.
  - destruct o as [t| | |]; cbn in Hdis, Hnd; try exact Hdis. intros z [<-|Hz]; [inversion Hnd; assumption|]. intros Hi. apply (Hdis z Hz). right. exact Hi.
  - exact (linv_exec E c o s s1 used Hk Hm H1 Hnew HI).
  - destruct o as [t|t meas|pr ca ex|u k]; cbn in H1.
    + destruct (predict_inv _ _ _ _ _ H1) as [_ [_ [_ [_ [_ [_ [_ [_ [_ [_ [_ [_ [_ [_ Ex]]]]]]]]]]]]]]. rewrite Ex. exact HX.
    + destruct (correct_inv _ _ _ _ _ _ H1) as [_ [_ [_ [_ [_ [_ Ex]]]]]]. rewrite Ex. exact HX.
    + destruct (cleanup_inv _ _ _ _ _ _ _ H1) as [_ [_ [_ [_ [_ [[_ ->]|[_ [o H2]]]]]]]].
      * destruct (cleaned_inv E c pr ca s) as [_ [_ [B _]]]. rewrite B. exact HX.
      * eapply ext_labels_extract; [exact H2|apply cleaned_hinv, HI|]. destruct (cleaned_inv E c pr ca s) as [_ [_ [B _]]]. rewrite B. exact HX.
    + apply bind_ok in H1 as [[o s2] [H1 H2]]. inversion H2; subst s2. eapply ext_labels_extract; [exact H1|apply HI|exact HX].
Qed.
Lemma column_labels (xs : list ehist) tt : exists f, map (fun x : item => snd (fst x)) (column xs tt) = map x_label (filter f xs).
Proof.
  exists (fun x => match contrib (x_label x) (x_time x) (combine (x_st x) (x_cov x)) tt with [] => false | _ => true end).
  induction xs as [|x xs IH]; [reflexivity|]. unfold column in *. cbn [flat_map filter]. rewrite map_app, IH.
  unfold contrib. destruct (x_time x <=? tt)%nat; [|reflexivity]. destruct (nth_error _ _) as [[a b]|]; reflexivity.
Qed.
Lemma cnt_run c os : forall s s', run E c os s = Ok s' ->
  g_cnt s' = (g_cnt s + length (filter (fun o => match o with OpCleanup _ _ _ => true | _ => false end) os))%nat.
Proof.
  induction os as [|o os IH]; intros s s' H; cbn in H; [inversion H; cbn; lia|]. apply bind_ok in H as [s1 [H1 H]]. rewrite (IH _ _ H).
  destruct o as [t|t meas|pr ca ex|u k]; cbn in H1 |- *.
  - destruct (predict_inv _ _ _ _ _ H1) as [_ [_ [_ [_ [_ [_ [_ [_ [_ [_ [_ [_ [_ [Ec _]]]]]]]]]]]]]]. rewrite Ec. lia.
  - destruct (correct_inv _ _ _ _ _ _ H1) as [_ [_ [_ [_ [_ [Ec _]]]]]]. rewrite Ec. lia.
  - destruct (cleanup_inv _ _ _ _ _ _ _ H1) as [_ [Ec _]]. rewrite Ec. lia.
  - apply bind_ok in H1 as [[o s2] [H1 H2]]. inversion H2; subst s2. destruct (extract_tab _ _ _ _ _ _ H1) as [_ [_ [Ec _]]]. lia.
Qed.

(** ** argmax *)
Lemma argmax_ok l : l <> [] -> exists m, argmaxR l = Ok m.
Proof. destruct l; [congruence|]. intros _. eexists. reflexivity. Qed.
Lemma argmax_is l m : is_mode l m -> argmaxR l = Ok m.
Proof.
  intros [Hm [Hmax Hfirst]]. destruct (argmax_ok l) as [m' E1]; [intros ->; cbn in Hm; lia|]. rewrite E1. f_equal.
  apply argmaxR_spec in E1 as [Hm' [Hmax' Hfirst']].
  destruct (Nat.lt_trichotomy m m') as [H|[H|H]]; [|auto|].
  - specialize (Hfirst' m H). specialize (Hmax m' Hm'). lra.
  - specialize (Hfirst m' H). specialize (Hmax' m Hm). lra.
Qed.
Lemma map_index_lt s idx : map_index s = Ok idx -> exists h, nth_error (g_hyps s) idx = Some h.
Proof.
  unfold map_index. intros H. apply bind_ok in H as [card [_ H]]. apply argmaxR_spec in H as [H _]. rewrite map_length in H.
  destruct (nth_error (g_hyps s) idx) eqn:E1; [eauto|]. apply nth_error_None in E1. lia.
Qed.
Lemma map_index_ok s : g_card s <> [] -> g_hyps s <> [] -> exists i, map_index s = Ok i.
Proof.
  intros Hc Hh. unfold map_index. destruct (argmax_ok _ Hc) as [m Em]. rewrite Em. cbn [bind]. apply argmax_ok. destruct (g_hyps s); [congruence|discriminate].
Qed.

(** ** extraction succeeds *)
Definition shape c (e : entry) : Prop :=
  exists m, (0 < m)%nat /\ length (e_fs e) = m /\ (forall l, In l (e_st e) -> length l = m) /\ (forall l, In l (e_w e) -> length l = m) /\
    (c_savecov c = true -> forall l, In l (e_cov e) -> length l = m).
Lemma extract_helper_ok c e n : shape c e -> length (e_st e) = n -> length (e_w e) = n -> length (e_cov e) = n ->
  exists st cv, extract_helper c e = Ok (st, cv) /\ length st = n /\ length cv = n.
Proof.
  intros [m [Hm [_ [Hst [Hw Hc]]]]] L1 L2 L3. unfold extract_helper.
  destruct (mapM_all_ok (fun wsc : list R * list ST * list (option CV) => let '(w, s, cv) := wsc in do idx <- argmaxR w; do x <- geti s idx;
            do y <- (if c_savecov c then geti cv idx else Ok None); Ok (x, y)) (combine (combine (e_w e) (e_st e)) (e_cov e))) as [l El].
  { intros [[w sl] cl] Hi. pose proof (in_combine_l _ _ _ _ Hi) as Hi1. pose proof (in_combine_r _ _ _ _ Hi) as Hc1.
    pose proof (in_combine_l _ _ _ _ Hi1) as Hw1. pose proof (in_combine_r _ _ _ _ Hi1) as Hs1.
    apply Hst in Hs1. apply Hw in Hw1.
    destruct (argmax_ok w) as [idx E1]; [intros ->; cbn in Hw1; lia|]. rewrite E1. cbn [bind]. apply argmaxR_spec in E1 as [Hidx _].
    unfold geti. destruct (nth_error sl idx) as [x|] eqn:Ex; [|apply nth_error_None in Ex; lia]. cbn [bind].
    destruct (c_savecov c) eqn:Es; [|cbn; eauto]. specialize (Hc eq_refl _ Hc1).
    destruct (nth_error cl idx) as [y|] eqn:Ey; [|apply nth_error_None in Ey; lia]. cbn. eauto. }
  rewrite El. cbn [bind]. exists (map fst l), (map snd l). split; [reflexivity|]. rewrite !map_length. apply mapM_length in El.
  rewrite El, !combine_length, L1, L2, L3. lia.
Qed.
Lemma extract_helper_len c (e : entry) n st cv : length (e_st e) = n -> length (e_w e) = n -> length (e_cov e) = n -> extract_helper c e = Ok (st, cv) ->
  length st = n /\ length cv = n.
Proof.
  intros L1 L2 L3 H. apply bind_ok in H as [l [El H]]. injection H as <- <-. rewrite !map_length. apply mapM_length in El.
  rewrite El, !combine_length, L1, L2, L3. lia.
Qed.
Definition xlen (ph cnt : nat) (x : ehist) : Prop :=
  length (x_cov x) = length (x_st x) /\ (length (x_meas x) <= length (x_st x))%nat /\ (x_time x + length (x_st x) <= if (ph =? 0)%nat then cnt else S cnt)%nat.
Lemma new_xlen ph c cnt (e : entry) st cv : len_ok ph cnt e -> extract_helper c e = Ok (st, cv) -> xlen ph cnt (hist_of e st cv).
Proof.
  intros [n [H1 [H2 [H3 [H4 [H5 H6]]]]]] H. destruct (extract_helper_len _ _ n _ _ H2 H3 H4 H) as [A B]. unfold xlen, hist_of. cbn.
  rewrite A, B, H5. split; [reflexivity|]. split; [destruct (ph =? 1)%nat; lia|]. rewrite H6. lia.
Qed.
Lemma xlen_extract ph c u k s o s' : extract_states c u k s = Ok (o, s') -> (forall e, In e (g_tab s) -> len_ok ph (g_cnt s) e) ->
  (forall x, In x (g_ext s) -> xlen ph (g_cnt s) x) -> forall x, In x (g_ext s') -> xlen ph (g_cnt s) x.
Proof.
  intros H HL HX x Hx. destruct (extract_inv _ _ _ _ _ _ H) as [[_ [_ [Ex _]]]|[idx [xs [oo [_ [_ [_ [Hu [Ex _]]]]]]]]]; rewrite Ex in Hx; [auto|].
  destruct u; [|subst; auto]. destruct (update_hist_inv _ _ _ _ Hu) as [h [es [news [l [E1 [F1 [F2 [_ [_ [_ ->]]]]]]]]]].
  apply in_app_or in Hx as [Hx|Hx]; [apply filter_In in Hx as [Hx _]; auto|].
  apply In_nth_error in Hx as [j Hj]. destruct (F2_nth_r _ _ _ _ _ F2 Hj) as [e [He [st [cv [Ee ->]]]]].
  destruct (F2_nth_r _ _ _ _ _ F1 He) as [i [_ Hi]]. eapply new_xlen; [|exact Ee]. apply HL. eapply nth_error_In; eauto.
Qed.
Definition Extractable c s : Prop :=
  g_card s <> [] /\ g_hyps s <> [] /\ refs_ok (g_tab s) (g_hyps s) /\ (forall e, In e (g_tab s) -> len_ok 0 (g_cnt s) e /\ shape c e) /\
  (forall x, In x (g_ext s) -> xlen 0 (g_cnt s) x).
Lemma new_hists_ok c n : forall (es : list entry) l, (forall e, In e es -> fits n (e_time e) (e_assoc e) /\ exists r, extract_helper c e = Ok r) ->
  exists xs u, new_hists c es (shared n l) = Ok (xs, u).
Proof.
  induction es as [|e es IH]; intros l H; cbn [new_hists]; [eauto|].
  destruct (H e (or_introl eq_refl)) as [Hf [[st cv] Hr]]. rewrite Hr. cbn [bind].
  destruct (mark_used_ok n _ _ l Hf) as [l' [E1 _]]. rewrite E1. cbn [bind].
  destruct (IH l') as [xs [u Eu]]; [intros e' He'; apply H; right; exact He'|]. rewrite Eu. cbn. eauto.
Qed.
Lemma keep_hists_ok labels n l : forall (xs : list ehist), (forall x, In x xs -> fits n (x_time x) (x_meas x)) -> exists r, keep_hists labels (shared n l) xs = Ok r.
Proof.
  induction xs as [|x xs IH]; intros H; cbn [keep_hists]; [eauto|].
  destruct IH as [r Er]; [intros y Hy; apply H; right; exact Hy|].
  destruct (existsb _ _); cbn [bind]; [rewrite Er; cbn; eauto|].
  destruct (clashes_spec n l _ _ (H x (or_introl eq_refl))) as [b [Eb _]]. rewrite Eb. cbn [bind]. rewrite Er. cbn. eauto.
Qed.
Lemma xlen_fits cnt (x : ehist) : xlen 0 cnt x -> fits cnt (x_time x) (x_meas x).
Proof. intros [_ [H1 H2]] k m Hk. assert (Hl : (k < length (x_meas x))%nat) by (apply nth_error_Some; congruence). cbn in H2. lia. Qed.
Lemma len_fits cnt (e : entry) : len_ok 0 cnt e -> fits cnt (e_time e) (e_assoc e).
Proof. intros [n [_ [_ [_ [_ [H1 H2]]]]]] k m Hk. assert (Hl : (k < length (e_assoc e))%nat) by (apply nth_error_Some; congruence). cbn in H1, H2. lia. Qed.
Lemma xlen_range cnt (x : ehist) : xlen 0 cnt x -> in_range cnt x.
Proof. intros [H1 [_ H2]]. right. cbn in H2. rewrite combine_length, H1, Nat.min_id. exact H2. Qed.
Lemma update_hist_ok c s idx : Extractable c s -> (exists h, nth_error (g_hyps s) idx = Some h) -> exists xs, update_hist c s idx = Ok xs.
Proof.
  intros [_ [_ [HR [HT HX]]]] [h Hh]. unfold update_hist. unfold geti at 1. rewrite Hh. cbn [bind].
  destruct (mapM_all_ok (geti (g_tab s)) (h_ts h)) as [es Ees].
  { intros i Hi. specialize (HR h i (nth_error_In _ _ Hh) Hi). unfold geti. destruct (nth_error (g_tab s) i) eqn:En; [eauto|apply nth_error_None in En; lia]. }
  rewrite Ees. cbn [bind].
  assert (Hin : forall e, In e es -> In e (g_tab s)).
  { intros e He. destruct (mapM_in _ _ _ _ Ees He) as [i [_ Hi]]. apply geti_ok in Hi. eapply nth_error_In; eauto. }
  destruct (new_hists_ok c (g_cnt s) es []) as [xs [u Eu]].
  { intros e He. destruct (HT e (Hin e He)) as [HL HS]. split; [apply len_fits, HL|]. destruct HL as [n [_ [L1 [L2 [L3 _]]]]].
    destruct (extract_helper_ok c e n HS L1 L2 L3) as [st [cv [Er _]]]. eauto. }
  rewrite shared_new, Eu. cbn [bind]. destruct (new_hists_inv _ _ _ _ _ _ Eu) as [_ [_ [l' [-> _]]]].
  destruct (keep_hists_ok (map e_label es) (g_cnt s) l' (g_ext s)) as [r Er]; [intros x Hx; apply xlen_fits, HX, Hx|]. rewrite Er. cbn. eauto.
Qed.
Lemma extract_ok c u k s : Extractable c s -> exists i s', extract_states c u k s = Ok (Some i, s').
Proof.
  intros HE. pose proof HE as [Hc [Hh [HR [HT HX]]]]. unfold extract_states. destruct (argmax_ok _ Hc) as [m Em]. rewrite Em. cbn [bind].
  destruct (g_hyps s) as [|h0 hs0] eqn:Eh; [congruence|]. rewrite <- Eh in *.
  destruct (map_index_ok s Hc Hh) as [i Ei]. rewrite Ei. cbn [bind].
  assert (Hxs : exists xs, (if u then update_hist c s i else Ok (g_ext s)) = Ok xs /\ forall x, In x xs -> xlen 0 (g_cnt s) x).
  { destruct u; [|exists (g_ext s); auto]. destruct (update_hist_ok c s i HE (map_index_lt _ _ Ei)) as [xs Exs]. exists xs. split; [exact Exs|].
    intros x Hx. destruct (update_hist_inv _ _ _ _ Exs) as [h [es [news [l [E1 [F1 [F2 [_ [_ [_ ->]]]]]]]]]].
    apply in_app_or in Hx as [Hx|Hx]; [apply filter_In in Hx as [Hx _]; auto|].
    apply In_nth_error in Hx as [j Hj]. destruct (F2_nth_r _ _ _ _ _ F2 Hj) as [e [He [st [cv [Ee ->]]]]].
    destruct (F2_nth_r _ _ _ _ _ F1 He) as [i' [_ Hi]]. eapply new_xlen; [|exact Ee]. apply HT. eapply nth_error_In; eauto. }
  destruct Hxs as [xs [Exs Hxs]]. rewrite Exs. cbn [bind]. destruct k; [|eexists _, _; reflexivity].
  rewrite outs_new. destruct (put_all_ok xs (repeat [] (g_cnt s))) as [cols [Ep _]]; [intros x Hx; rewrite repeat_length; apply xlen_range, Hxs, Hx|].
  rewrite Ep. eexists _, _. reflexivity.
Qed.
Lemma set_prob0_ts i : forall hs, map h_ts (set_prob0 i hs) = map h_ts hs.
Proof. induction i as [|i IH]; intros [|h hs]; cbn; try reflexivity. rewrite IH. reflexivity. Qed.
Lemma refs_ts {A} (tab : list A) hs hs' : map h_ts hs = map h_ts hs' -> refs_ok tab hs -> refs_ok tab hs'.
Proof.
  intros Heq H h i Hh Hi. assert (Hm : In (h_ts h) (map h_ts hs)) by (rewrite Heq; apply in_map, Hh).
  apply in_map_iff in Hm as [h0 [E0 H0]]. apply (H h0 i H0). rewrite E0. exact Hi.
Qed.
Lemma extract_step c s i : Extractable c s -> map_index s = Ok i -> exists s1,
  extract_states c true true s = Ok (Some i, s1) /\ g_hyps s1 = g_hyps s /\ g_card s1 = g_card s /\ Extractable c s1 /\ Extractable c (zero_hyp i s1).
Proof.
  intros HE Hi. destruct (extract_ok c true true s HE) as [i' [s1 H1]]. pose proof HE as [Hc [Hh [HR [HT HX]]]].
  destruct (extract_tab _ _ _ _ _ _ H1) as [A [B [C D]]].
  destruct (extract_inv _ _ _ _ _ _ H1) as [[? _]|[idx [xs [oo [_ [Eo [Em [_ [_ _]]]]]]]]]; [congruence|].
  assert (i' = i) by congruence. subst i'. exists s1.
  assert (HE1 : Extractable c s1).
  { unfold Extractable. rewrite A, B, C, D. repeat split; auto; try (apply HT; assumption).
    - apply (xlen_extract 0 _ _ _ _ _ _ H1); auto. intros e He. apply HT, He.
    - apply (xlen_extract 0 _ _ _ _ _ _ H1); auto. intros e He. apply HT, He.
    - apply (xlen_extract 0 _ _ _ _ _ _ H1); auto. intros e He. apply HT, He. }
  split; [exact H1|]. split; [exact B|]. split; [exact D|]. split; [exact HE1|].
  destruct HE1 as [Hc1 [Hh1 [HR1 [HT1 HX1]]]]. unfold Extractable, zero_hyp. cbn. split; [exact Hc1|]. split.
  { intros E0. apply Hh1. pose proof (set_prob0_ts i (g_hyps s1)) as Ht. rewrite E0 in Ht. destruct (g_hyps s1); [reflexivity|discriminate]. }
  split; [eapply refs_ts; [symmetry; apply set_prob0_ts|exact HR1]|]. auto.
Qed.
End P.
