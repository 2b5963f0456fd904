(** How deep [assign_opt] recurses. *)
From Verif Require Import Base HungModel HungSpec HungProofs HungRecModel.

Lemma sweep_dist nr nc cols : forall st zf,
  match sweep_cols nr nc cols st zf with
  | Goto4 st1 _ _ => h_dist st1 = h_dist st
  | Done st1 _ => h_dist st1 = h_dist st
  end.
Proof.
  induction cols as [|c cols IH]; intros st zf; cbn [sweep_cols]; [reflexivity|].
  destruct (h_ccov st c); [apply IH|].
  match goal with |- context [if ?b then _ else _] => destruct b end; [|apply IH].
  match goal with |- context [if ?b then _ else _] => destruct b end; [reflexivity|].
  match goal with |- context [sweep_cols nr nc cols ?s true] => specialize (IH s true) end.
  exact IH.
Qed.
Lemma step4_dist nr nc st r c st' : step4 nr nc st r c = Ok st' -> h_dist st' = h_dist st.
Proof.
  unfold step4. destruct (step4_loop _ _ _ _ _ _ _ _) as [new|e]; cbn [bind]; [|discriminate].
  intros H. injection H as H1. subst st'. reflexivity.
Qed.

Lemma nodup_map_inj {A B} (g : A -> B) l : (forall x y, In x l -> In y l -> g x = g y -> x = y) -> NoDup l -> NoDup (map g l).
Proof.
  intros Hg H. induction H as [|x l Hx H IH]; cbn [map]; constructor.
  - intros Hin. apply in_map_iff in Hin as [y [E Hy]]. apply Hx. assert (y = x) as <-; [|exact Hy].
    apply Hg; [right; exact Hy|left; reflexivity|exact E].
  - apply IH. intros a b Ha Hb. apply Hg; right; assumption.
Qed.
Lemma seq_cons n : 0 < n -> seq 0 n = 0 :: seq 1 (n - 1).
Proof. destruct n; [lia|]. intros _. cbn [seq]. repeat f_equal. lia. Qed.
Section Depth.
Variables nr nc : nat.
Variable C : nat -> nat -> Q.
Notation md := (Nat.min nr nc).

(** Every row (every column, if there are more rows) has a zero. *)
Definition allzero (dist : nat -> nat -> Q) : Prop :=
  if nr <=? nc then forall r, r < nr -> exists c, c < nc /\ (dist r c == 0)%Q
  else forall c, c < nc -> exists r, r < nr /\ (dist r c == 0)%Q.

Definition nozero (st : hst) : Prop :=
  forall r c, r < nr -> c < nc -> h_rcov st r = false -> h_ccov st c = false -> ~ (h_dist st r c == 0)%Q.

Lemma step5_allzero st u v hist st' u' v' : inv nr nc C st u v hist -> inv nr nc C st' u' v' hist ->
  h_star st' = h_star st -> step5 nr nc st = Ok st' -> nozero st -> allzero (h_dist st) -> allzero (h_dist st').
Proof.
  intros Hi Hi' Es E Hn. unfold step5 in E. destruct (step5_min nr nc st) as [h|]; [|discriminate].
  injection E as <-. cbn [h_star h_dist] in *.
  destruct Hi as [_ [_ [_ [Hcs [Hrs Hp]]]]]. destruct Hi' as [_ [[M1' _] _]]. cbn [h_dist h_star] in M1'.
  destruct Hp as [_ [P2 [P3 _]]].
  unfold allzero. destruct (nr <=? nc); intros H x Hx.
  - destruct (any_lt (h_star st x) nc) eqn:Ea.
    + apply any_lt_true in Ea as [c [Hc Ec]]. exists c. destruct (M1' _ _ Ec) as [_ [_ Z]]. auto.
    + destruct (H x Hx) as [c [Hc Hz]]. exists c. split; [exact Hc|].
      assert (Er : h_rcov st x = false).
      { destruct (h_rcov st x) eqn:Er; [|reflexivity]. exfalso. apply P2 in Er. destruct (P3 _ Er) as [_ [c' Hc']].
        assert (Hc2 : any_lt (h_star st x) nc = true); [|congruence]. apply any_lt_true. exists c'. split; [|exact Hc'].
        apply (M1' _ _ Hc'). }
      rewrite Er. destruct (h_ccov st c) eqn:Ec; [exact Hz|]. exfalso. exact (Hn x c Hx Hc Er Ec Hz).
  - destruct (any_lt (fun r => h_star st r x) nr) eqn:Ea.
    + apply any_lt_true in Ea as [r [Hr Ec]]. exists r. destruct (M1' _ _ Ec) as [_ [_ Z]]. auto.
    + destruct (H x Hx) as [r [Hr Hz]]. exists r. split; [exact Hr|].
      assert (Ec : h_ccov st x = false).
      { destruct (h_ccov st x) eqn:Ec; [|reflexivity]. exfalso. destruct (Hcs _ Ec) as [r' Hr'].
        assert (Hc2 : any_lt (fun r => h_star st r x) nr = true); [|congruence]. apply any_lt_true. exists r'. split; [|exact Hr'].
        apply (M1' _ _ Hr'). }
      rewrite Ec. destruct (h_rcov st r) eqn:Er; [lra|]. exfalso. exact (Hn r x Hr Hx Er Ec Hz).
Qed.

(** Where step 5 can happen. *)
Lemma step5_when st u v hist : inv nr nc C st u v hist -> nozero st -> allzero (h_dist st) -> nstars nr nc (h_star st) < md ->
  if nr <=? nc then length hist < nstars nr nc (h_star st) else 0 < length hist.
Proof.
  intros Hi Hn Ha Hlt. pose proof Hi as [_ [Hm [_ [Hcs [Hrs Hp]]]]].
  pose proof (hist_le_stars nr nc _ _ Hp Hm) as Hle.
  unfold allzero in Ha. destruct (nr <=? nc) eqn:Enr.
  - destruct (Nat.eq_dec (length hist) (nstars nr nc (h_star st))) as [El|]; [exfalso|lia].
    destruct (uncovered_exist nr nc C st u v hist Hi Hlt) as [r0 [c0 [Hr0 [Hc0 [Er0 _]]]]].
    destruct (Ha r0 Hr0) as [c [Hc Hz]].
    destruct (h_ccov st c) eqn:Ec; [|exact (Hn r0 c Hr0 Hc Er0 Ec Hz)].
    (* c is starred in an uncovered row, yet all starred rows are covered *)
    destruct (Hcs c Ec) as [r1 Hr1]. pose proof (Hrs _ _ Hr1) as Er1. rewrite Ec in Er1. cbn in Er1.
    destruct Hm as [M1 [M2 M3]]. destruct Hp as [P1 [P2 [P3 _]]].
    assert (~ In r1 hist) by (intros X; apply P2 in X; congruence).
    assert (S (length hist) <= nstars nr nc (h_star st)); [|lia].
    change (S (length hist)) with (length (r1 :: hist)).
    set (g := fun r => find_first (h_star st r) nc).
    assert (Hg : forall r, In r (r1 :: hist) -> h_star st r (g r) = true /\ g r < nc).
    { intros r Hr. assert (exists c, h_star st r c = true) as [c' Hc'].
      { destruct Hr as [<-|Hr]; [eauto|]. apply (P3 r Hr). }
      destruct (M1 _ _ Hc') as [_ [Hcn _]].
      destruct (find_first_some (h_star st r) nc c' Hcn Hc') as [Hl _].
      split; [apply find_first_true; exact Hl|exact Hl]. }
    rewrite <- (map_length g). unfold nstars, count_lt. apply NoDup_incl_length.
    + apply nodup_map_inj; [|constructor; assumption].
      intros x y Hx Hy E. apply (M3 x y (g x)); [apply Hg, Hx|rewrite E; apply Hg, Hy].
    + intros k Hk. apply in_map_iff in Hk as [r [<- Hr]]. destruct (Hg r Hr) as [A B].
      apply filter_In. split; [apply in_seq; lia|]. unfold cstar. apply any_lt_true.
      exists r. split; [apply (M1 _ _ A)|exact A].
  - apply Nat.leb_gt in Enr.
    destruct hist as [|x hist]; [exfalso|cbn; lia].
    destruct (count_lt_not_full (cstar nr (h_star st)) nc) as [c [Hc Ecs]]; [unfold nstars in Hlt; lia|].
    destruct (Ha c Hc) as [r [Hr Hz]].
    apply (Hn r c Hr Hc); [| |exact Hz].
    + destruct Hp as [_ [P2 _]]. destruct (h_rcov st r) eqn:Er; [|reflexivity]. apply P2 in Er as [].
    + destruct (h_ccov st c) eqn:Ec; [|reflexivity]. destruct (Hcs _ Ec) as [r' Hr'].
      assert (cstar nr (h_star st) c = true); [|congruence]. apply any_lt_true. exists r'. split; [|exact Hr'].
      destruct Hm as [M1 _]. apply (M1 _ _ Hr').
Qed.

(** Remaining step 5s of the phase, and the frames needed. *)
Definition fives (k L : nat) (z : bool) : nat :=
  if nr <=? nc then (if z then (k - L) - 1 else k - L) else Nat.min k (k - L + (if z then 0 else 1)).
Definition tri (k : nat) : nat := k * k + 3 * k.
Definition need (k L : nat) (z : bool) : nat := 2 * fives k L z + 4 + (tri md - tri (S k)).

Lemma tri_S k : tri (S k) = tri k + (2 * k + 4).
Proof. unfold tri. lia. Qed.
Lemma tri_mono a b : a <= b -> tri a <= tri b.
Proof. unfold tri. intros H. assert (a * a <= b * b) by (apply Nat.mul_le_mono; lia). lia. Qed.
Lemma need_start k z : k < md -> need k 0 z <= tri md - tri k.
Proof.
  intros H. unfold need, fives. pose proof (tri_mono (S k) md H). rewrite tri_S in *.
  destruct (nr <=? nc), z; lia.
Qed.

Lemma step3r_ok fuel : forall avail st u v hist,
  inv nr nc C st u v hist -> allzero (h_dist st) -> nstars nr nc (h_star st) < md ->
  need (nstars nr nc (h_star st)) (length hist) (unc_zero nr nc st) <= avail ->
  step3r nr nc md fuel avail st = step3 nr nc md fuel st.
Proof.
  induction fuel as [|fuel IH]; intros avail st u v hist Hinv Ha Hlt Hf; [reflexivity|].
  cbn [step3r step3].
  pose proof (sweep_spec nr nc C (seq 0 nc) st u v hist false Hinv (fun c H => proj2 (proj1 (in_seq nc 0 c) H))) as Hs.
  pose proof (sweep_dist nr nc (seq 0 nc) st false) as Hsd.
  pose proof (tri_mono _ _ (Hlt : S _ <= md)) as Ht.
  destruct (sweep_cols nr nc (seq 0 nc) st false) as [st1 row col|st1 [|]].
  - destruct Hs as [st0 [hist0 [Hi0 [Es [Hrow [Hcol [Hcc [Hz [Hns ->]]]]]]]]]. cbn [h_dist] in Hsd.
    destruct (step4_spec nr nc C st0 u v hist0 row col Hi0 Hrow Hcol Hcc Hz Hns) as [st' [E4 [Hi' [Hn' Hcov]]]].
    pose proof (step4_dist _ _ _ _ _ _ E4) as Ed. cbn [h_dist] in Ed.
    assert (E : avail <? 4 = false) by (apply Nat.ltb_ge; unfold need in Hf; lia). rewrite E. clear E.
    rewrite E4. cbn [bind].
    rewrite (count_lt_ext (h_ccov (step2a nr st')) (cstar nr (h_star st')) nc Hcov).
    fold (nstars nr nc (h_star st')).
    destruct (Nat.eqb_spec (nstars nr nc (h_star st')) md) as [E|Hne]; [reflexivity|].
    apply (IH _ (step2a nr st') u v []); [exact Hi'| | |].
    + change (h_dist (step2a nr st')) with (h_dist st'). rewrite Ed, Hsd. exact Ha.
    + change (h_star (step2a nr st')) with (h_star st'). rewrite Hn', Es in *. lia.
    + change (h_star (step2a nr st')) with (h_star st'). rewrite Hn', Es in *. cbn [length].
      assert (Hk : S (nstars nr nc (h_star st)) < md) by lia.
      pose proof (need_start _ (unc_zero nr nc (step2a nr st')) Hk). unfold need in Hf. lia.
  - destruct Hs as [hist1 [Hi1 [Es [_ [Hl _]]]]]. destruct (Hl eq_refl) as [|Hlen]; [discriminate|].
    apply (IH _ st1 u v hist1 Hi1); [rewrite Hsd; exact Ha|rewrite Es; exact Hlt|].
    pose proof (hist_le_stars nr nc _ _ (proj2 (proj2 (proj2 (proj2 (proj2 Hi1))))) (proj1 (proj2 Hi1))) as Hle1. rewrite Es in Hle1.
    rewrite Es. unfold need in *.
    assert (fives (nstars nr nc (h_star st)) (length hist1) (unc_zero nr nc st1) <= fives (nstars nr nc (h_star st)) (length hist) (unc_zero nr nc st)); [|lia].
    unfold fives. destruct (nr <=? nc), (unc_zero nr nc st1), (unc_zero nr nc st); lia.
  - destruct Hs as [hist1 [_ [_ [_ [_ Hf1]]]]]. destruct (Hf1 eq_refl) as [_ [-> Hnz]].
    destruct (step5_spec nr nc C st u v hist Hinv Hlt) as [st' [u' [v' [E5 [Hi' [Es Hz]]]]]].
    assert (Hno : nozero st) by (intros r c Hr Hc E1 E2; apply Hnz; auto; apply in_seq; lia).
    assert (Hu : unc_zero nr nc st = false).
    { unfold unc_zero. apply any_lt_false. intros c Hc. destruct (h_ccov st c) eqn:Ec; [reflexivity|].
      simpl. apply any_lt_false. intros r Hr. destruct (h_rcov st r) eqn:Er; [reflexivity|]. simpl.
      apply Qeqb_neq. apply Hnz; auto. apply in_seq; lia. }
    pose proof (step5_when st u v hist Hinv Hno Ha Hlt) as Hw.
    pose proof (hist_le_stars nr nc _ _ (proj2 (proj2 (proj2 (proj2 (proj2 Hinv))))) (proj1 (proj2 Hinv))) as Hle.
    assert (Hd : need (nstars nr nc (h_star st)) (length hist) (unc_zero nr nc st') + 2 <= need (nstars nr nc (h_star st)) (length hist) (unc_zero nr nc st)).
    { rewrite Hz, Hu. unfold need, fives. destruct (nr <=? nc); lia. }
    assert (E : avail <? 2 = false) by (apply Nat.ltb_ge; lia). rewrite E. clear E.
    rewrite E5. cbn [bind]. apply (IH _ st' u' v' hist Hi').
    + exact (step5_allzero _ _ _ _ _ _ _ Hinv Hi' Es E5 Hno Ha).
    + rewrite Es; exact Hlt.
    + rewrite Es. lia.
Qed.

Lemma star_rows_keep dist rows : forall star ccov c, ccov c = true -> snd (star_rows nc dist rows star ccov) c = true.
Proof.
  induction rows as [|r rows IH]; intros star ccov c H; cbn [star_rows]; [exact H|].
  match goal with |- context [if ?b then _ else _] => destruct b end; [|apply IH, H].
  apply IH. unfold upd. destruct (c =? _); auto.
Qed.
Lemma star_cols_keep dist cols : forall star ccov rcov c, ccov c = true -> snd (fst (star_cols nr dist cols star ccov rcov)) c = true.
Proof.
  induction cols as [|k cols IH]; intros star ccov rcov c H; cbn [star_cols]; [exact H|].
  match goal with |- context [if ?b then _ else _] => destruct b end; [|apply IH, H].
  apply IH. unfold upd. destruct (c =? _); auto.
Qed.

Lemma step2br_ok avail dist star ccov u v :
  duals nr nc C dist u v -> matching_on nr nc dist star -> slack nr nc star u v ->
  (forall c, ccov c = true <-> exists r, star r c = true) -> allzero dist -> 0 < nstars nr nc star ->
  tri md - 4 + 2 <= avail ->
  step2br nr nc md (hung_fuel nr nc) avail
     {| h_dist := dist; h_star := star; h_prime := fun _ _ => false;
        h_ccov := ccov; h_rcov := fun _ => false |} =
  step2b nr nc md (hung_fuel nr nc)
     {| h_dist := dist; h_star := star; h_prime := fun _ _ => false;
        h_ccov := ccov; h_rcov := fun _ => false |}.
Proof.
  intros Hd Hm Hs Hc Ha H1 Hl. unfold step2br, step2b. cbn [h_ccov h_star].
  assert (E : avail <? 2 = false) by (apply Nat.ltb_ge; lia). rewrite E. clear E.
  assert (E : count_lt ccov nc = nstars nr nc star).
  { apply count_lt_ext. intros c _. apply eq_true_iff_eq. rewrite Hc. symmetry. apply (cstar_true nr nc).
    intros r' c' H. destruct Hm as [M1 _]. destruct (M1 _ _ H); tauto. }
  rewrite E. destruct (Nat.eqb_spec (nstars nr nc star) md) as [Eq|Hne]; [reflexivity|].
  pose proof (nstars_le nr nc C _ _ Hm) as Hle.
  apply (step3r_ok _ _ _ u v []).
  - split; [exact Hd|]. split; [exact Hm|]. split; [exact Hs|]. cbn. split; [intros c; apply Hc|].
    split; [|split; [constructor|split; [split; [discriminate|intros []]|split; [intros r []|split; [discriminate|]]]]].
    + intros r c Hrc. assert (ccov c = true) as -> by (apply Hc; eauto). reflexivity.
    + intros l1 r l2 El. destruct l1; discriminate.
  - exact Ha.
  - cbn. lia.
  - cbn [h_star length]. eapply Nat.le_trans; [apply need_start; lia|].
    pose proof (tri_mono 1 (nstars nr nc star) H1) as T1. change (tri 1) with 4 in T1. lia.
Qed.

Lemma solver_ok avail : 0 < nr -> 0 < nc -> tri md - 4 + 2 <= avail -> solver nr nc avail C = solve nr nc C.
Proof.
  intros Hnr Hnc Hl. unfold solver, solve. destruct (nr <=? nc) eqn:E.
  - apply Nat.leb_le in E.
    set (dist := fun r col => (C r col - min_lt (C r) nc)%Q).
    assert (Ha : allzero dist).
    { unfold allzero. apply Nat.leb_le in E. rewrite E. intros r Hr. destruct (min_lt_spec (C r) nc Hnc) as [_ [c [Hc Ec]]].
      exists c. split; [exact Hc|]. unfold dist. rewrite Ec. lra. }
    pose proof (star_rows_spec nr nc dist (seq 0 nr) (fun _ _ => false) (fun _ => false)) as H.
    assert (H0 : exists c, snd (star_rows nc dist (seq 0 nr) (fun _ _ => false) (fun _ => false)) c = true).
    { rewrite (seq_cons nr Hnr). cbn [star_rows].
      assert (Hz : exists c, c < nc /\ (dist 0%nat c == 0)%Q).
      { unfold allzero in Ha. apply Nat.leb_le in E. rewrite E in Ha. apply Ha. lia. }
      destruct Hz as [c [Hc Hz]].
      destruct (find_first_some (fun c => Qeq_bool (dist 0%nat c) 0 && negb false) nc c Hc) as [Hlt _].
      { apply andb_true_iff. split; [apply Qeqb_eq, Hz|reflexivity]. }
      apply Nat.ltb_lt in Hlt. rewrite Hlt.
      eexists. apply star_rows_keep. unfold upd. rewrite Nat.eqb_refl. reflexivity. }
    destruct (star_rows nc dist (seq 0 nr) (fun _ _ => false) (fun _ => false)) as [star ccov]. cbn [snd] in H0.
    destruct H as [Hm Hc].
    + apply seq_NoDup.
    + intros r Hr. apply in_seq in Hr. lia.
    + split; [discriminate|split; discriminate].
    + intros c. split; [discriminate|intros [r Hr]; discriminate].
    + reflexivity.
    + replace (step2b nr nc nr) with (step2b nr nc md) by (rewrite Nat.min_l by exact E; reflexivity).
      replace (step2br nr nc nr) with (step2br nr nc md) by (rewrite Nat.min_l by exact E; reflexivity).
      apply (step2br_ok avail dist star ccov (fun r => min_lt (C r) nc) (fun _ => 0%Q)).
      * intros r c Hr Hcc. unfold dist. destruct (min_lt_spec (C r) nc Hnc) as [H _].
        specialize (H c Hcc). split; lra.
      * exact Hm.
      * unfold slack. apply Nat.leb_le in E. rewrite E. exists 0%Q. intros c _. split; [lra|reflexivity].
      * exact Hc.
      * exact Ha.
      * destruct H0 as [c Hcc]. apply Hc in Hcc as [r Hr]. destruct Hm as [M1 _]. destruct (M1 _ _ Hr) as [A [B _]].
        assert (Q : nstars nr nc star <> 0); [|lia]. intros Z. unfold nstars, count_lt in Z. apply length_zero_iff_nil in Z.
        assert (In c (filter (cstar nr star) (seq 0 nc))); [|rewrite Z in *; contradiction].
        apply filter_In. split; [apply in_seq; lia|]. apply any_lt_true. eauto.
      * exact Hl.
  - apply Nat.leb_gt in E.
    set (dist := fun r col => (C r col - min_lt (fun r' => C r' col) nr)%Q).
    assert (Ha : allzero dist).
    { unfold allzero. apply Nat.leb_gt in E. rewrite E. intros c Hc. destruct (min_lt_spec (fun r => C r c) nr Hnr) as [_ [r [Hr Er]]].
      exists r. split; [exact Hr|]. unfold dist. cbn beta in Er. rewrite Er. lra. }
    pose proof (star_cols_spec nr nc dist (seq 0 nc) (fun _ _ => false) (fun _ => false) (fun _ => false)) as H.
    assert (H0 : exists c, snd (fst (star_cols nr dist (seq 0 nc) (fun _ _ => false) (fun _ => false) (fun _ => false))) c = true).
    { rewrite (seq_cons nc Hnc). cbn [star_cols].
      assert (Hz : exists r, r < nr /\ (dist r 0%nat == 0)%Q).
      { unfold allzero in Ha. apply Nat.leb_gt in E. rewrite E in Ha. apply Ha. lia. }
      destruct Hz as [r [Hr Hz]].
      destruct (find_first_some (fun r => Qeq_bool (dist r 0%nat) 0 && negb false) nr r Hr) as [Hlt _].
      { apply andb_true_iff. split; [apply Qeqb_eq, Hz|reflexivity]. }
      apply Nat.ltb_lt in Hlt. rewrite Hlt.
      eexists. apply star_cols_keep. unfold upd. rewrite Nat.eqb_refl. reflexivity. }
    destruct (star_cols nr dist (seq 0 nc) (fun _ _ => false) (fun _ => false) (fun _ => false)) as [[star ccov] rcov]. cbn [fst snd] in H0.
    destruct H as [Hm Hc].
    + apply seq_NoDup.
    + intros r Hr. apply in_seq in Hr. lia.
    + split; [discriminate|split; discriminate].
    + intros c. split; [discriminate|intros [r Hr]; discriminate].
    + intros c. split; [discriminate|intros [r Hr]; discriminate].
    + reflexivity.
    + replace (step2b nr nc nc) with (step2b nr nc md) by (rewrite Nat.min_r by lia; reflexivity).
      replace (step2br nr nc nc) with (step2br nr nc md) by (rewrite Nat.min_r by lia; reflexivity).
      apply (step2br_ok avail dist star ccov (fun r => 0%Q) (fun c => min_lt (fun r => C r c) nr)).
      * intros r c Hr Hcc. unfold dist. destruct (min_lt_spec (fun r => C r c) nr Hnr) as [H _].
        specialize (H r Hr). cbn beta in H. split; lra.
      * exact Hm.
      * unfold slack. apply Nat.leb_gt in E. rewrite E. exists 0%Q. intros c _. split; [lra|reflexivity].
      * exact Hc.
      * exact Ha.
      * destruct H0 as [c Hcc]. apply Hc in Hcc as [r Hr]. destruct Hm as [M1 _]. destruct (M1 _ _ Hr) as [A [B _]].
        assert (Q : nstars nr nc star <> 0); [|lia]. intros Z. unfold nstars, count_lt in Z. apply length_zero_iff_nil in Z.
        assert (In c (filter (cstar nr star) (seq 0 nc))); [|rewrite Z in *; contradiction].
        apply filter_In. split; [apply in_seq; lia|]. apply any_lt_true. eauto.
      * exact Hl.
Qed.
End Depth.
