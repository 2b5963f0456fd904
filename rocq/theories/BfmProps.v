(** Property theorems about bfm_shortest_path (C08, C09). *)
From Verif Require Import Base BfmModel BfmSpec BfmProofs.

(** C08: a finite distance comes with a real path of exactly that length. *)
Theorem C08_bfm_path_real : forall n G src dst,
  2 <= n -> src < n -> dst < n -> no_negative_cycle n G -> well_scaled n G ->
  exists d path, bfm n G src dst = Ok (d, path) /\
    forall q, d = Fin q -> is_path n G src dst path /\ (path_cost G path == q)%Q.
Proof.
  intros n G src dst Hn Hs Hd Hc Hw. destruct (bfm_spec n G src Hs Hc Hw dst Hd Hn) as [d [path [E H]]].
  exists d, path. split; [exact E|]. intros q ->. destruct H as [H1 [H2 _]]. auto.
Qed.

(** C09: the distance is a lower bound for every path; the returned path is
    empty exactly when the distance is inf, exactly when there is no path. *)
Theorem C09_bfm_shortest : forall n G src dst,
  2 <= n -> src < n -> dst < n -> no_negative_cycle n G -> well_scaled n G ->
  exists d path, bfm n G src dst = Ok (d, path) /\
    (forall l, is_path n G src dst l -> exists q, d = Fin q /\ (q <= path_cost G l)%Q) /\
    (path = [] <-> forall l, ~ is_path n G src dst l) /\
    (d = Inf <-> forall l, ~ is_path n G src dst l).
Proof.
  intros n G src dst Hn Hs Hd Hc Hw. destruct (bfm_spec n G src Hs Hc Hw dst Hd Hn) as [d [path [E H]]].
  exists d, path. split; [exact E|]. destruct d as [q|].
  - destruct H as [H1 [H2 H3]]. split; [|split].
    + intros l Hl. exists q. split; [reflexivity|]. apply H3, Hl.
    + split; [intros ->; destruct H1 as [_ [_ [H1 _]]]; discriminate|]. intros Hno. exfalso. exact (Hno _ H1).
    + split; [discriminate|]. intros Hno. exfalso. exact (Hno _ H1).
  - destruct H as [-> Hno]. split; [|split].
    + intros l Hl. exfalso. exact (Hno _ Hl).
    + tauto.
    + tauto.
Qed.

(** Outside the hypotheses: a 1-node graph always raises (unbound local
    variable), an out-of-range source or destination raises IndexError, and so
    does a nonzero entry smaller than machine epsilon. *)
Theorem C08_bfm_errors : forall n G src dst,
  (n = 1 -> src < n -> bfm n G src dst = Err UnboundLocal) /\
  (n <= src -> bfm n G src dst = Err IndexErr) /\
  (2 <= n -> src < n -> n <= dst -> bfm n G src dst = Err IndexErr) /\
  (2 <= n -> src < n -> (exists u v q, u < n /\ v < n /\ G u v = Fin q /\ ~ (q == 0)%Q /\
      (Qabs q < 1 # 4503599627370496)%Q) -> bfm n G src dst = Err IndexErr).
Proof.
  intros n G src dst. unfold bfm, bfm_helper. split; [|split; [|split]].
  - intros -> H. destruct (Nat.leb_spec 1 src) as [|_]; [lia|]. reflexivity.
  - intros H. destruct (Nat.leb_spec n src) as [_|]; [reflexivity|lia].
  - intros H2 H3 H4. destruct (Nat.leb_spec n src) as [|_]; [lia|].
    destruct (Nat.eqb_spec n 1) as [|_]; [lia|].
    destruct (length (arcs n G) <? count_nonzero n G); [reflexivity|]. cbn [bind].
    destruct (rounds _ _ _ _) as [p D]. destruct (Nat.leb_spec n dst) as [_|]; [reflexivity|lia].
  - intros H2 H3 [u [v [q [Hu [Hv [E [Hq Hs]]]]]]]. destruct (Nat.leb_spec n src) as [|_]; [lia|].
    destruct (Nat.eqb_spec n 1) as [|_]; [lia|].
    pose proof (small_entry_overrun n G u v q Hu Hv E Hq Hs) as H.
    apply Nat.ltb_lt in H. rewrite H. reflexivity.
Qed.

Print Assumptions C08_bfm_path_real.
Print Assumptions C09_bfm_shortest.
Print Assumptions C08_bfm_errors.

(** A 4-node graph with a negative link (1 -> 2 costs -3) and a cycle
    1 -> 2 -> 1 of cost 1; the direct link 0 -> 2 (cost 1) is beaten by 0 1 2. *)
Definition ex_G (u v : nat) : ext :=
  match u, v with
  | 0, 1 => Fin 2 | 0, 2 => Fin 1 | 1, 2 => Fin (-3) | 2, 1 => Fin 4 | 3, 0 => Fin 1
  | 2, 3 => Inf | _, _ => Fin 0
  end.
Example C08_ex_hyps : no_negative_cycle 4 ex_G /\ well_scaled 4 ex_G.
Proof.
  split.
  - apply (potential_no_negative_cycle 4 ex_G (fun v => if v =? 2 then -3 else 0)%Q).
    intros u v w Hu Hv. destruct u as [|[|[|[|u]]]]; [| | | |lia];
      (destruct v as [|[|[|[|v]]]]; [| | | |lia]); intros E; inversion E; subst; intros Hw;
      vm_compute; try discriminate; exfalso; apply Hw; reflexivity.
  - intros u v w Hu Hv. destruct u as [|[|[|[|u]]]]; [| | | |lia];
      (destruct v as [|[|[|[|v]]]]; [| | | |lia]); intros E; inversion E; subst;
      first [left; reflexivity | right; vm_compute; discriminate].
Qed.
Example C08_ex : bfm 4 ex_G 0 2 = Ok (Fin (-1), [0; 1; 2]) /\ bfm 4 ex_G 0 3 = Ok (Inf, []) /\
  bfm 4 ex_G 3 2 = Ok (Fin 0, [3; 0; 1; 2]).
Proof. vm_compute. auto. Qed.
(** Why the absence of negative cycles is needed: with 1 -> 2 -> 1 of cost -2
    the path reconstruction never ends. *)
Example C08_negative_cycle_hangs :
  let G := fun u v => match u, v with 0, 1 => Fin 1 | 1, 2 => Fin (-3) | 2, 1 => Fin 1 | _, _ => Fin 0 end in
  exists pred D, bfm_helper 3 G 0 = Ok (pred, D) /\ is_fin (D 2) = true /\
    forall fuel, trace fuel pred 0 2 [] = Err OutOfFuel.
Proof.
  cbn zeta. unfold bfm_helper. cbn [Nat.leb Nat.eqb].
  match goal with |- exists pred D, (if ?c then _ else Ok ?x) = _ /\ _ =>
    assert (Ec : c = false) by (vm_compute; reflexivity); rewrite Ec;
    exists (fst x), (snd x); assert (P1 : fst x 1 = 2) by (vm_compute; reflexivity);
    assert (P2 : fst x 2 = 1) by (vm_compute; reflexivity);
    assert (P3 : is_fin (snd x 2) = true) by (vm_compute; reflexivity); destruct x as [pred D] end.
  cbn [fst snd] in *. split; [reflexivity|]. split; [exact P3|].
  assert (H : forall fuel acc, trace fuel pred 0 2 acc = Err OutOfFuel /\ trace fuel pred 0 1 acc = Err OutOfFuel).
  { induction fuel as [|f IH]; intros acc; cbn [trace Nat.eqb]; [auto|]. rewrite P1, P2. split; apply IH. }
  intros fuel. apply H.
Qed.
