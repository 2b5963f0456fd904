(** Property theorems about assign_opt (C01, C02, C03). *)
From Verif Require Import Base HungModel HungSpec HungProofs.

(** C01: on a matrix of finite non-negative costs. *)
Theorem C01_assign_opt_optimal : forall m : mat,
  (forall r c, r < mr m -> c < mc m -> exists q, me m r c = Fin q /\ (0 <= q)%Q) ->
  exists a cost,
    assign_opt (Arr2 m) = Ok (a, cost) /\
    is_assignment (mr m) (mc m) a /\
    assign_size a = Nat.min (mr m) (mc m) /\
    (cost == assign_cost (me m) a)%Q /\
    forall b, is_assignment (mr m) (mc m) b -> assign_size b = Nat.min (mr m) (mc m) ->
      (cost <= assign_cost (me m) b)%Q.
Proof.
  intros m Hm.
  destruct (assign_opt2_spec m) as [a [cost [H1 [H2 [H3 [H4 H5]]]]]].
  - intros r c q Hr Hc E. destruct (Hm r c Hr Hc) as [q' [E' Hq]]. congruence.
  - assert (Hall : forall b, is_assignment (mr m) (mc m) b -> inf_free (me m) b).
    { intros b Hb r c Hrc. apply assignment_plist in Hb. destruct Hb as [_ [_ Hb]].
      destruct (Hb r c Hrc) as [Hr Hc]. destruct (Hm r c Hr Hc) as [q [E _]]. eauto. }
    assert (Hsz : assign_size a = Nat.min (mr m) (mc m)).
    { destruct (diag_assignment (mr m) (mc m)) as [D1 D2].
      pose proof (plist_le _ _ _ (assignment_plist _ _ _ H2)) as Hle. fold (assign_size a) in Hle.
      destruct (H5 _ D1 (Hall _ D1)) as [Hge _]. lia. }
    exists a, cost. repeat (split; [assumption|]). intros b Hb Hsb.
    rewrite H4. apply H5; auto. congruence.
Qed.

(** C02: with forbidden entries.  The returned vector uses none of them, has
    the largest possible size, and is cheapest among inf-free assignments of
    that size. *)
Theorem C02_assign_opt_inf : forall m : mat,
  (forall r c q, r < mr m -> c < mc m -> me m r c = Fin q -> (0 <= q)%Q) ->
  exists a cost,
    assign_opt (Arr2 m) = Ok (a, cost) /\
    is_assignment (mr m) (mc m) a /\
    inf_free (me m) a /\
    (cost == assign_cost (me m) a)%Q /\
    forall b, is_assignment (mr m) (mc m) b -> inf_free (me m) b ->
      assign_size b <= assign_size a /\
      (assign_size b = assign_size a -> (cost <= assign_cost (me m) b)%Q).
Proof.
  intros m Hm. destruct (assign_opt2_spec m Hm) as [a [cost [H1 [H2 [H3 [H4 H5]]]]]].
  exists a, cost. repeat (split; [assumption|]). intros b Hb Hbf.
  destruct (H5 b Hb Hbf) as [A B]. split; [exact A|]. intros E. rewrite H4. apply B, E.
Qed.

(** C02, 1-D argument: treated as one row. *)
Theorem C02_assign_opt_inf_1d : forall n (f : nat -> ext),
  assign_opt (Arr1 n f) = assign_opt (Arr2 {| mr := 1; mc := n; me := fun _ c => f c |}).
Proof. reflexivity. Qed.

(** C03: every outcome.  Negative finite entry: RuntimeError; otherwise a
    normal result (no IndexError, no endless loop); all entries inf (or no
    entries): nothing assigned, cost 0; more than two dimensions: RuntimeError. *)
Theorem C03_assign_opt_total : forall m : mat,
  ((exists r c q, r < mr m /\ c < mc m /\ me m r c = Fin q /\ (q < 0)%Q) ->
     assign_opt (Arr2 m) = Err RuntimeErr) /\
  ((forall r c q, r < mr m -> c < mc m -> me m r c = Fin q -> (0 <= q)%Q) ->
     exists a cost, assign_opt (Arr2 m) = Ok (a, cost)) /\
  ((forall r c, r < mr m -> c < mc m -> me m r c = Inf) ->
     assign_opt (Arr2 m) = Ok (repeat None (mr m), 0%Q)) /\
  assign_opt ArrMore = Err RuntimeErr.
Proof.
  intros m. split; [apply assign_opt2_neg|]. split; [|split; [|reflexivity]].
  - intros Hm. destruct (assign_opt2_spec m Hm) as [a [cost [H1 _]]]. exists a, cost. exact H1.
  - intros Hi. cbn [assign_opt]. unfold assign_opt2.
    assert (E : any_entry (mr m) (mc m) (me m)
       (fun e => match e with Fin q => Qltb q 0 | Inf => false end) = false).
    { apply any_entry_false. intros r c Hr Hc. rewrite Hi by assumption. reflexivity. }
    rewrite E.
    assert (E2 : any_entry (mr m) (mc m) (me m) is_fin = false).
    { apply any_entry_false. intros r c Hr Hc. rewrite Hi by assumption. reflexivity. }
    rewrite E2. reflexivity.
Qed.
Print Assumptions C01_assign_opt_optimal.
Print Assumptions C02_assign_opt_inf.
Print Assumptions C03_assign_opt_total.

(** The hypotheses hold of concrete matrices, and the results are the expected
    ones: a 3x3 finite matrix, a 2x3 and a 3x2 one, and one where an inf-free
    full assignment does not exist. *)
Definition fz (z : Z) : ext := Fin (inject_Z z).
Example C01_ex :
  let m := of_rows 3 [[fz 4; fz 1; fz 3]; [fz 2; fz 0; fz 5]; [fz 3; fz 2; fz 2]] in
  (forall r c, r < mr m -> c < mc m -> exists q, me m r c = Fin q /\ (0 <= q)%Q) /\
  assign_opt (Arr2 m) = Ok ([Some 1; Some 0; Some 2], 5%Q).
Proof.
  split; [|vm_compute; reflexivity].
  intros r c Hr Hc. do 3 (destruct r as [|r]; [do 3 (destruct c as [|c];
    [eexists; split; [reflexivity|vm_compute; discriminate]|]); simpl in Hc; lia|]).
  simpl in Hr; lia.
Qed.
Example C01_ex_tall :
  assign_opt (Arr2 (of_rows 2 [[fz 4; fz 1]; [fz 2; fz 0]; [fz 3; fz 2]])) =
  Ok ([None; Some 1; Some 0], 3%Q) \/ 
  assign_opt (Arr2 (of_rows 2 [[fz 4; fz 1]; [fz 2; fz 0]; [fz 3; fz 2]])) =
  Ok ([Some 1; Some 0; None], 3%Q).
Proof. vm_compute. auto. Qed.
Example C02_ex :
  let m := of_rows 3 [[fz 4; fz 1; fz 3]; [Inf; fz 0; Inf]; [Inf; fz 2; Inf]] in
  (forall r c q, r < mr m -> c < mc m -> me m r c = Fin q -> (0 <= q)%Q) /\
  assign_opt (Arr2 m) = Ok ([Some 2; Some 1; None], 3%Q).
Proof.
  split; [|vm_compute; reflexivity].
  intros r c q Hr Hc. do 3 (destruct r as [|r]; [do 3 (destruct c as [|c];
    [simpl; intros E; inversion E; vm_compute; discriminate|]); simpl in Hc; lia|]).
  simpl in Hr; lia.
Qed.
Example C03_ex : assign_opt (Arr2 (of_rows 2 [[fz 1; fz (-1)]])) = Err RuntimeErr.
Proof. vm_compute. reflexivity. Qed.
