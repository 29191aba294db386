(** C38: the writers map. *)
From Coq Require Import ZArith List Bool Lia.
From Verif Require Import RangeModel MDRangeModel Spec BoxSetModel BoxSetProofs WritesMapModel WritesMapProofs.
Import ListNotations.
Local Open Scope nat_scope.

(** After any sequence of addWrite calls, the lookup of a non-empty region of a
    variable whose recorded regions have rank [rk] gives exactly the entities
    recorded as writing some index of the region, each once; the indices given
    with an entity are indices it was recorded to write, and include all those
    of the region. *)
Theorem C38_array : forall (h : list (nat * bset * nat)) (v : nat) (rk : nat) (q : bset),
  (forall s e, In (v, s, e) h -> bs_of rk s) -> bs_of rk q -> q <> [] ->
  let r := wm_getWrites (wm_run h) v q in
  NoDup (map fst r)
  /\ (forall e, In e (map fst r) <-> exists s p, In (v, s, e) h /\ in_boxes p s /\ in_boxes p q)
  /\ (forall e s p, In (e, s) r ->
        (in_boxes p s -> exists s', In (v, s', e) h /\ in_boxes p s')
        /\ (in_boxes p q -> (exists s', In (v, s', e) h /\ in_boxes p s') -> in_boxes p s)).
Proof. exact writes_array. Qed.
Print Assumptions C38_array.

Definition box1 (a b : Z) : mdrange := [mkRange a b].
Definition writes_example : list (nat * bset * nat) :=
  [(1, [box1 0 3; box1 5 7], 10); (2, [], 11); (1, [box1 3 5], 12); (1, [box1 7 9], 10); (1, [box1 9 12], 13)].
Example C38_array_example :
  (forall s e, In (1, s, e) writes_example -> bs_of 1 s) /\ bs_of 1 [box1 4 8]
  /\ wm_getWrites (wm_run writes_example) 1 [box1 4 8] = [(10, [box1 5 7; box1 7 9]); (12, [box1 3 5])].
Proof.
  assert (B : forall a b, (a < b)%Z -> box_of 1 (box1 a b)).
  { intros a b H. repeat split; [discriminate|constructor; [exact H|constructor]]. }
  repeat split.
  - intros s e H. cbn in H. repeat destruct H as [H|H]; try injection H as <- <-; try discriminate; try destruct H;
      repeat constructor; cbn; try discriminate; try apply B; lia.
  - repeat constructor. discriminate.
Qed.

(** The same for scalar variables (no indices), when one entity at most is
    recorded as writing the variable. *)
Theorem C38_scalar_partial : forall (h : list (nat * bset * nat)) (v : nat),
  (forall e e', In (v, [], e) h -> In (v, [], e') h -> e = e') ->
  let r := map fst (wm_getWrites (wm_run h) v []) in
  NoDup r /\ (forall e, In e r <-> In (v, [], e) h).
Proof.
  intros h v U. cbv zeta. destruct (writes_scalar h v) as (A & B & C).
  pose proof (writes_scalar_in h v) as D.
  destruct (wm_getWrites (wm_run h) v []) as [|[e s] [|? ?]]; cbn in *; [| |lia].
  - split; [constructor|]. intros e. split; [intros []|]. intros H. exfalso. apply (proj1 A eq_refl). eauto.
  - split; [repeat constructor; intros []|]. intros e'. split; [auto|].
    intros H. left. apply U; auto.
Qed.
Print Assumptions C38_scalar_partial.

Example C38_scalar_example :
  (forall e e', In (2, [], e) writes_example -> In (2, [], e') writes_example -> e = e')
  /\ map fst (wm_getWrites (wm_run writes_example) 2 []) = [11].
Proof.
  split; [|reflexivity].
  assert (U : forall e, In (2, [], e) writes_example -> e = 11) by (intros e H; cbn in H; intuition congruence).
  intros e e' H H'. now rewrite (U e H), (U e' H').
Qed.

(** Two entities that write the same scalar variable: only the last is given. *)
Theorem C38_scalar_refuted : exists (h : list (nat * bset * nat)) (v e : nat),
  In (v, [], e) h /\ ~ In e (map fst (wm_getWrites (wm_run h) v [])).
Proof.
  exists [(1, [], 10); (1, [], 11)], 1, 10. split; [cbn; auto|].
  vm_compute. intros [H|[]]. discriminate.
Qed.
Print Assumptions C38_scalar_refuted.

(** isWritten and getWrittenIndices after any sequence of calls. *)
Theorem C38_written : forall (h : list (nat * bset * nat)) (v : nat),
  (wm_isWritten (wm_run h) v = true <-> exists s e, In (v, s, e) h)
  /\ match wm_getWrittenIndices (wm_run h) v with
     | None => ~ exists s e, In (v, s, e) h
     | Some s => (exists s e, In (v, s, e) h) /\
         forall p, in_boxes p s <-> exists s' e, In (v, s', e) h /\ in_boxes p s'
     end.
Proof. intros. split; [apply written_spec|apply written_indices_spec]. Qed.
Print Assumptions C38_written.

(** getVariables: the written variables; each once when no variable is written
    both as a scalar and as an array. *)
Theorem C38_variables : forall (h : list (nat * bset * nat)),
  (forall v, In v (wm_getVariables (wm_run h)) <-> exists s e, In (v, s, e) h)
  /\ ((forall v e s e', In (v, [], e) h -> In (v, s, e') h -> s = []) -> NoDup (wm_getVariables (wm_run h))).
Proof. intros h. split; [intros; apply variables_spec|apply variables_nodup]. Qed.
Print Assumptions C38_variables.
