(** Property C37: parallel schedule groups. *)
From Coq Require Import ZArith List Bool Arith Lia Permutation.
From Verif Require Import ListTac RangeModel MDRangeModel Result BoxSetModel BoxSetProofs Spec WritesMapModel ParModel ParSpec ParProofs.
Import ListNotations.
Local Open Scope nat_scope.

(** C37, the groups: no block is in two groups, no group exceeds the limit, and
    what a block of a group reads from the other blocks is written in the
    previous groups. *)
Theorem C37_groups : forall rank max (blocks : list (nat * sblock)),
  max = (-1)%Z \/ (1 <= max)%Z -> well_formed rank blocks -> NoDup (map fst blocks) ->
  exists groups, parallelizeBlocks max blocks = Ok groups
    /\ NoDup (concat groups) /\ incl (concat groups) (map fst blocks)
    /\ Forall (fun g => g <> [] /\ (max = (-1)%Z \/ (Z.of_nat (length g) <= max)%Z)) groups
    /\ valid blocks groups.
Proof.
  intros rank max blocks L WF ND. destruct (parallelize_ok rank blocks WF ND max L) as (groups & deg & P & V & O & W).
  exists groups. split; auto. pose proof (inv_nodup _ _ _ _ _ _ V) as N. pose proof (inv_ids _ _ _ _ _ _ V) as I. rewrite !app_nil_r in N, I.
  split; auto.
Qed.
Print Assumptions C37_groups.

(** C37, the pass: if the order of the schedule was valid and no block reads from
    another one through two variables, the new schedule contains each operation
    once and is valid. *)
Theorem C37_schedule_partial : forall rank max (ops : list sop),
  max = (-1)%Z \/ (1 <= max)%Z ->
  let entries := map (fun o => (op_id o, op_block o)) ops in
  well_formed rank entries -> NoDup (map op_id ops) ->
  one_link (map (fun o => (op_id o, op_block o)) (filter op_parallelizable ops)) ->
  valid entries (map (fun o => [op_id o]) ops) ->
  exists items, processSchedule max ops = Ok items
    /\ Permutation (concat (map item_ops items)) (map op_id ops)
    /\ valid entries (map item_ops items)
    /\ Forall (fun i => match i with Single _ => True | Group g => g <> [] /\ (max = (-1)%Z \/ (Z.of_nat (length g) <= max)%Z) end) items.
Proof.
  intros rank max ops L entries WF ND OL V.
  assert (ND' : NoDup (map fst entries)) by (unfold entries; rewrite map_map; exact ND).
  assert (IO : in_order entries).
  { intros l1 l2 i b j c E C N R.
    assert (X : exists o1 o o2, ops = o1 ++ o :: o2 /\ l1 = map op_entry o1 /\ (i, b) = op_entry o).
    { clear - E. unfold entries in E. revert l1 E. induction ops as [|o ops IH]; intros [|e l1] E; cbn in E; try discriminate.
      - inversion E; subst. now exists [], o, ops.
      - inversion E as [[E1 E2]]. destruct (IH l1 E2) as (o1 & o' & o2 & -> & -> & F). exists (o :: o1), o', o2. auto. }
    destruct X as (o1 & o & o2 & -> & -> & Eo). inversion Eo; subst.
    assert (J : In j (concat (map (fun o => [op_id o]) o1))).
    { apply (V (map (fun o => [op_id o]) o1) [op_id o] (map (fun o => [op_id o]) o2)) with (op_id o) (op_block o) c; auto.
      - now rewrite map_app.
      - now left.
      - rewrite E. apply in_app_iff. right. now left. }
    apply in_concat in J as (s & S & J). apply in_map_iff in S as (o' & <- & S). destruct J as [<-|[]].
    assert (D : c = op_block o').
    { apply (nodup_fst_eq entries (op_id o')); auto. unfold entries. apply (in_map (fun o => (op_id o, op_block o))). apply in_app_iff. now left. }
    subst. now apply (in_map op_entry). }
  destruct (process_ok rank max ops L WF ND' OL IO ops [] [] []) as (items & P & PE & V' & W); auto.
  - intros x [].
  - intros x X. exact X.
  - intros before step after E. destruct before; discriminate.
  - exists items. split; auto. split; [|split]; auto. unfold entries in PE. now rewrite map_map in PE.
Qed.
Print Assumptions C37_schedule_partial.

(** Four blocks on an array (variable 0) and two scalars: block 3 reads what the
    first two write, block 4 reads block 3, and the last operation is not a
    block that can be parallelized. *)
Definition bx (a b : Z) : mdrange := [mkRange a b].
Definition par_ops : list sop := [
  mkOp 10 true (mkBlock [] [(0, [bx 0 5])]);
  mkOp 11 true (mkBlock [] [(0, [bx 5 9]); (3, [])]);
  mkOp 12 true (mkBlock [] [(2, [])]);
  mkOp 13 true (mkBlock [(0, [bx 3 6])] [(1, [])]);
  mkOp 14 true (mkBlock [(1, []); (2, [])] [(4, [])]);
  mkOp 15 false (mkBlock [(4, []); (1, [])] [(5, [])]);
  mkOp 16 true (mkBlock [(5, [])] [(6, [])])].
Definition par_rank (v : nat) : nat := match v with 0 => 1 | _ => 0 end.
Example C37_example_run : processSchedule 2 par_ops = Ok [Group [10; 11]; Group [13; 12]; Group [14]; Single 15; Group [16]].
Proof. reflexivity. Qed.
Ltac cases H := cbn in H; repeat match type of H with _ \/ _ => destruct H as [H|H] end; try contradiction H; try (inversion H; subst; clear H).
Example C37_example :
  let entries := map (fun o => (op_id o, op_block o)) par_ops in
  well_formed par_rank entries /\ NoDup (map op_id par_ops)
  /\ one_link (map (fun o => (op_id o, op_block o)) (filter op_parallelizable par_ops))
  /\ valid entries (map (fun o => [op_id o]) par_ops).
Proof.
  cbv zeta. split; [|split; [|split]].
  - split.
    + intros i b v s I H. cases I; cases H; cbn; auto; (split; [discriminate|repeat constructor; discriminate]).
    + intros i b j c v I J R H K. cases I; cases H; cbn in R; try discriminate; cases J; cases K; auto; discriminate.
  - cbn. repeat constructor; cbn; intuition discriminate.
  - intros i b j c v q v' q' l1 l2 l3 I J N E (X & Y). cases I; cbn in E;
      repeat (match goal with H : _ = ?l ++ _ |- _ => destruct l; cbn in H; try discriminate; inversion H; subst; clear H end).
    destruct X as (_ & s & S & _), Y as (_ & s' & S' & _). cases J; cases S; cases S'.
  - intros before step after E i b j c I B C N R. destruct R as (v & q & Q & s & S & K).
    repeat (destruct before as [|? before]; cbn in E; inversion E; clear E; subst; [cases I; cases B; cases Q; cases C; cases S; cbn; auto 9|rename H1 into E]).
    destruct before; discriminate.
Qed.

(** A block that reads two variables of the same block is never put in a group:
    it remains before the groups, thus before the block it reads from. *)
Theorem C37_schedule_refuted : exists rank ops items,
  let entries := map (fun o => (op_id o, op_block o)) ops in
  well_formed rank entries /\ NoDup (map op_id ops) /\ valid entries (map (fun o => [op_id o]) ops)
  /\ processSchedule (-1) ops = Ok items /\ ~ valid entries (map item_ops items).
Proof.
  exists (fun _ => 0), [mkOp 1 true (mkBlock [] [(0, []); (1, [])]); mkOp 2 true (mkBlock [(0, []); (1, [])] [(2, [])])].
  exists [Single 2; Group [1]]. cbv zeta. split; [|split; [|split; [|split]]].
  - split.
    + intros i b v s I H. cases I; cases H; reflexivity.
    + intros i b j c v I J R H K. cases I; cases H; cases J; cases K; auto.
  - repeat constructor; cbn; intuition discriminate.
  - intros before step after E i b j c I B C N R. destruct R as (v & q & Q & s & S & K).
    repeat (destruct before as [|? before]; cbn in E; inversion E; clear E; subst; [cases I; cases B; cases Q; cases C; cases S; cbn; auto 9|rename H1 into E]).
    destruct before; discriminate.
  - reflexivity.
  - intros V. apply (V [] [2] [[1]] eq_refl 2 (mkBlock [(0, []); (1, [])] [(2, [])]) 1 (mkBlock [] [(0, []); (1, [])])); cbn; auto.
    exists 0, []. split; [now left|]. exists []. split; [now left|now left].
Qed.
Print Assumptions C37_schedule_refuted.

(** With a limit of zero blocks an assertion fails. *)
Theorem C37_limit_refuted : exists blocks, well_formed (fun _ => 0) blocks /\ NoDup (map fst blocks) /\ parallelizeBlocks 0 blocks = Bad.
Proof.
  exists [(1, mkBlock [] [])]. split; [|split; [repeat constructor; intros []|reflexivity]].
  split.
  - intros i b v s I H. cases I. cases H.
  - intros i b j c v I J R H K. cases I. cases H.
Qed.
Print Assumptions C37_limit_refuted.
