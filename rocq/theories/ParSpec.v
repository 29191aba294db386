(** Specification of the parallelization of the schedule blocks. *)
From Coq Require Import ZArith List Bool Arith.
From Verif Require Import RangeModel MDRangeModel BoxSetModel Spec BoxSetProofs ParModel.
Import ListNotations.
Local Open Scope nat_scope.

(** One block reads what another one writes: an element of an array variable, or
    a scalar variable. *)
Definition common (q s : bset) : Prop := (q = [] /\ s = []) \/ exists p, in_boxes p q /\ in_boxes p s.
Definition reads_through (b w : sblock) (v : nat) (q : bset) : Prop :=
  In (v, q) (sb_reads b) /\ exists s, In (v, s) (sb_writes w) /\ common q s.
Definition reads_from (b w : sblock) : Prop := exists v q, reads_through b w v q.

(** The accesses to a variable have the rank of the variable, and a scalar
    variable is written by one block. *)
Definition well_formed (rank : nat -> nat) (blocks : list (nat * sblock)) : Prop :=
  (forall i b v s, In (i, b) blocks -> In (v, s) (sb_reads b) \/ In (v, s) (sb_writes b) ->
     match rank v with 0 => s = [] | k => s <> [] /\ bs_of k s end)
  /\ forall i b j c v, In (i, b) blocks -> In (j, c) blocks -> rank v = 0 ->
       In (v, []) (sb_writes b) -> In (v, []) (sb_writes c) -> i = j.

(** No block reads from another one through two variables, or lists a variable
    twice. *)
Definition one_link (blocks : list (nat * sblock)) : Prop :=
  forall i b j c v q v' q' l1 l2 l3, In (i, b) blocks -> In (j, c) blocks -> i <> j ->
    sb_reads b = l1 ++ (v, q) :: l2 ++ (v', q') :: l3 ->
    ~ (reads_through b c v q /\ reads_through b c v' q').

(** What each operation reads is written before it: [steps] are the operations
    in execution order, those of a step at the same time. *)
Definition valid (ops : list (nat * sblock)) (steps : list (list nat)) : Prop :=
  forall before step after, steps = before ++ step :: after ->
    forall i b j c, In i step -> In (i, b) ops -> In (j, c) ops -> i <> j -> reads_from b c -> In j (concat before).
