(** What the runtime's scheduler may do, and when blocks and indices are independent. *)
From Coq Require Import List Arith Bool ZArith Lia Permutation.
Import ListNotations.
From Verif Require Import ParRunModel.

(** [x] comes before [y]. *)
Definition before {A} (x y : A) (l : list A) : Prop :=
  exists l1 l2 l3, l = l1 ++ x :: l2 ++ y :: l3.

(** A run of the scheduler, on any number of threads: every step of every entry once,
    those of an entry whose indices are not independent in their order. *)
Definition scheduled (es : list entry) (ss : list step) : Prop :=
  Permutation ss (concat (map fst es)) /\
  (forall pts, In (pts, false) es -> forall x y, before x y pts -> before x y ss).

(** No step reads what the other writes. *)
Definition apart (x y : step) : Prop := ~ In (s_write x) (s_reads y) /\ ~ In (s_write y) (s_reads x).

(** Every cell is written by one step. *)
Definition written_once (bs : list block) : Prop := NoDup (map s_write (serial bs)).
(** The blocks of a group do not read each other's cells: C37_groups. *)
Definition blocks_apart (bs : list block) : Prop :=
  forall b b' l1 l2 l3, bs = l1 ++ b :: l2 ++ b' :: l3 ->
    forall x y, In x (block_steps b) -> In y (block_steps b') -> apart x y.
(** The attribute is right: the indices of a call that has it are independent. *)
Definition flags_right (bs : list block) : Prop :=
  forall b c, In b bs -> In (BCall c) b ->
    match c with CScalar _ ind | CBoxes _ ind => ind = true end ->
    forall x y, before x y (call_steps c) -> apart x y.
(** Calls whose indices are not independent have one box. *)
Definition one_box (bs : list block) : Prop :=
  forall b boxes, In b bs -> In (BCall (CBoxes boxes false)) b -> length boxes <= 1.
