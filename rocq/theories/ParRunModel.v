(** Model of how the blocks of a parallel group are given to the runtime's scheduler:
    lib/Dialect/BaseModelica/Transforms/SchedulersInstantiation.cpp,
    EquationCallOpLowering (lib/Codegen/Conversion/BaseModelicaToFunc/BaseModelicaToFunc.cpp)
    and SchedulerAddEquationOpLowering (lib/Codegen/Conversion/RuntimeToLLVM/RuntimeToLLVM.cpp).

    Simplifications: a scalar equation is an assignment of a function of some cells to
    a cell; one scalar equation is one atomic step. *)
From Coq Require Import List Arith Bool ZArith Lia.
Import ListNotations.

(** One scalar equation. *)
Record step := mkStep { s_write : nat; s_reads : list nat; s_fun : list Z -> Z }.

(** EquationCallOp: without indices one step; with an index set the steps of each of its
    boxes, in the order of the loops of the equation's function. [independent] is the
    attribute set in EquationExplicitation.cpp:317-328. *)
Inductive call :=
| CScalar (s : step) (independent : bool)
| CBoxes (boxes : list (list step)) (independent : bool).

(** The operations in a ScheduleBlockOp: an EquationCallOp or anything else. *)
Inductive bop := BCall (c : call) | BOther (ss : list step).
Definition block : Type := list bop.

(** EquationCallOpLowering, BaseModelicaToFunc.cpp:149-182. *)
Definition call_steps (c : call) : list step :=
  match c with
  | CScalar s _ => [s]
  | CBoxes boxes _ => concat boxes
  end.
Definition bop_steps (o : bop) : list step := match o with BCall c => call_steps c | BOther ss => ss end.
Definition block_steps (b : block) : list step := flat_map bop_steps b.
(** Without a scheduler the blocks run one after the other. *)
Definition serial (bs : list block) : list step := flat_map block_steps bs.

(** collectEquationCallBlocks, SchedulersInstantiation.cpp:138-148. *)
Definition is_call_block (b : block) : bool := match b with [BCall _] => true | _ => false end.

(** hasSingleScalarEquationCall, SchedulersInstantiation.cpp:231-245. *)
Definition single_scalar (b : block) : bool :=
  match b with
  | [BCall (CBoxes boxes _)] => length (concat boxes) =? 1
  | _ => false
  end.

(** What is registered for one equation: SchedulerAddEquationOp, lowered to one
    schedulerAddEquation for each box, RuntimeToLLVM.cpp:279-357. *)
Definition entry : Type := list step * bool.
Definition call_entries (c : call) : list entry :=
  match c with
  | CScalar s ind => [([s], ind)]
  | CBoxes boxes ind => map (fun b => (b, ind)) boxes
  end.
Definition block_entries (b : block) : list entry :=
  flat_map (fun o => match o with BCall c => call_entries c | BOther _ => [] end) b.

(** processParallelOps and configureScheduler, SchedulersInstantiation.cpp:248-304,
    377-406: the blocks that stay and, after them, the run of a scheduler with its entries. *)
Definition instantiate (bs : list block) : list block * list entry :=
  let calls := filter is_call_block bs in
  match calls with
  | [b] => if single_scalar b then (bs, []) else (filter (fun x => negb (is_call_block x)) bs, block_entries b)
  | _ => (filter (fun x => negb (is_call_block x)) bs, flat_map block_entries calls)
  end.

(** The effect of a step and of steps in sequence. *)
Definition store : Type := nat -> Z.
Definition run1 (st : store) (s : step) : store :=
  fun c => if c =? s_write s then s_fun s (map st (s_reads s)) else st c.
Definition run (st : store) (ss : list step) : store := fold_left run1 ss st.
