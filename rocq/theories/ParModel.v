(** Model of the parallelization of the schedule blocks:
    lib/Dialect/BaseModelica/Transforms/ScheduleParallelization.cpp.

    A schedule block is the list of the variables it reads and the list of the
    variables it writes, each with indices (no indices: a scalar variable).
    Operations are identified by numbers. The DenseMaps are functions. *)
From Coq Require Import ZArith List Bool Arith.
From Verif Require Import RangeModel MDRangeModel Result BoxSetModel WritesMapModel.
Import ListNotations.
Local Open Scope nat_scope.

(** The properties readVariables and writtenVariables of ScheduleBlockOp. *)
Record sblock := mkBlock { sb_reads : list (nat * bset); sb_writes : list (nat * bset) }.

(** Dialect.cpp:781-802, getWritesMap for the schedule blocks. *)
Definition getBlocksWritesMap (blocks : list (nat * sblock)) : wmap :=
  fold_left (fun w b => fold_left (fun w v => wm_addWrite w (fst v) (snd v) (fst b)) (sb_writes (snd b)) w) blocks wm_empty.

(** llvm::SetVector::insert. *)
Definition set_insert (l : list nat) (x : nat) : list nat := if existsb (Nat.eqb x) l then l else l ++ [x].
(** The assignment of a DenseMap entry. *)
Definition upd {A} (f : nat -> A) (k : nat) (a : A) : nat -> A := fun j => if Nat.eqb j k then a else f j.

(** ScheduleParallelization.cpp:218-246: the dependent blocks and the in-degree
    of each block. *)
Record pgraph := mkGraph { dependantBlocks : nat -> list nat; inDegrees : nat -> nat }.
Definition add_dependency (reader : nat) (g : pgraph) (writer : nat) : pgraph :=
  if Nat.eqb writer reader then g                            (* 236-239, self-loops *)
  else {| dependantBlocks := upd (dependantBlocks g) writer (set_insert (dependantBlocks g writer) reader);
          inDegrees := upd (inDegrees g) reader (S (inDegrees g reader)) |}.
Definition blocks_graph (blocks : list (nat * sblock)) : pgraph :=
  let writesMap := getBlocksWritesMap blocks in
  fold_left (fun g b =>
    fold_left (fun g v => fold_left (add_dependency (fst b)) (map fst (wm_getWrites writesMap (fst v) (snd v))) g) (sb_reads (snd b)) g)
    blocks {| dependantBlocks := fun _ => []; inDegrees := fun _ => 0 |}.

(** ScheduleParallelization.cpp:268-274: the block has been taken, its dependent
    blocks lose a dependency. *)
Definition release (g : pgraph) (newBlocks : list nat) (block : nat) : res (pgraph * list nat) :=
  fold_res (fun st d =>
    let '(g, newBlocks) := st in
    _ <- assert_ok (Nat.ltb 0 (inDegrees g d)) ;;
    let n := inDegrees g d - 1 in
    Ok (mkGraph (dependantBlocks g) (upd (inDegrees g) d n), if Nat.eqb n 0 then newBlocks ++ [d] else newBlocks))
    (dependantBlocks g block) (g, newBlocks).
(** ScheduleParallelization.cpp:262-279, the loop over the current blocks; -1
    means no limit. *)
Fixpoint take_blocks (max : Z) (current : list nat) (g : pgraph) (newBlocks independent : list nat) : res (pgraph * list nat * list nat) :=
  match current with
  | [] => Ok (g, newBlocks, independent)
  | b :: current' =>
      _ <- assert_ok (Nat.eqb (inDegrees g b) 0) ;;
      if Z.eqb max (-1) || Z.ltb (Z.of_nat (length independent)) max then
        st <- release g newBlocks b ;;
        take_blocks max current' (fst st) (snd st) (independent ++ [b])
      else take_blocks max current' g (newBlocks ++ [b]) independent
  end.
(** ScheduleParallelization.cpp:258-286. Each step takes some block, so the
    number of blocks bounds the number of steps. *)
Fixpoint make_groups (fuel : nat) (max : Z) (g : pgraph) (current : list nat) (groups : list (list nat)) : res (list (list nat)) :=
  match current with
  | [] => Ok groups
  | _ =>
      match fuel with
      | 0 => NoFuel
      | S fuel' =>
          st <- take_blocks max current g [] [] ;;
          let '(g, newBlocks, independent) := st in
          _ <- assert_ok (match independent with [] => false | _ => true end) ;;
          make_groups fuel' max g newBlocks (groups ++ [independent])
      end
  end.
(** ScheduleParallelization.cpp:203-286, parallelizeBlocks: the groups. *)
Definition parallelizeBlocks (max : Z) (blocks : list (nat * sblock)) : res (list (list nat)) :=
  let g := blocks_graph blocks in
  let current := filter (fun b => Nat.eqb (inDegrees g b) 0) (map fst blocks) in
  make_groups (length blocks) max g current [].

(** What the schedule contains after the pass, in order. *)
Inductive sitem := Single (op : nat) | Group (ops : list nat).
Definition item_ops (i : sitem) : list nat := match i with Single o => [o] | Group l => l end.
(** ScheduleParallelization.cpp:288-304: the groups are inserted after the last
    block, and the blocks are moved into them; a block that is in no group stays
    where it is. *)
Definition place_groups (blocks : list nat) (groups : list (list nat)) : list sitem :=
  map Single (filter (fun b => negb (existsb (Nat.eqb b) (concat groups))) blocks) ++ map Group groups.
Definition flush (max : Z) (blocks : list (nat * sblock)) : res (list sitem) :=
  groups <- parallelizeBlocks max blocks ;; Ok (place_groups (map fst blocks) groups).
(** ScheduleParallelization.cpp:124-156 and 169-201, processInitialOp and
    processDynamicOp: the operations are blocks that can be parallelized (true),
    other blocks and other operations (false). *)
Record sop := mkOp { op_id : nat; op_parallelizable : bool; op_block : sblock }.
Fixpoint processOps (max : Z) (ops : list sop) (blocks : list (nat * sblock)) (done : list sitem) : res (list sitem) :=
  match ops with
  | [] => l <- flush max blocks ;; Ok (done ++ l)
  | o :: ops' =>
      if op_parallelizable o then processOps max ops' (blocks ++ [(op_id o, op_block o)]) done
      else l <- flush max blocks ;; processOps max ops' [] (done ++ l ++ [Single (op_id o)])
  end.
Definition processSchedule (max : Z) (ops : list sop) : res (list sitem) := processOps max ops [] [].
