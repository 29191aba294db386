(** Model of the propagation of read-only variables
    (lib/Dialect/BaseModelica/Transforms/ReadOnlyVariablesPropagation.cpp), with
    one task for each region and any interleaving of their steps. *)
From Coq Require Import List Bool Arith.
Import ListNotations.

(** The operations of a region: a VariableGetOp with the variable, and any other
    operation with its operands, which are results of operations. An operation is
    known by its result; regions inside operations are not modelled. *)
Inductive instr :=
| IGet (v : nat)
| IOp (o : nat) (args : list nat).
Record region := mkRegion { r_ops : list (nat * instr); r_yields : list nat }.

(** ModelOp: the variables to ignore, the read-only ones, the binding equations as
    a map from variables to regions, and the regions of its operations
    (ReadOnlyVariablesPropagation.cpp:55-76). *)
Record rmodel := mkRmodel {
  rm_ignored : list nat;
  rm_readonly : list nat;
  rm_bindings : list (nat * nat);
  rm_regions : list region }.

(** ReadOnlyVariablesPropagation.cpp:88-110: the region of the binding equation
    that replaces the reads of a variable, if any. *)
Definition memb (x : nat) (l : list nat) : bool := existsb (Nat.eqb x) l.
Definition target (m : rmodel) (v : nat) : option nat :=
  if memb v (rm_ignored m) then None
  else
    match find (fun b => Nat.eqb (fst b) v) (rm_bindings m) with
    | None => None
    | Some b => if memb v (rm_readonly m) then Some (snd b) else None
    end.

(** A task: the reads still to be looked at; or the read [g] being replaced, the
    region the operations are cloned from, the next operation to clone, the
    IRMapping, and the reads after. *)
Inductive task :=
| TIdle (pending : list nat)
| TClone (g b : nat) (cur : option nat) (mapping : list (nat * nat)) (pending : list nat).

(** The regions and the tasks by their positions; new results get new numbers. *)
Record rstate := mkRstate { s_region : nat -> region; s_task : nat -> task; s_next : nat }.

Definition upd {A} (f : nat -> A) (i : nat) (a : A) : nat -> A := fun j => if Nat.eqb j i then a else f j.
Definition lookup {A} (l : list (nat * A)) (x : nat) : option A := option_map snd (find (fun y => Nat.eqb (fst y) x) l).
(** IRMapping::lookupOrDefault, used by clone for the operands. *)
Definition mapped (mp : list (nat * nat)) (x : nat) : nat := match lookup mp x with Some y => y | None => x end.
Definition clone_instr (mp : list (nat * nat)) (i : instr) : instr :=
  match i with IGet v => IGet v | IOp o args => IOp o (map (mapped mp) args) end.
(** The operation after a given one, if any. *)
Fixpoint after (x : nat) (l : list (nat * instr)) : option nat :=
  match l with
  | [] => None
  | y :: l' => if Nat.eqb (fst y) x then option_map fst (hd_error l') else after x l'
  end.
(** OpBuilder with the insertion point at [g]. *)
Fixpoint insert_before (g : nat) (x : nat * instr) (l : list (nat * instr)) : list (nat * instr) :=
  match l with
  | [] => []
  | y :: l' => if Nat.eqb (fst y) g then x :: y :: l' else y :: insert_before g x l'
  end.
(** replaceAllUsesWith and erase. The uses are in the region of the read. *)
Definition subst_id (g y x : nat) : nat := if Nat.eqb x g then y else x.
Definition subst_instr (g y : nat) (i : instr) : instr :=
  match i with IGet v => IGet v | IOp o args => IOp o (map (subst_id g y) args) end.
Definition replace_read (g y : nat) (r : region) : region :=
  mkRegion (map (fun x => (fst x, subst_instr g y (snd x))) (filter (fun x => negb (Nat.eqb (fst x) g)) (r_ops r)))
    (map (subst_id g y) (r_yields r)).

(** One step of the task of region [r], ReadOnlyVariablesPropagation.cpp:81-131:
    a read is looked at; or an operation of the binding equation is cloned and the
    next one is found; or, after the last, the read is replaced and erased. A step
    is atomic here, which the code does not ensure. [None] is the use of an erased
    operation, or of a result that is not in the mapping. The terminator is the
    list of the yields. *)
Definition step (m : rmodel) (r : nat) (st : rstate) : option rstate :=
  match s_task st r with
  | TIdle [] => Some st
  | TIdle (g :: pending) =>
      match lookup (r_ops (s_region st r)) g with
      | Some (IGet v) =>
          match target m v with
          | Some b => Some (mkRstate (s_region st) (upd (s_task st) r (TClone g b (option_map fst (hd_error (r_ops (s_region st b)))) [] pending)) (s_next st))
          | None => Some (mkRstate (s_region st) (upd (s_task st) r (TIdle pending)) (s_next st))
          end
      | _ => None
      end
  | TClone g b (Some x) mp pending =>
      match lookup (r_ops (s_region st b)) x with
      | Some i =>
          let n := s_next st in
          let reg := s_region st r in
          let regions := upd (s_region st) r (mkRegion (insert_before g (n, clone_instr mp i) (r_ops reg)) (r_yields reg)) in
          Some (mkRstate regions (upd (s_task st) r (TClone g b (after x (r_ops (regions b))) ((x, n) :: mp) pending)) (S n))
      | None => None
      end
  | TClone g b None mp pending =>
      match r_yields (s_region st b) with
      | y :: _ =>
          match lookup mp y with
          | Some y' => Some (mkRstate (upd (s_region st) r (replace_read g y' (s_region st r))) (upd (s_task st) r (TIdle pending)) (s_next st))
          | None => None
          end
      | [] => None
      end
  end.

(** failableParallelForEach: the steps of the tasks in some order. *)
Fixpoint run (m : rmodel) (schedule : list nat) (st : rstate) : option rstate :=
  match schedule with
  | [] => Some st
  | r :: s => match step m r st with Some st' => run m s st' | None => None end
  end.

(** The start: each task has the reads of its region, ReadOnlyVariablesPropagation.cpp:83-86. *)
Definition reads_of (r : region) : list nat :=
  flat_map (fun x => match snd x with IGet _ => [fst x] | IOp _ _ => [] end) (r_ops r).
Definition instr_ids (x : nat * instr) : list nat := fst x :: match snd x with IGet _ => [] | IOp _ args => args end.
Definition region_ids (r : region) : list nat := flat_map instr_ids (r_ops r) ++ r_yields r.
Definition start (m : rmodel) : rstate :=
  let region_at := fun i => nth i (rm_regions m) (mkRegion [] []) in
  mkRstate region_at (fun i => TIdle (reads_of (region_at i))) (S (list_max (flat_map region_ids (rm_regions m)))).
