(** Model of the writers map: include/marco/Dialect/BaseModelica/IR/Dialect.h:87-198.

    Variables and writing entities are numbers. The two DenseMaps are
    association lists (their iteration order is not specified in C++; here it is
    that of the first insertions). The R-tree of a variable is the list of the
    inserted entries, and the walk over the overlapping objects is the filter of
    that list: that the R-tree behaves like this is the subject of C18. *)
From Coq Require Import ZArith List Bool Arith.
From Verif Require Import RangeModel MDRangeModel BoxSetModel.
Import ListNotations.
Local Open Scope nat_scope.

(** llvm::DenseMap::find. *)
Fixpoint map_find {A} (k : nat) (m : list (nat * A)) : option A :=
  match m with
  | [] => None
  | (k', a) :: m' => if Nat.eqb k k' then Some a else map_find k m'
  end.
(** llvm::DenseMap::operator[] and llvm::MapVector::operator[], followed by an
    assignment that depends on the present value (default-constructed if the key
    is new); a new key goes last, as in a MapVector. *)
Fixpoint map_update {A} (k : nat) (dflt : A) (f : A -> A) (m : list (nat * A)) : list (nat * A) :=
  match m with
  | [] => [(k, f dflt)]
  | (k', a) :: m' => if Nat.eqb k k' then (k', f a) :: m' else (k', a) :: map_update k dflt f m'
  end.

(** Dialect.h:95-98, WritesMapRTreeEntry. *)
Notation wentry := (mdrange * nat)%type.
(** Dialect.h:107-108, the two maps. *)
Record wmap := { wscalar : list (nat * nat); warray : list (nat * list wentry) }.
Definition wm_empty : wmap := {| wscalar := []; warray := [] |}.

(** Dialect.h:164-174, addWrite. *)
Definition wm_addWrite (w : wmap) (v : nat) (s : bset) (e : nat) : wmap :=
  if bs_empty s then
    {| wscalar := map_update v 0 (fun _ => e) (wscalar w); warray := warray w |}
  else
    {| wscalar := wscalar w;
       warray := fold_left (fun m b => map_update v [] (fun t => t ++ [(b, e)]) m) s (warray w) |}.

(** RTree.h:1098-1130, walkOverlappingObjects. *)
Definition overlapping_entries (t : list wentry) (b : mdrange) : list wentry :=
  filter (fun x => mdrange_overlaps (fst x) b) t.

(** Dialect.h:131-162, getWrites: entities and the indices they write. *)
Definition wm_getWrites (w : wmap) (v : nat) (q : bset) : list (nat * bset) :=
  if bs_empty q then
    match map_find v (wscalar w) with
    | Some e => map_update e [] (fun _ => []) []
    | None => []
    end
  else
    match map_find v (warray w) with
    | Some t =>
        fold_left (fun u b =>
          fold_left (fun u x => map_update (snd x) [] (fun s => bs_union s [fst x]) u)
            (overlapping_entries t b) u)
          q []
    | None => []
    end.

(** Dialect.h:111-128, getVariables: nothing is ever added to uniqueVariables. *)
Definition wm_getVariables (w : wmap) : list nat := map fst (wscalar w) ++ map fst (warray w).

(** Dialect.h:176-178, isWritten. *)
Definition has_key {A} (k : nat) (m : list (nat * A)) : bool :=
  match map_find k m with Some _ => true | None => false end.
Definition wm_isWritten (w : wmap) (v : nat) : bool := has_key v (wscalar w) || has_key v (warray w).

(** Dialect.h:180-196, getWrittenIndices. *)
Definition wm_getWrittenIndices (w : wmap) (v : nat) : option bset :=
  if negb (has_key v (wscalar w)) && negb (has_key v (warray w)) then None
  else
    match map_find v (warray w) with
    | Some t => Some (fold_left (fun s x => bs_union s [fst x]) t [])
    | None => Some []
    end.

(** A history of calls to addWrite on a new map. *)
Definition wm_run (h : list (nat * bset * nat)) : wmap :=
  fold_left (fun w c => wm_addWrite w (fst (fst c)) (snd (fst c)) (snd c)) h wm_empty.
