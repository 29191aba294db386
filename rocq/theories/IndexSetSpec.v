(** Specification vocabulary for index sets: what an index set contains, as
    seen through contains(point), and which index sets a program can build. *)
From Coq Require Import ZArith List Bool.
From Verif Require Import RangeModel MDRangeModel Spec Result RTreeModel IndexSetModel.
Import ListNotations.
Local Open Scope nat_scope.

(** The default bounds on the fan-out of RTree.h:506-507: IndexSet never
    overrides them. *)
Definition isMin : nat := 4.
Definition isMax : nat := 16.

(** The index set [t] contains the point [p]. *)
Definition holds (t : iset) (p : point) : Prop := is_contains_point t p = Ok true.

(** Number of selected dimensions. *)
Fixpoint ones (bits : list bool) : nat :=
  match bits with [] => 0 | true :: l => S (ones l) | false :: l => ones l end.

(** [built clean rk t]: a program can obtain the index set [t], of rank [rk],
    through the public operations. [clean] tells that it was obtained without
    the two kinds of operations that may store overlapping ranges: the
    construction from a list of boxes that overlap one another, and the
    projections. *)
Inductive built : bool -> nat -> iset -> Prop :=
| built_empty : forall rk, built true rk is_empty_set
| built_boxes : forall rk l t, Forall (box_of rk) l ->
    is_setFromRanges isMin isMax l = Ok t -> built false rk t
| built_disjoint : forall rk l t, Forall (box_of rk) l -> disj l ->
    is_setFromRanges isMin isMax l = Ok t -> built true rk t
| built_points : forall rk l t, 1 <= rk -> Forall (fun p => length p = rk) l ->
    is_of_points isMin isMax l = Ok t -> built true rk t
| built_forget : forall rk t, built true rk t -> built false rk t
| built_emptyCopy : forall c rk t, built c rk t -> built true rk (is_emptyCopy t)
| built_insert : forall c rk t b t', built c rk t -> box_of rk b ->
    is_insert isMin isMax t b = Ok t' -> built c rk t'
| built_insert_point : forall c rk t p t', built c rk t -> 1 <= rk -> length p = rk ->
    is_insert_point isMin isMax t p = Ok t' -> built c rk t'
| built_insert_set : forall c c' rk t u t', built c rk t -> built c' rk u ->
    is_insert_set isMin isMax t u = Ok t' -> built c rk t'
| built_remove : forall c rk t b t', built c rk t -> box_of rk b ->
    is_remove isMin isMax t b = Ok t' -> built c rk t'
| built_remove_point : forall c rk t p t', built c rk t -> 1 <= rk -> length p = rk ->
    is_remove_point isMin isMax t p = Ok t' -> built c rk t'
| built_remove_set : forall c c' rk t u t', built c rk t -> built c' rk u ->
    is_remove_set isMin isMax t u = Ok t' -> built c rk t'
| built_intersect_box : forall c rk t b t', built c rk t -> box_of rk b ->
    is_intersect_box isMin isMax t b = Ok t' -> built c rk t'
| built_intersect_set : forall c c' rk t u t', built c rk t -> built c' rk u ->
    is_intersect_set isMin isMax t u = Ok t' -> built (c && c') rk t'
| built_complement : forall c rk t b t', built c rk t -> box_of rk b ->
    is_complement isMin isMax t b = Ok t' -> built true rk t'
| built_slice : forall c rk t bits t', built c rk t -> is_empty t = false ->
    length bits = rk -> 1 <= ones bits ->
    is_slice isMin isMax t bits = Ok t' -> built false (ones bits) t'
| built_takeFirst : forall c rk t n t', built c rk t -> is_empty t = false -> 1 <= n <= rk ->
    is_takeFirst isMin isMax t n = Ok t' -> built false n t'
| built_takeLast : forall c rk t n t', built c rk t -> is_empty t = false -> 1 <= n <= rk ->
    is_takeLast isMin isMax t n = Ok t' -> built false n t'
| built_dropFirst : forall c rk t n t', built c rk t -> is_empty t = false -> n < rk ->
    is_dropFirst isMin isMax t n = Ok t' -> built false (rk - n) t'
| built_dropLast : forall c rk t n t', built c rk t -> is_empty t = false -> n < rk ->
    is_dropLast isMin isMax t n = Ok t' -> built false (rk - n) t'
| built_append : forall c c' rk rk' t u t', built c rk t -> built c' rk' u ->
    is_empty t = false -> is_append isMin isMax t u = Ok t' -> built (c && c') (rk + rk') t'
| built_prepend : forall c c' rk rk' t u t', built c rk t -> built c' rk' u ->
    is_empty t = false -> is_prepend isMin isMax t u = Ok t' -> built (c && c') (rk' + rk) t'.

(** A history of additions and removals of boxes. *)
Inductive edit := Add (b : mdrange) | Remove (b : mdrange).
Definition edit_box (e : edit) : mdrange := match e with Add b => b | Remove b => b end.
Definition apply_edit (t : iset) (e : edit) : res iset :=
  match e with
  | Add b => is_insert isMin isMax t b
  | Remove b => is_remove isMin isMax t b
  end.
Definition run (t : iset) (h : list edit) : res iset := fold_res apply_edit h t.

(** The points that a history leaves in an initially empty set. *)
Definition after (h : list edit) (p : point) : Prop :=
  fold_left (fun S e => match e with Add b => S \/ in_box p b | Remove b => S /\ ~ in_box p b end)
    h False.
