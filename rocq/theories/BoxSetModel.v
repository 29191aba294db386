(** Index sets at the level of their specification, for the layers above them.

    An index set is the list of its ranges; its meaning is the union of the
    boxes. Each operation below is what the operation of IndexSet.cpp cited
    beside it computes on the ranges, up to the way the union is cut into
    boxes. That the R-tree implementation has these contents is the subject of
    the theorems on [IndexSetModel.v] (C08-C17), within the limits stated
    there; the layers that use [bset] do not model the R-tree again. *)
From Coq Require Import ZArith List Bool.
From Verif Require Import RangeModel MDRangeModel.
Import ListNotations.
Open Scope Z_scope.

Definition bset := list mdrange.

(** Range.cpp:148-180: the values of a range, in iteration order. *)
Definition range_values (r : range) : list Z :=
  map (fun i => rbegin r + Z.of_nat i) (seq 0 (Z.to_nat (range_size r))).

(** MultidimensionalRange.cpp:351-420: the points of a box, in iteration
    order (last dimension fastest). *)
Fixpoint box_points (b : mdrange) : list point :=
  match b with
  | [] => [[]]
  | r :: b' => flat_map (fun v => map (cons v) (box_points b')) (range_values r)
  end.

(** IndexSet.cpp:1144-1232: the points of a set, range by range. *)
Definition bs_points (s : bset) : list point := flat_map box_points s.

(** IndexSet.cpp:420-422, contains(Point). *)
Definition box_mem (b : mdrange) (p : point) : bool :=
  Nat.eqb (length p) (length b) && mdrange_contains_point b p.
Definition bs_mem (s : bset) (p : point) : bool := existsb (fun b => box_mem b p) s.

(** RTree.h:562, empty. *)
Definition bs_empty (s : bset) : bool := match s with [] => true | _ => false end.

(** RTree.h:577, rank, of a non-empty set. *)
Definition bs_rank (s : bset) : nat := match s with [] => 0%nat | b :: _ => length b end.

(** IndexSet.cpp:469-574, contains(IndexSet). *)
Definition bs_contains (s o : bset) : bool := forallb (bs_mem s) (bs_points o).

(** IndexSet.cpp:606-653, overlaps(IndexSet). *)
Definition bs_overlaps (s o : bset) : bool := existsb (bs_mem s) (bs_points o).

(** IndexSet.cpp:238-289, operator+=. *)
Definition bs_union (s o : bset) : bset := s ++ o.

(** IndexSet.cpp:313-373, operator-=. *)
Definition bs_remove (s : bset) (b : mdrange) : bset :=
  flat_map (fun x => if mdrange_overlaps x b then mdrange_subtract x b else [x]) s.
Definition bs_diff (s o : bset) : bset := fold_left bs_remove o s.

(** IndexSet.cpp:689-742, intersect(IndexSet). *)
Definition bs_intersect (s o : bset) : bset :=
  map (fun q => mdrange_intersect (fst q) (snd q))
    (filter (fun q => mdrange_overlaps (fst q) (snd q)) (list_prod s o)).

(** IndexSet.cpp:774-788, slice(BitVector). *)
Definition bs_slice (s : bset) (bits : list bool) : bset :=
  map (fun b => mdrange_slice b bits) s.

(** IndexSet.cpp:893-909, append. *)
Definition bs_append (s o : bset) : bset :=
  flat_map (fun b => map (fun c => mdrange_append b c) o) s.

(** IndexSet.cpp:77-85, the set of some points. *)
Definition bs_of_points (l : list point) : bset := map mdrange_of_point l.

(** RTree.h:549-555, operator==. *)
Definition bs_eq (s o : bset) : bool := bs_contains s o && bs_contains o s.
