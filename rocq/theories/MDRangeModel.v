(** Model of multidimensional ranges (boxes).
    C++ source: /repo/lib/Modeling/MultidimensionalRange.cpp. *)
From Coq Require Import ZArith List Bool.
From Verif Require Import RangeModel.
Import ListNotations.
Open Scope Z_scope.

(** MultidimensionalRange.h: the vector of per-dimension ranges. *)
Definition mdrange := list range.

(** The assertions of the constructors, MultidimensionalRange.cpp:5-8 together
    with Range.cpp:5-8. *)
Definition mdrange_ok (b : mdrange) : Prop := b <> [] /\ Forall range_ok b.

(** MultidimensionalRange.cpp:10-14, box of a single point. *)
Definition mdrange_of_point (p : point) : mdrange :=
  map (fun i => mkRange i (i + 1)) p.

(** MultidimensionalRange.cpp:78, rank. *)
Definition mdrange_rank (b : mdrange) : nat := length b.

(** MultidimensionalRange.cpp:20-32, operator==(Point); uses
    Range::operator!=(data_type). *)
Fixpoint mdrange_eq_point_loop (b : mdrange) (p : point) : bool :=
  match b, p with
  | r :: b', v :: p' =>
      if range_ne_value r v then false else mdrange_eq_point_loop b' p'
  | _, _ => true
  end.
Definition mdrange_eq_point (b : mdrange) (p : point) : bool :=
  if negb (Nat.eqb (length b) (length p)) then false
  else mdrange_eq_point_loop b p.

(** MultidimensionalRange.cpp:34-47, operator==(MultidimensionalRange). *)
Fixpoint mdrange_eq_loop (a b : mdrange) : bool :=
  match a, b with
  | r :: a', s :: b' => if range_ne r s then false else mdrange_eq_loop a' b'
  | _, _ => true
  end.
Definition mdrange_eq (a b : mdrange) : bool :=
  if negb (Nat.eqb (length a) (length b)) then false else mdrange_eq_loop a b.

(** MultidimensionalRange.cpp:80-85, getSizes. *)
Definition mdrange_sizes (b : mdrange) : list Z := map range_size b.

(** MultidimensionalRange.cpp:87-95, size. *)
Definition mdrange_size (b : mdrange) : Z :=
  fold_left (fun acc r => acc * (rend r - rbegin r)) b 1.

(** MultidimensionalRange.cpp:97-112, compare. *)
Fixpoint mdrange_compare_loop (a b : mdrange) : Z :=
  match a, b with
  | r :: a', s :: b' =>
      let c := range_compare r s in
      if negb (c =? 0) then c else mdrange_compare_loop a' b'
  | _, _ => 0
  end.
Definition mdrange_compare (a b : mdrange) : Z :=
  if negb (Nat.eqb (length a) (length b)) then
    (if Nat.ltb (length a) (length b) then -1 else 1)
  else mdrange_compare_loop a b.

(** MultidimensionalRange.cpp:58-61, operator<. *)
Definition mdrange_lt (a b : mdrange) : bool := mdrange_compare a b <? 0.

(** MultidimensionalRange.cpp:114-122, contains(Point); llvm::zip stops at the
    shorter sequence. *)
Fixpoint mdrange_contains_point (b : mdrange) (p : point) : bool :=
  match p, b with
  | v :: p', r :: b' =>
      if negb (range_contains_value r v) then false
      else mdrange_contains_point b' p'
  | _, _ => true
  end.

(** MultidimensionalRange.cpp:124-135, contains(MultidimensionalRange). *)
Fixpoint mdrange_contains (a b : mdrange) : bool :=
  match a, b with
  | r :: a', s :: b' =>
      if negb (range_contains r s) then false else mdrange_contains a' b'
  | _, _ => true
  end.

(** MultidimensionalRange.cpp:137-148, overlaps. *)
Fixpoint mdrange_overlaps (a b : mdrange) : bool :=
  match a, b with
  | r :: a', s :: b' =>
      if negb (range_overlaps r s) then false else mdrange_overlaps a' b'
  | _, _ => true
  end.

(** MultidimensionalRange.cpp:150-162, anyDimensionOverlaps. *)
Fixpoint mdrange_anyDimensionOverlaps (a b : mdrange) : bool :=
  match a, b with
  | r :: a', s :: b' =>
      if range_overlaps r s then true else mdrange_anyDimensionOverlaps a' b'
  | _, _ => false
  end.

(** MultidimensionalRange.cpp:164-174, intersect. *)
Fixpoint mdrange_intersect (a b : mdrange) : mdrange :=
  match a, b with
  | r :: a', s :: b' => range_intersect r s :: mdrange_intersect a' b'
  | _, _ => []
  end.

(** MultidimensionalRange.cpp:176-201, canBeMerged. [i] is the loop counter,
    [found] and [dimension] the local variables. *)
Fixpoint mdrange_canBeMerged_loop (a b : mdrange) (i : nat) (found : bool)
    (dimension : nat) : bool * nat :=
  match a, b with
  | r :: a', s :: b' =>
      if range_ne r s then
        if range_canBeMerged r s then
          if found then (false, 0%nat)
          else mdrange_canBeMerged_loop a' b' (S i) true i
        else (false, 0%nat)
      else mdrange_canBeMerged_loop a' b' (S i) found dimension
  | _, _ => (found, dimension)
  end.
Definition mdrange_canBeMerged (a b : mdrange) : bool * nat :=
  mdrange_canBeMerged_loop a b 0 false 0.

(** MultidimensionalRange.cpp:203-220, merge along [dimension]. *)
Fixpoint mdrange_merge (a b : mdrange) (dimension : nat) : mdrange :=
  match a, b with
  | r :: a', s :: b' =>
      match dimension with
      | O => range_merge r s :: a'
      | S d => r :: mdrange_merge a' b' d
      end
  | _, _ => []
  end.

(** MultidimensionalRange.cpp:231-244, the loop of subtract. [done] are the
    entries of resultRanges already replaced by intersections, [a] and [b] the
    remaining ranges of the two boxes ([a] are also the remaining, still
    unmodified, entries of resultRanges). *)
Fixpoint mdrange_subtract_loop (done : mdrange) (a b : mdrange) : list mdrange :=
  match a, b with
  | x :: a', y :: b' =>
      map (fun sub => done ++ sub :: a') (range_subtract x y)
      ++ mdrange_subtract_loop (done ++ [range_intersect x y]) a' b'
  | _, _ => []
  end.
(** MultidimensionalRange.cpp:222-248, subtract. *)
Definition mdrange_subtract (a b : mdrange) : list mdrange :=
  if negb (mdrange_overlaps a b) then [a] else mdrange_subtract_loop [] a b.

(** MultidimensionalRange.cpp:259-268, slice(n) (also takeFirstDimensions,
    283-287). *)
Definition mdrange_takeFirst (b : mdrange) (n : nat) : mdrange := firstn n b.
(** MultidimensionalRange.cpp:270-281, slice(filter), and 295-307,
    takeDimensions. *)
Fixpoint mdrange_slice (b : mdrange) (filter : list bool) : mdrange :=
  match b, filter with
  | r :: b', f :: f' => if f then r :: mdrange_slice b' f' else mdrange_slice b' f'
  | _, _ => []
  end.
(** MultidimensionalRange.cpp:289-293, takeLastDimensions. *)
Definition mdrange_takeLast (b : mdrange) (n : nat) : mdrange :=
  skipn (length b - n) b.
(** MultidimensionalRange.cpp:309-313, dropFirstDimensions. *)
Definition mdrange_dropFirst (b : mdrange) (n : nat) : mdrange := skipn n b.
(** MultidimensionalRange.cpp:315-319, dropLastDimensions. *)
Definition mdrange_dropLast (b : mdrange) (n : nat) : mdrange :=
  firstn (length b - n) b.
(** MultidimensionalRange.cpp:321-334, prepend. *)
Definition mdrange_prepend (b other : mdrange) : mdrange := other ++ b.
(** MultidimensionalRange.cpp:336-349, append. *)
Definition mdrange_append (b other : mdrange) : mdrange := b ++ other.

(** MultidimensionalRange.h, class Iterator: beginIterators, currentIterators,
    endIterators and indices. *)
Record mdIt := mkMdIt {
  mdit_begin : list rangeIt;
  mdit_current : list rangeIt;
  mdit_end : list rangeIt;
  mdit_indices : list Z }.

(** MultidimensionalRange.cpp:250-253 and 351-366, begin(). *)
Definition mdrange_begin (b : mdrange) : mdIt :=
  mkMdIt (map range_begin_it b) (map range_begin_it b) (map range_end_it b)
         (map (fun r => rangeIt_deref (range_begin_it r)) b).
(** MultidimensionalRange.cpp:255-257 and 351-366, end(). *)
Definition mdrange_end (b : mdrange) : mdIt :=
  mkMdIt (map range_begin_it b) (map range_end_it b) (map range_end_it b)
         (map (fun r => rangeIt_deref (range_end_it r)) b).
(** MultidimensionalRange.cpp:368-370, operator== compares currentIterators. *)
Fixpoint rangeIts_eq (a b : list rangeIt) : bool :=
  match a, b with
  | [], [] => true
  | x :: a', y :: b' => rangeIt_eq x y && rangeIts_eq a' b'
  | _, _ => false
  end.
Definition mdIt_eq (a b : mdIt) : bool :=
  rangeIts_eq (mdit_current a) (mdit_current b).
(** MultidimensionalRange.cpp:388-391, operator*. *)
Definition mdIt_deref (a : mdIt) : point := mdit_indices a.

(** Update of one entry of a vector (v[pos] = x). *)
Fixpoint set_nth {A} (l : list A) (pos : nat) (x : A) : list A :=
  match l, pos with
  | [], _ => []
  | _ :: l', O => x :: l'
  | y :: l', S pos' => y :: set_nth l' pos' x
  end.

(** MultidimensionalRange.cpp:396-406, the lambda findIndex. [n] is the number
    of positions still to be visited: the position visited is n-1. The result
    carries the mutated currentIterators. *)
Definition default_it : rangeIt := mkRangeIt 0 0.
Fixpoint mdIt_findIndex (n : nat) (cur ends : list rangeIt)
    : option nat * list rangeIt :=
  match n with
  | O => (None, cur)
  | S pos =>
      let it := rangeIt_incr (nth pos cur default_it) in
      let cur' := set_nth cur pos it in
      if rangeIt_ne it (nth pos ends default_it) then (Some pos, cur')
      else mdIt_findIndex pos cur' ends
  end.

(** MultidimensionalRange.cpp:415-418, the loop that resets the positions
    after [pos]; [k] iterations starting at [i]. *)
Fixpoint mdIt_reset (k i : nat) (begins cur : list rangeIt) (idx : list Z)
    : list rangeIt * list Z :=
  match k with
  | O => (cur, idx)
  | S k' =>
      let b := nth i begins default_it in
      mdIt_reset k' (S i) begins (set_nth cur i b) (set_nth idx i (rangeIt_deref b))
  end.

(** MultidimensionalRange.cpp:393-420, fetchNext. *)
Definition mdIt_fetchNext (it : mdIt) : mdIt :=
  let size := length (mdit_indices it) in
  let '(found, cur) := mdIt_findIndex size (mdit_current it) (mdit_end it) in
  match found with
  | None => mkMdIt (mdit_begin it) cur (mdit_end it) (mdit_indices it)
  | Some pos =>
      let idx := set_nth (mdit_indices it) pos
                         (rangeIt_deref (nth pos cur default_it)) in
      let '(cur', idx') :=
        mdIt_reset (size - S pos) (S pos) (mdit_begin it) cur idx in
      mkMdIt (mdit_begin it) cur' (mdit_end it) idx'
  end.

(** The range-based for loop over a box: from begin() while != end().
    [None] when the loop has not ended after [fuel] iterations. *)
Fixpoint mdIt_run (fuel : nat) (it last : mdIt) : option (list point) :=
  if mdIt_eq it last then Some []
  else match fuel with
       | O => None
       | S f =>
           match mdIt_run f (mdIt_fetchNext it) last with
           | None => None
           | Some l => Some (mdIt_deref it :: l)
           end
       end.
