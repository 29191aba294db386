(** Model of one-dimensional ranges and of points.
    C++ sources: /repo/lib/Modeling/Range.cpp, /repo/lib/Modeling/Point.cpp.
    [int64_t] is modelled by unbounded [Z]; the wrap-around of [end - 1],
    [value + 1] at the borders of the machine type is not modelled. *)
From Coq Require Import ZArith List Bool.
Import ListNotations.
Open Scope Z_scope.

(** Range.h:105-107. The pair (begin_, end_) of the half-open range. *)
Record range := mkRange { rbegin : Z; rend : Z }.

(** The assertion of the constructor, Range.cpp:5-8. *)
Definition range_ok (r : range) : Prop := rbegin r < rend r.

(** Range.cpp:14-16, operator==(data_type). *)
Definition range_eq_value (r : range) (v : Z) : bool :=
  (rbegin r =? v) && (rend r =? v + 1).

(** Range.cpp:18-20, operator==(Range). *)
Definition range_eq (r o : range) : bool :=
  (rbegin r =? rbegin o) && (rend r =? rend o).

(** Range.cpp:22-24, operator!=(data_type). The conjunction is the code's. *)
Definition range_ne_value (r : range) (v : Z) : bool :=
  negb (rbegin r =? v) && negb (rend r =? v + 1).

(** Range.cpp:26-28, operator!=(Range). *)
Definition range_ne (r o : range) : bool :=
  negb (rbegin r =? rbegin o) || negb (rend r =? rend o).

(** Range.cpp:30-36, operator<. *)
Definition range_lt (r o : range) : bool :=
  if rbegin r =? rbegin o then rend r <? rend o else rbegin r <? rbegin o.

(** Range.cpp:38-44, operator>. *)
Definition range_gt (r o : range) : bool :=
  if rbegin r =? rbegin o then rend r >? rend o else rbegin r >? rbegin o.

(** Range.cpp:50, size. *)
Definition range_size (r : range) : Z := rend r - rbegin r.

(** Range.cpp:52-70, compare. *)
Definition range_compare (r o : range) : Z :=
  if rbegin r =? rbegin o then
    if rend r =? rend o then 0
    else if rend r <? rend o then -1 else 1
  else if rbegin r <? rbegin o then -1 else 1.

(** Range.cpp:72-74, contains(value). *)
Definition range_contains_value (r : range) (v : Z) : bool :=
  (v >=? rbegin r) && (v <? rend r).

(** Range.cpp:76-78, contains(Range). *)
Definition range_contains (r o : range) : bool :=
  (rbegin r <=? rbegin o) && (rend r >=? rend o).

(** Range.cpp:80-83, overlaps. *)
Definition range_overlaps (r o : range) : bool :=
  (rbegin r <=? rend o - 1) && (rend r - 1 >=? rbegin o).

(** Range.cpp:85-101, intersect. The assertion [overlaps(other)] is a
    precondition of the theorems. *)
Definition range_intersect (r o : range) : range :=
  if range_contains r o then o
  else if range_contains o r then r
  else if rbegin r <=? rbegin o then mkRange (rbegin o) (rend r)
  else mkRange (rbegin r) (rend o).

(** Range.cpp:103-106, canBeMerged. *)
Definition range_canBeMerged (r o : range) : bool :=
  (rbegin r =? rend o) || (rend r =? rbegin o) || range_overlaps r o.

(** Range.cpp:108-122, merge. The assertion is a precondition. *)
Definition range_merge (r o : range) : range :=
  if range_overlaps r o then
    mkRange (Z.min (rbegin r) (rbegin o)) (Z.max (rend r) (rend o))
  else if rbegin r =? rend o then mkRange (rbegin o) (rend r)
  else mkRange (rbegin r) (rend o).

(** Range.cpp:124-146, subtract. *)
Definition range_subtract (r o : range) : list range :=
  if negb (range_overlaps r o) then [r]
  else if range_contains r o then
    (if negb (rbegin r =? rbegin o) then [mkRange (rbegin r) (rbegin o)] else [])
    ++ (if negb (rend r =? rend o) then [mkRange (rend o) (rend r)] else [])
  else if negb (range_contains o r) then
    if rbegin r <=? rbegin o then [mkRange (rbegin r) (rbegin o)]
    else [mkRange (rend o) (rend r)]
  else [].

(** Range.cpp:156-180: the iterator is the pair (current, end). *)
Record rangeIt := mkRangeIt { it_current : Z; it_end : Z }.

(** Range.cpp:148-150, begin(). *)
Definition range_begin_it (r : range) : rangeIt := mkRangeIt (rbegin r) (rend r).
(** Range.cpp:152-154, end(). *)
Definition range_end_it (r : range) : rangeIt := mkRangeIt (rend r) (rend r).
(** Range.cpp:161-163, operator==. *)
Definition rangeIt_eq (a b : rangeIt) : bool :=
  (it_current a =? it_current b) && (it_end a =? it_end b).
(** Range.cpp:165-167, operator!=. *)
Definition rangeIt_ne (a b : rangeIt) : bool :=
  negb (it_current a =? it_current b) || negb (it_end a =? it_end b).
(** Range.cpp:169-172, operator++. *)
Definition rangeIt_incr (a : rangeIt) : rangeIt :=
  mkRangeIt (Z.min (it_current a + 1) (it_end a)) (it_end a).
(** Range.cpp:180, operator*. *)
Definition rangeIt_deref (a : rangeIt) : Z := it_current a.

(** Point.h: a point is its vector of coordinates. *)
Definition point := list Z.

(** Point.cpp:19-31, operator==. The index loop over two vectors of equal
    length is written as a simultaneous recursion. *)
Fixpoint point_eq_loop (a b : point) : bool :=
  match a, b with
  | x :: a', y :: b' => if negb (x =? y) then false else point_eq_loop a' b'
  | _, _ => true
  end.
Definition point_eq (a b : point) : bool :=
  if negb (Nat.eqb (length a) (length b)) then false else point_eq_loop a b.

(** Point.cpp:48-71, compare. *)
Fixpoint point_compare_loop (a b : point) : Z :=
  match a, b with
  | x :: a', y :: b' =>
      if x <? y then -1 else if x >? y then 1 else point_compare_loop a' b'
  | _, _ => 0
  end.
Definition point_compare (a b : point) : Z :=
  if Nat.ltb (length a) (length b) then -1
  else if Nat.ltb (length b) (length a) then 1
  else point_compare_loop a b.

(** Point.cpp:40, operator<. *)
Definition point_lt (a b : point) : bool := point_compare a b <? 0.

(** Point.cpp:73-77, append. *)
Definition point_append (a b : point) : point := a ++ b.
(** Point.cpp:79-81, takeFront (llvm::ArrayRef::take_front). *)
Definition point_takeFront (p : point) (n : nat) : point := firstn n p.
(** Point.cpp:83-85, takeBack (llvm::ArrayRef::take_back). *)
Definition point_takeBack (p : point) (n : nat) : point :=
  skipn (length p - n) p.
(** Point.cpp:87-97, slice. The bit vector is a list of booleans; reading past
    its end is outside the model (treated as false). *)
Fixpoint point_slice (p : point) (filter : list bool) : point :=
  match p, filter with
  | x :: p', b :: f' => if b then x :: point_slice p' f' else point_slice p' f'
  | _, _ => []
  end.
