(** Model of the compact ranges and of the point iterator of IndexSet.
    C++ source: /repo/lib/Modeling/IndexSet.cpp:928-1234. *)
From Coq Require Import ZArith List Bool.
From Verif Require Import RangeModel MDRangeModel Result RTreeModel IndexSetModel.
Import ListNotations.
Open Scope Z_scope.

(** The range of dimension [d] of a box (MultidimensionalRange::operator[]);
    the default value is never used for a dimension below the rank. *)
Definition dim_of (b : mdrange) (d : nat) : range := nth d b (mkRange 0 1).

(** IndexSet.cpp:957-969, the box with the range of dimension [d] replaced. *)
Fixpoint set_dim (b : mdrange) (d : nat) (r : range) : mdrange :=
  match b, d with
  | [], _ => []
  | _ :: b', O => r :: b'
  | x :: b', S d' => x :: set_dim b' d' r
  end.

(** IndexSet.cpp:929-936, shouldSplitRange. *)
Definition shouldSplitRange (r grid : mdrange) (d : nat) : bool :=
  range_overlaps (dim_of grid d) (dim_of r d).

(** IndexSet.cpp:938-972, splitRange. *)
Definition splitRange (r grid : mdrange) (d : nat) : list mdrange :=
  map (set_dim r d)
    (range_intersect (dim_of r d) (dim_of grid d)
     :: range_subtract (dim_of r d) (dim_of grid d)).

(** IndexSet.cpp:984-1005, the loop on [it2] for the elements on one side of
    [it1]: every element is replaced, at its place, by its pieces; the pieces
    are not visited again. *)
Definition split_by (grid : mdrange) (d : nat) (l : list mdrange) : list mdrange :=
  flat_map (fun r => if shouldSplitRange r grid d then splitRange r grid d else [r]) l.

(** IndexSet.cpp:983-1006, the loop on [it1]. [before] and [after] are the
    elements before [it1], and from [it1] on. *)
Fixpoint grid_loop (fuel : nat) (d : nat) (before after : list mdrange)
    : res (list mdrange) :=
  match after with
  | [] => Ok before
  | g :: after' =>
      match fuel with
      | O => NoFuel
      | S f => grid_loop f d (split_by g d before ++ [g]) (split_by g d after')
      end
  end.
(** Enough fuel for the loop: the total extent of the ranges. *)
Definition grid_fuel (d : nat) (l : list mdrange) : nat :=
  fold_right (fun b acc => (Z.to_nat (range_size (dim_of b d)) + acc)%nat) 0%nat l.

(** IndexSet.cpp:974-1008, splitRangesToMinGrid: the last dimension is not
    split. *)
Definition splitRangesToMinGrid (l : list mdrange) : res (list mdrange) :=
  match l with
  | [] => Ok []
  | b :: _ =>
      fold_res (fun l d => grid_loop (grid_fuel d l) d [] l) (seq 0 (length b - 1)) l
  end.

(** IndexSet.cpp:1010-1032, removeDuplicateRanges. *)
Fixpoint removeDuplicateRanges (l : list mdrange) : list mdrange :=
  match l with
  | [] => []
  | x :: l' =>
      match removeDuplicateRanges l' with
      | y :: l'' => if mdrange_eq y x then x :: l'' else x :: y :: l''
      | [] => [x]
      end
  end.

(** IndexSet.cpp:1070-1080, getCompactRanges; mergeRanges (1034-1066) is the
    algorithm of [merge_boxes]. *)
Definition is_getCompactRanges (t : iset) : res (list mdrange) :=
  l <- splitRangesToMinGrid (is_ranges t) ;;
  Ok (merge_boxes (removeDuplicateRanges (sort_boxes l))).

(** IndexSet.h, class PointIterator: the range iterator is the list of the
    ranges from the current one on, the end of the ranges is the empty list. *)
Record pointIt := mkPointIt {
  pit_ranges : list mdrange;
  pit_current : option mdIt;
  pit_end : option mdIt }.

(** std::optional::operator==. *)
Definition optIt_eq (a b : option mdIt) : bool :=
  match a, b with
  | None, None => true
  | Some x, Some y => mdIt_eq x y
  | _, _ => false
  end.

(** IndexSet.cpp:1200-1227, shouldProceed and fetchNext. The branch of line
    1224 cannot be taken: the loop condition is the branch condition. *)
Fixpoint pit_fetch (rs : list mdrange) (current end_ : option mdIt) : pointIt :=
  match rs with
  | [] => mkPointIt [] current end_
  | _ :: rs' =>
      if optIt_eq current end_ then
        match rs' with
        | [] => mkPointIt [] None None
        | r :: _ => pit_fetch rs' (Some (mdrange_begin r)) (Some (mdrange_end r))
        end
      else mkPointIt rs current end_
  end.

(** IndexSet.cpp:1144-1162, begin. *)
Definition pit_begin (t : iset) : pointIt :=
  match is_ranges t with
  | [] => pit_fetch [] None None
  | r :: _ => pit_fetch (is_ranges t) (Some (mdrange_begin r)) (Some (mdrange_end r))
  end.

(** IndexSet.cpp:1164-1169, end. *)
Definition pit_endIt : pointIt := mkPointIt [] None None.

(** IndexSet.cpp:1171-1175, operator==. Two iterators of the same set have the
    same remaining ranges if and only if they are at the same place. *)
Definition pit_eq (a b : pointIt) : bool :=
  Nat.eqb (length (pit_ranges a)) (length (pit_ranges b)) &&
  optIt_eq (pit_current a) (pit_current b).

(** IndexSet.cpp:1196-1198, operator*: undefined without a current point. *)
Definition pit_deref (a : pointIt) : res point :=
  match pit_current a with None => Bad | Some it => Ok (mdIt_deref it) end.

(** IndexSet.cpp:1229-1232, advance. *)
Definition pit_incr (a : pointIt) : res pointIt :=
  match pit_current a with
  | None => Bad
  | Some it => Ok (pit_fetch (pit_ranges a) (Some (mdIt_fetchNext it)) (pit_end a))
  end.

(** The points seen by "for (it = begin(); it != end(); ++it)". *)
Fixpoint pit_run (fuel : nat) (a : pointIt) : res (list point) :=
  if pit_eq a pit_endIt then Ok []
  else
    match fuel with
    | O => NoFuel
    | S f =>
        p <- pit_deref a ;;
        a' <- pit_incr a ;;
        rest <- pit_run f a' ;;
        Ok (p :: rest)
    end.
Definition is_iterate (fuel : nat) (t : iset) : res (list point) := pit_run fuel (pit_begin t).

(** IndexSet.cpp:107-113, hash_value. [H] is llvm::hash_value of a size. *)
Definition is_hash (H : Z -> Z) (t : iset) : Z :=
  if is_empty t then 0%Z else H (is_size t).
