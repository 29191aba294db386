(** The checks that the compiler puts before operations that may fail at run
    time.

    Models:
      /repo/lib/Dialect/BaseModelica/Transforms/RuntimeVerifiableOpInterfaceImpl.cpp:16-643
      /repo/lib/Codegen/Conversion/BaseModelicaToArith/BaseModelicaToArith.cpp:208-236,
        350-373, 417-440, 484-507, 551-574, 618-641
      /repo/lib/Frontend/FrontendActions.cpp:879, 1021-1023

    An operation's checks are AssertOps of level error, placed before it by
    createGenerateRuntimeVerificationPass (which is MLIR's); the model is the
    list of their conditions.  The operation runs when all of them hold: the
    function of the runtime library that stops the simulation is not in the
    repository.

    Simplifications: integers are unbounded; sizes of dimensions are the sizes
    at run time; the subscripts are those after the boundaries of colons are
    inferred (SliceModel.infer_bounds: that pass runs first,
    FrontendActions.cpp:879). *)

From Coq Require Import List ZArith Bool Lia.
From Coq Require Import Floats.SpecFloat.
Import ListNotations.
From Verif Require Import SliceModel.
Local Open Scope Z_scope.

(** All the assertions hold. *)
Definition all_hold (cs : list bool) : bool := forallb (fun c => c) cs.

(** RuntimeVerifiableOpInterfaceImpl.cpp:92-131, [verifyIndexedAccess]: one
    assertion per dimension of the array.  [None]: [indices[dim]] (line 98)
    reads past the last index. *)
Fixpoint index_checks (dims idx : list Z) : option (list bool) :=
  match dims with
  | [] => Some []
  | d :: dims' =>
      match idx with
      | [] => None
      | i :: idx' =>
          match index_checks dims' idx' with
          | Some cs => Some ((0 <=? i) && (i <? d) :: cs)
          | None => None
          end
      end
  end.

(** Lines 251-314, TensorViewOp: an index is compared with the size of its
    dimension, of a range only the number of elements is.  [None]: an array of
    indices, which has no comparison with zero. *)
Fixpoint view_checks (dims : list Z) (ss : list sub) : option (list bool) :=
  match ss with
  | [] => Some []
  | s :: ss' =>
      match view_checks (tl dims) ss' with
      | None => None
      | Some cs =>
          match s with
          | All => Some cs
          | Rng b e st => Some ((range_size b e st <=? hd 0 dims) :: cs)
          | At i => Some ((0 <=? i) && (i <? hd 0 dims) :: cs)
          | Arr _ => None
          end
      end
  end.

(** Lines 190-217, the first loop of TensorInsertSliceOp: the conditions, and
    what is left of the sizes of the value and of the destination. *)
Fixpoint insert_loop (dims sdims : list Z) (ss : list sub)
  : list bool * list Z * list Z :=
  match ss with
  | [] => ([], dims, sdims)
  | s :: ss' =>
      match s with
      | Rng b e st =>
          let '(cs, d', s') := insert_loop (tl dims) (tl sdims) ss' in
          ((hd 0 sdims =? range_size b e st) :: cs, d', s')
      | _ => insert_loop (tl dims) sdims ss'
      end
  end.

(** Lines 223-244, the second loop: the dimensions without subscripts. *)
Fixpoint rest_checks (dims sdims : list Z) : list bool :=
  match sdims with
  | [] => []
  | n :: sdims' => (n =? hd 0 dims) :: rest_checks (tl dims) sdims'
  end.

Definition is_range (s : sub) : bool :=
  match s with Rng _ _ _ => true | _ => false end.

(** Lines 177-245.  [None]: the assertion of line 219 fails and the compiler
    stops. *)
Definition insert_checks (dims sdims : list Z) (ss : list sub) : option (list bool) :=
  let '(cs, d', s') := insert_loop dims sdims ss in
  if (Z.of_nat (length dims) - Z.of_nat (length ss) =?
      Z.of_nat (length sdims) - Z.of_nat (length (filter is_range ss)))
  then Some (cs ++ rest_checks d' s')
  else None.

(** From the subscripts of the source: one is subtracted
    (SubscriptLowerer.cpp:10-43), colons become ranges, then the checks are
    made. *)
Definition source_view_checks (dims : list Z) (ss : list sub) : option (list bool) :=
  match lower_subs ss with
  | Some ss' => view_checks dims (infer_bounds dims ss')
  | None => None
  end.

Definition source_insert_checks (dims sdims : list Z) (ss : list sub) : option (list bool) :=
  match lower_subs ss with
  | Some ss' => insert_checks dims sdims (infer_bounds dims ss')
  | None => None
  end.

Definition source_index_checks (dims idx : list Z) : option (list bool) :=
  index_checks dims (map (fun i => i + -1) idx).

(** Lines 323-357 and 588-627, DimOp and SizeOp: the argument against the
    rank.  [size(x, k)] of the source has one subtracted from [k]
    (CallLowerer.cpp:1893-1900). *)
Definition dim_checks (rank k : Z) : list bool := [(0 <=? k) && (k <? rank)].

(** The constants of double precision in lines 26, 48, 64-76. *)
Definition f0 : spec_float := S754_zero false.
Definition f1 : spec_float := S754_finite false 4503599627370496 (-52).
Definition fm1 : spec_float := S754_finite true 4503599627370496 (-52).

(** arith.cmpf with the ordered predicates OGT, OGE, OLT, OLE and ONE: false
    when an operand is not a number (BaseModelicaToArith.cpp:363, 430, 497,
    564, 631). *)
Definition cmp_ogt (a b : spec_float) : bool := SFltb b a.
Definition cmp_oge (a b : spec_float) : bool := SFleb b a.
Definition cmp_ole (a b : spec_float) : bool := SFleb a b.
Definition cmp_one (a b : spec_float) : bool :=
  match SFcompare a b with
  | Some Lt | Some Gt => true
  | _ => false
  end.

(** Lines 16-37. *)
Definition positive_check (strict : bool) (a : spec_float) : bool :=
  if strict then cmp_ogt a f0 else cmp_oge a f0.

(** Lines 39-52. *)
Definition nonzero_check (a : spec_float) : bool := cmp_one a f0.

(** Lines 54-90 with the bounds of acos and asin, neither strict. *)
Definition between_check (a : spec_float) : bool := cmp_oge a fm1 && cmp_ole a f1.

(** The operations on numbers that have a check, and the argument it is made
    of.  DivOp, DivTruncOp, ModOp, RemOp: the second; DivEWOp: every element of
    the second (lines 429-469). *)
Inductive mathop :=
| MDiv (a b : spec_float)
| MDivTrunc (a b : spec_float)
| MMod (a b : spec_float)
| MRem (a b : spec_float)
| MDivEW (a b : list spec_float)
| MAcos (a : spec_float)
| MAsin (a : spec_float)
| MLog (a : spec_float)
| MLog10 (a : spec_float)
| MSqrt (a : spec_float).

(** Lines 414-643. *)
Definition math_checks (m : mathop) : list bool :=
  match m with
  | MDiv _ b | MDivTrunc _ b | MMod _ b | MRem _ b => [nonzero_check b]
  | MDivEW _ bs => map nonzero_check bs
  | MAcos a | MAsin a => [between_check a]
  | MLog a | MLog10 a => [positive_check true a]
  | MSqrt a => [positive_check false a]
  end.
