(** Model of the constant ranges and of the index arithmetic of subscripts:
    lib/Dialect/BaseModelica/IR/Attributes.cpp:635-637,
    lib/Dialect/BaseModelica/IR/Ops.cpp:253-305, 408-434, 2476-2565, 3136-3225,
    lib/Dialect/BaseModelica/IR/Dialect.cpp:400-590,
    lib/Dialect/BaseModelica/Transforms/EquationExpressionOpInterfaceImpl.cpp:270-345,
    lib/Codegen/Conversion/BaseModelicaToArith/BaseModelicaToArith.cpp:208-236, 1655-1705.

    Only the integer attributes are modelled: the ranges of reals and the mixed
    cases, whose arithmetic is floating-point, are not. *)
From Coq Require Import ZArith List Bool.
From Verif Require Import RangeModel MDRangeModel Result BoxSetModel AccessModel.
Import ListNotations.
Open Scope Z_scope.

(** int64_t arithmetic: a result that does not fit is undefined behaviour. *)
Definition i64 (z : Z) : res Z := if (- 2 ^ 63 <=? z) && (z <? 2 ^ 63) then Ok z else Bad.

(** IntegerRangeAttr: the bounds are both included. *)
Record irange := mkIRange { ilower : Z; iupper : Z; istep : Z }.

(** Ops.cpp:253-271, RangeOp::fold on integers. *)
Definition range_fold (lower upper step : Z) : irange := mkIRange lower upper step.

(** Ops.cpp:2512-2523, AddOp::fold on an integer range and an integer. *)
Definition add_fold (r : irange) (v : Z) : res irange :=
  lower <- i64 (ilower r + v) ;; upper <- i64 (iupper r + v) ;; Ok (mkIRange lower upper (istep r)).
(** Ops.cpp:3172-3183, SubOp::fold on an integer range and an integer. *)
Definition sub_fold (r : irange) (v : Z) : res irange :=
  lower <- i64 (ilower r - v) ;; upper <- i64 (iupper r - v) ;; Ok (mkIRange lower upper (istep r)).

(** Attributes.cpp:635-637, getNumOfElements; Ops.cpp:415-422, RangeSizeOp::fold;
    BaseModelicaToArith.cpp:212-233, the code for RangeSizeOp (arith.divsi
    truncates as the C++ division does). *)
Definition num_elements (r : irange) : res Z :=
  d <- i64 (iupper r - ilower r) ;; q <- div_trunc d (istep r) ;; i64 (1 + q).

(** scf.parallel along one dimension, with a positive step: the values of the
    induction variable. *)
Definition parallel_values (lb ub step : Z) : list Z :=
  map (fun i => lb + Z.of_nat i * step) (seq 0 (Z.to_nat ((ub - lb + step - 1) / step))).

(** BaseModelicaToArith.cpp:1665-1702: the loop of a reduction over a range. A
    step of zero makes the division of RangeSizeOp undefined. *)
Definition reduction_values (r : irange) : res (list Z) :=
  size <- num_elements r ;;
  let nonNegative := 0 <=? istep r in
  let actualEnd := ilower r + istep r * (size - 1) in
  let lower := if nonNegative then ilower r else actualEnd in
  let upper := if nonNegative then actualEnd else ilower r in
  let step := if nonNegative then istep r else - istep r in
  Ok (parallel_values lower (upper + 1) step).

(** Range.cpp:12-16: the constructor asserts that the range is not empty. *)
Definition mk_range (b e : Z) : res range := if b <? e then Ok (mkRange b e) else Bad.

(** EquationExpressionOpInterfaceImpl.cpp:270-345: the induction space of a
    reduction over constant integer ranges, and the dimension of each induction
    (IndexSet::rank of a new empty set is 0, RTree.h:575). *)
Fixpoint reduction_space_loop (its : list irange) (indices : bset) (dims : list Z)
  : res (bset * list Z) :=
  match its with
  | [] => Ok (indices, dims)
  | r :: its' =>
      _ <- assert_ok (istep r =? 1) ;;
      range <- mk_range (ilower r) (iupper r + 1) ;;
      let indices' := if bs_empty indices then [[range]] else bs_append indices [] in
      reduction_space_loop its' indices' (dims ++ [Z.of_nat (bs_rank indices') - 1])
  end.
Definition reduction_space (its : list irange) : res (bset * list Z) := reduction_space_loop its [] [].

(** A subscript: the operations that define an index value. [SInd d] is the
    induction variable of position [d] of the equation, [SOther] any other
    value. *)
Inductive sub :=
| SConst (c : Z)
| SRange (r : irange)
| SNeg (a : sub)
| SAdd (a b : sub)
| SSub (a b : sub)
| SMul (a b : sub)
| SDiv (a b : sub)
| SInd (d : nat)
| SOther.

(** Dialect.cpp:400-525, getDimensionAccess. [None] is nullptr. *)
Fixpoint getDimensionAccess (e : sub) : res (option dacc) :=
  let bin f a b :=
    x <- getDimensionAccess a ;; y <- getDimensionAccess b ;;
    Ok (match x, y with Some u, Some v => Some (f u v) | _, _ => None end) in
  match e with
  | SConst c => Ok (Some (DConst c))
  | SRange r =>
      _ <- assert_ok (istep r =? 1) ;;
      range <- mk_range (ilower r) (iupper r) ;;
      Ok (Some (DRange range))
  | SNeg a => x <- getDimensionAccess a ;;
              Ok (match x with Some u => Some (DMul (DConst (-1)) u) | None => None end)
  | SAdd a b => bin DAdd a b
  | SSub a b => bin DSub a b
  | SMul a b => bin DMul a b
  | SDiv a b => bin DDiv a b
  | SInd d => Ok (Some (DDim d))
  | SOther => Ok None
  end.

(** Dialect.cpp:544-600, materializeAffineExpr: the operations created for an
    affine expression; the dimensions are the induction variables. *)
Fixpoint materialize (e : aexpr) : option sub :=
  let bin f a b := match materialize a, materialize b with Some x, Some y => Some (f x y) | _, _ => None end in
  match e with
  | AConst c => Some (SConst c)
  | ADim d => Some (SInd d)
  | AAdd a b => bin SAdd a b
  | AMul a b => bin SMul a b
  | AFloorDiv a b => bin SDiv a b
  | ACeilDiv _ _ | AMod _ _ => None
  end.
