(** Model of the loops generated for a scheduled equation:
    lib/Dialect/BaseModelica/Transforms/EquationExplicitation.cpp:334-420
    (createEquationFunction) and
    lib/Codegen/Conversion/BaseModelicaToFunc/BaseModelicaToFunc.cpp:149-182
    (EquationCallOpLowering).

    The generated code is represented by what it executes: the list of the
    induction values for which the body of the equation runs, in order. *)
From Coq Require Import ZArith List Bool.
From Verif Require Import RangeModel MDRangeModel Result BoxSetModel.
Import ListNotations.
Open Scope Z_scope.

(** Scheduling.h:96. *)
Inductive direction := DirAny | DirForward | DirBackward | DirUnknown.

(** scf.for with step 1: the values of the induction variable. *)
Definition for_values (lb ub : Z) : list Z :=
  map (fun i => lb + Z.of_nat i) (seq 0 (Z.to_nat (ub - lb))).

(** EquationExplicitation.cpp:372-379: one loop for each dimension, each inside
    the previous one. *)
Fixpoint loop_nest (bounds : list (Z * Z)) : list point :=
  match bounds with
  | [] => [[]]
  | (lb, ub) :: bounds' => flat_map (fun v => map (cons v) (loop_nest bounds')) (for_values lb ub)
  end.

(** EquationExplicitation.cpp:381-402: the induction value given to the body. *)
Definition shift_induction (d : direction) (lb ub i : Z) : res Z :=
  match d with
  | DirAny | DirForward => Ok i
  | DirBackward => Ok (ub - (i - lb))
  | DirUnknown => Bad
  end.
Fixpoint shift_inductions (ds : list direction) (bounds : list (Z * Z)) (is : point) : res point :=
  match ds, bounds, is with
  | [], [], [] => Ok []
  | d :: ds', (lb, ub) :: bounds', i :: is' =>
      x <- shift_induction d lb ub i ;; xs <- shift_inductions ds' bounds' is' ;; Ok (x :: xs)
  | _, _, _ => Bad
  end.

Fixpoint all_ok {A} (l : list (res A)) : res (list A) :=
  match l with
  | [] => Ok []
  | r :: l' => x <- r ;; xs <- all_ok l' ;; Ok (x :: xs)
  end.

(** EquationExplicitation.cpp:334-420: an execution of the equation function
    with the given bounds. A schedule of another length is a failure of the
    pass (352-355). *)
Definition equation_function (ds : list direction) (bounds : list (Z * Z)) : res (list point) :=
  all_ok (map (shift_inductions ds bounds) (loop_nest bounds)).

(** BaseModelicaToFunc.cpp:168-174: the boundaries passed for a range. *)
Definition call_bounds (b : mdrange) : list (Z * Z) := map (fun r => (rbegin r, rend r)) b.

(** BaseModelicaToFunc.cpp:154-178: one call for each range, in the order of
    the ranges; one call without boundaries if there are no indices. *)
Definition equation_call (ds : list direction) (indices : bset) : res (list point) :=
  if bs_empty indices then equation_function ds []
  else l <- all_ok (map (fun b => equation_function ds (call_bounds b)) indices) ;; Ok (concat l).
