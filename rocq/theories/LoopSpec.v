(** Specification of the execution of a loop nest with directions. *)
From Coq Require Import ZArith List.
From Verif Require Import RangeModel MDRangeModel LoopModel.
Import ListNotations.
Open Scope Z_scope.

(** The order of a dimension: increasing, or decreasing if backward. *)
Definition value_before (d : direction) (x y : Z) : Prop :=
  match d with DirBackward => y < x | _ => x < y end.
(** The order of the iterations: by the outermost dimension first. *)
Inductive iteration_before : list direction -> point -> point -> Prop :=
| before_here : forall d ds x y p q, value_before d x y -> iteration_before (d :: ds) (x :: p) (y :: q)
| before_next : forall d ds x p q, iteration_before ds p q -> iteration_before (d :: ds) (x :: p) (x :: q).

(** What a dimension gives: the values of the range, or of the range moved by
    one if backward. *)
Definition executed_value (d : direction) (r : range) (v : Z) : Prop :=
  match d with
  | DirBackward => rbegin r < v <= rend r
  | _ => rbegin r <= v < rend r
  end.
