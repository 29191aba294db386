(** Start values of the derivatives, and equations for their elements that
    nothing determines.

    Models /repo/lib/Dialect/BaseModelica/Transforms/DerivativesInitialization.cpp:24-214,
    with the index sets of IndexSetModel and IndexSetIterModel (isMin and isMax are
    the capacities of their nodes).

    Simplifications: variables are numbers; a variable has its whole shape,
    components of records are not followed (records are inlined before, 865 and
    938 of FrontendActions.cpp); an equation is the variable it sets to zero and
    its indices. *)

From Coq Require Import ZArith List Bool.
From Verif Require Import RangeModel MDRangeModel Result RTreeModel IndexSetModel IndexSetIterModel IndexSetSpec.
Import ListNotations.

(** An entry of the map of derivatives: a variable that is derived, its
    derivative, its shape, and the indices that are derived if there are some. *)
Record dentry := mkDentry {
  de_variable : nat; de_derivative : nat; de_dims : list Z; de_indices : option iset }.

(** 107-118: the start value of every element, and whether it is fixed. *)
Record dstart := mkDstart { ds_variable : nat; ds_value : Z; ds_fixed : bool }.
(** 126-160: the equation [variable = 0] for every index of a set. *)
Record dequation := mkDequation { dq_variable : nat; dq_indices : iset }.

(** 60-68, shapeToIndexSet. *)
Definition shapeToIndexSet (dims : list Z) : res iset :=
  is_insert isMin isMax is_empty_set (map (fun d => mkRange 0 d) dims).

(** 93-121, createStartOp. *)
Definition createStart (e : dentry) : dstart := mkDstart (de_derivative e) 0 false.

(** 123-162, createMainEquations; the indices of the equation are the set of the
    compact ranges (Ops.cpp:10015, IndexSet(ArrayRef)). *)
Definition createMainEquations (d : nat) (indices : list mdrange) : res dequation :=
  s <- is_setFromRanges isMin isMax indices ;; Ok (mkDequation d s).

(** 191-212, for one entry. *)
Definition processEntry (e : dentry) : res (list dequation) :=
  match de_dims e with
  | [] => Ok []
  | _ =>
      whole <- shapeToIndexSet (de_dims e) ;;
      rest <- match de_indices e with
              | Some derived => is_remove_set isMin isMax whole derived
              | None => Ok whole
              end ;;
      if is_empty rest then Ok []
      else
        compact <- is_getCompactRanges rest ;;
        q <- createMainEquations (de_derivative e) compact ;;
        Ok [q]
  end.

(** 164-214, processModelOp. *)
Fixpoint processModel (l : list dentry) : res (list dstart * list dequation) :=
  match l with
  | [] => Ok ([], [])
  | e :: l' =>
      qs <- processEntry e ;;
      r <- processModel l' ;;
      Ok (createStart e :: fst r, qs ++ snd r)
  end.
