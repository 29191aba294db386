(** The functions through which a compiled model describes its variables.

    Models:
      /repo/lib/Codegen/Conversion/BaseModelicaToRuntime/BaseModelicaToRuntime.cpp:539-598,
        640-800
      /repo/lib/Codegen/Conversion/RuntimeModelMetadataConversion/RuntimeModelMetadataConversion.cpp:120-800
      /repo/lib/Dialect/BaseModelica/IR/Dialect.cpp:802 (isReservedVariable)

    The functions that the second file builds are control-flow graphs of
    cf.switch operations.  They are modelled by what running them returns: a
    switch looks for its argument among the case values and otherwise takes the
    default branch; a block is a function of its arguments.

    Simplifications: names are strings; the cells of a variable are a function
    of its name and of the indices; getVariableValue receives the indices of an
    element as a list.  Iterations over DenseMap and DenseSet are in the order
    of a list; the theorems hold for every order of the map of the printable
    indices.  The operands of the switch over the boxes of a variable
    (RuntimeModelMetadataConversion.cpp:621-634) are references into a vector
    that grows: with three boxes or more they dangle.  The model has the value
    they had. *)

From Coq Require Import List Arith ZArith Bool String.
From Verif Require Import RangeModel MDRangeModel Result RTreeModel IndexSetModel IndexSetIterModel.
Import ListNotations.
Local Open Scope nat_scope.

(** A variable of the model: its name and the sizes of its dimensions. *)
Record variable := mkVar { v_name : string; v_shape : list Z }.
Definition v_rank (v : variable) : nat := List.length (v_shape v).

(** Dialect.cpp:802, isReservedVariable. *)
Definition isReserved (name : string) : bool := String.prefix "__" name.

(** BaseModelicaToRuntime.cpp:546-548, createNumOfVariablesOp. *)
Fixpoint numOfVariables (vs : list variable) : nat :=
  match vs with
  | [] => 0
  | v :: vs' => if negb (isReserved (v_name v)) then S (numOfVariables vs') else numOfVariables vs'
  end.

(** BaseModelicaToRuntime.cpp:563-571, createVariableNamesOp. *)
Fixpoint variableNames (vs : list variable) : list string :=
  match vs with
  | [] => []
  | v :: vs' => if isReserved (v_name v) then variableNames vs' else v_name v :: variableNames vs'
  end.

(** BaseModelicaToRuntime.cpp:585-594, createVariableRanksOp. *)
Fixpoint variableRanks (vs : list variable) : list nat :=
  match vs with
  | [] => []
  | v :: vs' => if isReserved (v_name v) then variableRanks vs' else v_rank v :: variableRanks vs'
  end.

(** BaseModelicaToRuntime.cpp:709-716: the positions, over all the variables.
    The last one inserted is found first. *)
Fixpoint positions (i : nat) (vs : list variable) (m : list (string * nat)) : list (string * nat) :=
  match vs with
  | [] => m
  | v :: vs' => positions (S i) vs' ((v_name v, i) :: m)
  end.
Fixpoint position_of (n : string) (m : list (string * nat)) : option nat :=
  match m with
  | [] => None
  | (k, i) :: m' => if String.eqb k n then Some i else position_of n m'
  end.

(** BaseModelicaToRuntime.cpp:718-739, createDerivativesMapOp; [der] is the map of
    the derivatives.  [None]: the conversion fails. *)
Fixpoint derivatives_loop (m : list (string * nat)) (der : string -> option string) (vs : list variable)
  : option (list Z) :=
  match vs with
  | [] => Some []
  | v :: vs' =>
      if isReserved (v_name v) then derivatives_loop m der vs'
      else match der (v_name v) with
           | Some d =>
               match position_of d m with
               | None => None
               | Some i => option_map (cons (Z.of_nat i)) (derivatives_loop m der vs')
               end
           | None => option_map (cons (-1)%Z) (derivatives_loop m der vs')
           end
  end.
Definition derivatives (der : string -> option string) (vs : list variable) : option (list Z) :=
  derivatives_loop (positions 0 vs []) der vs.

(** BaseModelicaToRuntime.cpp:757-788, createVariableGetters: the getters in the
    order of their numbers.  A getter reads the element of the variable at the
    given indices; of a scalar, the variable. *)
Section Getters.
Context {K : Type}.
Definition getter (v : variable) (mem : string -> list Z -> K) (idx : list Z) : K :=
  match v_shape v with
  | [] => mem (v_name v) []
  | _ => mem (v_name v) (firstn (v_rank v) idx)
  end.
Fixpoint variableGetters (vs : list variable) : list ((string -> list Z -> K) -> list Z -> K) :=
  match vs with
  | [] => []
  | v :: vs' => if isReserved (v_name v) then variableGetters vs' else getter v :: variableGetters vs'
  end.
End Getters.

(** cf.switch. *)
Fixpoint switch {B : Type} (default : B) (cases : list (Z * B)) (x : Z) : B :=
  match cases with
  | [] => default
  | (c, b) :: cases' => if (c =? x)%Z then b else switch default cases' x
  end.
(** The cases [0, 1, ...]. *)
Fixpoint enum_from {B : Type} (i : nat) (l : list B) : list (Z * B) :=
  match l with
  | [] => []
  | b :: l' => (Z.of_nat i, b) :: enum_from (S i) l'
  end.

(** RuntimeModelMetadataConversion.cpp:120-195. *)
Definition getVariableName (vs : list variable) (x : Z) : string :=
  switch ""%string (enum_from 0 (variableNames vs)) x.
(** RuntimeModelMetadataConversion.cpp:197-262. *)
Definition getVariableRank (vs : list variable) (x : Z) : nat :=
  switch 0%nat (enum_from 0 (variableRanks vs)) x.
(** RuntimeModelMetadataConversion.cpp:659-722. *)
Definition getDerivative (ds : list Z) (x : Z) : Z :=
  switch (-1)%Z (enum_from 0 ds) x.
(** RuntimeModelMetadataConversion.cpp:726-795. *)
Definition getVariableValue {K} (zero : K) (vs : list variable) (mem : string -> list Z -> K)
    (x : Z) (idx : list Z) : K :=
  switch zero (map (fun c => (fst c, snd c mem idx)) (enum_from 0 (variableGetters vs))) x.

(** PrintableIndices: a flag for a scalar, an index set for an array. *)
Inductive pinfo := PBool (b : bool) | PSet (t : iset).

(** BaseModelicaToRuntime.cpp:662-697: one entry for each variable that is not
    reserved; [info] stands for the filters of the variable (VFModel). *)
Fixpoint printableIndices (info : variable -> pinfo) (vs : list variable) : list pinfo :=
  match vs with
  | [] => []
  | v :: vs' => if isReserved (v_name v) then printableIndices info vs' else info v :: printableIndices info vs'
  end.

(** RuntimeModelMetadataConversion.cpp:335-353. *)
Fixpoint printableVariables (i : nat) (l : list pinfo) : list Z :=
  match l with
  | [] => []
  | PBool b :: l' => if b then Z.of_nat i :: printableVariables (S i) l' else printableVariables (S i) l'
  | PSet t :: l' => if negb (is_empty t) then Z.of_nat i :: printableVariables (S i) l' else printableVariables (S i) l'
  end.
(** RuntimeModelMetadataConversion.cpp:310-382, isPrintable. *)
Definition isPrintable (l : list pinfo) (x : Z) : bool :=
  switch false (map (fun p => (p, true)) (printableVariables 0 l)) x.

(** RuntimeModelMetadataConversion.cpp:274-287: the boxes of the arrays. *)
Fixpoint printableMap (i : nat) (l : list pinfo) : res (list (nat * list mdrange)) :=
  match l with
  | [] => Ok []
  | PBool _ :: l' => printableMap (S i) l'
  | PSet t :: l' =>
      if negb (is_empty t) then
        bs <- is_getCompactRanges t ;; m <- printableMap (S i) l' ;; Ok ((i, bs) :: m)
      else printableMap (S i) l'
  end.

(** RuntimeModelMetadataConversion.cpp:405-414: the variables with each number
    of boxes. *)
Fixpoint group_insert (n v : nat) (g : list (nat * list nat)) : list (nat * list nat) :=
  match g with
  | [] => [(n, [v])]
  | (k, l) :: g' => if Nat.eqb k n then (k, v :: l) :: g' else (k, l) :: group_insert n v g'
  end.
Fixpoint groups (m : list (nat * list mdrange)) (g : list (nat * list nat)) : list (nat * list nat) :=
  match m with
  | [] => g
  | (v, bs) :: m' =>
      groups m' (match bs with [] => g | _ => group_insert (List.length bs) v g end)
  end.
(** RuntimeModelMetadataConversion.cpp:385-450, getVariableNumOfPrintableRanges. *)
Definition getVariableNumOfPrintableRanges (m : list (nat * list mdrange)) (x : Z) : Z :=
  switch 0%Z
    (flat_map (fun e => map (fun v => (Z.of_nat v, Z.of_nat (fst e))) (snd e)) (groups m [])) x.

(** std::set and std::map over an order: two keys are the same when neither is
    below the other. *)
Section Ordered.
Context {A B : Type}.
Variable lt : A -> A -> bool.
Definition same_key (a b : A) : bool := negb (lt a b) && negb (lt b a).
Fixpoint set_insert (x : A) (s : list A) : list A :=
  match s with
  | [] => [x]
  | y :: s' => if lt x y then x :: s else if lt y x then y :: set_insert x s' else s
  end.
Fixpoint map_find (x : A) (m : list (A * B)) : option B :=
  match m with
  | [] => None
  | (k, b) :: m' => if same_key k x then Some b else map_find x m'
  end.
End Ordered.

(** RuntimeModelMetadataConversion.cpp:510-524: the ranges and the boxes. *)
Definition uniqueRanges (m : list (nat * list mdrange)) : list range :=
  fold_left (fun s r => set_insert range_lt r s)
    (flat_map (fun e => flat_map (fun b : mdrange => b) (snd e)) m) [].
Definition uniqueBoxes (m : list (nat * list mdrange)) : list mdrange :=
  fold_left (fun s b => set_insert mdrange_lt b s) (flat_map snd m) [].

(** RuntimeModelMetadataConversion.cpp:527-544: a block for each range, that
    returns a bound.  A missing block ([None]) would be a null pointer. *)
Definition rangeBlocks (bound : range -> Z) (m : list (nat * list mdrange)) : list (range * Z) :=
  map (fun r => (r, bound r)) (uniqueRanges m).

(** RuntimeModelMetadataConversion.cpp:547-587: a block for each box, that
    switches on the dimension. *)
Definition boxBlocks (bound : range -> Z) (m : list (nat * list mdrange))
  : list (mdrange * (Z -> option Z)) :=
  map (fun b : mdrange =>
         (b, switch (Some (-1)%Z) (enum_from 0 (map (fun r => map_find range_lt r (rangeBlocks bound m)) b))))
    (uniqueBoxes m).

(** RuntimeModelMetadataConversion.cpp:591-640: a block for each variable, that
    switches on the box. *)
Definition variableBlocks (bound : range -> Z) (m : list (nat * list mdrange))
  : list (Z * (Z -> Z -> option Z)) :=
  map (fun e : nat * list mdrange =>
         (Z.of_nat (fst e),
          fun r d => switch (Some (-1)%Z)
            (enum_from 0 (map (fun b => match map_find mdrange_lt b (boxBlocks bound m) with
                                        | Some block => block d
                                        | None => None
                                        end) (snd e))) r)) m.

(** RuntimeModelMetadataConversion.cpp:478-656. *)
Definition rangeBoundary (bound : range -> Z) (m : list (nat * list mdrange)) (x r d : Z) : option Z :=
  switch (fun _ _ => Some (-1)%Z) (variableBlocks bound m) x r d.
(** RuntimeModelMetadataConversion.cpp:452-476. *)
Definition getVariablePrintableRangeBegin := rangeBoundary rbegin.
Definition getVariablePrintableRangeEnd := rangeBoundary rend.
