(** The map between variables and their time derivatives, its attribute,
    bytecode and textual forms, and the passes that fill it and walk it.
    Symbol references are numbers: MLIR attributes are unique, so two references
    are equal exactly when they are the same attribute. *)
From Coq Require Import ZArith List Bool.
From Verif Require Import RangeModel MDRangeModel BoxSetModel Result WritesMapModel.
Import ListNotations.
Local Open Scope nat_scope.

(** DerivativesMap.h:63-67, the three maps. *)
Record dmap := { dders : list (nat * nat); dinds : list (nat * bset); dinv : list (nat * nat) }.
Definition dm_new : dmap := {| dders := []; dinds := []; dinv := [] |}.

(** llvm::MapVector::operator[] followed by an assignment. *)
Definition map_set {A} (k : nat) (a : A) (m : list (nat * A)) : list (nat * A) :=
  map_update k a (fun _ => a) m.

(** DerivativesMap.cpp:383-393, getDerivedVariables; 395, empty. *)
Definition dm_getDerivedVariables (m : dmap) : list nat := map fst (dders m).
Definition dm_empty (m : dmap) : bool := match dders m with [] => true | _ => false end.
(** DerivativesMap.cpp:397-406, getDerivative. *)
Definition dm_getDerivative (m : dmap) (v : nat) : option nat := map_find v (dders m).
(** DerivativesMap.cpp:408-413, setDerivative. *)
Definition dm_setDerivative (m : dmap) (v d : nat) : dmap :=
  {| dders := map_set v d (dders m); dinds := dinds m; dinv := map_set d v (dinv m) |}.
(** DerivativesMap.cpp:415-425, getDerivedIndices: the assertion fails when the
    variable has a derivative but no derived indices. *)
Definition dm_getDerivedIndices (m : dmap) (v : nat) : res (option bset) :=
  match map_find v (dinds m), dm_getDerivative m v with
  | None, Some _ => Bad
  | r, _ => Ok r
  end.
(** DerivativesMap.cpp:427-430, setDerivedIndices. *)
Definition dm_setDerivedIndices (m : dmap) (v : nat) (s : bset) : dmap :=
  {| dders := dders m; dinds := map_set v s (dinds m); dinv := dinv m |}.
(** DerivativesMap.cpp:432-435, addDerivedIndices. *)
Definition dm_addDerivedIndices (m : dmap) (v : nat) (s : bset) : dmap :=
  {| dders := dders m; dinds := map_update v [] (fun t => bs_union t s) (dinds m); dinv := dinv m |}.
(** DerivativesMap.cpp:437-446, getDerivedVariable. *)
Definition dm_getDerivedVariable (m : dmap) (d : nat) : option nat := map_find d (dinv m).

(** The calls that change a map. LockedDerivativesMap (DerivativesMap.cpp:448-497)
    takes a mutex around each, so a concurrent execution is one of their orders. *)
Inductive dm_op :=
| SetDerivative (v d : nat)
| SetIndices (v : nat) (s : bset)
| AddIndices (v : nat) (s : bset).
Definition dm_step (m : dmap) (o : dm_op) : dmap :=
  match o with
  | SetDerivative v d => dm_setDerivative m v d
  | SetIndices v s => dm_setDerivedIndices m v s
  | AddIndices v s => dm_addDerivedIndices m v s
  end.
Definition dm_run (m : dmap) (h : list dm_op) : dmap := fold_left dm_step h m.

(** DerivativesMap.cpp:9-26, mapsEqual; 29-33, operator==. *)
Definition maps_equal {A} (eq : A -> A -> bool) (m1 m2 : list (nat * A)) : bool :=
  (length m1 =? length m2)
  && forallb (fun e => match map_find (fst e) m2 with Some b => eq b (snd e) | None => false end) m1.
Definition dm_eq (m1 m2 : dmap) : bool :=
  maps_equal Nat.eqb (dders m1) (dders m2) && maps_equal bs_eq (dinds m1) (dinds m2)
  && maps_equal Nat.eqb (dinv m1) (dinv m2).

(** DerivativesMap.cpp:190-196, hash: the sequences that are hashed. *)
Definition dm_hashed (m : dmap) : list (nat * nat) * list (nat * bset) * list (nat * nat) :=
  (dders m, dinds m, dinv m).

(** DerivativesMap.cpp:35-75, asAttribute: the three arrays of entries. The
    failure cases of setFromAttr on attributes of another form are not modelled,
    nor are the attributes of the index sets. *)
Record dm_attr := { aders : list (nat * nat); ainds : list (nat * bset); ainv : list (nat * nat) }.
Definition dm_asAttribute (m : dmap) : dm_attr :=
  {| aders := map (fun e => (fst e, snd e)) (dders m);
     ainds := map (fun e => (fst e, snd e)) (dinds m);
     ainv := map (fun e => (fst e, snd e)) (dinv m) |}.
(** DerivativesMap.cpp:77-188, setFromAttr, on the map [m]. *)
Definition set_all {A} (l : list (nat * A)) (m : list (nat * A)) : list (nat * A) :=
  fold_left (fun m e => map_set (fst e) (snd e) m) l m.
Definition dm_setFromAttr (m : dmap) (a : dm_attr) : dmap :=
  {| dders := set_all (aders a) (dders m); dinds := set_all (ainds a) (dinds m);
     dinv := set_all (ainv a) (dinv m) |}.

(** DerivativesMap.cpp:264-286, writeToMlirBytecode: a stream of counts,
    references and index sets (the encoding of each is MLIR's). *)
Inductive word := WCount (n : nat) | WRef (r : nat) | WSet (s : bset).
Definition dm_write (m : dmap) : list word :=
  WCount (length (dders m)) :: flat_map (fun e => [WRef (fst e); WRef (snd e)]) (dders m)
  ++ WCount (length (dinds m)) :: flat_map (fun e => [WRef (fst e); WSet (snd e)]) (dinds m)
  ++ WCount (length (dinv m)) :: flat_map (fun e => [WRef (fst e); WRef (snd e)]) (dinv m).
(** DerivativesMap.cpp:198-262, readFromMlirBytecode, on the map [m]; [None] is
    failure. The loops over the entries. *)
Fixpoint read_refs (n : nat) (w : list word) (m : list (nat * nat)) : option (list (nat * nat) * list word) :=
  match n with
  | O => Some (m, w)
  | S n' => match w with
            | WRef a :: WRef b :: w' => read_refs n' w' (map_set a b m)
            | _ => None
            end
  end.
Fixpoint read_sets (n : nat) (w : list word) (m : list (nat * bset)) : option (list (nat * bset) * list word) :=
  match n with
  | O => Some (m, w)
  | S n' => match w with
            | WRef a :: WSet b :: w' => read_sets n' w' (map_set a b m)
            | _ => None
            end
  end.
Definition dm_read (m : dmap) (w : list word) : option (dmap * list word) :=
  match w with
  | WCount n1 :: w1 =>
      match read_refs n1 w1 (dders m) with
      | Some (ders, WCount n2 :: w2) =>
          match read_sets n2 w2 (dinds m) with
          | Some (inds, WCount n3 :: w3) =>
              match read_refs n3 w3 (dinv m) with
              | Some (inv, w4) => Some ({| dders := ders; dinds := inds; dinv := inv |}, w4)
              | None => None
              end
          | _ => None
          end
      | _ => None
      end
  | _ => None
  end.

(** DerivativesMap.cpp:337-381, print: the printed entries, one per derived
    variable in the order [vs], which llvm::sort makes some order of the derived
    variables (the sort and the characters are not modelled). An index set is
    printed only when it is not empty. *)
Definition dm_print_entry (m : dmap) (v : nat) : res (nat * option nat * option bset) :=
  match dm_getDerivedIndices m v with
  | Ok (Some s) => Ok (v, dm_getDerivative m v, if bs_empty s then None else Some s)
  | Ok None => Ok (v, dm_getDerivative m v, None)
  | Bad => Bad
  | NoFuel => NoFuel
  end.
Fixpoint dm_print (m : dmap) (vs : list nat) : res (list (nat * option nat * option bset)) :=
  match vs with
  | [] => Ok []
  | v :: vs' =>
      match dm_print_entry m v with
      | Ok e => match dm_print m vs' with Ok l => Ok (e :: l) | r => r end
      | Bad => Bad
      | NoFuel => NoFuel
      end
  end.
(** DerivativesMap.cpp:288-335, parse, on the map [m], of printed entries. *)
Definition dm_parse_entry (m : dmap) (e : nat * option nat * option bset) : option dmap :=
  match e with
  | (v, Some d, o) =>
      Some (dm_setDerivedIndices (dm_setDerivative m v d) v (match o with Some s => s | None => [] end))
  | (_, None, _) => None
  end.
Fixpoint dm_parse (m : dmap) (l : list (nat * option nat * option bset)) : option dmap :=
  match l with
  | [] => Some m
  | e :: l' => match dm_parse_entry m e with Some m' => dm_parse m' l' | None => None end
  end.

(** VariablesPruning.cpp:213-222, walkDerivedVariables: the variables given to the
    callback; [None] when the fuel is not enough. *)
Fixpoint dm_walk (next : nat -> option nat) (fuel : nat) (v : nat) : option (list nat) :=
  match next v with
  | None => Some []
  | Some w =>
      match fuel with
      | O => None
      | S f => match dm_walk next f w with Some l => Some (w :: l) | None => None end
      end
  end.
Definition walkDerivedVariables (m : dmap) := dm_walk (dm_getDerivedVariable m).
(** VariablesPruning.cpp:224-234, walkDerivativeVariables. *)
Definition walkDerivativeVariables (m : dmap) := dm_walk (dm_getDerivative m).

(** DerivativesMaterialization.cpp:349-459, collectDerivedIndices: what each
    occurrence of the derivative operator does, given the variable and the
    indices it finds; the pass runs over the equations in parallel. *)
Definition dm_collect (m : dmap) (uses : list (nat * bset)) : dmap :=
  dm_run m (map (fun u => AddIndices (fst u) (snd u)) uses).
(** DerivativesMaterialization.cpp:474-508, createDerivativeVariables, over the
    variables that newDifferentialVariables lists. [table] is the symbol table,
    and [unique] the name SymbolTable::insert settles on for the derivative of a
    variable. *)
Fixpoint dm_create (unique : list nat -> nat -> nat) (m : dmap) (table vs : list nat) : dmap * list nat :=
  match vs with
  | [] => (m, table)
  | v :: vs' =>
      match dm_getDerivative m v with
      | Some _ => dm_create unique m table vs'
      | None =>
          let d := unique table v in
          dm_create unique (dm_setDerivative m v d) (d :: table) vs'
      end
  end.
(** DerivativesMaterialization.cpp:196-237, the part of processModelOp that fills the map. *)
Definition dm_materialize (unique : list nat -> nat -> nat) (m : dmap) (table : list nat)
    (uses : list (nat * bset)) (order : list nat) : dmap * list nat :=
  dm_create unique (dm_collect m uses) table order.

(** Pantelides.cpp:205-262, differentiateVariable: the effect on the map, with
    [rank] the rank of the variable. *)
Definition dm_differentiate (unique : list nat -> nat -> nat) (m : dmap) (table : list nat)
    (v rank : nat) (s : bset) : dmap * list nat :=
  match dm_getDerivative m v with
  | Some _ => ((if rank =? 0 then m else dm_addDerivedIndices m v s), table)
  | None =>
      let d := unique table v in
      (dm_setDerivedIndices (dm_setDerivative m v d) v (if rank =? 0 then [] else s), d :: table)
  end.
