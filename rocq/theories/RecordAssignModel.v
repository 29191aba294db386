(** Model of assignments to records and to components of records in functions:
    lib/Codegen/Lowering/AssignmentStatementLowerer.cpp and, in
    lib/Dialect/BaseModelica/Transforms/RecordInlining.cpp, VariableSetOpUnpackPattern,
    VariableComponentSetOpUnpackPattern and replaceVariableComponentSetOp.

    Simplifications: as in RecordRefModel, of the sizes only the ranks are kept and
    subscripts start from zero; the value is known by its rank, its element type and
    the components taken from it. *)
From Coq Require Import List Arith Bool ZArith Lia.
Import ListNotations.
From Verif Require Import RecordRefModel.

(** The value that is assigned: the components taken from the value of the statement
    (ComponentGetOp), its rank (a tensor if not zero) and its element type. *)
Record aval := mkV { v_comps : list nat; v_rank : nat; v_ty : rty }.

(** VariableSetOp on a variable with indices, and VariableComponentSetOp with a root
    variable (its name may already be composed of several), the path after it, the
    subscripts of all the names in one list, and how many each name has. *)
Inductive assign :=
| SetVar (v : nat) (ss : list sub) (x : aval)
| SetComp (root : list nat) (path : list nat) (ss : list sub) (amounts : list nat) (x : aval).

(** lowerAssignmentToComponentReference, AssignmentStatementLowerer.cpp:40-94. *)
Definition lower_assign (ref : list entry) (x : aval) : option assign :=
  match ref with
  | [] => None
  | [(v, ss)] => Some (SetVar v ss x)
  | (v, ss) :: es =>
      Some (SetComp [v] (map fst es) (ss ++ concat (map snd es)) (length ss :: map (fun e => length (snd e)) es) x)
  end.

(** The component [f] of the value (ComponentGetOp with the type of the component's
    declaration, RecordInlining.cpp:241-243, 307-309). *)
Definition comp_value (x : aval) (c : nat * (nat * rty)) : aval :=
  mkV (v_comps x ++ [fst c]) (fst (snd c)) (snd (snd c)).

(** VariableSetOpUnpackPattern (RecordInlining.cpp:219-272) and
    VariableComponentSetOpUnpackPattern (278-352): the assignments that replace one of
    a record; [None] if the pattern does not match. *)
Definition unpack_assign (a : assign) : option (list assign) :=
  match a with
  | SetVar v ss x =>
      match v_ty x with
      | TBase => None
      | TRec fs =>
          Some (map (fun c => SetComp [v] [fst c] (repeat colon (v_rank x)) [v_rank x] (comp_value x c)) fs)
      end
  | SetComp root path ss amounts x =>
      match v_ty x, path with
      | TRec fs, p :: ps =>
          Some (map (fun c => SetComp [p] (ps ++ [fst c]) (ss ++ repeat colon (v_rank x))
                                      (amounts ++ [v_rank x]) (comp_value x c)) fs)
      | _, _ => None
      end
  end.

(** VariableComponentSetOp::getComponentSubscripts, IR/Ops.cpp:1789-1813; [None] if it
    reads past the end. *)
Definition comp_subs (ss : list sub) (amounts : list nat) (k : nat) : option (list sub) :=
  match ss with
  | [] => Some []
  | _ =>
      match nth_error amounts k with
      | None => None
      | Some 0 => Some []
      | Some n =>
          let b := list_sum (firstn k amounts) in
          if b + n <=? length ss then Some (firstn n (skipn b ss)) else None
      end
  end.

(** getFullRankSubscripts, RecordInlining.cpp:817-834. *)
Definition full_rank (rank : nat) (ss : list sub) : list sub := ss ++ repeat colon (rank - length ss).

Fixpoint opt_concat {A} (l : list (option (list A))) : option (list A) :=
  match l with
  | [] => Some []
  | None :: _ => None
  | Some x :: l' => option_map (app x) (opt_concat l')
  end.

(** The subscripts of the root, made full, and of the names after it,
    RecordInlining.cpp:738-747 and 786-795. *)
Definition all_subs (rank : nat) (ss : list sub) (amounts : list nat) (n : nat) : option (list sub) :=
  match comp_subs ss amounts 0 with
  | None => None
  | Some s0 => option_map (app (full_rank rank s0)) (opt_concat (map (comp_subs ss amounts) (seq 1 n)))
  end.

(** replaceVariableComponentSetOp, RecordInlining.cpp:713-815, for each unpacking of
    the root until the path is used up: with the rank and the element type of the root.
    The result is the variable that is set and the subscripts of the
    TensorInsertSliceOp or TensorInsertOp; no subscripts for the whole variable. *)
Fixpoint finish (rank : nat) (t : rty) (root : list nat) (path : list nat) (ss : list sub)
  (amounts : list nat) (x : aval) : option (list nat * list sub) :=
  match path with
  | [] => None
  | f :: path' =>
      match field t f with
      | None => None
      | Some (r, t') =>
          match path' with
          | [] =>
              match ss with
              | [] => Some (root ++ [f], [])
              | _ =>
                  if v_rank x =? 0 then Some (root ++ [f], ss)
                  else option_map (pair (root ++ [f])) (all_subs rank ss amounts 1)
              end
          | _ =>
              match all_subs rank ss amounts (length path) with
              | None => None
              | Some ss' => finish (rank + r) t' (root ++ [f]) path' ss' (rank :: amounts) x
              end
          end
      end
  end.

(** The write of an assignment, with the variables of the function. *)
Definition write (vars : rty) (a : assign) : option (list nat * list sub) :=
  match a with
  | SetVar v ss x => Some ([v], ss)
  | SetComp root path ss amounts x =>
      match root with
      | [v] => match field vars v with
               | Some (r, t) => finish r t [v] path ss amounts x
               | None => None
               end
      | _ => None
      end
  end.
