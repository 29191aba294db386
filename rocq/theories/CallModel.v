(** * Arguments and default values of functions

    Models [lib/Codegen/Lowering/CallLowerer.cpp] (custom functions),
    [lib/Dialect/BaseModelica/IR/{VariablesDependencyGraph,
    DefaultValuesDependencyGraph}.cpp] and
    [lib/Dialect/BaseModelica/Transforms/FunctionDefaultValuesConversion.cpp].

    Simplifications.  Names are numbers, and variables hold integers.  An
    expression is a tree of binary operators over literals and variables
    (operations on values and their sharing play no part here); the operators
    are interpreted by the theorems.  Types, records, derivative functions and
    calls without a function of this kind are left out.  An algorithm is the
    sequence of its assignments: how statements run is in [StmtModel.v]. *)
From Coq Require Import ZArith List Bool Arith.
From Verif Require Import Result AccessModel WritesMapModel SchedModel.
Import ListNotations.
Local Open Scope nat_scope.

Inductive cexp : Type :=
| CNum (z : Z)
| CGet (x : nat)
| CBin (o : nat) (a b : cexp).

(** [VariableGetOp]s in the order of a walk
    (DefaultValuesDependencyGraph.cpp:16-21). *)
Fixpoint gets (e : cexp) : list nat :=
  match e with
  | CNum _ => []
  | CGet x => [x]
  | CBin _ a b => gets a ++ gets b
  end.

(** [IOProperty] of a variable (Enums.td; protected is [none]). *)
Inductive io := IOInput | IOOutput | IONone.

(** A function: its variables in the order of declaration, its [DefaultOp]s,
    and its [AlgorithmOp]s. *)
Record cfun := { f_vars : list (nat * io);
                 f_defaults : list (nat * cexp);
                 f_algs : list (list (nat * cexp)) }.

Definition is_input (v : nat * io) : bool := match snd v with IOInput => true | _ => false end.

(** CallLowerer.cpp:151-159 (getCustomFunctionInputVariables),
    FunctionDefaultValuesConversion.cpp:137-143, Ops.cpp:10990-10997. *)
Definition inputs (f : cfun) : list nat := map fst (filter is_input (f_vars f)).

(** A map filled in the order of the operations, where the last one wins
    (FunctionDefaultValuesConversion.cpp:146-150 and 271-275). *)
Definition default_op (f : cfun) (x : nat) : option cexp := map_find x (rev (f_defaults f)).

(** A [CallOp]: the arguments and their names, if any. *)
Record ccall := { c_args : list cexp; c_names : option (list nat) }.

(** CallLowerer.cpp:182-247, lowerCustomFunctionArgs: the arguments by position,
    then those by name (the parser accepts no others).  The names of the first
    are looked up only if there is one by name, past the end of the list of the
    inputs if there are too many. *)
Fixpoint input_names (ins : list nat) (pos : list cexp) : res (list nat) :=
  match pos with
  | [] => Ok []
  | _ :: pos' =>
      match ins with
      | [] => Bad
      | x :: ins' => l <- input_names ins' pos' ;; Ok (x :: l)
      end
  end.
Definition lower_args (f : cfun) (pos : list cexp) (named : list (nat * cexp)) : res (list cexp * list nat) :=
  match named with
  | [] => Ok (pos, [])
  | _ :: _ =>
      l <- input_names (inputs f) pos ;;
      Ok (pos ++ map snd named, l ++ map fst named)
  end.

(** CallLowerer.cpp:22-75: names are an assertion failure (line 41), and a number
    of arguments that is not that of the inputs is reported ([None],
    lines 51-56). *)
Definition lower_call (f : cfun) (pos : list cexp) (named : list (nat * cexp)) : res (option ccall) :=
  al <- lower_args f pos named ;;
  _ <- assert_ok (match snd al with [] => true | _ :: _ => false end) ;;
  if Nat.eqb (length (fst al)) (length (inputs f))
  then Ok (Some {| c_args := fst al; c_names := None |})
  else Ok None.

(** Ops.cpp:10960-11056, verifySymbolUses for a [FunctionOp]. *)
Definition has_default (f : cfun) (x : nat) : bool := has_key x (f_defaults f).
Fixpoint all_different (l : list nat) : bool :=
  match l with
  | [] => true
  | x :: l' => negb (existsb (Nat.eqb x) l') && all_different l'
  end.
Definition verify_call (f : cfun) (c : ccall) : bool :=
  match c_names c with
  | Some names =>
      Nat.eqb (length names) (length (c_args c)) &&
      forallb (fun x => existsb (Nat.eqb x) (inputs f)) names &&
      all_different names &&
      forallb (fun x => has_default f x || existsb (Nat.eqb x) names) (inputs f)
  | None =>
      Nat.leb (length (c_args c)) (length (inputs f)) &&
      forallb (has_default f) (skipn (length (c_args c)) (inputs f))
  end.

(** ** The dependency graph of the variables *)

(** [std::set<Node>] (VariablesDependencyGraph.h:78) is ordered by the addresses
    of the variables (VariablesDependencyGraph.cpp:24-34); [addr] gives the
    address of each variable. *)
Fixpoint insert_by (addr : nat -> nat) (x : nat) (l : list nat) : list nat :=
  match l with
  | [] => [x]
  | y :: l' => if Nat.leb (addr x) (addr y) then x :: l else y :: insert_by addr x l'
  end.
Definition sort_by (addr : nat -> nat) (l : list nat) : list nat := fold_right (insert_by addr) [] l.

(** The place of a variable in a list. *)
Fixpoint place (x : nat) (l : list nat) : option nat :=
  match l with
  | [] => None
  | y :: l' => if Nat.eqb x y then Some 0 else option_map S (place x l')
  end.

(** DefaultValuesDependencyGraph.cpp:8-27, getDependencies: the names without
    repetitions. *)
Definition dependencies (dops : nat -> option cexp) (x : nat) : list nat :=
  match dops x with
  | Some d => nodup Nat.eq_dec (gets d)
  | None => []
  end.

(** VariablesDependencyGraph.cpp:46-74, addVariables and discoverDependencies,
    and :126-139, postOrder (the assertion that there are no cycles is left
    out).  A vertex is the place of its variable by increasing address, so that
    the children of a vertex and those of the entry node are in increasing
    order.  A dependency that is not among the variables is the node of an empty
    entry of [nodesByName], whose graph is a null pointer; the visit
    dereferences it (VariablesDependencyGraph.h:122-128). *)
Definition children (sorted : list nat) (dops : nat -> option cexp) (x : nat) : res (list nat) :=
  map_res (fun y => of_option (place y sorted)) (dependencies dops x).
Definition graph_order (addr : nat -> nat) (vars : list nat) (dops : nat -> option cexp) : res (list nat) :=
  let sorted := sort_by addr vars in
  adj <- map_res (children sorted dops) sorted ;;
  l <- post_order (length sorted) (fun i => sort_by (fun k => k) (nth i adj [])) ;;
  Ok (map (fun i => nth i sorted 0) l).

(** ** Missing arguments *)

(** FunctionDefaultValuesConversion.cpp:83-102, hasMissingArgs. *)
Definition has_missing_args (f : cfun) (c : ccall) : bool :=
  negb (Nat.eqb (length (c_args c)) (length (inputs f))).

(** FunctionDefaultValuesConversion.cpp:104-126, cloneDefaultOpBody: the value
    of a variable is that of its entry in the map; an entry that is not there
    violates the assertion at line 118. *)
Fixpoint clone_default (vars : list (nat * cexp)) (d : cexp) : res cexp :=
  match d with
  | CNum z => Ok (CNum z)
  | CGet x => of_option (map_find x vars)
  | CBin o a b =>
      a' <- clone_default vars a ;;
      b' <- clone_default vars b ;;
      Ok (CBin o a' b')
  end.

(** FunctionDefaultValuesConversion.cpp:164-174 and 190-202: one variable of the
    order; the default value of a variable that has none is a null operation. *)
Definition fill_one (f : cfun) (missing : list (nat * cexp) -> nat -> bool) (vars : list (nat * cexp)) (x : nat)
  : res (list (nat * cexp)) :=
  if missing vars x then
    d <- of_option (default_op f x) ;;
    v <- clone_default vars d ;;
    Ok (map_update x v (fun _ => v) vars)
  else Ok vars.

(** FunctionDefaultValuesConversion.cpp:128-219, fillCallArgs; an input without
    a value is a null value (line 209). *)
Definition fill_args (addr : nat -> nat) (f : cfun) (c : ccall) : res (list cexp) :=
  order <- graph_order addr (inputs f) (default_op f) ;;
  vars <- match c_names c with
          | Some names =>
              fold_res (fill_one f (fun vars x => negb (has_key x vars))) order
                (fold_left (fun m a => map_update (fst a) (snd a) (fun _ => snd a) m) (combine names (c_args c)) [])
          | None =>
              fold_res (fill_one f (fun _ x => existsb (Nat.eqb x) (skipn (length (c_args c)) (inputs f)))) order
                (fold_left (fun m a => map_update (fst a) (snd a) (fun _ => snd a) m) (combine (inputs f) (c_args c)) [])
          end ;;
  map_res (fun x => of_option (map_find x vars)) (inputs f).

(** FunctionDefaultValuesConversion.cpp:296-316: only the calls with missing
    arguments are filled; the operands of the others stay as they are. *)
Definition call_args (addr : nat -> nat) (f : cfun) (c : ccall) : res (list cexp) :=
  if has_missing_args f c then fill_args addr f c else Ok (c_args c).

(** BaseModelicaToCF.cpp:177-186 and BaseModelicaToFunc.cpp:305-323: the operands of
    the call are the arguments of the generated function, in the order of the
    inputs. *)
Definition passed (f : cfun) (args : list cexp) (x : nat) : option cexp :=
  map_find x (combine (inputs f) args).

(** ** Defaults of the other variables *)

(** FunctionDefaultValuesConversion.cpp:322-337: the variables that are not
    inputs and have a default, in the order of the [DefaultOp]s (a variable with
    two of them is added twice; here the order is that of the first). *)
Definition is_input_var (f : cfun) (x : nat) : bool := existsb (Nat.eqb x) (inputs f).
Definition local_defaults (f : cfun) : list (nat * cexp) :=
  filter (fun d => negb (is_input_var f (fst d))) (f_defaults f).

(** FunctionDefaultValuesConversion.cpp:318-373,
    convertProtectedAndOutputDefaultValues: the assignments go to the beginning
    of the first algorithm, which is created if there is none. *)
Definition insert_defaults (addr : nat -> nat) (f : cfun) : res (list (list (nat * cexp))) :=
  let ds := local_defaults f in
  let dops := fun x => map_find x (rev ds) in
  order <- graph_order addr (nodup Nat.eq_dec (map fst ds)) dops ;;
  let sets := flat_map (fun x => match dops x with Some d => [(x, d)] | None => [] end) order in
  Ok (match f_algs f with
      | [] => [sets]
      | a :: r => (sets ++ a) :: r
      end).
