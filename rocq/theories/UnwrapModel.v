(** Functions moved out of their packages, and their names.

    Models:
      /repo/lib/Dialect/BaseModelica/Transforms/FunctionUnwrap.cpp:30-137
      /repo/lib/Dialect/BaseModelica/Transforms/FunctionMangling.cpp:21-41
      /repo/lib/Dialect/BaseModelica/IR/Ops.cpp:10419-10428 (shouldBeInlined),
        10927-10932 (CallOp::build)
    FrontendActions.cpp:874-875 runs the two passes one after the other, before
    the calls for each element of an array are turned into loops (1018).

    Simplifications: a function is known by the path of names that leads to it;
    of its body only the calls are kept, of types only the number of dimensions
    of a result, of the attributes only inline.  The functions are converted in
    the order of a list.  SymbolTable::insert (MLIR) is modelled by its code: it
    keeps a free name and otherwise appends "_" and a counter until the name is
    free.  The symbol table is taken to exist before the new functions, which
    is so as soon as there is a call. *)

From Coq Require Import List Arith Bool String DecimalString.
Import ListNotations.
Local Open Scope nat_scope.

(** A call: the path of the function, and the number of dimensions of its
    result.  When that exceeds the one of the function, the function is called
    for each element. *)
Record call := mkCall { c_callee : list string; c_rank : nat }.
Record func := mkFunc { f_path : list string; f_inline : bool; f_rank : nat; f_calls : list call }.
(** [p_others]: the names of the models, packages and records at the top;
    [p_calls]: the calls outside of functions. *)
Record program := mkProg { p_funcs : list func; p_others : list string; p_calls : list call }.

(** FunctionUnwrap.cpp:110-113: only functions inside other classes are moved. *)
Definition nested (p : list string) : bool := match p with _ :: _ :: _ => true | _ => false end.

(** FunctionUnwrap.cpp:37-59: the names from the outermost class, joined. *)
Fixpoint join (p : list string) : string :=
  match p with
  | [] => ""
  | [n] => n
  | n :: p' => n ++ "_" ++ join p'
  end%string.

Definition decimal (n : nat) : string := NilEmpty.string_of_uint (Nat.to_uint n).
Definition mem (n : string) (l : list string) : bool := existsb (String.eqb n) l.

(** SymbolTable::insert: the name, and the next counter. *)
Fixpoint fresh (fuel : nat) (name : string) (counter : nat) (table : list string) : option (string * nat) :=
  match fuel with
  | 0 => None
  | S fuel' =>
      let candidate := (name ++ "_" ++ decimal counter)%string in
      if mem candidate table then fresh fuel' name (S counter) table else Some (candidate, S counter)
  end.
Definition insert_name (name : string) (counter : nat) (table : list string) : option (string * nat) :=
  if mem name table then fresh (S (List.length table)) name counter table else Some (name, counter).

(** FunctionUnwrap.cpp:61-69: the names of the functions, in order. *)
Fixpoint new_names (counter : nat) (table : list string) (fs : list func) : option (list string) :=
  match fs with
  | [] => Some []
  | f :: fs' =>
      if nested (f_path f) then
        match insert_name (join (f_path f)) counter table with
        | None => None
        | Some (n, counter') => option_map (cons n) (new_names counter' (n :: table) fs')
        end
      else option_map (cons (hd ""%string (f_path f))) (new_names counter table fs')
  end.

(** The symbols at the top of the module before the pass. *)
Definition top_names (p : program) : list string :=
  map (fun f => hd ""%string (f_path f)) (filter (fun f => negb (nested (f_path f))) (p_funcs p)) ++ p_others p.

Definition path_eqb (a b : list string) : bool := if list_eq_dec string_dec a b then true else false.
Fixpoint find_func (path : list string) (l : list (func * string)) : option (func * string) :=
  match l with
  | [] => None
  | (f, n) :: l' => if path_eqb (f_path f) path then Some (f, n) else find_func path l'
  end.

(** FunctionUnwrap.cpp:71-77: the calls of a function that is moved are built
    again, with the results of the function. *)
Definition unwrap_call (l : list (func * string)) (c : call) : call :=
  match find_func (c_callee c) l with
  | Some (f, n) => if nested (f_path f) then mkCall [n] (f_rank f) else c
  | None => c
  end.
(** FunctionUnwrap.cpp:61-65: the new function has a name and the old body. *)
Definition unwrap_func (l : list (func * string)) (fn : func * string) : func :=
  let (f, n) := fn in
  if nested (f_path f) then mkFunc [n] false (f_rank f) (map (unwrap_call l) (f_calls f))
  else mkFunc (f_path f) (f_inline f) (f_rank f) (map (unwrap_call l) (f_calls f)).
Definition unwrap (p : program) : option program :=
  match new_names 0 (top_names p) (p_funcs p) with
  | None => None
  | Some ns =>
      let l := combine (p_funcs p) ns in
      Some (mkProg (map (unwrap_func l) l) (p_others p) (map (unwrap_call l) (p_calls p)))
  end.

(** FunctionMangling.cpp:21-27. *)
Definition mangled (n : string) : string := ("_M" ++ n)%string.
Definition mangle_ref (p : list string) : list string :=
  match p with [] => [] | n :: p' => mangled n :: p' end.
(** The own name of a function is the last of its path. *)
Fixpoint mangle_path (p : list string) : list string :=
  match p with [] => [] | [n] => [mangled n] | n :: p' => n :: mangle_path p' end.
(** FunctionMangling.cpp:30-41. *)
Definition mangle_call (c : call) : call := mkCall (mangle_ref (c_callee c)) (c_rank c).
Definition mangle (p : program) : program :=
  mkProg (map (fun f => mkFunc (mangle_path (f_path f)) (f_inline f) (f_rank f) (map mangle_call (f_calls f))) (p_funcs p))
    (p_others p) (map mangle_call (p_calls p)).

(** FrontendActions.cpp:874-875. *)
Definition passes (p : program) : option program := option_map mangle (unwrap p).
