(** * Inlining of functions

    Models [lib/Dialect/BaseModelica/Transforms/PureFunctionInlining.cpp].

    Simplifications.  Names are numbers.  The operations of a body are the trees of
    the values they compute: a value that is read when an operation runs is the
    tree mapped to the variable at that point, as in [cloneBodyOp].  The statements
    with regions are represented by the [if] without [else].  Which of the calls to
    functions that can be inlined are replaced is left open (the code leaves out
    recursive functions, and the calls copied from bodies).  Types are left out. *)
From Coq Require Import ZArith List Bool Arith.
From Verif Require Import Result AccessModel WritesMapModel.
Import ListNotations.
Local Open Scope nat_scope.

Inductive val : Type := VZ (z : Z) | VL (l : list val).

(** [XIter k] is the value of the [k]-th enclosing iteration; [XReg] is an operation
    with operands and a region, such as a reduction; [XCall f k] is the [k]-th
    result of a call. *)
Inductive expr : Type :=
| XConst (v : val)
| XVar (x : nat)
| XIter (k : nat)
| XOp (o : nat) (l : list expr)
| XReg (o : nat) (l : list expr) (b : expr)
| XCall (f k : nat) (l : list expr).

(** An assignment, with subscripts, to a variable; a conditional; a return. *)
Inductive stmt : Type :=
| SSet (x : nat) (subs : list expr) (e : expr)
| SIf (c : expr) (b : list stmt)
| SReturn.

(** The variables of a function with their default values, in declaration order. *)
Record func := { f_inline : bool;
                 f_inputs : list (nat * option expr);
                 f_outputs : list (nat * option expr);
                 f_protected : list (nat * option expr);
                 f_algorithms : list (list stmt) }.

(** PureFunctionInlining.cpp:255-267: an assignment inside the regions of a
    statement. *)
Fixpoint has_set (s : stmt) : bool :=
  match s with
  | SSet _ _ _ => true
  | SIf _ b => (fix any (b : list stmt) := match b with [] => false | s :: b' => has_set s || any b' end) b
  | SReturn => false
  end.

(** PureFunctionInlining.cpp:229-270, canBeInlined. *)
Definition can_inline (f : func) : bool :=
  f_inline f && Nat.eqb (length (f_algorithms f)) 1 &&
  forallb (fun s => match s with SSet _ _ _ => true | _ => negb (has_set s) end) (concat (f_algorithms f)).

(** The mapping from names to values, a string map. *)
Definition vmap := list (nat * expr).
Definition vget (vm : vmap) (x : nat) : option expr := option_map snd (find (fun p => Nat.eqb (fst p) x) vm).
Definition vset (vm : vmap) (x : nat) (e : expr) : vmap := (x, e) :: vm.

(** PureFunctionInlining.cpp:692-710: reads are replaced by the mapped values, a
    missing one being a null value; the operands of an operation are mapped and
    what is in its region is copied as it is. *)
Fixpoint remap (vm : vmap) (e : expr) : res expr :=
  match e with
  | XConst v => Ok (XConst v)
  | XVar x => of_option (vget vm x)
  | XIter k => Ok (XIter k)
  | XOp o l =>
      l' <- (fix go (l : list expr) : res (list expr) :=
               match l with [] => Ok [] | a :: l' => a' <- remap vm a ;; r <- go l' ;; Ok (a' :: r) end) l ;;
      Ok (XOp o l')
  | XReg o l b =>
      l' <- (fix go (l : list expr) : res (list expr) :=
               match l with [] => Ok [] | a :: l' => a' <- remap vm a ;; r <- go l' ;; Ok (a' :: r) end) l ;;
      Ok (XReg o l' b)
  | XCall f k l =>
      l' <- (fix go (l : list expr) : res (list expr) :=
               match l with [] => Ok [] | a :: l' => a' <- remap vm a ;; r <- go l' ;; Ok (a' :: r) end) l ;;
      Ok (XCall f k l')
  end.

(** Lines 701-706: the subscripts of an assignment are not looked at.  The other
    statements are copied to the caller. *)
Definition clone_stmt (st : vmap * list stmt) (s : stmt) : res (vmap * list stmt) :=
  match s with
  | SSet x _ e => e' <- remap (fst st) e ;; Ok (vset (fst st) x e', snd st)
  | _ => Ok (fst st, snd st ++ [s])
  end.

(** Lines 735-755: the default values of the inputs are copied as they are. *)
Definition map_defaults (f : func) : vmap :=
  fold_left (fun vm p => match snd p with Some d => vset vm (fst p) d | None => vm end) (f_inputs f) [].
(** Lines 757-771. *)
Fixpoint map_args (vm : vmap) (ins : list (nat * option expr)) (args : list expr) : res vmap :=
  match args, ins with
  | [], _ => Ok vm
  | a :: args', (x, _) :: ins' => map_args (vset vm x a) ins' args'
  | _ :: _, [] => Bad
  end.

(** Lines 713-802, inlineFunction: the value of the [k]-th result, and the
    statements that are copied to the caller. *)
Definition inline_call (f : func) (k : nat) (args : list expr) : res (expr * list stmt) :=
  vm <- map_args (map_defaults f) (f_inputs f) args ;;
  _ <- assert_ok (forallb (fun p => match vget vm (fst p) with Some _ => true | None => false end) (f_inputs f)) ;;
  st <- fold_res clone_stmt (concat (f_algorithms f)) (vm, []) ;;
  o <- of_option (nth_error (f_outputs f) k) ;;
  e <- of_option (vget (fst st) (fst o)) ;;
  Ok (e, snd st).
