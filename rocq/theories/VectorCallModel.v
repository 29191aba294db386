(** Calling a function with arrays where it declares scalars, or arrays with
    more dimensions than it declares.

    Models:
      /repo/lib/Codegen/Lowering/CallLowerer.cpp:20-77, 431-515
      /repo/lib/Dialect/BaseModelica/Transforms/FunctionScalarization.cpp:26-102,
        252-421
      /repo/lib/Dialect/BaseModelica/Transforms/VectorizableOpInterfaceImpl.cpp:8-66
      /repo/lib/Codegen/Conversion/BaseModelicaToFunc/BaseModelicaToFunc.cpp:305-323

    Simplifications: a function has one result (the pass handles several in
    the same way, Modelica allows one); element types and the casts between
    them are left out; the function is a total function of its arguments. *)

From Coq Require Import List Arith Bool Lia.
Import ListNotations.

(** A static shape: the sizes in a tensor type, [None] for
    [mlir::ShapedType::kDynamic].  A scalar has the shape []. *)
Definition sshape := list (option nat).

(** A value at run time: its sizes and its elements. *)
Record tensor (V : Type) := mkT { t_dims : list nat; t_at : list nat -> V }.
Arguments mkT {V} _ _.
Arguments t_dims {V} _.
Arguments t_at {V} _ _.

(** A function: the ranks of its arguments, the static shape of its result
    and what it computes.
    FunctionOp's type, CallLowerer.cpp:348-429. *)
Record callee (V : Type) := mkF {
  f_ranks : list nat;
  f_shape : sshape;
  f_body : list (tensor V) -> tensor V }.
Arguments mkF {V} _ _ _.
Arguments f_ranks {V} _.
Arguments f_shape {V} _.
Arguments f_body {V} _ _.

(** How a call ends: refused by the compiler, undefined behaviour at run time
    (an access out of an array, a copy between arrays of other sizes, reading
    a size that is not there), or a result. The elements of the result that
    nothing wrote are [None]. *)
Inductive outcome (V : Type) :=
| Refused
| Undefined
| Done (r : tensor (option V)).
Arguments Refused {V}.
Arguments Undefined {V}.
Arguments Done {V} _.

Definition getDim (s : sshape) (i : nat) : option nat := nth i s None.

(** The loop over the dimensions of an argument after the first one:
    CallLowerer.cpp:468-491 and, with the same text,
    FunctionScalarization.cpp:75-99. [i] is the position of the first of
    [dims]. *)
Fixpoint specialize (dims : sshape) (arg : sshape) (i : nat) : option sshape :=
  match dims with
  | [] => Some []
  | d :: ds =>
      match specialize ds arg (S i) with
      | None => None
      | Some ds' =>
          match getDim arg i, d with
          | None, _ => Some (d :: ds')
          | Some n, None => Some (Some n :: ds')
          | Some n, Some m => if m =? n then Some (Some m :: ds') else None
          end
      end
  end.

(** The dimensions the first argument gives in the lowering:
    CallLowerer.cpp:451-458.  Nothing is pushed when the argument has fewer
    dimensions than declared. *)
Definition first_lower (arg : sshape) (rank : nat) : sshape :=
  map (fun i => getDim arg i) (seq 0 (length arg - rank)).

(** The later arguments in the lowering: CallLowerer.cpp:459-492. *)
Fixpoint rest_lower (dims : sshape) (args : list sshape) (ranks : list nat)
  : option sshape :=
  match args, ranks with
  | arg :: args', rank :: ranks' =>
      if length arg =? rank + length dims then
        match specialize dims arg 0 with
        | Some dims' => rest_lower dims' args' ranks'
        | None => None
        end
      else None
  | _, _ => Some dims
  end.

(** The type of a call: CallLowerer.cpp:51-61, 431-515.  [None] when the
    lowering stops. *)
Definition lower_type (args : list sshape) (ranks : list nat) (result : sshape)
  : option sshape :=
  if length args =? length ranks then
    match args, ranks with
    | arg :: args', rank :: ranks' =>
        match rest_lower (first_lower arg rank) args' ranks' with
        | Some dims => Some (dims ++ result)
        | None => None
        end
    | _, _ => Some result
    end
  else None.

(** The dimensions the first argument gives in the pass:
    FunctionScalarization.cpp:56-66.  The size is read at the index of the
    argument, that is 0, for every dimension. *)
Definition first_pass (arg : sshape) (rank : nat) : sshape :=
  map (fun _ => getDim arg 0) (seq 0 (length arg - rank)).

(** The later arguments in the pass: FunctionScalarization.cpp:36-55, 67-99.
    [None] stands for [return 0]. *)
Fixpoint rest_pass (dims : sshape) (args : list sshape) (ranks : list nat)
  : option sshape :=
  match args, ranks with
  | arg :: args', rank :: ranks' =>
      if length arg <=? rank then None
      else if length arg =? rank + length dims then
        match specialize dims arg 0 with
        | Some dims' => rest_pass dims' args' ranks'
        | None => None
        end
      else None
  | _, _ => Some dims
  end.

(** getVectorizationRank: FunctionScalarization.cpp:26-102. *)
Definition vec_rank (args : list sshape) (ranks : list nat) : nat :=
  match args, ranks with
  | arg :: args', rank :: ranks' =>
      if length arg <=? rank then 0
      else match rest_pass (first_pass arg rank) args' ranks' with
           | Some dims => length dims
           | None => 0
           end
  | _, _ => 0
  end.

Section Run.
Context {V : Type}.

(** Inside the bounds of an array. *)
Fixpoint inside (idx dims : list nat) : bool :=
  match idx, dims with
  | [], _ => true
  | i :: idx', d :: dims' => (i <? d) && inside idx' dims'
  | _ :: _, [] => false
  end.

(** TensorExtractOp and TensorViewOp with the loop indices:
    FunctionScalarization.cpp:349-359.  [None]: out of bounds. *)
Definition slice (idx : list nat) (t : tensor V) : option (tensor V) :=
  if inside idx (t_dims t)
  then Some (mkT (skipn (length idx) (t_dims t)) (fun j => t_at t (idx ++ j)))
  else None.

Fixpoint slices (idx : list nat) (ts : list (tensor V))
  : option (list (tensor V)) :=
  match ts with
  | [] => Some []
  | t :: ts' =>
      match slice idx t, slices idx ts' with
      | Some s, Some ss => Some (s :: ss)
      | _, _ => None
      end
  end.

(** The sizes of the result array: FunctionScalarization.cpp:274-300.  A
    dynamic size is the size of the first argument at the same position. *)
Fixpoint alloc_dims (shape : sshape) (arg0 : list nat) (i : nat)
  : option (list nat) :=
  match shape with
  | [] => Some []
  | s :: shape' =>
      match (match s with Some n => Some n | None => nth_error arg0 i end),
            alloc_dims shape' arg0 (S i) with
      | Some d, Some ds => Some (d :: ds)
      | _, _ => None
      end
  end.

(** All indices of the loop nest, the first loop outermost:
    FunctionScalarization.cpp:307-329. *)
Fixpoint nest (bounds : list nat) : list (list nat) :=
  match bounds with
  | [] => [[]]
  | b :: bs => flat_map (fun i => map (cons i) (nest bs)) (seq 0 b)
  end.

Definition idx_eqb (a b : list nat) : bool :=
  if list_eq_dec Nat.eq_dec a b then true else false.

(** StoreOp at the loop indices, or ArrayCopyOp into the part of the result
    at the loop indices: FunctionScalarization.cpp:370-398. *)
Definition put (idx : list nat) (r : tensor V) (buf : list nat -> option V)
  : list nat -> option V :=
  fun p => if idx_eqb (firstn (length idx) p) idx
           then Some (t_at r (skipn (length idx) p)) else buf p.

(** The loop body: FunctionScalarization.cpp:331-398. *)
Definition body (f : callee V) (args : list (tensor V)) (alloc : list nat)
  (idx : list nat) (buf : list nat -> option V)
  : option (list nat -> option V) :=
  match slices idx args with
  | None => None
  | Some ss =>
      let r := f_body f ss in
      if inside idx alloc
         && idx_eqb (t_dims r) (skipn (length idx) alloc)
      then Some (put idx r buf) else None
  end.

Fixpoint loop (f : callee V) (args : list (tensor V)) (alloc : list nat)
  (todo : list (list nat)) (buf : list nat -> option V)
  : option (list nat -> option V) :=
  match todo with
  | [] => Some buf
  | idx :: todo' =>
      match body f args alloc idx buf with
      | Some buf' => loop f args alloc todo' buf'
      | None => None
      end
  end.

(** The bounds of the loops: the sizes of the first argument,
    FunctionScalarization.cpp:310-316. *)
Definition bounds (n : nat) (arg0 : list nat) : option (list nat) :=
  if n <=? length arg0 then Some (firstn n arg0) else None.

(** ScalarizationPattern: FunctionScalarization.cpp:252-421. *)
Definition scalarize (f : callee V) (n : nat) (result : sshape)
  (args : list (tensor V)) : outcome V :=
  match args with
  | [] => Refused
  | arg0 :: _ =>
      match alloc_dims result (t_dims arg0) 0, bounds n (t_dims arg0) with
      | Some alloc, Some bs =>
          match loop f args alloc (nest bs) (fun _ => None) with
          | Some buf => Done (mkT alloc buf)
          | None => Undefined
          end
      | _, _ => Undefined
      end
  end.

(** A call that is left as it is becomes a func.call, whose verifier wants
    arguments of the declared ranks and a result of the declared shape:
    BaseModelicaToFunc.cpp:305-323.  The sizes are left out (they are dynamic
    or cast). *)
Definition direct (f : callee V) (types : list sshape) (result : sshape)
  (args : list (tensor V)) : outcome V :=
  if idx_eqb (map (@length _) types) (f_ranks f)
     && (length result =? length (f_shape f))
  then let r := f_body f args in
       Done (mkT (t_dims r) (fun j => Some (t_at r j)))
  else Refused.

(** A call from the source to its result: the lowering gives it a type, the
    pass scalarizes it if its rank is not zero. [types] are the static types
    of the arguments.  FunctionScalarization.cpp:440-478. *)
Definition call (f : callee V) (types : list sshape) (args : list (tensor V))
  : outcome V :=
  match lower_type types (f_ranks f) (f_shape f) with
  | None => Refused
  | Some result =>
      match vec_rank types (f_ranks f) with
      | 0 => direct f types result args
      | n => scalarize f n result args
      end
  end.

End Run.
