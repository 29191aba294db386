(** Slices of arrays: from the subscripts of the source to the elements read
    and written.

    Models:
      /repo/lib/Codegen/Lowering/SubscriptLowerer.cpp:10-43
      /repo/lib/Dialect/BaseModelica/Transforms/RangeBoundariesInference.cpp:15-139
      /repo/lib/Dialect/BaseModelica/IR/Ops.cpp:538-572, 584-651, 657-748
      /repo/lib/Dialect/BaseModelica/Transforms/ViewAccessFolding.cpp:25-143
      /repo/lib/Codegen/Conversion/BaseModelicaToTensor/BaseModelicaToTensor.cpp:94-185,
        264-369

    Simplifications: integers are unbounded (the size of ranges is C46's
    subject); ranges are ranges of integers; sizes of dimensions are the sizes
    at run time. *)

From Coq Require Import List ZArith Bool Lia.
Import ListNotations.
Local Open Scope Z_scope.

(** A subscript of the source and of a TensorViewOp: an index, a range
    [b:s:e], the colon, or an array of indices. *)
Inductive sub :=
| At (i : Z)
| Rng (b e s : Z)
| All
| Arr (l : list Z).

Record tensor (V : Type) := mkT { t_dims : list Z; t_at : list Z -> V }.
Arguments mkT {V} _ _.
Arguments t_dims {V} _.
Arguments t_at {V} _ _.

(** SubscriptLowerer.cpp:10-43: one is taken from indices and ranges (AddOp on
    a range moves both ends, Ops.cpp:2512-2523).  [None]: an array of indices
    plus an index has no result of index type. *)
Definition lower_sub (s : sub) : option sub :=
  match s with
  | At i => Some (At (i + -1))
  | Rng b e st => Some (Rng (b + -1) (e + -1) st)
  | All => Some All
  | Arr _ => None
  end.

Fixpoint lower_subs (ss : list sub) : option (list sub) :=
  match ss with
  | [] => Some []
  | s :: ss' =>
      match lower_sub s, lower_subs ss' with
      | Some x, Some xs => Some (x :: xs)
      | _, _ => None
      end
  end.

(** RangeBoundariesInference.cpp:30-66, 94-130: the colon at position [i]
    becomes [0 : 1 : dim i - 1]. *)
Fixpoint infer_bounds (dims : list Z) (ss : list sub) : list sub :=
  match ss with
  | [] => []
  | s :: ss' =>
      match s with
      | All => Rng 0 (hd 0 dims + -1) 1
      | _ => s
      end :: infer_bounds (tl dims) ss'
  end.

(** RangeSizeOp, see SubscriptModel.v: division truncates. *)
Definition range_size (b e s : Z) : Z := (e - b) ÷ s + 1.

(** One dimension of a tensor.extract_slice or tensor.insert_slice: the
    offset, the size, the stride, and whether the dimension is one of the
    slice. *)
Record part := mkP { p_off : Z; p_size : Z; p_stride : Z; p_kept : bool }.

(** BaseModelicaToTensor.cpp:108-163.  [None]: a subscript that is neither an
    index nor a range, or more subscripts than dimensions. *)
Fixpoint view_parts (dims : list Z) (ss : list sub) : option (list part) :=
  match ss, dims with
  | [], _ => Some (map (fun d => mkP 0 d 1 true) dims)
  | _ :: _, [] => None
  | s :: ss', _ :: dims' =>
      match (match s with
             | At i => Some (mkP i 1 1 false)
             | Rng b e st => Some (mkP b (range_size b e st) st true)
             | _ => None
             end), view_parts dims' ss' with
      | Some p, Some ps => Some (p :: ps)
      | _, _ => None
      end
  end.

(** The semantics of tensor.extract_slice and tensor.insert_slice: index [j]
    of the slice is index [offset + j * stride] of the array; dimensions that
    are not kept have one element. *)
Fixpoint locate (ps : list part) (j : list Z) : list Z :=
  match ps with
  | [] => []
  | p :: ps' =>
      if p_kept p
      then p_off p + hd 0 j * p_stride p :: locate ps' (tl j)
      else p_off p :: locate ps' j
  end.

Definition kept_sizes (ps : list part) : list Z :=
  map p_size (filter p_kept ps).

Section Values.
Context {V : Type}.

(** TensorViewOp: BaseModelicaToTensor.cpp:94-185. *)
Definition view (ss : list sub) (t : tensor V) : option (tensor V) :=
  match view_parts (t_dims t) ss with
  | Some ps => Some (mkT (kept_sizes ps) (fun j => t_at t (locate ps j)))
  | None => None
  end.

(** A view of a view of ...: the first list is that of the view next to the
    source. *)
Fixpoint views (chain : list (list sub)) (t : tensor V) : option (tensor V) :=
  match chain with
  | [] => Some t
  | ss :: chain' =>
      match view ss t with
      | Some t' => views chain' t'
      | None => None
      end
  end.

Definition is_index (s : sub) : option Z :=
  match s with At i => Some i | _ => None end.

Fixpoint indices (ss : list sub) : option (list Z) :=
  match ss with
  | [] => Some []
  | s :: ss' =>
      match is_index s, indices ss' with
      | Some i, Some is => Some (i :: is)
      | _, _ => None
      end
  end.

(** TensorExtractOp: as many indices as dimensions, all scalars:
    Ops.cpp:689-741 (the check of constant indices against the sizes is
    left out). *)
Definition extract (ss : list sub) (t : tensor V) : option V :=
  if (length ss =? length (t_dims t))%nat
  then match indices ss with
       | Some i => Some (t_at t i)
       | None => None
       end
  else None.

End Values.

(** MergeTensorViewsPattern, Ops.cpp:538-572: the subscripts of the views one
    after another. [chain] has at least two views. *)
Definition merge_views (chain : list (list sub)) : list sub := concat chain.

(** MergeTensorViewIntoTensorExtractPattern, Ops.cpp:657-686. *)
Definition merge_extract (chain : list (list sub)) (idx : list sub) : list sub :=
  concat chain ++ idx.

(** concatSubscripts, ViewAccessFolding.cpp:32-72.  [None]: failure.
    [Some None]: an access to [secondSubscripts] out of its bounds.  The
    second subscripts are indices, as for a TensorExtractOp. *)
Definition is_array (s : sub) : bool :=
  match s with Arr _ => true | _ => false end.

Fixpoint concat_loop (first : list sub) (second : list Z) : option (list sub) :=
  match first with
  | [] => Some (map At second)
  | Rng b e st :: first' =>
      match second with
      | [] => None
      | j :: second' => option_map (cons (At (j * st + b))) (concat_loop first' second')
      end
  | s :: first' => option_map (cons s) (concat_loop first' second)
  end.

Definition concatSubscripts (first : list sub) (second : list Z)
  : option (option (list sub)) :=
  if existsb is_array first then None else Some (concat_loop first second).

(** isSlicingSubscription, ViewAccessFolding.cpp:25-30.  The rank of the result
    is that of the source without the indices, Ops.cpp:616-650. *)
Definition is_slicing (rank : nat) (ss : list sub) : bool :=
  let dropped := length (filter (fun s => match s with Rng _ _ _ => false | _ => true end) ss) in
  negb (rank + length ss =? rank - dropped)%nat.

(** TensorExtractOpPattern, applied until there is no view left:
    ViewAccessFolding.cpp:109-143, 146-160.  [rev_chain] has the view next to
    the extraction first, each with the rank of its source. *)
Fixpoint fold_extract (rev_chain : list (nat * list sub)) (idx : list Z)
  : list (nat * list sub) * list Z :=
  match rev_chain with
  | [] => ([], idx)
  | (rank, ss) :: rest =>
      if is_slicing rank ss then
        match concatSubscripts ss idx with
        | Some (Some new) =>
            match indices new with
            | Some idx' => fold_extract rest idx'
            | None => (rev_chain, idx)
            end
        | _ => (rev_chain, idx)
        end
      else (rev_chain, idx)
  end.

(** TensorInsertSliceOp: BaseModelicaToTensor.cpp:308-362. The size is that of
    the value in its next dimension; the offset of a range depends on the sign
    of the step. *)
Fixpoint insert_parts (dims : list Z) (ss : list sub) (value : list Z)
  : option (list part) :=
  match dims, ss with
  | [], [] => Some []
  | [], _ :: _ => None
  | _ :: dims', [] =>
      match value with
      | [] => None
      | v :: value' =>
          option_map (cons (mkP 0 v 1 true)) (insert_parts dims' [] value')
      end
  | _ :: dims', Rng b e st :: ss' =>
      match value with
      | [] => None
      | v :: value' =>
          option_map (cons (mkP (if 0 <=? st then b else e) v st true))
                     (insert_parts dims' ss' value')
      end
  | _ :: dims', At i :: ss' =>
      option_map (cons (mkP i 1 1 false)) (insert_parts dims' ss' value)
  | _ :: _, _ :: _ => None
  end.
