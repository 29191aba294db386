(** Array constructors and the functions fill, size and ndims.

    Models:
      /repo/lib/Codegen/Lowering/ArrayGeneratorLowerer.cpp:11-232
      /repo/lib/Codegen/Lowering/CallLowerer.cpp:1205-1249 (fill), 1626-1649
        (ndims), 1863-1903 (size)
      /repo/lib/Codegen/Conversion/BaseModelicaToTensor/BaseModelicaToTensor.cpp:38-92,
        371-493

    tensor.from_elements is modelled by its documented meaning: the values are
    the elements in row-major order, and their number must be that of the
    elements; tensor.splat has the same value everywhere.

    Simplifications: the bounds of ranges are constants (others trip an
    assertion); the conversion of each value to Real keeps it; an expression
    that is not an array constructor is given by the variables it reads, the
    number of dimensions of its value and its value in an environment. *)

From Coq Require Import List Arith ZArith Bool Lia.
Import ListNotations.

Section Gen.
Context {K : Type}.

Record leaf := mkLeaf { l_vars : list nat; l_rank : nat; l_val : (nat -> K) -> K }.

(** [for x in b:s:e]. *)
Record ind := mkInd { i_var : nat; i_begin : Z; i_step : Z; i_end : Z }.

(** [Cons l]: ArrayConstant, [{a, b, ...}].  [For is b]: ArrayForGenerator,
    [{b for is}]. *)
Inductive aexp :=
| Leaf (l : leaf)
| Cons (l : list aexp)
| For (is_ : list ind) (b : aexp).

(** [computeShape], lines 22-99: of the elements only the first is looked at;
    the last index gives the first size; [None]: the assertion that begin and
    step are one. *)
Fixpoint shape (a : aexp) : option (list Z) :=
  match a with
  | Leaf _ => Some []
  | Cons l =>
      match l with
      | [] => Some [0%Z]
      | c :: _ => option_map (fun s => Z.of_nat (length l) :: s) (shape c)
      end
  | For is_ b =>
      if forallb (fun i => (i_begin i =? 1)%Z && (i_step i =? 1)%Z) is_
      then option_map (fun s => map i_end (rev is_) ++ s) (shape b)
      else None
  end.

(** The number of copies of the body, lines 120-142. *)
Definition copies (is_ : list ind) : nat :=
  Z.to_nat (fold_left (fun n i => (n * i_end i)%Z) is_ 1%Z).

(** How many nodes [lowerValues] takes from its first stack. *)
Fixpoint steps (a : aexp) : nat :=
  match a with
  | Leaf _ => 1
  | Cons l => S (list_sum (map steps l))
  | For is_ b => S (copies is_ * steps b)
  end.

(** The first loop of [lowerValues], lines 103-148: [s1] and [s2] are stacks
    with the top first; the elements of an array are pushed in order. *)
Fixpoint drain (fuel : nat) (s1 : list aexp) (s2 : list leaf) : list leaf :=
  match fuel with
  | 0 => s2
  | S f =>
      match s1 with
      | [] => s2
      | Leaf l :: rest => drain f rest (l :: s2)
      | Cons l :: rest => drain f (rev l ++ rest) s2
      | For is_ b :: rest => drain f (repeat b (copies is_) ++ rest) s2
      end
  end.

(** Lowering an expression in the scope of the array constructor: the indices
    of the constructor are not declared.  [None]: a variable is not. *)
Definition lower_leaf (declared : nat -> bool) (rho : nat -> K) (l : leaf) : option (nat * K) :=
  if forallb declared (l_vars l) then Some (l_rank l, l_val l rho) else None.

Fixpoint all_some {A : Type} (l : list (option A)) : option (list A) :=
  match l with
  | [] => Some []
  | Some x :: l' => option_map (cons x) (all_some l')
  | None :: _ => None
  end.

(** [lowerValues], lines 101-160. *)
Definition lower_values (declared : nat -> bool) (rho : nat -> K) (a : aexp) : option (list (nat * K)) :=
  all_some (map (lower_leaf declared rho) (drain (steps a) [a] [])).

(** A tensor: sizes and elements. *)
Definition tensor : Type := list nat * (list nat -> option K).

Fixpoint row_major (dims idx : list nat) : nat :=
  match dims, idx with
  | _ :: ds, i :: is_ => i * fold_right Nat.mul 1 ds + row_major ds is_
  | _, _ => 0
  end.

(** The sizes of a tensor type; [None]: a negative one. *)
Definition sizes (s : list Z) : option (list nat) :=
  if forallb (fun d => (0 <=? d)%Z) s then Some (map Z.to_nat s) else None.

(** tensor.from_elements: the operands are scalars, and as many as elements. *)
Definition from_elements (s : list Z) (vs : list (nat * K)) : option tensor :=
  match sizes s with
  | None => None
  | Some dims =>
      if forallb (fun v => fst v =? 0) vs && (fold_right Nat.mul 1 dims =? length vs)
      then Some (dims, fun idx => option_map snd (nth_error vs (row_major dims idx)))
      else None
  end.

(** tensor.splat. *)
Definition splat (s : list Z) (v : nat * K) : option tensor :=
  match sizes s with
  | None => None
  | Some dims => if fst v =? 0 then Some (dims, fun _ => Some (snd v)) else None
  end.

(** ArrayGeneratorLowerer::lower, lines 11-20, 162-232. *)
Definition lower_gen (declared : nat -> bool) (rho : nat -> K) (a : aexp) : option tensor :=
  match a, shape a with
  | Leaf _, _ | _, None => None
  | For _ (Leaf l), Some s =>
      match lower_leaf declared rho l with Some v => splat s v | None => None end
  | _, Some s =>
      match lower_values declared rho a with Some vs => from_elements s vs | None => None end
  end.

(** CallLowerer::fill and FillOpLowering: the sizes are constants. *)
Definition lower_fill (v : nat * K) (s : list Z) : option tensor := splat s v.

(** CallLowerer::size with a dimension, counted from one; [None]: tensor.dim of
    a dimension that does not exist. *)
Definition size_dim (dims : list nat) (i : Z) : option nat :=
  if (1 <=? i)%Z then nth_error dims (Z.to_nat (i - 1)) else None.

(** CallLowerer::size without a dimension and SizeOpArrayLowering, lines
    430-481: the result has one dimension, whose size is the number of
    dimensions of the array; the loop goes over the dimensions of the result. *)
Definition size_array (junk : nat -> nat) (dims : list nat) : list nat :=
  let result_dims := [length dims] in
  fold_left (fun r d => firstn d r ++ nth d dims 0 :: skipn (S d) r)
            (seq 0 (length result_dims)) (map junk (seq 0 (length dims))).

(** NDimsOpLowering, lines 371-394. *)
Definition ndims (dims : list nat) : nat := length dims.

End Gen.
Arguments leaf : clear implicits.
Arguments aexp : clear implicits.
Arguments tensor : clear implicits.
