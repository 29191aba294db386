(** The code for operators on arrays.

    Models:
      /repo/lib/Codegen/Conversion/BaseModelicaToLinalg/BaseModelicaToLinalg.cpp:37-55,
        389-1097 (AddOp, AddEWOp, SubOp, SubEWOp, MulOp), 1100-1520 (MulEWOp,
        DivOp, DivEWOp), 1522-1608 (PowOp), 1610-1662 (TransposeOp), 1838-1884
      /repo/lib/Dialect/BaseModelica/IR/Ops.cpp:3782-3864, 4129-4173, 4511-4546

    The operations of MLIR are modelled by their documented meaning:
    linalg.add, sub, mul and div compute element by element and leave nothing
    of the destination; linalg.dot, vecmat and matmul add to the destination;
    tensor.empty has contents that are not specified; tensor.splat is only
    valid if the scalar has the element type; an element-wise operation is only
    valid if the destination has the element type of the operands.

    Simplifications: numbers are taken from any type with the operations given
    in the section (no rounding, no overflow); casts from Integer to Real keep
    the value; arrays have known ranks. *)

From Coq Require Import List Arith Bool Lia.
Import ListNotations.

Inductive ety := EInt | EReal.

Definition ety_eqb (a b : ety) : bool :=
  match a, b with EInt, EInt | EReal, EReal => true | _, _ => false end.

(** [getMostGenericScalarType] on these two. *)
Definition generic (a b : ety) : ety :=
  match a, b with EInt, EInt => EInt | _, _ => EReal end.

Inductive eop := OAdd | OSub | OMul | ODiv.

(** The operators of the source: [+ - * /] and [.+ .- .* ./]. *)
Inductive bop := BAdd | BSub | BMul | BDiv | BAddEW | BSubEW | BMulEW | BDivEW.

Section Arrays.
Context {K : Type} (zero one : K) (add sub mul fdiv idiv : K -> K -> K).

(** An array: element type, sizes, for each size whether it is unknown at
    compile time, and the elements (indices from zero). *)
Record arr := mkA { a_ty : ety; a_dims : list nat; a_dyn : list bool; a_at : list nat -> K }.

Inductive val := VS (t : ety) (k : K) | VA (a : arr).

Definition dim (a : arr) (k : nat) : nat := nth k (a_dims a) 0.
Definition rank (a : arr) : nat := length (a_dims a).

(** linalg.add, sub, mul, div on elements of type [t]: division of integers
    truncates. *)
Definition prim (t : ety) (o : eop) : K -> K -> K :=
  match o with
  | OAdd => add
  | OSub => sub
  | OMul => mul
  | ODiv => match t with EInt => idiv | EReal => fdiv end
  end.

(** AddOpLowering, SubOpLowering, MulEWOpTensorsLowering and
    DivEWOpTensorsLowering, lines 389-457, 572-640, 1100-1168, 1325-1393: both
    operands are cast to the generic type. *)
Definition ew_arrays (o : eop) (x y : arr) : option val :=
  if rank x =? rank y then
    let g := generic (a_ty x) (a_ty y) in
    Some (VA (mkA g (a_dims x) (a_dyn x) (fun i => prim g o (a_at x i) (a_at y i))))
  else None.

(** AddEWOMixedLowering, MulEWOMixedLowering, MulOpScalarProductLowering and
    DivOpTensorScalarLowering, lines 482-532, 1171-1221, 791-849, 1261-1323:
    the array is cast to the generic type, the scalar is not; the array is the
    first operand.  [rt]: the element type of the result.  [None]: the splat is
    not valid. *)
Definition mixed (o : eop) (rt : ety) (st : ety) (s : K) (x : arr) : option val :=
  let g := generic (a_ty x) st in
  if ety_eqb st g
  then Some (VA (mkA rt (a_dims x) (a_dyn x) (fun i => prim g o (a_at x i) s)))
  else None.

(** SubEWOpScalarTensorLowering, SubEWOpTensorScalarLowering and those of
    DivEWOp, lines 665-788, 1396-1520: both operands are cast, the destination
    has the type that the array had before.  [None]: the destination is not
    valid. *)
Definition mixed_dest (o : eop) (left : bool) (st : ety) (s : K) (x : arr) : option val :=
  let g := generic st (a_ty x) in
  if ety_eqb (a_ty x) g
  then Some (VA (mkA g (a_dims x) (a_dyn x)
         (fun i => if left then prim g o s (a_at x i) else prim g o (a_at x i) s)))
  else None.

(** Adding [n] terms to what is there. *)
Fixpoint accumulate (n : nat) (init : K) (f : nat -> K) : K :=
  match n with
  | 0 => init
  | S n' => add (accumulate n' init f) (f n')
  end.

(** What tensor.empty contains. *)
Definition memory := list nat -> K.

(** linalg.dot, lines 855-911. *)
Definition dot (junk : memory) (x y : arr) : K :=
  accumulate (dim x 0) (junk []) (fun k => mul (a_at x [k]) (a_at y [k])).

(** linalg.vecmat, lines 922-981: the type of the result has the second size
    of the matrix, but if it is unknown the destination is created with the
    first size (lines 956-957 ask for dimension 0). *)
Definition vecmat (junk : memory) (v m : arr) : arr :=
  mkA (generic (a_ty v) (a_ty m))
      [if nth 1 (a_dyn m) false then dim m 0 else dim m 1]
      [nth 1 (a_dyn m) false]
      (fun i => accumulate (dim m 0) (junk i)
                  (fun k => mul (a_at v [k]) (a_at m [k; nth 0 i 0]))).

(** TransposeOpLowering, lines 1610-1662. *)
Definition transpose (m : arr) : arr :=
  mkA (a_ty m) [dim m 1; dim m 0] [nth 1 (a_dyn m) false; nth 0 (a_dyn m) false]
      (fun i => a_at m [nth 1 i 0; nth 0 i 0]).

(** linalg.matmul into a destination, lines 1020-1097. *)
Definition matmul (dest : memory) (x y : arr) : arr :=
  mkA (generic (a_ty x) (a_ty y)) [dim x 0; dim y 1]
      [nth 0 (a_dyn x) false; nth 1 (a_dyn y) false]
      (fun i => accumulate (dim x 1) (dest i)
                  (fun k => mul (a_at x [nth 0 i 0; k]) (a_at y [k; nth 1 i 0]))).

(** MulOp: lines 791-1097; the product of an array and a scalar has no
    lowering and no type (Ops.cpp:3782-3864). *)
Definition mul_op (junk : memory) (x y : val) : option val :=
  match x, y with
  | VS t a, VS u b => Some (VS (generic t u) (mul a b))
  | VS t a, VA m => mixed OMul (generic (a_ty m) t) t a m
  | VA _, VS _ _ => None
  | VA x, VA y =>
      match rank x, rank y with
      | 1, 1 => Some (VS (generic (a_ty x) (a_ty y)) (dot junk x y))
      | 1, 2 => Some (VA (vecmat junk x y))
      | 2, 1 => Some (VA (vecmat junk y (transpose x)))
      | 2, 2 => Some (VA (matmul junk x y))
      | _, _ => None
      end
  end.

(** The binary operators on values of which one at least is an array (those on
    scalars are C82's subject). *)
Definition lower (junk : memory) (b : bop) (x y : val) : option val :=
  match b, x, y with
  | BMul, _, _ => mul_op junk x y
  | BAdd, VA x, VA y | BAddEW, VA x, VA y => ew_arrays OAdd x y
  | BSub, VA x, VA y | BSubEW, VA x, VA y => ew_arrays OSub x y
  | BMulEW, VA x, VA y => ew_arrays OMul x y
  | BDivEW, VA x, VA y => ew_arrays ODiv x y
  | BAddEW, VS t s, VA x | BAddEW, VA x, VS t s => mixed OAdd (generic (a_ty x) t) t s x
  | BMulEW, VS t s, VA x | BMulEW, VA x, VS t s => mixed OMul (generic (a_ty x) t) t s x
  | BSubEW, VS t s, VA x => mixed_dest OSub true t s x
  | BSubEW, VA x, VS t s => mixed_dest OSub false t s x
  | BDivEW, VS t s, VA x => mixed_dest ODiv true t s x
  | BDivEW, VA x, VS t s => mixed_dest ODiv false t s x
  | BDiv, VA x, VS t s => mixed ODiv EReal t s x
  | _, _, _ => None
  end.

(** PowOpLowering, lines 1522-1608: a loop that starts with the matrix all of
    whose elements are one. *)
Fixpoint pow_loop (a : arr) (n : nat) : arr :=
  match n with
  | 0 => mkA (a_ty a) (a_dims a) (a_dyn a) (fun _ => one)
  | S n' => matmul (fun _ => zero) (pow_loop a n') a
  end.

End Arrays.
