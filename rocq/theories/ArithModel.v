(** Model of the arithmetic on scalars: folding of constants and
    simplifications (lib/Dialect/BaseModelica/IR/Ops.cpp), result types
    (lib/Dialect/BaseModelica/IR/Dialect.cpp) and the code generated for the
    operations (lib/Codegen/Conversion/BaseModelicaToArith/
    BaseModelicaToArith.cpp, called BMToArith.cpp below).

    Doubles are the binary64 numbers of Coq's SpecFloat with rounding to
    nearest, ties to even. int64_t is Z with overflow as [Bad]. Functions of
    the C mathematical library other than floor, ceil, trunc, abs and sqrt
    are given by a parameter. The bit width of Integer and Real is the
    default one, 64 (include/marco/Frontend/CodegenOptions.h:39). *)
From Coq Require Import ZArith List Bool SpecFloat.
From Verif Require Import Result.
Import ListNotations.
Local Open Scope Z_scope.

(** ** Doubles *)

Definition real := spec_float.
Definition radd : real -> real -> real := SFadd 53 1024.
Definition rsub : real -> real -> real := SFsub 53 1024.
Definition rmul : real -> real -> real := SFmul 53 1024.
Definition rdiv : real -> real -> real := SFdiv 53 1024.
Definition rsqrt : real -> real := SFsqrt 53 1024.
(** static_cast<double>(int64_t). *)
Definition of_Z (z : Z) : real := binary_normalize 53 1024 z 0 false.
Definition rzero : real := S754_zero false.

(** The number m * 2^e, signed. *)
Definition scaled (s : bool) (m : positive) : Z := if s then Zneg m else Zpos m.
(** std::floor, std::ceil, std::trunc of the C library. *)
Definition rfloor (f : real) : real :=
  match f with
  | S754_finite s m e => if 0 <=? e then f else binary_normalize 53 1024 (scaled s m / 2 ^ (- e)) 0 s
  | _ => f
  end.
Definition rceil (f : real) : real :=
  match f with
  | S754_finite s m e => if 0 <=? e then f else binary_normalize 53 1024 (- ((- scaled s m) / 2 ^ (- e))) 0 s
  | _ => f
  end.
Definition rtrunc (f : real) : real :=
  match f with
  | S754_finite s m e => if 0 <=? e then f else binary_normalize 53 1024 (Z.quot (scaled s m) (2 ^ (- e))) 0 s
  | _ => f
  end.
(** The integer part of a finite double. *)
Definition int_part (f : real) : option Z :=
  match f with
  | S754_zero _ => Some 0
  | S754_finite s m e => Some (if 0 <=? e then scaled s m * 2 ^ e else Z.quot (scaled s m) (2 ^ (- e)))
  | _ => None
  end.
(** An int64_t: overflow is undefined behaviour. *)
Definition int64 (z : Z) : res Z := if (- 2 ^ 63 <=? z) && (z <? 2 ^ 63) then Ok z else Bad.
(** static_cast<int64_t>(double): undefined outside the range of int64_t. *)
Definition to_int64 (f : real) : res Z := match int_part f with Some z => int64 z | None => Bad end.

(** The functions of <cmath> that are not modelled. *)
Inductive fn1 := FAcos | FAsin | FAtan | FCos | FCosh | FExp | FLog | FLog10 | FSin | FSinh | FTan | FTanh.
Record mathlib := mkLib { lib1 : fn1 -> real -> real; lib_pow : real -> real -> real; lib_fmod : real -> real -> real }.

(** ** Types *)

(** The types of scalars: Boolean, Integer and Real of the dialect, index,
    iN and fN of MLIR; TArr stands for all the shaped types. *)
Inductive ty := TBool | TInt | TReal | TIndex | TI (w : Z) | TF (w : Z) | TArr.
Definition ty_eqb (a b : ty) : bool :=
  match a, b with
  | TBool, TBool | TInt, TInt | TReal, TReal | TIndex, TIndex | TArr, TArr => true
  | TI v, TI w | TF v, TF w => v =? w
  | _, _ => false
  end.
(** isScalar(Type). Dialect.cpp:299-306. *)
Definition is_scalar (t : ty) : bool := match t with TArr => false | _ => true end.
(** isScalarIntegerLike(Type), isScalarFloatLike(Type). Dialect.cpp:322-329, 343-349. *)
Definition int_like (t : ty) : bool := match t with TBool | TInt | TIndex | TI _ => true | _ => false end.
Definition float_like (t : ty) : bool := match t with TReal | TF _ => true | _ => false end.

(** getMostGenericScalarType. Dialect.cpp:197-264. *)
Definition generic (a b : ty) : res ty :=
  if negb (is_scalar a && is_scalar b) then Bad else
  match a with
  | TBool => Ok b
  | TInt => match b with TBool => Ok a | _ => Ok b end
  | TReal => Ok a
  | TIndex => match b with TBool | TIndex => Ok a | TInt | TReal | TI _ | TF _ => Ok b | TArr => Bad end
  | TI v => match b with
            | TBool | TIndex => Ok a
            | TI w => if w <=? v then Ok a else Ok b
            | TInt | TReal | TF _ => Ok b
            | TArr => Bad
            end
  | TF v => match b with
            | TBool | TInt | TIndex | TI _ => Ok a
            | TF w => if w <=? v then Ok a else Ok b
            | TReal => Ok b
            | TArr => Bad
            end
  | TArr => Bad
  end.

(** ** Constants *)

(** BooleanAttr, IntegerAttr, RealAttr, mlir::IntegerAttr of type index, and
    an attribute that holds an array. Constants of type iN and fN, which no
    Modelica text gives, are left out. *)
Inductive attr := AB (b : bool) | AI (z : Z) | AR (f : real) | AX (z : Z) | AArr.
Definition attr_ty (a : attr) : ty := match a with AB _ => TBool | AI _ => TInt | AR _ => TReal | AX _ => TIndex | AArr => TArr end.
(** getScalarIntegerLikeValue, getScalarFloatLikeValue. Dialect.cpp:363-385. *)
Definition int_value (a : attr) : Z := match a with AB b => if b then 1 else 0 | AI z | AX z => z | _ => 0 end.
Definition float_value (a : attr) : real := match a with AR f => f | _ => rzero end.
(** getAttr(Type, int64_t), getAttr(Type, double). Attributes.cpp:71-127. *)
Definition attr_of_int (t : ty) (z : Z) : res attr :=
  match t with
  | TBool => Ok (AB (negb (z =? 0)))
  | TInt => Ok (AI z)
  | TReal => Ok (AR (of_Z z))
  | TIndex => Ok (AX z)
  | _ => Bad
  end.
Definition attr_of_real (t : ty) (f : real) : res attr :=
  match t with
  | TBool => Ok (AB (negb (SFeqb f rzero)))
  | TInt => z <- to_int64 f ;; Ok (AI z)
  | TReal => Ok (AR f)
  | TIndex => z <- to_int64 f ;; Ok (AX z)
  | _ => Bad
  end.
(** getScalarAttributeValue<double>. Ops.cpp:146-155. *)
Definition scalar_value (a : attr) : option real :=
  if int_like (attr_ty a) then Some (of_Z (int_value a))
  else if float_like (attr_ty a) then Some (float_value a) else None.
(** getScalarAttributeValue<double>(a) == c. *)
Definition scalar_is (a : attr) (c : Z) : bool :=
  match scalar_value a with Some f => SFeqb f (of_Z c) | None => false end.

(** ** Folding *)

Definition some_attr (r : res attr) : res (option attr) := a <- r ;; Ok (Some a).

(** The common shape of the folders of two scalars: a case for two integers,
    and a case where an integer operand is converted to double.
    E.g. Ops.cpp:2486-2509. *)
Definition fold2 (fi : Z -> Z -> res attr) (ff : real -> real -> res attr) (l r : option attr) : res (option attr) :=
  match l, r with
  | Some a, Some b =>
      if is_scalar (attr_ty a) && is_scalar (attr_ty b) then
        if int_like (attr_ty a) && int_like (attr_ty b) then some_attr (fi (int_value a) (int_value b))
        else if float_like (attr_ty a) && float_like (attr_ty b) then some_attr (ff (float_value a) (float_value b))
        else if int_like (attr_ty a) && float_like (attr_ty b) then some_attr (ff (of_Z (int_value a)) (float_value b))
        else if float_like (attr_ty a) && int_like (attr_ty b) then some_attr (ff (float_value a) (of_Z (int_value b)))
        else Ok None
      else Ok None
  | _, _ => Ok None
  end.
(** The same for one operand. E.g. Ops.cpp:2153-2162. *)
Definition fold1 (fi : Z -> res attr) (ff : real -> res attr) (o : option attr) : res (option attr) :=
  match o with
  | Some a =>
      if is_scalar (attr_ty a) then
        if int_like (attr_ty a) then some_attr (fi (int_value a))
        else if float_like (attr_ty a) then some_attr (ff (float_value a)) else Ok None
      else Ok None
  | None => Ok None
  end.
Definition on_ints (t : ty) (f : Z -> Z -> Z) (x y : Z) : res attr := z <- int64 (f x y) ;; attr_of_int t z.
Definition on_reals (t : ty) (f : real -> real -> real) (x y : real) : res attr := attr_of_real t (f x y).

(** NegateOp::fold. Ops.cpp:2144-2165. *)
Definition fold_neg (t : ty) : option attr -> res (option attr) :=
  fold1 (fun x => z <- int64 (-1 * x) ;; attr_of_int t z) (fun x => attr_of_real t (rmul (of_Z (-1)) x)).
(** AddOp::fold, for scalars, and AddEWOp::fold. Ops.cpp:2476-2510, 2837-2873. *)
Definition fold_add (t : ty) := fold2 (on_ints t Z.add) (on_reals t radd).
(** SubOp::fold, for scalars, and SubEWOp::fold. Ops.cpp:3136-3170, 3492-3527. *)
Definition fold_sub (t : ty) := fold2 (on_ints t Z.sub) (on_reals t rsub).
(** MulEWOp::fold. Ops.cpp:4269-4304. *)
Definition fold_mul_ew (t : ty) := fold2 (on_ints t Z.mul) (on_reals t rmul).
(** MulOp::fold. Ops.cpp:3880-3925. *)
Definition is_zero_attr (o : option attr) : bool :=
  match o with Some a => is_scalar (attr_ty a) && scalar_is a 0 | None => false end.
Definition fold_mul (t : ty) (l r : option attr) : res (option attr) :=
  if is_zero_attr l && negb (ty_eqb t TArr) then some_attr (attr_of_int t 0)
  else if is_zero_attr r && negb (ty_eqb t TArr) then some_attr (attr_of_int t 0)
  else fold_mul_ew t l r.
(** DivOp::fold and DivEWOp::fold. Ops.cpp:4598-4633, 4911-4946. *)
Definition fold_div (t : ty) :=
  fold2 (fun x y => attr_of_real t (rdiv (of_Z x) (of_Z y))) (on_reals t rdiv).
(** PowEWOp::fold. Ops.cpp:5420-5463. *)
Definition fold_pow_ew (lib : mathlib) (t : ty) :=
  fold2 (fun x y => attr_of_real t (lib_pow lib (of_Z x) (of_Z y))) (on_reals t (lib_pow lib)).
(** PowOp::fold. Ops.cpp:5261-5314. *)
Definition fold_pow (lib : mathlib) (t : ty) (b e : option attr) : res (option attr) :=
  match b, e with
  | Some b', Some e' =>
      r <- fold_pow_ew lib t b e ;;
      match r with
      | Some a => Ok (Some a)
      | None =>
          if is_scalar (attr_ty e') && scalar_is e' 0 then some_attr (attr_of_int t 0)
          else if is_scalar (attr_ty e') && scalar_is e' 1 then Ok (Some b')
          else Ok None
      end
  | _, _ => Ok None
  end.

Definition bool_int (b : bool) : Z := if b then 1 else 0.
(** EqOp, NotEqOp, GtOp, GteOp, LtOp, LteOp::fold. Ops.cpp:5497-5528,
    5565-5596, 5632-5663, 5699-5730, 5766-5797, 5833-5864. *)
Definition fold_cmp (t : ty) (ci : Z -> Z -> bool) (cf : real -> real -> bool) :=
  fold2 (fun x y => attr_of_int t (bool_int (ci x y))) (fun x y => attr_of_int t (bool_int (cf x y))).
Definition fold_eq (t : ty) := fold_cmp t Z.eqb SFeqb.
Definition fold_ne (t : ty) := fold_cmp t (fun x y => negb (x =? y)) (fun x y => negb (SFeqb x y)).
Definition fold_gt (t : ty) := fold_cmp t Z.gtb (fun x y => SFltb y x).
Definition fold_ge (t : ty) := fold_cmp t Z.geb (fun x y => SFleb y x).
Definition fold_lt (t : ty) := fold_cmp t Z.ltb SFltb.
Definition fold_le (t : ty) := fold_cmp t Z.leb SFleb.

(** NotOp::fold. Ops.cpp:5918-5941. *)
Definition fold_not (t : ty) :=
  fold1 (fun x => attr_of_int t (bool_int (x =? 0))) (fun x => attr_of_int t (bool_int (SFeqb x rzero))).
(** AndOp::fold and OrOp::fold. The mixed cases compare each operand with
    zero in its own type. Ops.cpp:6012-6056, 6129-6173. *)
Definition truth (a : attr) : bool :=
  if int_like (attr_ty a) then negb (int_value a =? 0) else negb (SFeqb (float_value a) rzero).
Definition fold_logic (f : bool -> bool -> bool) (t : ty) (l r : option attr) : res (option attr) :=
  match l, r with
  | Some a, Some b =>
      if is_scalar (attr_ty a) && is_scalar (attr_ty b) then some_attr (attr_of_int t (bool_int (f (truth a) (truth b))))
      else Ok None
  | _, _ => Ok None
  end.
Definition fold_and := fold_logic andb.
Definition fold_or := fold_logic orb.

(** ** Folding of the built-in functions *)

(** AbsOp::fold. Ops.cpp:6352-6374. *)
Definition fold_abs (t : ty) :=
  fold1 (fun x => z <- int64 (Z.abs x) ;; attr_of_int t z) (fun x => attr_of_real t (SFabs x)).
(** CeilOp::fold, FloorOp::fold, IntegerOp::fold. Ops.cpp:6474-6496, 6640-6662, 6669-6691. *)
Definition fold_ceil (t : ty) := fold1 (attr_of_int t) (fun x => attr_of_real t (rceil x)).
Definition fold_floor (t : ty) := fold1 (attr_of_int t) (fun x => attr_of_real t (rfloor x)).
Definition fold_integer (t : ty) := fold1 (attr_of_int t) (fun x => attr_of_real t (rfloor x)).
(** DivTruncOp::fold. Ops.cpp:6565-6602. *)
Definition fold_div_trunc (t : ty) :=
  fold2 (fun x y => attr_of_real t (rdiv (of_Z x) (of_Z y))) (on_reals t (fun x y => rtrunc (rdiv x y))).
(** MaxOp::fold and MinOp::fold of two operands. std::max(a, b) is
    a < b ? b : a, std::min(a, b) is b < a ? b : a. Ops.cpp:6877-6924, 7053-7100. *)
Definition fold_max (t : ty) (l r : option attr) : res (option attr) :=
  match l, r with
  | Some a, Some b =>
      if is_scalar (attr_ty a) && is_scalar (attr_ty b) then
        if int_like (attr_ty a) && int_like (attr_ty b) then
          some_attr (attr_of_int t (if int_value a <? int_value b then int_value b else int_value a))
        else if float_like (attr_ty a) && float_like (attr_ty b) then
          some_attr (attr_of_real t (if SFltb (float_value a) (float_value b) then float_value b else float_value a))
        else
          match scalar_value a, scalar_value b with
          | Some x, Some y => some_attr (attr_of_real t (if SFleb y x then x else y))
          | _, _ => Ok None
          end
      else Ok None
  | _, _ => Ok None
  end.
Definition fold_min (t : ty) (l r : option attr) : res (option attr) :=
  match l, r with
  | Some a, Some b =>
      if is_scalar (attr_ty a) && is_scalar (attr_ty b) then
        if int_like (attr_ty a) && int_like (attr_ty b) then
          some_attr (attr_of_int t (if int_value b <? int_value a then int_value b else int_value a))
        else if float_like (attr_ty a) && float_like (attr_ty b) then
          some_attr (attr_of_real t (if SFltb (float_value b) (float_value a) then float_value b else float_value a))
        else
          match scalar_value a, scalar_value b with
          | Some x, Some y => some_attr (attr_of_real t (if SFleb x y then x else y))
          | _, _ => Ok None
          end
      else Ok None
  | _, _ => Ok None
  end.
(** ModOp::fold: also the integers are computed with doubles. Ops.cpp:7112-7153. *)
Definition mod_real (x y : real) : real := rsub x (rmul (rfloor (rdiv x y)) y).
Definition fold_mod (t : ty) :=
  fold2 (fun x y => attr_of_real t (mod_real (of_Z x) (of_Z y))) (on_reals t mod_real).
(** RemOp::fold. x % y is undefined when y = 0 and when the quotient
    overflows. Ops.cpp:7160-7197. *)
Definition rem_int (x y : Z) : res Z := if y =? 0 then Bad else _ <- int64 (Z.quot x y) ;; Ok (Z.rem x y).
Definition fold_rem (lib : mathlib) (t : ty) :=
  fold2 (fun x y => z <- rem_int x y ;; attr_of_int t z) (on_reals t (lib_fmod lib)).
(** SignOp::fold. Ops.cpp:7204-7240. *)
Definition fold_sign (t : ty) :=
  fold1 (fun x => if x =? 0 then attr_of_int t 0 else if 0 <? x then attr_of_int t 1 else attr_of_int t (-1))
        (fun x => if SFeqb x rzero then attr_of_int t 0 else if SFltb rzero x then attr_of_int t 1 else attr_of_int t (-1)).
(** SqrtOp::fold. Ops.cpp:7390-7413. *)
Definition fold_sqrt (t : ty) := fold1 (fun x => attr_of_real t (rsqrt (of_Z x))) (fun x => attr_of_real t (rsqrt x)).
(** AcosOp, AsinOp, AtanOp, CosOp, CoshOp, ExpOp, LogOp, Log10Op, SinOp,
    SinhOp, TanOp, TanhOp::fold. Ops.cpp:6381-6467, 6503-6558, 6609-6633,
    6698-6753, 7247-7302, 7421-7475. *)
Definition fold_lib (lib : mathlib) (f : fn1) (t : ty) :=
  fold1 (fun x => attr_of_real t (lib1 lib f (of_Z x))) (fun x => attr_of_real t (lib1 lib f x)).
(** CastOp::fold. Ops.cpp:11482-11504. *)
Definition fold_cast (t : ty) := fold1 (attr_of_int t) (attr_of_real t).

(** ** Expressions *)

Inductive uop := Neg | Not.
Inductive bop := Add | AddEW | Sub | SubEW | Mul | MulEW | Div | DivEW | Pow | PowEW
               | Eq | Ne | Gt | Ge | Lt | Le | And | Or.
(** Operations with their operands; variables carry their type. *)
Inductive exp :=
| Cst (a : attr)
| Var (n : nat) (t : ty)
| Un (o : uop) (a : exp)
| Bin (o : bop) (a b : exp)
| Ite (c a b : exp)
| CastE (t : ty) (a : exp).

(** inferReturnTypes, for scalars. NegateOp and NotOp: Ops.cpp:2110-2117,
    5882-5889; AddOp: 2424-2427; AddEWOp: 2757-2760; SubOp: 3084-3087;
    SubEWOp: 3412-3415; MulOp: 3793-3796; MulEWOp: 4189-4192; DivOp:
    4519-4527; DivEWOp: 4831-4834; PowOp: 5227-5235; PowEWOp: 5334-5345;
    comparisons: 5475, 5543; AndOp, OrOp: 5958-5961, 6075-6078. *)
Definition infer_un (o : uop) (t : ty) : res ty :=
  if is_scalar t then match o with Neg => Ok t | Not => Ok TBool end else Bad.
Definition infer_bin (o : bop) (a b : ty) : res ty :=
  if is_scalar a && is_scalar b then
    match o with
    | Add | AddEW | Sub | SubEW | Mul | MulEW | DivEW => generic a b
    | Div => if float_like a || float_like b then generic a b else Ok TReal
    | Pow | PowEW => if float_like b then Ok b else Ok a
    | Eq | Ne | Gt | Ge | Lt | Le | And | Or => Ok TBool
    end
  else Bad.
(** SelectOp::inferReturnTypes, for scalars. Ops.cpp:6192-6201. *)
Definition infer_ite (a b : ty) : res ty := if ty_eqb a b then Ok a else generic a b.
Fixpoint type_of (e : exp) : res ty :=
  match e with
  | Cst a => Ok (attr_ty a)
  | Var _ t => Ok t
  | Un o a => t <- type_of a ;; infer_un o t
  | Bin o a b => ta <- type_of a ;; tb <- type_of b ;; infer_bin o ta tb
  | Ite c a b => tc <- type_of c ;; ta <- type_of a ;; tb <- type_of b ;; infer_ite ta tb
  | CastE t a => _ <- type_of a ;; Ok t
  end.

(** fold of an operation on what is known of its operands. *)
Definition fold_bin (lib : mathlib) (o : bop) (t : ty) : option attr -> option attr -> res (option attr) :=
  match o with
  | Add | AddEW => fold_add t
  | Sub | SubEW => fold_sub t
  | Mul => fold_mul t
  | MulEW => fold_mul_ew t
  | Div | DivEW => fold_div t
  | Pow => fold_pow lib t
  | PowEW => fold_pow_ew lib t
  | Eq => fold_eq t | Ne => fold_ne t | Gt => fold_gt t | Ge => fold_ge t | Lt => fold_lt t | Le => fold_le t
  | And => fold_and t | Or => fold_or t
  end.
Definition fold_un (o : uop) (t : ty) : option attr -> res (option attr) :=
  match o with Neg => fold_neg t | Not => fold_not t end.
(** The constant an operand is known to be. *)
Definition known (e : exp) : option attr := match e with Cst a => Some a | _ => None end.
(** Folding the operation at the root of an expression. *)
Definition fold_exp (lib : mathlib) (e : exp) : res (option exp) :=
  t <- type_of e ;;
  r <- match e with
       | Un o a => fold_un o t (known a)
       | Bin o a b => fold_bin lib o t (known a) (known b)
       | CastE _ a => fold_cast t (known a)
       | _ => Ok None
       end ;;
  Ok (match r with Some a => Some (Cst a) | None => None end).

(** isScalarConstant of the patterns, with an integral constant.
    Ops.cpp:2321-2345, 3736-3760, 5160-5184. *)
Definition const_is (c : Z) (e : exp) : bool :=
  match e with
  | Cst a => if negb (is_scalar (attr_ty a)) then false
             else if int_like (attr_ty a) then int_value a =? c
             else if float_like (attr_ty a) then SFeqb (float_value a) (of_Z c) else false
  | _ => false
  end.
(** castIfNeeded. Ops.cpp:2347-2354, 3762-3769, 5186-5193. *)
Definition cast_exp (t : ty) (e : exp) : res exp := te <- type_of e ;; Ok (if ty_eqb te t then e else CastE t e).
(** AddZeroPattern, MulByOnePattern, PowExponentZeroPattern,
    PowExponentOnePattern at the root of an expression. The order of the two
    patterns of a power does not matter: their constants differ.
    Ops.cpp:2294-2315, 2356-2363, 3709-3730, 3771-3778, 5140-5152, 5195-5212. *)
Definition simplify_exp (e : exp) : res (option exp) :=
  match e with
  | Bin Add a b =>
      t <- type_of e ;;
      if const_is 0 a then r <- cast_exp t b ;; Ok (Some r)
      else if const_is 0 b then r <- cast_exp t a ;; Ok (Some r) else Ok None
  | Bin Mul a b =>
      t <- type_of e ;;
      if const_is 1 a then r <- cast_exp t b ;; Ok (Some r)
      else if const_is 1 b then r <- cast_exp t a ;; Ok (Some r) else Ok None
  | Bin Pow a b =>
      t <- type_of e ;;
      if const_is 0 b then r <- cast_exp t (Cst (AI 1)) ;; Ok (Some r)
      else if const_is 1 b then r <- cast_exp t a ;; Ok (Some r) else Ok None
  | _ => Ok None
  end.

(** The rewriting of an expression: folding or simplification of an operation
    that satisfies [Q], anywhere in it, in any order. (The pattern driver is
    MLIR's; not in /repo.) *)
Inductive step (lib : mathlib) (Q : exp -> Prop) : exp -> exp -> Prop :=
| st_fold : forall e e', Q e -> fold_exp lib e = Ok (Some e') -> step lib Q e e'
| st_simplify : forall e e', Q e -> simplify_exp e = Ok (Some e') -> step lib Q e e'
| st_un : forall o a a', step lib Q a a' -> step lib Q (Un o a) (Un o a')
| st_bin1 : forall o a a' b, step lib Q a a' -> step lib Q (Bin o a b) (Bin o a' b)
| st_bin2 : forall o a b b', step lib Q b b' -> step lib Q (Bin o a b) (Bin o a b')
| st_ite1 : forall c c' a b, step lib Q c c' -> step lib Q (Ite c a b) (Ite c' a b)
| st_ite2 : forall c a a' b, step lib Q a a' -> step lib Q (Ite c a b) (Ite c a' b)
| st_ite3 : forall c a b b', step lib Q b b' -> step lib Q (Ite c a b) (Ite c a b')
| st_cast : forall t a a', step lib Q a a' -> step lib Q (CastE t a) (CastE t a').
Inductive steps (lib : mathlib) (Q : exp -> Prop) : exp -> exp -> Prop :=
| st_refl : forall e, steps lib Q e e
| st_next : forall e e1 e2, step lib Q e e1 -> steps lib Q e1 e2 -> steps lib Q e e2.

(** ** Generated code *)

Inductive ipred := Ieq | Ine | Isgt | Isge | Islt | Isle.
Inductive fpred := Foeq | Fone | Fogt | Foge | Folt | Fole.
(** The operations of MLIR's arith dialect that are generated. *)
Inductive aexp :=
| Arg (n : nat) (t : ty)
| CstI (t : ty) (z : Z)
| CstF (t : ty) (f : real)
| AddI (a b : aexp) | SubI (a b : aexp) | MulI (a b : aexp) | DivSI (a b : aexp) | AndI (a b : aexp) | OrI (a b : aexp)
| CmpI (p : ipred) (a b : aexp)
| AddF (a b : aexp) | SubF (a b : aexp) | MulF (a b : aexp) | DivF (a b : aexp) | NegF (a : aexp)
| CmpF (p : fpred) (a b : aexp)
| ExtUI (t : ty) (a : aexp) | ExtSI (t : ty) (a : aexp) | TruncI (t : ty) (a : aexp)
| SIToFP (t : ty) (a : aexp) | UIToFP (t : ty) (a : aexp) | FPToSI (t : ty) (a : aexp) | FPToUI (t : ty) (a : aexp)
| ExtF (t : ty) (a : aexp) | TruncF (t : ty) (a : aexp) | IndexCast (t : ty) (a : aexp)
| SelectA (c a b : aexp).

Definition arith_int (t : ty) : bool := match t with TIndex | TI _ => true | _ => false end.
Definition arith_float (t : ty) : bool := match t with TF _ => true | _ => false end.
Definition width (t : ty) : res Z := match t with TI w | TF w => Ok w | _ => Bad end.

(** The verifier of the arith dialect (MLIR; not in /repo): the type of a
    well formed operation. *)
Fixpoint arith_type (e : aexp) : res ty :=
  let same (p : ty -> bool) a b :=
    ta <- arith_type a ;; tb <- arith_type b ;; if p ta && ty_eqb ta tb then Ok ta else Bad in
  let conv (p q : ty -> bool) (r : ty -> ty -> bool) t a :=
    ta <- arith_type a ;; if p ta && q t && r ta t then Ok t else Bad in
  let iint t := match t with TI _ => true | _ => false end in
  let narrow a b := match a, b with TI v, TI w | TF v, TF w => v <? w | _, _ => false end in
  let any (_ _ : ty) := true in
  match e with
  | Arg _ t => if arith_int t || arith_float t then Ok t else Bad
  | CstI t _ => if arith_int t then Ok t else Bad
  | CstF t _ => if arith_float t then Ok t else Bad
  | AddI a b | SubI a b | MulI a b | DivSI a b | AndI a b | OrI a b => same arith_int a b
  | CmpI _ a b => _ <- same arith_int a b ;; Ok (TI 1)
  | AddF a b | SubF a b | MulF a b | DivF a b => same arith_float a b
  | NegF a => ta <- arith_type a ;; if arith_float ta then Ok ta else Bad
  | CmpF _ a b => _ <- same arith_float a b ;; Ok (TI 1)
  | ExtUI t a | ExtSI t a => conv iint iint narrow t a
  | TruncI t a => conv iint iint (fun x y => narrow y x) t a
  | SIToFP t a | UIToFP t a => conv iint arith_float any t a
  | FPToSI t a | FPToUI t a => conv arith_float iint any t a
  | ExtF t a => conv arith_float arith_float narrow t a
  | TruncF t a => conv arith_float arith_float (fun x y => narrow y x) t a
  | IndexCast t a =>
      ta <- arith_type a ;;
      match ta, t with TIndex, TI _ | TI _, TIndex => Ok t | _, _ => Bad end
  | SelectA c a b =>
      tc <- arith_type c ;; ta <- arith_type a ;; tb <- arith_type b ;;
      if ty_eqb tc (TI 1) && ty_eqb ta tb then Ok ta else Bad
  end.

(** TypeConverter::convertType for scalars, with 64 bits for Integer and
    Real. BaseModelicaCommon/TypeConverter.cpp:8-60. *)
Definition conv (t : ty) : ty :=
  match t with TBool => TI 1 | TInt => TI 64 | TReal => TF 64 | _ => t end.

(** CastOpIndexLowering, CastOpIntegerLowering, CastOpFloatLowering: the code
    of a cast of a value to a type. BMToArith.cpp:36-203. *)
Definition cast_index (t : ty) (e : aexp) : res aexp :=
  match t with
  | TIndex => Ok e
  | TI w => Ok (IndexCast (TI w) e)
  | TF w => let r := IndexCast (TI w) e in Ok (if w =? 1 then UIToFP t r else SIToFP t r)
  | _ => Bad
  end.
Definition cast_integer (w : Z) (t : ty) (e : aexp) : res aexp :=
  match t with
  | TIndex => Ok (IndexCast t e)
  | TI v | TF v =>
      let r := if w <? v then (if w =? 1 then ExtUI (TI v) e else ExtSI (TI v) e)
               else if v <? w then TruncI (TI v) e else e in
      Ok (if arith_float t then (if v =? 1 then UIToFP t r else SIToFP t r) else r)
  | _ => Bad
  end.
(** getIntOrFloatBitWidth trips an assertion on the index type. *)
Definition cast_float (w : Z) (t : ty) (e : aexp) : res aexp :=
  v <- width t ;;
  match t with
  | TI _ => Ok (if w =? 1 then FPToUI (TI 1) e else FPToSI (TI v) e)
  | TF _ => Ok (if w <? v then ExtF t e else if v <? w then TruncF t e else e)
  | _ => Bad
  end.
Definition cast_arith (t : ty) (e : aexp) : res aexp :=
  te <- arith_type e ;;
  match te with
  | TIndex => cast_index (conv t) e
  | TI w => cast_integer w (conv t) e
  | TF w => cast_float w (conv t) e
  | _ => Bad
  end.
(** if (value.getType() != type) value = create<CastOp>(type, value). *)
Definition cast_if (t : ty) (e : aexp) : res aexp :=
  te <- arith_type e ;; if ty_eqb te t then Ok e else cast_arith t e.

(** The operands converted to the most generic of their types.
    E.g. BMToArith.cpp:1269-1278. *)
Definition promoted (l r : aexp) : res (ty * aexp * aexp) :=
  tl <- arith_type l ;; tr <- arith_type r ;;
  g <- generic tl tr ;;
  l' <- cast_if g l ;; r' <- cast_if g r ;; Ok (g, l', r').
(** AddOpLowering, SubOpLowering, MulOpLowering. BMToArith.cpp:1248-1311, 1341-1404, 1434-1497. *)
Definition lower_arith (fi ff : aexp -> aexp -> aexp) (t : ty) (l r : aexp) : res aexp :=
  p <- promoted l r ;;
  let '(g, l', r') := p in
  if arith_int g then cast_if (conv t) (fi l' r')
  else if arith_float g then cast_if (conv t) (ff l' r') else Bad.
Definition lower_add := lower_arith AddI AddF.
Definition lower_sub := lower_arith SubI SubF.
Definition lower_mul := lower_arith MulI MulF.
(** DivOpLowering. BMToArith.cpp:1527-1595. *)
Definition lower_div (t : ty) (l r : aexp) : res aexp :=
  tl <- arith_type l ;; tr <- arith_type r ;;
  g <- (if arith_float (conv t) then Ok (conv t) else generic tl tr) ;;
  l' <- cast_if g l ;; r' <- cast_if g r ;;
  if arith_int g then cast_if (conv t) (DivSI l' r')
  else if arith_float g then cast_if (conv t) (DivF l' r') else Bad.
(** EqOpLowering, NotEqOpLowering, GtOpLowering, GteOpLowering, LtOpLowering,
    LteOpLowering. BMToArith.cpp:244-643. *)
Definition lower_cmp (pi : ipred) (pf : fpred) (t : ty) (l r : aexp) : res aexp :=
  p <- promoted l r ;;
  let '(g, l', r') := p in
  if arith_int g then cast_if (conv t) (CmpI pi l' r')
  else if arith_float g then cast_if (conv t) (CmpF pf l' r') else Bad.
(** NegateOpLowering. BMToArith.cpp:1203-1246. *)
Definition lower_neg (t : ty) (a : aexp) : res aexp :=
  ta <- arith_type a ;;
  if arith_int ta then cast_if (conv t) (SubI (CstI ta 0) a)
  else if arith_float ta then cast_if (conv t) (NegF a) else Bad.
(** NotOpIntegerLowering, NotOpFloatLowering. BMToArith.cpp:652-719. *)
Definition lower_not (t : ty) (a : aexp) : res aexp :=
  ta <- arith_type a ;;
  if arith_int ta then cast_if (conv t) (CmpI Ieq a (CstI ta 0))
  else if arith_float ta then cast_if (conv t) (CmpF Foeq a (CstF ta rzero)) else Bad.
(** The eight patterns of AndOp and OrOp: each operand is compared with the
    zero of its type. BMToArith.cpp:721-1117. *)
Definition not_zero (a : aexp) : res aexp :=
  ta <- arith_type a ;;
  if arith_int ta then Ok (CmpI Ine a (CstI ta 0))
  else if arith_float ta then Ok (CmpF Fone a (CstF ta rzero)) else Bad.
Definition lower_logic (f : aexp -> aexp -> aexp) (t : ty) (l r : aexp) : res aexp :=
  l' <- not_zero l ;; r' <- not_zero r ;; cast_if (conv t) (f l' r').
(** SelectOpLowering, for scalars: the true value is converted when the type
    of the false value is not the generic one. BMToArith.cpp:1970-2048. *)
Definition lower_ite (t : ty) (c a b : aexp) : res aexp :=
  ta <- arith_type a ;; tb <- arith_type b ;;
  g <- generic ta tb ;;
  a' <- (if ty_eqb tb g then Ok a else cast_arith g a) ;;
  b' <- (if ty_eqb tb g then Ok b else cast_arith g b) ;;
  tc <- arith_type c ;;
  c' <- (if ty_eqb tc (TI 1) then Ok c else cast_arith (TI 1) c) ;;
  r <- (let s := SelectA c' a' b' in _ <- arith_type s ;; Ok s) ;;
  cast_if (conv t) r.
(** ConstantOpLowering, for scalars. BMToArith.cpp:1125-1169. *)
Definition lower_const (a : attr) : res aexp :=
  match a with
  | AB b => Ok (CstI (TI 1) (if b then -1 else 0))
  | AI z => Ok (CstI (TI 64) z)
  | AR f => Ok (CstF (TF 64) f)
  | AX z => Ok (CstI TIndex z)
  | AArr => Bad
  end.
(** The element-wise operations on scalars become the plain ones:
    AddEWOpLowering, SubEWOpLowering (which creates an AddOp),
    MulEWOpLowering, DivEWOpLowering. BMToArith.cpp:1313-1339, 1406-1432,
    1499-1525, 1597-1623. PowOp is not lowered by this conversion. *)
Definition lower_bin (o : bop) : ty -> aexp -> aexp -> res aexp :=
  match o with
  | Add | AddEW => lower_add
  | Sub => lower_sub
  | SubEW => lower_add
  | Mul | MulEW => lower_mul
  | Div | DivEW => lower_div
  | Eq => lower_cmp Ieq Foeq
  | Ne => lower_cmp Ine Fone
  | Gt => lower_cmp Isgt Fogt
  | Ge => lower_cmp Isge Foge
  | Lt => lower_cmp Islt Folt
  | Le => lower_cmp Isle Fole
  | And => lower_logic AndI
  | Or => lower_logic OrI
  | Pow | PowEW => fun _ _ _ => Bad
  end.
Definition lower_un (o : uop) : ty -> aexp -> res aexp := match o with Neg => lower_neg | Not => lower_not end.
(** The conversion of a tree of operations. *)
Fixpoint lower (e : exp) : res aexp :=
  match e with
  | Cst a => lower_const a
  | Var n t => Ok (Arg n (conv t))
  | Un o a => t <- type_of e ;; a' <- lower a ;; lower_un o t a'
  | Bin o a b => t <- type_of e ;; a' <- lower a ;; b' <- lower b ;; lower_bin o t a' b'
  | Ite c a b => t <- type_of e ;; c' <- lower c ;; a' <- lower a ;; b' <- lower b ;; lower_ite t c' a' b'
  | CastE t a => a' <- lower a ;; cast_arith t a'
  end.
(** The conversion succeeds when the verifier accepts what it made. *)
Definition generate (e : exp) : res aexp := a <- lower e ;; _ <- arith_type a ;; Ok a.

(** ** Execution of the generated code (MLIR; not in /repo) *)

(** Integers are kept as the signed number of their bits. An index has 64. *)
Inductive aval := IV (t : ty) (z : Z) | FV (t : ty) (f : real).
Definition bits (t : ty) : Z := match t with TI w => w | _ => 64 end.
Definition wrap (t : ty) (z : Z) : Z := (z + 2 ^ (bits t - 1)) mod 2 ^ bits t - 2 ^ (bits t - 1).
Definition unsigned (t : ty) (z : Z) : Z := z mod 2 ^ bits t.
Definition ieval (p : ipred) (a b : Z) : bool :=
  match p with Ieq => a =? b | Ine => negb (a =? b) | Isgt => b <? a | Isge => b <=? a | Islt => a <? b | Isle => a <=? b end.
Definition ordered (a b : real) : bool := match SFcompare a b with Some _ => true | None => false end.
Definition feval (p : fpred) (a b : real) : bool :=
  match p with
  | Foeq => SFeqb a b
  | Fone => ordered a b && negb (SFeqb a b)
  | Fogt => SFltb b a | Foge => SFleb b a | Folt => SFltb a b | Fole => SFleb a b
  end.
Definition i1 (b : bool) : aval := IV (TI 1) (if b then -1 else 0).
(** Undefined behaviour and poison are [Bad], also in the operand of a select
    that is not chosen. Floats other than f64 are not modelled. *)
Fixpoint run (env : nat -> aval) (e : aexp) : res aval :=
  let int a := v <- run env a ;; match v with IV t z => Ok (t, z) | FV _ _ => Bad end in
  let flt a := v <- run env a ;; match v with FV _ f => Ok f | IV _ _ => Bad end in
  let int2 f a b := x <- int a ;; y <- int b ;; Ok (IV (fst x) (wrap (fst x) (f (snd x) (snd y)))) in
  let flt2 f a b := x <- flt a ;; y <- flt b ;; Ok (FV (TF 64) (f x y)) in
  match e with
  | Arg n _ => Ok (env n)
  | CstI t z => Ok (IV t z)
  | CstF t f => Ok (FV t f)
  | AddI a b => int2 Z.add a b
  | SubI a b => int2 Z.sub a b
  | MulI a b => int2 Z.mul a b
  | DivSI a b =>
      x <- int a ;; y <- int b ;;
      if snd y =? 0 then Bad
      else if wrap (fst x) (Z.quot (snd x) (snd y)) =? Z.quot (snd x) (snd y) then Ok (IV (fst x) (Z.quot (snd x) (snd y))) else Bad
  | AndI a b => int2 Z.land a b
  | OrI a b => int2 Z.lor a b
  | CmpI p a b => x <- int a ;; y <- int b ;; Ok (i1 (ieval p (snd x) (snd y)))
  | AddF a b => flt2 radd a b
  | SubF a b => flt2 rsub a b
  | MulF a b => flt2 rmul a b
  | DivF a b => flt2 rdiv a b
  | NegF a => x <- flt a ;; Ok (FV (TF 64) (SFopp x))
  | CmpF p a b => x <- flt a ;; y <- flt b ;; Ok (i1 (feval p x y))
  | ExtUI t a => x <- int a ;; Ok (IV t (wrap t (unsigned (fst x) (snd x))))
  | ExtSI t a | TruncI t a | IndexCast t a => x <- int a ;; Ok (IV t (wrap t (snd x)))
  | SIToFP t a => x <- int a ;; if ty_eqb t (TF 64) then Ok (FV t (of_Z (snd x))) else Bad
  | UIToFP t a => x <- int a ;; if ty_eqb t (TF 64) then Ok (FV t (of_Z (unsigned (fst x) (snd x)))) else Bad
  | FPToSI t a =>
      x <- flt a ;;
      match int_part x with Some z => if wrap t z =? z then Ok (IV t z) else Bad | None => Bad end
  | FPToUI t a =>
      x <- flt a ;;
      match int_part x with Some z => if unsigned t z =? z then Ok (IV t (wrap t z)) else Bad | None => Bad end
  | ExtF _ _ | TruncF _ _ => Bad
  | SelectA c a b => x <- int c ;; va <- run env a ;; vb <- run env b ;; Ok (if snd x =? 0 then vb else va)
  end.

(** ** Reductions *)

(** The values of the operands of ReductionOp "add", "mul", "min", "max":
    initial value of the accumulator for Integer (64 bits) and Real.
    BMToArith.cpp:1756-1930. *)
Inductive action := RAdd | RMul | RMin | RMax.
Definition init_int (a : action) : Z :=
  match a with RAdd => 0 | RMul => 1 | RMin => 2 ^ 63 - 1 | RMax => - 2 ^ 63 end.
(** numeric_limits<double>::max() and numeric_limits<double>::min(). *)
Definition dbl_max : real := S754_finite false 9007199254740991 971.
Definition dbl_min : real := S754_finite false 4503599627370496 (-1074).
Definition init_real (a : action) : real :=
  match a with RAdd => rzero | RMul => of_Z 1 | RMin => dbl_max | RMax => dbl_min end.
(** computeReductionResult, and the runtime's minimum and maximum.
    BMToArith.cpp:1932-1958. *)
Definition combine_int (a : action) (x y : Z) : Z :=
  match a with
  | RAdd => wrap (TI 64) (x + y)
  | RMul => wrap (TI 64) (x * y)
  | RMin => if y <? x then y else x
  | RMax => if x <? y then y else x
  end.
Definition combine_real (a : action) (x y : real) : real :=
  match a with
  | RAdd => radd x y
  | RMul => rmul x y
  | RMin => if SFltb y x then y else x
  | RMax => if SFltb x y then y else x
  end.
(** scf.parallel gives no order to the iterations and no grouping to the
    combinations: a tree whose leaves are the initial value, once, and the
    values of the iterations. BMToArith.cpp:1705-1760. *)
Inductive tree := Leaf (i : option nat) | Node (a b : tree).
Fixpoint leaves (t : tree) : list (option nat) := match t with Leaf i => [i] | Node a b => leaves a ++ leaves b end.
Fixpoint reduce {A} (f : A -> A -> A) (init : A) (v : nat -> A) (t : tree) : A :=
  match t with
  | Leaf None => init
  | Leaf (Some n) => v n
  | Node a b => f (reduce f init v a) (reduce f init v b)
  end.

(** The iterations of a reduction over an integer range: RangeSizeOpLowering
    and the bounds of the loop; the arithmetic on indexes is taken not to
    overflow. BMToArith.cpp:208-238, 1665-1703. *)
Definition range_size (b e s : Z) : res Z := if s =? 0 then Bad else Ok (Z.quot (e - b) s + 1).
Definition loop_bounds (b e s : Z) : res (Z * Z * Z) :=
  size <- range_size b e s ;;
  let last := b + s * (size - 1) in
  let up := s >=? 0 in
  Ok ((if up then b else last), (if up then last else b) + 1, (if up then s else - s)).
(** scf.parallel (MLIR; not in /repo): lower, lower + step, ... below upper. *)
Definition parallel_loop (lower upper step : Z) : list Z :=
  map (fun k => lower + Z.of_nat k * step) (seq 0 (Z.to_nat ((upper - lower + step - 1) / step))).
Definition reduction_inductions (b e s : Z) : res (list Z) :=
  l <- loop_bounds b e s ;; let '(lower, upper, step) := l in Ok (parallel_loop lower upper step).
