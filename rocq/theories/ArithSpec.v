(** What arithmetic on scalars means in the language, written without the
    functions of the model. The syntax of expressions and of constants is
    that of the model. Reals are the IEEE binary64 numbers with the
    operations of Coq's SpecFloat; integers are the mathematical ones, with no
    meaning given to a result outside of 64 bits. *)
From Coq Require Import ZArith List Bool SpecFloat Reals Permutation.
From Flocq Require Import Core.Zaux Core.Raux Core.Defs IEEE754.BinarySingleNaN.
From Verif Require Import ArithModel.
Import ListNotations.
Local Open Scope Z_scope.

Inductive value := VB (b : bool) | VI (z : Z) | VR (f : spec_float).
Inductive lty := LB | LI | LR.

Definition in_range (z : Z) : Prop := - 2 ^ 63 <= z < 2 ^ 63.
Definition in_rangeb (z : Z) : bool := (- 2 ^ 63 <=? z) && (z <? 2 ^ 63).
(** The Real an Integer is converted to. *)
Definition nearest (z : Z) : spec_float := SpecFloat.binary_normalize 53 1024 z 0 false.
(** A double that exists: mantissa and exponent are those of the format. *)
Definition is_double (f : spec_float) : Prop := SpecFloat.valid_binary 53 1024 f = true.

Definition an_integer (z : Z) : option value := if in_rangeb z then Some (VI z) else None.
Definition as_real (v : value) : option spec_float :=
  match v with VI z => Some (nearest z) | VR f => Some f | VB _ => None end.
Definition both_real (f : spec_float -> spec_float -> spec_float) (a b : value) : option value :=
  match as_real a, as_real b with Some x, Some y => Some (VR (f x y)) | _, _ => None end.
(** Two Integers give an Integer; a Real makes the other operand Real. *)
Definition numbers (fi : Z -> Z -> Z) (ff : spec_float -> spec_float -> spec_float) (a b : value) : option value :=
  match a, b with VI x, VI y => an_integer (fi x y) | _, _ => both_real ff a b end.
(** Order of two values of the same kind: false comes before true, and a NaN
    is not comparable. *)
Definition order (a b : value) : option (option comparison) :=
  match a, b with
  | VB x, VB y => Some (Some (if Bool.eqb x y then Datatypes.Eq else if x then Datatypes.Gt else Datatypes.Lt))
  | VI x, VI y => Some (Some (x ?= y))
  | _, _ => match as_real a, as_real b with Some x, Some y => Some (SFcompare x y) | _, _ => None end
  end.
Definition compared (f : option comparison -> bool) (a b : value) : option value :=
  match order a b with Some c => Some (VB (f c)) | None => None end.
Definition booleans (f : bool -> bool -> bool) (a b : value) : option value :=
  match a, b with VB x, VB y => Some (VB (f x y)) | _, _ => None end.

(** [pow] is the exponentiation of reals. *)
Definition mean_bin (pow : spec_float -> spec_float -> spec_float) (o : bop) : value -> value -> option value :=
  match o with
  | Add | AddEW => numbers Z.add (SFadd 53 1024)
  | Sub | SubEW => numbers Z.sub (SFsub 53 1024)
  | Mul | MulEW => numbers Z.mul (SFmul 53 1024)
  | Div | DivEW => both_real (SFdiv 53 1024)
  | Pow | PowEW => both_real pow
  | Eq => compared (fun c => match c with Some Datatypes.Eq => true | _ => false end)
  | Ne => compared (fun c => match c with Some Datatypes.Eq => false | _ => true end)
  | Gt => compared (fun c => match c with Some Datatypes.Gt => true | _ => false end)
  | Ge => compared (fun c => match c with Some Datatypes.Gt | Some Datatypes.Eq => true | _ => false end)
  | Lt => compared (fun c => match c with Some Datatypes.Lt => true | _ => false end)
  | Le => compared (fun c => match c with Some Datatypes.Lt | Some Datatypes.Eq => true | _ => false end)
  | And => booleans andb
  | Or => booleans orb
  end.
Definition mean_un (o : uop) (a : value) : option value :=
  match o, a with
  | Neg, VI z => an_integer (- z)
  | Neg, VR f => Some (VR (SFopp f))
  | Not, VB b => Some (VB (negb b))
  | _, _ => None
  end.

(** The types of the language. *)
Definition join (a b : lty) : option lty :=
  match a, b with
  | LI, LI => Some LI
  | LI, LR | LR, LI | LR, LR => Some LR
  | _, _ => None
  end.
Definition lang_bin (o : bop) (a b : lty) : option lty :=
  match o with
  | Add | AddEW | Sub | SubEW | Mul | MulEW => join a b
  | Div | DivEW | Pow | PowEW => match join a b with Some _ => Some LR | None => None end
  | Eq | Ne | Gt | Ge | Lt | Le => match a, b with LB, LB => Some LB | _, _ => match join a b with Some _ => Some LB | None => None end end
  | And | Or => match a, b with LB, LB => Some LB | _, _ => None end
  end.
Definition lang_un (o : uop) (a : lty) : option lty :=
  match o, a with Neg, LI => Some LI | Neg, LR => Some LR | Not, LB => Some LB | _, _ => None end.
Definition lang_ite (a b : lty) : option lty := match a, b with LB, LB => Some LB | _, _ => join a b end.
Definition lang_ty (t : ty) : option lty := match t with TBool => Some LB | TInt => Some LI | TReal => Some LR | _ => None end.
Definition lang_const (a : attr) : option lty :=
  match a with AB _ => Some LB | AI _ => Some LI | AR _ => Some LR | _ => None end.
Fixpoint lang_type (e : exp) : option lty :=
  match e with
  | Cst a => lang_const a
  | Var _ t => lang_ty t
  | Un o a => match lang_type a with Some ta => lang_un o ta | None => None end
  | Bin o a b => match lang_type a, lang_type b with Some ta, Some tb => lang_bin o ta tb | _, _ => None end
  | Ite c a b =>
      match lang_type c, lang_type a, lang_type b with
      | Some LB, Some ta, Some tb => lang_ite ta tb
      | _, _, _ => None
      end
  | CastE t a =>
      match lang_type a, lang_ty t with
      | Some LB, Some LB => Some LB
      | Some LI, Some LI => Some LI
      | Some LI, Some LR | Some LR, Some LR => Some LR
      | _, _ => None
      end
  end.

(** A value seen at a type: an Integer becomes a Real. *)
Definition at_type (t : lty) (v : value) : option value :=
  match t, v with
  | LB, VB b => Some (VB b)
  | LI, VI z => Some (VI z)
  | LR, VI z => Some (VR (nearest z))
  | LR, VR f => Some (VR f)
  | _, _ => None
  end.
Definition mean_const (a : attr) : option value :=
  match a with AB b => Some (VB b) | AI z => Some (VI z) | AR f => Some (VR f) | _ => None end.
Fixpoint meaning (pow : spec_float -> spec_float -> spec_float) (env : nat -> value) (e : exp) : option value :=
  match e with
  | Cst a => mean_const a
  | Var n _ => Some (env n)
  | Un o a => match meaning pow env a with Some v => mean_un o v | None => None end
  | Bin o a b =>
      match meaning pow env a, meaning pow env b with Some v, Some w => mean_bin pow o v w | _, _ => None end
  | Ite c a b =>
      match meaning pow env c, lang_type e with
      | Some (VB k), Some t => match meaning pow env (if k then a else b) with Some v => at_type t v | None => None end
      | _, _ => None
      end
  | CastE t a =>
      match meaning pow env a, lang_ty t with Some v, Some lt => at_type lt v | _, _ => None end
  end.

(** The variables and constants of an expression hold values of their type. *)
Definition has_type (t : lty) (v : value) : Prop :=
  match t, v with
  | LB, VB _ => True
  | LI, VI z => in_range z
  | LR, VR f => is_double f
  | _, _ => False
  end.
Fixpoint well_valued (env : nat -> value) (e : exp) : Prop :=
  match e with
  | Cst (AI z) => in_range z
  | Cst (AR f) => is_double f
  | Cst (AB _) => True
  | Cst _ => False
  | Var n t => match lang_ty t with Some lt => has_type lt (env n) | None => False end
  | Un _ a => well_valued env a
  | Bin _ a b => well_valued env a /\ well_valued env b
  | Ite c a b => well_valued env c /\ well_valued env a /\ well_valued env b
  | CastE _ a => well_valued env a
  end.

(** How a value is held by the generated code. *)
Definition held (v : value) : aval :=
  match v with
  | VB b => IV (TI 1) (if b then -1 else 0)
  | VI z => IV (TI 64) z
  | VR f => FV (TF 64) f
  end.

(** ** Built-in functions, on the real numbers *)

Definition R_of (f : spec_float) : R := SF2R radix2 f.
Definition finite (f : spec_float) : Prop := match f with S754_zero _ | S754_finite _ _ _ => True | _ => False end.

(** A finite double that is a given number. *)
Definition is_num (f : spec_float) (r : R) : Prop := is_double f /\ finite f /\ R_of f = r.
(** The number a constant of the language is; an Integer of at most 53 bits. *)
Definition const_num (a : attr) (r : R) : Prop :=
  match a with AI z => Z.abs z <= 2 ^ 53 /\ IZR z = r | AR f => is_num f r | _ => False end.
Definition sign_of (r : R) : Z := if Rlt_bool r 0 then -1 else if Rlt_bool 0 r then 1 else 0.

(** ** Reductions and ranges *)

(** An order in which the n values of a reduction can be combined: a tree
    whose leaves are those values and the initial one, each once. *)
Definition order_of (n : nat) (t : tree) : Prop := Permutation (leaves t) (None :: map Some (seq 0 n)).
Definition total (v : nat -> Z) (n : nat) : Z := fold_right Z.add 0 (map v (seq 0 n)).
Definition product (v : nat -> Z) (n : nat) : Z := fold_right Z.mul 1 (map v (seq 0 n)).
(** The values of the range begin : step : end. *)
Definition in_the_range (b e s v : Z) : Prop :=
  exists k, 0 <= k /\ v = b + k * s /\ (if 0 <=? s then v <= e else e <= v).

(** ** The operations the generated code gets right

    Left out: [.-], which adds; [./] of two Integers, which truncates; powers,
    which this conversion does not lower; the order of two Booleans; [<>] of a
    NaN; and an if-expression with an Integer first and a Real second. *)
Fixpoint covered (pow : spec_float -> spec_float -> spec_float) (env : nat -> value) (e : exp) : Prop :=
  match e with
  | Cst _ | Var _ _ => True
  | Un _ a | CastE _ a => covered pow env a
  | Bin o a b =>
      covered pow env a /\ covered pow env b /\
      match o with
      | SubEW | Pow | PowEW => False
      | DivEW => lang_type a <> Some LI \/ lang_type b <> Some LI
      | Gt | Ge | Lt | Le => lang_type a <> Some LB \/ lang_type b <> Some LB
      | Ne => forall v, meaning pow env a = Some v \/ meaning pow env b = Some v -> v <> VR S754_nan
      | _ => True
      end
  | Ite c a b =>
      covered pow env c /\ covered pow env a /\ covered pow env b /\
      (lang_type a <> Some LI \/ lang_type b <> Some LR)
  end.

(** Expressions to which the compiler gives the types of the language: none
    of their operations is a power or an element-wise quotient of two
    Integers, which are Real in the language. *)
Fixpoint same_types (e : exp) : Prop :=
  match e with
  | Cst _ | Var _ _ => True
  | Un _ a | CastE _ a => same_types a
  | Bin o a b =>
      same_types a /\ same_types b /\
      match o with DivEW | Pow | PowEW => lang_type a <> Some LI \/ lang_type b <> Some LI | _ => True end
  | Ite c a b => same_types c /\ same_types a /\ same_types b
  end.

(** A constant zero. *)
Definition zero_const (e : exp) : Prop :=
  match e with Cst (AI 0) | Cst (AR (S754_zero _)) => True | _ => False end.
(** The operations whose folding is exact: not a power or an element-wise
    quotient of two Integers, and not a product by a constant zero that gives
    a Real. *)
Definition exact_fold (e : exp) : Prop :=
  match e with
  | Bin (DivEW | Pow | PowEW) a b => lang_type a <> Some LI \/ lang_type b <> Some LI
  | Bin Mul a b => lang_type e = Some LI \/ (~ zero_const a /\ ~ zero_const b)
  | _ => True
  end.
(** The operations that folding and simplification replace by an equal value:
    not a power; not a product of Reals by a constant zero; not a sum of
    Reals whose value is a zero, which loses its sign. *)
Definition exact_step (pow : spec_float -> spec_float -> spec_float) (env : nat -> value) (e : exp) : Prop :=
  match e with
  | Bin (Pow | PowEW) _ _ => False
  | Bin Mul a b => lang_type e = Some LI \/ (~ zero_const a /\ ~ zero_const b)
  | Bin Add a b => lang_type e = Some LI \/ forall s, meaning pow env e <> Some (VR (S754_zero s))
  | _ => True
  end.

(** An operation on constants. *)
Definition on_constants (e : exp) : Prop :=
  match e with Un _ (Cst _) | Bin _ (Cst _) (Cst _) | CastE _ (Cst _) => True | _ => False end.

(** ** The most generic type of two: the table in the comment of the function
    that computes it (Dialect.cpp:186-196), read in both directions. *)
Definition rank (t : ty) : Z :=
  match t with TBool => 0 | TIndex => 1 | TI _ => 2 | TInt => 3 | TF _ => 4 | TReal => 5 | TArr => 6 end.
Definition documented (a b : ty) : ty :=
  match a, b with
  | TI v, TI w => TI (Z.max v w)
  | TF v, TF w => TF (Z.max v w)
  | _, _ => if rank a <? rank b then b else a
  end.
