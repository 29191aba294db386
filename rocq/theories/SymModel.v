(** Model of the symbolic manipulation of equations:
    lib/Dialect/BaseModelica/Transforms/InvertibleOpInterfaceImpl.cpp and
    lib/Dialect/BaseModelica/IR/Ops.cpp (distribution and explicitation).

    An expression is the tree of the operations that define a value: a value
    used twice is two equal subtrees (every rewriting below replaces a value
    with an equal one, in all its uses). The operands are scalars; loads of
    rank-0 arrays ([unwrap], InvertibleOpInterfaceImpl.cpp:6-19) are their
    element; result types are not modelled. A leaf is a constant or the access
    to an element of a variable, with its subscripts. Every other operation
    (elementary functions, powers, calls, ...) is an [ECall]. *)
From Coq Require Import List Bool ZArith QArith.
From Verif Require Import Result.
Import ListNotations.
Local Open Scope nat_scope.

Inductive bop := BAdd | BSub | BMul | BDiv.
(** [ew]: the element-wise operation (add_ew, ...). *)
Inductive expr {A : Type} :=
| EConst (q : Q)
| EAcc (a : A)
| ENeg (e : expr)
| EBin (ew : bool) (o : bop) (l r : expr)
| ECall (f : nat) (args : list expr).
Arguments expr : clear implicits.

Section Sym.
Context {A : Type}.
Notation expr := (expr A).

(** ** Inversion *)

(** mlir::Operation::getOperand. *)
Definition operands (e : expr) : list expr :=
  match e with
  | ENeg x => [x]
  | EBin _ _ l r => [l; r]
  | ECall _ args => args
  | _ => []
  end.

(** InvertibleOpInterfaceImpl.cpp:452-461, the arguments of the inverse call. *)
Fixpoint inverse_args (args : list expr) (y : expr) (idx : list nat) : res (list expr) :=
  match idx with
  | [] => Ok []
  | i :: idx' =>
      x <- (match nth_error args i with
            | Some a => Ok a
            | None => if Nat.eqb i (length args) then Ok y else Bad
            end) ;;
      xs <- inverse_args args y idx' ;;
      Ok (x :: xs)
  end.
(** InvertibleOpInterfaceImpl.cpp:22-474, inverse. [inv f k] is the "inverse"
    annotation of a function: the inverse function for the argument k and the
    positions of its arguments. Ok None: an error. *)
Definition inverse (inv : nat -> nat -> option (nat * list nat)) (e : expr) (k : nat) (y : expr) : res (option expr) :=
  match e with
  | ENeg _ => match k with O => Ok (Some (ENeg y)) | _ => Ok None end
  | EBin ew o l r =>
      match o, k with
      | BAdd, 0 => Ok (Some (EBin ew BSub y r))
      | BAdd, 1 => Ok (Some (EBin ew BSub y l))
      | BSub, 0 => Ok (Some (EBin ew BAdd y r))
      | BSub, 1 => Ok (Some (EBin ew BSub l y))
      | BMul, 0 => Ok (Some (EBin ew BDiv y r))
      | BMul, 1 => Ok (Some (EBin ew BDiv y l))
      | BDiv, 0 => Ok (Some (EBin ew BMul y r))
      | BDiv, 1 => Ok (Some (EBin ew BDiv l y))
      | _, _ => Ok None
      end
  | ECall f args =>
      if length args <=? k then Ok None
      else match inv f k with
           | None => Ok None
           | Some (g, idx) => xs <- inverse_args args y idx ;; Ok (Some (ECall g xs))
           end
  | _ => Ok None
  end.

(** EquationPath.h: the side. *)
Inductive side := SLeft | SRight.
(** Ops.cpp:8769-8836, explicitateLeaf. *)
Definition explicitateLeaf inv (eq : expr * expr) (k : nat) (s : side) : res (option (expr * expr)) :=
  let (l, r) := eq in
  let (t, o) := match s with SLeft => (l, r) | SRight => (r, l) end in
  i <- inverse inv t k o ;;
  match i with
  | None => Ok None
  | Some i =>
      match nth_error (operands t) k with
      | None => Bad
      | Some a => Ok (Some (match s with SLeft => (a, i) | SRight => (i, a) end))
      end
  end.
(** Ops.cpp:8713-8720, the operations along the path (without its first
    element, the position in the equation side). *)
Fixpoint explicitate_path inv (eq : expr * expr) (path : list nat) (s : side) : res (option (expr * expr)) :=
  match path with
  | [] => Ok (Some eq)
  | k :: path' =>
      o <- explicitateLeaf inv eq k s ;;
      match o with Some eq' => explicitate_path inv eq' path' s | None => Ok None end
  end.
(** Ops.cpp:8710-8731, explicitate when there is one write access. *)
Definition explicitate_single inv (eq : expr * expr) (path : list nat) (s : side) : res (option (expr * expr)) :=
  o <- explicitate_path inv eq path s ;;
  Ok (match o, s with
      | Some (l, r), SRight => Some (r, l)
      | _, _ => o
      end).

(** ** Distribution *)

(** distributeNegateOp: Ops.cpp:2188-2217 (neg), 2576-2626 (add), 3231-3281
    (sub), 3968-4013 (mul), 4660-4705 (div), and the same for the element-wise
    operations. None: the operation does not implement the interface. *)
Fixpoint dneg (e : expr) : option expr :=
  match e with
  | ENeg x => Some (ENeg (match dneg x with Some y => y | None => ENeg x end))
  | EBin ew BAdd l r =>
      Some (EBin ew BAdd (match dneg l with Some y => y | None => ENeg l end) (match dneg r with Some y => y | None => ENeg r end))
  | EBin ew BSub l r =>
      Some (EBin ew BSub (match dneg l with Some y => y | None => ENeg l end) (match dneg r with Some y => y | None => ENeg r end))
  | EBin ew BMul l r =>
      Some (match dneg l with
            | Some l' => EBin ew BMul l' r
            | None => match dneg r with
                      | Some r' => EBin ew BMul l r'
                      | None => EBin ew BMul (ENeg l) r
                      end
            end)
  | EBin ew BDiv l r =>
      Some (match dneg l with
            | Some l' => EBin ew BDiv l' r
            | None => match dneg r with
                      | Some r' => EBin ew BDiv l r'
                      | None => EBin ew BDiv (ENeg l) r
                      end
            end)
  | _ => None
  end.

(** distributeMulOp: Ops.cpp:2219-2248 (neg), 2628-2680 (add), 3283-3335 (sub),
    4015-4061 (mul), 4707-4753 (div). *)
Fixpoint dmul (v e : expr) : option expr :=
  match e with
  | ENeg x => Some (ENeg (match dmul v x with Some y => y | None => EBin false BMul x v end))
  | EBin ew BAdd l r =>
      Some (EBin ew BAdd (match dmul v l with Some y => y | None => EBin false BMul l v end)
                         (match dmul v r with Some y => y | None => EBin false BMul r v end))
  | EBin ew BSub l r =>
      Some (EBin ew BSub (match dmul v l with Some y => y | None => EBin false BMul l v end)
                         (match dmul v r with Some y => y | None => EBin false BMul r v end))
  | EBin ew BMul l r =>
      Some (match dmul v l with
            | Some l' => EBin ew BMul l' r
            | None => match dmul v r with
                      | Some r' => EBin ew BMul l r'
                      | None => EBin ew BMul (EBin false BMul l v) r
                      end
            end)
  | EBin ew BDiv l r =>
      Some (match dmul v l with
            | Some l' => EBin ew BDiv l' r
            | None => match ddiv v r with
                      | Some r' => EBin ew BDiv l r'
                      | None => EBin ew BDiv (EBin false BMul l v) r
                      end
            end)
  | _ => None
  end
(** distributeDivOp: Ops.cpp:2250-2279 (neg), 2682-2734 (add), 3337-3389 (sub),
    4063-4126 (mul), 4755-4801 (div). *)
with ddiv (v e : expr) : option expr :=
  match e with
  | ENeg x => Some (ENeg (match ddiv v x with Some y => y | None => EBin false BDiv x v end))
  | EBin ew BAdd l r =>
      Some (EBin ew BAdd (match ddiv v l with Some y => y | None => EBin false BDiv l v end)
                         (match ddiv v r with Some y => y | None => EBin false BDiv r v end))
  | EBin ew BSub l r =>
      Some (EBin ew BSub (match ddiv v l with Some y => y | None => EBin false BDiv l v end)
                         (match ddiv v r with Some y => y | None => EBin false BDiv r v end))
  | EBin ew BMul l r =>
      Some (match ddiv v l with
            | Some l' => EBin ew BMul l' r
            | None => match ddiv v r with
                      | Some r' => EBin ew BMul l r'
                      | None => EBin ew BMul (EBin false BDiv l v) r
                      end
            end)
  | EBin ew BDiv l r =>
      Some (match ddiv v l with
            | Some l' => EBin ew BDiv l' r
            | None => match dmul v r with
                      | Some r' => EBin ew BDiv l r'
                      | None => EBin ew BDiv (EBin false BDiv l v) r
                      end
            end)
  | _ => None
  end.

(** distribute: Ops.cpp:2166-2186 (neg), 3932-3966 (mul), 4637-4658 (div, which
    succeeds with itself; div_ew fails: the value is the same). *)
Definition distribute (e : expr) : option expr :=
  match e with
  | ENeg x => dneg x
  | EBin _ BMul l r => match dmul r l with Some x => Some x | None => dmul l r end
  | EBin _ BDiv l r => ddiv r l
  | _ => None
  end.

(** Ops.cpp:8838-8867, removeSubtractions. The operands of subscriptions and
    loads are in the leaves. *)
Fixpoint removeSubtractions (e : expr) : expr :=
  match e with
  | EConst _ | EAcc _ => e
  | ENeg x => ENeg (removeSubtractions x)
  | EBin false BSub l r => EBin false BAdd (removeSubtractions l) (ENeg (removeSubtractions r))
  | EBin ew o l r => EBin ew o (removeSubtractions l) (removeSubtractions r)
  | ECall f args => ECall f (map removeSubtractions args)
  end.
(** Ops.cpp:8869-8901, distributeMulAndDivOps. *)
Fixpoint distributeMulAndDivOps (e : expr) : expr :=
  match e with
  | EConst _ | EAcc _ => e
  | ENeg x => ENeg (distributeMulAndDivOps x)
  | EBin ew o l r =>
      let e' := EBin ew o (distributeMulAndDivOps l) (distributeMulAndDivOps r) in
      match distribute e' with Some x => x | None => e' end
  | ECall f args => ECall f (map distributeMulAndDivOps args)
  end.
(** Ops.cpp:8903-8928, pushNegateOps. *)
Fixpoint pushNegateOps (e : expr) : expr :=
  match e with
  | EConst _ | EAcc _ => e
  | ENeg x =>
      let e' := ENeg (pushNegateOps x) in
      match distribute e' with Some y => y | None => e' end
  | EBin ew o l r => EBin ew o (pushNegateOps l) (pushNegateOps r)
  | ECall f args => ECall f (map pushNegateOps args)
  end.
(** Ops.cpp:9290-9308, convertToSumsFn. *)
Definition convertToSums (e : expr) : expr :=
  pushNegateOps (distributeMulAndDivOps (removeSubtractions e)).
End Sym.
