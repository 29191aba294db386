(** Specification for the symbolic manipulation: the value of an expression. *)
From Coq Require Import List QArith Reals Qreals.
From Verif Require Import Result SymModel.
Import ListNotations.
Local Open Scope R_scope.

Section Value.
Context {A : Type}.
(** The value of an element, and the other functions (partial). *)
Variable val : A -> R.
Variable fenv : nat -> list R -> option R.

Definition obind {X Y} (o : option X) (f : X -> option Y) : option Y := match o with Some x => f x | None => None end.
Definition bop_value (o : bop) (x y : R) : option R :=
  match o with
  | BAdd => Some (x + y)
  | BSub => Some (x - y)
  | BMul => Some (x * y)
  | BDiv => if Req_EM_T y 0 then None else Some (x / y)
  end.
Fixpoint all_some {X} (l : list (option X)) : option (list X) :=
  match l with
  | [] => Some []
  | o :: l' => obind o (fun x => obind (all_some l') (fun xs => Some (x :: xs)))
  end.
(** None: undefined (a division by zero, a function outside of its domain). *)
Fixpoint value (e : expr A) : option R :=
  match e with
  | EConst q => Some (Q2R q)
  | EAcc a => Some (val a)
  | ENeg x => obind (value x) (fun v => Some (- v))
  | EBin _ o l r => obind (value l) (fun x => obind (value r) (fun y => bop_value o x y))
  | ECall f args => obind (all_some (map value args)) (fenv f)
  end.

(** An equation is defined when both sides are, and holds when they are equal. *)
Definition defined (eq : expr A * expr A) : Prop := value (fst eq) <> None /\ value (snd eq) <> None.
Definition holds (eq : expr A * expr A) : Prop := exists x, value (fst eq) = Some x /\ value (snd eq) = Some x.

(** The operands of every product are different from zero. *)
Inductive subexpr : expr A -> expr A -> Prop :=
| sub_refl : forall e, subexpr e e
| sub_neg : forall x e, subexpr x e -> subexpr x (ENeg e)
| sub_left : forall x ew o l r, subexpr x l -> subexpr x (EBin ew o l r)
| sub_right : forall x ew o l r, subexpr x r -> subexpr x (EBin ew o l r)
| sub_call : forall x f args a, In a args -> subexpr x a -> subexpr x (ECall f args).
Definition factors_nonzero (e : expr A) : Prop :=
  forall ew l r, subexpr (EBin ew BMul l r) e -> value l <> Some 0 /\ value r <> Some 0.

(** The annotation of an inverse function is right: if g applied to the
    arguments and to z gives v, then f gives z exactly when its argument is v. *)
Fixpoint inverse_values (xs : list R) (z : R) (idx : list nat) : option (list R) :=
  match idx with
  | [] => Some []
  | i :: idx' =>
      obind (match nth_error xs i with Some x => Some x | None => if Nat.eqb i (length xs) then Some z else None end)
        (fun x => obind (inverse_values xs z idx') (fun l => Some (x :: l)))
  end.
Definition inverse_ok (inv : nat -> nat -> option (nat * list nat)) : Prop :=
  forall f k g idx xs u, inv f k = Some (g, idx) -> fenv f xs = Some u ->
    In (length xs) idx /\
    forall z ys v x, inverse_values xs z idx = Some ys -> fenv g ys = Some v -> nth_error xs k = Some x -> (u = z <-> x = v).
End Value.

(** The subexpression at a path. *)
Fixpoint at_path {A} (e : expr A) (path : list nat) : option (expr A) :=
  match path with
  | [] => Some e
  | k :: path' => match nth_error (operands e) k with Some x => at_path x path' | None => None end
  end.
