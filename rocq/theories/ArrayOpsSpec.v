(** Operators on arrays, after section 10.6 of the Modelica specification. *)

From Coq Require Import List Arith Bool Lia.
Import ListNotations.
From Verif Require Import ArrayOpsModel.

Section Spec.
Context {K : Type} (zero one : K) (add sub mul fdiv : K -> K -> K).

(** [f 0 + ... + f (n - 1)]. *)
Definition total (n : nat) (f : nat -> K) : K :=
  fold_right (fun k s => add (f k) s) zero (seq 0 n).

(** What an element-wise operator does with two numbers. *)
Definition op_of (b : bop) : K -> K -> K :=
  match b with
  | BAdd | BAddEW => add
  | BSub | BSubEW => sub
  | BMul | BMulEW => mul
  | BDiv | BDivEW => fdiv
  end.

(** The element [i] of an operand: a scalar is the same everywhere. *)
Definition elem (x : @val K) (i : list nat) : K :=
  match x with VS _ k => k | VA a => a_at a i end.

(** The type of the elements of an operand. *)
Definition type_of (x : @val K) : ety := match x with VS t _ => t | VA a => a_ty a end.

(** The type of a result: Real if an operand is; a quotient is always Real. *)
Definition typed (b : bop) (x y : @val K) (t : ety) : Prop :=
  t = EReal <-> type_of x = EReal \/ type_of y = EReal \/ b = BDiv \/ b = BDivEW.

(** The result of an element-wise operator: the sizes of the operands, and the
    operator on each pair of elements. *)
Definition elementwise (b : bop) (dims : list nat) (x y : @val K) (r : option (@val K)) : Prop :=
  exists a, r = Some (VA a) /\ a_dims a = dims /\ typed b x y (a_ty a)
    /\ forall i, a_at a i = op_of b (elem x i) (elem y i).

(** Products of vectors and matrices. *)
Definition is_dot (n : nat) (x y : @arr K) (r : option (@val K)) : Prop :=
  exists t, r = Some (VS t (total n (fun k => mul (a_at x [k]) (a_at y [k]))))
    /\ typed BMul (VA x) (VA y) t.
Definition is_vecmat (n m : nat) (x y : @arr K) (r : option (@val K)) : Prop :=
  exists a, r = Some (VA a) /\ a_dims a = [m] /\ typed BMul (VA x) (VA y) (a_ty a)
    /\ forall j, j < m -> a_at a [j] = total n (fun k => mul (a_at x [k]) (a_at y [k; j])).
Definition is_matvec (m n : nat) (x y : @arr K) (r : option (@val K)) : Prop :=
  exists a, r = Some (VA a) /\ a_dims a = [m] /\ typed BMul (VA x) (VA y) (a_ty a)
    /\ forall i, i < m -> a_at a [i] = total n (fun k => mul (a_at x [i; k]) (a_at y [k])).
Definition is_matmul (m n p : nat) (x y : @arr K) (r : option (@val K)) : Prop :=
  exists a, r = Some (VA a) /\ a_dims a = [m; p] /\ typed BMul (VA x) (VA y) (a_ty a)
    /\ forall i j, i < m -> j < p ->
       a_at a [i; j] = total n (fun k => mul (a_at x [i; k]) (a_at y [k; j])).

(** Powers of a matrix with [n] rows and columns: the identity, then products. *)
Fixpoint power (n : nat) (a : nat -> nat -> K) (e : nat) : nat -> nat -> K :=
  match e with
  | 0 => fun i j => if i =? j then one else zero
  | S e' => fun i j => total n (fun k => mul (power n a e' i k) (a k j))
  end.

(** The combinations of a scalar of type [st] and an array with elements of
    type [at_] that work: [b] with the scalar on the left or not. *)
Definition mixed_ok (b : bop) (left : bool) (st at_ : ety) : Prop :=
  match b with
  | BMul => left = true /\ (at_ = EReal -> st = EReal)
  | BAddEW | BMulEW => at_ = EReal -> st = EReal
  | BDiv => left = false /\ st = EReal
  | BSubEW => st = EReal -> at_ = EReal
  | BDivEW => at_ = EReal
  | BAdd | BSub => False
  end.

End Spec.
