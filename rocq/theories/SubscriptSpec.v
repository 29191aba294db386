(** Specification of the constant ranges and of the subscripts. *)
From Coq Require Import ZArith List.
From Verif Require Import RangeModel MDRangeModel AccessModel SubscriptModel.
Import ListNotations.
Open Scope Z_scope.

(** The values of the Modelica range lower:step:upper. *)
Definition range_value (r : irange) (v : Z) : Prop :=
  exists k, 0 <= k /\ v = ilower r + k * istep r
    /\ ((0 < istep r /\ v <= iupper r) \/ (istep r < 0 /\ iupper r <= v)).

(** The values a subscript denotes for the iteration [p]: several if a range
    occurs in it. Division truncates; dividing by zero has no value. *)
Inductive sub_value (p : point) : sub -> Z -> Prop :=
| sv_const : forall c, sub_value p (SConst c) c
| sv_range : forall r v, range_value r v -> sub_value p (SRange r) v
| sv_neg : forall a v, sub_value p a v -> sub_value p (SNeg a) (- v)
| sv_add : forall a b u v, sub_value p a u -> sub_value p b v -> sub_value p (SAdd a b) (u + v)
| sv_sub : forall a b u v, sub_value p a u -> sub_value p b v -> sub_value p (SSub a b) (u - v)
| sv_mul : forall a b u v, sub_value p a u -> sub_value p b v -> sub_value p (SMul a b) (u * v)
| sv_div : forall a b u v, sub_value p a u -> sub_value p b v -> v <> 0 -> sub_value p (SDiv a b) (Z.quot u v)
| sv_ind : forall d v, nth_error p d = Some v -> sub_value p (SInd d) v.

(** No range and no unknown value occurs. *)
Fixpoint plain (e : sub) : Prop :=
  match e with
  | SConst _ | SInd _ => True
  | SNeg a => plain a
  | SAdd a b | SSub a b | SMul a b | SDiv a b => plain a /\ plain b
  | SRange _ | SOther => False
  end.

(** The dividends of the floor divisions are not negative at [p]. *)
Fixpoint dividends_ok (p : point) (e : aexpr) : Prop :=
  match e with
  | ADim _ | AConst _ => True
  | AAdd a b | AMul a b | ACeilDiv a b | AMod a b => dividends_ok p a /\ dividends_ok p b
  | AFloorDiv a b => dividends_ok p a /\ dividends_ok p b
      /\ (forall u, aeval p a = Some u -> 0 <= u) /\ (forall v, aeval p b = Some v -> 0 < v)
  end.
