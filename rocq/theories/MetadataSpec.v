(** What the description of a compiled model must say. *)

From Coq Require Import List Arith ZArith Bool String Permutation.
From Verif Require Import RangeModel MDRangeModel Result MetadataModel.
Import ListNotations.
Local Open Scope nat_scope.

(** A name that the compiler reserves for itself. *)
Definition reserved (n : string) : Prop := exists rest, n = ("__" ++ rest)%string.

(** [v] is the variable number [i]: it is declared, it is not reserved, and [i]
    variables that are not reserved are declared before it. *)
Inductive nth_public : list variable -> nat -> variable -> Prop :=
| np_here : forall v vs, ~ reserved (v_name v) -> nth_public (v :: vs) 0 v
| np_next : forall u vs i v, ~ reserved (v_name u) -> nth_public vs i v -> nth_public (u :: vs) (S i) v
| np_skip : forall u vs i v, reserved (v_name u) -> nth_public vs i v -> nth_public (u :: vs) i v.

(** The element at the indices [p] lies in the box number [r] of the variable
    number [x], as a caller that asks for the bounds of every dimension sees
    it. *)
Definition in_reported_box (lo hi : Z -> Z -> Z -> option Z) (x r : Z) (p : list Z) : Prop :=
  forall d v, nth_error p d = Some v ->
    exists b e, lo x r (Z.of_nat d) = Some b /\ hi x r (Z.of_nat d) = Some e /\ (b <= v < e)%Z.
