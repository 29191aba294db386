(** Specification of the explicitation: what the accesses denote. *)
From Coq Require Import List ZArith Reals.
From Verif Require Import Result MDRangeModel BoxSetModel Spec SymModel SymSpec.
Import ListNotations.

(** The leaves of an equation. *)
Definition leaf_of {A} (a : A) (eq : expr A * expr A) : Prop := subexpr (EAcc a) (fst eq) \/ subexpr (EAcc a) (snd eq).
(** [elem a] is the element of its variable a leaf denotes at the considered
    iteration of the equation (no coordinates for a scalar variable). It is one
    of the indices accessed by the equation, and equal access functions denote
    the same element. *)
Definition elements_ok {A} (avar : A -> nat) (aimg : A -> bset) (asame : A -> A -> bool) (elem : A -> list Z) (eq : expr A * expr A) : Prop :=
  (forall a, leaf_of a eq -> match aimg a with [] => elem a = [] | _ => in_boxes (elem a) (aimg a) end)
  /\ (forall a b, leaf_of a eq -> leaf_of b eq -> avar a = avar b -> asame a b = true -> elem a = elem b).
(** The value of the leaves, from the value of the elements. *)
Definition leaf_value {A} (avar : A -> nat) (elem : A -> list Z) (cell : nat -> list Z -> R) (a : A) : R := cell (avar a) (elem a).
(** The indices accessed by a leaf are all matched or none is. *)
Definition all_or_none (m img : bset) : Prop :=
  (m = [] /\ img = []) \/
  (m <> [] /\ img <> [] /\ ((forall p, in_boxes p img -> in_boxes p m) \/ (forall p, in_boxes p img -> ~ in_boxes p m))).
