(** Specification vocabulary for the incidence matrices. *)
From Coq Require Import ZArith List Bool.
From Verif Require Import RangeModel MDRangeModel Result BoxSetModel AccessModel Spec AccessSpec
  BoxSetProofs MCIMModel.
Import ListNotations.
Open Scope Z_scope.

(** The entry of the equation [e] and the variable [v] is set. *)
Definition entry (M : mcim) (e v : point) : Prop := mc_get M e v = Ok true.

(** [e] is an equation index and [v] a variable index of the matrix. *)
Definition cell (M : mcim) (e v : point) : Prop := in_boxes e (meqs M) /\ in_boxes v (mvars M).

(** A matrix with equations of rank [n] and variables of rank [k] whose groups
    hold division-free affine access functions, with all that it stores inside
    its spaces. *)
Record matrix (m : mlir) (n k : nat) (M : mcim) : Prop := {
  mx_n : (1 <= n)%nat;
  mx_k : (1 <= k)%nat;
  mx_eqs : bs_of n (meqs M) /\ meqs M <> [];
  mx_vars : bs_of k (mvars M) /\ mvars M <> [];
  mx_groups : forall g, In g (mgroups M) ->
    affine_access m n k (gfun g) /\
    (gclass g = KGeneric \/ gclass g = gclass (g_build (gfun g))) /\
    bs_of n (gkeys g) /\ gkeys g <> [] /\
    forall e, in_boxes e (gkeys g) ->
      in_boxes e (meqs M) /\ forall v, maps_to (gfun g) e v -> in_boxes v (mvars M);
  mx_points : bs_of (n + k) (mpoints M) /\
    forall e v, length e = n -> in_boxes (e ++ v) (mpoints M) -> cell M e v }.

(** The operations of a history. *)
Inductive mop :=
| OApply (equations : bset) (f : afun)
| OSet (e v : point)
| OUnset (e v : point).
Definition run_op (m : mlir) (M : mcim) (o : mop) : res mcim :=
  match o with
  | OApply s f => mc_apply m M s f
  | OSet e v => mc_set m M e v
  | OUnset e v => mc_unset m M e v
  end.
(** What the operation makes of the set of entries [R]. *)
Definition effect (vars : bset) (o : mop) (R : point -> point -> Prop) (e v : point) : Prop :=
  match o with
  | OApply s f => R e v \/ (in_boxes e s /\ maps_to f e v /\ in_boxes v vars)
  | OSet e' v' => R e v \/ (e = e' /\ v = v')
  | OUnset e' v' => R e v /\ ~ (e = e' /\ v = v')
  end.
Definition op_functions (o : mop) : list afun := match o with OApply _ f => [f] | _ => [] end.

(** A rotation-translation only agrees with the pairs it maps. *)
Definition agrees (f : afun) (e v : point) : Prop :=
  match f with AFRoto _ _ => maps_to f e v | _ => True end.

(** The operation is inside the spaces and, given the functions [fs] applied
    before, is one of those that the matrix handles. *)
Definition permitted (m : mlir) (n k : nat) (eqs vars : bset) (fs : list afun) (o : mop) : Prop :=
  match o with
  | OApply s f => affine_access m n k f /\ bs_of n s /\ s <> [] /\ regular f s /\
                  forall e, in_boxes e s -> in_boxes e eqs
  | OSet e v => in_boxes e eqs /\ in_boxes v vars /\ forall f, In f fs -> agrees f e v
  | OUnset e v => in_boxes e eqs /\ in_boxes v vars /\ forall f, In f fs -> maps_to f e v
  end.
Fixpoint all_permitted (m : mlir) (n k : nat) (eqs vars : bset) (fs : list afun) (l : list mop) : Prop :=
  match l with
  | [] => True
  | o :: l' => permitted m n k eqs vars fs o /\
               all_permitted m n k eqs vars (fs ++ op_functions o) l'
  end.
(** The entries after a history, from the entries [R]. *)
Fixpoint effects (vars : bset) (l : list mop) (R : point -> point -> Prop) : point -> point -> Prop :=
  match l with
  | [] => R
  | o :: l' => effects vars l' (effect vars o R)
  end.

(** Every dimension is used by some result of a rotation-translation. *)
Definition uses_all (f : afun) : Prop :=
  match f with AFRoto n rs => forall d, (d < n)%nat -> In d (flat_map adims rs) | _ => True end.

(** The pairs that a group stands for. *)
Definition holds (g : group) (e v : point) : Prop := in_boxes e (gkeys g) /\ maps_to (gfun g) e v.

(** The groups [g] and [h] have the same function; or the functions use each
    dimension once and, wherever both have the equation [e], they map it to the
    same variable or to a variable that the other group does not have. *)
Definition compatible (g h : group) : Prop :=
  af_eq (gfun g) (gfun h) = true \/
  (uses_all (gfun g) /\ uses_all (gfun h) /\ one_use (gfun g) /\ one_use (gfun h) /\
   forall e v w, holds g e v -> holds h e w ->
     v = w \/ (forall e', ~ holds h e' v) \/ (forall e', ~ holds g e' w)).

(** Two matrices have the same equations and the same variables. *)
Definition same_spaces (A B : mcim) : Prop :=
  (forall e, in_boxes e (meqs A) <-> in_boxes e (meqs B)) /\
  (forall v, in_boxes v (mvars A) <-> in_boxes v (mvars B)).
