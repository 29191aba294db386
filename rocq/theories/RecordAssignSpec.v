(** Which elements an assignment to a component of a record changes. *)
From Coq Require Import List Arith Bool ZArith Lia.
Import ListNotations.
From Verif Require Import RecordRefModel RecordRefSpec RecordAssignModel.

(** Element [j] of the value is stored in element [i] of the variable [p] of rank [r]:
    [w] gives the variable and the subscripts of the insertion. *)
Definition stores (w : list nat * list sub) (r : nat) (j : list Z) (p : list nat) (i : list Z) : Prop :=
  fst w = p /\ picked (snd w) r j i.

(** The number of dimensions of all the names of a reference. *)
Fixpoint total_rank (t : rty) (es : list entry) : nat :=
  match es with
  | [] => 0
  | (f, _) :: es' => match field t f with Some (r, t') => r + total_rank t' es' | None => 0 end
  end.

(** A record whose components are not records. *)
Definition flat (fs : list (nat * (nat * rty))) : Prop := forall f r t, In (f, (r, t)) fs -> t = TBase.
