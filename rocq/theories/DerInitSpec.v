(** What determines the elements of the derivatives. *)

From Coq Require Import ZArith List.
From Verif Require Import MDRangeModel IndexSetSpec DerInitModel.
Import ListNotations.

(** The indices of the elements of an array. *)
Definition in_shape (p : list Z) (dims : list Z) : Prop := Forall2 (fun x d => 0 <= x < d)%Z p dims.

(** The model differentiates the element [p] of the variable. *)
Definition derived (e : dentry) (p : list Z) : Prop := exists s, de_indices e = Some s /\ holds s p.

(** Dimensions are positive and the derived indices have as many coordinates as
    the variable dimensions. *)
Definition valid_entry (e : dentry) : Prop :=
  Forall (fun d => 0 < d)%Z (de_dims e) /\
  forall s, de_indices e = Some s -> exists c, built c (length (de_dims e)) s.

(** The equation number [i] sets the element [p] of the variable [d] to zero. *)
Definition sets_zero (qs : list dequation) (i : nat) (d : nat) (p : list Z) : Prop :=
  exists q, nth_error qs i = Some q /\ dq_variable q = d /\ holds (dq_indices q) p.
