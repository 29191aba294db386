(** Which variables of a function the arguments and results of a call belong to. *)
From Coq Require Import List Arith Bool Lia.
Import ListNotations.
From Verif Require Import RecordRefModel RecordCallModel.

(** The paths of the components without records of a type, in the order in which they
    are declared. *)
Fixpoint leaves (t : rty) : list (list nat) :=
  match t with
  | TBase => [[]]
  | TRec fs => flat_map (fun c => map (cons (fst c)) (leaves (snd (snd c)))) fs
  end.

(** [f] has parameters with the types of the arguments, in this order. *)
Definition fits (args : list arg) (inputs : list fvar) : Prop :=
  Forall2 (fun a x => a_ty a = snd (snd x)) args inputs.

(** The arguments have the ranks of the parameters. *)
Definition same_ranks (args : list arg) (inputs : list fvar) : Prop :=
  Forall2 (fun a x => a_rank a = fst (snd x)) args inputs.

(** The new argument [a] is for the new parameter [x]: both are the component [path]
    of an argument and of the parameter it is for. If the argument had a name, so has
    the new one. *)
Definition passes (args : list arg) (inputs : list fvar) (a : arg) (x : fvar) : Prop :=
  exists i a0 x0 path, nth_error args i = Some a0 /\ nth_error inputs i = Some x0 /\
    a_val a = a_val a0 /\ a_comps a = a_comps a0 ++ path /\ fst x = fst x0 ++ path /\
    (a_label a0 = [] -> a_label a = []) /\ (a_label a0 <> [] -> a_label a = a_label a0 ++ path).

Definition no_record_vars (xs : list fvar) : Prop := forall p r t, In (p, (r, t)) xs -> t = TBase.
Definition no_record_args (xs : list arg) : Prop := forall a, In a xs -> a_ty a = TBase.

(** The use [u] is of the component [p] of the outputs. *)
Definition is_of (xs : list fvar) (u : use) (p : list nat) : Prop :=
  exists x, nth_error xs (fst u) = Some x /\ p = fst x ++ snd u.

(** Results that are not records come before those that are, here and after each
    of the unpackings. *)
Definition plain_first (xs : list fvar) : Prop :=
  exists l l', xs = l ++ l' /\ Forall (fun x => snd (snd x) = TBase) l /\
    Forall (fun x => snd (snd x) <> TBase) l'.
Inductive tidy : list fvar -> Prop :=
| tidy_step : forall xs, plain_first xs -> (forall xs', new_results xs = Some xs' -> existsb is_record xs = true -> tidy xs') -> tidy xs.
