(** When an operation may be executed, without the compiler. *)

From Coq Require Import List ZArith Bool Lia.
From Coq Require Import Floats.SpecFloat.
Import ListNotations.
From Verif Require Import SliceModel SliceSpec RtCheckModel.
Local Open Scope Z_scope.

(** The indices of the source name an element of an array with these sizes:
    as many as there are dimensions, each from one to the size. *)
Definition element (dims idx : list Z) : Prop :=
  Forall2 (fun d i => 1 <= i <= d) dims idx.

(** Every element that [x[ss]] stands for is an element of [x].  [r] are the
    sizes of the slice. *)
Definition slice_inside (dims : list Z) (ss : list sub) (r : list Z) : Prop :=
  forall i j, element r j -> slice_of 1 ss i j -> element dims i.

(** The slice has elements. *)
Definition some_element (r : list Z) : Prop := Forall (fun n => 1 <= n) r.

(** Only indices and colons. *)
Definition no_ranges (ss : list sub) : Prop :=
  forall s, In s ss -> s = All \/ exists i, s = At i.

(** The magnitude [m * 2^e] against a number of one: at most one. *)
Definition at_most_one (m : positive) (e : Z) : Prop :=
  if e <? 0 then Zpos m <= 2 ^ (- e) else Zpos m * 2 ^ e <= 1.

(** A double is zero (of either sign). *)
Definition is_zero (a : spec_float) : Prop := exists s, a = S754_zero s.

Definition is_nan (a : spec_float) : Prop := a = S754_nan.

(** [-1 <= a <= 1]. *)
Definition in_unit (a : spec_float) : Prop :=
  is_zero a \/ exists s m e, a = S754_finite s m e /\ at_most_one m e.

(** [a > 0]. *)
Definition above_zero (a : spec_float) : Prop :=
  a = S754_infinity false \/ exists m e, a = S754_finite false m e.

(** What the operation needs. *)
Definition math_defined (m : mathop) : Prop :=
  match m with
  | MDiv _ b | MDivTrunc _ b | MMod _ b | MRem _ b => ~ is_zero b /\ ~ is_nan b
  | MDivEW _ bs => forall b, In b bs -> ~ is_zero b /\ ~ is_nan b
  | MAcos a | MAsin a => in_unit a
  | MLog a | MLog10 a => above_zero a
  | MSqrt a => above_zero a \/ is_zero a
  end.

(** The doubles that occur: the representation of each number is the one of
    the format. *)
Definition double (a : spec_float) : Prop := valid_binary 53 1024 a = true.

Definition math_doubles (m : mathop) : Prop :=
  match m with
  | MDiv a b | MDivTrunc a b | MMod a b | MRem a b => double a /\ double b
  | MDivEW xs ys => Forall double xs /\ Forall double ys
  | MAcos a | MAsin a | MLog a | MLog10 a | MSqrt a => double a
  end.
