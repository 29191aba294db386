(** What a slice is, after section 10.5 of the Modelica specification, without
    the compiler. *)

From Coq Require Import List ZArith Bool Lia.
Import ListNotations.
From Verif Require Import SliceModel.
Local Open Scope Z_scope.

(** [slice_of base ss i j]: element [j] of [x[ss]] is element [i] of [x].
    [base] is the first index: 1 in the source, 0 in the compiler.  An index
    takes the dimension away; element number [n] of a range [b:s:e] is
    [b + n * s]; the colon and the subscripts that are missing keep the
    index. *)
Inductive slice_of (base : Z) : list sub -> list Z -> list Z -> Prop :=
| so_rest : forall i, slice_of base [] i i
| so_at : forall k ss i j, slice_of base ss i j -> slice_of base (At k :: ss) (k :: i) j
| so_rng : forall b e s n ss i j, slice_of base ss i j ->
    slice_of base (Rng b e s :: ss) (b + n * s :: i) (base + n :: j)
| so_all : forall k ss i j, slice_of base ss i j ->
    slice_of base (All :: ss) (k :: i) (k :: j).

(** Element [j] of a slice of a slice of ... is element [i] of the source. *)
Inductive chain_of (base : Z) : list (list sub) -> list Z -> list Z -> Prop :=
| co_nil : forall i, chain_of base [] i i
| co_cons : forall ss chain i k j, slice_of base ss i k -> chain_of base chain k j ->
    chain_of base (ss :: chain) i j.

(** Only indices: no ranges. *)
Definition only_indices (ss : list sub) : Prop := forall s, In s ss -> exists i, s = At i.

(** No arrays of indices and no colons (they are gone after the boundaries are
    inferred). *)
Definition plain (ss : list sub) : Prop :=
  forall s, In s ss -> (exists i, s = At i) \/ (exists b e st, s = Rng b e st).

(** [n] is the number of values of the range [b:s:e]: the values are
    [b], [b + s], ... as long as they do not pass [e]. *)
Definition range_count (b e s n : Z) : Prop :=
  0 <= n /\ forall k, 0 <= k -> (k < n <-> (0 < s /\ b + k * s <= e) \/ (s < 0 /\ e <= b + k * s)).

(** The sizes of the slice [x[ss]] of an array [x] with sizes [dims]. *)
Inductive slice_dims : list Z -> list sub -> list Z -> Prop :=
| sd_rest : forall dims, slice_dims dims [] dims
| sd_at : forall d dims k ss r, slice_dims dims ss r -> slice_dims (d :: dims) (At k :: ss) r
| sd_rng : forall d dims b e s n ss r, range_count b e s n -> slice_dims dims ss r ->
    slice_dims (d :: dims) (Rng b e s :: ss) (n :: r)
| sd_all : forall d dims ss r, slice_dims dims ss r ->
    slice_dims (d :: dims) (All :: ss) (d :: r).

(** No range is empty. *)
Definition no_empty (ss : list sub) : Prop :=
  forall b e s, In (Rng b e s) ss -> (0 < s /\ b <= e) \/ (s < 0 /\ e <= b).
