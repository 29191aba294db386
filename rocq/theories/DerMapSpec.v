(** What the derivatives map must satisfy, in terms of its calls. *)
From Coq Require Import ZArith List Bool.
From Verif Require Import RangeModel MDRangeModel Spec BoxSetModel Result DerMapModel.
Import ListNotations.
Local Open Scope nat_scope.

(** The (variable, derivative) pairs a history associates, in order. *)
Definition associations (h : list dm_op) : list (nat * nat) :=
  flat_map (fun o => match o with SetDerivative v d => [(v, d)] | _ => [] end) h.
(** Every derivative is associated once; every variable is associated once. *)
Definition derivatives_once (h : list dm_op) : Prop := NoDup (map snd (associations h)).
Definition variables_once (h : list dm_op) : Prop := NoDup (map fst (associations h)).

(** [h] gives derived indices to [v], and [p] is one of them: some call gave [p]
    and no later call replaced the set. *)
Definition gives_indices (h : list dm_op) (v : nat) : Prop :=
  exists s, In (SetIndices v s) h \/ In (AddIndices v s) h.
Definition derives_index (h : list dm_op) (v : nat) (p : point) : Prop :=
  exists h1 o h2 s, h = h1 ++ o :: h2 /\ (o = SetIndices v s \/ o = AddIndices v s) /\ in_boxes p s
    /\ forall s', ~ In (SetIndices v s') h2.

(** Two maps that no lookup tells apart. *)
Definition same_lookups (m1 m2 : dmap) : Prop :=
  (forall v, dm_getDerivative m1 v = dm_getDerivative m2 v)
  /\ (forall d, dm_getDerivedVariable m1 d = dm_getDerivedVariable m2 d)
  /\ (forall v, (forall s, dm_getDerivedIndices m1 v = Ok (Some s) ->
                  exists s', dm_getDerivedIndices m2 v = Ok (Some s') /\ forall p, in_boxes p s <-> in_boxes p s')
             /\ (forall s, dm_getDerivedIndices m2 v = Ok (Some s) ->
                  exists s', dm_getDerivedIndices m1 v = Ok (Some s') /\ forall p, in_boxes p s <-> in_boxes p s')).

(** The two directions of a map agree, and each derived variable has a set of
    derived indices. *)
Record consistent (m : dmap) : Prop := {
  con_inverse : forall v d, dm_getDerivative m v = Some d <-> dm_getDerivedVariable m d = Some v;
  con_indices : forall v d, dm_getDerivative m v = Some d -> exists s, dm_getDerivedIndices m v = Ok (Some s)
}.

(** SymbolTable::insert finds a name that is not in the table. *)
Definition finds_unique (unique : list nat -> nat -> nat) : Prop :=
  forall table v, ~ In (unique table v) table.

(** The maps (and symbol tables) the two passes can produce, from a model with
    no derivatives and distinct names, on differentiated variables of the model.
    [order] is the order in which the parallel walk met the variables. *)
Inductive reached (unique : list nat -> nat -> nat) : dmap -> list nat -> Prop :=
| reached_new : forall table, NoDup table -> reached unique dm_new table
| reached_materialize : forall m table uses order,
    reached unique m table ->
    (forall v, In v order <-> In v (map fst uses)) ->
    (forall v, In v order -> In v table) ->
    reached unique (fst (dm_materialize unique m table uses order))
                   (snd (dm_materialize unique m table uses order))
| reached_differentiate : forall m table v rank s,
    reached unique m table -> In v table ->
    reached unique (fst (dm_differentiate unique m table v rank s))
                   (snd (dm_differentiate unique m table v rank s)).

(** [l] is the maximal chain of [next] from [v], [v] excluded. *)
Inductive chain (next : nat -> option nat) : nat -> list nat -> Prop :=
| chain_end : forall v, next v = None -> chain next v []
| chain_next : forall v w l, next v = Some w -> chain next w l -> chain next v (w :: l).
