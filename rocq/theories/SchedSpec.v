(** Specification vocabulary for the dependency graphs and the schedules. *)
From Coq Require Import ZArith List Relations.
From Verif Require Import RangeModel MDRangeModel Result BoxSetModel Spec BoxSetProofs AccessModel AccessSpec LoopModel LoopSpec SchedModel.
Import ListNotations.
Local Open Scope nat_scope.

(** The iteration [p] of an equation writes (reads) the element [q] of the
    variable [v]. *)
Definition writes_element (e : equation) (p : point) (v : nat) (q : point) : Prop :=
  exists f, In (v, f) (eq_writes e) /\ accesses f p q.
Definition reads_element (e : equation) (p : point) (v : nat) (q : point) : Prop :=
  exists f, In (v, f) (eq_reads e) /\ accesses f p q.
(** The equation writes (reads) the element [q] of [v] at some iteration. *)
Definition writes_index (e : equation) (v : nat) (q : point) : Prop :=
  exists p, in_boxes p (eq_space e) /\ writes_element e p v q.
Definition reads_index (e : equation) (v : nat) (q : point) : Prop :=
  exists p, in_boxes p (eq_space e) /\ reads_element e p v q.

(** An equation whose accesses have been built for its dimensions and for the
    ranks of the variables; at each iteration they give indices of the variable. *)
Record equation_ok (m : mlir) (vrank : nat -> nat) (e : equation) : Prop := {
  rank_positive : 1 <= eq_rank e;
  space_boxes : bs_of (eq_rank e) (eq_space e);
  accesses_built : forall v f, In (v, f) (eq_writes e ++ eq_reads e) ->
    1 <= vrank v /\ built_access m (eq_rank e) (vrank v) f;
  accesses_defined : forall v f p, In (v, f) (eq_writes e ++ eq_reads e) -> in_boxes p (eq_space e) ->
    exists u, af_map_point f p = Ok u /\ bs_of (vrank v) u }.

(** All the writes are to one variable. *)
Definition one_written (e : equation) : Prop :=
  forall v f v' f', In (v, f) (eq_writes e) -> In (v', f') (eq_writes e) -> v = v'.
(** All the writes are to the same element, at each iteration. *)
Definition same_writes (e : equation) : Prop :=
  forall v f v' f' p q, In (v, f) (eq_writes e) -> In (v', f') (eq_writes e) -> in_boxes p (eq_space e) ->
    v = v' /\ (accesses f p q <-> accesses f' p q).

(** Each access is to one element, at each iteration. *)
Definition single_valued (e : equation) : Prop :=
  forall v f p, In (v, f) (eq_writes e ++ eq_reads e) -> in_boxes p (eq_space e) -> exists q, maps_to f p q.
(** No dimension is used by two results of an access. *)
Definition functions_once (e : equation) : Prop :=
  forall v f, In (v, f) (eq_writes e ++ eq_reads e) -> one_use f.

(** [a] occurs before [b]. *)
Definition precedes {A} (l : list A) (a b : A) : Prop := exists l1 l2 l3, l = l1 ++ a :: l2 ++ b :: l3.
(** [b] can be reached from [a]. *)
Definition reaches {A} (R : A -> A -> Prop) : A -> A -> Prop := clos_refl_trans A R.

(** The component [a] depends on the component [b]. *)
Definition component_depends (sccs : list (list nat)) (deps : nat -> list nat) (a b : nat) : Prop :=
  exists x y s t, nth_error sccs a = Some s /\ nth_error sccs b = Some t /\ In x s /\ In y t /\ In y (deps x).

(** The iterations of an equation that has to be executed before: the writer of
    an element that the other one reads. *)
Definition iteration_depends (e : equation) (i j : point) : Prop :=
  i <> j /\ in_boxes i (eq_space e) /\ in_boxes j (eq_space e) /\
  exists v q, reads_element e i v q /\ writes_element e j v q.

(** An order of the iterations of a loop nest: by the outermost dimension first,
    each dimension increasing, decreasing, or in any order [any] if it is marked
    so. *)
Inductive executed_before (any : nat -> Z -> Z -> Prop) : nat -> list direction -> point -> point -> Prop :=
| executed_here : forall d k ds x y p q,
    match k with
    | DirForward => (x < y)%Z
    | DirBackward => (y < x)%Z
    | _ => any d x y
    end -> executed_before any d (k :: ds) (x :: p) (y :: q)
| executed_next : forall d k ds x p q,
    executed_before any (S d) ds p q -> executed_before any d (k :: ds) (x :: p) (x :: q).

(** The instances (equation and index) of a schedule, in order. *)
Definition instances (l : list (list (nat * bset * list direction))) : list (nat * point) :=
  flat_map (fun x => map (pair (fst (fst x))) (bs_points (snd (fst x)))) (concat l).
(** The instances of some equations. *)
Definition all_instances (eqs : nat -> equation) (l : list nat) : list (nat * point) :=
  flat_map (fun x => map (pair x) (bs_points (eq_space (eqs x)))) l.
(** The entry at the position [k] of a schedule executes the index [p] of the
    equation [x], in a loop with the directions [ds]. *)
Definition executes (l : list (list (nat * bset * list direction))) (k x : nat) (p : point) (ds : list direction) : Prop :=
  exists s, nth_error (concat l) k = Some (x, s, ds) /\ in_boxes p s.
(** The reads of the written variable are affine. *)
Definition affine_self_reads (m : mlir) (vrank : nat -> nat) (e : equation) : Prop :=
  forall v f g, In (v, f) (eq_writes e) -> In (v, g) (eq_reads e) -> affine_access m (eq_rank e) (vrank v) g.

(** An equation that is scheduled alone. *)
Record schedulable (m : mlir) (vrank : nat -> nat) (e : equation) : Prop := {
  sched_ok : equation_ok m vrank e;
  sched_writes : same_writes e;
  sched_single : single_valued e;
  sched_reads : affine_self_reads m vrank e }.
