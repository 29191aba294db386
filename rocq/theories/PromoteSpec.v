(** What the promotion of variables to parameters has to respect.

    [T] are the instants, [V] the values, [clock] the value of `time` at an
    instant, and [t0] the first instant. *)
From Coq Require Import ZArith List.
From Verif Require Import RangeModel MDRangeModel BoxSetModel Spec BoxSetProofs PromoteModel.
Import ListNotations.

Section Spec.
Context {K : Type}.

(** The accesses of an equation. *)
Inductive occurs : vexpr K -> vaccess -> Prop :=
| occurs_here : forall a, occurs (VRead a) a
| occurs_arg : forall o args e a, In e args -> occurs e a -> occurs (VOp o args) a.
Definition has_access (q : veq K) (a : vaccess) : Prop := occurs (ve_left q) a \/ occurs (ve_right q) a.
(** The elements an equation reads, and the ones it is solved for. *)
Definition reads_element (q : veq K) (w : nat) (i : point) : Prop :=
  exists a p, has_access q a /\ In p (ve_points q) /\ w = a_var a /\ i = a_sub a p.
Definition solved_for (q : veq K) (w : nat) (i : point) : Prop :=
  w = ve_match q /\ exists p, In p (ve_points q) /\ i = ve_write q p.
Definition element (s : bset) (i : point) : Prop := match s with [] => i = [] | _ => in_boxes i s end.

(** The models the pass is given: the sets of indices are what the access
    functions reach, and empty for scalars; equations reach elements of their
    variables, and no two main equations are solved for the same element. *)
Definition reached_by (points : list point) (f : point -> point) (dims s : bset) : Prop :=
  match dims with
  | [] => s = [] /\ forall p, In p points -> f p = []
  | _ => s <> [] /\ (exists rk, bs_of rk s /\ bs_of rk dims) /\
      (forall i, in_boxes i s <-> exists p, In p points /\ i = f p) /\ (forall i, in_boxes i s -> in_boxes i dims)
  end.
Record well_formed (m : vmodel K) : Prop := {
  wf_names : NoDup (map fst (vm_vars m));
  wf_write : forall q, In q (vm_initial m) \/ In q (vm_main m) ->
    exists dims, In (ve_match q, dims) (vm_vars m) /\ reached_by (ve_points q) (ve_write q) dims (ve_indices q);
  wf_points : forall q, In q (vm_initial m) \/ In q (vm_main m) -> ve_points q <> [];
  wf_once : forall k k' q q' w i, nth_error (vm_main m) k = Some q -> nth_error (vm_main m) k' = Some q' ->
    solved_for q w i -> solved_for q' w i -> k = k';
  wf_read : forall q a, In q (vm_main m) -> has_access q a ->
    exists dims, In (a_var a, dims) (vm_vars m) /\ reached_by (ve_points q) (a_sub a) dims (a_read a) }.

(** No access of an equation reaches both an element some main equation is
    solved for and one that no main equation is solved for, as a state. *)
Definition whole_accesses (m : vmodel K) : Prop :=
  forall q a, In q (vm_main m) -> has_access q a ->
    (exists q' i, In q' (vm_main m) /\ solved_for q' (a_var a) i /\ exists p, In p (ve_points q) /\ i = a_sub a p) ->
    forall p, In p (ve_points q) -> exists q', In q' (vm_main m) /\ solved_for q' (a_var a) (a_sub a p).

Variables (T V : Type) (clock : T -> V) (leaf : K -> point -> V) (op : nat -> list V -> V) (t0 : T).

(** Values of an expression and validity of an equation, with the value of time
    and the values of the variables at one instant. *)
Fixpoint value (c : V) (x : nat -> point -> V) (p : point) (e : vexpr K) : V :=
  match e with
  | VTime => c
  | VLeaf k => leaf k p
  | VRead a => x (a_var a) (a_sub a p)
  | VOp o args => op o (map (value c x p) args)
  end.
Definition holds (c : V) (x : nat -> point -> V) (q : veq K) : Prop :=
  forall p, In p (ve_points q) -> value c x p (ve_left q) = value c x p (ve_right q).

Record solution (m : vmodel K) (x : T -> nat -> point -> V) : Prop := {
  sol_readonly : forall v dims t t' i, In v (vm_readonly m) -> In (v, dims) (vm_vars m) -> element dims i -> x t v i = x t' v i;
  sol_initial : forall q, In q (vm_initial m) -> holds (clock t0) (x t0) q;
  sol_main : forall q t, In q (vm_main m) -> holds (clock t) (x t) q }.

(** What the initial equations solve for is not lost by taking a main equation
    away: where an initial equation is solved for the element, the main equation
    is among the initial ones too, whatever it is solved for there. *)
Definition initial_repeats (m : vmodel K) : Prop :=
  forall q p, In q (vm_main m) -> In p (ve_points q) ->
    (exists q', In q' (vm_initial m) /\ solved_for q' (ve_match q) (ve_write q p)) ->
    exists q', In q' (vm_initial m) /\ In p (ve_points q') /\ ve_left q' = ve_left q /\ ve_right q' = ve_right q.
(** Elements of arrays are not written by equations without iterations. *)
Definition arrays_iterated (m : vmodel K) : Prop :=
  forall q dims, In q (vm_main m) -> In (ve_match q, dims) (vm_vars m) -> dims <> [] -> ve_space q <> [].

(** A set of equations determines, at each instant, the elements it is solved for
    from the other ones it reads. *)
Definition determines (S : list (veq K)) : Prop :=
  forall c x y, (forall q, In q S -> holds c x q) -> (forall q, In q S -> holds c y q) ->
    (forall q w i, In q S -> reads_element q w i -> (exists q', In q' S /\ solved_for q' w i) \/ x w i = y w i) ->
    forall q w i, In q S -> solved_for q w i -> x w i = y w i.
Definition sccs_determine (m : vmodel K) (sccs : list (list nat)) : Prop :=
  forall scc, In scc sccs -> determines (flat_map (fun k => match nth_error (vm_main m) k with Some q => [q] | None => [] end) scc).

(** So do the equations of each SCC that are not for the parameters of [m']. *)
Definition rest_determines (m m' : vmodel K) (sccs : list (list nat)) : Prop :=
  forall scc S, In scc sccs ->
    (forall q, In q S <-> exists k, In k scc /\ nth_error (vm_main m) k = Some q /\ ~ In (ve_match q) (vm_readonly m')) -> determines S.

End Spec.
