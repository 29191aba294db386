(** What the removal of unneeded variables has to respect.

    The values [V] are whatever the variables take: numbers, or functions of time.
    [ieq] is the relation between the two sides of an initial equation, [meq] the
    one of an equation that holds during the simulation, and [der] the one between
    a variable and its derivative. *)
From Coq Require Import List.
From Verif Require Import PruneModel.
Import ListNotations.

Section Spec.
Context {K I : Type}.

(** An expression reads a variable. *)
Inductive reads : pexpr K I -> nat -> Prop :=
| reads_here : forall v s, reads (PRead v s) v
| reads_arg : forall o args a v, In a args -> reads a v -> reads (POp o args) v.
Definition eq_reads (q : peq K I) (v : nat) : Prop := reads (pe_left q) v \/ reads (pe_right q) v.
Definition equation_of (m : pmodel K I) (q : peq K I) : Prop := In q (pm_initial m) \/ In q (pm_main m).

(** The variables the outputs need: a needed variable needs what the equations
    that are solved for it read, its derivative, and the variable it is the
    derivative of. *)
Inductive needed (m : pmodel K I) : nat -> Prop :=
| needed_output : forall v, In v (pm_outputs m) -> needed m v
| needed_read : forall q w, equation_of m q -> needed m (pe_match q) -> eq_reads q w -> needed m w
| needed_derivative : forall v d, In (v, d) (pm_ders m) -> needed m v -> needed m d
| needed_derived : forall v d, In (v, d) (pm_ders m) -> needed m d -> needed m v.

(** The models the pass is given: the names are distinct and declared, each
    equation contains the variable it is matched with, a variable has one
    derivative and is the derivative of one variable, and no chain of derivatives
    comes back to itself (each derivative was declared after its variable). *)
Record well_formed (m : pmodel K I) : Prop := {
  wf_vars : NoDup (pm_vars m);
  wf_outputs : incl (pm_outputs m) (pm_vars m);
  wf_match : forall q, equation_of m q -> eq_reads q (pe_match q);
  wf_reads : forall q v, equation_of m q -> eq_reads q v -> In v (pm_vars m);
  wf_ders : forall v d, In (v, d) (pm_ders m) -> In v (pm_vars m) /\ In d (pm_vars m) /\ v < d;
  wf_der_one : forall v d d', In (v, d) (pm_ders m) -> In (v, d') (pm_ders m) -> d = d';
  wf_der_of_one : forall v v' d, In (v, d) (pm_ders m) -> In (v', d) (pm_ders m) -> v = v' }.

(** Every use of a variable has its declaration. *)
Definition declared (m : pmodel K I) : Prop :=
  (forall v, In v (pm_outputs m) -> In v (pm_vars m)) /\
  (forall q v, equation_of m q -> eq_reads q v -> In v (pm_vars m)) /\
  (forall s, In s (pm_starts m) -> In (fst s) (pm_vars m) /\ forall v, reads (snd s) v -> In v (pm_vars m)).

(** The solutions. *)
Variables (V : Type) (leaf : K -> I -> V) (op : nat -> list V -> V).
Variables ieq meq der : V -> V -> Prop.
Fixpoint value (x : nat -> I -> V) (p : I) (e : pexpr K I) : V :=
  match e with
  | PLeaf k => leaf k p
  | PRead v s => x v (s p)
  | POp o args => op o (map (value x p) args)
  end.
Definition holds (R : V -> V -> Prop) (x : nat -> I -> V) (q : peq K I) : Prop :=
  forall p, In p (pe_points q) -> R (value x p (pe_left q)) (value x p (pe_right q)).
Record solution (m : pmodel K I) (x : nat -> I -> V) : Prop := {
  sol_initial : forall q, In q (pm_initial m) -> holds ieq x q;
  sol_main : forall q, In q (pm_main m) -> holds meq x q;
  sol_der : forall v d, In (v, d) (pm_ders m) -> In v (pm_vars m) -> forall p, der (x v p) (x d p) }.

End Spec.
