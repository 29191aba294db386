(** * What an algorithm section of a model says

    Modelica 3.x, 11.1.2: the variables assigned in an algorithm section have
    their start values when it begins; it is a set of equations, one for each of
    them, whose other unknowns are the variables it only reads. *)
From Coq Require Import ZArith List.
From Verif Require Import Result StmtModel StmtSpec CallModel CallSpec SecModel.
Import ListNotations.

(** The start value of a variable: the one that is written, or zero. *)
Definition start_of (starts : list (nat * cexp)) (x : nat) (d : cexp) : Prop :=
  In (x, d) starts \/ (d = CNum 0 /\ forall e, ~ In (x, e) starts).

(** The variables when the section begins, in a model whose variables have the
    values [m]. *)
Definition at_beginning (I : nat -> Z -> Z -> Z) (starts : list (nat * cexp)) (b : block) (m st : nat -> Z) : Prop :=
  (forall x d, In x (assigned_block b) -> start_of starts x d -> st x = ceval I st d) /\
  (forall x, ~ In x (assigned_block b) -> st x = m x).

(** Each variable the section assigns has the value the section leaves in it. *)
Definition section_holds (I : nat -> Z -> Z -> Z) (starts : list (nat * cexp)) (b : block) (m : nat -> Z) : Prop :=
  exists st, at_beginning I starts b m st /\
    forall x, In x (assigned_block b) -> exists st', exec_function st [b] st' /\ st' x = m x.

(** The results of a call: the inputs hold the arguments, what the other
    variables hold is not known ([junk]), and the results are what the outputs
    hold at the end. *)
Definition frame (ins : list nat) (args : list Z) (junk : nat -> Z) : nat -> Z :=
  fun x => match find (fun p => Nat.eqb x (fst p)) (combine ins args) with Some p => snd p | None => junk x end.
Definition call_returns (f : sfun) (junk : nat -> Z) (args : list Z) (results : list Z) : Prop :=
  exists fuel st', run_function (sf_graph f) fuel (frame (sf_inputs f) args junk) = Ok st' /\
    results = map st' (sf_outputs f).

(** The equation [x = f(args)[i]] in a model whose variables have the values [m],
    whatever the memory of the function holds. *)
Definition equation_holds (f : sfun) (m : nat -> Z) (e : nat * (list nat * nat)) : Prop :=
  forall junk, exists results, call_returns f junk (map m (fst (snd e))) results /\
    nth_error results (snd (snd e)) = Some (m (fst e)).
Definition equations_hold (f : sfun) (m : nat -> Z) : Prop :=
  forall e, In e (section_equations f) -> equation_holds f m e.

(** A hash set is visited in any order, each element once. *)
Definition visits_once (order : list nat -> list nat) : Prop :=
  forall l, NoDup (order l) /\ forall x, In x (order l) <-> In x l.

(** The variables a start value reads. *)
Definition starts_from (starts : list (nat * cexp)) (b : block) : Prop :=
  NoDup (map fst starts) /\ acyclic starts /\
  forall x d y, In x (assigned_block b) -> In (x, d) starts -> In y (gets d) -> In y (assigned_block b).
