(** Model of where the equations of the start attributes are put in the
    schedule of the initial model:
    lib/Dialect/BaseModelica/Transforms/Scheduling.cpp:199-236, 409-546.

    Simplifications: the elements of variables are cells, a variable and a
    flat index; the WritesMap is a list of the cells each block writes (its
    lookups are C17's subject, WritesMapModel.v); access functions are given
    by the cells they reach. *)

From Coq Require Import List Arith Bool Lia.
Import ListNotations.

Definition cell : Type := nat * nat.

(** An SCCOp of the schedule: the cells its equations write. *)
Record scc := mkScc { s_writes : list cell }.

(** A StartEquationInstanceOp: the cells it reads and those it writes, which
    are all of the variable [st_var]. *)
Record start := mkStart { st_reads : list cell; st_var : nat; st_writes : list cell }.

(** The operations of the block of the InitialOp. *)
Inductive item := ISCC (p : nat) | IStart (k : nat).

Definition cell_eqb (a b : cell) : bool := (fst a =? fst b) && (snd a =? snd b).

(** WritesMap::getWrites for one element: the positions of the SCCs that write
    it.  Scheduling.cpp:419-431, 483-485. *)
Fixpoint writers_from (p : nat) (sccs : list scc) (c : cell) : list nat :=
  match sccs with
  | [] => []
  | s :: sccs' =>
      (if existsb (cell_eqb c) (s_writes s) then [p] else []) ++ writers_from (S p) sccs' c
  end.
Definition writers (sccs : list scc) (c : cell) : list nat := writers_from 0 sccs c.

(** WritesMap::getWrites for all the elements of a variable. *)
Fixpoint var_writers_from (p : nat) (sccs : list scc) (v : nat) : list nat :=
  match sccs with
  | [] => []
  | s :: sccs' =>
      (if existsb (fun c => fst c =? v) (s_writes s) then [p] else [])
        ++ var_writers_from (S p) sccs' v
  end.

(** The first SCC that writes a variable: Scheduling.cpp:434-451. *)
Definition keep_first (acc : option nat) (p : nat) : option nat :=
  match acc with
  | None => Some p
  | Some q => if p <? q then Some p else Some q
  end.
Definition first_writing (sccs : list scc) (v : nat) : option nat :=
  fold_left keep_first (var_writers_from 0 sccs v) None.

(** The last SCC that writes something the start equation reads:
    Scheduling.cpp:454-500. *)
Definition keep_last (acc : option nat) (p : nat) : option nat :=
  match acc with
  | None => Some p
  | Some q => if q <? p then Some p else Some q
  end.
Definition last_dependency (sccs : list scc) (e : start) : option nat :=
  fold_left keep_last (flat_map (writers sccs) (st_reads e)) None.

(** setInsertionPointAfter and clone. *)
Fixpoint insert_after (p : nat) (x : item) (block : list item) : list item :=
  match block with
  | [] => []
  | ISCC q :: block' => if q =? p then ISCC q :: x :: block' else ISCC q :: insert_after p x block'
  | y :: block' => y :: insert_after p x block'
  end.

(** The insertion of one start equation, Scheduling.cpp:503-543. *)
Definition place (sccs : list scc) (k : nat) (e : start) (block : list item) : list item :=
  match last_dependency sccs e with
  | None => IStart k :: block
  | Some p => insert_after p (IStart k) block
  end.

(** The warning that the start value will not be computed properly,
    Scheduling.cpp:528-539. *)
Definition warned (sccs : list scc) (e : start) : bool :=
  match last_dependency sccs e, first_writing sccs (st_var e) with
  | Some p, Some q => negb (p <? q)
  | _, _ => false
  end.

Fixpoint place_all (sccs : list scc) (k : nat) (es : list start) (block : list item)
  : list item :=
  match es with
  | [] => block
  | e :: es' => place_all sccs (S k) es' (place sccs k e block)
  end.

(** addStartEquations: Scheduling.cpp:409-546. *)
Definition initial_block (sccs : list scc) (es : list start) : list item :=
  place_all sccs 0 es (map ISCC (seq 0 (length sccs))).
