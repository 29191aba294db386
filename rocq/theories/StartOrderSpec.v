(** Running the block of the initial model. *)

From Coq Require Import List Arith Bool Lia.
Import ListNotations.
From Verif Require Import StartOrderModel.

(** [a] comes before [b] in [l]. *)
Definition before {A} (a b : A) (l : list A) : Prop :=
  exists l1 l2, l = l1 ++ l2 /\ In a l1 /\ In b l2.

(** The SCC at a position writes a cell. *)
Definition scc_writes (sccs : list scc) (p : nat) (c : cell) : Prop :=
  exists s, nth_error sccs p = Some s /\ In c (s_writes s).

Definition start_writes (es : list start) (k : nat) (c : cell) : Prop :=
  exists e, nth_error es k = Some e /\ In c (st_writes e).

(** A start equation that reads what an SCC computes, and whose variable is
    written by that SCC or by one before it. *)
Definition conflict (sccs : list scc) (e : start) : Prop :=
  exists p q r i, In r (st_reads e) /\ scc_writes sccs p r /\
    scc_writes sccs q (st_var e, i) /\ q <= p.

(** Values of the cells, what an SCC does to them, and the value a start
    equation gives to a cell. *)
Section Run.
Context {V : Type}.
Definition values := cell -> V.
Variable solve : nat -> values -> values.
Variable expr : nat -> cell -> values -> V.

(** An SCC changes only what it writes; a start equation depends only on what
    it reads. *)
Definition solves_own (sccs : list scc) : Prop :=
  forall p s c, ~ scc_writes sccs p c -> solve p s c = s c.
Definition reads_only (es : list start) : Prop :=
  forall k e c s s', nth_error es k = Some e ->
    (forall r, In r (st_reads e) -> s r = s' r) -> expr k c s = expr k c s'.

Definition run_item (es : list start) (x : item) (s : values) : values :=
  match x with
  | ISCC p => solve p s
  | IStart k => fun c =>
      match nth_error es k with
      | Some e => if existsb (cell_eqb c) (st_writes e) then expr k c s else s c
      | None => s c
      end
  end.

Fixpoint run_block (es : list start) (l : list item) (s : values) : values :=
  match l with
  | [] => s
  | x :: l' => run_block es l' (run_item es x s)
  end.
End Run.
Arguments values V : clear implicits.
