(** What the user of the index reduction sees: the calls of the two callbacks. *)
From Coq Require Import ZArith List Bool Arith Permutation.
From Verif Require Import RangeModel Result MatchModel MatchSpec PantModel.
Import ListNotations.
Local Open Scope nat_scope.

(** [b] comes after [a] in the log, with the calls [between] in the middle. *)
Definition after (log : list pevent) (a : pevent) (between : list pevent) (b : pevent) : Prop :=
  exists l1 l3, log = l1 ++ a :: between ++ b :: l3.

(** No index of an equation is handed twice to the callback. *)
Definition equations_once (log : list pevent) : Prop :=
  forall a m b p, after log a m b -> pe_var a = false -> pe_var b = false ->
    pe_id a = pe_id b -> In p (pe_ind a) -> ~ In p (pe_ind b).

(** The same for the variables. *)
Definition variables_once (log : list pevent) : Prop :=
  forall a m b p, after log a m b -> pe_var a = true -> pe_var b = true ->
    pe_id a = pe_id b -> In p (pe_ind a) -> ~ In p (pe_ind b).

(** The derivative that the callback gives for a variable is never a variable that
    has been differentiated before. *)
Definition forward (log : list pevent) : Prop :=
  forall a m c, after log a m c -> pe_var a = true -> pe_var c = true -> pe_ans c <> pe_id a.

(** Each call is about a variable or equation that the user has declared, or that an
    earlier call of the same callback has answered. *)
Definition known_calls (Dv De : nat -> Prop) (log : list pevent) : Prop :=
  forall l1 e l2, log = l1 ++ e :: l2 ->
    (if pe_var e then Dv else De) (pe_id e) \/
    exists a, In a l1 /\ pe_var a = pe_var e /\ pe_ans a = pe_id e.

(** * What is asked of the user and of the scheduler *)

(** The parallel loops deliver their results in any order, and lose none. *)
Definition orders_only (sc : psched) : Prop :=
  (forall r lv w l, Permutation (pc_ord sc r lv w l) l) /\
  (forall r l, Permutation (pc_vis sc r l) l).

(** The callbacks answer with at least an index for what they have differentiated. *)
Definition answers {U} (vdiff : U -> nat -> pset -> U * (nat * pset))
  (ediff : U -> nat -> pset -> U * (nat * (pset * list (nat * macc)))) : Prop :=
  (forall u id s, s <> [] -> snd (snd (vdiff u id s)) <> []) /\
  (forall u id s, s <> [] -> fst (snd (snd (ediff u id s))) <> []).

Definition declared_variable (ops : list pop) (id : nat) : Prop := exists s, In (PVar id s) ops.
Definition declared_equation (ops : list pop) (id : nat) : Prop := exists s a, In (PEqn id s a) ops.

(** * Results *)

(** The declared equation [e] accesses the index [p] of the variable [v] at [i]. *)
Definition reads (ops : list pop) (e : nat) (i : point) (v : nat) (p : point) : Prop :=
  exists s acc m, In (PEqn e s acc) ops /\ In (v, m) acc /\ In p (macc_map m i).

(** Each index of a declared variable that is differentiated is read by an index of an
    equation that is. *)
Definition needed (ops : list pop) (log : list pevent) : Prop :=
  forall a p, In a log -> pe_var a = true -> In p (pe_ind a) ->
    exists b i, In b log /\ pe_var b = false /\ In i (pe_ind b) /\
      reads ops (pe_id b) i (pe_id a) p.

(** From the equation [id] the calls lead, derivative after derivative, to an equation
    whose vertex is as said by [B]. *)
Inductive leads (eqs : list (nat * nat)) (log : list pevent) (B : nat -> Prop) : nat -> Prop :=
| leads_here : forall d id, In (d, id) eqs -> B d -> leads eqs log B id
| leads_next : forall a, In a log -> pe_var a = false -> leads eqs log B (pe_ans a) ->
    leads eqs log B (pe_id a).

(** The scalar equation [i] of the vertex [d] is left: it is in the graph, and it has
    not been differentiated. *)
Definition left_equation {U} (st : pstate U) (d : nat) (i : point) : Prop :=
  In i (mt_all (g_vx (p_g st) (ne d))) /\
  exists id, In (d, id) (p_eid st) /\
    forall a, In a (p_log st) -> pe_var a = false -> pe_id a = id -> ~ In i (pe_ind a).

(** The scalar equation [i] of [d] has the scalar variable [j] of [v], in the graph. *)
Definition involves {U} (st : pstate U) (d : nat) (i : point) (v : nat) (j : point) : Prop :=
  exists e, In e (g_edges (p_g st)) /\ fst e = (d, None) /\ snd e = (v, None) /\
    In (i, j) (ents (ed_inc (g_ed (p_g st) e))).

(** The equations left can be solved, each for a variable of its own. *)
Definition matchable_system {U} (st : pstate U) : Prop :=
  exists f : nat -> point -> nat * point,
    (forall d i, left_equation st d i -> involves st d i (fst (f d i)) (snd (f d i))) /\
    (forall d i d' i', left_equation st d i -> left_equation st d' i' ->
       f d i = f d' i' -> d = d' /\ i = i').
