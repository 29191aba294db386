(** Model of the removal of the variables the outputs do not need
    (lib/Dialect/BaseModelica/Transforms/VariablesPruning.cpp, and the graph of
    include/marco/Modeling/ArrayVariablesDependencyGraph.h).

    Variables are the numbers below the length of the list of their flags.
    Equations are matched already. A subscript is a function of the iteration:
    an equation whose subscripts read a variable has no accesses
    (lib/Dialect/BaseModelica/IR/Dialect.cpp:400-500) and does not get here. *)
From Coq Require Import List Bool Arith.
From Verif Require Import Result AccessModel SchedModel.
Import ListNotations.
Local Open Scope nat_scope.

(** The expression of an equation: leaves that read no variable, accesses, and
    operations with their number. *)
Inductive pexpr (K I : Type) :=
| PLeaf (k : K)
| PRead (v : nat) (sub : I -> I)
| POp (o : nat) (args : list (pexpr K I)).
Arguments PLeaf {K I} k. Arguments PRead {K I} v sub. Arguments POp {K I} o args.

(** EquationInstanceOp with its template and its match (Ops.cpp:8165-8194,
    getAccesses). *)
Record peq (K I : Type) := mkPeq {
  pe_match : nat;
  pe_points : list I;
  pe_left : pexpr K I;
  pe_right : pexpr K I }.
Arguments mkPeq {K I}. Arguments pe_match {K I}. Arguments pe_points {K I}.
Arguments pe_left {K I}. Arguments pe_right {K I}.

(** ModelOp: which of the variables are outputs, the derivatives map
    (lib/Dialect/BaseModelica/IR/DerivativesMap.cpp:397-446) as pairs of a
    variable and its derivative, the equations, and the start operations and the
    binding equations with the variable and the expression. *)
Record pmodel (K I : Type) := mkPmodel {
  pm_vars : list nat;
  pm_outputs : list nat;
  pm_ders : list (nat * nat);
  pm_initial : list (peq K I);
  pm_main : list (peq K I);
  pm_starts : list (nat * pexpr K I);
  pm_bindings : list (nat * pexpr K I) }.
Arguments mkPmodel {K I}. Arguments pm_vars {K I}. Arguments pm_outputs {K I}.
Arguments pm_ders {K I}. Arguments pm_initial {K I}. Arguments pm_main {K I}.
Arguments pm_starts {K I}. Arguments pm_bindings {K I}.

Section Prune.
Context {K I : Type}.

(** EquationExpressionOpInterfaceImpl.cpp:1015-1057 and OpInterfaces.td:149-193,
    getEquationAccesses: the variables of the accesses. *)
Fixpoint accesses (e : pexpr K I) : list nat :=
  match e with
  | PLeaf _ => []
  | PRead v _ => [v]
  | POp _ args => (fix go l := match l with [] => [] | a :: l' => accesses a ++ go l' end) args
  end.
Definition eq_accesses (q : peq K I) : list nat := accesses (pe_left q) ++ accesses (pe_right q).

(** DerivativesMap.cpp:397-446. *)
Definition getDerivative (ders : list (nat * nat)) (v : nat) : option nat :=
  option_map snd (find (fun d => Nat.eqb (fst d) v) ders).
Definition getDerivedVariable (ders : list (nat * nat)) (v : nat) : option nat :=
  option_map fst (find (fun d => Nat.eqb (snd d) v) ders).

(** VariablesPruning.cpp:209-231, walkDerivedVariables and
    walkDerivativeVariables: the variables given to the callback. The fuel is
    used up only by a chain that comes back to itself, on which the loop does not
    end. *)
Fixpoint walk_chain (fuel : nat) (next : nat -> option nat) (v : nat) : res (list nat) :=
  match fuel with
  | 0 => NoFuel
  | S f =>
      match next v with
      | None => Ok []
      | Some w => l <- walk_chain f next w ;; Ok (w :: l)
      end
  end.
Definition walkDerived (m : pmodel K I) (v : nat) : res (list nat) :=
  walk_chain (S (length (pm_ders m))) (getDerivedVariable (pm_ders m)) v.
Definition walkDerivative (m : pmodel K I) (v : nat) : res (list nat) :=
  walk_chain (S (length (pm_ders m))) (getDerivative (pm_ders m)) v.

(** ArrayVariablesDependencyGraph.h:100-119, addEquations: an edge from the
    variable of the first write access to the variable of each read access. The
    written variable is the matched one; an access of the matched variable that
    counts as a read one gives a loop, which is left out. An equation without any
    access of its matched variable has no write access. *)
Definition equation_links (q : peq K I) : list (nat * nat) :=
  if existsb (Nat.eqb (pe_match q)) (eq_accesses q)
  then map (fun r => (pe_match q, r)) (filter (fun r => negb (Nat.eqb r (pe_match q))) (eq_accesses q))
  else [].

(** VariablesPruning.cpp:276-306: the edges given by the derivatives. *)
Definition both_ways (v : nat) (l : list nat) : list (nat * nat) :=
  flat_map (fun w => [(v, w); (w, v)]) l.
Definition derivative_links (m : pmodel K I) (v : nat) : res (list (nat * nat)) :=
  a <- walkDerived m v ;;
  b <- walkDerivative m v ;;
  Ok (both_ways v a ++ both_ways v b).

(** VariablesPruning.cpp:233-306: the edges of the graph. *)
Definition graph_links (m : pmodel K I) : res (list (nat * nat)) :=
  let eqs := flat_map equation_links (pm_initial m ++ pm_main m) in
  ders <- map_res (derivative_links m) (pm_vars m) ;;
  Ok (eqs ++ concat ders).

(** The vertices: the entry node is 0 and has an edge to each output variable
    (VariablesPruning.cpp:279-286); the variable [v] is the vertex [S v]. *)
Definition from_entry (outs : list nat) (links : list (nat * nat)) (x : nat) : list nat :=
  match x with
  | 0 => map S outs
  | S v => map S (linked links v)
  end.

(** The vertices of the SCCs, which are the ones reached from the entry node
    (ArrayVariablesDependencyGraph.h:127-148, llvm::scc_begin). The order in which
    Tarjan's algorithm gives the SCCs is not modelled, only the set of their
    vertices: a depth-first visit is used. *)
Definition visit_fuel (m : pmodel K I) (links : list (nat * nat)) : nat :=
  2 + length (pm_vars m) + length (pm_vars m) + length (pm_outputs m)
    + list_sum (map (fun v => length (linked links v)) (pm_vars m)).
Definition reached (m : pmodel K I) (links : list (nat * nat)) : res (list nat) :=
  let adj := from_entry (pm_outputs m) links in
  l <- po_run (visit_fuel m links) adj [(0, adj 0)] [0] [] ;;
  Ok (flat_map (fun x => match x with 0 => [] | S v => [v] end) l).

(** VariablesPruning.cpp:233-351, collectUsedVariables. *)
Definition collectUsedVariables (m : pmodel K I) : res (list nat) :=
  links <- graph_links m ;;
  vs <- reached m links ;;
  more <- map_res (fun v => a <- walkDerived m v ;; b <- walkDerivative m v ;; Ok (v :: a ++ b)) vs ;;
  Ok (concat more).

(** VariablesPruning.cpp:353-372, removeIfUnused, and 162-195. *)
Definition isUsed (used : list nat) (v : nat) : bool := existsb (Nat.eqb v) used.
Definition removeUnused (used : list nat) (m : pmodel K I) : pmodel K I :=
  mkPmodel
    (filter (isUsed used) (pm_vars m))
    (pm_outputs m)
    (pm_ders m)
    (filter (fun q => isUsed used (pe_match q)) (pm_initial m))
    (filter (fun q => isUsed used (pe_match q)) (pm_main m))
    (filter (fun s => isUsed used (fst s)) (pm_starts m))
    (filter (fun s => isUsed used (fst s)) (pm_bindings m)).

(** VariablesPruning.cpp:110-198, processModelOp. *)
Definition prune (m : pmodel K I) : res (pmodel K I) :=
  match pm_outputs m with
  | [] => Ok m
  | _ => used <- collectUsedVariables m ;; Ok (removeUnused used m)
  end.

End Prune.
