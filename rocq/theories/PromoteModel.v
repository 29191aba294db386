(** Model of the promotion of variables to parameters
    (lib/Dialect/BaseModelica/Transforms/VariablesPromotion.cpp).

    Variables and equations are numbers: an equation is its position among the
    main equations. An access function is a function of the iteration, and the
    set of the elements it reaches goes with it (C52 and C57 are about these
    sets). *)
From Coq Require Import ZArith List Bool Arith.
From Verif Require Import RangeModel MDRangeModel BoxSetModel WritesMapModel.
Import ListNotations.
Local Open Scope nat_scope.

(** VariableAccess: the variable, the access function, and
    accessFunction.map(iterationSpace); the last is empty for a scalar
    variable. *)
Record vaccess := mkVaccess { a_var : nat; a_sub : point -> point; a_read : bset }.
(** The expressions: TimeOp, leaves, VariableGetOp with its subscripts, and the
    other operations. *)
Inductive vexpr (K : Type) :=
| VTime
| VLeaf (k : K)
| VRead (a : vaccess)
| VOp (o : nat) (args : list (vexpr K)).
Arguments VTime {K}. Arguments VLeaf {K} k. Arguments VRead {K} a. Arguments VOp {K} o args.

(** EquationInstanceOp: match.name, match.indices, getIterationSpace (empty
    without inductions), the iterations (one without inductions), the function of
    the first write access, and the sides. *)
Record veq (K : Type) := mkVeq {
  ve_match : nat;
  ve_indices : bset;
  ve_space : bset;
  ve_points : list point;
  ve_write : point -> point;
  ve_left : vexpr K;
  ve_right : vexpr K }.
Arguments mkVeq {K}. Arguments ve_match {K}. Arguments ve_indices {K}. Arguments ve_space {K}.
Arguments ve_points {K}. Arguments ve_write {K}. Arguments ve_left {K}. Arguments ve_right {K}.

(** ModelOp: the variables with getIndices (empty for a scalar), the read-only
    ones, the derivatives map as pairs of a variable and its derivative, and the
    equations. *)
Record vmodel (K : Type) := mkVmodel {
  vm_vars : list (nat * bset);
  vm_readonly : list nat;
  vm_ders : list (nat * nat);
  vm_initial : list (veq K);
  vm_main : list (veq K) }.
Arguments mkVmodel {K}. Arguments vm_vars {K}. Arguments vm_readonly {K}. Arguments vm_ders {K}.
Arguments vm_initial {K}. Arguments vm_main {K}.

Definition memb (x : nat) (l : list nat) : bool := existsb (Nat.eqb x) l.

Section Promote.
Context {K : Type}.

(** The walk over the TimeOps of the template, VariablesPromotion.cpp:433-438. *)
Fixpoint uses_time (e : vexpr K) : bool :=
  match e with
  | VTime => true
  | VLeaf _ | VRead _ => false
  | VOp _ args => (fix any l := match l with [] => false | a :: l' => uses_time a || any l' end) args
  end.
(** getAccesses (Ops.cpp:8165-8194). *)
Fixpoint vaccesses (e : vexpr K) : list vaccess :=
  match e with
  | VTime | VLeaf _ => []
  | VRead a => [a]
  | VOp _ args => (fix go l := match l with [] => [] | a :: l' => vaccesses a ++ go l' end) args
  end.

(** Dialect.cpp:644-681, getWritesMap: the elements reached by the write accesses
    are the matched ones. *)
Definition writes_map (eqs : list (veq K)) : wmap :=
  wm_run (map (fun x => (ve_match (snd x), ve_indices (snd x), fst x)) (combine (seq 0 (length eqs)) eqs)).

(** VariablesPromotion.cpp:450-488: the check of one access. *)
Definition access_promotable (m : vmodel K) (promoted scc : list nat) (a : vaccess) : bool :=
  if memb (a_var a) (vm_readonly m) then true
  else
    match wm_getWrites (writes_map (vm_main m)) (a_var a) (a_read a) with
    | [] => false
    | ws => forallb (fun w => memb (fst w) promoted || memb (fst w) scc) ws
    end.
(** VariablesPromotion.cpp:420-489: the checks of one equation of a SCC. *)
Definition equation_promotable (m : vmodel K) (promoted scc : list nat) (q : veq K) : bool :=
  negb (uses_time (ve_left q) || uses_time (ve_right q)) &&
  negb (existsb (fun d => Nat.eqb (snd d) (ve_match q)) (vm_ders m)) &&
  forallb (access_promotable m promoted scc) (vaccesses (ve_left q) ++ vaccesses (ve_right q)).
Definition scc_promotable (m : vmodel K) (promoted scc : list nat) : bool :=
  forallb (fun k => match nth_error (vm_main m) k with
                    | Some q => equation_promotable m promoted scc q
                    | None => false
                    end) scc.
(** VariablesPromotion.cpp:402-513: the SCCs in the order of the visit; the
    promotable equations. *)
Definition promotable_equations (m : vmodel K) (sccs : list (list nat)) : list nat :=
  fold_left (fun promoted scc => if scc_promotable m promoted scc then promoted ++ scc else promoted) sccs [].

(** VariablesPromotion.cpp:500-511: the matched indices of the promotable
    equations of a variable, and 519-528: the promotable variables. *)
Definition equations_of (m : vmodel K) (v : nat) (l : list nat) : list (veq K) :=
  flat_map (fun k => match nth_error (vm_main m) k with
                     | Some q => if Nat.eqb (ve_match q) v then [q] else []
                     | None => []
                     end) l.
Definition promotable_variable (m : vmodel K) (promoted : list nat) (v : nat * bset) : bool :=
  match equations_of m (fst v) promoted with
  | [] => false
  | qs => bs_eq (snd v) (fold_left (fun s q => bs_union s (ve_indices q)) qs [])
  end.
Definition promotable_variables (m : vmodel K) (sccs : list (list nat)) : list (nat * bset) :=
  filter (promotable_variable m (promotable_equations m sccs)) (vm_vars m).

(** VariablesPromotion.cpp:551-566: the elements that only main equations
    write. *)
Definition elements_left (m : vmodel K) (v : nat) : bset :=
  let w := match wm_getWrittenIndices (writes_map (vm_main m)) v with Some s => s | None => [] end in
  match wm_getWrittenIndices (writes_map (vm_initial m)) v with
  | Some s => bs_diff w s
  | None => w
  end.

(** VariablesPromotion.cpp:600-638: the initial equation made of one main
    equation, if any. inverseMap gives the iterations that write the elements
    (C17). *)
Definition restrict_to (q : veq K) (s : bset) : veq K :=
  let keep := filter (fun p => bs_mem s (ve_write q p)) (ve_points q) in
  mkVeq (ve_match q) (bs_intersect (ve_indices q) s) (bs_of_points keep) keep (ve_write q) (ve_left q) (ve_right q).
Definition initial_clone (m : vmodel K) (v : nat * bset) (q : veq K) : list (veq K) :=
  let left := elements_left m (fst v) in
  let written := bs_intersect (ve_indices q) left in
  if bs_empty (snd v) then
    if negb (wm_isWritten (writes_map (vm_initial m)) (fst v)) then [q] else []
  else
    if negb (bs_empty written) && negb (bs_empty (ve_space q)) then [restrict_to q written] else [].

(** VariablesPromotion.cpp:568-575 and 640-645: the main equations that are
    moved, by their positions. *)
Definition moved (m : vmodel K) (v : nat * bset) : list nat :=
  map fst (wm_getWrites (writes_map (vm_main m)) (fst v) (elements_left m (fst v))).
Definition clones (m : vmodel K) (v : nat * bset) : list (veq K) :=
  flat_map (fun k => match nth_error (vm_main m) k with Some q => initial_clone m v q | None => [] end) (moved m v).

(** VariablesPromotion.cpp:301-649, processModelOp. The order of the promoted
    variables, that of a DenseSet, is the one of the declarations. *)
Definition promote (m : vmodel K) (sccs : list (list nat)) : vmodel K :=
  let vs := promotable_variables m sccs in
  let gone := flat_map (moved m) vs in
  mkVmodel (vm_vars m) (vm_readonly m ++ map fst vs) (vm_ders m)
    (vm_initial m ++ flat_map (clones m) vs)
    (flat_map (fun x => if memb (fst x) gone then [] else [snd x]) (combine (seq 0 (length (vm_main m))) (vm_main m))).

End Promote.
