(** Model of the dependency graphs and of the scheduler:
    include/marco/Modeling/ArrayEquationsDependencyGraph.h,
    include/marco/Modeling/ScalarEquationsDependencyGraph.h,
    include/marco/Modeling/SCCsDependencyGraph.h,
    include/marco/Modeling/Scheduling.h, with the accesses of the equations from
    lib/Dialect/BaseModelica/IR/Ops.cpp and the bridge of
    lib/Dialect/BaseModelica/Transforms/Modeling/EquationBridge.cpp.

    Variables and equations are numbers. The R-trees of the written indices are
    lists of entries, as in [WritesMapModel]. The tasks of parallelForEach take
    the locks in an order that is a parameter of the functions below. *)
From Coq Require Import ZArith List Bool Arith.
From Verif Require Import RangeModel MDRangeModel Result BoxSetModel AccessModel WritesMapModel LoopModel.
Import ListNotations.
Local Open Scope nat_scope.

(** ** The equations *)

(** An equation instance: the number of inductions, the iteration space, the
    accesses (variable and function) and the matched variable with its indices. *)
Record eqop := mkEqop { op_rank : nat; op_space : bset; op_accesses : list (nat * afun);
                        op_matched : nat; op_indices : bset }.

(** Ops.cpp:8196-8217, getWriteAccesses. *)
Definition is_write_access (q : eqop) (a : nat * afun) : res bool :=
  if negb (Nat.eqb (fst a) (op_matched q)) then Ok false
  else
    s <- af_map_set (snd a) (op_space q) ;;
    Ok ((bs_empty (op_indices q) && bs_empty s) || bs_contains (op_indices q) s).
(** Ops.cpp:8219-8240, getReadAccesses. *)
Definition is_read_access (q : eqop) (a : nat * afun) : res bool :=
  if negb (Nat.eqb (fst a) (op_matched q)) then Ok true
  else
    s <- af_map_set (snd a) (op_space q) ;;
    Ok (negb (bs_empty (op_indices q)) && negb (bs_empty s) && negb (bs_contains (op_indices q) s)).
Definition getWriteAccesses (q : eqop) : res (list (nat * afun)) := filter_res (is_write_access q) (op_accesses q).
Definition getReadAccesses (q : eqop) : res (list (nat * afun)) := filter_res (is_read_access q) (op_accesses q).

(** What EquationTraits gives to the graphs and to the scheduler
    (EquationBridge.cpp:268-349): number of iteration variables, iteration
    ranges, writes and reads. *)
Record equation := mkEquation { eq_rank : nat; eq_space : bset;
                                eq_writes : list (nat * afun); eq_reads : list (nat * afun) }.

Section WithMlir.
Variable m : mlir.

(** EquationBridge.cpp:8-26, convertAccessFunction. *)
Definition convertAccessFunction (f : afun) : res afun :=
  if Nat.eqb (af_results f) 0 then af_build_map m (Nat.max (af_dims f) 1) [AConst 0]
  else if Nat.eqb (af_dims f) 0 then af_withDims m f 1
  else Ok f.
Definition convertAccesses (l : list (nat * afun)) : res (list (nat * afun)) :=
  map_res (fun a => f <- convertAccessFunction (snd a) ;; Ok (fst a, f)) l.
(** EquationBridge.cpp:160-174, getRank and getIndices; 190-212. *)
Definition bridge (q : eqop) : res equation :=
  ws <- getWriteAccesses q ;;
  rs <- getReadAccesses q ;;
  ws' <- convertAccesses ws ;;
  rs' <- convertAccesses rs ;;
  Ok (mkEquation (if Nat.eqb (op_rank q) 0 then 1 else op_rank q)
        (if bs_empty (op_space q) then [mdrange_of_point [0%Z]] else op_space q) ws' rs').

(** ** Graph of the array equations *)

(** The writes map: ArrayEquationsDependencyGraph.h:36. *)
Notation amap := (list (nat * list wentry)).

(** ArrayEquationsDependencyGraph.h:201-206. *)
Definition written_indices (e : equation) : res bset :=
  fold_res (fun acc w => s <- af_map_set (snd w) (eq_space e) ;; Ok (bs_union acc s)) (eq_writes e) [].
Definition insert_writes (v : nat) (s : bset) (d : nat) (wm : amap) : amap :=
  fold_left (fun wm b => map_update v [] (fun t => t ++ [(b, d)]) wm) s wm.
(** ArrayEquationsDependencyGraph.h:196-217, mapWrite, of the equation with
    descriptor [d]. *)
Definition mapWrite (eqs : list equation) (wm : amap) (d : nat) : res amap :=
  e <- of_option (nth_error eqs d) ;;
  match eq_writes e with
  | [] => Ok wm
  | w :: _ => s <- written_indices e ;; Ok (insert_writes (fst w) s d wm)
  end.

(** ArrayEquationsDependencyGraph.h:233-243: the indices read of each variable. *)
Definition read_variables (e : equation) : res (list (nat * bset)) :=
  fold_res (fun rv r => s <- af_map_set (snd r) (eq_space e) ;; Ok (map_update (fst r) [] (fun t => bs_union t s) rv))
    (eq_reads e) [].
(** ArrayEquationsDependencyGraph.h:245-270: the edges from the equation [d]. *)
Definition edges_of_reads (wm : amap) (d : nat) (rv : list (nat * bset)) : list (nat * nat) :=
  flat_map (fun re =>
    match map_find (fst re) wm with
    | None => []
    | Some t =>
        flat_map (fun b => map (fun x => (d, snd x))
                             (filter (fun x => bs_overlaps (snd re) [fst x]) (overlapping_entries t b))) (snd re)
    end) rv.
Definition equation_edges (eqs : list equation) (wm : amap) (d : nat) : res (list (nat * nat)) :=
  e <- of_option (nth_error eqs d) ;;
  rv <- read_variables e ;;
  Ok (edges_of_reads wm d rv).

(** ArrayEquationsDependencyGraph.h:92-100, addEquations on an empty graph:
    [eqs] in the order in which the vertices are inserted (the descriptors are
    the positions), [ord] the order in which the writes are inserted, [tasks]
    the order in which the tasks that add the edges run. *)
Definition array_graph (eqs : list equation) (ord tasks : list nat) : res (list (nat * nat)) :=
  wm <- fold_res (mapWrite eqs) ord [] ;;
  l <- map_res (equation_edges eqs wm) tasks ;;
  Ok (concat l).

(** ** Graph of the scalar equations *)

(** ScalarEquationsDependencyGraph.h:287-299 and Scheduling.h:355-366,
    getAccessWithProperty. *)
Fixpoint find_res {A} (f : A -> res bool) (l : list A) : res (option A) :=
  match l with
  | [] => Ok None
  | a :: l' => b <- f a ;; if (b : bool) then Ok (Some a) else find_res f l'
  end.
Definition getAccessWithProperty (f : nat * afun -> res bool) (l : list (nat * afun)) : res (nat * afun) :=
  match l with
  | [] => Bad
  | a :: _ => o <- find_res f l ;; Ok (match o with Some x => x | None => a end)
  end.

(** ScalarEquationsDependencyGraph.h:160-207: the vertices (equation and index)
    and the writes of one equation. *)
Definition scalar_write (e : equation) : res (nat * afun) :=
  getAccessWithProperty (fun a => Ok (af_isAffine (snd a))) (eq_writes e).
Definition scalar_vertices (eqs : list equation) : list (nat * point) :=
  flat_map (fun d => match nth_error eqs d with
                     | Some e => match eq_writes e with [] => [] | _ => map (fun p => (d, p)) (bs_points (eq_space e)) end
                     | None => [] end) (seq 0 (length eqs)).
Definition scalar_mapWrite (eqs : list equation) (vs : list (nat * point)) (wm : amap) (d : nat) : res amap :=
  v <- of_option (nth_error vs d) ;;
  e <- of_option (nth_error eqs (fst v)) ;;
  w <- scalar_write e ;;
  s <- af_map_point (snd w) (snd v) ;;
  Ok (insert_writes (fst w) s d wm).
(** ScalarEquationsDependencyGraph.h:245-285: the edges from a vertex. *)
Definition scalar_read_edges (wm : amap) (d : nat) (v : nat) (s : bset) : list (nat * nat) :=
  match map_find v wm with
  | None => []
  | Some t =>
      flat_map (fun b => map (fun x => (d, snd x))
                           (filter (fun x => bs_eq s [fst x]) (overlapping_entries t b))) s
  end.
Definition scalar_edges (eqs : list equation) (vs : list (nat * point)) (wm : amap) (d : nat) : res (list (nat * nat)) :=
  v <- of_option (nth_error vs d) ;;
  e <- of_option (nth_error eqs (fst v)) ;;
  l <- map_res (fun r => s <- af_map_point (snd r) (snd v) ;; Ok (scalar_read_edges wm d (fst r) s)) (eq_reads e) ;;
  Ok (concat l).
(** ScalarEquationsDependencyGraph.h:112-120, addEquations on an empty graph:
    the vertices are in the order [vs], the writes inserted in the order
    [ord]. *)
Definition scalar_graph (eqs : list equation) (vs : list (nat * point)) (ord : list nat) : res (list (nat * nat)) :=
  wm <- fold_res (scalar_mapWrite eqs vs) ord [] ;;
  l <- map_res (scalar_edges eqs vs wm) (seq 0 (length vs)) ;;
  Ok (concat l).

(** ** Post-order visit *)

(** llvm::post_order_ext, the iterator of llvm/ADT/PostOrderIterator.h: a stack
    of vertices with their remaining children, and the set of the visited
    vertices. *)
Fixpoint po_run (fuel : nat) (adj : nat -> list nat) (stack : list (nat * list nat)) (visited out : list nat) : res (list nat) :=
  match fuel with
  | 0 => NoFuel
  | S f =>
      match stack with
      | [] => Ok (rev out)
      | (v, []) :: st => po_run f adj st visited (v :: out)
      | (v, c :: cs) :: st =>
          if existsb (Nat.eqb c) visited then po_run f adj ((v, cs) :: st) visited out
          else po_run f adj ((c, adj c) :: (v, cs) :: st) (c :: visited) out
      end
  end.
(** SingleEntryWeaklyConnectedDigraph.h:31-58: vertex 0 is the entry node, which
    is linked to each vertex in the order of insertion; vertex i+1 is the one
    with descriptor i. *)
Definition with_entry (n : nat) (adj : nat -> list nat) (v : nat) : list nat :=
  match v with
  | 0 => map S (seq 0 n)
  | S i => map S (adj i)
  end.
Definition list_sum (l : list nat) : nat := fold_right Nat.add 0 l.
(** Each step takes a child or a vertex away. *)
Definition po_fuel (n : nat) (adj : nat -> list nat) : nat :=
  2 + n + n + list_sum (map (fun i => length (adj i)) (seq 0 n)).
(** SCCsDependencyGraph.h:86-98 and ScalarEquationsDependencyGraph.h:124-137,
    postOrder: the entry node is dropped. *)
Definition post_order (n : nat) (adj : nat -> list nat) : res (list nat) :=
  l <- po_run (po_fuel n adj) (with_entry n adj) [(0, with_entry n adj 0)] [0] [] ;;
  Ok (flat_map (fun v => match v with 0 => [] | S i => [i] end) l).

(** The linked vertices, in the order of the insertion of the edges. *)
Definition linked (edges : list (nat * nat)) (v : nat) : list nat :=
  map snd (filter (fun e => Nat.eqb (fst e) v) edges).

(** ** Graph of the SCCs *)

(** SCCsDependencyGraph.h:53-61, parentSCC. *)
Definition parent_map (sccs : list (list nat)) : list (nat * nat) :=
  fold_left (fun pm x => fold_left (fun pm e => map_update e 0 (fun _ => fst x) pm) (snd x) pm)
    (combine (seq 0 (length sccs)) sccs) [].
(** SCCsDependencyGraph.h:63-82: the edges from a SCC; a dependency outside of
    all the SCCs dereferences the end of the map. *)
Definition scc_links (deps : nat -> list nat) (pm : list (nat * nat)) (scc : list nat) : res (list nat) :=
  fold_res (fun acc dst =>
    p <- of_option (map_find dst pm) ;;
    Ok (if existsb (Nat.eqb p) acc then acc else acc ++ [p]))
    (flat_map deps scc) [].
(** SCCsDependencyGraph.h:51-98: addSCCs, then postOrder. *)
Definition scc_order (sccs : list (list nat)) (deps : nat -> list nat) : res (list nat) :=
  let pm := parent_map sccs in
  links <- map_res (scc_links deps pm) sccs ;;
  post_order (length sccs) (fun i => nth i links []).

(** ** Directions *)

(** Scheduling.h:57. *)
Inductive possibility := PAny | PForward | PBackward | PScalar.

(** Scheduling.h:479-501, mergeDirectionPossibilities of two directions. *)
Definition merge_possibility (a b : possibility) : possibility :=
  match a, b with
  | PScalar, _ | _, PScalar => PScalar
  | PAny, _ => b
  | _, PAny => a
  | PForward, PForward => PForward
  | PBackward, PBackward => PBackward
  | _, _ => PScalar
  end.
(** Scheduling.h:468-477. *)
Definition merge_possibilities (a b : list possibility) : res (list possibility) :=
  _ <- assert_ok (Nat.eqb (length a) (length b)) ;;
  Ok (map (fun q => merge_possibility (fst q) (snd q)) (combine a b)).

(** AccessFunctionRotoTranslation.cpp:278-292, isIdentityLike. *)
Definition isIdentityLike (rs : list aexpr) : bool :=
  forallb (fun q => match inductionVar (snd q) with Some d => Nat.eqb d (fst q) | None => false end)
    (combine (seq 0 (length rs)) rs).
(** Scheduling.h:421-431. *)
Definition offset_direction (e : aexpr) : res possibility :=
  c <- offset_of e ;;
  Ok (if Z.eqb c 0 then PAny else if Z.ltb 0 c then PBackward else PForward).
(** Scheduling.h:433-449, the directions in the order of the dimensions of the
    equation; [None] is the return of false. *)
Fixpoint rotate_directions (ds : list possibility) (inv : list aexpr) : res (option (list possibility)) :=
  match inv with
  | [] => Ok (Some [])
  | e :: inv' =>
      match inductionVar e with
      | None => Ok None
      | Some d =>
          x <- of_option (nth_error ds d) ;;
          o <- rotate_directions ds inv' ;;
          Ok (match o with Some l => Some (x :: l) | None => None end)
      end
  end.
(** Scheduling.h:404-449: the directions for one read. *)
Definition read_directions (n : nat) (inv : afun) (invrs : list aexpr) (r : afun) : res (option (list possibility)) :=
  rel <- af_combine m inv r ;;
  match rel with
  | AFRoto _ rs =>
      if isIdentityLike rs then
        ds <- map_res offset_direction rs ;;
        o <- rotate_directions ds invrs ;;
        match o with
        | None => Ok None
        | Some l => _ <- assert_ok (Nat.leb (length l) n) ;; Ok (Some (l ++ repeat PScalar (n - length l)))
        end
      else Ok None
  | _ => Ok None
  end.
Definition all_scalar (l : list possibility) : bool :=
  forallb (fun d => match d with PScalar => true | _ => false end) l.
(** Scheduling.h:404-463, the loop over the reads. *)
Fixpoint directions_loop (n : nat) (inv : afun) (invrs : list aexpr) (reads : list afun) (ds : list possibility)
    : res (option (list possibility)) :=
  match reads with
  | [] => Ok (Some ds)
  | r :: reads' =>
      o <- read_directions n inv invrs r ;;
      match o with
      | None => Ok None
      | Some l =>
          ds' <- (match ds with [] => Ok l | _ => merge_possibilities ds l end) ;;
          if all_scalar ds' then Ok None else directions_loop n inv invrs reads' ds'
      end
  end.
(** Scheduling.h:368-463. *)
Definition access_directions (w : afun) (reads : list afun) : res (list possibility) :=
  o <- match w with
       | AFRoto n _ =>
           i <- af_inverse m w ;;
           match i with
           | Some (AFRoto k invrs) => directions_loop n (AFRoto k invrs) invrs reads []
           | _ => Ok None
           end
       | _ => Ok None
       end ;;
  Ok (match o with Some ds => ds | None => repeat PScalar (af_dims w) end).
(** Scheduling.h:328-345: the reads of the written variable that overlap the
    written indices. *)
Definition overlapping_reads (e : equation) (v : nat) (written : bset) : res (list (nat * afun)) :=
  filter_res (fun r =>
    if negb (Nat.eqb (fst r) v) then Ok false
    else s <- af_map_set (snd r) (eq_space e) ;; Ok (bs_overlaps s written)) (eq_reads e).
(** Scheduling.h:290-353, getSchedulingDirections. *)
Definition getSchedulingDirections (e : equation) : res (list possibility) :=
  match eq_writes e with
  | [] => Ok (repeat PAny (eq_rank e))
  | _ =>
      w <- getAccessWithProperty (fun a => af_isInvertible (snd a)) (eq_writes e) ;;
      written <- af_map_set (snd w) (eq_space e) ;;
      reads <- overlapping_reads e (fst w) written ;;
      match reads with
      | [] => Ok (repeat PAny (eq_rank e))
      | _ => access_directions (snd w) (map snd reads)
      end
  end.

(** ** Schedule *)

(** Scheduling.h:94-120: equation, indices and directions. *)
Notation scheduled := (nat * bset * list direction)%type.

(** Scheduling.h:217-229. *)
Definition direction_of (p : possibility) : direction :=
  match p with PAny => DirAny | PForward => DirForward | PBackward => DirBackward | PScalar => DirUnknown end.
Definition is_scalar (p : possibility) : bool := match p with PScalar => true | _ => false end.
(** Scheduling.h:237-265: one scheduled equation for each index. *)
Definition schedule_scalars (x : nat) (e : equation) : res (list (list scheduled)) :=
  let vs := scalar_vertices [e] in
  edges <- scalar_graph [e] vs (seq 0 (length vs)) ;;
  order <- post_order (length vs) (linked edges) ;;
  map_res (fun i => v <- of_option (nth_error vs i) ;;
                    Ok [(x, [mdrange_of_point (snd v)], repeat DirAny (eq_rank e))]) order.
(** Scheduling.h:199-282, one SCC of the visit. *)
Definition schedule_scc (eqs : nat -> equation) (scc : list nat) : res (list (list scheduled)) :=
  match scc with
  | [] => Bad
  | [x] =>
      ds <- getSchedulingDirections (eqs x) ;;
      _ <- assert_ok (Nat.eqb (length ds) (eq_rank (eqs x))) ;;
      if existsb is_scalar ds then schedule_scalars x (eqs x)
      else Ok [[(x, eq_space (eqs x), map direction_of ds)]]
  | _ => Ok [map (fun x => (x, eq_space (eqs x), repeat DirUnknown (eq_rank (eqs x)))) scc]
  end.
(** Scheduling.h:193-285, schedule: the SCCs are lists of equations, [deps] is
    SCCTraits::getDependencies. *)
Definition schedule (eqs : nat -> equation) (sccs : list (list nat)) (deps : nat -> list nat) : res (list (list scheduled)) :=
  order <- scc_order sccs deps ;;
  l <- map_res (fun i => scc <- of_option (nth_error sccs i) ;; schedule_scc eqs scc) order ;;
  Ok (concat l).

End WithMlir.
