(** Model of the matching between scalar variables and scalar equations:
    include/marco/Modeling/Matching.h and lib/Modeling/Matching.cpp.

    Simplifications used throughout this file.
    - An index set is the list of its points, and is only looked at through
      membership (the set operations of IndexSet are the subject of C08-C17).
    - An incidence matrix is the list of its entries, each with the number of
      the access that gave it (the operations of MCIM are the subject of
      C25-C27 and C54).
    - [solveLocalMatchingProblem] is a parameter [solve] (C28); [solve_access]
      below is an instance.
    - The lists of traversable edges (2068-2098 and their updates in
      [applyPath]) are left out: they hold the edges of a vertex that have an
      entry to follow, and the other edges give no option.
    - The order in which the parallel loops deliver their results, and the order
      of [sortFrontier] and [sortPaths], are parameters. *)
From Coq Require Import ZArith List Bool Arith.
From Verif Require Import RangeModel Result.
Import ListNotations.
Local Open Scope nat_scope.

(** * Index sets *)

Definition pset := list point.
Definition pt_eqb (p q : point) : bool := if list_eq_dec Z.eq_dec p q then true else false.
Definition ps_mem (s : pset) (p : point) : bool := existsb (pt_eqb p) s.
Definition ps_union (a b : pset) : pset := a ++ b.
Definition ps_diff (a b : pset) : pset := filter (fun p => negb (ps_mem b p)) a.
Definition ps_inter (a b : pset) : pset := filter (ps_mem b) a.
Definition ps_empty (a : pset) : bool := match a with [] => true | _ => false end.
Definition ps_contains (a b : pset) : bool := forallb (ps_mem a) b.
Definition ps_overlaps (a b : pset) : bool := existsb (ps_mem b) a.
Definition ps_eq (a b : pset) : bool := ps_contains a b && ps_contains b a.
Definition ps_size (a : pset) : nat := length (nodup (list_eq_dec Z.eq_dec) a).

(** * Matchable objects *)

(** lib/Modeling/Matching.cpp:4-7, class Matchable *)
Record matchable := MT { mt_all : pset; mt_matched : pset; mt_unmatched : pset }.
Definition mt_new (s : pset) : matchable := MT s [] s.

(** lib/Modeling/Matching.cpp:14-18, [setMatchableIndices] *)
Definition mt_setMatchable (m : matchable) (s : pset) : matchable :=
  MT s (ps_inter (mt_matched m) s) (ps_inter (mt_unmatched m) s).

(** lib/Modeling/Matching.cpp:24, [allComponentsMatched] *)
Definition mt_allMatched (m : matchable) : bool := ps_empty (mt_unmatched m).

(** lib/Modeling/Matching.cpp:26-33, [setMatch] *)
Definition mt_setMatch (m : matchable) (s : pset) : res matchable :=
  _ <- assert_ok (ps_contains (mt_all m) s) ;;
  let m' := MT (mt_all m) s (ps_diff (mt_all m) s) in
  _ <- assert_ok (ps_eq (ps_union (mt_matched m') (mt_unmatched m')) (mt_all m)) ;; Ok m'.

(** lib/Modeling/Matching.cpp:35-42, [addMatch] *)
Definition mt_addMatch (m : matchable) (s : pset) : res matchable :=
  _ <- assert_ok (ps_contains (mt_all m) s) ;;
  let m' := MT (mt_all m) (ps_union (mt_matched m) s) (ps_diff (mt_unmatched m) s) in
  _ <- assert_ok (ps_eq (ps_union (mt_matched m') (mt_unmatched m')) (mt_all m)) ;; Ok m'.

(** lib/Modeling/Matching.cpp:44-48, [removeMatch] *)
Definition mt_removeMatch (m : matchable) (s : pset) : res matchable :=
  let m' := MT (mt_all m) (ps_diff (mt_matched m) s) (ps_union (mt_unmatched m) s) in
  _ <- assert_ok (ps_eq (ps_union (mt_matched m') (mt_unmatched m')) (mt_all m)) ;; Ok m'.

(** Matching.h:261-265, [VariableVertex::setIndices] *)
Definition vv_setIndices (m : matchable) (s : pset) : res matchable :=
  _ <- assert_ok (negb (ps_empty s)) ;; Ok (mt_setMatchable m s).

(** Matching.h:270-280, [VariableVertex::removeIndices] *)
Definition vv_removeIndices (m : matchable) (s : pset) : res (matchable * bool) :=
  let s' := ps_diff (mt_all m) s in
  if ps_empty s' then Ok (m, false) else m' <- vv_setIndices m s' ;; Ok (m', true).

(** Matching.h:546-550, [EquationVertex::setIndices]: the pointer handed to
    [setMatchableIndices], which reads through it, has been moved from *)
Definition ev_setIndices (m : matchable) (s : pset) : res matchable :=
  _ <- assert_ok (negb (ps_empty s)) ;; Bad.

(** Matching.h:555-565, [EquationVertex::removeIndices] *)
Definition ev_removeIndices (m : matchable) (s : pset) : res (matchable * bool) :=
  let s' := ps_diff (mt_all m) s in
  if ps_empty s' then Ok (m, false) else m' <- ev_setIndices m s' ;; Ok (m', true).

(** Matching.h:295-305 and 581-592, [withMask] of an index set *)
Definition vx_withMask (m : matchable) (mask : pset) : res matchable :=
  _ <- assert_ok (negb (ps_empty mask)) ;;
  let s := ps_inter (mt_matched m) mask in
  if ps_empty s then Ok (mt_new mask) else mt_addMatch (mt_new mask) s.

(** * Matrices and edges *)

Definition mmat := list (nat * (point * point)).
Definition ent_eqb (a b : point * point) : bool :=
  pt_eqb (fst a) (fst b) && pt_eqb (snd a) (snd b).
Definition m_has (m : mmat) (x : point * point) : bool := existsb (fun y => ent_eqb x (snd y)) m.
Definition m_empty (m : mmat) : bool := match m with [] => true | _ => false end.
Definition m_eqs (m : mmat) : pset := map (fun x => fst (snd x)) m.    (* flattenColumns *)
Definition m_vars (m : mmat) : pset := map (fun x => snd (snd x)) m.   (* flattenRows *)
Definition m_filterEqs (m : mmat) (s : pset) : mmat :=                  (* filterRows *)
  filter (fun x => ps_mem s (fst (snd x))) m.
Definition m_filterVars (m : mmat) (s : pset) : mmat :=                 (* filterColumns *)
  filter (fun x => ps_mem s (snd (snd x))) m.
Definition m_diff (a b : mmat) : mmat := filter (fun x => negb (m_has b (snd x))) a.
Definition m_union (a b : mmat) : mmat := a ++ m_diff b a.

(** Matching.h:650-745, class GraphEdge *)
Record medge := ME { ed_inc : mmat; ed_match : mmat; ed_unm : mmat }.
Definition ed_new : medge := ME [] [] [].
Definition ed_addMatch (d : medge) (m : mmat) : medge :=                (* 715-718 *)
  ME (ed_inc d) (m_union (ed_match d) m) (m_diff (ed_unm d) m).
Definition ed_removeMatch (d : medge) (m : mmat) : medge :=             (* 720-723 *)
  ME (ed_inc d) (m_diff (ed_match d) m) (m_union (ed_unm d) m).

(** An access: the constant ones are told apart, see [getScalarGraph]. *)
Inductive macc := AccConst (p : point) | AccFun (f : point -> list point).
Definition macc_map (a : macc) (i : point) : list point :=
  match a with AccConst p => [p] | AccFun f => f i end.

(** Matching.h:733-738, [addAccessFunction]: what it adds to the incidence
    matrix is what MCIM::apply adds, inside the two spaces *)
Definition ed_addAccess (es vs : pset) (k : nat) (a : macc) (d : medge) : medge :=
  let new := flat_map (fun i => map (fun j => (k, (i, j))) (ps_inter (macc_map a i) vs)) es in
  let inc := m_union (ed_inc d) new in
  ME inc (ed_match d) (m_diff inc (ed_match d)).

(** * Systems and graphs *)

(** Matching.h:108-178 and 343-437: the base id of a variable or equation and,
    for a scalar made out of an array, its point *)
Definition mid : Type := nat * option point.
Definition mid_eqb (a b : mid) : bool :=
  Nat.eqb (fst a) (fst b) &&
  match snd a, snd b with
  | None, None => true
  | Some p, Some q => pt_eqb p q
  | _, _ => false
  end.

(** The vertices given to a graph; [mv_vis] and [me_vis] are their visibility. *)
Record mvar := MVar { mv_id : mid; mv_ind : pset; mv_vis : bool }.
Record meqn := MEqn { me_id : mid; me_ind : pset; me_vis : bool; me_acc : list (mid * macc) }.
Record msys := MSys { ms_vars : list mvar; ms_eqs : list meqn }.

Inductive node := NV (v : mid) | NE (e : mid).
Definition node_eqb (a b : node) : bool :=
  match a, b with
  | NV x, NV y => mid_eqb x y
  | NE x, NE y => mid_eqb x y
  | _, _ => false
  end.
Definition medid : Type := mid * mid.    (* equation, variable *)
Definition medid_eqb (a b : medid) : bool :=
  mid_eqb (fst a) (fst b) && mid_eqb (snd a) (snd b).

Record mgraph := MG {
  g_nodes : list node;
  g_edges : list medid;
  g_vx : node -> matchable;
  g_vis : node -> bool;
  g_ed : medid -> medge;
  g_evis : medid -> bool }.

Definition nupd {A} (f : node -> A) (n : node) (a : A) (m : node) : A :=
  if node_eqb m n then a else f m.
Definition eupd {A} (f : medid -> A) (e : medid) (a : A) (d : medid) : A :=
  if medid_eqb d e then a else f d.
Definition g_setVx (g : mgraph) (n : node) (m : matchable) : mgraph :=
  MG (g_nodes g) (g_edges g) (nupd (g_vx g) n m) (g_vis g) (g_ed g) (g_evis g).
Definition g_setEd (g : mgraph) (e : medid) (d : medge) : mgraph :=
  MG (g_nodes g) (g_edges g) (g_vx g) (g_vis g) (eupd (g_ed g) e d) (g_evis g).
Definition g_hide (g : mgraph) (n : node) : mgraph :=                   (* 1774-1777 *)
  MG (g_nodes g) (g_edges g) (g_vx g) (nupd (g_vis g) n false) (g_ed g) (g_evis g).
Definition g_hideEdge (g : mgraph) (e : medid) : mgraph :=              (* 1834-1836 *)
  MG (g_nodes g) (g_edges g) (g_vx g) (g_vis g) (g_ed g) (eupd (g_evis g) e false).

Definition find_var (s : msys) (v : mid) : option mvar :=
  find (fun x => mid_eqb (mv_id x) v) (ms_vars s).
Definition find_eqn (s : msys) (e : mid) : option meqn :=
  find (fun x => mid_eqb (me_id x) e) (ms_eqs s).

(** The variables of the graph that the accesses name, each once (1397-1409). *)
Fixpoint acc_targets (s : msys) (acc : list (mid * macc)) (seen : list mid) : list mid :=
  match acc with
  | [] => []
  | (v, _) :: acc' =>
      if existsb (mid_eqb v) seen then acc_targets s acc' seen
      else match find_var s v with
           | Some _ => v :: acc_targets s acc' (v :: seen)
           | None => acc_targets s acc' seen
           end
  end.

(** The matrices of the edge between an equation and a variable (1410-1412). *)
Fixpoint acc_edge (es vs : pset) (v : mid) (k : nat) (acc : list (mid * macc)) (d : medge) : medge :=
  match acc with
  | [] => d
  | (w, a) :: acc' =>
      acc_edge es vs v (S k) acc' (if mid_eqb w v then ed_addAccess es vs k a d else d)
  end.

Fixpoint ids_distinct (l : list mid) : bool :=
  match l with
  | [] => true
  | x :: l' => negb (existsb (mid_eqb x) l') && ids_distinct l'
  end.

(** Matching.h:1290-1412: the graph after all the variables and then all the
    equations of the system have been added, with the assertions on empty index
    sets (252-253, 537-538) and on repeated ids (1299, 1371) *)
Definition m_build (s : msys) : res mgraph :=
  _ <- assert_ok (forallb (fun x => negb (ps_empty (mv_ind x))) (ms_vars s)
                  && forallb (fun x => negb (ps_empty (me_ind x))) (ms_eqs s)
                  && ids_distinct (map mv_id (ms_vars s))
                  && ids_distinct (map me_id (ms_eqs s))) ;;
  Ok (MG (map (fun x => NV (mv_id x)) (ms_vars s) ++ map (fun x => NE (me_id x)) (ms_eqs s))
         (flat_map (fun x => map (pair (me_id x)) (acc_targets s (me_acc x) [])) (ms_eqs s))
         (fun n => match n with
                   | NV v => match find_var s v with Some x => mt_new (mv_ind x) | None => mt_new [] end
                   | NE e => match find_eqn s e with Some x => mt_new (me_ind x) | None => mt_new [] end
                   end)
         (fun n => match n with
                   | NV v => match find_var s v with Some x => mv_vis x | None => true end
                   | NE e => match find_eqn s e with Some x => me_vis x | None => true end
                   end)
         (fun e => match find_eqn s (fst e), find_var s (snd e) with
                   | Some x, Some y => acc_edge (me_ind x) (mv_ind y) (snd e) 0 (me_acc x) ed_new
                   | _, _ => ed_new
                   end)
         (fun _ => true)).

(** Matching.h:1739-1751, [allNodesMatched] *)
Definition g_allMatched (g : mgraph) : bool :=
  forallb (fun n => mt_allMatched (g_vx g n)) (g_nodes g).

Definition n_touches (n : node) (e : medid) : bool :=
  match n with NV v => mid_eqb v (snd e) | NE x => mid_eqb x (fst e) end.
Definition n_other (n : node) (e : medid) : node :=
  match n with NV _ => NE (fst e) | NE _ => NV (snd e) end.
Definition g_out (g : mgraph) (n : node) : list medid := filter (n_touches n) (g_edges g).
Definition g_visible (g : mgraph) (n : node) : list medid :=            (* 1815-1825 *)
  filter (g_evis g) (g_out g n).
Definition g_degree (g : mgraph) (n : node) : nat := length (g_visible g n).  (* 1753-1772 *)

Section Algorithm.
  Variable solve : mmat -> list mmat.

  (** * Forced matches *)

  (** Matching.h:1961-1989: the loop on the edges of the removed opposite node *)
  Fixpoint leaf_opposite (g : mgraph) (v2 : node) (es : list medid) (pushed : list node)
    : mgraph * list node :=
    match es with
    | [] => (g_hide g v2, pushed)
    | e :: es' =>
        let g1 := g_hideEdge g e in
        let v := n_other v2 e in
        if negb (g_vis g1 v) then leaf_opposite g1 v2 es' pushed
        else match g_degree g1 v with
             | 0 => leaf_opposite (g_hide g1 v) v2 es' pushed
             | 1 => leaf_opposite g1 v2 es' (pushed ++ [v])
             | _ => leaf_opposite g1 v2 es' pushed
             end
    end.

  (** Matching.h:1880-2001: one round of the loop on the candidates; the result
      has the candidates to push back *)
  Definition leaf_step (g : mgraph) (v1 : node) : res (mgraph * list node) :=
    if negb (g_vis g v1) then Ok (g, [])
    else
      match g_visible g v1 with
      | [] => Bad                                         (* 1827-1832 *)
      | e :: _ =>
          let v2 := n_other v1 e in
          let d := g_ed g e in
          let filtered :=
            m_filterVars (m_filterEqs (ed_unm d) (mt_unmatched (g_vx g (NE (fst e)))))
                         (mt_unmatched (g_vx g (NV (snd e)))) in
          match solve filtered with
          | [m] =>
              let g1 := g_setEd g e (ed_addMatch d m) in
              mv <- mt_addMatch (g_vx g1 (NV (snd e))) (m_vars m) ;;
              let g2 := g_setVx g1 (NV (snd e)) mv in
              me <- mt_addMatch (g_vx g2 (NE (fst e))) (m_eqs m) ;;
              let g3 := g_setVx g2 (NE (fst e)) me in
              let g4 := g_hide (g_hideEdge g3 e) v1 in
              if mt_allMatched (g_vx g3 v2) then Ok (leaf_opposite g4 v2 (g_out g4 v2) [])
              else Ok (g4, match g_degree g4 v2 with 1 => [v2] | _ => [] end)
          | _ => Ok (g, [])
          end
      end.

  (** Matching.h:1866-2003: the loop on the candidates *)
  Fixpoint leaf_loop (fuel : nat) (g : mgraph) (cand : list node) : res mgraph :=
    match cand with
    | [] => Ok g
    | v1 :: cand' =>
        match fuel with
        | O => NoFuel
        | S f => '(g', new) <- leaf_step g v1 ;; leaf_loop f g' (cand' ++ new)
        end
    end.

  (** Matching.h:2014-2029, [collectSimplifiableNodes] *)
  Definition leaf_candidates (g : mgraph) : list node :=
    filter (fun n => Nat.eqb (g_degree g n) 1) (g_nodes g).

  (** Matching.h:1842-2004, [matchLeafNodes]; [vord] is the order in which the
      parallel loop delivers the candidates *)
  Definition leaf_run (fuel : nat) (vord : list node -> list node) (g : mgraph) : res mgraph :=
    leaf_loop fuel g (vord (leaf_candidates g)).

  (** * Augmenting paths *)

  (** Matching.h:760-846, class BFSStep *)
  Inductive bstep :=
  | SStart (n : node) (cand : pset)
  | SNext (prev : bstep) (e : medid) (n : node) (cand : pset) (flow : mmat).
  Definition s_node (s : bstep) : node :=
    match s with SStart n _ => n | SNext _ _ n _ _ => n end.
  Definition s_cand (s : bstep) : pset :=
    match s with SStart _ c => c | SNext _ _ _ c _ => c end.

  (** Matching.h:2523-2541, [containsFn] *)
  Fixpoint s_contains (s : bstep) (n : node) (c : pset) : bool :=
    (node_eqb (s_node s) n && ps_eq (s_cand s) c) ||
    match s with SStart _ _ => false | SNext p _ _ _ _ => s_contains p n c end.

  (** Matching.h:2506-2645, [expandFrontier]: the steps of the new frontier and
      the ends of the paths, for one edge and one local solution *)
  Definition expand_solution (g : mgraph) (s : bstep) (e : medid) (sol : mmat)
    : list bstep * list bstep :=
    match s_node s with
    | NE _ =>
        let next := NV (snd e) in
        let matched := m_filterVars sol (mt_unmatched (g_vx g next)) in
        if s_contains s next (m_vars sol) then ([], [])
        else if negb (m_empty matched) then ([], [SNext s e next (m_vars sol) matched])
        else ([SNext s e next (m_vars sol) sol], [])
    | NV _ =>
        let next := NE (fst e) in
        if s_contains s next (m_eqs sol) then ([], [])
        else ([SNext s e next (m_eqs sol) sol], [])
    end.
  Definition expand_edge (g : mgraph) (s : bstep) (e : medid) : list (list bstep * list bstep) :=
    map (expand_solution g s e)
      (match s_node s with
       | NE _ => solve (m_filterEqs (ed_unm (g_ed g e)) (s_cand s))
       | NV _ => solve (m_filterVars (ed_match (g_ed g e)) (s_cand s))
       end).
  Definition expand (g : mgraph) (s : bstep) : list (list bstep * list bstep) :=
    flat_map (expand_edge g s) (g_out g (s_node s)).

  (** Matching.h:2442-2458, [getInitialFrontier] *)
  Definition initial_frontier (g : mgraph) : list bstep :=
    flat_map (fun n => match n with
                       | NE _ => if ps_empty (mt_unmatched (g_vx g n)) then []
                                 else [SStart n (mt_unmatched (g_vx g n))]
                       | NV _ => []
                       end) (g_nodes g).

  (** Matching.h:2396-2437, [getCandidateAugmentingPaths]; [ord level which] is
      the order of the frontier ([which] = 0) or of the paths ([which] = 1) after
      the parallel loop and the sorting *)
  Fixpoint bfs (fuel : nat) (ord : nat -> nat -> list bstep -> list bstep) (level : nat)
    (g : mgraph) (frontier : list bstep) : res (list bstep) :=
    match frontier with
    | [] => Ok []
    | _ =>
        match fuel with
        | O => NoFuel
        | S f =>
            let r := flat_map (expand g) (ord level 0 frontier) in
            match flat_map snd r with
            | [] => bfs f ord (S level) g (flat_map fst r)
            | paths => Ok (ord level 1 paths)
            end
        end
    end.

  (** A flow of a path: the node it leaves, the edge and the entries (921-965). *)
  Definition mflow : Type := node * (medid * mmat).
  Definition fl_delta (f : mflow) : mmat := snd (snd f).
  Definition vmap : Type := node -> option pset.
  Definition vm_add (m : vmap) (n : node) (s : pset) : vmap :=           (* operator[] and += *)
    nupd m n (Some (ps_union (match m n with Some t => t | None => [] end) s)).

  (** Matching.h:2311-2358: the walk back from the end of a candidate path.
      [seen d] is the map of the visits of the accepted paths as the walk sees
      it at its round [d]; the walk gives up when it meets one of them *)
  Fixpoint walk_back (seen : nat -> vmap) (d : nat) (s : bstep) (m : mmat) (flows : list mflow)
    (new : list (node * pset)) : option (list mflow * list (node * pset)) :=
    let visit (m' : mmat) :=
      let touched := match s_node s with NV _ => m_vars m' | NE _ => m_eqs m' end in
      let old := match find (fun x => node_eqb (fst x) (s_node s)) new with
                 | Some x => snd x | None => [] end in
      let others := filter (fun x => negb (node_eqb (fst x) (s_node s))) new in
      match seen d (s_node s) with
      | Some t => if ps_overlaps touched t then None
                  else Some ((s_node s, ps_union old touched) :: others)
      | None => Some ((s_node s, touched) :: others)
      end in
    match s with
    | SStart _ _ =>
        match visit m with Some new' => Some (flows, new') | None => None end
    | SNext p e n _ flow =>
        let m' := match flows with
                  | [] => m
                  | f :: _ => match n with
                              | NV _ => m_filterVars flow (m_vars (fl_delta f))
                              | NE _ => m_filterEqs flow (m_eqs (fl_delta f))
                              end
                  end in
        match visit m' with
        | Some new' => walk_back seen (S d) p m' ((s_node p, (e, m')) :: flows) new'
        | None => None
        end
    end.
  Definition s_flow (s : bstep) : mmat := match s with SStart _ _ => [] | SNext _ _ _ _ m => m end.

  (** Matching.h:2276-2382, [filterCandidateAugmentingPaths]. The paths are
      taken in the order in which they enter the final critical section; the
      map of the visits seen by the round [d] of the [k]-th path is the one
      after [snap k d] of the acceptances that precede it. [hist] has the maps
      after each acceptance, the last one first *)
  Fixpoint filter_paths (snap : nat -> nat -> nat) (k : nat) (hist : vmap * list vmap)
    (paths : list bstep) : list (list mflow) :=
    match paths with
    | [] => []
    | s :: paths' =>
        let all := fst hist :: snd hist in
        let seen := fun d => nth (min (snap k d) (length (snd hist))) (rev all) (fun _ => None) in
        match walk_back seen 0 s (s_flow s) [] [] with
        | None => filter_paths snap (S k) hist paths'
        | Some (flows, new) =>
            if existsb (fun x => match fst hist (fst x) with
                                 | Some t => ps_overlaps (snd x) t
                                 | None => false
                                 end) new
            then filter_paths snap (S k) hist paths'
            else flows :: filter_paths snap (S k)
                   (fold_left (fun v x => vm_add v (fst x) (snd x)) new (fst hist), all) paths'
        end
    end.

  (** Matching.h:2650-2718, [applyPath] *)
  Definition apply_flow (a : mgraph * list (node * pset) * list (node * pset)) (f : mflow)
    : mgraph * list (node * pset) * list (node * pset) :=
    let '(g, removed, added) := a in
    let '(from, (e, delta)) := f in
    match from with
    | NV _ => (g_setEd g e (ed_removeMatch (g_ed g e) delta),
               removed ++ [(from, m_vars delta); (n_other from e, m_eqs delta)], added)
    | NE _ => (g_setEd g e (ed_addMatch (g_ed g e) delta),
               removed, added ++ [(from, m_eqs delta); (n_other from e, m_vars delta)])
    end.
  (** [removed] and [added] list the additions to the entries of two maps: the
      entry of a node is the union of them. *)
  Definition nm_keys (l : list (node * pset)) : list node :=
    fold_right (fun x ks => if existsb (node_eqb (fst x)) ks then ks else fst x :: ks) [] l.
  Definition nm_get (l : list (node * pset)) (n : node) : pset :=
    flat_map (fun x => if node_eqb (fst x) n then snd x else []) l.
  Definition apply_path (g : mgraph) (p : list mflow) : res mgraph :=
    let '(g1, removed, added) := fold_left apply_flow p (g, [], []) in
    g2 <- fold_res (fun g n => m <- mt_removeMatch (g_vx g n) (nm_get removed n) ;; Ok (g_setVx g n m))
            (nm_keys removed) g1 ;;
    fold_res (fun g n => m <- mt_addMatch (g_vx g n) (nm_get added n) ;; Ok (g_setVx g n m))
      (nm_keys added) g2.

  (** * The generic algorithm *)

  (** What the schedule of the parallel loops decides. *)
  Record sched := Sched {
    sc_ord : nat -> nat -> nat -> list bstep -> list bstep;   (* iteration, level, which *)
    sc_snap : nat -> nat -> nat -> nat;                        (* iteration, path, round *)
    sc_leaf : nat -> list node -> list node }.                 (* depth *)

  (** Matching.h:2256-2273, [getAugmentingPaths] *)
  Definition augmenting_paths (fuel : nat) (sc : sched) (it : nat) (g : mgraph)
    : res (list (list mflow)) :=
    paths <- bfs fuel (sc_ord sc it) 0 g (initial_frontier g) ;;
    Ok (filter_paths (sc_snap sc it) 0 ((fun _ => None), []) paths).

  (** Matching.h:2034-2064, [applyHK], with [matchIteration] (2239-2252); the
      result tells whether all the nodes are matched *)
  Fixpoint hk_loop (fuel bfuel : nat) (sc : sched) (it : nat) (g : mgraph) : res (bool * mgraph) :=
    match fuel with
    | O => NoFuel
    | S f =>
        paths <- augmenting_paths bfuel sc it g ;;
        g' <- fold_res apply_path paths g ;;
        let success := match paths with [] => false | _ => true end in
        let complete := g_allMatched g' in
        if success && negb complete then hk_loop f bfuel sc (S it) g' else Ok (complete, g')
    end.
  Definition hk_run (fuel bfuel : nat) (sc : sched) (g : mgraph) : res (bool * mgraph) :=
    if g_allMatched g then Ok (true, g) else hk_loop fuel bfuel sc 0 g.

  (** * The whole matching *)

  (** Matching.h:1543-1572, [getUnmatchedGraph]: the vertices it adds *)
  Definition sys_unmatched (s : msys) (g : mgraph) : msys :=
    MSys (flat_map (fun x => let u := mt_unmatched (g_vx g (NV (mv_id x))) in
                             if ps_empty u then []
                             else [MVar (mv_id x) u (g_vis g (NV (mv_id x)))]) (ms_vars s))
         (flat_map (fun x => let u := mt_unmatched (g_vx g (NE (me_id x))) in
                             if ps_empty u then []
                             else [MEqn (me_id x) u (g_vis g (NE (me_id x))) (me_acc x)]) (ms_eqs s)).

  (** The matches: for a pair of base ids, the equation and the variable indices
      (1474-1478). *)
  Definition msol : Type := list ((nat * nat) * (pset * pset)).
  Fixpoint sol_add (r : msol) (k : nat * nat) (es vs : pset) : msol :=
    match r with
    | [] => [(k, (es, vs))]
    | (k', (es', vs')) :: r' =>
        if Nat.eqb (fst k) (fst k') && Nat.eqb (snd k) (snd k')
        then (k', (ps_union es' es, ps_union vs' vs)) :: r'
        else (k', (es', vs')) :: sol_add r' k es vs
    end.

  (** Matching.h:1574-1599, [collectMatches] *)
  Definition collect (g : mgraph) (r : msol) : msol :=
    fold_left (fun r e => let m := ed_match (g_ed g e) in
                          if m_empty m then r
                          else sol_add r (fst (fst e), fst (snd e)) (m_eqs m) (m_vars m))
      (g_edges g) r.

  (** Matching.h:594-630, [getVariableAccesses] of an equation with the points
      that have been made scalar variables, for each base id *)
  Definition scalar_access (scal : nat -> option pset) (ind : pset) (a : mid * macc)
    : res (list (mid * macc)) :=
    match scal (fst (fst a)) with
    | None => Ok [a]
    | Some pts =>
        match nodup (list_eq_dec Z.eq_dec) (flat_map (macc_map (snd a)) ind) with
        | [p] => Ok (if ps_mem pts p then [((fst (fst a), Some p), snd a)] else [])
        | _ => Bad
        end
    end.
  Fixpoint scalar_accesses (scal : nat -> option pset) (ind : pset) (acc : list (mid * macc))
    : res (list (mid * macc)) :=
    match acc with
    | [] => Ok []
    | a :: acc' =>
        x <- scalar_access scal ind a ;; y <- scalar_accesses scal ind acc' ;; Ok (x ++ y)
    end.
  Definition is_const (a : macc) : bool := match a with AccConst _ => true | AccFun _ => false end.

  Fixpoint scalar_eqns (scal : nat -> option pset) (es : list meqn) : res (list meqn) :=
    match es with
    | [] => Ok []
    | x :: es' =>
        let should := existsb (fun a => match scal (fst (fst a)) with
                                        | Some _ => negb (is_const (snd a)) | None => false end)
                        (me_acc x) in
        l <- (if should then
                fold_res (fun l p => acc <- scalar_accesses scal [p] (me_acc x) ;;
                                     Ok (l ++ [MEqn (fst (me_id x), Some p) [p] true acc]))
                  (nodup (list_eq_dec Z.eq_dec) (me_ind x)) []
              else
                acc <- scalar_accesses scal (me_ind x) (me_acc x) ;;
                Ok [MEqn (me_id x) (me_ind x) (me_vis x) acc]) ;;
        l' <- scalar_eqns scal es' ;;
        Ok (l ++ l')
    end.

  (** Matching.h:2101-2179, [getScalarGraph]; [pick] is the choice of the
      variables by their scalar access factor (2203-2236), made among those of
      more than one element (2196-2200) *)
  Definition scalarized (pick : msys -> mid -> bool) (s : msys) (x : mvar) : bool :=
    Nat.ltb 1 (ps_size (mv_ind x)) && pick s (mv_id x).
  Definition scalar_map (pick : msys -> mid -> bool) (s : msys) (b : nat) : option pset :=
    match filter (fun x => Nat.eqb (fst (mv_id x)) b && scalarized pick s x) (ms_vars s) with
    | [] => None
    | l => Some (flat_map mv_ind l)
    end.
  Definition scalar_sys (pick : msys -> mid -> bool) (s : msys) : res msys :=
    es <- scalar_eqns (scalar_map pick s) (ms_eqs s) ;;
    Ok (MSys (flat_map (fun x => if scalarized pick s x
                                 then map (fun p => MVar (fst (mv_id x), Some p) [p] (mv_vis x))
                                        (nodup (list_eq_dec Z.eq_dec) (mv_ind x))
                                 else [x]) (ms_vars s)) es).

  (** Matching.h:1513-1539, the private [match]; [None] is the failure *)
  Record fuels := Fuels { fu_leaf : nat; fu_hk : nat; fu_bfs : nat }.
  Definition match_leaf (fu : fuels) (sc : sched) (depth : nat) (leaf : bool) (s : msys) (r : msol)
    : res (msys * msol) :=
    g <- m_build s ;;
    if leaf then
      g1 <- leaf_run (fu_leaf fu) (sc_leaf sc depth) g ;;
      Ok (sys_unmatched s g1, collect g1 r)
    else Ok (sys_unmatched s g, r).
  Definition match_generic (fu : fuels) (sc : sched) (s : msys) (r : msol) : res (option msol) :=
    g <- m_build s ;;
    '(ok, g') <- hk_run (fu_hk fu) (fu_bfs fu) sc g ;;
    Ok (if ok then Some (collect g' r) else None).
  Definition match_run (fu : fuels) (sc : sched) (leaf : bool) (pick : option (msys -> mid -> bool))
    (s : msys) : res (option msol) :=
    '(u, r) <- match_leaf fu sc 0 leaf s [] ;;
    match pick with
    | Some pk =>
        if existsb (scalarized pk u) (ms_vars u) then
          s' <- scalar_sys pk u ;;
          '(u', r') <- match_leaf fu sc 1 leaf s' r ;;
          match_generic fu sc u' r'
        else match_generic fu sc u r
    | None => match_generic fu sc u r
    end.
End Algorithm.

(** An instance of the local solver: the entries of an access are an option when
    they are one to one, and an option each otherwise. *)
Fixpoint one_to_one (m : mmat) : bool :=
  match m with
  | [] => true
  | x :: m' => negb (ps_mem (m_eqs m') (fst (snd x))) && negb (ps_mem (m_vars m') (snd (snd x)))
               && one_to_one m'
  end.
Definition solve_access (m : mmat) : list mmat :=
  flat_map (fun k => let o := filter (fun x => Nat.eqb (fst x) k) m in
                     if one_to_one o then [o] else map (fun x => [x]) o)
    (nodup Nat.eq_dec (map fst m)).

(** Matching.h:2475-2504, [sortPaths]: by decreasing size of the candidates,
    keeping the order of those of the same size *)
Fixpoint sort_insert (s : bstep) (l : list bstep) : list bstep :=
  match l with
  | [] => [s]
  | t :: l' => if Nat.ltb (ps_size (s_cand s)) (ps_size (s_cand t)) then t :: sort_insert s l' else s :: l
  end.
Definition sort_paths (l : list bstep) : list bstep := fold_right sort_insert [] l.
(** The schedule of a single thread. *)
Definition sched_seq : sched :=
  Sched (fun _ _ _ l => sort_paths l) (fun _ k _ => k) (fun _ l => l).
