(** Model of the structural index reduction: include/marco/Modeling/Pantelides.h,
    on top of the matching graph of MatchModel.

    Simplifications.
    - A descriptor is the number that addVertex gives to the vertex
      (include/marco/Modeling/Graph.h:665-672). Two descriptors are the same when
      the numbers are; the address of the vertex is not looked at.
    - The node of the descriptor [d] is [NV (d, None)] or [NE (d, None)], and its id
      is kept aside: a removed variable may come back with another descriptor.
    - The user callbacks are state transformers, on a state of their own.
    - A use of the descriptor of a removed variable gives [Bad].
    - The log is not in the code: it lists the calls of the callbacks. *)
From Coq Require Import ZArith List Bool Arith.
From Verif Require Import RangeModel Result MatchModel.
Import ListNotations.
Local Open Scope nat_scope.

Definition nv (d : nat) : node := NV (d, None).
Definition ne (d : nat) : node := NE (d, None).
Definition n_desc (n : node) : nat := match n with NV v => fst v | NE e => fst e end.

(** A call of the callback of the variables ([true]) or of the equations: the
    vertex, its id, its indices at the time, the indices handed over, and the id and
    the indices of the answer. *)
Record pevent := PEv { pe_var : bool; pe_desc : nat; pe_id : nat; pe_all : pset; pe_ind : pset;
                       pe_ans : nat; pe_got : pset }.

(** include/marco/Modeling/Pantelides.h:61-64, [VertexSubset], and the maps at
    109-115; an entry for each key *)
Definition pmap : Type := list (nat * (nat * pset)).
Definition pm_get (m : pmap) (d : nat) : option (nat * pset) :=
  match find (fun x => Nat.eqb (fst x) d) m with Some x => Some (snd x) | None => None end.
Definition pm_recorded (m : pmap) (d : nat) : pset :=
  match pm_get m d with Some x => snd x | None => [] end.

(** Pantelides.h:170-180 and 209-229: set the entry, or add the indices to it *)
Fixpoint pm_add (m : pmap) (d der : nat) (s : pset) : pmap :=
  match m with
  | [] => [(d, (der, s))]
  | x :: m' => if Nat.eqb (fst x) d then (d, (fst (snd x), ps_union (snd (snd x)) s)) :: m'
               else x :: pm_add m' d der s
  end.

Section Pant.
  Variable solve : mmat -> list mmat.
  Variable U : Type.
  (** Pantelides.h:92-96, the callbacks: the id and the indices of the derivative of
      a variable, and those and the accesses of the derivative of an equation *)
  Variable vdiff : U -> nat -> pset -> U * (nat * pset).
  Variable ediff : U -> nat -> pset -> U * (nat * (pset * list (nat * macc))).

  (** The graph: the vertices and edges, the variables and the equations as
      descriptor and id, the maps of the derivatives. *)
  Record pstate := PS {
    p_next : nat;
    p_g : mgraph;
    p_vid : list (nat * nat);
    p_eid : list (nat * nat);
    p_acc : list (nat * list (nat * macc));
    p_vder : pmap;
    p_eder : pmap;
    p_user : U;
    p_log : list pevent }.

  Definition p_set (st : pstate) (g : mgraph) : pstate :=
    PS (p_next st) g (p_vid st) (p_eid st) (p_acc st) (p_vder st) (p_eder st)
       (p_user st) (p_log st).

  Definition g_empty : mgraph :=
    MG [] [] (fun _ => mt_new []) (fun _ => true) (fun _ => ed_new) (fun _ => true).
  Definition p_new (u : U) : pstate := PS 0 g_empty [] [] [] [] [] u [].

  (** Matching.h:1605-1620 and 1655-1670: the descriptor of an id, the id of a
      descriptor *)
  Definition by_id (l : list (nat * nat)) (id : nat) : option nat :=
    match find (fun x => Nat.eqb (snd x) id) l with Some x => Some (fst x) | None => None end.
  Definition id_of (l : list (nat * nat)) (d : nat) : option nat :=
    match find (fun x => Nat.eqb (fst x) d) l with Some x => Some (snd x) | None => None end.

  Definition g_addNode (g : mgraph) (n : node) (s : pset) : mgraph :=
    MG (g_nodes g ++ [n]) (g_edges g) (nupd (g_vx g) n (mt_new s)) (nupd (g_vis g) n true)
       (g_ed g) (g_evis g).

  (** Matching.h:1297-1306, [addVariable] *)
  Definition p_addVariable (st : pstate) (id : nat) (s : pset) : res (pstate * nat) :=
    _ <- assert_ok (negb (ps_empty s)) ;;
    _ <- assert_ok (match by_id (p_vid st) id with None => true | Some _ => false end) ;;
    let d := p_next st in
    Ok (PS (S d) (g_addNode (p_g st) (nv d) s) (p_vid st ++ [(d, id)]) (p_eid st) (p_acc st)
           (p_vder st) (p_eder st) (p_user st) (p_log st), d).

  (** Matching.h:1308-1318, [removeVariable], with Graph.h:675-713 *)
  Definition g_remove (g : mgraph) (d : nat) : mgraph :=
    MG (filter (fun n => negb (node_eqb n (nv d))) (g_nodes g))
       (filter (fun e => negb (n_touches (nv d) e)) (g_edges g))
       (g_vx g) (g_vis g) (g_ed g) (g_evis g).
  Definition p_removeVariable (st : pstate) (d : nat) : pstate :=
    PS (p_next st) (g_remove (p_g st) d)
       (filter (fun x => negb (Nat.eqb (fst x) d)) (p_vid st)) (p_eid st) (p_acc st)
       (p_vder st) (p_eder st) (p_user st) (p_log st).

  (** Matching.h:698-702, [setVariableIndices] of an edge *)
  Definition ed_setVariables (d : medge) (s : pset) : medge :=
    ME (m_filterVars (ed_inc d) s) (m_filterVars (ed_match d) s) (m_filterVars (ed_unm d) s).

  (** Matching.h:1366-1376, [addEquation], and 1390-1414, [discoverAccesses] *)
  Definition known_accs (st : pstate) (acc : list (nat * macc)) : list (mid * macc) :=
    flat_map (fun a => match by_id (p_vid st) (fst a) with
                       | Some v => [((v, None), snd a)] | None => [] end) acc.
  Fixpoint firsts (l : list mid) (seen : list mid) : list mid :=
    match l with
    | [] => []
    | x :: l' => if existsb (mid_eqb x) seen then firsts l' seen else x :: firsts l' (x :: seen)
    end.
  Definition p_addEquation (st : pstate) (id : nat) (s : pset) (acc : list (nat * macc))
    : res (pstate * nat) :=
    _ <- assert_ok (negb (ps_empty s)) ;;
    _ <- assert_ok (match by_id (p_eid st) id with None => true | Some _ => false end) ;;
    let d := p_next st in
    let acc' := known_accs st acc in
    let g := g_addNode (p_g st) (ne d) s in
    let g' :=
      MG (g_nodes g) (g_edges g ++ map (pair (d, None)) (firsts (map fst acc') [])) (g_vx g)
         (g_vis g)
         (fun e => if mid_eqb (fst e) (d, None)
                   then acc_edge s (mt_all (g_vx g (NV (snd e)))) (snd e) 0 acc' ed_new
                   else g_ed g e)
         (fun e => if mid_eqb (fst e) (d, None) then true else g_evis g e) in
    Ok (PS (S d) g' (p_vid st) (p_eid st ++ [(d, id)]) (p_acc st ++ [(d, acc)])
           (p_vder st) (p_eder st) (p_user st) (p_log st), d).

  (** Pantelides.h:155-187, [addVariableDerivative] on descriptors *)
  Definition p_addVariableDerivative (st : pstate) (d der : nat) (s : pset) : res pstate :=
    '(m, ok) <- vv_removeIndices (g_vx (p_g st) (nv d)) s ;;
    if ok then
      let g := g_setVx (p_g st) (nv d) m in
      let g' := fold_left (fun g e => g_setEd g e (ed_setVariables (g_ed g e) (mt_all m)))
                  (g_out g (nv d)) g in
      Ok (PS (p_next st) g' (p_vid st) (p_eid st) (p_acc st) (pm_add (p_vder st) d der s)
             (p_eder st) (p_user st) (p_log st))
    else Ok (p_removeVariable st d).

  (** Pantelides.h:140-153, [addVariableDerivative] on ids *)
  Definition p_addDerivative (st : pstate) (v der : nat) (s : pset) : res pstate :=
    match by_id (p_vid st) v, by_id (p_vid st) der with
    | Some d, Some d' => p_addVariableDerivative st d d' s
    | _, _ => Ok st
    end.

  Definition p_call (st : pstate) (u : U) (e : pevent) : pstate :=
    PS (p_next st) (p_g st) (p_vid st) (p_eid st) (p_acc st) (p_vder st) (p_eder st)
       u (p_log st ++ [e]).

  (** Pantelides.h:359-417, [differentiateVariable] *)
  Definition p_diffVariable (st : pstate) (d : nat) (s : pset) : res pstate :=
    match id_of (p_vid st) d with
    | None => Bad
    | Some id =>
        let s' := ps_diff s (pm_recorded (p_vder st) d) in
        if ps_empty s' then Ok st
        else
          let '(u, (id', ind)) := vdiff (p_user st) id s' in
          let st1 := p_call st u (PEv true d id (mt_all (g_vx (p_g st) (nv d))) s' id' ind) in
          '(st2, d') <- (match by_id (p_vid st1) id' with
                         | Some d' => Ok (st1, d')
                         | None => p_addVariable st1 id' ind
                         end) ;;
          p_addVariableDerivative st2 d d' s'
    end.

  (** Pantelides.h:426-471, [differentiateEquation], with [addEquationDerivative]
      (206-229). The new equation reaches [discoverAccesses] once, the existing one
      is left as it is *)
  Definition p_diffEquation (st : pstate) (d : nat) (s : pset) : res pstate :=
    match id_of (p_eid st) d with
    | None => Bad
    | Some id =>
        let s' := ps_diff s (pm_recorded (p_eder st) d) in
        if ps_empty s' then Ok st
        else
          let '(u, (id', (ind, acc))) := ediff (p_user st) id s' in
          let st1 := p_call st u (PEv false d id (mt_all (g_vx (p_g st) (ne d))) s' id' ind) in
          '(st2, d') <- (match by_id (p_eid st1) id' with
                         | Some d' => Ok (st1, d')
                         | None => p_addEquation st1 id' ind acc
                         end) ;;
          Ok (PS (p_next st2) (p_g st2) (p_vid st2) (p_eid st2) (p_acc st2) (p_vder st2)
                 (pm_add (p_eder st2) d d' s') (p_user st2) (p_log st2))
    end.

  (** Matching.h:1025-1048, class Visits: the additions to the entry of a key give
      one entry, at the place of the first *)
  Fixpoint visit_add (l : list (node * pset)) (n : node) (s : pset) : list (node * pset) :=
    match l with
    | [] => [(n, s)]
    | x :: l' => if node_eqb (fst x) n then (n, ps_union (snd x) s) :: l'
                 else x :: visit_add l' n s
    end.
  Definition visits_of (l : list (node * pset)) : list (node * pset) :=
    fold_left (fun m x => visit_add m (fst x) (snd x)) l [].

  (** Matching.h:2517-2519 and 2551-2553: what the expansion of a step adds to the
      visits; an edge is traversable when it has an entry to follow (2068-2098) *)
  Definition step_visits (g : mgraph) (s : bstep) : list (node * pset) :=
    (s_node s, s_cand s) ::
    match s_node s with
    | NE _ => flat_map (fun e => if m_empty (ed_unm (g_ed g e)) then []
                                 else [(NV (snd e), m_vars (ed_inc (g_ed g e)))])
                (g_out g (s_node s))
    | NV _ => []
    end.

  (** Matching.h:2399-2437, [getCandidateAugmentingPaths] with the visits *)
  Fixpoint p_bfs (fuel : nat) (ord : nat -> nat -> list bstep -> list bstep) (level : nat)
    (g : mgraph) (frontier : list bstep) : res (list bstep * list (node * pset)) :=
    match frontier with
    | [] => Ok ([], [])
    | _ =>
        match fuel with
        | O => NoFuel
        | S f =>
            let fr := ord level 0 frontier in
            let v := flat_map (step_visits g) fr in
            let r := flat_map (expand solve g) fr in
            match flat_map snd r with
            | [] => '(paths, v') <- p_bfs f ord (S level) g (flat_map fst r) ;; Ok (paths, v ++ v')
            | paths => Ok (ord level 1 paths, v)
            end
        end
    end.

  (** Pantelides.h:351-357 and 419-424 *)
  Definition p_diffVisited (st : pstate) (v : list (node * pset)) : res pstate :=
    st1 <- fold_res (fun st x => match fst x with
                                 | NV d => p_diffVariable st (fst d) (snd x)
                                 | NE _ => Ok st end) v st ;;
    fold_res (fun st x => match fst x with
                          | NE d => p_diffEquation st (fst d) (snd x)
                          | NV _ => Ok st end) v st1.

  (** What the schedule of the parallel loops decides in each round; [pc_vis] is the
      order of the additions to the visits. *)
  Record psched := PSched {
    pc_ord : nat -> nat -> nat -> list bstep -> list bstep;
    pc_snap : nat -> nat -> nat -> nat;
    pc_vis : nat -> list (node * pset) -> list (node * pset) }.

  (** Pantelides.h:284-346: the loop on the worklist, its last element first; a
      round of it is a round of the inner loop. The result is the state after at
      most [fuel] rounds and what is left of the worklist *)
  Fixpoint p_work (fuel bfuel : nat) (sc : psched) (round : nat) (st : pstate) (work : list nat)
    : res (pstate * list nat) :=
    match work with
    | [] => Ok (st, [])
    | e :: work' =>
        match fuel with
        | O => Ok (st, work)
        | S f =>
            let u := mt_unmatched (g_vx (p_g st) (ne e)) in
            if ps_empty u then p_work f bfuel sc (S round) st work'
            else
              '(cand, v) <- p_bfs bfuel (pc_ord sc round) 0 (p_g st) [SStart (ne e) u] ;;
              match filter_paths (pc_snap sc round) 0 ((fun _ => None), []) cand with
              | [] =>
                  st' <- p_diffVisited st (visits_of (pc_vis sc round v)) ;;
                  match pm_get (p_eder st') e with
                  | None => Bad                                        (* 244-248 *)
                  | Some x => p_work f bfuel sc (S round) st' (fst x :: work')
                  end
              | paths =>
                  g <- fold_res apply_path paths (p_g st) ;;
                  p_work f bfuel sc (S round) (p_set st g) (e :: work')
              end
        end
    end.

  (** The system that the graph stands for, named by descriptors. *)
  Definition p_sys (st : pstate) : msys :=
    MSys (map (fun x => MVar (fst x, None) (mt_all (g_vx (p_g st) (nv (fst x))))
                             (g_vis (p_g st) (nv (fst x)))) (p_vid st))
         (map (fun x => MEqn (fst x, None) (mt_all (g_vx (p_g st) (ne (fst x))))
                             (g_vis (p_g st) (ne (fst x)))
                             (match find (fun y => Nat.eqb (fst y) (fst x)) (p_acc st) with
                              | Some y => known_accs st (snd y) | None => [] end)) (p_eid st)).

  (** Pantelides.h:267-272: the call of [match] (Matching.h:1513-1539), which works on
      this graph for the leaf nodes and on other graphs for the rest; [pick] is as in
      [match_run] *)
  Definition p_match (fu : fuels) (sc : sched) (pick : msys -> mid -> bool) (st : pstate)
    : res (pstate * option msol) :=
    g <- leaf_run solve (fu_leaf fu) (sc_leaf sc 0) (p_g st) ;;
    let u := sys_unmatched (p_sys st) g in
    ok <- (if existsb (scalarized pick u) (ms_vars u) then
             s' <- scalar_sys pick u ;;
             '(u', r) <- match_leaf solve fu sc 1 true s' [] ;;
             match_generic solve fu sc u' r
           else match_generic solve fu sc u []) ;;
    Ok (p_set st g, ok).

  (** Pantelides.h:257-349, [run] *)
  Definition p_run (fu : fuels) (sc : sched) (pick : msys -> mid -> bool) (fuel bfuel : nat)
    (psc : psched) (st : pstate) : res (pstate * list nat) :=
    '(st', ok) <- p_match fu sc pick st ;;
    match ok with
    | Some _ => Ok (st', [])
    | None => p_work fuel bfuel psc 0 st' (rev (map fst (p_eid st)))
    end.

  (** The public operations on a graph, before [run]. *)
  Inductive pop :=
  | PVar (id : nat) (s : pset)
  | PDer (v der : nat) (s : pset)
  | PEqn (id : nat) (s : pset) (acc : list (nat * macc)).
  Definition p_op (st : pstate) (o : pop) : res pstate :=
    match o with
    | PVar id s => '(st', _) <- p_addVariable st id s ;; Ok st'
    | PDer v der s => p_addDerivative st v der s
    | PEqn id s acc => '(st', _) <- p_addEquation st id s acc ;; Ok st'
    end.
  Definition p_build (u : U) (ops : list pop) : res pstate := fold_res p_op ops (p_new u).
End Pant.

Arguments p_next {U}. Arguments p_g {U}. Arguments p_vid {U}. Arguments p_eid {U}.
Arguments p_acc {U}. Arguments p_vder {U}. Arguments p_eder {U}. Arguments p_user {U}.
Arguments p_log {U}. Arguments p_set {U}.
