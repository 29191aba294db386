(** Specification vocabulary for the matching. *)
From Coq Require Import ZArith List Bool Permutation.
From Verif Require Import RangeModel Result MatchModel.
Import ListNotations.

(** * Vertices *)

(** The matched and the unmatched indices are disjoint and together are the
    matchable ones. *)
Definition partitioned (m : matchable) : Prop :=
  forall p, (In p (mt_all m) <-> In p (mt_matched m) \/ In p (mt_unmatched m)) /\
            ~ (In p (mt_matched m) /\ In p (mt_unmatched m)).

(** The operations of a history, on a variable. *)
Inductive mt_op := OpSet (s : pset) | OpAdd (s : pset) | OpRemove (s : pset) | OpShrink (s : pset).
Definition mt_step (m : matchable) (o : mt_op) : res matchable :=
  match o with
  | OpSet s => mt_setMatch m s
  | OpAdd s => mt_addMatch m s
  | OpRemove s => mt_removeMatch m s
  | OpShrink s => '(m', _) <- vv_removeIndices m s ;; Ok m'
  end.
Definition mt_run (m : matchable) (l : list mt_op) : res matchable := fold_res mt_step l m.
(** What the history makes of the matchable and of the matched indices. *)
Definition op_all (o : mt_op) (all : point -> Prop) (p : point) : Prop :=
  match o with
  | OpShrink s => all p /\ (~ In p s \/ forall q, all q -> In q s)
  | _ => all p
  end.
Definition op_matched (o : mt_op) (all matched : point -> Prop) (p : point) : Prop :=
  match o with
  | OpSet s => In p s
  | OpAdd s => matched p \/ In p s
  | OpRemove s => matched p /\ ~ In p s
  | OpShrink s => matched p /\ (~ In p s \/ forall q, all q -> In q s)
  end.
Fixpoint ops_all (l : list mt_op) (all : point -> Prop) : point -> Prop :=
  match l with [] => all | o :: l' => ops_all l' (op_all o all) end.
Fixpoint ops_matched (l : list mt_op) (all matched : point -> Prop) : point -> Prop :=
  match l with [] => matched | o :: l' => ops_matched l' (op_all o all) (op_matched o all matched) end.

(** The same for the entries of an edge. *)
Definition ent : Type := point * point.
Definition e_partitioned (d : medge) : Prop :=
  forall x : ent, (In x (map snd (ed_inc d)) <-> In x (map snd (ed_match d)) \/ In x (map snd (ed_unm d))) /\
                  ~ (In x (map snd (ed_match d)) /\ In x (map snd (ed_unm d))).
Inductive ed_op := EdAccess (es vs : pset) (k : nat) (a : macc) | EdAdd (m : mmat) | EdRemove (m : mmat).
Definition ed_step (d : medge) (o : ed_op) : medge :=
  match o with
  | EdAccess es vs k a => ed_addAccess es vs k a d
  | EdAdd m => ed_addMatch d m
  | EdRemove m => ed_removeMatch d m
  end.
(** Only incident entries are matched or unmatched. *)
Fixpoint ed_legal (d : medge) (l : list ed_op) : Prop :=
  match l with
  | [] => True
  | o :: l' => match o with
               | EdAccess _ _ _ _ => True
               | EdAdd m | EdRemove m => forall x, In x (map snd m) -> In x (map snd (ed_inc d))
               end /\ ed_legal (ed_step d o) l'
  end.

(** * Systems *)

(** A scalar equation or variable: the id of the array it belongs to and its
    index. *)
Definition scalar : Type := mid * point.
Definition scalar_eq (s : msys) (x : scalar) : Prop :=
  exists q, In q (ms_eqs s) /\ me_id q = fst x /\ In (snd x) (me_ind q).
Definition scalar_var (s : msys) (y : scalar) : Prop :=
  exists w, In w (ms_vars s) /\ mv_id w = fst y /\ In (snd y) (mv_ind w).
(** The scalar equation accesses the scalar variable. *)
Definition incident (s : msys) (x y : scalar) : Prop :=
  (exists q a, In q (ms_eqs s) /\ me_id q = fst x /\ In (snd x) (me_ind q) /\
               In (fst y, a) (me_acc q) /\ In (snd y) (macc_map a (snd x))) /\
  scalar_var s y.

(** A relation between equations and variables in which nothing is related
    twice. *)
Definition one_one {A B} (P : A -> B -> Prop) : Prop :=
  (forall x y y', P x y -> P x y' -> y = y') /\ (forall x x' y, P x y -> P x' y -> x = x').
(** A perfect matching of the system. *)
Record perfect (s : msys) (P : scalar -> scalar -> Prop) : Prop := {
  pf_incident : forall x y, P x y -> incident s x y;
  pf_one : one_one P;
  pf_eqs : forall x, scalar_eq s x -> exists y, P x y;
  pf_vars : forall y, scalar_var s y -> exists x, P x y }.
Definition solvable (s : msys) : Prop := exists P, perfect s P.

(** A system as the compiler gives it to the matching. *)
Record system (s : msys) : Prop := {
  sy_vars : NoDup (map mv_id (ms_vars s));
  sy_eqs : NoDup (map me_id (ms_eqs s));
  sy_vne : forall w, In w (ms_vars s) -> mv_ind w <> [];
  sy_ene : forall q, In q (ms_eqs s) -> me_ind q <> [] }.
Definition source (s : msys) : Prop :=
  (forall w, In w (ms_vars s) -> snd (mv_id w) = None /\ mv_vis w = true) /\
  (forall q, In q (ms_eqs s) -> snd (me_id q) = None /\ me_vis q = true /\
             forall a, In a (me_acc q) -> snd (fst a) = None).

(** Every variable has one element, or is made of scalars. *)
Definition scalarizes (pick : option (msys -> mid -> bool)) (s : msys) : Prop :=
  forall w, In w (ms_vars s) ->
    (forall p q, In p (mv_ind w) -> In q (mv_ind w) -> p = q) \/
    exists pk, pick = Some pk /\ forall u, pk u (mv_id w) = true.

(** Every access of a scalar equation reaches one scalar. *)
Definition one_target (s : msys) : Prop :=
  forall q v a i, In q (ms_eqs s) -> In (v, a) (me_acc q) -> In i (me_ind q) ->
    exists j, forall k, In k (macc_map a i) <-> k = j.

(** The solution lists the pairs of the relation [Q], grouped by equation and
    variable. *)
Definition reports (r : msol) (Q : nat * point -> nat * point -> Prop) : Prop :=
  NoDup (map fst r) /\
  (forall e i v j, Q (e, i) (v, j) -> exists es vs, In ((e, v), (es, vs)) r) /\
  (forall e v es vs, In ((e, v), (es, vs)) r ->
     (forall i, In i es <-> exists j, Q (e, i) (v, j)) /\
     (forall j, In j vs <-> exists i, Q (e, i) (v, j))).
(** A relation on the scalars of a source system, without the masks. *)
Definition bare (P : scalar -> scalar -> Prop) (x y : nat * point) : Prop :=
  P ((fst x, None), snd x) ((fst y, None), snd y).

(** * What is outside the model *)

(** The entries of a matrix. *)
Definition ents (m : mmat) : list (point * point) := map snd m.
(** The local solver gives options that are inside the matrix and match nothing
    twice, and every entry is in an option (C28). *)
Definition local_solver (solve : mmat -> list mmat) : Prop :=
  forall m,
    (forall o, In o (solve m) ->
       (forall x, In x (ents o) -> In x (ents m)) /\ one_one (fun i j => In (i, j) (ents o))) /\
    (forall x, In x (ents m) -> exists o, In o (solve m) /\ In x (ents o)).
(** The schedule only decides about the order of the results. *)
Definition schedule (sc : sched) : Prop :=
  (forall it lv w l, Permutation (sc_ord sc it lv w l) l) /\
  (forall d l, Permutation (sc_leaf sc d l) l).

(** * Graphs *)

(** The three matrices of the edges, as relations between scalars. *)
Definition g_incident (g : mgraph) (x y : scalar) : Prop :=
  In (fst x, fst y) (g_edges g) /\ In (snd x, snd y) (ents (ed_inc (g_ed g (fst x, fst y)))).
Definition g_pairs (g : mgraph) (x y : scalar) : Prop :=
  In (fst x, fst y) (g_edges g) /\ In (snd x, snd y) (ents (ed_match (g_ed g (fst x, fst y)))).
Definition g_free (g : mgraph) (x y : scalar) : Prop :=
  In (fst x, fst y) (g_edges g) /\ In (snd x, snd y) (ents (ed_unm (g_ed g (fst x, fst y)))).
(** The scalars of the graph. *)
Definition g_eq (g : mgraph) (x : scalar) : Prop :=
  In (NE (fst x)) (g_nodes g) /\ In (snd x) (mt_all (g_vx g (NE (fst x)))).
Definition g_var (g : mgraph) (y : scalar) : Prop :=
  In (NV (fst y)) (g_nodes g) /\ In (snd y) (mt_all (g_vx g (NV (fst y)))).

(** A graph with a valid matching: what the edges pair is one to one, along
    incidences, and agrees with what the vertices say. *)
Record valid (g : mgraph) : Prop := {
  va_ends : forall e v, In (e, v) (g_edges g) -> In (NE e) (g_nodes g) /\ In (NV v) (g_nodes g);
  va_inc : forall x y, g_incident g x y -> g_eq g x /\ g_var g y;
  va_split : forall x y, g_incident g x y <-> g_pairs g x y \/ g_free g x y;
  va_disj : forall x y, g_pairs g x y -> g_free g x y -> False;
  va_one : one_one (g_pairs g);
  va_part : forall n, In n (g_nodes g) -> partitioned (g_vx g n);
  va_eq : forall e i, In (NE e) (g_nodes g) ->
    (In i (mt_matched (g_vx g (NE e))) <-> exists y, g_pairs g (e, i) y);
  va_var : forall v j, In (NV v) (g_nodes g) ->
    (In j (mt_matched (g_vx g (NV v))) <-> exists x, g_pairs g x (v, j)) }.

(** Same vertices, same edges and same incidences. *)
Definition same_graph (g g' : mgraph) : Prop :=
  g_nodes g' = g_nodes g /\ g_edges g' = g_edges g /\
  (forall n, mt_all (g_vx g' n) = mt_all (g_vx g n)) /\
  (forall e, ed_inc (g_ed g' e) = ed_inc (g_ed g e)).

(** An augmenting path of the graph, as the list of its flows from the node [n]:
    the flow out of a node has exactly the indices [T] that the previous one
    reaches, the flows from an equation follow unmatched entries, those from a
    variable matched ones, each flow is one to one, and the last node is a
    variable reached at unmatched indices. *)
Inductive apath (g : mgraph) : nat -> node -> pset -> list mflow -> Prop :=
| ap_end : forall v T, In (NV v) (g_nodes g) -> T <> [] ->
    (forall j, In j T -> In j (mt_unmatched (g_vx g (NV v)))) -> apath g 0 (NV v) T []
| ap_fwd : forall k e v T delta fl, In (e, v) (g_edges g) ->
    (forall x, In x (ents delta) -> In x (ents (ed_unm (g_ed g (e, v))))) ->
    one_one (fun i j => In (i, j) (ents delta)) ->
    (forall i, In i T <-> In i (m_eqs delta)) ->
    apath g k (NV v) (m_vars delta) fl ->
    apath g (S k) (NE e) T ((NE e, ((e, v), delta)) :: fl)
| ap_bwd : forall k e v T delta fl, In (e, v) (g_edges g) ->
    (forall x, In x (ents delta) -> In x (ents (ed_match (g_ed g (e, v))))) ->
    one_one (fun i j => In (i, j) (ents delta)) ->
    (forall j, In j T <-> In j (m_vars delta)) ->
    apath g k (NE e) (m_eqs delta) fl ->
    apath g (S k) (NV v) T ((NV v, ((e, v), delta)) :: fl).
(** The nodes of the path with the indices it touches there, from the first. *)
Fixpoint touched (n : node) (T : pset) (fl : list mflow) : list (node * pset) :=
  match fl with
  | [] => [(n, T)]
  | (NE _, (e, d)) :: fl' => (n, T) :: touched (NV (snd e)) (m_vars d) fl'
  | (NV _, (e, d)) :: fl' => (n, T) :: touched (NE (fst e)) (m_eqs d) fl'
  end.
(** No scalar occurs twice in the list. *)
Fixpoint scalars_once (l : list (node * pset)) : Prop :=
  match l with
  | [] => True
  | (n, T) :: l' => (forall T' p, In (n, T') l' -> In p T -> In p T' -> False) /\ scalars_once l'
  end.
(** An augmenting path starts at unmatched indices of an equation and passes
    through every scalar at most once. *)
Definition augmenting (g : mgraph) (fl : list mflow) : Prop :=
  exists k e T, apath g k (NE e) T fl /\
    In (NE e) (g_nodes g) /\ (forall i, In i T -> In i (mt_unmatched (g_vx g (NE e)))) /\
    scalars_once (touched (NE e) T fl).
