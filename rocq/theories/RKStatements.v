(** The notions the properties of the integrators are stated with: how the
    objects of the model of the code are read as those of [RKSpec]. *)
From Coq Require Import String Bool ZArith QArith Qreals Reals List Permutation.
From Verif Require Import Result RKModel RKSpec.
Import ListNotations.
Local Open Scope nat_scope.
Local Open Scope list_scope.

(** A tableau with as many rows as columns and no entry missing. *)
Definition wf_tableau (tb : tableau) : Prop :=
  t_rows tb = t_columns tb /\ 0 < t_rows tb /\
  length (t_coefficients tb) = t_rows tb * t_columns tb /\
  length (t_weights tb) = t_columns tb /\
  length (t_adaptive tb) = t_columns tb /\
  length (t_nodes tb) = t_rows tb.

(** The method a tableau stands for: the matrix is stored by rows. *)
Definition method_of_tableau (tb : tableau) : rk_method :=
  mk_method (t_rows tb)
    (fun i j => nth (i * t_columns tb + j) (t_coefficients tb) 0%Q)
    (fun j => nth j (t_weights tb) 0%Q)
    (fun i => nth i (t_nodes tb) 0%Q).

Definition embedded_weights (tb : tableau) : nat -> Q :=
  fun j => nth j (t_adaptive tb) 0%Q.

(** The equation [e] of the model gives the derivative of the state [x]. *)
Definition gives_derivative (m : model) (sccs : list scc) (x : nat) (e : equation)
    : Prop :=
  exists s, In s sccs /\ In e (s_equations s) /\ In (x, e_match e) (m_ders m).

(** The map of the derivatives is a one-to-one map between variables of the
    model. *)
Definition wf_model (m : model) : Prop :=
  NoDup (map fst (m_vars m)) /\
  NoDup (map fst (m_ders m)) /\ NoDup (map snd (m_ders m)) /\
  forall x d, In (x, d) (m_ders m) ->
    In x (map fst (m_vars m)) /\ In d (map fst (m_vars m)).

(** A variable that is neither a state nor a derivative. *)
Definition plain (m : model) (v : nat) : Prop :=
  ~ In v (map fst (m_ders m)) /\ ~ In v (map snd (m_ders m)).

(** No derivative is itself a state. *)
Definition first_order (m : model) : Prop :=
  forall v, In v (map fst (m_ders m)) -> ~ In v (map snd (m_ders m)).

(** Every scalar derivative is given by one equation at one point. *)
Definition one_equation_each (m : model) (sccs : list scc) : Prop :=
  forall x e p e' p', gives_derivative m sccs x e -> gives_derivative m sccs x e' ->
    In p (e_indices e) -> In p' (e_indices e') -> e_access e p = e_access e' p' ->
    e = e' /\ p = p'.

(** The right-hand side depends on no other scalar than the ones listed. *)
Definition framed (e : equation) : Prop :=
  forall t f g p, (forall w q, In (w, q) (e_reads e p) -> f w q = g w q) ->
    e_rhs e t f p = e_rhs e t g p.

(** The derivative of a scalar depends, among the states and the derivatives,
    on that scalar only. *)
Definition decoupled (m : model) (x : nat) (e : equation) : Prop :=
  forall t f g p, In p (e_indices e) ->
    f x (e_access e p) = g x (e_access e p) ->
    (forall w q, plain m w -> f w q = g w q) ->
    e_rhs e t f p = e_rhs e t g p.

(** The scalars whose derivative an equation gives. *)
Definition integrated (m : model) (sccs : list scc) (s : nat * point) : Prop :=
  exists e p, gives_derivative m sccs (fst s) e /\ In p (e_indices e) /\
    snd s = e_access e p.

(** [f] is the right-hand side of the differential equation y' = f t y the
    equations of the model stand for, the variables that are neither states nor
    derivatives having the values [others]. *)
Definition is_ode (m : model) (sccs : list scc) (others : values)
    (f : R -> (nat * point -> R) -> nat * point -> R) : Prop :=
  forall x e p t y, gives_derivative m sccs x e -> In p (e_indices e) ->
    forall vals : values,
    (forall w q, In w (map fst (m_ders m)) -> vals w q = y (w, q)) ->
    (forall w q, plain m w -> vals w q = others w q) ->
    (forall w d q, In (w, d) (m_ders m) -> vals d q = f t y (w, q)) ->
    f t y (x, e_access e p) = e_rhs e t vals p.

(** [mem] solves the equations: every variable written has the value of the
    expression, the functions called in the equation of [v] having run on the
    memory [hid v]. *)
Definition solves (t h clock : R) (hid : rvar -> memory) (eqs : list requation)
    (mem : memory) : Prop :=
  forall v e, In (v, e) eqs -> mem v = eval t h clock (hid v) mem e.

(** An order in which every equation comes after the ones that write the
    variables it names. *)
Fixpoint ordered (l : list requation) : Prop :=
  match l with
  | [] => True
  | (v, e) :: l' =>
      (forall w e', In (w, e') ((v, e) :: l') -> ~ reads e w) /\ ordered l'
  end.

(** The values of the scalars now, after the step, and their slopes. *)
Definition current (mem : memory) : nat * point -> R := fun s => mem (Cur (fst s), snd s).
Definition next (mem : memory) : nat * point -> R := fun s => mem (Fut (fst s), snd s).
Definition slopes (mem : memory) : nat -> nat * point -> R :=
  fun i s => mem (Slope (fst s) (S i), snd s).

(** The scalars of a variable of the model. *)
Definition scalar_of (m : model) (v : nat) (p : point) : Prop :=
  exists ps, In (v, ps) (m_vars m) /\ In p ps.

(** The scalars of the states. *)
Definition of_states (m : model) (s : nat * point) : Prop :=
  In (fst s) (map fst (m_ders m)) /\ scalar_of m (fst s) (snd s).

(** A run of the equations in an order the dependencies allow. *)
Definition schedule_of (eqs l : list requation) : Prop :=
  (forall q, In q l <-> In q eqs) /\ ordered l.

(** The equation does not depend on the time. *)
Definition time_free (e : equation) : Prop :=
  forall t t' f p, e_rhs e t f p = e_rhs e t' f p.

(** An operation with its own result among its operands: no order of evaluation
    gives it a value. *)
Definition uses_itself (o : op) : Prop := In (o_def o) (o_operands o).
