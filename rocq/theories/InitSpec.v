(** * What the initial conditions of a model are

    Modelica 3.x, 8.6: at the initial time the equations of the model and its
    initial equations hold, and a variable whose [fixed] is true has its start
    value.  A parameter with a binding has the value of the binding, and its start
    value is not used.  By default [fixed] is true for parameters and constants and false for
    the other variables, and a start value is zero. *)
From Coq Require Import ZArith List Bool.
From Verif Require Import InitModel.
Import ListNotations.

(** The subscripts of the elements of a variable. *)
Definition in_dims (dims idx : list Z) : Prop := Forall2 (fun n i => (0 <= i < n)%Z) dims idx.
(** The last subscripts. *)
Definition last_subscripts (k : nat) (idx : list Z) : list Z := skipn (length idx - k) idx.

(** The value of [start] for an element: without [each] the expression has the
    shape of the variable, with it the expression is for each element. *)
Definition start_value (v : ivar) (m : values) (idx : list Z) (z : Z) : Prop :=
  (exists e, In (MStart false e) (v_mods v) /\ z = ie_val e m idx) \/
  (exists e, In (MStart true e) (v_mods v) /\ z = ie_val e m (last_subscripts (ie_rank e) idx)) \/
  ((forall b e, ~ In (MStart b e) (v_mods v)) /\ z = 0%Z).

(** The value of [fixed] for an element. *)
Inductive fixed_at : fexp -> list Z -> bool -> Prop :=
| fixed_lit b idx : fixed_at (FLit b) idx b
| fixed_fill b idx : fixed_at (FFill b) idx b
| fixed_arr l i idx f b : nth_error l (Z.to_nat i) = Some f -> fixed_at f idx b -> fixed_at (FArr l) (i :: idx) b.
Definition is_fixed (v : ivar) (idx : list Z) : Prop :=
  (exists f, In (MFixed false f) (v_mods v) /\ fixed_at f idx true) \/
  (exists f, In (MFixed true f) (v_mods v) /\ fixed_at f [] true) \/
  ((forall b f, ~ In (MFixed b f) (v_mods v)) /\ v_readonly v = true /\ v_binding v = None).

(** The conditions at the initial time. *)
Definition initially (vars : list ivar) (main initial : list (values -> Prop)) (m : values) : Prop :=
  (forall p, In p initial -> p m) /\ (forall p, In p main -> p m) /\
  forall v idx, In v vars -> in_dims (v_dims v) idx ->
    (forall e, v_binding v = Some e -> m (v_name v) idx = ie_val e m idx) /\
    (is_fixed v idx -> (v_readonly v = true -> v_binding v = None) -> forall z, start_value v m idx z -> m (v_name v) idx = z).

(** The solutions of the system the compiler builds. *)
Definition equation_holds (m : values) (e : iequ) : Prop :=
  match e with
  | EGiven p => p m
  | EAssign x dims rank e => forall idx, in_dims dims idx -> m x idx = ie_val e m (last_subscripts rank idx)
  end.
Definition system_holds (s : initsys) (m : values) : Prop := forall e, In e (is_equations s) -> equation_holds m e.

(** ** Legal variables *)

Definition is_mstart (a : imod) : bool := match a with MStart _ _ => true | _ => false end.
Definition is_mfixed (a : imod) : bool := match a with MFixed _ _ => true | _ => false end.

(** An array of these dimensions, of literals. *)
Fixpoint shaped (dims : list Z) (f : fexp) : Prop :=
  match dims, f with
  | [], FLit _ => True
  | _, FFill _ => True
  | n :: dims', FArr l => Z.of_nat (length l) = n /\ (0 < n)%Z /\ (fix all (l : list fexp) := match l with [] => True | x :: l' => shaped dims' x /\ all l' end) l
  | _, _ => False
  end.

(** What the language asks: an attribute is given once, and expressions have the
    ranks of what they are for. *)
Definition legal_var (v : ivar) : Prop :=
  length (filter is_mstart (v_mods v)) <= 1 /\ length (filter is_mfixed (v_mods v)) <= 1 /\
  (forall e, v_binding v = Some e -> ie_rank e = length (v_dims v)) /\
  (forall e, In (MStart false e) (v_mods v) -> ie_rank e = length (v_dims v)) /\
  (forall e, In (MStart true e) (v_mods v) -> ie_rank e <= length (v_dims v)) /\
  (forall f, In (MFixed false f) (v_mods v) -> shaped (v_dims v) f) /\
  (forall f, In (MFixed true f) (v_mods v) -> shaped [] f).
(** A model declares each name once. *)
Definition legal_vars (vars : list ivar) : Prop := NoDup (map v_name vars) /\ Forall legal_var vars.

(** What the compiler asks beyond that: [fixed] has one value, not given by [fill]
    inside an array; a fixed variable has a written start value; a parameter has
    a binding or [fixed = true] and a start value, and not both. *)
Fixpoint same_literals (b : bool) (f : fexp) : Prop :=
  match f with
  | FLit c => c = b
  | FArr l => (fix all (l : list fexp) := match l with [] => True | x :: l' => same_literals b x /\ all l' end) l
  | _ => False
  end.
Definition has_value (f : fexp) (b : bool) : Prop := f = FFill b \/ same_literals b f.
Definition has_start (v : ivar) : Prop := exists c e, In (MStart c e) (v_mods v).
Definition accepted_var (v : ivar) : Prop :=
  (forall c f, In (MFixed c f) (v_mods v) -> exists b, has_value f b /\ (b = true -> has_start v /\ (v_readonly v = true -> v_binding v = None))) /\
  (v_readonly v = true -> v_binding v = None -> exists c f, In (MFixed c f) (v_mods v)).
