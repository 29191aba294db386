(** * What a call and default values mean *)
From Coq Require Import ZArith List.
From Verif Require Import CallModel.
Import ListNotations.

(** The value of an expression, for any meaning of the operators. *)
Fixpoint ceval (I : nat -> Z -> Z -> Z) (s : nat -> Z) (e : cexp) : Z :=
  match e with
  | CNum z => z
  | CGet x => s x
  | CBin o a b => I o (ceval I s a) (ceval I s b)
  end.

(** The argument a call gives for the input [x]: the one with its name, or the
    one in its position if the call has no names. *)
Definition given (f : cfun) (c : ccall) (x : nat) (e : cexp) : Prop :=
  exists i, nth_error (c_args c) i = Some e /\
    match c_names c with
    | Some names => nth_error names i = Some x
    | None => nth_error (inputs f) i = Some x
    end.

(** The value of an input in a call from a place where the variables have the
    values [env]. *)
Inductive input_value (I : nat -> Z -> Z -> Z) (f : cfun) (c : ccall) (env : nat -> Z) : nat -> Z -> Prop :=
| value_given : forall x e, given f c x e -> input_value I f c env x (ceval I env e)
| value_default : forall x d rho,
    (forall e, ~ given f c x e) -> In (x, d) (f_defaults f) ->
    (forall y, In y (gets d) -> input_value I f c env y (rho y)) ->
    input_value I f c env x (ceval I rho d).

(** No default expression needs itself. *)
Definition acyclic (ds : list (nat * cexp)) : Prop :=
  exists rank : nat -> nat, forall x d y, In (x, d) ds -> In y (gets d) -> rank y < rank x.

(** Each name is declared once and has at most one default; the default of an
    input names inputs only. *)
Definition well_declared (f : cfun) : Prop :=
  NoDup (map fst (f_vars f)) /\ NoDup (map fst (f_defaults f)) /\
  forall x d y, In (x, d) (f_defaults f) -> In x (inputs f) -> In y (gets d) -> In y (inputs f).

(** A call the language allows: arguments for different inputs, by position or
    by name, and for every input an argument or a default. *)
Definition legal_call (f : cfun) (c : ccall) : Prop :=
  match c_names c with
  | Some names => length names = length (c_args c) /\ NoDup names /\ incl names (inputs f)
  | None => length (c_args c) <= length (inputs f)
  end /\
  forall x, In x (inputs f) -> (exists e, given f c x e) \/ (exists d, In (x, d) (f_defaults f)).

(** A call with arguments by position and by name, as it is written. *)
Definition legal_written (f : cfun) (pos : list cexp) (named : list (nat * cexp)) : Prop :=
  length pos <= length (inputs f) /\
  NoDup (map fst named) /\ incl (map fst named) (skipn (length pos) (inputs f)) /\
  forall x, In x (skipn (length pos) (inputs f)) -> In x (map fst named) \/ (exists d, In (x, d) (f_defaults f)).

(** Assignments, and algorithms one after the other. *)
Definition assign (s : nat -> Z) (x : nat) (v : Z) : nat -> Z := fun y => if Nat.eqb y x then v else s y.
Fixpoint run_sets (I : nat -> Z -> Z -> Z) (l : list (nat * cexp)) (s : nat -> Z) : nat -> Z :=
  match l with
  | [] => s
  | (x, e) :: l' => run_sets I l' (assign s x (ceval I s e))
  end.
Fixpoint run_algorithms (I : nat -> Z -> Z -> Z) (l : list (list (nat * cexp))) (s : nat -> Z) : nat -> Z :=
  match l with
  | [] => s
  | a :: l' => run_algorithms I l' (run_sets I a s)
  end.

(** The store in which the body starts: every output and protected variable with
    a default holds its value, the rest is as in [s]. *)
Definition defaults_hold (I : nat -> Z -> Z -> Z) (f : cfun) (s s' : nat -> Z) : Prop :=
  (forall x d, In (x, d) (f_defaults f) -> ~ In x (inputs f) -> s' x = ceval I s' d) /\
  (forall x, In x (inputs f) \/ (forall d, ~ In (x, d) (f_defaults f)) -> s' x = s x).
