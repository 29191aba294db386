(** * What a call means, and what inlining calls is

    A call binds the inputs to the arguments, or to their default values, which may
    read the inputs before them; gives the other variables their default values;
    runs the statements up to a return; and has the values of the outputs.  The
    meaning of the operations is left open. *)
From Coq Require Import ZArith List Bool Arith.
From Verif Require Import Result InlineModel.
Import ListNotations.
Local Open Scope nat_scope.

Section Meaning.
(** The value of an operation; the values over which an operation with a region
    iterates, and what it makes of the values of its region. *)
Variable op_val : nat -> list val -> option val.
Variable reg_dom : nat -> list val -> option (list val).
Variable reg_fold : nat -> list val -> list val -> option val.

Definition env := nat -> option val.
Definition no_env : env := fun _ => None.
Definition upd (r : env) (x : nat) (v : val) : env := fun y => if Nat.eqb y x then Some v else r y.
Definition obind {A B} (m : option A) (f : A -> option B) : option B := match m with Some a => f a | None => None end.

Fixpoint mapo {A B} (f : A -> option B) (l : list A) : option (list B) :=
  match l with [] => Some [] | a :: l' => obind (f a) (fun b => obind (mapo f l') (fun r => Some (b :: r))) end.

(** The value with the element at some subscripts replaced. *)
Fixpoint store (v : val) (subs : list val) (w : val) : option val :=
  match subs with
  | [] => Some w
  | VZ i :: subs' =>
      match v with
      | VL l => obind (nth_error l (Z.to_nat i)) (fun a => obind (store a subs' w)
          (fun a' => Some (VL (firstn (Z.to_nat i) l ++ a' :: skipn (S (Z.to_nat i)) l))))
      | VZ _ => None
      end
  | VL _ :: _ => None
  end.

Definition is_true (v : val) : bool := match v with VZ 0 => false | _ => true end.

Section Function.
(** The evaluation of an expression in an environment. *)
Variable ev : env -> expr -> option val.

Fixpoint bind_inputs (r : env) (ins : list (nat * option expr)) (args : list val) : option env :=
  match ins, args with
  | [], [] => Some r
  | (x, _) :: ins', a :: args' => bind_inputs (upd r x a) ins' args'
  | (x, Some d) :: ins', [] => obind (ev r d) (fun v => bind_inputs (upd r x v) ins' [])
  | _, _ => None
  end.

Fixpoint init_vars (r : env) (vs : list (nat * option expr)) : option env :=
  match vs with
  | [] => Some r
  | (x, Some d) :: vs' => obind (ev r d) (fun v => init_vars (upd r x v) vs')
  | (x, None) :: vs' => init_vars r vs'
  end.

(** The environment after a statement, and whether it returned. *)
Fixpoint exec (s : stmt) (r : env) : option (env * bool) :=
  match s with
  | SSet x subs e =>
      obind (mapo (ev r) subs) (fun is => obind (ev r e) (fun v =>
      match is with
      | [] => Some (upd r x v, false)
      | _ => obind (r x) (fun old => obind (store old is v) (fun v' => Some (upd r x v', false)))
      end))
  | SIf c b =>
      obind (ev r c) (fun v =>
      if is_true v then
        (fix run (b : list stmt) (r : env) : option (env * bool) :=
           match b with
           | [] => Some (r, false)
           | s :: b' => obind (exec s r) (fun q => if snd q then Some q else run b' (fst q))
           end) b r
      else Some (r, false))
  | SReturn => Some (r, true)
  end.
Fixpoint run (b : list stmt) (r : env) : option (env * bool) :=
  match b with
  | [] => Some (r, false)
  | s :: b' => obind (exec s r) (fun q => if snd q then Some q else run b' (fst q))
  end.

Definition call (f : func) (k : nat) (args : list val) : option val :=
  obind (bind_inputs no_env (f_inputs f) args) (fun r1 =>
  obind (init_vars r1 (f_outputs f ++ f_protected f)) (fun r2 =>
  obind (run (concat (f_algorithms f)) r2) (fun q =>
  obind (nth_error (f_outputs f) k) (fun o => fst q (fst o))))).
End Function.

(** A program is its functions. *)
Definition prog := nat -> option func.

(** The value of an expression when it is found within [n] nested steps; [its] are
    the values of the enclosing iterations. *)
Fixpoint eval (n : nat) (P : prog) (r : env) (its : list val) (e : expr) : option val :=
  match n with
  | 0 => None
  | S n =>
      match e with
      | XConst v => Some v
      | XVar x => r x
      | XIter k => nth_error its k
      | XOp o l => obind (mapo (eval n P r its) l) (op_val o)
      | XReg o l b =>
          obind (mapo (eval n P r its) l) (fun vs => obind (reg_dom o vs) (fun is =>
          obind (mapo (fun i => eval n P r (i :: its) b) is) (fun ws => reg_fold o vs ws)))
      | XCall f k l =>
          obind (mapo (eval n P r its) l) (fun vs => obind (P f) (fun fn =>
          call (fun r e => eval n P r [] e) fn k vs))
      end
  end.
Definition has_val (P : prog) (r : env) (its : list val) (e : expr) (v : val) : Prop := exists n, eval n P r its e = Some v.
End Meaning.

(** ** Inlining any of the calls *)

(** A statement with an assignment inside of it, which is an assignment that may
    not be executed. *)
Inductive assigns_within : stmt -> Prop :=
| within_here : forall c b x subs e, In (SSet x subs e) b -> assigns_within (SIf c b)
| within_deeper : forall c b s, In s b -> assigns_within s -> assigns_within (SIf c b).

(** [inl P e e']: [e'] is [e] with some calls, at any depth, replaced by what the
    code gives for them. *)
Inductive inl (P : prog) : expr -> expr -> Prop :=
| inl_const v : inl P (XConst v) (XConst v)
| inl_var x : inl P (XVar x) (XVar x)
| inl_iter k : inl P (XIter k) (XIter k)
| inl_op o l l' : Forall2 (inl P) l l' -> inl P (XOp o l) (XOp o l')
| inl_reg o l l' b b' : Forall2 (inl P) l l' -> inl P b b' -> inl P (XReg o l b) (XReg o l' b')
| inl_call f k l l' : Forall2 (inl P) l l' -> inl P (XCall f k l) (XCall f k l')
| inl_inline f k l l' fn e : Forall2 (inl P) l l' -> P f = Some fn -> can_inline fn = true ->
    inline_call fn k l' = Ok (e, []) -> inl P (XCall f k l) e.

Inductive inl_opt (P : prog) : option expr -> option expr -> Prop :=
| inl_none : inl_opt P None None
| inl_some e e' : inl P e e' -> inl_opt P (Some e) (Some e').
Definition inl_vars (P : prog) : list (nat * option expr) -> list (nat * option expr) -> Prop :=
  Forall2 (fun p q => fst p = fst q /\ inl_opt P (snd p) (snd q)).
Inductive inl_stmt (P : prog) : stmt -> stmt -> Prop :=
| inl_set x subs subs' e e' : Forall2 (inl P) subs subs' -> inl P e e' -> inl_stmt P (SSet x subs e) (SSet x subs' e')
| inl_if c c' b b' : inl P c c' -> Forall2 (inl_stmt P) b b' -> inl_stmt P (SIf c b) (SIf c' b')
| inl_return : inl_stmt P SReturn SReturn.
Record inl_func (P : prog) (f g : func) : Prop := {
  inl_flag : f_inline f = f_inline g;
  inl_inputs : inl_vars P (f_inputs f) (f_inputs g);
  inl_outputs : inl_vars P (f_outputs f) (f_outputs g);
  inl_protected : inl_vars P (f_protected f) (f_protected g);
  inl_algorithms : Forall2 (Forall2 (inl_stmt P)) (f_algorithms f) (f_algorithms g) }.
(** Some calls of a program are inlined, in any functions. *)
Definition inl_prog (P Q : prog) : Prop :=
  forall f, match P f, Q f with Some a, Some b => inl_func P a b | None, None => True | _, _ => False end.

(** One call after the other, in any order: the program, and an expression of a model. *)
Inductive inlines : prog -> expr -> prog -> expr -> Prop :=
| inlines_done P e : inlines P e P e
| inlines_step P e Q d R c : inl_prog P Q -> inl P e d -> inlines Q d R c -> inlines P e R c.

(** ** Functions that are inlined correctly *)

(** No variable is read. *)
Fixpoint no_reads (e : expr) : Prop :=
  match e with
  | XConst _ | XIter _ => True
  | XVar _ => False
  | XOp _ l | XCall _ _ l => (fix all (l : list expr) := match l with [] => True | a :: l' => no_reads a /\ all l' end) l
  | XReg _ l b => (fix all (l : list expr) := match l with [] => True | a :: l' => no_reads a /\ all l' end) l /\ no_reads b
  end.
(** No variable is read in a region. *)
Fixpoint plain (e : expr) : Prop :=
  match e with
  | XConst _ | XIter _ | XVar _ => True
  | XOp _ l | XCall _ _ l => (fix all (l : list expr) := match l with [] => True | a :: l' => plain a /\ all l' end) l
  | XReg _ l b => (fix all (l : list expr) := match l with [] => True | a :: l' => plain a /\ all l' end) l /\ no_reads b
  end.
(** The default values of inputs read no variables, the other variables have none,
    and the body is a list of assignments without subscripts that read no variables
    in regions. *)
Record accepted (f : func) : Prop := {
  ac_names : NoDup (map fst (f_inputs f));
  ac_inputs : Forall (fun p => match snd p with Some d => no_reads d | None => True end) (f_inputs f);
  ac_others : Forall (fun p => snd p = None) (f_outputs f ++ f_protected f);
  ac_body : Forall (fun s => match s with SSet _ [] e => plain e | _ => False end) (concat (f_algorithms f)) }.
Definition good (P : prog) : Prop := forall f fn, P f = Some fn -> can_inline fn = true -> accepted fn.
