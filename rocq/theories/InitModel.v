(** * The initial conditions of a model

    Models [lib/AST/BaseModelica/Modification.cpp] (hasStartExpression,
    getStartExpression, getFixedProperty, getEachProperty),
    [lib/Codegen/Lowering/ModelLowerer.cpp] (lowerVariableAttributes) and
    [lib/Dialect/BaseModelica/Transforms/{BindingEquationConversion,
    ExplicitStartValueInsertion,ExplicitInitialEquationsInsertion,
    InitialConditionsSolving}.cpp].

    Simplifications.  Names are numbers; a value is an integer.  An expression is
    its rank and the value of its elements, which depends on the values of the
    variables.  An equation of a section is the set of values for which it holds
    (the lowering of sections is in [ForModel.v] and [SecModel.v]).  Records, the
    derivatives that become variables later and the solution of the system are
    left out. *)
From Coq Require Import ZArith List Bool Arith.
From Verif Require Import Result AccessModel.
Import ListNotations.
Local Open Scope nat_scope.

(** The values of the elements of the variables; the subscripts of a scalar are
    the empty list, and the first element has subscript zero. *)
Definition values := nat -> list Z -> Z.
Record iexp := { ie_rank : nat; ie_val : values -> list Z -> Z }.

(** The expression given for [fixed]. *)
Inductive fexp : Type :=
| FLit (b : bool)
| FArr (l : list fexp)
| FFill (b : bool)
| FOther.

(** An argument of the modification of a variable: [start], [fixed], another
    attribute, or what is not an element modification; the flag is [each]. *)
Inductive imod : Type :=
| MStart (each : bool) (e : iexp)
| MFixed (each : bool) (f : fexp)
| MAttr (each : bool)
| MRedeclare.

(** A variable of a model; [v_readonly] is for parameters and constants. *)
Record ivar := { v_name : nat; v_dims : list Z; v_readonly : bool;
                 v_binding : option iexp; v_mods : list imod }.

(** ** The attributes *)

(** Modification.cpp:172-233: the first argument with this name. *)
Fixpoint get_start (l : list imod) : option iexp :=
  match l with
  | [] => None
  | MStart _ e :: _ => Some e
  | _ :: l' => get_start l'
  end.

(** Modification.cpp:235-258, isArrayUniformConstBool. *)
Fixpoint uniform (f : fexp) : option bool :=
  match f with
  | FArr l =>
      (fix go (l : list fexp) (last : option bool) : option bool :=
         match l with
         | [] => last
         | x :: l' =>
             match (match x with FArr _ => uniform x | FLit b => Some b | _ => None end) with
             | None => None
             | Some v =>
                 match last with
                 | None => go l' (Some v)
                 | Some w => if Bool.eqb w v then go l' (Some w) else None
                 end
             end
         end) l None
  | _ => None
  end.

(** Modification.cpp:260-311: an array that is not uniform violates the assertion
    at line 286; [Ok None] is reported to the user as an invalid property. *)
Fixpoint get_fixed (l : list imod) : res (option bool) :=
  match l with
  | [] => Ok (Some false)
  | MFixed _ (FLit b) :: _ => Ok (Some b)
  | MFixed _ (FArr a) :: _ => match uniform (FArr a) with Some b => Ok (Some b) | None => Bad end
  | MFixed _ (FFill b) :: _ => Ok (Some b)
  | MFixed _ FOther :: _ => Ok None
  | _ :: l' => get_fixed l'
  end.

(** Modification.cpp:313-324: the flag of the first element modification,
    whatever its name. *)
Fixpoint get_each (l : list imod) : bool :=
  match l with
  | [] => false
  | MStart b _ :: _ | MFixed b _ :: _ | MAttr b :: _ => b
  | MRedeclare :: l' => get_each l'
  end.

(** ** Start operations *)

Record startop := { s_var : nat; s_fixed : bool; s_each : bool; s_implicit : bool; s_exp : iexp }.

(** ModelLowerer.cpp:190-215; [Bad] also stands for the error reported at lines
    180-182. *)
Definition lower_attributes (v : ivar) : res (list startop) :=
  match get_start (v_mods v) with
  | None => Ok []
  | Some e =>
      f <- get_fixed (v_mods v) ;;
      b <- of_option f ;;
      Ok [{| s_var := v_name v; s_fixed := b; s_each := get_each (v_mods v); s_implicit := false; s_exp := e |}]
  end.

(** ModelLowerer.cpp:72-94 and BindingEquationConversion.cpp:118-142: the binding
    equations come before the attributes; that of a parameter is a fixed start
    value. *)
Definition binding_starts (v : ivar) : list startop :=
  match v_binding v with
  | Some e =>
      if v_readonly v then [{| s_var := v_name v; s_fixed := true; s_each := false; s_implicit := false; s_exp := e |}]
      else []
  | None => []
  end.

(** ExplicitStartValueInsertion.cpp:44-100. *)
Definition zero_exp : iexp := {| ie_rank := 0; ie_val := fun _ _ => 0%Z |}.
Definition add_starts (vars : list ivar) (ss : list startop) : list startop :=
  ss ++ map (fun v => {| s_var := v_name v; s_fixed := false; s_each := false; s_implicit := true; s_exp := zero_exp |})
          (filter (fun v => negb (existsb (fun s => Nat.eqb (s_var s) (v_name v)) ss)) vars).

(** ** Equations *)

(** An equation of a section, or one between all the elements of a variable and
    those of an expression, at the last [rank] subscripts. *)
Inductive iequ : Type :=
| EGiven (p : values -> Prop)
| EAssign (x : nat) (dims : list Z) (rank : nat) (e : iexp).

(** BindingEquationConversion.cpp:45-116: all the subscripts are used on both
    sides, so the verifier of the subscripts refuses another rank. *)
Definition binding_equations (v : ivar) : res (list iequ) :=
  match v_binding v with
  | Some e =>
      if v_readonly v then Ok []
      else
        _ <- assert_ok (Nat.eqb (ie_rank e) (length (v_dims v))) ;;
        Ok [EAssign (v_name v) (v_dims v) (length (v_dims v)) e]
  | None => Ok []
  end.

(** ExplicitInitialEquationsInsertion.cpp:75-155. *)
Definition find_var (vars : list ivar) (x : nat) : option ivar := find (fun v => Nat.eqb (v_name v) x) vars.
Definition start_equation (vars : list ivar) (s : startop) : res iequ :=
  v <- of_option (find_var vars (s_var s)) ;;
  _ <- assert_ok (Nat.leb (ie_rank (s_exp s)) (length (v_dims v))) ;;
  Ok (EAssign (v_name v) (v_dims v) (ie_rank (s_exp s)) (s_exp s)).

(** The equations of the initial conditions, and the start equations whose values
    the solvers begin from (InitialConditionsSolving.cpp:141-147). *)
Record initsys := { is_equations : list iequ; is_guesses : list startop }.

Definition initial_system (vars : list ivar) (main initial : list (values -> Prop)) : res initsys :=
  ats <- map_res lower_attributes vars ;;
  bs <- map_res binding_equations vars ;;
  let ss := add_starts vars (flat_map binding_starts vars ++ concat ats) in
  ses <- map_res (start_equation vars) (filter s_fixed ss) ;;
  Ok {| is_equations := map EGiven initial ++ map EGiven main ++ concat bs ++ ses;
        is_guesses := filter (fun s => negb (s_fixed s) && negb (s_implicit s)) ss |}.
