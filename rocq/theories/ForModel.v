(** * From equations of the source to equation templates

    Models [lib/Codegen/Lowering/{EquationSection,ForEquation,EqualityEquation,
    IfEquation}Lowerer.cpp] and [lib/Dialect/BaseModelica/Transforms/
    {EquationSidesSplit,EquationInductionsExplicitation,
    EquationTemplatesCreation}.cpp] (in this order in FrontendActions.cpp:845-930).

    Simplifications.  Names are numbers.  An expression is a tree of operations,
    which are numbers that stand for their kind; a call with several results is
    one tree per result.  The type of a value is given by a function of its tree
    (how types are inferred is not modelled).  Integers are unbounded.  An array
    of the source that is used as the range of an index, and when equations,
    whose lowering is an unreachable statement like that of if equations
    (WhenEquationLowerer.cpp:12), are left out.  Between the passes run others
    that fold views and constants. *)
From Coq Require Import ZArith NArith List Bool Arith.
From Verif Require Import RangeModel MDRangeModel Result AccessModel RTreeModel IndexSetModel.
Import ListNotations.
Local Open Scope nat_scope.

(** ** The source *)

(** A bound of the range of an index: literals have no sign. *)
Inductive bexp : Type :=
| BLit (n : N)
| BNeg (b : bexp)
| BRef (x : nat).
Record frange := { fr_begin : bexp; fr_step : option bexp; fr_end : bexp }.

Inductive sexp : Type :=
| SNum (z : Z)
| SName (x : nat)
| SApp (o : nat) (args : list sexp).

Inductive sequ : Type :=
| SEq (lhs rhs : list sexp)
| SFor (inds : list (nat * frange)) (body : list sequ)
| SIf (cond : sexp) (thn els : list sequ).

(** ** The operations *)

(** [LInd k] is the argument of the [k]-th [ForEquationOp] around the equation,
    from the outermost, or the [k]-th induction of a template.  [LAt e ks] is a
    [TensorExtractOp] of [e] at these inductions. *)
Inductive lexp : Type :=
| LNum (z : Z)
| LVar (x : nat)
| LInd (k : nat)
| LApp (o : nat) (args : list lexp)
| LAt (e : lexp) (ks : list nat).

Record fop := { fo_from : Z; fo_to : Z; fo_step : Z }.

(** [EquationOp] and [ForEquationOp]. *)
Inductive ieq : Type :=
| IEq (lhs rhs : list lexp)
| IFor (f : fop) (body : list ieq).

(** ** Lowering *)

(** ForEquationLowerer.cpp:36-65: only constants. *)
Definition lower_bound (b : bexp) : res Z :=
  match b with
  | BLit n => Ok (Z.of_N n)
  | BNeg _ | BRef _ => Bad
  end.
Definition lower_range (r : frange) : res fop :=
  a <- lower_bound (fr_begin r) ;;
  s <- match fr_step r with None => Ok 1%Z | Some s => lower_bound s end ;;
  b <- lower_bound (fr_end r) ;;
  Ok {| fo_from := a; fo_to := b; fo_step := s |}.

(** The scoped symbol table: the induction with this name that was inserted last
    (ForEquationLowerer.cpp:13 and 72-73), or else a variable of the model. *)
Fixpoint last_place (x : nat) (env : list nat) : option nat :=
  match env with
  | [] => None
  | y :: env' =>
      match last_place x env' with
      | Some k => Some (S k)
      | None => if Nat.eqb x y then Some 0 else None
      end
  end.
Fixpoint lower_exp (env : list nat) (e : sexp) : lexp :=
  match e with
  | SNum z => LNum z
  | SName x => match last_place x env with Some k => LInd k | None => LVar x end
  | SApp o l => LApp o (map (lower_exp env) l)
  end.

(** ForEquationLowerer.cpp:66-81: a [ForEquationOp] per index, one in the
    other. *)
Fixpoint nest (fs : list fop) (body : list ieq) : list ieq :=
  match fs with
  | [] => body
  | f :: fs' => [IFor f (nest fs' body)]
  end.

(** ForEquationLowerer.cpp:11-92, EqualityEquationLowerer.cpp:11-60,
    IfEquationLowerer.cpp:11-14. *)
Fixpoint lower_equ (env : list nat) (e : sequ) {struct e} : res (list ieq) :=
  let lower_list :=
    fix lower_list (env : list nat) (l : list sequ) : res (list ieq) :=
      match l with
      | [] => Ok []
      | x :: l' => a <- lower_equ env x ;; r <- lower_list env l' ;; Ok (a ++ r)
      end in
  match e with
  | SEq l r => Ok [IEq (map (lower_exp env) l) (map (lower_exp env) r)]
  | SFor is body =>
      fs <- map_res (fun i => lower_range (snd i)) is ;;
      b <- lower_list (env ++ map fst is) body ;;
      Ok (nest fs b)
  | SIf _ _ _ => Bad
  end.
Definition lower_equs (env : list nat) (l : list sequ) : res (list ieq) :=
  (fix lower_list (env : list nat) (l : list sequ) : res (list ieq) :=
     match l with
     | [] => Ok []
     | x :: l' => a <- lower_equ env x ;; r <- lower_list env l' ;; Ok (a ++ r)
     end) env l.

(** ** Splitting the sides *)

(** EquationSidesSplit.cpp:45-119: a copy per element, each right after the
    original. *)
Fixpoint split_sides (e : ieq) : list ieq :=
  match e with
  | IEq l r =>
      if negb (Nat.eqb (length l) 1) && Nat.eqb (length l) (length r)
      then rev (map (fun p => IEq [fst p] [snd p]) (combine l r))
      else [IEq l r]
  | IFor f body => [IFor f (flat_map split_sides body)]
  end.

(** ** Adding inductions *)

(** EquationInductionsExplicitation.cpp:70-92: the ranks agree, in each
    dimension one size is known, and those that are known are equal. *)
Fixpoint compatible (d d' : list (option Z)) : bool :=
  match d, d' with
  | [], [] => true
  | None :: l, Some _ :: m | Some _ :: l, None :: m => compatible l m
  | Some a :: l, Some b :: m => Z.eqb a b && compatible l m
  | _, _ => false
  end.
(** EquationInductionsExplicitation.cpp:121-139. *)
Fixpoint dim_loops (d d' : list (option Z)) : list fop :=
  match d, d' with
  | None :: l, Some n :: m | Some n :: l, _ :: m =>
      {| fo_from := 0; fo_to := n - 1; fo_step := 1 |} :: dim_loops l m
  | _, _ => []
  end.

(** EquationInductionsExplicitation.cpp:47-179; [depth] is the number of
    [ForEquationOp]s around the equation. *)
Fixpoint explicitate (ty : lexp -> option (list (option Z))) (depth : nat) (e : ieq) : list ieq :=
  match e with
  | IEq [l] [r] =>
      match ty l, ty r with
      | Some d, Some d' =>
          if compatible d d' then
            let ks := seq depth (length d) in
            nest (dim_loops d d') [IEq [LAt l ks] [LAt r ks]]
          else [e]
      | _, _ => [e]
      end
  | IEq _ _ => [e]
  | IFor f body => [IFor f (flat_map (explicitate ty (S depth)) body)]
  end.

(** ** Templates *)

(** EquationTemplatesCreation.cpp:145-154: an induction whose step is not one has
    a range per value; the loop does not end if the step is not positive and the
    first value is not past the end. *)
Fixpoint step_ranges (fuel : nat) (index to step : Z) : res (list range) :=
  if Z.ltb index (to + 1) then
    match fuel with
    | O => NoFuel
    | S fuel' => r <- step_ranges fuel' (index + step)%Z to step ;; Ok (mkRange index (index + 1) :: r)
    end
  else Ok [].
Definition dim_ranges (f : fop) : res (list range) :=
  if Z.eqb (fo_step f) 1 then
    _ <- assert_ok (Z.ltb (fo_from f) (fo_to f + 1)) ;;
    Ok [mkRange (fo_from f) (fo_to f + 1)]
  else step_ranges (Z.to_nat (fo_to f + 1 - fo_from f)) (fo_from f) (fo_to f) (fo_step f).

(** EquationTemplatesCreation.cpp:91-123, getRangesCombinations. *)
Fixpoint combinations (dims : list (list range)) : res (list mdrange) :=
  match dims with
  | [] => Bad
  | rs :: dims' =>
      match dims' with
      | [] => Ok (map (fun r => [r]) rs)
      | _ :: _ =>
          sub <- combinations dims' ;;
          _ <- assert_ok (match rs with [] => false | _ :: _ => true end) ;;
          Ok (flat_map (fun r => map (fun c => r :: c) sub) rs)
      end
  end.

(** EquationTemplatesCreation.cpp:130-163, getIterationSpace. *)
Definition iteration_space (minE maxE : nat) (loops : list fop) : res iset :=
  match loops with
  | [] => Ok is_empty_set
  | _ :: _ =>
      dims <- map_res dim_ranges loops ;;
      boxes <- combinations dims ;;
      is_setFromRanges minE maxE boxes
  end.

(** An [EquationTemplateOp] with its [EquationInstanceOp]. *)
Record ftmpl := { ft_inductions : nat; ft_lhs : list lexp; ft_rhs : list lexp; ft_indices : iset }.

(** EquationTemplatesCreation.cpp:186-236; an instance whose rank is not the
    number of inductions is refused by its verifier (Ops.cpp,
    EquationInstanceOp::verify). *)
Definition create_template (minE maxE : nat) (e : list fop * (list lexp * list lexp)) : res ftmpl :=
  s <- iteration_space minE maxE (fst e) ;;
  _ <- assert_ok (Nat.eqb (is_rank s) (length (fst e))) ;;
  Ok {| ft_inductions := length (fst e); ft_lhs := fst (snd e); ft_rhs := snd (snd e); ft_indices := s |}.

(** EquationTemplatesCreation.cpp:46-63, collectEquationAndForEquationOps, and
    75-89, getForEquationOps: the equations of a block with the loops around
    it. *)
Definition direct (loops : list fop) (b : list ieq) : list (list fop * (list lexp * list lexp)) :=
  flat_map (fun e => match e with IEq l r => [(loops, (l, r))] | IFor _ _ => [] end) b.
(** EquationTemplatesCreation.cpp:181-185: the last loop first. *)
Fixpoint nested (loops : list fop) (e : ieq) : list (list fop * (list lexp * list lexp)) :=
  match e with
  | IEq _ _ => []
  | IFor f body =>
      direct (loops ++ [f]) body ++ concat (rev (map (nested (loops ++ [f])) body))
  end.

(** EquationTemplatesCreation.cpp:166-241, createTemplates: the equations of all
    sections, each with the section it is in; [true] is an initial one. *)
Definition collect (secs : list (bool * list ieq)) : list (bool * (list fop * (list lexp * list lexp))) :=
  flat_map (fun s => map (fun e => (fst s, e)) (direct [] (snd s))) secs ++
  concat (rev (flat_map (fun s => map (fun e => map (fun x => (fst s, x)) (nested [] e)) (snd s)) secs)).
Definition create_templates (minE maxE : nat) (secs : list (bool * list ieq)) : res (list (bool * ftmpl)) :=
  map_res (fun e => t <- create_template minE maxE (snd e) ;; Ok (fst e, t)) (collect secs).

(** EquationSectionLowerer.cpp:11-48 and the passes. *)
Definition compile_equations (minE maxE : nat) (ty : lexp -> option (list (option Z)))
    (secs : list (bool * list sequ)) : res (list (bool * ftmpl)) :=
  is <- map_res (fun s => b <- lower_equs [] (snd s) ;; Ok (fst s, b)) secs ;;
  create_templates minE maxE
    (map (fun s => (fst s, flat_map (explicitate ty 0) (flat_map split_sides (snd s)))) is).
