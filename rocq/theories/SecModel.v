(** * Algorithm sections of a model

    Models [lib/Dialect/BaseModelica/Transforms/{ExplicitStartValueInsertion,
    ModelAlgorithmConversion}.cpp], which run one after the other
    (FrontendActions.cpp:905-906), and what becomes of the function they create:
    its default values go through FunctionDefaultValuesConversion.cpp
    ([CallModel.v]) and its body through BaseModelicaToCF.cpp ([StmtModel.v]).

    Simplifications.  Those of [StmtModel.v] and [CallModel.v]: variables are
    scalars, so an equation has no inductions and a start value is never
    broadcast; every type has a zero.  The name of the function and the types of
    its variables play no part.  Main and initial sections are treated in the
    same way by the code. *)
From Coq Require Import ZArith List Bool Arith.
From Verif Require Import Result AccessModel WritesMapModel StmtModel CallModel.
Import ListNotations.
Local Open Scope nat_scope.

(** ExplicitStartValueInsertion.cpp:44-100: a variable without a start value
    gets zero, at the end of the model. *)
Definition explicit_starts (dec : list nat) (starts : list (nat * cexp)) : list (nat * cexp) :=
  starts ++ map (fun x => (x, CNum 0)) (filter (fun x => negb (has_key x starts)) dec).

(** ModelAlgorithmConversion.cpp:31-43: the variables of the [VariableGetOp]s
    and [VariableSetOp]s inside a section, however deep. *)
Definition vars_of (l : list ref) : list nat :=
  flat_map (fun r => match r with RVar x => [x] | RSlot _ => [] end) l.
Fixpoint got (o : ops) : list nat :=
  match o with
  | ONil => []
  | OSet _ e r | OStore _ e r => vars_of (lreads e) ++ got r
  | OIf c th _ el r => vars_of (lreads c) ++ got th ++ got el ++ got r
  | OFor _ hi b st r => vars_of (lreads hi) ++ got b ++ vars_of (lreads st) ++ got r
  | OWhile c b r => vars_of (lreads c) ++ got b ++ got r
  | OBreak r | OReturn r | OYield r => got r
  end.
Fixpoint written (o : ops) : list nat :=
  match o with
  | ONil => []
  | OSet x _ r => x :: written r
  | OStore _ _ r => written r
  | OIf _ th _ el r => written th ++ written el ++ written r
  | OFor _ _ b _ r | OWhile _ b r => written b ++ written r
  | OBreak r | OReturn r | OYield r => written r
  end.

(** The value of a default as an operation that reads the variables from left to
    right; [I] gives the operators their meaning. *)
Fixpoint cval (I : nat -> Z -> Z -> Z) (d : cexp) (vs : list Z) : option (Z * list Z) :=
  match d with
  | CNum z => Some (z, vs)
  | CGet _ => match vs with v :: r => Some (v, r) | [] => None end
  | CBin o a b =>
      match cval I a vs with
      | Some (x, r) => match cval I b r with Some (y, r') => Some (I o x y, r') | None => None end
      | None => None
      end
  end.
Definition default_value (I : nat -> Z -> Z -> Z) (d : cexp) : lexp :=
  LE (map RVar (gets d)) (fun vs => option_map fst (cval I d vs)).
Definition default_sets (I : nat -> Z -> Z -> Z) (l : list (nat * cexp)) (rest : ops) : ops :=
  fold_right (fun a r => OSet (fst a) (default_value I (snd a)) r) rest l.

(** The function of a section, when it has become a graph. *)
Record sfun := { sf_inputs : list nat; sf_outputs : list nat; sf_graph : list (nat * blk) }.

(** ModelAlgorithmConversion.cpp:22-197, from the section to its function: the
    outputs are the written variables, the inputs those that are only read, in
    the order of two hash sets ([order]); the default of an output is its start
    value, the first there is (lines 208-218), and an unreachable statement is
    met if there is none.  Then FunctionDefaultValuesConversion.cpp:318-373 puts the
    defaults before the body. *)
Definition compile_section (I : nat -> Z -> Z -> Z) (addr : nat -> nat) (order : list nat -> list nat)
    (dec : list nat) (starts : list (nat * cexp)) (b : block) : res sfun :=
  os <- lower_block dec [] 0 b ;;
  let outs := order (written (fst os)) in
  let ins := filter (fun x => negb (existsb (Nat.eqb x) (written (fst os)))) (order (got (fst os))) in
  ds <- map_res (fun x => d <- of_option (map_find x (explicit_starts dec starts)) ;; Ok (x, d)) outs ;;
  algs <- insert_defaults addr {| f_vars := map (fun x => (x, IOInput)) ins ++ map (fun x => (x, IOOutput)) outs;
                                  f_defaults := ds; f_algs := [[]] |} ;;
  let body := default_sets I (concat algs) (fst os) in
  _ <- assert_ok (placed body) ;;
  g <- convert [body] ;;
  _ <- assert_ok (legal g) ;;
  Ok {| sf_inputs := ins; sf_outputs := outs; sf_graph := g |}.

(** ModelAlgorithmConversion.cpp:147-182: the [i]-th equation is between the
    [i]-th output and the [i]-th result of a call whose arguments are the
    variables of the model with the names of the inputs. *)
Definition section_equations (f : sfun) : list (nat * (list nat * nat)) :=
  map (fun p => (fst p, (sf_inputs f, snd p))) (combine (sf_outputs f) (seq 0 (length (sf_outputs f)))).
