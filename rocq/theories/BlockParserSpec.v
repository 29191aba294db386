(** The grammar of the equations and of the statements, after appendix A.2.6 of the
    Modelica language specification, with their trees. Expressions are those of
    ParserSpec.v.

    [full] adds what the specification permits and the parser is known not to read:
    elseif and when in equations, when statements, and call statements without
    arguments. Connect clauses, call equations, and comments after anything but an
    equality are left out. [relaxed] adds the when equations and the when statements
    as the parser reads them. *)
From Coq Require Import ZArith QArith List Bool String.
From Verif Require Import LexerModel ParserModel ParserSpec BlockParserModel.
Import ListNotations.
Local Open Scope nat_scope.
Local Open Scope list_scope.

Section Grammar.
  Variables full relaxed : bool.
  Definition E : list tk -> expr -> Prop := g_expr full relaxed.
  Definition simple (ts : list tk) (e : expr) : Prop :=
    exists d, g_simple full relaxed (g_depth full relaxed d) ts e.

  Section Blocks.
    Context {A : Type}.
    Variable G : list tk -> A -> Prop.
    (** { item ";" } *)
    Inductive g_block : list tk -> list A -> Prop :=
    | gb_nil : g_block [] []
    | gb_cons : forall a x b l, G a x -> g_block b l -> g_block (a ++ KSemi :: b) (x :: l).
    (** { key expression "then" { item ";" } } *)
    Inductive g_branches (key : tk) : list tk -> list (expr * list A) -> Prop :=
    | gbr_nil : g_branches key [] []
    | gbr_cons : forall a c b l d r, E a c -> g_block b l -> g_branches key d r ->
        g_branches key (key :: a ++ KThen :: b ++ d) ((c, l) :: r).
    (** [ "else" { item ";" } ] *)
    Inductive g_else_block : list tk -> option (list A) -> Prop :=
    | gelse_none : g_else_block [] None
    | gelse_some : forall b l, g_block b l -> g_else_block (KElse :: b) (Some l).
  End Blocks.

  (** [ STRING ] *)
  Inductive g_comment : list tk -> Prop :=
  | gco_none : g_comment []
  | gco_some : forall s, g_comment [KStr s].

  Section Equation.
    (** equation *)
    Variable G : list tk -> eqn -> Prop.
    Inductive g_equation : list tk -> eqn -> Prop :=
    (** simple-expression "=" expression comment *)
    | gq_eq : forall a x b y c, simple a x -> E b y -> g_comment c ->
        g_equation (a ++ KAssign :: b ++ c) (QEq x y)
    (** if-equation *)
    | gq_if : forall a x b l c br d o, E a x -> g_block G b l -> g_branches G KElseIf c br ->
        full = true \/ br = [] -> g_else_block G d o ->
        g_equation (KIf :: a ++ KThen :: b ++ c ++ d ++ [KEnd; KIf]) (QIf x l br (or_none o))
    (** for-equation *)
    | gq_for : forall a ix b l, g_indices E a ix -> g_block G b l ->
        g_equation (KFor :: a ++ KLoop :: b ++ [KEnd; KFor]) (QFor ix l)
    (** when-equation *)
    | gq_when : forall a x b l c br, full = true -> E a x -> g_block G b l ->
        g_branches G KElseWhen c br ->
        g_equation (KWhen :: a ++ KThen :: b ++ c ++ [KEnd; KWhen]) (QWhen x l br [])
    | gq_when_relaxed : forall a x b l d o, relaxed = true -> E a x -> g_block G b l ->
        g_else_block G d o ->
        g_equation (KWhen :: a ++ KThen :: b ++ d ++ [KEnd; KIf]) (QWhen x l [] (or_none o)).
  End Equation.
  Fixpoint g_equation_depth (n : nat) : list tk -> eqn -> Prop :=
    match n with
    | O => fun _ _ => False
    | S n' => g_equation (g_equation_depth n')
    end.
  Definition g_eqn (ts : list tk) (q : eqn) : Prop := exists n, g_equation_depth n ts q.

  (** [ expression ] { "," [ expression ] } *)
  Definition g_destinations (ts : list tk) (l : list expr) : Prop :=
    (ts = [] /\ l = []) \/ g_outputs full relaxed E ts l.

  Section Statement.
    (** statement *)
    Variable G : list tk -> stmt -> Prop.
    Inductive g_statement : list tk -> stmt -> Prop :=
    (** component-reference ":=" expression *)
    | gz_assign : forall a f b e, g_reference true E a f -> E b e ->
        g_statement (a ++ KAssignOp :: b) (ZAssign [f] e)
    (** component-reference function-call-args *)
    | gz_call : forall a f b l, g_reference true E a f -> g_arguments E b l ->
        g_statement (a ++ KLPar :: b ++ [KRPar]) (ZCall (XCall f l))
    | gz_call_none : forall a f, full = true -> g_reference true E a f ->
        g_statement (a ++ [KLPar; KRPar]) (ZCall (XCall f []))
    (** "(" output-expression-list ")" ":=" component-reference function-call-args *)
    | gz_tuple : forall a l b f c args, g_destinations a l -> g_reference true E b f -> g_call E c args ->
        g_statement (KLPar :: a ++ KRPar :: KAssignOp :: b ++ c) (ZAssign l (XCall f args))
    | gz_break : g_statement [KBreak] ZBreak
    | gz_return : g_statement [KReturn] ZReturn
    (** if-statement *)
    | gz_if : forall a x b l c br d o, E a x -> g_block G b l -> g_branches G KElseIf c br ->
        g_else_block G d o ->
        g_statement (KIf :: a ++ KThen :: b ++ c ++ d ++ [KEnd; KIf]) (ZIf x l br o)
    (** for-statement *)
    | gz_for : forall a ix b l, g_indices E a ix -> g_block G b l ->
        g_statement (KFor :: a ++ KLoop :: b ++ [KEnd; KFor]) (ZFor ix l)
    (** while-statement *)
    | gz_while : forall a x b l, E a x -> g_block G b l ->
        g_statement (KWhile :: a ++ KLoop :: b ++ [KEnd; KWhile]) (ZWhile x l)
    (** when-statement, without elsewhen, which has no tree *)
    | gz_when : forall a x b l, full = true -> E a x -> g_block G b l ->
        g_statement (KWhen :: a ++ KThen :: b ++ [KEnd; KWhen]) (ZWhen x l)
    | gz_when_relaxed : forall a x b l, relaxed = true -> E a x -> g_block G b l ->
        g_statement (KWhen :: a ++ KLoop :: b ++ [KEnd; KWhen]) (ZWhen x l).
  End Statement.
  Fixpoint g_statement_depth (n : nat) : list tk -> stmt -> Prop :=
    match n with
    | O => fun _ _ => False
    | S n' => g_statement (g_statement_depth n')
    end.
  Definition g_stmt (ts : list tk) (z : stmt) : Prop := exists n, g_statement_depth n ts z.
End Grammar.

Definition modelica_equation : list tk -> eqn -> Prop := g_eqn true false.
Definition supported_equation : list tk -> eqn -> Prop := g_eqn false false.
Definition relaxed_equation : list tk -> eqn -> Prop := g_eqn false true.
Definition modelica_statement : list tk -> stmt -> Prop := g_stmt true false.
Definition supported_statement : list tk -> stmt -> Prop := g_stmt false false.
Definition relaxed_statement : list tk -> stmt -> Prop := g_stmt false true.
