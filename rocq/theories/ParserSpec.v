(** The grammar of the expressions, after appendix A.2.7 of the Modelica language
    specification, with the tree of each phrase.

    [full] adds what the specification permits and the parser is known not to read:
    elseif in expressions, references that start with a dot, the signs .+ and .-, and
    lists of outputs that end with a missing output. The matrix constructor with square
    brackets, end in subscripts and partial function applications have no tree, and are
    left out. [relaxed] adds phrases that the specification does not have: chains of
    powers, outputs that are not separated, and subscripts after arrays and calls. *)
From Coq Require Import ZArith QArith List Bool String.
From Verif Require Import LexerModel ParserModel.
Import ListNotations.
Local Open Scope nat_scope.
Local Open Scope list_scope.

Definition rel_ops : list (tk * okind) :=
  [(KLt, OLt); (KLe, OLe); (KGt, OGt); (KGe, OGe); (KEq, OEq); (KNe, ONe)].
Definition add_ops : list (tk * okind) :=
  [(KPlus, OAdd); (KMinus, OSub); (KPlusEW, OAddEW); (KMinusEW, OSubEW)].
Definition mul_ops : list (tk * okind) :=
  [(KMul, OMul); (KDiv, ODiv); (KMulEW, OMulEW); (KDivEW, ODivEW)].
Definition pow_ops : list (tk * okind) := [(KPow, OPow); (KPowEW, OPowEW)].

(** item { sep item } *)
Inductive separated {A} (I : list tk -> A -> Prop) (sep : tk) : list tk -> list A -> Prop :=
| sep_one : forall ts x, I ts x -> separated I sep ts [x]
| sep_more : forall ts x ts' l, I ts x -> separated I sep ts' l ->
    separated I sep (ts ++ sep :: ts') (x :: l).

Section Grammar.
  Variables full relaxed : bool.

  Section Levels.
    (** expression *)
    Variable E : list tk -> expr -> Prop.

    (** subscript: ":" | expression *)
    Inductive g_subscript : list tk -> sub -> Prop :=
    | gs_all : g_subscript [KColon] SAll
    | gs_expr : forall ts e, E ts e -> g_subscript ts (SExpr e).
    (** array-subscripts: "[" subscript { "," subscript } "]" *)
    Inductive g_subscripts : list tk -> list sub -> Prop :=
    | gss : forall ts l, separated g_subscript KComma ts l -> g_subscripts (KLSq :: ts ++ [KRSq]) l.
    (** for-index: IDENT [ "in" expression ] *)
    Inductive g_index : list tk -> text * option expr -> Prop :=
    | gi_free : forall s, g_index [KIdent s] (s, None)
    | gi_in : forall s ts e, E ts e -> g_index (KIdent s :: KIn :: ts) (s, Some e).
    (** for-indices: for-index { "," for-index } *)
    Definition g_indices := separated g_index KComma.
    (** named-argument: IDENT "=" expression *)
    Inductive g_named : list tk -> arg -> Prop :=
    | gn : forall s ts e, E ts e -> g_named (KIdent s :: KAssign :: ts) (ANamed s e).
    (** function-arguments-non-first:
          expression [ "," function-arguments-non-first ] | named-arguments *)
    Inductive g_rest : list tk -> list arg -> Prop :=
    | gr_named : forall ts l, separated g_named KComma ts l -> g_rest ts l
    | gr_last : forall ts e, E ts e -> g_rest ts [AExpr e]
    | gr_more : forall ts e ts' l, E ts e -> g_rest ts' l -> g_rest (ts ++ KComma :: ts') (AExpr e :: l).
    (** function-arguments: expression [ "," function-arguments-non-first | "for" for-indices ]
          | named-arguments *)
    Inductive g_arguments : list tk -> list arg -> Prop :=
    | ga_rest : forall ts l, g_rest ts l -> g_arguments ts l
    | ga_for : forall ts e ts' ix, E ts e -> g_indices ts' ix ->
        g_arguments (ts ++ KFor :: ts') [AReduction e ix].
    (** function-call-args: "(" [ function-arguments ] ")" *)
    Inductive g_call : list tk -> list arg -> Prop :=
    | gc_none : g_call [KLPar; KRPar] []
    | gc_some : forall ts l, g_arguments ts l -> g_call (KLPar :: ts ++ [KRPar]) l.
    (** "{" array-arguments "}" *)
    Inductive g_array : list tk -> expr -> Prop :=
    | gy_list : forall ts l, separated E KComma ts l -> g_array (KLCurly :: ts ++ [KRCurly]) (XArray l)
    | gy_for : forall ts e ts' ix, E ts e -> g_indices ts' ix ->
        g_array (KLCurly :: ts ++ KFor :: ts' ++ [KRCurly]) (XArrayFor e ix).
    (** output-expression-list: [ expression ] { "," [ expression ] } *)
    Inductive g_outputs : list tk -> list expr -> Prop :=
    | go_last : forall ts e, E ts e -> g_outputs ts [e]
    | go_empty : full = true -> g_outputs [] [XDummy]
    | go_more : forall ts e ts' l, E ts e -> g_outputs ts' l -> g_outputs (ts ++ KComma :: ts') (e :: l)
    | go_skip : forall ts' l, g_outputs ts' l -> g_outputs (KComma :: ts') (XDummy :: l)
    | go_end : relaxed = true -> g_outputs [] []
    | go_loose : forall ts e ts' l, relaxed = true -> E ts e -> g_outputs ts' l ->
        g_outputs (ts ++ ts') (e :: l).
    (** "(" output-expression-list ")": one output is the expression itself *)
    Inductive g_parens : list tk -> expr -> Prop :=
    | gp_none : g_parens [KLPar; KRPar] (XTuple [])
    | gp_one : forall ts e, g_outputs ts [e] -> g_parens (KLPar :: ts ++ [KRPar]) e
    | gp_many : forall ts l, g_outputs ts l -> List.length l <> 1 ->
        g_parens (KLPar :: ts ++ [KRPar]) (XTuple l).
    (** component-reference: [ "." ] IDENT [ array-subscripts ] { "." IDENT [ array-subscripts ] } *)
    Inductive g_entry : list tk -> text * list sub -> Prop :=
    | ge_plain : forall s, g_entry [KIdent s] (s, [])
    | ge_subs : forall s ts l, g_subscripts ts l -> g_entry (KIdent s :: ts) (s, l).
    Inductive g_reference : list tk -> expr -> Prop :=
    | gre_local : forall ts l, separated g_entry KDot ts l -> g_reference ts (XRef false l)
    | gre_global : forall ts l, full = true -> separated g_entry KDot ts l ->
        g_reference (KDot :: ts) (XRef true l).
    (** ( component-reference | "der" ) function-call-args *)
    Inductive g_application : list tk -> expr -> Prop :=
    | gap_ref : forall ts f ts' l, g_reference ts f -> g_call ts' l ->
        g_application (ts ++ ts') (XCall f l)
    | gap_der : forall ts l, g_call ts l ->
        g_application (KDer :: ts) (XCall (XRef false [(codes "der", [])]) l).
    (** primary *)
    Inductive g_primary : list tk -> expr -> Prop :=
    | gpr_int : forall z, g_primary [KInt z] (XInt z)
    | gpr_real : forall q, g_primary [KReal q] (XReal q)
    | gpr_str : forall s, g_primary [KStr s] (XStr s)
    | gpr_true : g_primary [KTrue] (XBool true)
    | gpr_false : g_primary [KFalse] (XBool false)
    | gpr_ref : forall ts e, g_reference ts e -> g_primary ts e
    | gpr_app : forall ts e, g_application ts e -> g_primary ts e
    | gpr_array : forall ts e, g_array ts e -> g_primary ts e
    | gpr_parens : forall ts e, g_parens ts e -> g_primary ts e
    | gpr_index : forall ts e ts' l, g_parens ts e -> g_subscripts ts' l ->
        g_primary (ts ++ ts') (XIndex e l)
    | gpr_relaxed : forall ts e ts' l, relaxed = true -> g_application ts e \/ g_array ts e ->
        g_subscripts ts' l -> g_primary (ts ++ ts') (XIndex e l).
    (** factor: primary [ ( "^" | ".^" ) primary ] *)
    Inductive g_factor : list tk -> expr -> Prop :=
    | gf_one : forall ts e, g_primary ts e -> g_factor ts e
    | gf_pow : forall a x t k b y, g_primary a x -> In (t, k) pow_ops -> g_primary b y ->
        g_factor (a ++ t :: b) (XOp k [x; y])
    | gf_chain : forall a x t k b y, relaxed = true -> g_factor a x -> In (t, k) pow_ops ->
        g_primary b y -> g_factor (a ++ t :: b) (XOp k [x; y]).
    (** term: factor { mul-operator factor }, from the left *)
    Inductive g_term : list tk -> expr -> Prop :=
    | gt_one : forall ts e, g_factor ts e -> g_term ts e
    | gt_op : forall a x t k b y, g_term a x -> In (t, k) mul_ops -> g_factor b y ->
        g_term (a ++ t :: b) (XOp k [x; y]).
    (** arithmetic-expression: [ add-operator ] term { add-operator term }, from the left *)
    Inductive g_arith : list tk -> expr -> Prop :=
    | gar_one : forall ts e, g_term ts e -> g_arith ts e
    | gar_plus : forall ts e, g_term ts e -> g_arith (KPlus :: ts) e
    | gar_minus : forall ts e, g_term ts e -> g_arith (KMinus :: ts) (XOp ONegate [e])
    | gar_plusEW : forall ts e, full = true -> g_term ts e -> g_arith (KPlusEW :: ts) e
    | gar_minusEW : forall ts e, full = true -> g_term ts e -> g_arith (KMinusEW :: ts) (XOp ONegate [e])
    | gar_op : forall a x t k b y, g_arith a x -> In (t, k) add_ops -> g_term b y ->
        g_arith (a ++ t :: b) (XOp k [x; y]).
    (** relation: arithmetic-expression [ relational-operator arithmetic-expression ] *)
    Inductive g_relation : list tk -> expr -> Prop :=
    | grl_one : forall ts e, g_arith ts e -> g_relation ts e
    | grl_op : forall a x t k b y, g_arith a x -> In (t, k) rel_ops -> g_arith b y ->
        g_relation (a ++ t :: b) (XOp k [x; y]).
    (** logical-factor: [ "not" ] relation *)
    Inductive g_lfactor : list tk -> expr -> Prop :=
    | glf_one : forall ts e, g_relation ts e -> g_lfactor ts e
    | glf_not : forall ts e, g_relation ts e -> g_lfactor (KNot :: ts) (XOp ONot [e]).
    (** logical-term: logical-factor { "and" logical-factor } *)
    Inductive g_lterm : list tk -> expr -> Prop :=
    | glt_one : forall ts e, g_lfactor ts e -> g_lterm ts e
    | glt_and : forall ts l, separated g_lfactor KAnd ts l -> 2 <= List.length l ->
        g_lterm ts (XOp OAnd l).
    (** logical-expression: logical-term { "or" logical-term } *)
    Inductive g_lexpr : list tk -> expr -> Prop :=
    | gle_one : forall ts e, g_lterm ts e -> g_lexpr ts e
    | gle_or : forall ts l, separated g_lterm KOr ts l -> 2 <= List.length l ->
        g_lexpr ts (XOp OOr l).
    (** simple-expression: logical-expression [ ":" logical-expression [ ":" logical-expression ] ] *)
    Inductive g_simple : list tk -> expr -> Prop :=
    | gsi_one : forall ts e, g_lexpr ts e -> g_simple ts e
    | gsi_two : forall a x b y, g_lexpr a x -> g_lexpr b y ->
        g_simple (a ++ KColon :: b) (XOp ORange [x; y])
    | gsi_three : forall a x b y c z, g_lexpr a x -> g_lexpr b y -> g_lexpr c z ->
        g_simple (a ++ KColon :: b ++ KColon :: c) (XOp ORange [x; y; z]).
    (** { "elseif" expression "then" expression } "else" expression *)
    Inductive g_else : list tk -> expr -> Prop :=
    | gel_else : forall c z, E c z -> g_else (KElse :: c) z
    | gel_elseif : forall a x b y c z, full = true -> E a x -> E b y -> g_else c z ->
        g_else (KElseIf :: a ++ KThen :: b ++ c) (XOp OIfElse [x; y; z]).
    (** expression: simple-expression | "if" expression "then" expression ... *)
    Inductive g_expression : list tk -> expr -> Prop :=
    | gex_simple : forall ts e, g_simple ts e -> g_expression ts e
    | gex_if : forall a x b y c z, E a x -> E b y -> g_else c z ->
        g_expression (KIf :: a ++ KThen :: b ++ c) (XOp OIfElse [x; y; z]).
  End Levels.

  (** The phrases whose expressions are nested at most [n] deep, and all of them. *)
  Fixpoint g_depth (n : nat) : list tk -> expr -> Prop :=
    match n with
    | O => fun _ _ => False
    | S n' => g_expression (g_depth n')
    end.
  Definition g_expr (ts : list tk) (e : expr) : Prop := exists n, g_depth n ts e.
End Grammar.

(** The expressions of the specification, and those that are expected to be read. *)
Definition modelica_expression : list tk -> expr -> Prop := g_expr true false.
Definition supported_expression : list tk -> expr -> Prop := g_expr false false.
Definition relaxed_expression : list tk -> expr -> Prop := g_expr false true.

(** The tokens that cannot continue an expression. *)
Definition continues : list tk :=
  [KLPar; KLSq; KDot; KPow; KPowEW; KMul; KMulEW; KDiv; KDivEW; KPlus; KPlusEW; KMinus; KMinusEW;
   KGe; KGt; KLe; KLt; KEq; KNe; KAnd; KOr; KColon].
Definition ends_expression (rest : list tk) : Prop :=
  match rest with [] => True | t :: _ => ~ In t continues end.
