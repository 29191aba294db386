(** The grammar of the classes, after appendices A.2.1 to A.2.5 of the Modelica language
    specification and the restrictions of Base Modelica, with their trees. Expressions are
    those of ParserSpec.v, equations and statements those of BlockParserSpec.v.

    [full] adds what the specification permits and the parser is known not to read:
    - modifications without arguments, and comments inside modifications;
    - array dimensions that begin with an integer and go on;
    - a component that is declared with ":=";
    - a component after a class in a public or protected list;
    - initial algorithms, and an initial equation section after an algorithm;
    - the annotation of a class right after a component, public or protected;
    - inner functions that are pure, impure or operators, and inner operator records.
    Dotted names and redeclarations in modifications, lists of components under one type,
    dimensions after the name of a component, short class definitions, imports, extends
    clauses and enumerations have no tree, and are left out. [relaxed] adds phrases that
    the specification does not have: a comma at the end of the arguments of an external
    call, and derivatives of any expression by any expressions. *)
From Coq Require Import ZArith QArith List Bool String.
From Verif Require Import LexerModel ParserModel ParserSpec BlockParserModel BlockParserSpec ClassParserModel.
Import ListNotations.
Local Open Scope nat_scope.
Local Open Scope list_scope.

(** [ keyword ] *)
Inductive g_flag (w : word) : list tk -> bool -> Prop :=
| gfl_no : g_flag w [] false
| gfl_yes : g_flag w [KWord w] true.

(** What came last in the body of a class. In a list of elements, whether it was a
    component; [Listed true] also is a list of which nothing was read. *)
Inductive place :=
| First (component : bool)
| Listed (component : bool)
| AfterEquations
| AfterAlgorithm.
Definition component_last (p : place) : Prop := p = First true \/ p = Listed true.

Section Grammar.
  Variables full relaxed : bool.
  Let E := g_expr full relaxed.

  Section Modification.
    (** modification *)
    Variable M : list tk -> modif -> Prop.
    (** [ "each" ] [ "final" ] IDENT [ modification ] [ STRING ] *)
    Inductive g_element : list tk -> elem -> Prop :=
    | gem_plain : forall a each b final s c, g_flag WEach a each -> g_flag WFinal b final ->
        g_comment c -> c = [] \/ full = true ->
        g_element (a ++ b ++ KIdent s :: c) (Elem each final s None)
    | gem_modif : forall a each b final s d m c, g_flag WEach a each -> g_flag WFinal b final ->
        M d m -> g_comment c -> c = [] \/ full = true ->
        g_element (a ++ b ++ KIdent s :: d ++ c) (Elem each final s (Some m)).
    (** class-modification: "(" [ argument { "," argument } ] ")" *)
    Inductive g_class_modif : list tk -> list elem -> Prop :=
    | gcm_none : full = true -> g_class_modif [KLPar; KRPar] []
    | gcm_some : forall ts l, separated g_element KComma ts l -> g_class_modif (KLPar :: ts ++ [KRPar]) l.
    (** modification: class-modification [ "=" expression ] | "=" expression | ":=" expression *)
    Inductive g_modification : list tk -> modif -> Prop :=
    | gmo_eq : forall ts e, E ts e -> g_modification (KAssign :: ts) (Modif None (Some e))
    | gmo_assign : forall ts e, E ts e -> g_modification (KAssignOp :: ts) (Modif None (Some e))
    | gmo_class : forall ts l, g_class_modif ts l -> g_modification ts (Modif (Some l) None)
    | gmo_class_eq : forall ts l ts' e, g_class_modif ts l -> E ts' e ->
        g_modification (ts ++ KAssign :: ts') (Modif (Some l) (Some e)).
  End Modification.
  Fixpoint g_modif_depth (n : nat) : list tk -> modif -> Prop :=
    match n with
    | O => fun _ _ => False
    | S n' => g_modification (g_modif_depth n')
    end.
  Definition g_modif (ts : list tk) (m : modif) : Prop := exists n, g_modif_depth n ts m.
  (** [ "annotation" class-modification ] *)
  Inductive g_annotation : list tk -> option (list elem) -> Prop :=
  | gan_none : g_annotation [] None
  | gan_some : forall ts l, g_class_modif g_modif ts l -> g_annotation (KWord WAnnotation :: ts) (Some l).

  (** [ "." ] IDENT { "." IDENT }; the predefined types are those of the global scope *)
  Definition predefined : list (text * vtype) :=
    [(codes "String", VString); (codes "Boolean", VBoolean); (codes "Integer", VInteger); (codes "Real", VReal)].
  Inductive g_ident : list tk -> text -> Prop := gid : forall s, g_ident [KIdent s] s.
  Inductive g_dot : list tk -> bool -> Prop := gdo_no : g_dot [] false | gdo_yes : g_dot [KDot] true.
  Inductive g_name : list tk -> vtype -> Prop :=
  | gna_predefined : forall a g s v, g_dot a g -> In (s, v) predefined -> g_name (a ++ [KIdent s]) v
  | gna_user : forall a g b s path, g_dot a g -> separated g_ident KDot b (s :: path) ->
      ~ In s (map fst predefined) -> g_name (a ++ b) (VUser g (s :: path)).
  (** subscript: ":" | expression; an integer is not put into an expression *)
  Inductive g_dim : list tk -> dim -> Prop :=
  | gdi_all : g_dim [KColon] (DSize (-1))
  | gdi_int : forall z, g_dim [KInt z] (DSize z)
  | gdi_expr : forall ts e, E ts e ->
      (forall z r, ts <> KInt z :: r) \/ (full = true /\ forall z, ts <> [KInt z]) -> g_dim ts (DExpr e).
  (** [ "[" subscript { "," subscript } "]" ] *)
  Inductive g_dims : list tk -> list dim -> Prop :=
  | gds_none : g_dims [] []
  | gds_some : forall ts l, separated g_dim KComma ts l -> g_dims (KLSq :: ts ++ [KRSq]) l.
  (** type-prefix: [ "discrete" | "parameter" | "constant" ] [ "input" | "output" ] *)
  Inductive g_variability : list tk -> variability -> Prop :=
  | gva_none : g_variability [] NoVariability
  | gva_discrete : g_variability [KWord WDiscrete] IsDiscrete
  | gva_parameter : g_variability [KWord WParameter] IsParameter
  | gva_constant : g_variability [KWord WConstant] IsConstant.
  Inductive g_causality : list tk -> causality -> Prop :=
  | gca_none : g_causality [] NoCausality
  | gca_input : g_causality [KWord WInput] IsInput
  | gca_output : g_causality [KWord WOutput] IsOutput.
  (** [ modification ], the one of a component *)
  Inductive g_value : list tk -> option modif -> Prop :=
  | gvl_none : g_value [] None
  | gvl_some : forall ts m, g_modif ts m -> full = true \/ (forall r, ts <> KAssignOp :: r) ->
      g_value ts (Some m).
  (** component: [ "final" ] type-prefix type-specifier [ array-subscripts ] IDENT
        [ modification ] [ STRING ] [ annotation ] *)
  Inductive g_component (public : bool) : list tk -> member -> Prop :=
  | gcp : forall a fin b v c k d t e ds s f m g h an, g_flag WFinal a fin -> g_variability b v ->
      g_causality c k -> g_name d t -> g_dims e ds -> g_value f m -> g_comment g -> g_annotation h an ->
      g_component public (a ++ b ++ c ++ d ++ e ++ KIdent s :: f ++ g ++ h) (mkMember s t ds v k public m).

  (** external-function-call: [ component-reference "=" ] IDENT "(" [ expression { "," expression } ] ")" *)
  Inductive g_destination : list tk -> option expr -> Prop :=
  | gde_none : g_destination [] None
  | gde_some : forall ts e, g_reference true E ts e -> g_destination (ts ++ [KAssign]) (Some e).
  Inductive g_external_args : list tk -> list expr -> Prop :=
  | gea_none : g_external_args [] []
  | gea_some : forall ts l, separated E KComma ts l -> g_external_args ts l
  | gea_comma : forall ts l, relaxed = true -> separated E KComma ts l -> g_external_args (ts ++ [KComma]) l.
  Inductive g_external_call : list tk -> option ecall -> Prop :=
  | gec_none : g_external_call [] None
  | gec_some : forall a d s b l, g_destination a d -> g_external_args b l ->
      g_external_call (a ++ KIdent s :: KLPar :: b ++ [KRPar]) (Some (mkECall d s l)).
  Inductive g_language : list tk -> option text -> Prop :=
  | gla_none : g_language [] None
  | gla_some : forall s, g_language [KStr s] (Some s).
  (** [ "external" [ STRING ] [ external-function-call ] [ annotation ] ";" ] *)
  Inductive g_external : list tk -> option external -> Prop :=
  | gxt_none : g_external [] None
  | gxt_some : forall a l b c d an, g_language a l -> g_external_call b c -> g_annotation d an ->
      g_external (KWord WExternal :: a ++ b ++ d ++ [KSemi]) (Some (mkExternal l c an)).
  (** [ annotation ";" ] *)
  Inductive g_class_annotation : list tk -> option (list elem) -> Prop :=
  | gcn_none : g_class_annotation [] None
  | gcn_some : forall ts l, g_annotation ts (Some l) -> g_class_annotation (ts ++ [KSemi]) (Some l).

  (** class-prefixes *)
  Inductive g_kind : list tk -> ckind -> Prop :=
  | gki_class : g_kind [KWord WClass] CModel
  | gki_model : g_kind [KWord WModel] CModel
  | gki_package : g_kind [KWord WPackage] CPackage
  | gki_record : forall a op, g_flag WOperator a op -> g_kind (a ++ [KWord WRecord]) CRecord
  | gki_function : forall a op, g_flag WOperator a op -> g_kind (a ++ [KWord WFunction]) (CFunction true)
  | gki_pure : forall a op, g_flag WOperator a op ->
      g_kind (KWord WPure :: a ++ [KWord WFunction]) (CFunction true)
  | gki_impure : forall a op, g_flag WOperator a op ->
      g_kind (KWord WImpure :: a ++ [KWord WFunction]) (CFunction false).
  (** the kinds of the classes that the parser finds inside others *)
  Definition plain_class (ts : list tk) : Prop :=
    exists w r, ts = KWord w :: r /\ In w [WClass; WModel; WPackage; WRecord; WFunction].

  (** Where a component and a class may come. *)
  Inductive component_after : place -> place -> Prop :=
  | caf_first : forall b, component_after (First b) (First true)
  | caf_listed : component_after (Listed true) (Listed true)
  | caf_class : full = true -> component_after (Listed false) (Listed true).
  Inductive class_after : place -> place -> Prop :=
  | claf_first : forall b, class_after (First b) (First false)
  | claf_listed : forall b, class_after (Listed b) (Listed false).

  Section Class.
    (** class-definition *)
    Variable G : list tk -> cls -> Prop.
    (** composition, without what comes after the sections: the components with their
        visibility, the equation sections, the algorithms and the classes, in order *)
    Inductive g_body : place -> bool -> list tk -> list member -> list (bool * list eqn) ->
        list (list stmt) -> list cls -> place -> Prop :=
    | gbo_end : forall p v, g_body p v [] [] [] [] [] p
    | gbo_component : forall p p' v a m b ms es als cs q, component_after p p' -> g_component v a m ->
        g_body p' v b ms es als cs q -> g_body p v (a ++ KSemi :: b) (m :: ms) es als cs q
    | gbo_class : forall p p' v a c b ms es als cs q, class_after p p' -> G a c ->
        full = true \/ plain_class a ->
        g_body p' v b ms es als cs q -> g_body p v (a ++ b) ms es als (c :: cs) q
    | gbo_public : forall p v b ms es als cs q, g_body (Listed true) true b ms es als cs q ->
        g_body p v (KWord WPublic :: b) ms es als cs q
    | gbo_protected : forall p v b ms es als cs q, g_body (Listed true) false b ms es als cs q ->
        g_body p v (KWord WProtected :: b) ms es als cs q
    | gbo_equation : forall p v i initial a l b ms es als cs q, g_flag WInitial i initial ->
        full = true \/ initial = false \/ p <> AfterAlgorithm ->
        g_block (g_eqn full relaxed) a l -> g_body AfterEquations v b ms es als cs q ->
        g_body p v (i ++ KWord WEquation :: a ++ b) ms ((initial, l) :: es) als cs q
    | gbo_algorithm : forall p v i initial a l b ms es als cs q, g_flag WInitial i initial ->
        full = true \/ initial = false ->
        g_block (g_stmt full relaxed) a l -> g_body AfterAlgorithm v b ms es als cs q ->
        g_body p v (i ++ KWord WAlgorithm :: a ++ b) ms es (l :: als) cs q.

    (** "der" "(" name "," IDENT { "," IDENT } ")" *)
    Inductive g_entry_name : list tk -> text * list sub -> Prop := gen : forall s, g_entry_name [KIdent s] (s, []).
    Inductive g_variable : list tk -> expr -> Prop := gvb : forall s, g_variable [KIdent s] (XRef false [(s, [])]).
    Inductive g_derivative : list tk -> expr -> list expr -> Prop :=
    | gdv_names : forall a f b l, separated g_entry_name KDot a f -> separated g_variable KComma b l ->
        g_derivative (a ++ KComma :: b) (XRef false f) l
    | gdv_one : forall a e, relaxed = true -> E a e -> g_derivative a e []
    | gdv_more : forall a e b l, relaxed = true -> E a e -> separated E KComma b l ->
        g_derivative (a ++ KComma :: b) e l.

    Inductive g_class : list tk -> cls -> Prop :=
    (** class-prefixes IDENT [ STRING ] composition "end" IDENT ";" *)
    | gcl_long : forall a k s c b ms es als cs q d e f an, g_kind a k -> g_comment c ->
        g_body (First false) true b ms es als cs q -> g_external d e -> g_class_annotation f an ->
        full = true \/ an = None \/ e <> None \/ ~ component_last q ->
        g_class (a ++ KIdent s :: c ++ b ++ d ++ f ++ [KEnd; KIdent s; KSemi]) (Cls k s ms es als cs e an)
    (** class-prefixes IDENT "=" "der" "(" ... ")" [ STRING ] ";" *)
    | gcl_der : forall a p s b f l c, g_kind a (CFunction p) -> g_derivative b f l -> g_comment c ->
        g_class (a ++ KIdent s :: KAssign :: KDer :: KLPar :: b ++ KRPar :: c ++ [KSemi]) (PartialDer s f l).
  End Class.
  Fixpoint g_class_depth (n : nat) : list tk -> cls -> Prop :=
    match n with
    | O => fun _ _ => False
    | S n' => g_class (g_class_depth n')
    end.
  Definition g_cls (ts : list tk) (c : cls) : Prop := exists n, g_class_depth n ts c.
  (** stored-definition: { class-definition ";" } *)
  Inductive g_root : list tk -> list cls -> Prop :=
  | gro_nil : g_root [] []
  | gro_cons : forall a c b l, g_cls a c -> g_root b l -> g_root (a ++ b) (c :: l).
End Grammar.

Definition modelica_class : list tk -> cls -> Prop := g_cls true false.
Definition supported_class : list tk -> cls -> Prop := g_cls false false.
Definition relaxed_class : list tk -> cls -> Prop := g_cls false true.
Definition modelica_file : list tk -> list cls -> Prop := g_root true false.
Definition supported_file : list tk -> list cls -> Prop := g_root false false.
Definition relaxed_file : list tk -> list cls -> Prop := g_root false true.
