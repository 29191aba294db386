(** Model of the part of the parser that reads expressions:
    lib/Parser/BaseModelica/Parser.cpp:843-922, 1042-1767.

    The tokens are those of the lexer (LexerModel.v), by kind. A parsing function
    gets the tokens that are left and gives [Ok None] for std::nullopt (after a
    diagnostic), [Ok (Some (x, ts))] for a result and the tokens left, and [Bad] for a
    violated assertion. Past the end of the text every lookahead is the token of the end
    of the file. Source positions and diagnostics are not modelled. The recursion goes
    through parseExpression, which is bounded by a fuel. *)
From Coq Require Import ZArith QArith List Bool String.
From Verif Require Import Result LexerModel.
Import ListNotations.
Local Open Scope list_scope.

(** Token.h:20-119, the keywords of classes and their elements *)
Inductive word :=
| WOperator | WRecord | WFunction | WModel | WPackage | WPure | WImpure | WClass | WInitial
| WEquation | WAlgorithm | WPublic | WProtected | WExternal | WAnnotation | WRedeclare | WEach
| WFinal | WReplaceable | WDiscrete | WParameter | WConstant | WInput | WOutput.
(** Token.h:20-119; [KOther] has the kinds that start or continue no expression. *)
Inductive tk :=
| KIdent (s : text) | KInt (z : Z) | KReal (q : Q) | KStr (s : text) | KTrue | KFalse
| KIf | KThen | KElse | KElseIf | KOr | KAnd | KNot | KFor | KIn | KDer | KEnd
| KColon | KComma | KSemi | KDot | KLPar | KRPar | KLSq | KRSq | KLCurly | KRCurly | KAssign
| KPlus | KPlusEW | KMinus | KMinusEW | KMul | KMulEW | KDiv | KDivEW | KPow | KPowEW
| KGe | KGt | KLe | KLt | KEq | KNe
| KLoop | KWhile | KWhen | KElseWhen | KBreak | KReturn | KAssignOp | KWord (w : word)
| KOther (t : token).

(** Token.cpp:9-297: the kinds of the keywords and of the symbols. *)
Definition key_kinds : list (string * tk) :=
  [("true", KTrue); ("false", KFalse); ("if", KIf); ("then", KThen); ("else", KElse);
   ("elseif", KElseIf); ("or", KOr); ("and", KAnd); ("not", KNot); ("for", KFor); ("in", KIn);
   ("der", KDer); ("end", KEnd); ("loop", KLoop); ("while", KWhile); ("when", KWhen);
   ("elsewhen", KElseWhen); ("break", KBreak); ("return", KReturn);
   ("operator", KWord WOperator); ("record", KWord WRecord); ("function", KWord WFunction);
   ("model", KWord WModel); ("package", KWord WPackage); ("pure", KWord WPure);
   ("impure", KWord WImpure); ("class", KWord WClass); ("initial", KWord WInitial);
   ("equation", KWord WEquation); ("algorithm", KWord WAlgorithm); ("public", KWord WPublic);
   ("protected", KWord WProtected); ("external", KWord WExternal);
   ("annotation", KWord WAnnotation); ("redeclare", KWord WRedeclare); ("each", KWord WEach);
   ("final", KWord WFinal); ("replaceable", KWord WReplaceable); ("discrete", KWord WDiscrete);
   ("parameter", KWord WParameter); ("constant", KWord WConstant); ("input", KWord WInput);
   ("output", KWord WOutput)]%string.
Definition sym_kinds : list (string * tk) :=
  [(":", KColon); (",", KComma); (";", KSemi); (".", KDot); ("(", KLPar); (")", KRPar);
   ("[", KLSq); ("]", KRSq); ("{", KLCurly); ("}", KRCurly); ("=", KAssign); ("+", KPlus);
   (".+", KPlusEW); ("-", KMinus); (".-", KMinusEW); ("*", KMul); (".*", KMulEW); ("/", KDiv);
   ("./", KDivEW); ("^", KPow); (".^", KPowEW); (">=", KGe); (">", KGt); ("<=", KLe); ("<", KLt);
   ("==", KEq); ("<>", KNe); (":=", KAssignOp)]%string.
Definition find_kind (l : list (string * tk)) (s : text) (other : tk) : tk :=
  match find (fun x => text_eqb (codes (fst x)) s) l with Some x => snd x | None => other end.
Definition tk_of (t : token) : tk :=
  match t with
  | TokIdent s => KIdent s
  | TokInt z => KInt z
  | TokFloat q => KReal q
  | TokString s => KStr s
  | TokKey s => find_kind key_kinds s (KOther t)
  | TokSym s => find_kind sym_kinds s (KOther t)
  | _ => KOther t
  end.

(** include/marco/AST/BaseModelica/Operation.h:9-34 *)
Inductive okind :=
| ONegate | OAdd | OAddEW | OSub | OSubEW | OMul | OMulEW | ODiv | ODivEW | OIfElse
| OGt | OGe | OEq | ONe | OLe | OLt | OAnd | OOr | ONot | OPow | OPowEW | ORange.

(** The nodes of include/marco/AST/BaseModelica for expressions. [XIndex] is the
    operation [subscription], whose first argument is the expression. *)
Inductive expr :=
| XInt (z : Z) | XReal (q : Q) | XStr (s : text) | XBool (b : bool)
| XRef (global : bool) (path : list (text * list sub))
| XDummy
| XCall (f : expr) (args : list arg)
| XTuple (l : list expr)
| XArray (l : list expr)
| XArrayFor (e : expr) (ix : list (text * option expr))
| XOp (k : okind) (l : list expr)
| XIndex (e : expr) (l : list sub)
with arg :=
| AExpr (e : expr)
| AReduction (e : expr) (ix : list (text * option expr))
| ANamed (s : text) (e : expr)
with sub := SAll | SExpr (e : expr).

Definition pres (A : Type) : Type := res (option (A * list tk)).
Definition ret {A} (x : A) (ts : list tk) : pres A := Ok (Some (x, ts)).
(** Parser.cpp:15-20, the macro TRY *)
Definition ptry {A B} (m : pres A) (k : A -> list tk -> pres B) : pres B :=
  match m with
  | Ok (Some (x, ts)) => k x ts
  | Ok None => Ok None
  | Bad => Bad
  | NoFuel => NoFuel
  end.

Definition is_comma (t : tk) : bool := match t with KComma => true | _ => false end.
Definition is_or (t : tk) : bool := match t with KOr => true | _ => false end.
Definition is_and (t : tk) : bool := match t with KAnd => true | _ => false end.
Definition is_dot (t : tk) : bool := match t with KDot => true | _ => false end.

(** [do { TRY(x, item()); ... } while (accept<sep>())]: Parser.cpp:895-898, 1656-1659,
    1671-1674, 1745-1748; it is also the shape of 1104-1107, 1128-1131 and 1492-1496. *)
Fixpoint sep_loop {A} (item : list tk -> pres A) (sep : tk -> bool) (n : nat) (acc : list A)
  (ts : list tk) : pres (list A) :=
  match n with
  | O => NoFuel
  | S n' =>
      ptry (item ts) (fun x ts1 =>
        match ts1 with
        | t :: ts2 => if sep t then sep_loop item sep n' (acc ++ [x]) ts2 else ret (acc ++ [x]) ts1
        | [] => ret (acc ++ [x]) ts1
        end)
  end.

(** Parser.cpp:1185-1208 *)
Definition rel_kind (t : tk) : option okind :=
  match t with
  | KGe => Some OGe | KGt => Some OGt | KLe => Some OLe | KLt => Some OLt | KEq => Some OEq
  | KNe => Some ONe | _ => None
  end.
(** Parser.cpp:1253-1268 *)
Definition add_kind (t : tk) : option okind :=
  match t with
  | KPlus => Some OAdd | KPlusEW => Some OAddEW | KMinus => Some OSub | KMinusEW => Some OSubEW
  | _ => None
  end.
(** Parser.cpp:1299-1314 *)
Definition mul_kind (t : tk) : option okind :=
  match t with
  | KMul => Some OMul | KMulEW => Some OMulEW | KDiv => Some ODiv | KDivEW => Some ODivEW
  | _ => None
  end.
(** Parser.cpp:1323-1348 *)
Definition pow_kind (t : tk) : option okind :=
  match t with KPow => Some OPow | KPowEW => Some OPowEW | _ => None end.

(** The loop of the left-associative operators: Parser.cpp:1232-1248, 1278-1294,
    1323-1349. *)
Fixpoint op_loop (operand : list tk -> pres expr) (kind : tk -> option okind) (n : nat) (e : expr)
  (ts : list tk) : pres expr :=
  match ts with
  | t :: ts1 =>
      match kind t with
      | Some k =>
          match n with
          | O => NoFuel
          | S n' => ptry (operand ts1) (fun e' ts2 => op_loop operand kind n' (XOp k [e; e']) ts2)
          end
      | None => ret e ts
      end
  | [] => ret e ts
  end.

Section Parse.
  (** parseExpression, and a bound on the rounds of the loops *)
  Variable P : list tk -> pres expr.
  Variable n : nat.

  (** Parser.cpp:1755-1767, parseSubscript *)
  Definition p_subscript (ts : list tk) : pres sub :=
    match ts with
    | KColon :: r => ret SAll r
    | _ => ptry (P ts) (fun e r => ret (SExpr e) r)
    end.
  (** Parser.cpp:1737-1753, parseArraySubscripts *)
  Definition p_subscripts (ts : list tk) : pres (list sub) :=
    match ts with
    | KLSq :: r =>
        ptry (sep_loop p_subscript is_comma n [] r) (fun l r1 =>
          match r1 with KRSq :: r2 => ret l r2 | _ => Ok None end)
    | _ => Ok None
    end.
  (** Parser.cpp:906-921, parseForIndex *)
  Definition p_forIndex (ts : list tk) : pres (text * option expr) :=
    match ts with
    | KIdent s :: KIn :: r => ptry (P r) (fun e r1 => ret (s, Some e) r1)
    | KIdent s :: r => ret (s, None) r
    | _ => Ok None
    end.
  (** Parser.cpp:891-904, parseForIndices *)
  Definition p_forIndices (ts : list tk) : pres (list (text * option expr)) :=
    sep_loop p_forIndex is_comma n [] ts.
  (** Parser.cpp:1682-1696, parseNamedArgument; 1698-1706, parseFunctionArgument *)
  Definition p_named (ts : list tk) : pres arg :=
    match ts with
    | KIdent s :: KAssign :: r => ptry (P r) (fun e r1 => ret (ANamed s e) r1)
    | _ => Ok None
    end.
  (** Parser.cpp:1550-1551, 1599-1600 *)
  Definition starts_named (ts : list tk) : bool :=
    match ts with KIdent _ :: KAssign :: _ => true | _ => false end.
  (** Parser.cpp:1667-1680, parseNamedArguments *)
  Definition p_nameds (ts : list tk) : pres (list arg) := sep_loop p_named is_comma n [] ts.
  (** Parser.cpp:1596-1621, parseFunctionArgumentsNonFirst *)
  Fixpoint p_argsNonFirst (m : nat) (ts : list tk) : pres (list arg) :=
    match m with
    | O => NoFuel
    | S m' =>
        if starts_named ts then p_nameds ts
        else ptry (P ts) (fun e ts1 =>
          (fix more (k : nat) (acc : list arg) (ts : list tk) : pres (list arg) :=
             match k with
             | O => NoFuel
             | S k' =>
                 match ts with
                 | KComma :: ts2 => ptry (p_argsNonFirst m' ts2) (fun l ts3 => more k' (acc ++ l) ts3)
                 | _ => ret acc ts
                 end
             end) m [AExpr e] ts1)
    end.
  (** Parser.cpp:1546-1594, parseFunctionArguments *)
  Definition p_functionArguments (ts : list tk) : pres (list arg) :=
    if starts_named ts then p_nameds ts
    else ptry (P ts) (fun e ts1 =>
      match ts1 with
      | KFor :: r => ptry (p_forIndices r) (fun ix r1 => ret [AReduction e ix] r1)
      | KComma :: r => ptry (p_argsNonFirst n r) (fun l r1 => ret (AExpr e :: l) r1)
      | _ => ret [AExpr e] ts1
      end).
  (** Parser.cpp:1525-1544, parseFunctionCallArgs *)
  Definition p_callArgs (ts : list tk) : pres (list arg) :=
    match ts with
    | KLPar :: KRPar :: r => ret [] r
    | KLPar :: r =>
        ptry (p_functionArguments r) (fun l r1 =>
          match r1 with KRPar :: r2 => ret l r2 | _ => Ok None end)
    | _ => Ok None
    end.
  (** Parser.cpp:1623-1665, parseArrayArguments and parseArrayArgumentsNonFirst *)
  Definition p_arrayArguments (ts : list tk) : pres (list expr * list (text * option expr)) :=
    ptry (P ts) (fun e ts1 =>
      match ts1 with
      | KComma :: r => ptry (sep_loop P is_comma n [] r) (fun l r1 => ret (e :: l, []) r1)
      | KFor :: r => ptry (p_forIndices r) (fun ix r1 => ret ([e], ix) r1)
      | _ => ret ([e], []) ts1
      end).
  (** Parser.cpp:1708-1735, parseOutputExpressionList *)
  Fixpoint p_outputs (m : nat) (acc : list expr) (ts : list tk) : pres (list expr) :=
    match m with
    | O => NoFuel
    | S m' =>
        match ts with
        | KRPar :: _ => ret acc ts
        | KComma :: r => p_outputs m' (acc ++ [XDummy]) r
        | _ => ptry (P ts) (fun e r =>
                 p_outputs m' (acc ++ [e]) (match r with KComma :: r' => r' | _ => r end))
        end
    end.
  (** Parser.cpp:1506-1523, parseComponentReferenceEntry *)
  Definition p_entry (ts : list tk) : pres (text * list sub) :=
    match ts with
    | KIdent s :: r =>
        match r with
        | KLSq :: _ => ptry (p_subscripts r) (fun l r1 => ret (s, l) r1)
        | _ => ret (s, []) r
        end
    | _ => Ok None
    end.
  (** Parser.cpp:1482-1504, parseComponentReference *)
  Definition p_reference (ts : list tk) : pres expr :=
    let '(global, ts) := match ts with KDot :: r => (true, r) | _ => (false, ts) end in
    ptry (sep_loop p_entry is_dot n [] ts) (fun l r => ret (XRef global l) r).

  (** Parser.cpp:1461-1477: the subscripts after a primary *)
  Definition p_indexed (e : expr) (ts : list tk) : pres expr :=
    match ts with
    | KLSq :: _ => ptry (p_subscripts ts) (fun l r => ret (XIndex e l) r)
    | _ => ret e ts
    end.
  (** Parser.cpp:1354-1480, parsePrimary *)
  Definition p_primary (ts : list tk) : pres expr :=
    match ts with
    | KInt z :: r => ret (XInt z) r
    | KReal q :: r => ret (XReal q) r
    | KStr s :: r => ret (XStr s) r
    | KTrue :: r => ret (XBool true) r
    | KFalse :: r => ret (XBool false) r
    | KLPar :: r =>
        ptry (p_outputs n [] r) (fun l r1 =>
          match r1 with
          | KRPar :: r2 => p_indexed (match l with [e] => e | _ => XTuple l end) r2
          | _ => Ok None
          end)
    | KLCurly :: r =>
        ptry (p_arrayArguments r) (fun a r1 =>
          match r1 with
          | KRCurly :: r2 =>
              match snd a with
              | [] => p_indexed (XArray (fst a)) r2
              | ix => match fst a with
                      | [e] => p_indexed (XArrayFor e ix) r2
                      | _ => Bad
                      end
              end
          | _ => Ok None
          end)
    | KDer :: r =>
        ptry (p_callArgs r) (fun l r1 =>
          p_indexed (XCall (XRef false [(codes "der", [])]) l) r1)
    | KIdent _ :: _ =>
        ptry (p_reference ts) (fun f r =>
          match r with
          | KLPar :: _ => ptry (p_callArgs r) (fun l r1 => p_indexed (XCall f l) r1)
          | _ => ret f r
          end)
    | _ => Bad
    end.
  (** Parser.cpp:1316-1352, parseFactor *)
  Definition p_factor (ts : list tk) : pres expr :=
    ptry (p_primary ts) (fun e r => op_loop p_primary pow_kind n e r).
  (** Parser.cpp:1270-1297, parseTerm *)
  Definition p_term (ts : list tk) : pres expr :=
    ptry (p_factor ts) (fun e r => op_loop p_factor mul_kind n e r).
  (** Parser.cpp:1210-1251, parseArithmeticExpression *)
  Definition p_arith (ts : list tk) : pres expr :=
    let '(negative, ts) :=
      match ts with KMinus :: r => (true, r) | KPlus :: r => (false, r) | _ => (false, ts) end in
    ptry (p_term ts) (fun e r =>
      op_loop p_term add_kind n (if negative : bool then XOp ONegate [e] else e) r).
  (** Parser.cpp:1161-1183, parseRelation *)
  Definition p_relation (ts : list tk) : pres expr :=
    ptry (p_arith ts) (fun e r =>
      match r with
      | t :: r1 =>
          match rel_kind t with
          | Some k => ptry (p_arith r1) (fun e' r2 => ret (XOp k [e; e']) r2)
          | None => ret e r
          end
      | [] => ret e r
      end).
  (** Parser.cpp:1143-1159, parseLogicalFactor *)
  Definition p_lfactor (ts : list tk) : pres expr :=
    match ts with
    | KNot :: r => ptry (p_relation r) (fun e r1 => ret (XOp ONot [e]) r1)
    | _ => p_relation ts
    end.
  (** A list of one is the item itself (1099-1101, 1123-1125). *)
  Definition p_many (k : okind) (l : list expr) : expr := match l with [e] => e | _ => XOp k l end.
  (** Parser.cpp:1119-1141, parseLogicalTerm *)
  Definition p_lterm (ts : list tk) : pres expr :=
    ptry (sep_loop p_lfactor is_and n [] ts) (fun l r => ret (p_many OAnd l) r).
  (** Parser.cpp:1095-1117, parseLogicalExpression *)
  Definition p_lexpr (ts : list tk) : pres expr :=
    ptry (sep_loop p_lterm is_or n [] ts) (fun l r => ret (p_many OOr l) r).
  (** Parser.cpp:1068-1093, parseSimpleExpression *)
  Definition p_simple (ts : list tk) : pres expr :=
    ptry (p_lexpr ts) (fun a r =>
      match r with
      | KColon :: r1 =>
          ptry (p_lexpr r1) (fun b r2 =>
            match r2 with
            | KColon :: r3 => ptry (p_lexpr r3) (fun c r4 => ret (XOp ORange [a; b; c]) r4)
            | _ => ret (XOp ORange [a; b]) r2
            end)
      | _ => ret a r
      end).
  (** Parser.cpp:1042-1066, parseExpression *)
  Definition p_expression (ts : list tk) : pres expr :=
    match ts with
    | KIf :: r =>
        ptry (P r) (fun a r1 =>
          match r1 with
          | KThen :: r2 =>
              ptry (P r2) (fun b r3 =>
                match r3 with
                | KElse :: r4 => ptry (P r4) (fun c r5 => ret (XOp OIfElse [a; b; c]) r5)
                | _ => Ok None
                end)
          | _ => Ok None
          end)
    | _ => p_simple ts
    end.
End Parse.

Fixpoint parse_fuel (n : nat) (ts : list tk) : pres expr :=
  match n with
  | O => NoFuel
  | S n' => p_expression (parse_fuel n') n ts
  end.
(** The fuel is enough: theorem C67. *)
Definition parse_expression (ts : list tk) : pres expr := parse_fuel (S (List.length ts)) ts.
