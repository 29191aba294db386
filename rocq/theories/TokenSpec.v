(** How the keywords and symbols of the language are written (Modelica language
    specification 3.6, sections 2.3.3 and 2.5), from the kind of token to its text. *)
From Coq Require Import ZArith QArith List String.
From Verif Require Import LexerModel ParserModel.
Import ListNotations.
Local Open Scope string_scope.

Definition word_text (w : word) : string :=
  match w with
  | WOperator => "operator" | WRecord => "record" | WFunction => "function" | WModel => "model"
  | WPackage => "package" | WPure => "pure" | WImpure => "impure" | WClass => "class"
  | WInitial => "initial" | WEquation => "equation" | WAlgorithm => "algorithm"
  | WPublic => "public" | WProtected => "protected" | WExternal => "external"
  | WAnnotation => "annotation" | WRedeclare => "redeclare" | WEach => "each" | WFinal => "final"
  | WReplaceable => "replaceable" | WDiscrete => "discrete" | WParameter => "parameter"
  | WConstant => "constant" | WInput => "input" | WOutput => "output"
  end.
Definition keyword_text (k : tk) : option string :=
  match k with
  | KTrue => Some "true" | KFalse => Some "false" | KIf => Some "if" | KThen => Some "then"
  | KElse => Some "else" | KElseIf => Some "elseif" | KOr => Some "or" | KAnd => Some "and"
  | KNot => Some "not" | KFor => Some "for" | KIn => Some "in" | KDer => Some "der"
  | KEnd => Some "end" | KLoop => Some "loop" | KWhile => Some "while" | KWhen => Some "when"
  | KElseWhen => Some "elsewhen" | KBreak => Some "break" | KReturn => Some "return"
  | KWord w => Some (word_text w)
  | _ => None
  end.
(** [EW]: the operator for each element, written with a dot. *)
Definition symbol_text (k : tk) : option string :=
  match k with
  | KColon => Some ":" | KComma => Some "," | KSemi => Some ";" | KDot => Some "."
  | KLPar => Some "(" | KRPar => Some ")" | KLSq => Some "[" | KRSq => Some "]"
  | KLCurly => Some "{" | KRCurly => Some "}" | KAssign => Some "=" | KAssignOp => Some ":="
  | KPlus => Some "+" | KPlusEW => Some ".+" | KMinus => Some "-" | KMinusEW => Some ".-"
  | KMul => Some "*" | KMulEW => Some ".*" | KDiv => Some "/" | KDivEW => Some "./"
  | KPow => Some "^" | KPowEW => Some ".^"
  | KGe => Some ">=" | KGt => Some ">" | KLe => Some "<=" | KLt => Some "<"
  | KEq => Some "==" | KNe => Some "<>"
  | _ => None
  end.

(** The token of the lexer and what it means in the grammar. *)
Inductive token_kind : token -> tk -> Prop :=
| tki_ident : forall s, token_kind (TokIdent s) (KIdent s)
| tki_int : forall z, token_kind (TokInt z) (KInt z)
| tki_real : forall q, token_kind (TokFloat q) (KReal q)
| tki_string : forall s, token_kind (TokString s) (KStr s)
| tki_keyword : forall k w, keyword_text k = Some w -> token_kind (TokKey (codes w)) k
| tki_symbol : forall k w, symbol_text k = Some w -> token_kind (TokSym (codes w)) k.
