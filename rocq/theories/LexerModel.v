(** Model of the lexer of the Modelica front-end:
    include/marco/Lexer/IntegerLexer.h, include/marco/Lexer/FloatLexer.h,
    include/marco/Lexer/Lexer.h and lib/Parser/BaseModelica/StateMachine.cpp.

    Characters are their codes; the text ends where the list ends, and reading
    past the end gives 0, the terminator. Source positions and the messages of
    the error tokens are not modelled. The double arithmetic of FloatLexer::get
    is done exactly, on rational numbers; [fl_double] adds the rounding for the
    literals that need no std::pow other than pow(10, 0) = 1. *)
From Coq Require Import ZArith QArith List Bool String Ascii SpecFloat.
From Verif Require Import Result SubscriptModel.
Import ListNotations.
Local Open Scope Z_scope.

Definition text := list Z.
(** The codes of a string, to write texts in a readable way. *)
Fixpoint codes (s : string) : text :=
  match s with
  | EmptyString => []
  | String c s' => Z.of_nat (nat_of_ascii c) :: codes s'
  end.

(** IntegerLexer.h:20-24, operator+=, with base 10. *)
Definition il_add (value i : Z) : res Z := v <- i64 (value * 10) ;; i64 (v + i).

(** FloatLexer.h:76-83. *)
Record flexer := mkF {
  f_upper : Z; f_lower : Z; f_hasExp : bool; f_exp : Z; f_expSign : bool;
  f_leadingZero : bool; f_zeros : Z }.
(** FloatLexer.h:65-73, reset, and the initial values. *)
Definition fl_reset : flexer := mkF 0 0 false 0 true true 0.
(** FloatLexer.h:14, addUpper. *)
Definition fl_addUpper (f : flexer) (i : Z) : res flexer :=
  u <- il_add (f_upper f) i ;;
  Ok (mkF u (f_lower f) (f_hasExp f) (f_exp f) (f_expSign f) (f_leadingZero f) (f_zeros f)).
(** FloatLexer.h:17-27, addLower. The counter of the leading zeros is an int. *)
Definition fl_addLower (f : flexer) (i : Z) : res flexer :=
  l <- il_add (f_lower f) i ;;
  let lead := f_leadingZero f && (i =? 0) in
  _ <- assert_ok (negb lead || (f_zeros f <? 2 ^ 31 - 1)) ;;
  Ok (mkF (f_upper f) l (f_hasExp f) (f_exp f) (f_expSign f) lead (if lead then f_zeros f + 1 else f_zeros f)).
(** FloatLexer.h:30-33, addExponential. *)
Definition fl_addExp (f : flexer) (i : Z) : res flexer :=
  e <- il_add (f_exp f) i ;;
  Ok (mkF (f_upper f) (f_lower f) true e (f_expSign f) (f_leadingZero f) (f_zeros f)).
(** FloatLexer.h:36-39, setSign. *)
Definition fl_setSign (f : flexer) (s : bool) : flexer :=
  mkF (f_upper f) (f_lower f) true (f_exp f) s (f_leadingZero f) (f_zeros f).
(** FloatLexer.h:46-50, the loop on mantissaNormalizer. *)
Fixpoint normalizer (fuel : nat) (n lower : Z) : res Z :=
  if n <=? lower then
    match fuel with
    | O => NoFuel
    | S fuel' => n' <- i64 (n * 10) ;; normalizer fuel' n' lower
    end
  else Ok n.
(** FloatLexer.h:45-67, get. *)
Definition fl_get (f : flexer) : res Q :=
  n <- normalizer 64 1 (f_lower f) ;;
  let mantissa := (inject_Z (f_upper f) + inject_Z (f_lower f) / (inject_Z n * 10 ^ f_zeros f))%Q in
  let exp := if f_expSign f then f_exp f else - f_exp f in
  Ok (if f_hasExp f then (mantissa * 10 ^ exp)%Q else mantissa).

(** FloatLexer.h:45-67, get, in binary64 arithmetic, for a literal without
    exponent and without zeros at the start of the fraction (None otherwise). *)
Definition to_double (z : Z) : spec_float := binary_normalize 53 1024 z 0 false.
Definition fl_double (f : flexer) : res (option spec_float) :=
  n <- normalizer 64 1 (f_lower f) ;;
  Ok (if f_hasExp f || negb (f_zeros f =? 0) then None
      else Some (SFadd 53 1024 (to_double (f_upper f))
                   (SFdiv 53 1024 (to_double (f_lower f)) (SFmul 53 1024 (to_double n) (to_double 1))))).

(** Token.h: the kind of a token and its value. Keywords and symbols are
    represented by their characters. *)
Inductive token :=
| TokIdent (name : text)
| TokKey (name : text)
| TokInt (value : Z)
| TokFloat (value : Q)
| TokString (s : text)
| TokSym (s : text)
| TokErr
| TokEOF.

(** StateMachine.h:33-55. *)
Inductive lstate :=
| LNormal | LEnd | LIdent | LQIdent | LNumber | LFloat | LExpSign | LExp | LString
| LLine | LBlock | LBackSlash | LQBackSlash | LEW | LEqual | LLess | LGreater | LColon | LIgnored.

Record lmach := mkL { l_state : lstate; l_ident : text; l_string : text; l_num : flexer }.
Definition set_state (m : lmach) (s : lstate) : lmach := mkL s (l_ident m) (l_string m) (l_num m).
Definition push_ident (m : lmach) (c : Z) : lmach := mkL (l_state m) (l_ident m ++ [c]) (l_string m) (l_num m).
Definition push_string (m : lmach) (c : Z) : lmach := mkL (l_state m) (l_ident m) (l_string m ++ [c]) (l_num m).
Definition set_num (m : lmach) (f : flexer) : lmach := mkL (l_state m) (l_ident m) (l_string m) f.

(** StateMachine.cpp:7-11. *)
Definition isDigit (c : Z) : bool := (48 <=? c) && (c <=? 57).
Definition isNonDigit (c : Z) : bool :=
  ((97 <=? c) && (c <=? 122)) || ((65 <=? c) && (c <=? 90)) || (c =? 95).
(** std::isspace in the C locale. *)
Definition isSpace (c : Z) : bool := (c =? 32) || ((9 <=? c) && (c <=? 13)).
(** StateMachine.cpp:17-47. *)
Definition escapedChar (c : Z) : Z :=
  if c =? 97 then 7 else if c =? 98 then 8 else if c =? 102 then 12 else if c =? 110 then 10
  else if c =? 114 then 13 else if c =? 116 then 9 else if c =? 118 then 11 else c.

(** StateMachine.cpp:57-112. *)
Definition keywords : list text :=
  map codes ["algorithm"; "and"; "annotation"; "block"; "break"; "class"; "connect"; "connector";
    "constant"; "constrainedby"; "der"; "discrete"; "each"; "else"; "elseif"; "elsewhen";
    "encapsulated"; "end"; "enumeration"; "equation"; "expandable"; "extends"; "external"; "false";
    "final"; "flow"; "for"; "function"; "if"; "import"; "impure"; "in"; "initial"; "inner"; "input";
    "loop"; "model"; "not"; "operator"; "or"; "outer"; "output"; "package"; "parameter"; "partial";
    "protected"; "public"; "pure"; "record"; "redeclare"; "replaceable"; "return"; "stream"; "then";
    "true"; "type"; "when"; "while"; "within"]%string.
Fixpoint text_eqb (a b : text) : bool :=
  match a, b with
  | [], [] => true
  | x :: a', y :: b' => (x =? y) && text_eqb a' b'
  | _, _ => false
  end.
Definition is_keyword (s : text) : bool := existsb (text_eqb s) keywords.

Definition char_in (c : Z) (s : string) : bool := existsb (Z.eqb c) (codes s).

Definition scan_res : Type := res (lmach * option token).

(** StateMachine.cpp:136-154. *)
Definition scan_ident (m : lmach) (cur nxt : Z) : scan_res :=
  let m := push_ident m cur in
  if negb (isDigit nxt) && negb (isNonDigit nxt) then
    let m := set_state m LNormal in
    Ok (m, Some (if is_keyword (l_ident m) then TokKey (l_ident m) else TokIdent (l_ident m)))
  else Ok (m, None).

(** StateMachine.cpp:156-179. *)
Definition scan_qident (m : lmach) (cur nxt : Z) : scan_res :=
  if cur =? 92 then Ok (set_state m LQBackSlash, None)
  else if cur =? 39 then Ok (set_state m LNormal, Some (TokIdent (l_ident m)))
  else if nxt =? 0 then Ok (set_state m LNormal, Some TokErr)
  else Ok (push_ident m cur, None).

(** StateMachine.cpp:181-221. *)
Definition scan_number (m : lmach) (cur nxt : Z) : scan_res :=
  f <- (if isDigit cur then fl_addUpper (l_num m) (cur - 48) else Ok (l_num m)) ;;
  let m := set_num m f in
  if cur =? 46 then Ok (set_state m LFloat, None)
  else if (cur =? 69) || (cur =? 101) then
    if (nxt =? 43) || (nxt =? 45) then Ok (set_state m LExpSign, None)
    else if isDigit nxt then Ok (set_state (set_num m (fl_setSign (l_num m) true)) LExp, None)
    else Ok (set_state m LNormal, Some TokErr)
  else if negb (isDigit nxt || (nxt =? 46) || (nxt =? 101) || (nxt =? 69)) then
    Ok (set_state m LNormal, Some (TokInt (f_upper (l_num m))))
  else Ok (m, None).

(** makeToken(FloatingPoint, getFloat()). *)
Definition float_token (m : lmach) : scan_res :=
  q <- fl_get (l_num m) ;; Ok (set_state m LNormal, Some (TokFloat q)).

(** StateMachine.cpp:223-254. *)
Definition scan_float (m : lmach) (cur nxt : Z) : scan_res :=
  if isSpace cur || (cur =? 0) then float_token m
  else
    f <- (if isDigit cur then fl_addLower (l_num m) (cur - 48) else Ok (l_num m)) ;;
    let m := set_num m f in
    if ((cur =? 69) || (cur =? 101)) && ((nxt =? 43) || (nxt =? 45)) then Ok (set_state m LExpSign, None)
    else if ((cur =? 69) || (cur =? 101)) && isDigit nxt then
      Ok (set_state (set_num m (fl_setSign (l_num m) true)) LExp, None)
    else if isDigit nxt || (nxt =? 69) || (nxt =? 101) then Ok (m, None)
    else float_token m.

(** StateMachine.cpp:256-283. *)
Definition scan_expsign (m : lmach) (cur nxt : Z) : scan_res :=
  if isSpace cur || (cur =? 0) then Ok (set_state m LNormal, Some TokErr)
  else if (cur =? 45) || (cur =? 43) then
    if negb (isDigit nxt) then Ok (set_state m LNormal, Some TokErr)
    else Ok (set_state (set_num m (fl_setSign (l_num m) (cur =? 43))) LExp, None)
  else Ok (set_state m LNormal, Some TokErr).

(** StateMachine.cpp:285-306. *)
Definition scan_exp (m : lmach) (cur nxt : Z) : scan_res :=
  if isSpace cur || (cur =? 0) then float_token m
  else
    f <- (if isDigit cur then fl_addExp (l_num m) (cur - 48) else Ok (l_num m)) ;;
    let m := set_num m f in
    if isDigit nxt then Ok (m, None) else float_token m.

(** StateMachine.cpp:308-330. *)
Definition scan_string (m : lmach) (cur nxt : Z) : scan_res :=
  if cur =? 0 then Ok (set_state m LEnd, Some TokErr)
  else if cur =? 34 then Ok (set_state m LNormal, Some (TokString (l_string m)))
  else if cur =? 92 then Ok (set_state m LBackSlash, None)
  else Ok (push_string m cur, None).

(** StateMachine.cpp:332-346. *)
Definition scan_line (m : lmach) (cur nxt : Z) : scan_res :=
  Ok (if (nxt =? 0) || (cur =? 10) then set_state m LNormal else m, None).
(** StateMachine.cpp:348-362. *)
Definition scan_block (m : lmach) (cur nxt : Z) : scan_res :=
  Ok (if (cur =? 42) && (nxt =? 47) then set_state m LIgnored
      else if nxt =? 0 then set_state m LNormal else m, None).

(** StateMachine.cpp:574-631, trySymbolScan. *)
Definition scan_symbol (m : lmach) (cur nxt : Z) : scan_res :=
  if (cur =? 46) && char_in nxt "+-*/^" then Ok (set_state m LEW, None)
  else if (cur =? 61) && (nxt =? 61) then Ok (set_state m LEqual, None)
  else if (cur =? 60) && char_in nxt ">=" then Ok (set_state m LLess, None)
  else if (cur =? 62) && (nxt =? 61) then Ok (set_state m LGreater, None)
  else if (cur =? 58) && (nxt =? 61) then Ok (set_state m LColon, None)
  else Ok (set_state m LNormal,
           Some (if char_in cur "+-*/^.<>,;:()[]{}=" then TokSym [cur] else TokErr)).

(** StateMachine.cpp:480-532. *)
Definition scan_normal (m : lmach) (cur nxt : Z) : scan_res :=
  if isSpace cur then Ok (m, None)
  else if isNonDigit cur || ((cur =? 36) && isNonDigit nxt) then
    scan_ident (mkL LIdent [] (l_string m) (l_num m)) cur nxt
  else if cur =? 39 then Ok (mkL LQIdent [] (l_string m) (l_num m), None)
  else if isDigit cur then scan_number (mkL LNumber (l_ident m) (l_string m) fl_reset) cur nxt
  else if cur =? 34 then Ok (mkL LString (l_ident m) [] (l_num m), None)
  else if (cur =? 47) && (nxt =? 47) then Ok (set_state m LLine, None)
  else if (cur =? 47) && (nxt =? 42) then Ok (set_state m LBlock, None)
  else if cur =? 0 then Ok (set_state m LEnd, Some TokEOF)
  else scan_symbol m cur nxt.

(** StateMachine.cpp:382-470: the second character of a symbol. *)
Definition scan_second (m : lmach) (first : Z) (seconds : string) (cur : Z) : scan_res :=
  Ok (set_state m LNormal, Some (if char_in cur seconds then TokSym [first; cur] else TokErr)).

(** StateMachine.cpp:633-698, step. *)
Definition step (m : lmach) (cur nxt : Z) : scan_res :=
  match l_state m with
  | LNormal => scan_normal m cur nxt
  | LEnd => Ok (m, Some TokEOF)
  | LIdent => scan_ident m cur nxt
  | LQIdent => scan_qident m cur nxt
  | LNumber => scan_number m cur nxt
  | LFloat => scan_float m cur nxt
  | LExpSign => scan_expsign m cur nxt
  | LExp => scan_exp m cur nxt
  | LString => scan_string m cur nxt
  | LLine => scan_line m cur nxt
  | LBlock => scan_block m cur nxt
  | LBackSlash => Ok (set_state (push_string m (escapedChar cur)) LString, None)
  | LQBackSlash => Ok (set_state (push_ident m (escapedChar cur)) LQIdent, None)
  | LEW => scan_second m 46 "+-*/^" cur
  | LEqual => scan_second m 61 "=" cur
  | LLess => scan_second m 60 ">=" cur
  | LGreater => scan_second m 62 "=" cur
  | LColon => scan_second m 58 "=" cur
  | LIgnored => Ok (set_state m LNormal, None)
  end.

(** Lexer.h:72-84, scan: step until there is a token. Each step makes the next
    character the current one (StateMachine.cpp:700-704). *)
Fixpoint lex_token (fuel : nat) (m : lmach) (rest : text) : res (token * lmach * text) :=
  match fuel with
  | O => NoFuel
  | S fuel' =>
      '(m', o) <- step m (hd 0 rest) (hd 0 (tl rest)) ;;
      match o with
      | Some t => Ok (t, m', tl rest)
      | None => lex_token fuel' m' (tl rest)
      end
  end.

(** StateMachine.cpp:51-55, the initial state. *)
Definition lex_start : lmach := mkL LNormal [] [] fl_reset.

(** The tokens of a text, up to the end of file. *)
Fixpoint lex_loop (fuel : nat) (m : lmach) (rest : text) : res (list token) :=
  match fuel with
  | O => NoFuel
  | S fuel' =>
      '(t, m', rest') <- lex_token (List.length rest + 4) m rest ;;
      match t with
      | TokEOF => Ok [TokEOF]
      | _ => l <- lex_loop fuel' m' rest' ;; Ok (t :: l)
      end
  end.
Definition lex (s : text) : res (list token) := lex_loop (List.length s + 2) lex_start s.
