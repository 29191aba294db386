(** Model of the variable filter: lib/VariableFilter/LexerStateMachine.cpp,
    Parser.cpp, VariableFilter.cpp, Range.cpp, and of its use,
    lib/Codegen/Conversion/BaseModelicaToRuntime/BaseModelicaToRuntime.cpp:600-700.

    The POSIX regular expressions of llvm::Regex are two parameters: [rvalid]
    (isValid) and [rmatch] (match). Diagnostics and source positions are not
    modelled. *)
From Coq Require Import ZArith List Bool String.
From Verif Require Import RangeModel MDRangeModel Result BoxSetModel SubscriptModel LexerModel.
Import ListNotations.
Local Open Scope string_scope.
Local Open Scope list_scope.
Local Open Scope Z_scope.

(** Token.h. The symbols are their characters. *)
Inductive vtoken :=
| VInt (n : Z) | VIdent (s : text) | VRegex (s : text) | VSym (c : Z) | VDer | VErr | VEOF.

Inductive vstate := VNormal | VEnd | VId | VNum | VRgx.
Record vmach := mkV { v_state : vstate; v_ident : text; v_regex : text; v_num : Z }.

(** LexerStateMachine.cpp:100-112, and the map of the keywords (26, 66-72). *)
Definition vscan_id (m : vmach) (cur nxt : Z) : res (vmach * option vtoken) :=
  let i := v_ident m ++ [cur] in
  if negb (isDigit nxt) && negb (isNonDigit nxt) && negb (nxt =? 46) then
    Ok (mkV VNormal i (v_regex m) (v_num m), Some (if text_eqb i (codes "der") then VDer else VIdent i))
  else Ok (mkV VId i (v_regex m) (v_num m), None).
(** LexerStateMachine.cpp:114-130. *)
Definition vscan_num (m : vmach) (cur nxt : Z) : res (vmach * option vtoken) :=
  n <- (if isDigit cur then il_add (v_num m) (cur - 48) else Ok (v_num m)) ;;
  if negb (isDigit nxt) then Ok (mkV VNormal (v_ident m) (v_regex m) n, Some (VInt n))
  else Ok (mkV VNum (v_ident m) (v_regex m) n, None).
(** LexerStateMachine.cpp:132-150. *)
Definition vscan_regex (m : vmach) (cur nxt : Z) : res (vmach * option vtoken) :=
  if cur =? 47 then Ok (mkV VNormal (v_ident m) (v_regex m) (v_num m), Some (VRegex (v_regex m)))
  else if cur =? 0 then Ok (mkV VEnd (v_ident m) (v_regex m) (v_num m), Some VErr)
  else Ok (mkV VRgx (v_ident m) (v_regex m ++ [cur]) (v_num m), None).
(** LexerStateMachine.cpp:152-188; the symbols are those of 18-25. *)
Definition vscan_normal (m : vmach) (cur nxt : Z) : res (vmach * option vtoken) :=
  if isSpace cur then Ok (m, None)
  else if isNonDigit cur then vscan_id (mkV VId [] (v_regex m) (v_num m)) cur nxt
  else if isDigit cur then vscan_num (mkV VNum (v_ident m) (v_regex m) 0) cur nxt
  else if cur =? 47 then Ok (mkV VRgx (v_ident m) [] (v_num m), None)
  else if cur =? 0 then Ok (mkV VEnd (v_ident m) (v_regex m) (v_num m), Some VEOF)
  else Ok (mkV VNormal (v_ident m) (v_regex m) (v_num m), Some (if char_in cur "()[],;:$" then VSym cur else VErr)).
(** LexerStateMachine.cpp:190-216. No state is IgnoreNextChar. *)
Definition vstep (m : vmach) (cur nxt : Z) : res (vmach * option vtoken) :=
  match v_state m with
  | VNormal => vscan_normal m cur nxt
  | VNum => vscan_num m cur nxt
  | VRgx => vscan_regex m cur nxt
  | VId => vscan_id m cur nxt
  | VEnd => Ok (m, Some VEOF)
  end.
(** Lexer.h:72-84, scan. *)
Fixpoint vlex_token (fuel : nat) (m : vmach) (rest : text) : res (vtoken * vmach * text) :=
  match fuel with
  | O => NoFuel
  | S fuel' =>
      '(m', o) <- vstep m (hd 0 rest) (hd 0 (tl rest)) ;;
      match o with
      | Some t => Ok (t, m', tl rest)
      | None => vlex_token fuel' m' (tl rest)
      end
  end.
(** All the tokens. The parser asks for one token at a time; here the text is
    lexed before, so that an integer that does not fit is an overflow even if
    it comes after the first syntax error. *)
Fixpoint vlex_loop (fuel : nat) (m : vmach) (rest : text) : res (list vtoken) :=
  match fuel with
  | O => NoFuel
  | S fuel' =>
      '(t, m', rest') <- vlex_token (List.length rest + 2) m rest ;;
      match t with
      | VEOF => Ok [VEOF]
      | _ => l <- vlex_loop fuel' m' rest' ;; Ok (t :: l)
      end
  end.
Definition vlex (s : text) : res (list vtoken) :=
  vlex_loop (List.length s + 2) (mkV VNormal [] [] 0) s.

(** Range.h: lower and upper bounds, -1 (kUnbounded) for a missing one. *)
Notation vrange := (Z * Z)%type.
Definition kUnbounded : Z := -1.

(** VariableFilter.h: the maps are association lists. *)
Record vfilter := mkVF {
  vf_variables : list (text * list (list vrange));
  vf_derivatives : list (text * list (list vrange));
  vf_regex : list text;
  vf_enabled : bool }.
Definition vf_new : vfilter := mkVF [] [] [] false.
Fixpoint tfind {A} (k : text) (m : list (text * A)) : option A :=
  match m with
  | [] => None
  | (k', a) :: m' => if text_eqb k k' then Some a else tfind k m'
  end.
Fixpoint tpush {A} (k : text) (a : A) (m : list (text * list A)) : list (text * list A) :=
  match m with
  | [] => [(k, [a])]
  | (k', l) :: m' => if text_eqb k k' then (k', l ++ [a]) :: m' else (k', l) :: tpush k a m'
  end.
(** VariableFilter.cpp:52-65. A tracker is its name and its ranges. *)
Definition addVariable (f : vfilter) (name : text) (r : list vrange) : vfilter :=
  mkVF (tpush name r (vf_variables f)) (vf_derivatives f) (vf_regex f) true.
Definition addDerivative (f : vfilter) (name : text) : vfilter :=
  mkVF (vf_variables f) (tpush name [] (vf_derivatives f)) (vf_regex f) true.
Definition addRegexString (f : vfilter) (r : text) : vfilter :=
  mkVF (vf_variables f) (vf_derivatives f) (vf_regex f ++ [r]) true.
(** VariableFilter.cpp:50. *)
Definition setEnabled (f : vfilter) (b : bool) : vfilter :=
  mkVF (vf_variables f) (vf_derivatives f) (vf_regex f) b.

(** The conversion of an int64_t to int. *)
Definition to_int (n : Z) : Z := (n + 2 ^ 31) mod 2 ^ 32 - 2 ^ 31.

Definition is_sym (c : Z) (t : vtoken) : bool := match t with VSym d => c =? d | _ => false end.
Definition expect (c : Z) (ts : list vtoken) : option (list vtoken) :=
  match ts with t :: ts' => if is_sym c t then Some ts' else None | [] => None end.
(** Parser.cpp:203-210, parseArrayIndex: the result is a std::optional<int>. *)
Definition parseArrayIndex (ts : list vtoken) : option (Z * list vtoken) :=
  match expect 36 ts with
  | Some ts' => Some (kUnbounded, ts')
  | None => match ts with VInt n :: ts' => Some (to_int n, ts') | _ => None end
  end.
(** Parser.cpp:196-201, parseArrayRange. *)
Definition parseArrayRange (ts : list vtoken) : option (vrange * list vtoken) :=
  match parseArrayIndex ts with
  | None => None
  | Some (l, ts1) =>
      match expect 58 ts1 with
      | None => None
      | Some ts2 =>
          match parseArrayIndex ts2 with
          | None => None
          | Some (u, ts3) => Some ((l, u), ts3)
          end
      end
  end.
(** Parser.cpp:186-191, the loop on the commas. *)
Fixpoint parseMore (fuel : nat) (ts : list vtoken) : res (option (list vrange * list vtoken)) :=
  match expect 44 ts with
  | None => Ok (Some ([], ts))
  | Some ts1 =>
      match fuel with
      | O => NoFuel
      | S fuel' =>
          match parseArrayRange ts1 with
          | None => Ok None
          | Some (r, ts2) =>
              o <- parseMore fuel' ts2 ;;
              Ok (match o with Some (l, ts3) => Some (r :: l, ts3) | None => None end)
          end
      end
  end.
(** Parser.cpp:179-194, parseArray. *)
Definition parseArray (ts : list vtoken) : res (option (list vrange * list vtoken)) :=
  match expect 91 ts with
  | None => Ok None
  | Some ts1 =>
      match parseArrayRange ts1 with
      | None => Ok None
      | Some (r, ts2) =>
          o <- parseMore (List.length ts2) ts2 ;;
          Ok (match o with
              | Some (l, ts3) => match expect 93 ts3 with Some ts4 => Some (r :: l, ts4) | None => None end
              | None => None
              end)
      end
  end.
(** Parser.cpp:212-219, parseDer, after the keyword. *)
Definition parseDer (ts : list vtoken) : option (text * list vtoken) :=
  match expect 40 ts with
  | Some (VIdent s :: ts1) => match expect 41 ts1 with Some ts2 => Some (s, ts2) | None => None end
  | _ => None
  end.

(** Parser.cpp:107-152, parseListElement. *)
Definition parseListElement (rvalid : text -> bool) (f : vfilter) (ts : list vtoken)
  : res (option (vfilter * list vtoken)) :=
  match ts with
  | VDer :: ts1 =>
      Ok (match parseDer ts1 with Some (s, ts2) => Some (addDerivative f s, ts2) | None => None end)
  | VRegex r :: ts1 =>
      Ok (match r with
          | [] => None
          | _ => if rvalid r then Some (addRegexString f r, ts1) else None
          end)
  | VIdent s :: ts1 =>
      match expect 91 ts1 with
      | Some _ =>
          o <- parseArray ts1 ;;
          Ok (match o with Some (l, ts2) => Some (addVariable f s l, ts2) | None => None end)
      | None => Ok (Some (addVariable f s [], ts1))
      end
  | _ => Ok None
  end.
(** Parser.cpp:92-105, run. *)
Fixpoint vrun (rvalid : text -> bool) (fuel : nat) (f : vfilter) (ts : list vtoken) : res (option vfilter) :=
  match ts with
  | [] | VEOF :: _ => Ok (Some f)
  | _ =>
      match fuel with
      | O => NoFuel
      | S fuel' =>
          match expect 59 ts with
          | Some ts1 => vrun rvalid fuel' f ts1
          | None =>
              o <- parseListElement rvalid f ts ;;
              match o with
              | Some (f', ts1) => vrun rvalid fuel' f' ts1
              | None => Ok None
              end
          end
      end
  end.
(** VariableFilter.cpp:154-198, fromString. *)
Definition fromString (rvalid : text -> bool) (s : text) : res (option vfilter) :=
  ts <- vlex s ;; vrun rvalid (List.length ts) vf_new ts.

(** Filter.h: visibility and ranges. *)
Notation vinfo := (bool * list vrange)%type.
Definition unbounded (n : nat) : list vrange := repeat (kUnbounded, kUnbounded) n.
(** VariableFilter.cpp:147-152. *)
Definition matchesRegex (rmatch : text -> text -> bool) (f : vfilter) (name : text) : bool :=
  existsb (fun r => rmatch r name) (vf_regex f).
(** VariableFilter.cpp:67-117, getVariableInfo. *)
Definition getVariableInfo (rmatch : text -> text -> bool) (f : vfilter) (name : text) (rank : nat) : list vinfo :=
  let visibility := negb (vf_enabled f) || matchesRegex rmatch f name in
  let filters :=
    match tfind name (vf_variables f) with
    | Some l => map (fun rs => (true, firstn rank rs ++ unbounded (rank - List.length (firstn rank rs)))) l
    | None => []
    end in
  match filters with
  | [] => [(visibility, unbounded rank)]
  | _ => filters
  end.
(** VariableFilter.cpp:119-145, getVariableDerInfo. *)
Definition getVariableDerInfo (rmatch : text -> text -> bool) (f : vfilter) (name : text) (rank : nat) : list vinfo :=
  let visibility := matchesRegex rmatch f (codes "der(" ++ name ++ codes ")")
                    || match tfind name (vf_derivatives f) with Some _ => true | None => false end in
  [(visibility, unbounded rank)].

(** BaseModelicaToRuntime.cpp:619-632: the range of one dimension. *)
Definition printable_range (r : vrange) (d : Z) : res range :=
  mk_range (if fst r =? kUnbounded then 0 else fst r - 1) (if snd r =? kUnbounded then d else snd r).
Fixpoint printable_ranges (rs : list vrange) (shape : list Z) : res mdrange :=
  match rs, shape with
  | [], [] => Ok []
  | r :: rs', d :: shape' => x <- printable_range r d ;; xs <- printable_ranges rs' shape' ;; Ok (x :: xs)
  | _, _ => Bad
  end.
(** BaseModelicaToRuntime.cpp:600-638, getPrintableIndices. *)
Definition getPrintableIndices (shape : list Z) (filters : list vinfo) : res bset :=
  fold_res (fun s (f : vinfo) => if fst f then b <- printable_ranges (snd f) shape ;; Ok (bs_union s [b]) else Ok s) filters [].
(** BaseModelicaToRuntime.cpp:682-692: a scalar is printed, or not. *)
Definition printable_scalar (filters : list vinfo) : bool := existsb (fun f : vinfo => fst f) filters.
