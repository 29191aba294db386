(** Model of the part of the parser that reads classes:
    lib/Parser/BaseModelica/Parser.cpp:94-105, 145-569, 1769-1940. Equations and statements
    are read by BlockParserModel.v. The setters of the nodes store copies of their
    arguments, which are modelled as the arguments. Source positions and diagnostics are
    not modelled. [Bad] is a violated assertion, llvm_unreachable, or the value of a token
    that holds a number taken as a string (Token.cpp:321). *)
From Coq Require Import ZArith QArith List Bool String.
From Verif Require Import Result LexerModel ParserModel BlockParserModel.
Import ListNotations.
Local Open Scope list_scope.

(** include/marco/AST/BaseModelica/Modification.h, ElementModification.h *)
Inductive modif := Modif (cls : option (list elem)) (e : option expr)
with elem := Elem (each final : bool) (name : text) (m : option modif).

(** Type.h:66-86; ArrayDimension.h: -1 is an unknown size *)
Inductive vtype := VString | VBoolean | VInteger | VReal | VUser (global : bool) (path : list text).
Inductive dim := DSize (z : Z) | DExpr (e : expr).
(** TypePrefix.h *)
Inductive variability := NoVariability | IsDiscrete | IsParameter | IsConstant.
Inductive causality := NoCausality | IsInput | IsOutput.
(** Member.h *)
Record member := mkMember {
  member_name : text; member_type : vtype; member_dims : list dim;
  member_variability : variability; member_causality : causality;
  member_public : bool; member_modif : option modif }.
(** ExternalFunctionCall.h and the external properties of Class.h *)
Record ecall := mkECall { ecall_dest : option expr; ecall_callee : text; ecall_args : list expr }.
Record external := mkExternal {
  external_language : option text; external_call : option ecall; external_annotation : option (list elem) }.
(** Class.h, Model.h, Package.h, Record.h, Function.h *)
Inductive ckind := CModel | CRecord | CPackage | CFunction (pure : bool).
Inductive cls :=
| Cls (k : ckind) (name : text) (members : list member) (eqs : list (bool * list eqn))
    (algs : list (list stmt)) (inner : list cls) (ext : option external) (ann : option (list elem))
| PartialDer (name : text) (f : expr) (vars : list expr).

Definition word_eq_dec : forall a b : word, {a = b} + {a <> b}.
Proof. decide equality. Defined.
(** [accept<...>()] *)
Definition take (w : word) (ts : list tk) : bool * list tk :=
  match ts with
  | KWord w' :: r => if word_eq_dec w w' then (true, r) else (false, ts)
  | _ => (false, ts)
  end.
Definition skip_string (ts : list tk) : list tk := match ts with KStr _ :: r => r | _ => ts end.

Section Modification.
  (** parseModification, and a bound on the rounds of the loops *)
  Variable M : list tk -> pres modif.
  Variable n : nat.
  (** Parser.cpp:482-506, parseElementModification *)
  Definition opens_modif (t : tk) : bool :=
    match t with KLPar | KAssign | KAssignOp => true | _ => false end.
  Definition m_element (each final : bool) (ts : list tk) : pres elem :=
    match ts with
    | KIdent s :: r =>
        if head_is opens_modif r then ptry (M r) (fun m r1 => ret (Elem each final s (Some m)) r1)
        else ret (Elem each final s None) r
    | _ => Ok None
    end.
  (** Parser.cpp:463-480, parseArgument; 508-518, the functions that are not implemented *)
  Definition m_argument (ts : list tk) : pres elem :=
    match ts with
    | KWord WRedeclare :: _ => Bad
    | _ =>
        let (each, r) := take WEach ts in
        let (final, r1) := take WFinal r in
        match r1 with
        | KWord WReplaceable :: _ => Bad
        | _ => m_element each final r1
        end
    end.
  (** Parser.cpp:436-461, parseClassModification and parseArgumentList *)
  Definition m_class (ts : list tk) : pres (list elem) :=
    match ts with
    | KLPar :: r =>
        ptry (sep_loop m_argument is_comma n [] r) (fun l r1 =>
          match r1 with KRPar :: r2 => ret l r2 | _ => Ok None end)
    | _ => Ok None
    end.
  (** Parser.cpp:406-434, parseModification *)
  Definition m_modification (ts : list tk) : pres modif :=
    let by_class :=
      ptry (m_class ts) (fun l r =>
        match r with
        | KAssign :: r1 => ptry (parse_expression r1) (fun e r2 => ret (Modif (Some l) (Some e)) r2)
        | _ => ret (Modif (Some l) None) r
        end) in
    match ts with
    | KAssign :: r => ptry (parse_expression r) (fun e r1 => ret (Modif None (Some e)) r1)
    | KAssignOp :: r => ptry (parse_expression r) (fun e r1 => ret (Modif None (Some e)) r1)
    | _ => by_class
    end.
End Modification.
Fixpoint modif_fuel (n : nat) (ts : list tk) : pres modif :=
  match n with
  | O => NoFuel
  | S n' => m_modification (modif_fuel n') n ts
  end.
Definition parse_modification (ts : list tk) : pres modif := modif_fuel (S (List.length ts)) ts.
Definition parse_class_modification (ts : list tk) : pres (list elem) :=
  m_class parse_modification (rounds ts) ts.
(** Parser.cpp:1769-1780, parseAnnotation *)
Definition parse_annotation (ts : list tk) : pres (list elem) :=
  match ts with
  | KWord WAnnotation :: r => parse_class_modification r
  | _ => Ok None
  end.

(** Parser.cpp:1839-1873, parseTypePrefix *)
Definition t_variability (ts : list tk) : variability * list tk :=
  match ts with
  | KWord WDiscrete :: r => (IsDiscrete, r)
  | KWord WParameter :: r => (IsParameter, r)
  | KWord WConstant :: r => (IsConstant, r)
  | _ => (NoVariability, ts)
  end.
Definition t_causality (ts : list tk) : causality * list tk :=
  match ts with
  | KWord WInput :: r => (IsInput, r)
  | KWord WOutput :: r => (IsOutput, r)
  | _ => (NoCausality, ts)
  end.
(** Parser.cpp:1922-1938, parseArrayDimension *)
Definition t_dimension (ts : list tk) : pres dim :=
  match ts with
  | KColon :: r => ret (DSize (-1)) r
  | KInt z :: r => ret (DSize z) r
  | _ => ptry (parse_expression ts) (fun e r => ret (DExpr e) r)
  end.
Definition t_dimensions (ts : list tk) : pres (list dim) :=
  match ts with
  | KLSq :: r =>
      ptry (sep_loop t_dimension is_comma (rounds r) [] r) (fun l r1 =>
        match r1 with KRSq :: r2 => ret l r2 | _ => Ok None end)
  | _ => ret [] ts
  end.
(** Parser.cpp:1898-1902; [lookahead[0].getString()] of a number is [Bad] *)
Fixpoint t_path (n : nat) (acc : list text) (ts : list tk) : pres (list text) :=
  match n with
  | O => NoFuel
  | S n' =>
      match ts with
      | KDot :: r =>
          match r with
          | KIdent s :: r1 => t_path n' (acc ++ [s]) r1
          | KInt _ :: _ | KReal _ :: _ => Bad
          | _ => Ok None
          end
      | _ => ret acc ts
      end
  end.
Definition builtin (s : text) : option vtype :=
  if text_eqb s (codes "String") then Some VString
  else if text_eqb s (codes "Boolean") then Some VBoolean
  else if text_eqb s (codes "Integer") then Some VInteger
  else if text_eqb s (codes "Real") then Some VReal
  else None.
(** Parser.cpp:1875-1920, parseVariableType *)
Definition t_type (ts : list tk) : pres (vtype * list dim) :=
  let (global, r) := match ts with KDot :: r => (true, r) | _ => (false, ts) end in
  match r with
  | KIdent s :: r1 =>
      ptry (match builtin s with
            | Some v => ret v r1
            | None => ptry (t_path (rounds r1) [s] r1) (fun p r2 => ret (VUser global p) r2)
            end) (fun v r2 =>
      ptry (t_dimensions r2) (fun ds r3 => ret (v, ds) r3))
  | KInt _ :: _ | KReal _ :: _ => Bad
  | _ => Ok None
  end.
(** Parser.cpp:1804-1837, parseElement. The annotation is read and dropped. *)
Definition t_element (public : bool) (ts : list tk) : pres member :=
  let (_, r) := take WFinal ts in
  let (v, r1) := t_variability r in
  let (c, r2) := t_causality r1 in
  ptry (t_type r2) (fun t r3 =>
    match r3 with
    | KIdent s :: r4 =>
        ptry (match r4 with
              | KLPar :: _ | KAssign :: _ => ptry (parse_modification r4) (fun m r5 => ret (Some m) r5)
              | _ => ret None r4
              end) (fun m r5 =>
        let r6 := skip_string r5 in
        ptry (match r6 with
              | KWord WAnnotation :: _ => ptry (parse_annotation r6) (fun _ r7 => ret tt r7)
              | _ => ret tt r6
              end) (fun _ r7 =>
        ret (mkMember s (fst t) (snd t) v c public m) r7))
    | _ => Ok None
    end).
(** Parser.cpp:1782-1802, parseElementList *)
Definition element_stop (t : tk) : bool :=
  match t with
  | KEnd => true
  | KWord (WPublic | WProtected | WFunction | WEquation | WInitial | WAlgorithm | WClass | WModel
           | WPackage | WRecord | WExternal) => true
  | _ => false
  end.
Definition element_list (public : bool) (n : nat) (ts : list tk) : pres (list member) :=
  block (t_element public) element_stop n [] ts.

(** Parser.cpp:545-569, parseEquationSection *)
Definition equation_stop (t : tk) : bool :=
  match t with
  | KEnd => true
  | KWord (WPublic | WProtected | WInitial | WEquation | WAlgorithm | WExternal | WAnnotation) => true
  | _ => false
  end.
Definition equation_section (n : nat) (ts : list tk) : pres (bool * list eqn) :=
  let (initial, r) := take WInitial ts in
  match r with
  | KWord WEquation :: r1 => ptry (block parse_equation equation_stop n [] r1) (fun l r2 => ret (initial, l) r2)
  | _ => Ok None
  end.
(** Parser.cpp:520-543, parseAlgorithmSection; the tokens may end without the one of the
    end of the file, which then is every lookahead *)
Definition algorithm_stop (t : tk) : bool :=
  match t with
  | KEnd => true
  | KWord (WPublic | WProtected | WEquation | WAlgorithm | WExternal | WAnnotation) => true
  | KOther TokEOF => true
  | _ => false
  end.
Definition algorithm_section (n : nat) (ts : list tk) : pres (list stmt) :=
  match ts with
  | KWord WAlgorithm :: r => block parse_statement algorithm_stop n [] r
  | _ => Ok None
  end.

(** Parser.cpp:389-398 *)
Fixpoint external_args (n : nat) (acc : list expr) (ts : list tk) : pres (list expr) :=
  match n with
  | O => NoFuel
  | S n' =>
      match ts with
      | KRPar :: _ => ret acc ts
      | _ =>
          ptry (parse_expression ts) (fun e r =>
            match r with
            | KRPar :: _ => external_args n' (acc ++ [e]) r
            | KComma :: r1 => external_args n' (acc ++ [e]) r1
            | _ => Ok None
            end)
      end
  end.
(** Parser.cpp:356-404, parseExternalFunctionCall *)
Definition external_call_of (ts : list tk) : pres ecall :=
  ptry (match ts with
        | KIdent _ :: KLPar :: _ => ret None ts
        | _ => ptry (r_reference ts) (fun d r => match r with KAssign :: r1 => ret (Some d) r1 | _ => Ok None end)
        end) (fun d r =>
    match r with
    | KIdent s :: KLPar :: r1 =>
        ptry (external_args (rounds r1) [] r1) (fun l r2 =>
          match r2 with KRPar :: r3 => ret (mkECall d s l) r3 | _ => Ok None end)
    | _ => Ok None
    end).
(** Parser.cpp:298-325 *)
Definition external_clause (ts : list tk) : pres (option external) :=
  match ts with
  | KWord WExternal :: r =>
      let (lang, r1) := match r with KStr s :: r1 => (Some s, r1) | _ => (None, r) end in
      ptry (match r1 with
            | KDot :: _ | KIdent _ :: _ => ptry (external_call_of r1) (fun c r2 => ret (Some c) r2)
            | _ => ret None r1
            end) (fun c r2 =>
      ptry (match r2 with
            | KSemi :: _ => ret None r2
            | _ => ptry (parse_annotation r2) (fun a r3 => ret (Some a) r3)
            end) (fun a r3 =>
        match r3 with
        | KSemi :: r4 => ret (Some (mkExternal lang c a)) r4
        | _ => Ok None
        end))
  | _ => ret None ts
  end.
(** Parser.cpp:327-332 *)
Definition class_annotation (ts : list tk) : pres (option (list elem)) :=
  match ts with
  | KWord WAnnotation :: _ =>
      ptry (parse_annotation ts) (fun a r => match r with KSemi :: r1 => ret (Some a) r1 | _ => Ok None end)
  | _ => ret None ts
  end.

(** Parser.cpp:149-185: what kind of class *)
Definition class_kind (ts : list tk) : pres ckind :=
  match ts with
  | KWord WOperator :: KWord WRecord :: r => ret CRecord r
  | KWord WOperator :: KWord WFunction :: r => ret (CFunction true) r
  | KWord WModel :: r => ret CModel r
  | KWord WRecord :: r => ret CRecord r
  | KWord WPackage :: r => ret CPackage r
  | KWord WFunction :: r => ret (CFunction true) r
  | KWord WPure :: r =>
      match snd (take WOperator r) with KWord WFunction :: r1 => ret (CFunction true) r1 | _ => Ok None end
  | KWord WImpure :: r =>
      match snd (take WOperator r) with KWord WFunction :: r1 => ret (CFunction false) r1 | _ => Ok None end
  | KWord WClass :: r => ret CModel r
  | _ => Ok None
  end.

(** Parser.cpp:191-217: a function that is a derivative *)
Fixpoint der_vars (n : nat) (acc : list expr) (ts : list tk) : pres (list expr) :=
  match n with
  | O => NoFuel
  | S n' =>
      match ts with
      | KComma :: r => ptry (parse_expression r) (fun e r1 => der_vars n' (acc ++ [e]) r1)
      | _ => ret acc ts
      end
  end.
Definition derivative (k : ckind) (name : text) (ts : list tk) : pres cls :=
  match k with
  | CFunction _ =>
      match ts with
      | KDer :: KLPar :: r =>
          ptry (parse_expression r) (fun f r1 =>
          ptry (der_vars (rounds r1) [] r1) (fun l r2 =>
            match r2 with
            | KRPar :: r3 =>
                match skip_string r3 with
                | KSemi :: r4 => ret (PartialDer name f l) r4
                | _ => Ok None
                end
            | _ => Ok None
            end))
      | _ => Ok None
      end
  | _ => Bad
  end.

(** The lists that the loop of Parser.cpp:222-295 fills, and whether elements may come
    without a keyword. *)
Record content := mkContent {
  c_members : list member; c_eqs : list (bool * list eqn); c_algs : list (list stmt);
  c_inner : list cls; c_first : bool }.
Definition add_members (c : content) (first : bool) (l : list member) : content :=
  mkContent (c_members c ++ l) (c_eqs c) (c_algs c) (c_inner c) first.
Definition add_eq (c : content) (s : bool * list eqn) : content :=
  mkContent (c_members c) (c_eqs c ++ [s]) (c_algs c) (c_inner c) (c_first c).
Definition add_alg (c : content) (s : list stmt) : content :=
  mkContent (c_members c) (c_eqs c) (c_algs c ++ [s]) (c_inner c) (c_first c).
Definition add_inner (c : content) (x : cls) : content :=
  mkContent (c_members c) (c_eqs c) (c_algs c) (c_inner c ++ [x]) (c_first c).

Section ClassDefinition.
  (** parseClassDefinition, and a bound on the rounds of the loops *)
  Variable C : list tk -> pres cls.
  Variable n : nat.
  Definition body_stop (t : tk) : bool :=
    match t with KEnd | KWord WAnnotation | KWord WExternal => true | _ => false end.
  Definition inner_start (t : tk) : bool :=
    match t with KWord (WClass | WFunction | WModel | WPackage | WRecord) => true | _ => false end.
  (** Parser.cpp:234-295. The last branch goes round without reading anything when no
      element may come. *)
  Fixpoint class_body (m : nat) (c : content) (ts : list tk) : pres content :=
    match m with
    | O => NoFuel
    | S m' =>
        if head_is body_stop ts then ret c ts
        else
          match ts with
          | KWord WInitial :: KWord WEquation :: _ =>
              ptry (equation_section n ts) (fun s r => class_body m' (add_eq c s) r)
          | KWord WEquation :: _ =>
              ptry (equation_section n ts) (fun s r => class_body m' (add_eq c s) r)
          | KWord WInitial :: KWord WAlgorithm :: _ =>
              ptry (algorithm_section n ts) (fun s r => class_body m' (add_alg c s) r)
          | KWord WAlgorithm :: _ =>
              ptry (algorithm_section n ts) (fun s r => class_body m' (add_alg c s) r)
          | KWord WPublic :: r =>
              ptry (element_list true n r) (fun l r1 => class_body m' (add_members c false l) r1)
          | KWord WProtected :: r =>
              ptry (element_list false n r) (fun l r1 => class_body m' (add_members c false l) r1)
          | _ =>
              if head_is inner_start ts then ptry (C ts) (fun x r => class_body m' (add_inner c x) r)
              else if c_first c
              then ptry (element_list true n ts) (fun l r => class_body m' (add_members c true l) r)
              else class_body m' c ts
          end
    end.
  (** Parser.cpp:145-354, parseClassDefinition *)
  Definition class_definition (ts : list tk) : pres cls :=
    ptry (class_kind ts) (fun k r =>
      match r with
      | KIdent s :: KAssign :: r1 => derivative k s r1
      | KIdent s :: r1 =>
          ptry (class_body n (mkContent [] [] [] [] true) (skip_string r1)) (fun c r2 =>
          ptry (external_clause r2) (fun e r3 =>
          ptry (class_annotation r3) (fun a r4 =>
            match r4 with
            | KEnd :: KIdent s' :: r5 =>
                if text_eqb s s' then
                  match r5 with
                  | KSemi :: r6 => ret (Cls k s (c_members c) (c_eqs c) (c_algs c) (c_inner c) e a) r6
                  | _ => Ok None
                  end
                else Ok None
            | _ => Ok None
            end)))
      | _ => Ok None
      end).
End ClassDefinition.
Fixpoint class_fuel (n : nat) (ts : list tk) : pres cls :=
  match n with
  | O => NoFuel
  | S n' => class_definition (class_fuel n') n ts
  end.
Definition parse_class (ts : list tk) : pres cls := class_fuel (S (List.length ts)) ts.

(** Parser.cpp:94-105, parseRoot *)
Fixpoint root_fuel (n : nat) (acc : list cls) (ts : list tk) : pres (list cls) :=
  match n with
  | O => NoFuel
  | S n' =>
      match ts with
      | [] => ret acc ts
      | KOther TokEOF :: _ => ret acc ts
      | _ => ptry (parse_class ts) (fun c r => root_fuel n' (acc ++ [c]) r)
      end
  end.
Definition parse_root (ts : list tk) : pres (list cls) := root_fuel (S (List.length ts)) [] ts.
