(** Model of the part of the parser that reads equations and statements:
    lib/Parser/BaseModelica/Parser.cpp:571-1040, and of the setters of the nodes they
    build that do more than store their argument. Expressions are read by ParserModel.v.
    Source positions and diagnostics are not modelled. *)
From Coq Require Import ZArith QArith List Bool String.
From Verif Require Import Result LexerModel ParserModel.
Import ListNotations.
Local Open Scope list_scope.

(** include/marco/AST/BaseModelica/EqualityEquation.h, IfEquation.h, ForEquation.h,
    WhenEquation.h *)
Inductive eqn :=
| QEq (l r : expr)
| QIf (c : expr) (body : list eqn) (elifs : list (expr * list eqn)) (els : list eqn)
| QFor (ix : list (text * option expr)) (body : list eqn)
| QWhen (c : expr) (body : list eqn) (elifs : list (expr * list eqn)) (els : list eqn).

(** AssignmentStatement.h, CallStatement.h, IfStatement.h, ForStatement.h, ... *)
Inductive stmt :=
| ZAssign (dest : list expr) (e : expr)
| ZCall (call : expr)
| ZBreak
| ZReturn
| ZIf (c : expr) (body : list stmt) (elifs : list (expr * list stmt)) (els : option (list stmt))
| ZFor (ix : list (text * option expr)) (body : list stmt)
| ZWhile (c : expr) (body : list stmt)
| ZWhen (c : expr) (body : list stmt).

(** parseExpression, parseForIndices, parseComponentReference, parseFunctionArguments,
    parseFunctionCallArgs and parseOutputExpressionList of ParserModel.v; the loops
    have fewer rounds than this. *)
Definition rounds (ts : list tk) : nat := S (S (List.length ts)).
Definition r_forIndices (ts : list tk) := p_forIndices parse_expression (rounds ts) ts.
Definition r_reference (ts : list tk) := p_reference parse_expression (rounds ts) ts.
Definition r_arguments (ts : list tk) := p_functionArguments parse_expression (rounds ts) ts.
Definition r_callArgs (ts : list tk) := p_callArgs parse_expression (rounds ts) ts.
Definition r_outputs (ts : list tk) := p_outputs parse_expression (rounds ts) [] ts.

(** What ends a block: Parser.cpp:700-702, 720-722, 734, 771-773, 800-802, 822, 851, 875,
    932, 956-958, 976-978, 990, 1026. *)
Definition if_stop (t : tk) : bool := match t with KElseIf | KElse | KEnd => true | _ => false end.
Definition when_stop (t : tk) : bool := match t with KElseWhen | KElse | KEnd => true | _ => false end.
Definition end_stop (t : tk) : bool := match t with KEnd => true | _ => false end.
Definition head_is (p : tk -> bool) (ts : list tk) : bool :=
  match ts with t :: _ => p t | [] => false end.

(** [while (!lookahead[0].isa<...>()) { TRY(x, item()); EXPECT(Semicolon); ... }] *)
Fixpoint block {A} (item : list tk -> pres A) (stop : tk -> bool) (n : nat) (acc : list A)
  (ts : list tk) : pres (list A) :=
  match n with
  | O => NoFuel
  | S n' =>
      if head_is stop ts then ret acc ts
      else ptry (item ts) (fun x r =>
        match r with
        | KSemi :: r1 => block item stop n' (acc ++ [x]) r1
        | _ => Ok None
        end)
  end.

Definition is_elseif (t : tk) : bool := match t with KElseIf => true | _ => false end.
Definition is_elsewhen (t : tk) : bool := match t with KElseWhen => true | _ => false end.
(** [while (accept<key>()) { condition; EXPECT(Then); block }]: Parser.cpp:713-729, 969-985 *)
Fixpoint branches {A} (item : list tk -> pres A) (stop key : tk -> bool) (n : nat)
  (acc : list (expr * list A)) (ts : list tk) : pres (list (expr * list A)) :=
  match n with
  | O => NoFuel
  | S n' =>
      match ts with
      | t :: r =>
          if key t then
            ptry (parse_expression r) (fun c r1 =>
              match r1 with
              | KThen :: r2 =>
                  ptry (block item stop n [] r2) (fun b r3 =>
                    branches item stop key n' (acc ++ [(c, b)]) r3)
              | _ => Ok None
              end)
          else ret acc ts
      | [] => ret acc ts
      end
  end.
(** The same for if statements, which look for what ends the loop and then expect the
    key: Parser.cpp:791-813. *)
Definition is_else_or_end (t : tk) : bool := match t with KElse | KEnd => true | _ => false end.
Fixpoint stmt_branches {A} (item : list tk -> pres A) (n : nat)
  (acc : list (expr * list A)) (ts : list tk) : pres (list (expr * list A)) :=
  match n with
  | O => NoFuel
  | S n' =>
      if head_is is_else_or_end ts then ret acc ts
      else
        match ts with
        | KElseIf :: r =>
            ptry (parse_expression r) (fun c r1 =>
              match r1 with
              | KThen :: r2 =>
                  ptry (block item if_stop n [] r2) (fun b r3 =>
                    stmt_branches item n' (acc ++ [(c, b)]) r3)
              | _ => Ok None
              end)
        | _ => Ok None
        end
  end.
(** [if (accept<Else>()) { block }]: Parser.cpp:733-739, 818-833, 989-995 *)
Definition else_block {A} (item : list tk -> pres A) (n : nat) (ts : list tk) : pres (option (list A)) :=
  match ts with
  | KElse :: r => ptry (block item end_stop n [] r) (fun b r1 => ret (Some b) r1)
  | _ => ret None ts
  end.
Definition or_none {A} (o : option (list A)) : list A := match o with Some l => l | None => [] end.

(** lib/AST/BaseModelica/IfEquation.cpp:157-170, setElseIfEquations, in the loop of
    Parser.cpp:753-755; WhenEquation.cpp:159-172 in the one of 1009-1011. The vector that
    is resized is not the one that is indexed, which is empty. *)
Fixpoint set_branches {A} (v : list (list A)) (i : nat) (l : list (list A)) : res (list (list A)) :=
  match l with
  | [] => Ok v
  | b :: l' =>
      if Nat.ltb i (List.length v)
      then set_branches (firstn i v ++ b :: skipn (S i) v) (S i) l'
      else Bad
  end.
Definition made {A B} (m : res A) (x : B) (ts : list tk) : pres B :=
  match m with Ok _ => ret x ts | Bad => Bad | NoFuel => NoFuel end.

Section Equation.
  (** parseEquation, and a bound on the rounds of the loops *)
  Variable Q : list tk -> pres eqn.
  Variable n : nat.
  (** Parser.cpp:692-759, parseIfEquation *)
  Definition q_if (ts : list tk) : pres eqn :=
    ptry (parse_expression ts) (fun c r =>
      match r with
      | KThen :: r1 =>
          ptry (block Q if_stop n [] r1) (fun b r2 =>
          ptry (branches Q if_stop is_elseif n [] r2) (fun br r3 =>
          ptry (else_block Q n r3) (fun o r4 =>
            match r4 with
            | KEnd :: KIf :: r5 => made (set_branches [] 0 (map snd br)) (QIf c b br (or_none o)) r5
            | _ => Ok None
            end)))
      | _ => Ok None
      end).
  (** Parser.cpp:843-865, parseForEquation *)
  Definition q_for (ts : list tk) : pres eqn :=
    ptry (r_forIndices ts) (fun ix r =>
      match r with
      | KLoop :: r1 =>
          ptry (block Q end_stop n [] r1) (fun b r2 =>
            match r2 with
            | KEnd :: KFor :: r3 => ret (QFor ix b) r3
            | _ => Ok None
            end)
      | _ => Ok None
      end).
  (** Parser.cpp:948-1015, parseWhenEquation: it ends with [EXPECT(TokenKind::If)] *)
  Definition q_when (ts : list tk) : pres eqn :=
    ptry (parse_expression ts) (fun c r =>
      match r with
      | KThen :: r1 =>
          ptry (block Q when_stop n [] r1) (fun b r2 =>
          ptry (branches Q when_stop is_elsewhen n [] r2) (fun br r3 =>
          ptry (else_block Q n r3) (fun o r4 =>
            match r4 with
            | KEnd :: KIf :: r5 => made (set_branches [] 0 (map snd br)) (QWhen c b br (or_none o)) r5
            | _ => Ok None
            end)))
      | _ => Ok None
      end).
  (** Parser.cpp:571-599, parseEquation *)
  Definition q_equation (ts : list tk) : pres eqn :=
    match ts with
    | KIf :: r => q_if r
    | KFor :: r => q_for r
    | KWhen :: r => q_when r
    | _ =>
        ptry (parse_expression ts) (fun a r =>
          match r with
          | KAssign :: r1 =>
              ptry (parse_expression r1) (fun b r2 =>
                ret (QEq a b) (match r2 with KStr _ :: r3 => r3 | _ => r2 end))
          | _ => Ok None
          end)
    end.
End Equation.
Fixpoint equation_fuel (n : nat) (ts : list tk) : pres eqn :=
  match n with
  | O => NoFuel
  | S n' => q_equation (equation_fuel n') n ts
  end.
Definition parse_equation (ts : list tk) : pres eqn := equation_fuel (S (List.length ts)) ts.

Section Statement.
  (** parseStatement, and a bound on the rounds of the loops *)
  Variable Q : list tk -> pres stmt.
  Variable n : nat.
  (** Parser.cpp:761-841, parseIfStatement *)
  Definition z_if (ts : list tk) : pres stmt :=
    ptry (parse_expression ts) (fun c r =>
      match r with
      | KThen :: r1 =>
          ptry (block Q if_stop n [] r1) (fun b r2 =>
          ptry (stmt_branches Q n [] r2) (fun br r3 =>
          ptry (else_block Q n r3) (fun o r4 =>
            match r4 with
            | KEnd :: KIf :: r5 => ret (ZIf c b br o) r5
            | _ => Ok None
            end)))
      | _ => Ok None
      end).
  (** Parser.cpp:867-889, parseForStatement *)
  Definition z_for (ts : list tk) : pres stmt :=
    ptry (r_forIndices ts) (fun ix r =>
      match r with
      | KLoop :: r1 =>
          ptry (block Q end_stop n [] r1) (fun b r2 =>
            match r2 with
            | KEnd :: KFor :: r3 => ret (ZFor ix b) r3
            | _ => Ok None
            end)
      | _ => Ok None
      end).
  (** Parser.cpp:923-946, parseWhileStatement *)
  Definition z_while (ts : list tk) : pres stmt :=
    ptry (parse_expression ts) (fun c r =>
      match r with
      | KLoop :: r1 =>
          ptry (block Q end_stop n [] r1) (fun b r2 =>
            match r2 with
            | KEnd :: KWhile :: r3 => ret (ZWhile c b) r3
            | _ => Ok None
            end)
      | _ => Ok None
      end).
  (** Parser.cpp:1017-1040, parseWhenStatement: it expects [loop] *)
  Definition z_when (ts : list tk) : pres stmt :=
    ptry (parse_expression ts) (fun c r =>
      match r with
      | KLoop :: r1 =>
          ptry (block Q end_stop n [] r1) (fun b r2 =>
            match r2 with
            | KEnd :: KWhen :: r3 => ret (ZWhen c b) r3
            | _ => Ok None
            end)
      | _ => Ok None
      end).
  (** Parser.cpp:634-658: several destinations *)
  Definition z_tuple (ts : list tk) : pres stmt :=
    ptry (r_outputs ts) (fun l r =>
      match r with
      | KRPar :: KAssignOp :: r1 =>
          ptry (r_reference r1) (fun f r2 =>
          ptry (r_callArgs r2) (fun args r3 => ret (ZAssign l (XCall f args)) r3))
      | _ => Ok None
      end).
  (** Parser.cpp:660-689: a call, or one destination, which
      lib/AST/BaseModelica/AssignmentStatement.cpp:43-54 makes a tuple *)
  Definition z_reference (ts : list tk) : pres stmt :=
    ptry (r_reference ts) (fun f r =>
      match r with
      | KLPar :: r1 =>
          ptry (r_arguments r1) (fun args r2 =>
            match r2 with
            | KRPar :: r3 => ret (ZCall (XCall f args)) r3
            | _ => Ok None
            end)
      | KAssignOp :: r1 => ptry (parse_expression r1) (fun e r2 => ret (ZAssign [f] e) r2)
      | _ => Ok None
      end).
  (** Parser.cpp:601-690, parseStatement *)
  Definition z_statement (ts : list tk) : pres stmt :=
    match ts with
    | KIf :: r => z_if r
    | KFor :: r => z_for r
    | KWhile :: r => z_while r
    | KWhen :: r => z_when r
    | KBreak :: r => ret ZBreak r
    | KReturn :: r => ret ZReturn r
    | KLPar :: r => z_tuple r
    | _ => z_reference ts
    end.
End Statement.
Fixpoint statement_fuel (n : nat) (ts : list tk) : pres stmt :=
  match n with
  | O => NoFuel
  | S n' => z_statement (statement_fuel n') n ts
  end.
Definition parse_statement (ts : list tk) : pres stmt := statement_fuel (S (List.length ts)) ts.
