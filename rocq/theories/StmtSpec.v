(** * What the statements of a function mean

    The language's own account: a statement changes the variables, and goes on,
    or leaves the enclosing loop, or leaves the function.  The values of a loop
    index are those of its range, evaluated once, when the loop is reached.
    Only the syntax of [StmtModel.v] is used. *)
From Coq Require Import ZArith List Bool Lia.
From Verif Require Import StmtModel.
Import ListNotations.
Local Open Scope Z_scope.

Inductive outcome := Normal | Breaking | Returning.

(** Variables, and the indices of the enclosing loops, the innermost first. *)
Definition store := nat -> Z.
Definition indices := list (nat * Z).

Definition set (st : store) (x : nat) (v : Z) : store :=
  fun y => if Nat.eqb y x then v else st y.

Fixpoint name_value (ix : indices) (st : store) (x : nat) : Z :=
  match ix with
  | [] => st x
  | (y, v) :: ix' => if Nat.eqb x y then v else name_value ix' st x
  end.

Definition value (ix : indices) (st : store) (e : sexp) : option Z :=
  value_of e (map (name_value ix st) (reads e)).

Fixpoint values (ix : indices) (st : store) (l : list sexp) : option (list Z) :=
  match l with
  | [] => Some []
  | e :: l' =>
      match value ix st e, values ix st l' with
      | Some v, Some vs => Some (v :: vs)
      | _, _ => None
      end
  end.

(** [first, first + step, ...], [n] values. *)
Fixpoint progression (first step : Z) (n : nat) : list Z :=
  match n with O => [] | S m => first :: progression (first + step) step m end.

(** [first : last] and [first : step : last]. *)
Definition range_values (l : list Z) : option (list Z) :=
  match l with
  | [first; last] => Some (progression first 1 (Z.to_nat (last - first + 1)))
  | [first; step; last] =>
      if Z.eqb step 0 then None
      else Some (progression first step (Z.to_nat ((last - first) / step + 1)))
  | _ => None
  end.

Inductive exec_stmt : indices -> store -> stmt -> store -> outcome -> Prop :=
| E_assign ix st x e v :
    value ix st e = Some v ->
    exec_stmt ix st (SAssign x e) (set st x v) Normal
| E_if_true ix st c th el v st' o :
    value ix st c = Some v -> v <> 0 ->
    exec_block ix st th st' o ->
    exec_stmt ix st (SIf c th el) st' o
| E_if_false ix st c th el st' o :
    value ix st c = Some 0 ->
    exec_alt ix st el st' o ->
    exec_stmt ix st (SIf c th el) st' o
| E_for ix st l body st' o :
    exec_for ix st l body st' o ->
    exec_stmt ix st (SFor l body) st' o
| E_while_done ix st c body :
    value ix st c = Some 0 ->
    exec_stmt ix st (SWhile c body) st Normal
| E_while_again ix st c body v st1 st' o :
    value ix st c = Some v -> v <> 0 ->
    exec_block ix st body st1 Normal ->
    exec_stmt ix st1 (SWhile c body) st' o ->
    exec_stmt ix st (SWhile c body) st' o
| E_while_break ix st c body v st1 :
    value ix st c = Some v -> v <> 0 ->
    exec_block ix st body st1 Breaking ->
    exec_stmt ix st (SWhile c body) st1 Normal
| E_while_return ix st c body v st1 :
    value ix st c = Some v -> v <> 0 ->
    exec_block ix st body st1 Returning ->
    exec_stmt ix st (SWhile c body) st1 Returning
| E_break ix st : exec_stmt ix st SBreak st Breaking
| E_return ix st : exec_stmt ix st SReturn st Returning
with exec_block : indices -> store -> block -> store -> outcome -> Prop :=
| E_nil ix st : exec_block ix st BNil st Normal
| E_cons ix st s b st1 st' o :
    exec_stmt ix st s st1 Normal ->
    exec_block ix st1 b st' o ->
    exec_block ix st (BCons s b) st' o
| E_leave ix st s b st1 o :
    exec_stmt ix st s st1 o -> o <> Normal ->
    exec_block ix st (BCons s b) st1 o
with exec_alt : indices -> store -> alt -> store -> outcome -> Prop :=
| E_none ix st : exec_alt ix st ANone st Normal
| E_else ix st b st' o :
    exec_block ix st b st' o -> exec_alt ix st (AElse b) st' o
| E_elseif_true ix st c b a v st' o :
    value ix st c = Some v -> v <> 0 ->
    exec_block ix st b st' o ->
    exec_alt ix st (AElseIf c b a) st' o
| E_elseif_false ix st c b a st' o :
    value ix st c = Some 0 ->
    exec_alt ix st a st' o ->
    exec_alt ix st (AElseIf c b a) st' o
(** Several indices are loops inside one another. *)
with exec_for : indices -> store -> list (nat * list sexp) -> block -> store -> outcome -> Prop :=
| E_innermost ix st body st' o :
    exec_block ix st body st' o -> exec_for ix st [] body st' o
| E_index ix st x r l body rv vs st' o :
    values ix st r = Some rv ->
    range_values rv = Some vs ->
    exec_iter ix st x vs l body st' o ->
    exec_for ix st ((x, r) :: l) body st' o
with exec_iter : indices -> store -> nat -> list Z -> list (nat * list sexp) -> block ->
                 store -> outcome -> Prop :=
| E_over ix st x l body : exec_iter ix st x [] l body st Normal
| E_again ix st x v vs l body st1 st' o :
    exec_for ((x, v) :: ix) st l body st1 Normal ->
    exec_iter ix st1 x vs l body st' o ->
    exec_iter ix st x (v :: vs) l body st' o
| E_broken ix st x v vs l body st1 :
    exec_for ((x, v) :: ix) st l body st1 Breaking ->
    exec_iter ix st x (v :: vs) l body st1 Normal
| E_returned ix st x v vs l body st1 :
    exec_for ((x, v) :: ix) st l body st1 Returning ->
    exec_iter ix st x (v :: vs) l body st1 Returning.

(** The sections of a function, in order; [return] ends the function. *)
Inductive exec_function : store -> list block -> store -> Prop :=
| F_end st : exec_function st [] st
| F_next st b l st1 st' :
    exec_block [] st b st1 Normal -> exec_function st1 l st' -> exec_function st (b :: l) st'
| F_return st b l st1 :
    exec_block [] st b st1 Returning -> exec_function st (b :: l) st1.

(** ** The statements for which the claim is made *)

(** The variables a statement assigns. *)
Fixpoint assigned (s : stmt) : list nat :=
  match s with
  | SAssign x _ => [x]
  | SIf _ th el => assigned_block th ++ assigned_alt el
  | SFor _ b => assigned_block b
  | SWhile _ b => assigned_block b
  | SBreak | SReturn => []
  end
with assigned_block (b : block) : list nat :=
  match b with BNil => [] | BCons s b' => assigned s ++ assigned_block b' end
with assigned_alt (a : alt) : list nat :=
  match a with
  | ANone => []
  | AElse b => assigned_block b
  | AElseIf _ b a' => assigned_block b ++ assigned_alt a'
  end.

(** A block of assignments. *)
Fixpoint straight (b : block) : Prop :=
  match b with
  | BNil => True
  | BCons (SAssign _ _) b' => straight b'
  | BCons _ _ => False
  end.

(** Statements other than assignments, and blocks with one of them. *)
Definition control (s : stmt) : Prop :=
  match s with
  | SAssign _ _ => False
  | SFor l _ => l <> []
  | SIf _ _ _ | SWhile _ _ | SBreak | SReturn => True
  end.

Fixpoint block_control (b : block) : Prop :=
  match b with BNil => False | BCons s b' => control s \/ block_control b' end.

(** The last statement of the block is a [break] or a [return]. *)
Fixpoint leaves (b : block) : Prop :=
  match b with
  | BNil => False
  | BCons SBreak BNil | BCons SReturn BNil => True
  | BCons _ b' => leaves b'
  end.

(** The names an expression reads are variables of the function or indices of
    enclosing loops. *)
Definition names_ok (dec : list nat) (ix : list nat) (e : sexp) : Prop :=
  forall x, In x (reads e) -> In x ix \/ In x dec.

(** [dec] are the variables of the function, [ix] the indices of the enclosing
    loops, [lp] tells whether there is an enclosing loop.  What is asked:
    names are declared and indices not assigned, as the language requires, a
    [break] is inside a loop; and, beyond what the language requires, a [break]
    or a [return] ends its block, a [for] has one index and a range without a
    step whose bound reads no variable the body assigns, a [while] ends in a
    [break] or a [return], and the first block of an [if] that has an
    alternative holds only assignments. *)
Fixpoint covered_stmt (dec ix : list nat) (lp : bool) (s : stmt) : Prop :=
  match s with
  | SAssign x e => In x dec /\ ~ In x ix /\ names_ok dec ix e
  | SIf c th el =>
      names_ok dec ix c /\ covered_block dec ix lp th /\ covered_alt dec ix lp el /\
      (el <> ANone -> straight th)
  | SFor l b =>
      exists x lo hi, l = [(x, [lo; hi])] /\
        names_ok dec ix lo /\ names_ok dec ix hi /\
        (forall y, In y (reads hi) -> ~ In y ix -> ~ In y (assigned_block b)) /\
        covered_block dec (x :: ix) true b
  | SWhile c b => names_ok dec ix c /\ covered_block dec ix true b /\ leaves b
  | SBreak => lp = true
  | SReturn => True
  end
with covered_block (dec ix : list nat) (lp : bool) (b : block) : Prop :=
  match b with
  | BNil => True
  | BCons s b' =>
      covered_stmt dec ix lp s /\ covered_block dec ix lp b' /\
      (s = SBreak \/ s = SReturn -> b' = BNil)
  end
with covered_alt (dec ix : list nat) (lp : bool) (a : alt) : Prop :=
  match a with
  | ANone => True
  | AElse b => covered_block dec ix lp b
  | AElseIf c b a' =>
      names_ok dec ix c /\ covered_block dec ix lp b /\ covered_alt dec ix lp a' /\
      (a' <> ANone -> straight b)
  end.

(** ** The structured operations, by themselves

    What a block of operations means, before it is turned into a graph: the
    regions of [IfOp], [ForOp] and [WhileOp] run as their names say. *)
Inductive run_ops : istate -> ops -> istate -> outcome -> Prop :=
| R_nil s : run_ops s ONil s Normal
| R_set s x e r v s' o :
    leval s e = Some v ->
    run_ops (IS (set (vars s) x v) (slots s)) r s' o ->
    run_ops s (OSet x e r) s' o
| R_store s k e r v s' o :
    leval s e = Some v ->
    run_ops (IS (vars s) (set (slots s) k v)) r s' o ->
    run_ops s (OStore k e r) s' o
| R_if s c th (has : bool) el r v s1 o1 s' o :
    leval s c = Some v ->
    run_ops s (if Z.eqb v 0 then (if has then el else ONil) else th) s1 o1 ->
    run_then s1 o1 r s' o ->
    run_ops s (OIf c th has el r) s' o
| R_for s k hi body st r s1 o1 s' o :
    run_for s k hi body st s1 o1 ->
    run_then s1 o1 r s' o ->
    run_ops s (OFor k hi body st r) s' o
| R_while s c body r s1 o1 s' o :
    run_while s c body s1 o1 ->
    run_then s1 o1 r s' o ->
    run_ops s (OWhile c body r) s' o
| R_break s r : run_ops s (OBreak r) s Breaking
| R_return s r : run_ops s (OReturn r) s Returning
| R_yield s : run_ops s (OYield ONil) s Normal
with run_then : istate -> outcome -> ops -> istate -> outcome -> Prop :=
| R_go s r s' o : run_ops s r s' o -> run_then s Normal r s' o
| R_stop s o r : o <> Normal -> run_then s o r s o
with run_for : istate -> nat -> lexp -> ops -> lexp -> istate -> outcome -> Prop :=
| R_for_done s k hi body st h :
    leval s hi = Some h -> h < slots s k ->
    run_for s k hi body st s Normal
| R_for_again s k hi body st h s1 d s' o :
    leval s hi = Some h -> slots s k <= h ->
    run_ops s body s1 Normal ->
    leval s1 st = Some d ->
    run_for (IS (vars s1) (set (slots s1) k (slots s1 k + d))) k hi body st s' o ->
    run_for s k hi body st s' o
| R_for_break s k hi body st h s1 :
    leval s hi = Some h -> slots s k <= h ->
    run_ops s body s1 Breaking ->
    run_for s k hi body st s1 Normal
| R_for_return s k hi body st h s1 :
    leval s hi = Some h -> slots s k <= h ->
    run_ops s body s1 Returning ->
    run_for s k hi body st s1 Returning
with run_while : istate -> lexp -> ops -> istate -> outcome -> Prop :=
| R_while_done s c body : leval s c = Some 0 -> run_while s c body s Normal
| R_while_again s c body v s1 s' o :
    leval s c = Some v -> v <> 0 ->
    run_ops s body s1 Normal ->
    run_while s1 c body s' o ->
    run_while s c body s' o
| R_while_break s c body v s1 :
    leval s c = Some v -> v <> 0 ->
    run_ops s body s1 Breaking ->
    run_while s c body s1 Normal
| R_while_return s c body v s1 :
    leval s c = Some v -> v <> 0 ->
    run_ops s body s1 Returning ->
    run_while s c body s1 Returning.

Inductive run_algs : istate -> list ops -> istate -> Prop :=
| A_end s : run_algs s [] s
| A_next s a l s1 s' :
    run_ops s a s1 Normal -> run_algs s1 l s' -> run_algs s (a :: l) s'
| A_return s a l s1 : run_ops s a s1 Returning -> run_algs s (a :: l) s1.

(** Only assignments. *)
Fixpoint only_sets (o : ops) : Prop :=
  match o with
  | ONil => True
  | OSet _ _ r | OStore _ _ r => only_sets r
  | _ => False
  end.

(** What is asked of the operations: a [break] is inside a loop, a yield ends
    the body of a [for], and the then region of an [IfOp] with an else region
    only sets variables. *)
Fixpoint covered_ops (lp fb : bool) (o : ops) : Prop :=
  match o with
  | ONil => True
  | OSet _ _ r | OStore _ _ r => covered_ops lp fb r
  | OIf _ th has el r =>
      (if has then only_sets th /\ covered_ops lp false el else covered_ops lp false th)
      /\ covered_ops lp fb r
  | OFor _ _ b _ r => covered_ops true true b /\ covered_ops lp fb r
  | OWhile _ b r => covered_ops true false b /\ covered_ops lp fb r
  | OBreak r => lp = true /\ covered_ops lp fb r
  | OReturn r => covered_ops lp fb r
  | OYield r => fb = true /\ r = ONil
  end.

(** The sections of a function, as statements and as operations. *)
Definition covered_function (dec : list nat) (algs : list block) : Prop :=
  Forall (covered_block dec [] false) algs.

Definition covered_algs (algs : list ops) : Prop := Forall (covered_ops false false) algs.
