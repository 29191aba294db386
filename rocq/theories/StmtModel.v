(** * Statements of a function: their lowering and their control-flow graph

    Models [lib/Codegen/Lowering/BaseModelica/{Statement,Assignment,If,For,
    While,Break,Return}StatementLowerer.cpp], [AlgorithmLowerer.cpp] and
    [lib/Codegen/Conversion/BaseModelicaToCF/BaseModelicaToCF.cpp].

    Simplifications.  An expression is the list of the names it reads and a
    function of their values that may fail (how an expression computes is the
    subject of [ArithModel.v]); variables and indices hold integers, a
    condition holds when its value is not zero.  Subscripted destinations,
    destinations with a path, several destinations, calls without destinations
    and [when] statements (which the code answers with [llvm_unreachable]) are
    left out, and so is the creation of the variables
    ([createVariable], BaseModelicaToCF.cpp:258-299). *)
From Coq Require Import ZArith List Bool Lia.
From Verif Require Import Result.
Import ListNotations.
Local Open Scope Z_scope.

(** ** The tree the lowering reads
    ([include/marco/AST/BaseModelica/*Statement.h]). *)

(** An expression of the source. *)
Record sexp := SE { reads : list nat; value_of : list Z -> option Z }.

(** Statements, blocks of statements ([StatementsBlock]) and what follows the
    first block of an [if]: nothing, [else], or [elseif] and what follows it.
    A [for] has a list of indices, each with the arguments of its range in the
    order they are written (Parser.cpp:1066-1090). *)
Inductive stmt : Type :=
| SAssign (x : nat) (e : sexp)
| SIf (c : sexp) (th : block) (el : alt)
| SFor (ix : list (nat * list sexp)) (body : block)
| SWhile (c : sexp) (body : block)
| SBreak
| SReturn
with block : Type :=
| BNil
| BCons (s : stmt) (b : block)
with alt : Type :=
| ANone
| AElse (b : block)
| AElseIf (c : sexp) (b : block) (a : alt).

(** ** The operations the lowering creates ([Ops.td]) *)

(** What a name stands for: a variable of the function
    ([Reference::variable]) or the value loaded from the storage of a loop
    index ([Reference::ssa], ForStatementLowerer.cpp:98-102).  The body loads
    the index once, at its start, and only the step of the loop stores to it,
    so reading the storage at the point of use is the same. *)
Inductive ref := RVar (x : nat) | RSlot (k : nat).

Record lexp := LE { lreads : list ref; lvalue : list Z -> option Z }.

(** A block of operations, as the sequence it is.  [OFor k hi body st] is a
    [ForOp] with the condition [load k <= hi], and the step
    [store (load k + st) k]; the flag of [OIf] says whether the [IfOp] has an
    else region. *)
Inductive ops : Type :=
| ONil
| OSet (x : nat) (e : lexp) (rest : ops)
| OStore (k : nat) (e : lexp) (rest : ops)
| OIf (c : lexp) (th : ops) (has : bool) (el : ops) (rest : ops)
| OFor (k : nat) (hi : lexp) (body : ops) (st : lexp) (rest : ops)
| OWhile (c : lexp) (body : ops) (rest : ops)
| OBreak (rest : ops)
| OReturn (rest : ops)
| OYield (rest : ops).

(** Inserting operations at the end of a block. *)
Fixpoint oapp (a b : ops) : ops :=
  match a with
  | ONil => b
  | OSet x e r => OSet x e (oapp r b)
  | OStore k e r => OStore k e (oapp r b)
  | OIf c th h el r => OIf c th h el (oapp r b)
  | OFor k hi bd st r => OFor k hi bd st (oapp r b)
  | OWhile c bd r => OWhile c bd (oapp r b)
  | OBreak r => OBreak (oapp r b)
  | OReturn r => OReturn (oapp r b)
  | OYield r => OYield (oapp r b)
  end.

(** [hasTrait<IsTerminator>] of the last operation
    (ForStatementLowerer.cpp:111-115, WhileStatementLowerer.cpp:53-57); the
    trait is that of [BreakOp], [ReturnOp], [YieldOp] in Ops.td. *)
Fixpoint ends_in_terminator (o : ops) : bool :=
  match o with
  | ONil => false
  | OSet _ _ r | OStore _ _ r | OIf _ _ _ _ r | OFor _ _ _ _ r
  | OWhile _ _ r => ends_in_terminator r
  | OBreak r | OReturn r | OYield r =>
      match r with ONil => true | _ => ends_in_terminator r end
  end.

Definition add_yield (o : ops) : ops :=
  if ends_in_terminator o then o else oapp o (OYield ONil).

(** ** Lowering *)

(** The innermost loop index of that name, or else the variable
    ([lookupVariable]); a name that is neither is reported
    ([emitUndeclaredVariableError]). *)
Fixpoint lookup_index (sc : list (nat * nat)) (x : nat) : option nat :=
  match sc with
  | [] => None
  | (y, k) :: sc' => if Nat.eqb x y then Some k else lookup_index sc' x
  end.

Definition lookup_name (dec : list nat) (sc : list (nat * nat)) (x : nat) : res ref :=
  match lookup_index sc x with
  | Some k => Ok (RSlot k)
  | None => if existsb (Nat.eqb x) dec then Ok (RVar x) else Bad
  end.

Fixpoint lookup_names dec sc (l : list nat) : res (list ref) :=
  match l with
  | [] => Ok []
  | x :: l' =>
      r <- lookup_name dec sc x ;;
      rs <- lookup_names dec sc l' ;;
      Ok (r :: rs)
  end.

Definition lower_exp dec sc (e : sexp) : res lexp :=
  rs <- lookup_names dec sc (reads e) ;; Ok (LE rs (value_of e)).

(** The literal 1 of a range without a step (ForStatementLowerer.cpp:136-138). *)
Definition one_exp : lexp := LE [] (fun _ => Some 1).

(** One [for] index (ForStatementLowerer.cpp:19-146): argument 0 is stored
    first, argument 1 is the bound of the condition and argument 2, when there
    is one, is the step. *)
Definition lower_range dec sc (r : list sexp) : res (lexp * lexp * lexp) :=
  match r with
  | [a0; a1] =>
      lo <- lower_exp dec sc a0 ;;
      hi <- lower_exp dec sc a1 ;;
      Ok (lo, hi, one_exp)
  | [a0; a1; a2] =>
      lo <- lower_exp dec sc a0 ;;
      hi <- lower_exp dec sc a1 ;;
      st <- lower_exp dec sc a2 ;;
      Ok (lo, hi, st)
  | _ => Bad
  end.

(** [StatementLowerer::lower] and the lowerers it calls; the number is the
    next free storage of an index ([AllocaOp], ForStatementLowerer.cpp:35-37).
    The order in which operations are created inside a region does not show;
    the code lowers the step of a loop after its body. *)
Fixpoint lower_stmt (dec : list nat) (sc : list (nat * nat)) (k : nat) (s : stmt)
  {struct s} : res (ops * nat) :=
  match s with
  | SAssign x e =>
      (* AssignmentStatementLowerer.cpp:12-37, 76-90; assigning to a loop index
         is [llvm_unreachable] (Reference.cpp:53-56) *)
      le <- lower_exp dec sc e ;;
      r <- lookup_name dec sc x ;;
      match r with
      | RVar y => Ok (OSet y le ONil, k)
      | RSlot _ => Bad
      end
  | SIf c th el =>
      (* IfStatementLowerer.cpp:11-65 *)
      lc <- lower_exp dec sc c ;;
      t <- lower_block dec sc k th ;;
      e <- lower_alt dec sc (snd t) el ;;
      Ok (OIf lc (fst t) (fst (fst e)) (snd (fst e)) ONil, snd e)
  | SFor ix body =>
      (* ForStatementLowerer.cpp:12-150: one loop per index, one after the other *)
      (fix each (ix : list (nat * list sexp)) (k : nat) : res (ops * nat) :=
         match ix with
         | [] => Ok (ONil, k)
         | (x, r) :: ix' =>
             rg <- lower_range dec sc r ;;
             b <- lower_block dec ((x, k) :: sc) (S k) body ;;
             o <- each ix' (snd b) ;;
             Ok (OStore k (fst (fst rg))
                   (OFor k (snd (fst rg)) (add_yield (fst b)) (snd rg) (fst o)), snd o)
         end) ix k
  | SWhile c body =>
      (* WhileStatementLowerer.cpp:11-61 *)
      lc <- lower_exp dec sc c ;;
      b <- lower_block dec sc k body ;;
      Ok (OWhile lc (add_yield (fst b)) ONil, snd b)
  | SBreak => Ok (OBreak ONil, k)
  | SReturn => Ok (OReturn ONil, k)
  end
with lower_block (dec : list nat) (sc : list (nat * nat)) (k : nat) (b : block)
  {struct b} : res (ops * nat) :=
  match b with
  | BNil => Ok (ONil, k)
  | BCons s b' =>
      o <- lower_stmt dec sc k s ;;
      r <- lower_block dec sc (snd o) b' ;;
      Ok (oapp (fst o) (fst r), snd r)
  end
with lower_alt (dec : list nat) (sc : list (nat * nat)) (k : nat) (a : alt)
  {struct a} : res (bool * ops * nat) :=
  match a with
  | ANone => Ok (false, ONil, k)
  | AElse b => r <- lower_block dec sc k b ;; Ok (true, fst r, snd r)
  | AElseIf c b a' =>
      lc <- lower_exp dec sc c ;;
      t <- lower_block dec sc k b ;;
      e <- lower_alt dec sc (snd t) a' ;;
      Ok (true, OIf lc (fst t) (fst (fst e)) (snd (fst e)) ONil, snd e)
  end.

(** The verifier of MLIR on the operations just created: a terminator is the
    last operation of its block (trait [IsTerminator]). *)
Fixpoint placed (o : ops) : bool :=
  match o with
  | ONil => true
  | OSet _ _ r | OStore _ _ r => placed r
  | OIf _ th _ el r => placed th && placed el && placed r
  | OFor _ _ b _ r => placed b && placed r
  | OWhile _ b r => placed b && placed r
  | OBreak r | OReturn r | OYield r => match r with ONil => true | _ => false end
  end.

(** ** The control-flow graph *)

(** [ILeft] is an operation the conversion has left where it was: a structured
    operation that no later conversion accepts, or a terminator in the middle
    of a block. *)
Inductive instr := ISet (x : nat) (e : lexp) | IStore (k : nat) (e : lexp) | ILeft.

Inductive term := TBr (b : nat) | TCond (e : lexp) (b1 b2 : nat) | TRet.

Definition blk : Type := list instr * term.

(** [load k <= hi] (ForStatementLowerer.cpp:67-92) and [load k + st]
    (ForStatementLowerer.cpp:121-144). *)
Definition lte_exp (k : nat) (hi : lexp) : lexp :=
  LE (RSlot k :: lreads hi)
     (fun vs => match vs with
                | i :: r => match lvalue hi r with
                            | Some h => Some (if i <=? h then 1 else 0)
                            | None => None
                            end
                | [] => None
                end).

Definition add_exp (k : nat) (st : lexp) : lexp :=
  LE (RSlot k :: lreads st)
     (fun vs => match vs with
                | i :: r => match lvalue st r with
                            | Some h => Some (i + h)
                            | None => None
                            end
                | [] => None
                end).

(** A block no function recurs on. *)
Fixpoint raw (o : ops) : list instr :=
  match o with
  | ONil => []
  | OSet x e r => ISet x e :: raw r
  | OStore k e r => IStore k e :: raw r
  | OIf _ _ _ _ r | OFor _ _ _ _ r | OWhile _ _ r
  | OBreak r | OReturn r | OYield r => ILeft :: raw r
  end.

(** [recurse] and [createCFG] (BaseModelicaToCF.cpp:387-697), read as filling
    blocks: [cur] is the block being split, [pre] what it holds so far, [tl]
    the branch that has been put at the end of the block, [lx] the block a
    [break] goes to, [rx] the one a [return] goes to, [n] the next free block;
    [drop] says that a yield at the end of this block has been erased. *)
Fixpoint conv (o : ops) (cur : nat) (pre : list instr) (tl : term)
    (lx : option nat) (rx : nat) (drop : bool) (n : nat) : res (list (nat * blk) * nat) :=
  match o with
  | ONil => Ok ([(cur, (pre, tl))], n)
  | OSet x e r => conv r cur (pre ++ [ISet x e]) tl lx rx drop n
  | OStore k e r => conv r cur (pre ++ [IStore k e]) tl lx rx drop n
  | OYield r =>
      if drop && match r with ONil => true | _ => false end
      then conv r cur pre tl lx rx drop n
      else conv r cur (pre ++ [ILeft]) tl lx rx drop n
  | OBreak r =>
      (* 413-430 *)
      match lx with
      | None => Bad
      | Some b =>
          q <- conv r n [] tl lx rx drop (S n) ;;
          Ok ((cur, (pre, TBr b)) :: fst q, snd q)
      end
  | OReturn r =>
      (* 655-674 *)
      q <- conv r n [] tl lx rx drop (S n) ;;
      Ok ((cur, (pre, TBr rx)) :: fst q, snd q)
  | OIf c th has el r =>
      (* 519-595 *)
      let cont := n in
      let tb := S n in
      let eb := S (S n) in
      if has
      then
        q <- conv el eb [] (TBr cont) lx rx false (S (S (S n))) ;;
        p <- conv r cont [] tl lx rx drop (snd q) ;;
        Ok ((cur, (pre, TCond c tb eb)) :: (tb, (raw th, TBr cont)) :: fst q ++ fst p, snd p)
      else
        q <- conv th tb [] (TBr cont) lx rx false (S (S n)) ;;
        p <- conv r cont [] tl lx rx drop (snd q) ;;
        Ok ((cur, (pre, TCond c tb cont)) :: fst q ++ fst p, snd p)
  | OFor k hi body st r =>
      (* 432-517 *)
      let cont := n in
      let cb := S n in
      let bb := S (S n) in
      let sb := S (S (S n)) in
      q <- conv body bb [] (TBr sb) (Some cont) rx true (S (S (S (S n)))) ;;
      p <- conv r cont [] tl lx rx drop (snd q) ;;
      Ok ((cur, (pre, TBr cb)) :: (cb, ([], TCond (lte_exp k hi) bb cont))
            :: (sb, ([IStore k (add_exp k st)], TBr cb)) :: fst q ++ fst p, snd p)
  | OWhile c body r =>
      (* 597-653 *)
      let cont := n in
      let cb := S n in
      let bb := S (S n) in
      q <- conv body bb [] (TBr cb) (Some cont) rx false (S (S (S n))) ;;
      p <- conv r cont [] tl lx rx drop (snd q) ;;
      Ok ((cur, (pre, TBr cb)) :: (cb, ([], TCond c bb cont)) :: fst q ++ fst p, snd p)
  end.

(** The algorithms of a function (BaseModelicaToCF.cpp:212-233): each one ends
    by going to the next, the last one to the exit block. *)
Fixpoint conv_algs (algs : list ops) (cur exit n : nat) : res (list (nat * blk)) :=
  match algs with
  | [] => Ok []
  | a :: rest =>
      match rest with
      | [] => q <- conv a cur [] (TBr exit) None exit false n ;; Ok (fst q)
      | _ =>
          q <- conv a cur [] (TBr n) None exit false (S n) ;;
          p <- conv_algs rest n exit (snd q) ;;
          Ok (fst q ++ p)
      end
  end.

(** The algorithm sections of a function, one after the other
    (StandardFunctionLowerer.cpp, AlgorithmLowerer.cpp:11-33: an empty section
    creates nothing). *)
Fixpoint lower_algs dec (k : nat) (l : list block) : res (list ops) :=
  match l with
  | [] => Ok []
  | BNil :: l' => lower_algs dec k l'
  | b :: l' =>
      o <- lower_block dec [] k b ;;
      _ <- assert_ok (placed (fst o)) ;;
      r <- lower_algs dec (snd o) l' ;;
      Ok (fst o :: r)
  end.

(** Block 0 is the entry block and block 1 the exit block. *)
Definition convert (algs : list ops) : res (list (nat * blk)) :=
  match algs with
  | [] => Ok [(0%nat, ([], TBr 1)); (1%nat, ([], TRet))]
  | _ =>
      q <- conv_algs algs 2 1 3 ;;
      Ok ((0%nat, ([], TBr 2)) :: (1%nat, ([], TRet)) :: q)
  end.

Fixpoint find_blk (g : list (nat * blk)) (b : nat) : option blk :=
  match g with
  | [] => None
  | (c, x) :: g' => if Nat.eqb b c then Some x else find_blk g' b
  end.

(** The blocks that remain once the unreachable ones have been erased
    ([mlir::eraseUnreachableBlocks], BaseModelicaToCF.cpp:253): those found
    from the entry. *)
Definition succs (g : list (nat * blk)) (b : nat) : list nat :=
  match find_blk g b with
  | Some (_, TBr c) => [c]
  | Some (_, TCond _ c d) => [c; d]
  | _ => []
  end.

Fixpoint reach (g : list (nat * blk)) (fuel : nat) (l : list nat) : list nat :=
  match fuel with
  | O => l
  | S m => reach g m (nodup Nat.eq_dec (l ++ flat_map (succs g) l))
  end.

Definition converted (i : instr) : bool := match i with ILeft => false | _ => true end.

(** The verifier, and the conversions that follow: every operation left in a
    block that remains must be one they know. *)
Definition legal (g : list (nat * blk)) : bool :=
  let l := reach g (length g) [0%nat] in
  forallb (fun p => negb (existsb (Nat.eqb (fst p)) l)
                    || forallb converted (fst (snd p))) g.

(** From the sections of a function to its graph.  (The unreachable blocks are
    kept in the result; no run meets them.) *)
Definition compile (dec : list nat) (algs : list block) : res (list (nat * blk)) :=
  o <- lower_algs dec 0 algs ;;
  g <- convert o ;;
  _ <- assert_ok (legal g) ;;
  Ok g.

(** ** Running the graph *)

Record istate := IS { vars : nat -> Z; slots : nat -> Z }.

Definition upd (f : nat -> Z) (x : nat) (v : Z) : nat -> Z :=
  fun y => if Nat.eqb y x then v else f y.

Definition read (s : istate) (r : ref) : Z :=
  match r with RVar x => vars s x | RSlot k => slots s k end.

Definition leval (s : istate) (e : lexp) : option Z := lvalue e (map (read s) (lreads e)).

(** One transition: the instructions and the branch still to run, and the
    state. *)
Definition conf : Type := blk * istate.

Definition goto (g : list (nat * blk)) (b : nat) (s : istate) : option conf :=
  match find_blk g b with Some x => Some (x, s) | None => None end.

Definition cstep (g : list (nat * blk)) (c : conf) : option conf :=
  let '((is, t), s) := c in
  match is with
  | ISet x e :: is' =>
      match leval s e with
      | Some v => Some ((is', t), IS (upd (vars s) x v) (slots s))
      | None => None
      end
  | IStore k e :: is' =>
      match leval s e with
      | Some v => Some ((is', t), IS (vars s) (upd (slots s) k v))
      | None => None
      end
  | ILeft :: _ => None
  | [] =>
      match t with
      | TBr b => goto g b s
      | TCond e b1 b2 =>
          match leval s e with
          | Some v => goto g (if Z.eqb v 0 then b2 else b1) s
          | None => None
          end
      | TRet => None
      end
  end.

(** A run from the entry block to the return: the variables it leaves. *)
Fixpoint crun (g : list (nat * blk)) (fuel : nat) (c : conf) : res istate :=
  match fuel with
  | O => NoFuel
  | S m =>
      match c with
      | (([], TRet), s) => Ok s
      | _ => match cstep g c with Some c' => crun g m c' | None => Bad end
      end
  end.

Definition run_function (g : list (nat * blk)) (fuel : nat) (st : nat -> Z) : res (nat -> Z) :=
  match find_blk g 0 with
  | Some b => s <- crun g fuel (b, IS st (fun _ => 0)) ;; Ok (vars s)
  | None => Bad
  end.
