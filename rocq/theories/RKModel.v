(** Model of the Runge-Kutta pass and of the forward Euler pass.

    /repo/lib/Dialect/BaseModelica/Transforms/RungeKutta.cpp
    /repo/lib/Dialect/BaseModelica/Transforms/EulerForward.cpp

    Simplifications that hold for the whole file:
    - the [double] constants of the tableaux are exact rationals, and the
      generated code computes on the reals: rounding is not modelled;
    - a ranged equation is the list of its scalar instances, one for each point
      of its indices, and an affine access is a function on points;
    - the right-hand side of the explicit form of an equation (the result of
      [cloneAndExplicitate]) is a function of the time, of the values of the
      variables and of the induction variables;
    - a failure of the pass ([mlir::failure]) is [Ok None]; a violated
      assertion or an access out of the bounds of a vector is [Bad]. *)
From Coq Require Import String Bool ZArith QArith Qreals Reals List.
From Verif Require Import Result.
Import ListNotations.
Local Open Scope nat_scope.
Local Open Scope list_scope.

(** ** The tableau *)

(** RungeKutta.cpp:31-98, the members of [ButcherTableau]. *)
Record tableau := mk_tableau {
  t_rows : nat;
  t_columns : nat;
  t_coefficients : list Q;
  t_weights : list Q;
  t_adaptive : list Q;
  t_nodes : list Q
}.

(** RungeKutta.cpp:344-352, the constructor. *)
Definition new_tableau (rows columns : nat) : res tableau :=
  _ <- assert_ok (0 <? rows) ;;
  _ <- assert_ok (0 <? columns) ;;
  Ok (mk_tableau rows columns (repeat 0%Q (rows * columns)) (repeat 0%Q columns)
        (repeat 0%Q columns) (repeat 0%Q rows)).

(** RungeKutta.cpp:358-362, [getCoefficient]. *)
Definition get_coefficient (tb : tableau) (row column : nat) : res Q :=
  _ <- assert_ok ((1 <=? row) && (row <=? t_rows tb)) ;;
  _ <- assert_ok ((1 <=? column) && (column <=? t_columns tb)) ;;
  of_option (nth_error (t_coefficients tb)
               ((row - 1) * t_columns tb + (column - 1))).

(** The comparison of a [double] with zero. *)
Definition is_zero (q : Q) : bool := Qeq_bool q 0.

(** RungeKutta.cpp:364-372, the loop of [hasNonZeroOrderCoefficients] from
    column [i] on, [n] iterations to go. *)
Fixpoint has_nonzero_from (tb : tableau) (row i n : nat) : res bool :=
  match n with
  | O => Ok false
  | S n' =>
      q <- get_coefficient tb row i ;;
      if negb (is_zero q) then Ok true else has_nonzero_from tb row (S i) n'
  end.

(** RungeKutta.cpp:364-372. *)
Definition has_nonzero_coefficients (tb : tableau) (row : nat) : res bool :=
  has_nonzero_from tb row 1 (t_columns tb).

(** RungeKutta.cpp:374-378. *)
Definition set_coefficients (tb : tableau) (l : list Q) : res tableau :=
  _ <- assert_ok (Nat.eqb (length l) (t_rows tb * t_columns tb)) ;;
  Ok (mk_tableau (t_rows tb) (t_columns tb) l (t_weights tb) (t_adaptive tb)
        (t_nodes tb)).

(** RungeKutta.cpp:380-383. *)
Definition get_weight (tb : tableau) (column : nat) : res Q :=
  _ <- assert_ok ((1 <=? column) && (column <=? t_columns tb)) ;;
  of_option (nth_error (t_weights tb) (column - 1)).

(** RungeKutta.cpp:385-389. *)
Definition set_weights (tb : tableau) (l : list Q) : res tableau :=
  _ <- assert_ok (Nat.eqb (length l) (t_columns tb)) ;;
  Ok (mk_tableau (t_rows tb) (t_columns tb) (t_coefficients tb) l (t_adaptive tb)
        (t_nodes tb)).

(** RungeKutta.cpp:391-394. *)
Definition is_adaptive (tb : tableau) : bool :=
  existsb (fun w => negb (is_zero w)) (t_adaptive tb).

(** RungeKutta.cpp:396-399. *)
Definition get_adaptive_weight (tb : tableau) (column : nat) : res Q :=
  _ <- assert_ok ((1 <=? column) && (column <=? t_columns tb)) ;;
  of_option (nth_error (t_adaptive tb) (column - 1)).

(** RungeKutta.cpp:401-406. *)
Definition set_adaptive_weights (tb : tableau) (l : list Q) : res tableau :=
  _ <- assert_ok (Nat.eqb (length l) (t_columns tb)) ;;
  Ok (mk_tableau (t_rows tb) (t_columns tb) (t_coefficients tb) (t_weights tb) l
        (t_nodes tb)).

(** RungeKutta.cpp:408-411. *)
Definition get_node (tb : tableau) (row : nat) : res Q :=
  _ <- assert_ok ((1 <=? row) && (row <=? t_rows tb)) ;;
  of_option (nth_error (t_nodes tb) (row - 1)).

(** RungeKutta.cpp:413-417. *)
Definition set_nodes (tb : tableau) (l : list Q) : res tableau :=
  _ <- assert_ok (Nat.eqb (length l) (t_rows tb)) ;;
  Ok (mk_tableau (t_rows tb) (t_columns tb) (t_coefficients tb) (t_weights tb)
        (t_adaptive tb) l).

(** The three calls every factory ends with; the factories without an embedded
    method do not call [setAdaptiveWeights]. *)
Definition fill (rows columns : nat) (a c b : list Q) : res tableau :=
  tb <- new_tableau rows columns ;;
  tb <- set_coefficients tb a ;;
  tb <- set_nodes tb c ;;
  set_weights tb b.

Local Open Scope Q_scope.

(** RungeKutta.cpp:103-115. *)
Definition euler_forward : res tableau := fill 1 1 [0] [0] [1].

(** RungeKutta.cpp:117-141. *)
Definition rk4 : res tableau :=
  fill 4 4
    [0;   0;   0; 0;
     1#2; 0;   0; 0;
     0;   1#2; 0; 0;
     0;   0;   1; 0]
    [0; 1#2; 1#2; 1] [1#6; 1#3; 1#3; 1#6].

(** RungeKutta.cpp:143-163. *)
Definition generic_midpoint (alpha : Q) : res tableau :=
  fill 2 2
    [0;     0;
     alpha; 0]
    [0; alpha] [1 - 1 / (2 * alpha); 1 / (2 * alpha)].

(** RungeKutta.cpp:165-167. *)
Definition midpoint : res tableau := generic_midpoint (1#2).

(** RungeKutta.cpp:169-171. *)
Definition heun : res tableau := generic_midpoint 1.

(** RungeKutta.cpp:173-175. *)
Definition ralston : res tableau := generic_midpoint (2#3).

(** RungeKutta.cpp:177-199. *)
Definition heun_euler : res tableau :=
  tb <- fill 2 2
    [0; 0;
     1; 0]
    [0; 1] [1#2; 1#2] ;;
  set_adaptive_weights tb [1; 0].

(** RungeKutta.cpp:201-227. *)
Definition bogacki_shampine : res tableau :=
  tb <- fill 4 4
    [0;   0;   0;   0;
     1#2; 0;   0;   0;
     0;   3#4; 0;   0;
     2#9; 1#3; 4#9; 0]
    [0; 1#2; 3#4; 1] [2#9; 1#3; 4#9; 0] ;;
  set_adaptive_weights tb [7#24; 1#4; 1#3; 1#8].

(** RungeKutta.cpp:229-259. *)
Definition fehlberg : res tableau :=
  tb <- fill 6 6
    [0;         0;             0;             0;            0;        0;
     1#4;       0;             0;             0;            0;        0;
     3#32;      9#32;          0;             0;            0;        0;
     1932#2197; (-7200)#2197;  7296#2197;     0;            0;        0;
     439#216;   -(8);          3680#513;      (-845)#4104;  0;        0;
     (-8)#27;   2;             (-3544)#2565;  1859#4104;    (-11)#40; 0]
    [0; 1#4; 3#8; 12#13; 1; 1#2]
    [16#135; 0; 6656#12825; 28561#56430; (-9)#50; 2#55] ;;
  set_adaptive_weights tb [25#216; 0; 1408#2565; 2197#4104; (-1)#5; 0].

(** RungeKutta.cpp:261-291. *)
Definition cash_karp : res tableau :=
  tb <- fill 6 6
    [0;          0;       0;         0;            0;        0;
     1#5;        0;       0;         0;            0;        0;
     3#40;       9#40;    0;         0;            0;        0;
     3#10;       (-9)#10; 6#5;       0;            0;        0;
     (-11)#54;   5#2;     (-70)#27;  35#27;        0;        0;
     1631#55296; 175#512; 575#13824; 44275#110592; 253#4096; 0]
    [0; 1#5; 3#10; 3#5; 1; 7#8]
    [37#378; 0; 250#521; 125#594; 0; 512#1771] ;;
  set_adaptive_weights tb
    [2825#27648; 0; 18575#48384; 13535#55296; 277#14336; 1#4].

(** RungeKutta.cpp:293-325. *)
Definition dormand_prince : res tableau :=
  tb <- fill 7 7
    [0;          0;              0;          0;          0;             0;     0;
     1#5;        0;              0;          0;          0;             0;     0;
     3#40;       9#40;           0;          0;          0;             0;     0;
     44#45;      (-56)#15;       32#9;       0;          0;             0;     0;
     19372#6561; (-25360)#2187;  64448#6561; (-212)#729; 0;             0;     0;
     9017#3168;  (-355)#33;      46732#5247; 49#176;     (-5103)#18656; 0;     0;
     35#384;     0;              500#1113;   125#192;    (-2187)#6784;  11#84; 0]
    [0; 1#5; 3#10; 4#5; 8#9; 1; 1]
    [35#384; 0; 500#1113; 125#192; (-2187)#6784; 11#84; 0] ;;
  set_adaptive_weights tb
    [5179#57600; 0; 7571#16695; 393#640; (-92097)#339200; 187#2100; 1#40].

(** RungeKutta.cpp:327-342. *)
Definition euler_backward : res tableau := fill 1 1 [1] [1] [1].

Local Close Scope Q_scope.

(** RungeKutta.cpp:609-635, the choice of the tableau in [solveMainModel]. *)
Definition tableau_of (variant : string) : res tableau :=
  if String.eqb variant "euler-forward" then euler_forward
  else if String.eqb variant "rk4" then rk4
  else if String.eqb variant "midpoint" then midpoint
  else if String.eqb variant "heun" then heun
  else if String.eqb variant "ralston" then ralston
  else if String.eqb variant "heun-euler" then heun_euler
  else if String.eqb variant "bogacki-shampine" then bogacki_shampine
  else if String.eqb variant "fehlberg" then fehlberg
  else if String.eqb variant "cash-karp" then cash_karp
  else if String.eqb variant "dormand-prince" then dormand_prince
  else if String.eqb variant "euler-backward" then euler_backward
  else rk4.

(** ** The model being compiled *)

Definition point := list Z.

Definition point_eqb (p q : point) : bool :=
  if list_eq_dec Z.eq_dec p q then true else false.

(** An equation with its matched variable. [e_access] is the access to the
    matched variable, on the left of the explicit form; [e_rhs time values p]
    is the right-hand side at the point [p]; [e_reads p] lists the scalars it
    reads; [e_time] tells whether it contains a [TimeOp]. *)
Record equation := mk_equation {
  e_match : nat;
  e_indices : list point;
  e_access : point -> point;
  e_rhs : R -> (nat -> point -> R) -> point -> R;
  e_reads : point -> list (nat * point);
  e_time : bool
}.

Record scc := mk_scc { s_cycle : bool; s_equations : list equation }.

(** A model: its variables in order, each with its indices, and the
    derivatives map (the variable and its derivative). *)
Record model := mk_model {
  m_vars : list (nat * list point);
  m_ders : list (nat * nat)
}.

(** [DerivativesMap::getDerivative]. *)
Definition derivative (m : model) (x : nat) : option nat :=
  option_map snd (find (fun p => Nat.eqb (fst p) x) (m_ders m)).

(** [DerivativesMap::getDerivedVariable]. *)
Definition derived (m : model) (d : nat) : option nat :=
  option_map fst (find (fun p => Nat.eqb (snd p) d) (m_ders m)).

Definition is_some {A} (o : option A) : bool :=
  match o with Some _ => true | None => false end.

(** RungeKutta.cpp:676-683, the state variables in the order of the model. *)
Definition states (m : model) : list nat :=
  filter (fun x => is_some (derivative m x)) (map fst (m_vars m)).

(** RungeKutta.cpp:825-839: the variables the map of the future variables has
    an entry for. *)
Definition has_future (m : model) (v : nat) : bool :=
  existsb (fun x =>
             Nat.eqb x v ||
             match derivative m x with Some d => Nat.eqb d v | None => false end)
    (states m).

(** ** The generated equations *)

(** The variables of the generated code: those of the model, the ones holding
    the next value (RungeKutta.cpp:775-786), the slopes
    (RungeKutta.cpp:788-799) and the errors (RungeKutta.cpp:801-812). *)
Inductive rname :=
| Cur (v : nat)
| Fut (v : nat)
| Slope (v : nat) (i : nat)
| Err (v : nat).

Definition rvar := (rname * point)%type.

Definition rname_eq_dec (a b : rname) : {a = b} + {a <> b}.
Proof. decide equality; apply Nat.eq_dec. Defined.

Definition rvar_eq_dec (a b : rvar) : {a = b} + {a <> b}.
Proof.
  decide equality; [apply (list_eq_dec Z.eq_dec) | apply rname_eq_dec].
Defined.

(** The operations of the generated equations, at one point. [ECall] is the
    call of the function made from an equation: the time, the array passed for
    the state variable (the whole variable, or the variable with one element
    replaced), the induction variables. [EClone] is the right-hand side of an
    equation copied in place. *)
Inductive rexp :=
| EConst (q : Q)
| ETime
| EStep
| EGet (v : rvar)
| EAdd (a b : rexp)
| EMul (a b : rexp)
| ECall (m : model) (x : nat) (e : equation) (time : rexp)
    (own : option (point * rexp)) (p : point)
| EClone (m : model) (e : equation) (p : point).

(** A scalar equation of a generated schedule: the variable written and the
    expression. *)
Definition requation := (rvar * rexp)%type.

(** RungeKutta.cpp:1116-1150, 1289-1320 and 1418-1452: the three sums have the
    same loop, [coefficient i] being the constant of column [i]; [n] iterations
    to go. [slopes] are the names of the slope variables of the state. *)
Fixpoint sum_from (coefficient : nat -> res Q) (slopes : list rname) (ix : point)
    (i n : nat) (sum : rexp) : res rexp :=
  match n with
  | O => Ok sum
  | S n' =>
      q <- coefficient i ;;
      if is_zero q then sum_from coefficient slopes ix (S i) n' sum
      else
        k <- of_option (nth_error slopes (i - 1)) ;;
        sum_from coefficient slopes ix (S i) n'
          (EAdd sum (EMul (EConst q) (EGet (k, ix))))
  end.

Definition weighted_sum (coefficient : nat -> res Q) (slopes : list rname)
    (ix : point) (columns : nat) : res rexp :=
  sum_from coefficient slopes ix 1 columns (EConst 0).

(** RungeKutta.cpp:842-846: the slope variables of a state. *)
Definition slope_vars (tb : tableau) (x : nat) : list rname :=
  map (Slope x) (seq 1 (t_rows tb)).

(** RungeKutta.cpp:1152-1265, [createSlopeEquation], at the point [p]. *)
Definition slope_equation (m : model) (tb : tableau) (x : nat) (e : equation)
    (order : nat) (p : point) : res requation :=
  let ix := e_access e p in
  lhs <- of_option (nth_error (slope_vars tb x) (order - 1)) ;;
  node <- get_node tb order ;;
  let time :=
    if is_zero node then ETime else EAdd ETime (EMul (EConst node) EStep) in
  nonzero <- has_nonzero_coefficients tb order ;;
  own <- (if nonzero then
            sum <- weighted_sum (get_coefficient tb order) (slope_vars tb x) ix
                     (t_columns tb) ;;
            Ok (Some (ix, EAdd (EGet (Cur x, ix)) (EMul EStep sum)))
          else Ok None) ;;
  Ok ((lhs, ix), ECall m x e time own p).

(** A loop that appends the results of its body. *)
Fixpoint collect {A B} (f : A -> res (list B)) (l : list A) : res (list B) :=
  match l with
  | [] => Ok []
  | a :: l' => x <- f a ;; y <- collect f l' ;; Ok (x ++ y)
  end.

Definition at_points {B} (e : equation) (f : point -> res B) : res (list B) :=
  collect (fun p => b <- f p ;; Ok [b]) (e_indices e).

(** RungeKutta.cpp:1267-1286, [createSlopeEquations]. *)
Definition slope_equations (m : model) (tb : tableau) (x : nat)
    (es : list equation) : res (list requation) :=
  collect (fun i => collect (fun e => at_points e (slope_equation m tb x e i)) es)
    (seq 1 (t_rows tb)).

(** RungeKutta.cpp:1322-1395, [createFutureStateValueEquation]. *)
Definition future_equation (tb : tableau) (x : nat) (e : equation) (p : point)
    : res requation :=
  let ix := e_access e p in
  sum <- weighted_sum (get_weight tb) (slope_vars tb x) ix (t_columns tb) ;;
  Ok ((Fut x, ix), EAdd (EGet (Cur x, ix)) (EMul EStep sum)).

(** RungeKutta.cpp:1397-1415, [createFutureStateValueEquations]. *)
Definition future_equations (tb : tableau) (x : nat) (es : list equation)
    : res (list requation) :=
  collect (fun e => at_points e (future_equation tb x e)) es.

(** RungeKutta.cpp:1425-1429: the constant of a column of the error. *)
Definition weight_difference (tb : tableau) (i : nat) : res Q :=
  w <- get_weight tb i ;;
  a <- get_adaptive_weight tb i ;;
  Ok (w - a)%Q.

(** RungeKutta.cpp:1454-1515, [createErrorEquation]. *)
Definition error_equation (tb : tableau) (x : nat) (e : equation) (p : point)
    : res requation :=
  let ix := e_access e p in
  sum <- weighted_sum (weight_difference tb) (slope_vars tb x) ix (t_columns tb) ;;
  Ok ((Err x, ix), EMul EStep sum).

(** RungeKutta.cpp:1517-1534, [createErrorEquations]. *)
Definition error_equations (tb : tableau) (x : nat) (es : list equation)
    : res (list requation) :=
  collect (fun e => at_points e (error_equation tb x e)) es.

(** RungeKutta.cpp:1694-1759: the copy of an equation matched with a
    derivative. The variables with a next value are replaced by it, also on the
    left. *)
Definition clone_equation (m : model) (e : equation) (p : point) : requation :=
  ((if has_future m (e_match e) then Fut (e_match e) else Cur (e_match e),
    e_access e p), EClone m e p).

(** RungeKutta.cpp:685-725: the SCCs matched with a derivative. [Ok None] is
    the failure on a cycle that involves a derivative. *)
Fixpoint der_matched (m : model) (sccs : list scc) : option (list scc) :=
  match sccs with
  | [] => Some []
  | s :: rest =>
      let involved :=
        existsb (fun e => is_some (derived m (e_match e))) (s_equations s) in
      if negb involved then der_matched m rest
      else if s_cycle s then None
      else option_map (cons s) (der_matched m rest)
  end.

(** RungeKutta.cpp:860-900, [createEquationFunctions]: the equations whose
    functions are used for the state variable [x]. The code walks the SCCs in
    the order of a hash set; the order of the list is kept here. *)
Fixpoint equation_functions (m : model) (sccs : list scc) (x : nat)
    : res (list equation) :=
  match sccs with
  | [] => Ok []
  | s :: rest =>
      match s_equations s with
      | [e] =>
          l <- equation_functions m rest x ;;
          Ok (if match derived m (e_match e) with
                 | Some y => Nat.eqb y x
                 | None => false
                 end then e :: l else l)
      | _ => Bad
      end
  end.

(** RungeKutta.cpp:1642-1761: the equations of the step. [Ok None] when a state
    variable has no equation (RungeKutta.cpp:1647-1650). *)
Fixpoint step_equations (m : model) (tb : tableau) (ds : list scc)
    (xs : list nat) : res (option (list requation)) :=
  match xs with
  | [] => Ok (Some [])
  | x :: rest =>
      es <- equation_functions m ds x ;;
      match es with
      | [] => Ok None
      | _ =>
          slopes <- slope_equations m tb x es ;;
          futures <- future_equations tb x es ;;
          let clones :=
            flat_map (fun s => flat_map (fun e =>
              map (clone_equation m e) (e_indices e)) (s_equations s)) ds in
          next <- step_equations m tb ds rest ;;
          Ok (option_map (fun l => slopes ++ futures ++ clones ++ l) next)
      end
  end.

(** RungeKutta.cpp:1586-1775, [createTryStepFunction]: the equations of the
    schedule the function [tryStep] runs. *)
Definition try_step (m : model) (tb : tableau) (sccs : list scc)
    : res (option (list requation)) :=
  match der_matched m sccs with
  | None => Ok None
  | Some ds => step_equations m tb ds (states m)
  end.

(** RungeKutta.cpp:1831-1850: the equations of the error. *)
Fixpoint error_system (m : model) (tb : tableau) (ds : list scc) (xs : list nat)
    : res (option (list requation)) :=
  match xs with
  | [] => Ok (Some [])
  | x :: rest =>
      es <- equation_functions m ds x ;;
      match es with
      | [] => Ok None
      | _ =>
          l <- error_equations tb x es ;;
          next <- error_system m tb ds rest ;;
          Ok (option_map (app l) next)
      end
  end.

(** The indices of a variable. *)
Definition indices_of (m : model) (x : nat) : list point :=
  match find (fun p => Nat.eqb (fst p) x) (m_vars m) with
  | Some p => snd p
  | None => []
  end.

(** RungeKutta.cpp:1536-1583 and 1931-1946: the equations of [acceptStep]. *)
Definition accept_equations (m : model) : list requation :=
  flat_map (fun v =>
    if has_future m (fst v) then
      map (fun p => ((Cur (fst v), p), EGet (Fut (fst v), p))) (snd v)
    else []) (m_vars m).

(** RungeKutta.cpp:1957-2004 and 765-768: the SCCs [updateNonStateVariables]
    runs. The SCCs moved into the schedule that are matched with a derivative
    are erased afterwards. *)
Definition non_state_sccs (m : model) (sccs : list scc) : option (list scc) :=
  match der_matched m sccs with
  | None => None
  | Some ds =>
      let is_der := fun s : scc =>
        existsb (fun e => is_some (derived m (e_match e))) (s_equations s) in
      match ds with
      | [] => Some []
      | _ => Some (filter (fun s => negb (is_der s)) sccs)
      end
  end.

(** ** What the generated code computes *)

Definition memory := rvar -> R.

Definition set_mem (mem : memory) (v : rvar) (r : R) : memory :=
  fun w => if rvar_eq_dec w v then r else mem w.

Local Open Scope R_scope.

(** The value of an expression. [vis] is the memory the variables named in the
    equation are read from; [hid] the one the function made from an equation
    reads when it runs (RungeKutta.cpp:1046-1073: the [QualifiedVariableGetOp]s,
    of the next value for the variables that have one). [clock] is the value of
    the time in a copied equation (see [rewrite_times] below). *)
Fixpoint eval (t h clock : R) (hid vis : memory) (e : rexp) : R :=
  match e with
  | EConst q => Q2R q
  | ETime => t
  | EStep => h
  | EGet v => vis v
  | EAdd a b => eval t h clock hid vis a + eval t h clock hid vis b
  | EMul a b => eval t h clock hid vis a * eval t h clock hid vis b
  | ECall m x e time own p =>
      let array := fun q =>
        match own with
        | None => vis (Cur x, q)
        | Some (ix, a) =>
            if point_eqb q ix then eval t h clock hid vis a else vis (Cur x, q)
        end in
      e_rhs e (eval t h clock hid vis time)
        (fun w q =>
           if Nat.eqb w x then array q
           else if has_future m w then hid (Fut w, q) else hid (Cur w, q)) p
  | EClone m e p =>
      e_rhs e clock
        (fun w q => if has_future m w then vis (Fut w, q) else vis (Cur w, q)) p
  end.

(** The variables named in an expression, that the dependency graph sees
    (RungeKutta.cpp:2006-2037). The call reads the whole state variable, the
    functions it calls are not looked into. *)
Fixpoint reads (e : rexp) (v : rvar) : Prop :=
  match e with
  | EConst _ | ETime | EStep => False
  | EGet w => v = w
  | EAdd a b | EMul a b => reads a v \/ reads b v
  | ECall m x e time own p =>
      fst v = Cur x \/ reads time v \/
      match own with Some (_, a) => reads a v | None => False end
  | EClone m e p =>
      exists w, In w (e_reads e p) /\
        v = (if has_future m (fst w) then Fut (fst w) else Cur (fst w), snd w)
  end.

(** A list of scalar equations, run in order. *)
Fixpoint exec (t h clock : R) (l : list requation) (mem : memory) : memory :=
  match l with
  | [] => mem
  | (v, e) :: l' => exec t h clock l' (set_mem mem v (eval t h clock mem mem e))
  end.

(** RungeKutta.cpp:1856-1876: the maximum, starting from zero. [vs] are the
    scalars of the error variables, one list for each state variable; the
    maximum of the elements of an array is its [MaxOp] with one operand. *)
Definition max_list (l : list R) : R :=
  match l with
  | [] => 0
  | a :: l' => fold_left Rmax l' a
  end.

Definition max_error (errors : list (list R)) : R :=
  fold_left (fun acc l => Rmax acc (max_list l)) errors 0.

(** RungeKutta.cpp:1777-1887, [estimateError]: run the equations of the error
    and take the maximum. *)
Definition estimate_error (m : model) (tb : tableau) (sccs : list scc)
    (t h clock : R) (mem : memory) : res (option R) :=
  if negb (is_adaptive tb) then Ok (Some 0)
  else
    match der_matched m sccs with
    | None => Ok None
    | Some ds =>
        l <- error_system m tb ds (states m) ;;
        Ok (option_map (fun eqs =>
          let mem' := exec t h clock eqs mem in
          max_error (map (fun x => map (fun p => mem' (Err x, p)) (indices_of m x))
                       (states m))) l)
    end.

Local Close Scope R_scope.

(** ** The time in a copied equation *)

(** RungeKutta.cpp:1706-1732. The body of an equation as a list of operations,
    each with the value it defines and its operands. *)
Inductive okind := OTime | OGetStep | OLoad | OAdd | OOther (n : nat).

Record op := mk_op { o_def : nat; o_kind : okind; o_operands : list nat }.

(** [RewriterBase::replaceAllUsesWith]: every operand equal to the first value
    becomes the second one. *)
Definition replace_uses (a b : nat) (l : list op) : list op :=
  map (fun o => mk_op (o_def o) (o_kind o)
                  (map (fun u => if Nat.eqb u a then b else u) (o_operands o))) l.

(** A value that no operation defines or uses. *)
Definition fresh_value (l : list op) : nat :=
  S (fold_right (fun o n => fold_right Nat.max (Nat.max (o_def o) n) (o_operands o))
       0 l).

(** The operations created in front of the time operation [a]. *)
Fixpoint insert_before (a : nat) (new : list op) (l : list op) : list op :=
  match l with
  | [] => []
  | o :: l' => if Nat.eqb (o_def o) a then new ++ o :: l' else o :: insert_before a new l'
  end.

(** The body of the loop RungeKutta.cpp:1719-1732 for the time operation [a]. *)
Definition rewrite_time (l : list op) (a : nat) : list op :=
  let v := fresh_value l in
  let new := [mk_op v OGetStep []; mk_op (S v) OLoad [v];
              mk_op (S (S v)) OAdd [a; S v]] in
  replace_uses a (S (S v)) (insert_before a new l).

(** RungeKutta.cpp:1719-1732. *)
Definition rewrite_times (l : list op) : list op :=
  fold_left rewrite_time
    (map o_def (filter (fun o => match o_kind o with OTime => true | _ => false end) l))
    l.

(** ** Forward Euler *)

(** EulerForward.cpp:189-206: the states and their derivatives, in the order of
    the model. *)
Definition state_pairs (m : model) : list (nat * nat) :=
  flat_map (fun v => match derivative m (fst v) with
                     | Some d => [(fst v, d)]
                     | None => []
                     end) (m_vars m).

Local Open Scope R_scope.

Definition values := nat -> point -> R.

Definition set_value (vals : values) (x : nat) (p : point) (r : R) : values :=
  fun y q => if (Nat.eqb y x && point_eqb q p)%bool then r else vals y q.

(** EulerForward.cpp:326-375: the loop over the indices of the state. *)
Definition update_ranged (h : R) (m : model) (vals : values) (xd : nat * nat)
    : values :=
  fold_left (fun vals p =>
    set_value vals (fst xd) p (vals (fst xd) p + vals (snd xd) p * h))
    (indices_of m (fst xd)) vals.

(** EulerForward.cpp:411-427: the whole array at once. *)
Definition update_monolithic (h : R) (m : model) (vals : values) (xd : nat * nat)
    : values :=
  fun y q =>
    if (Nat.eqb y (fst xd) && existsb (point_eqb q) (indices_of m (fst xd)))%bool
    then vals (fst xd) q + h * vals (snd xd) q
    else vals y q.

(** EulerForward.cpp:159-252, [updateStateVariables]: one block for each state,
    run in order. *)
Definition update_states (ranged : bool) (h : R) (m : model) (vals : values)
    : values :=
  fold_left (if ranged then update_ranged h m else update_monolithic h m)
    (state_pairs m) vals.

Local Close Scope R_scope.

(** EulerForward.cpp:118-157, [updateNonStateVariables]: all the SCCs, in
    order. *)
Definition euler_non_state_sccs (sccs : list scc) : list scc :=
  match sccs with
  | [] => []
  | _ => sccs
  end.
