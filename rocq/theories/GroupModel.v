(** Model of EquationTemplateOp::explicitate (lib/Dialect/BaseModelica/IR/Ops.cpp).

    A leaf of type A is an access to a variable: [avar] is the variable, [aimg]
    the indices accessed by the whole equation (accessFunction.map of the
    equation indices) and [asame] the equality of the access functions. Every
    other operation is assumed to be an equation expression, so that the search
    of the accesses does not fail. [cfold] is the constant an expression folds
    to, if any (foldValue, Ops.cpp:8950-8990); the folded divisor is the
    expression itself. *)
From Coq Require Import List Bool ZArith QArith.
From Verif Require Import Result MDRangeModel BoxSetModel SymModel.
Import ListNotations.
Local Open Scope nat_scope.

Section Group.
Context {A : Type}.
Variable avar : A -> nat.
Variable aimg : A -> bset.
Variable asame : A -> A -> bool.
Variable cfold : expr A -> option Q.
Variable inv : nat -> nat -> option (nat * list nat).
Notation expr := (expr A).

(** searchAccesses (Ops.cpp:8296-8321): the accesses with their paths, in the
    order of the operands. *)
Definition flat_index {X Y} (f : nat -> X -> list Y) : nat -> list X -> list Y :=
  fix go i l := match l with [] => [] | x :: l' => f i x ++ go (S i) l' end.
Fixpoint accesses_of (e : expr) : list (list nat * A) :=
  match e with
  | EConst _ => []
  | EAcc a => [([], a)]
  | ENeg x => map (fun q => (0 :: fst q, snd q)) (accesses_of x)
  | EBin _ _ l r => map (fun q => (0 :: fst q, snd q)) (accesses_of l) ++ map (fun q => (1 :: fst q, snd q)) (accesses_of r)
  | ECall _ args => flat_index (fun i x => map (fun q => (i :: fst q, snd q)) (accesses_of x)) 0 args
  end.
(** getAccesses (Ops.cpp:8157-8194): the left-hand side first. *)
Definition getAccesses (eq : expr * expr) : list (side * list nat * A) :=
  map (fun q => (SLeft, fst q, snd q)) (accesses_of (fst eq)) ++ map (fun q => (SRight, fst q, snd q)) (accesses_of (snd eq)).

(** Ops.cpp:8196-8217, getWriteAccesses, for the matched variable and indices. *)
Definition getWriteAccesses (accs : list (side * list nat * A)) (v : nat) (m : bset) : list (side * list nat * A) :=
  filter (fun w => let a := snd w in
    Nat.eqb (avar a) v && ((bs_empty m && bs_empty (aimg a)) || bs_contains m (aimg a))) accs.

(** Ops.cpp:8930-8948, collectSummedValues. *)
Fixpoint collectSummedValues (e : expr) : list expr :=
  match e with
  | EBin false BAdd l r => collectSummedValues l ++ collectSummedValues r
  | _ => [e]
  end.

(** Ops.cpp:9131-9158, hasAccessToVar. *)
Definition hasAccessToVar (v : nat) (vi : bset) (e : expr) : bool :=
  existsb (fun q => let a := snd q in
    Nat.eqb (avar a) v && ((bs_empty (aimg a) && bs_empty vi) || bs_overlaps (aimg a) vi)) (accesses_of e).

(** Ops.cpp:9017-9198, getMultiplyingFactor. None: no factor can be computed;
    (n, None): the null value. The condition of line 9193 tests that the
    optional is engaged, not the boolean it holds. *)
Fixpoint getMultiplyingFactor (v : nat) (vi : bset) (e : expr) : option (nat * option expr) :=
  match e with
  | EAcc a => if Nat.eqb (avar a) v && bs_eq vi (aimg a) then Some (1, Some (EConst 1)) else Some (1, None)
  | EConst _ => Some (0, Some e)
  | ENeg x =>
      match getMultiplyingFactor v vi x with
      | Some (c, Some f) => Some (c, Some (ENeg f))
      | _ => None
      end
  | EBin false BMul l r =>
      match getMultiplyingFactor v vi l, getMultiplyingFactor v vi r with
      | Some (cl, fl), Some (cr, fr) =>
          match fl, fr with
          | Some fl, Some fr => Some (cl + cr, Some (EBin false BMul fl fr))
          | _, _ => Some (0, None)
          end
      | _, _ => None
      end
  | EBin false BDiv l r =>
      match getMultiplyingFactor v vi l with
      | None => None
      | Some (c, None) => Some (c, None)
      | Some (c, Some f) => if hasAccessToVar v vi r then None else Some (c, Some (EBin false BDiv f r))
      end
  | _ => Some (1, None)
  end.

(** Ops.cpp:9200-9222, checkAccessEquivalence. *)
Definition checkAccessEquivalence (a b : A) : bool :=
  if bs_empty (aimg a) && bs_empty (aimg b) then true
  else if asame a b then true
  else Nat.eqb (length (bs_points (aimg a))) 1 && bs_eq (aimg a) (aimg b).

(** Ops.cpp:9330-9360, containsAccessFn, with its assertion. *)
Fixpoint any_access (accs : list A) (req : A) : res bool :=
  match accs with
  | [] => Ok false
  | a :: accs' =>
      if negb (Nat.eqb (avar a) (avar req)) then any_access accs' req
      else if bs_eq (aimg req) (aimg a) then Ok true
      else if bs_overlaps (aimg req) (aimg a) then Bad
      else any_access accs' req
  end.
Definition containsAccess (e : expr) (req : A) : res bool := any_access (map snd (accesses_of e)) req.
(** llvm::partition (the order of the values is not modelled). *)
Fixpoint partition_values (es : list expr) (req : A) : res (list expr * list expr) :=
  match es with
  | [] => Ok ([], [])
  | e :: es' =>
      b <- containsAccess e req ;;
      q <- partition_values es' req ;;
      Ok (if b : bool then (e :: fst q, snd q) else (fst q, e :: snd q))
  end.
(** Ops.cpp:9362-9390, groupFactorsFn. *)
Fixpoint group_factors (v : nat) (vi : bset) (acc : expr) (es : list expr) : option expr :=
  match es with
  | [] => Some acc
  | e :: es' =>
      match getMultiplyingFactor v vi e with
      | Some (c, Some f) => if 1 <? c then None else group_factors v vi (EBin false BAdd acc f) es'
      | _ => None
      end
  end.
Definition groupFactors (v : nat) (vi : bset) (es : list expr) : option expr := group_factors v vi (EConst 0) es.
(** Ops.cpp:9392-9409, groupRemainingFn. *)
Definition groupRemaining (es : list expr) : expr := fold_left (fun r e => EBin false BAdd r e) es (EConst 0).

(** Ops.cpp:9444-9454 (and 9515-9525, 9584-9594): the check of the divisor. *)
Definition divisor_ok (d : expr) : bool :=
  match cfold d with Some q => negb (Qeq_bool q 0) | None => true end.

Definition lhs_side (w : side * list nat * A) : bool := match fst (fst w) with SLeft => true | SRight => false end.
(** Ops.cpp:9224-9640, groupLeftHandSide. *)
Definition groupLeftHandSide (eq : expr * expr) (m : bset) (writes : list (side * list nat * A)) : res (option (expr * expr)) :=
  match writes with
  | [] => Bad
  | w0 :: _ =>
      let req := snd w0 in
      let v := avar req in
      let vi := aimg req in
      let relevant := filter (fun w => (bs_empty m && bs_empty (aimg (snd w))) || bs_overlaps m (aimg (snd w))) writes in
      if negb (forallb (fun w => checkAccessEquivalence (snd w) req) relevant) then Ok None
      else
        let lhsHas := existsb lhs_side relevant in
        let rhsHas := existsb (fun w => negb (lhs_side w)) relevant in
        let l := if lhsHas then convertToSums (fst eq) else fst eq in
        let r := if rhsHas then convertToSums (snd eq) else snd eq in
        let finish num den := if divisor_ok den then Ok (Some (EAcc req, EBin false BDiv num den)) else Ok None in
        match lhsHas, rhsHas with
        | true, true =>
            lp <- partition_values (collectSummedValues l) req ;;
            rp <- partition_values (collectSummedValues r) req ;;
            match groupFactors v vi (fst lp), groupFactors v vi (fst rp) with
            | Some lf, Some rf =>
                finish (EBin false BSub (groupRemaining (snd rp)) (groupRemaining (snd lp))) (EBin false BSub lf rf)
            | _, _ => Ok None
            end
        | true, false =>
            lp <- partition_values (collectSummedValues l) req ;;
            match groupFactors v vi (fst lp) with
            | Some lf => finish (EBin false BSub r (groupRemaining (snd lp))) lf
            | None => Ok None
            end
        | false, true =>
            rp <- partition_values (collectSummedValues r) req ;;
            match groupFactors v vi (fst rp) with
            | Some rf => finish (EBin false BSub l (groupRemaining (snd rp))) rf
            | None => Ok None
            end
        | false, false => Bad
        end
  end.

(** Ops.cpp:8675-8745, explicitate. *)
Definition explicitate (eq : expr * expr) (v : nat) (m : bset) : res (option (expr * expr)) :=
  let writes := getWriteAccesses (getAccesses eq) v m in
  match writes with
  | [] => Bad
  | [(s, path, _)] => explicitate_single inv eq path s
  | _ => groupLeftHandSide eq m writes
  end.
End Group.
