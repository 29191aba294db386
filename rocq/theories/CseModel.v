(** * Elimination of repeated calls

    Models [lib/Dialect/BaseModelica/Transforms/CallCSE.cpp] and the comparison
    of expressions in
    [lib/Dialect/BaseModelica/Transforms/EquationExpressionOpInterfaceImpl.cpp].

    Simplifications.  Names are numbers.  An expression is a tree; a value used
    twice is there twice.  An operation is a number that stands for its kind, its
    attributes that are compared and the type of its result.  Calls have one
    result that is no array (the others are skipped, CallCSE.cpp:88-93, or give
    one variable per result) and their arguments have no names.  The equation
    that drives a new variable computes the call as written: when a call inside
    it is replaced as well, the same theorem says that its value stays. *)
From Coq Require Import ZArith List Bool Arith.
From Verif Require Import RangeModel MDRangeModel BoxSetModel Result AccessModel WritesMapModel.
Import ListNotations.
Local Open Scope nat_scope.

(** [XInd k] is the induction [k] of the equation; [XArg d k] is the induction
    [k] of the reduction that is [d] reductions further out than the innermost
    one. [XRed a iterables body] is a [ReductionOp]. *)
Inductive xexp : Type :=
| XNum (z : Z)
| XVar (x : nat)
| XInd (k : nat)
| XArg (d k : nat)
| XApp (o : nat) (args : list xexp)
| XCall (f : nat) (args : list xexp)
| XRed (a : nat) (its : list xexp) (body : xexp).

(** EquationExpressionOpInterfaceImpl.cpp:57-123,
    areExpressionOperandsEquivalent and areEquationExpressionsEquivalent: the
    pairs of inductions, those found in the operations first and then those that
    are operands themselves; arguments of nested operations are not compared.
    The constants, the variables, the reductions and the calls are at 1139-1155,
    995-1012, 216-244 and 367-450; all other operations at 125-150. *)
Fixpoint compare (a b : xexp) {struct a} : option (list (nat * nat) * list (nat * nat)) :=
  let compare_list :=
    fix compare_list (l m : list xexp) {struct l} : option (list (nat * nat) * list (nat * nat)) :=
      match l, m with
      | [], [] => Some ([], [])
      | x :: l', y :: m' =>
          match compare x y, compare_list l' m' with
          | Some (p, q), Some (p', q') => Some (p ++ p', q ++ q')
          | _, _ => None
          end
      | _, _ => None
      end in
  match a, b with
  | XNum z, XNum w => if Z.eqb z w then Some ([], []) else None
  | XVar x, XVar y => if Nat.eqb x y then Some ([], []) else None
  | XInd i, XInd j => Some ([], [(i, j)])
  | XArg _ _, XArg _ _ => Some ([], [])
  | XApp o l, XApp o' m =>
      if Nat.eqb o o' then
        match compare_list l m with Some (p, q) => Some (p ++ q, []) | None => None end
      else None
  | XCall f l, XCall g m =>
      if Nat.eqb f g then
        match compare_list l m with Some (p, q) => Some (p ++ q, []) | None => None end
      else None
  | XRed c l x, XRed c' m y =>
      if Nat.eqb c c' then
        match compare_list l m, compare x y with
        | Some (p, q), Some (p', q') => Some ((p ++ q) ++ p' ++ q', [])
        | _, _ => None
        end
      else None
  | _, _ => None
  end.

(** [isEquivalent] of two operations. *)
Definition paired (a b : xexp) : option (list (nat * nat)) :=
  match compare a b with Some (p, q) => Some (p ++ q) | None => None end.

(** An [EquationTemplateOp]: its sides and the iteration spaces of its instances
    in the main equations, each as its ranges. *)
Record ctmpl := { ct_sides : list xexp; ct_spaces : list bset }.

(** CallCSE.cpp:22-37, haveSameInductionRanges. *)
Definition same_spaces (l : list bset) : bool :=
  match l with
  | [] => true
  | s :: l' => forallb (bs_eq s) l'
  end.

(** CallCSE.cpp:39-76, getTemplates: an entry per range of the iteration space.
    The templates are in the order of the model; the entries of one template stay
    in that of its ranges (the sort at line 72 leaves that order open). *)
Definition template_ranges (nt : nat * ctmpl) : list (nat * ctmpl * option mdrange) :=
  match ct_spaces (snd nt) with
  | [] => []
  | s :: _ =>
      if same_spaces (ct_spaces (snd nt)) then
        match s with
        | [] => [(nt, None)]
        | _ :: _ => map (fun r => (nt, Some r)) s
        end
      else []
  end.
Definition get_templates (ts : list ctmpl) : list (nat * ctmpl * option mdrange) :=
  flat_map template_ranges (combine (seq 0 (length ts)) ts).

(** The calls of an expression in the order of the operations (CallCSE.cpp:87). *)
Fixpoint calls_of (e : xexp) : list xexp :=
  match e with
  | XNum _ | XVar _ | XInd _ | XArg _ _ => []
  | XApp _ l => flat_map calls_of l
  | XCall f l => flat_map calls_of l ++ [XCall f l]
  | XRed _ l b => flat_map calls_of l ++ calls_of b
  end.

(** CallCSE.cpp:101-114, CallEquivalenceGroupEntry; [en_id] is the operation. *)
Record entry := { en_id : nat * nat; en_call : xexp; en_ranges : option mdrange; en_inds : list nat }.

(** CallCSE.cpp:78-100, collectCallOps (the inductions are not known yet). *)
Definition template_calls (ntr : nat * ctmpl * option mdrange) : list entry :=
  let t := fst ntr in
  let calls := flat_map calls_of (ct_sides (snd t)) in
  map (fun nc => {| en_id := (fst t, fst nc); en_call := snd nc; en_ranges := snd ntr; en_inds := [] |})
      (combine (seq 0 (length calls)) calls).
Definition collect_calls (ts : list ctmpl) : list entry := flat_map template_calls (get_templates ts).

(** CallCSE.cpp:164-177: the ranges of the paired inductions. *)
Fixpoint same_ranges (ps : list (nat * nat)) (r1 r2 : mdrange) : res bool :=
  match ps with
  | [] => Ok true
  | (i, k) :: ps' =>
      a <- of_option (nth_error r1 i) ;;
      b <- of_option (nth_error r2 k) ;;
      if range_ne a b then Ok false else same_ranges ps' r1 r2
  end.

(** CallCSE.cpp:179-191. *)
Definition order_inds (inds : list nat) (ps : list (nat * nat)) : list nat :=
  flat_map (fun k => match find (fun p => Nat.eqb (snd p) k) ps with
                     | Some p => [fst p]
                     | None => []
                     end) inds.

(** CallCSE.cpp:132-199: the inductions of the call if it belongs to the group. *)
Definition joins (c : entry) (g : list entry) : res (option (list nat)) :=
  match g with
  | [] => Bad
  | rep :: _ =>
      match paired (en_call c) (en_call rep) with
      | None => Ok None
      | Some [] => Ok (Some [])
      | Some ps =>
          r1 <- of_option (en_ranges c) ;;
          r2 <- of_option (en_ranges rep) ;;
          b <- same_ranges ps r1 r2 ;;
          Ok (if b then Some (order_inds (en_inds rep) ps) else None)
      end
  end.

Definition with_inds (c : entry) (l : list nat) : entry :=
  {| en_id := en_id c; en_call := en_call c; en_ranges := en_ranges c; en_inds := l |}.

(** CallCSE.cpp:128-224, one call of buildEquivalenceGroups; the new group is at
    the end. *)
Fixpoint add_call (c : entry) (gs : list (list entry)) : res (list (list entry)) :=
  match gs with
  | [] =>
      ps <- of_option (paired (en_call c) (en_call c)) ;;
      Ok [[with_inds c (map fst ps)]]
  | g :: gs' =>
      j <- joins c g ;;
      match j with
      | Some l => Ok ((g ++ [with_inds c l]) :: gs')
      | None => r <- add_call c gs' ;; Ok (g :: r)
      end
  end.
Definition build_groups (cs : list entry) : res (list (list entry)) :=
  fold_res (fun gs c => add_call c gs) cs [].

(** CallCSE.cpp:228-249, shiftInductionRanges: an induction and what is added to
    it. *)
Definition shift (r : mdrange) (inds : list nat) : res (list (nat * Z)) :=
  map_res (fun k => a <- of_option (nth_error r k) ;; Ok (k, (- rbegin a)%Z)) inds.

(** CallCSE.cpp:251-297, cloneDefUseChain with the mapping of the inductions (a
    later entry replaces an earlier one).  An induction that is not mapped, or
    the induction of a reduction that is not cloned, stays the argument of
    another operation, which the verifier of the result refuses. *)
Fixpoint clone_call (mapping : list (nat * nat)) (depth : nat) (e : xexp) {struct e} : res xexp :=
  let clone_list :=
    fix clone_list (l : list xexp) : res (list xexp) :=
      match l with
      | [] => Ok []
      | x :: l' => y <- clone_call mapping depth x ;; r <- clone_list l' ;; Ok (y :: r)
      end in
  match e with
  | XNum z => Ok (XNum z)
  | XVar x => Ok (XVar x)
  | XInd k => m <- of_option (map_find k (rev mapping)) ;; Ok (XInd m)
  | XArg d k => _ <- assert_ok (Nat.ltb d depth) ;; Ok (XArg d k)
  | XApp o l => l' <- clone_list l ;; Ok (XApp o l')
  | XCall f l => l' <- clone_list l ;; Ok (XCall f l')
  | XRed a l b => l' <- clone_list l ;; b' <- clone_call mapping (S depth) b ;; Ok (XRed a l' b')
  end.

(** The new variable, the equation that drives it and the elements that replace
    the calls. *)
Record cse := { cs_sizes : list Z; cs_box : mdrange;
                cs_lhs : list (nat * Z); cs_rhs : xexp;
                cs_uses : list (entry * list (nat * Z)) }.

(** CallCSE.cpp:299-349, emitDriverEquationTemplate; 383-453, emitCseVariables;
    351-381, replaceCalls.  The box of a variable without dimensions has rank
    zero. *)
Definition entry_ranges (c : entry) : res mdrange :=
  match en_inds c with
  | [] => Ok []
  | _ :: _ => of_option (en_ranges c)
  end.
Definition emit_cse (g : list entry) : res cse :=
  match g with
  | [] => Bad
  | rep :: _ =>
      r <- entry_ranges rep ;;
      box <- map_res (fun k => of_option (nth_error r k)) (en_inds rep) ;;
      begins <- shift r (en_inds rep) ;;
      rhs <- clone_call (combine (en_inds rep) (seq 0 (length (en_inds rep)))) 0 (en_call rep) ;;
      uses <- map_res (fun c => rc <- entry_ranges c ;; l <- shift rc (en_inds c) ;; Ok (c, l)) g ;;
      Ok {| cs_sizes := map range_size box; cs_box := box;
            cs_lhs := combine (seq 0 (length (en_inds rep))) (map snd begins);
            cs_rhs := rhs; cs_uses := uses |}
  end.

Definition id_eqb (a b : nat * nat) : bool := Nat.eqb (fst a) (fst b) && Nat.eqb (snd a) (snd b).
(** A call is replaced once: the operation is erased then. *)
Fixpoint erase_calls (erased : list (nat * nat)) (g : list entry) : res (list (nat * nat)) :=
  match g with
  | [] => Ok erased
  | c :: g' =>
      _ <- assert_ok (negb (existsb (id_eqb (en_id c)) erased)) ;;
      erase_calls (en_id c :: erased) g'
  end.

(** CallCSE.cpp:455-502, processModelOp: the groups of one call are left alone. *)
Definition call_cse (ts : list ctmpl) : res (list cse) :=
  gs <- build_groups (collect_calls ts) ;;
  r <- fold_res (fun st g =>
         c <- emit_cse g ;;
         er <- erase_calls (fst st) g ;;
         Ok (er, snd st ++ [c]))
       (filter (fun g => Nat.leb 2 (length g)) gs) ([], []) ;;
  Ok (snd r).
