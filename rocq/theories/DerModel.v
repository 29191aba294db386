(** Model of the automatic differentiation of expressions:
    lib/Dialect/BaseModelica/Transforms/DerivableOpInterfaceImpl.cpp and
    AutomaticDifferentiation/ForwardAD.cpp.

    Simplifications: an operation is replaced by the tree of the operations that
    compute its operands; only scalar values are modelled (the arrays, the
    tensors, the statements of the functions, the calls and the casts are not);
    the result types, hence their derivability, are not modelled. *)
From Coq Require Import List Bool ZArith QArith.
From Verif Require Import Result.
Import ListNotations.

Inductive xop := XAdd | XSub | XMul | XDiv | XPow.
Inductive xfun := XAcos | XAsin | XAtan | XCos | XCosh | XExp | XLog | XLog10 | XSin | XSinh | XSqrt | XTan | XTanh.
(** The actions of ReductionOp: "add" or another one. *)
Inductive xaction := XSum | XOther.
Inductive xexpr :=
| XConst (q : Q)                                  (* ConstantOp *)
| XTime                                           (* TimeOp *)
| XInd (k : nat)                                  (* an induction variable *)
| XVar (v : nat)                                  (* VariableGetOp *)
| XGlobal (v : nat)                               (* QualifiedVariableGetOp *)
| XNeg (e : xexpr)                                (* NegateOp *)
| XBin (ew : bool) (o : xop) (l r : xexpr)        (* AddOp, AddEWOp, ... PowEWOp *)
| XFun (f : xfun) (e : xexpr)                     (* AcosOp ... TanhOp *)
| XAtan2 (y x : xexpr)                            (* Atan2Op *)
| XRed (a : xaction) (range : list Z) (k : nat) (body : xexpr). (* ReductionOp *)

(** The differentiation state and the way it is used.
    - [vder]: the derivative variables (State::getGenericOpDerivative);
    - [unknown_const]: the option unknowVariablesAsConstants;
    - [is_time]: createTimeDerivative instead of createPartialDerivative;
    - [deps]: the argument deriveDependencies of createTimeDerivative. *)
Record xmode := Mode { vder : nat -> option nat; unknown_const : bool; is_time : bool; deps : bool }.

Definition obind2 {X Y} (o : res (option X)) (f : X -> res (option Y)) : res (option Y) :=
  x <- o ;; match x with Some v => f v | None => Ok None end.
Definition ret (e : xexpr) : res (option xexpr) := Ok (Some e).
Definition xc (z : Z) : xexpr := XConst (inject_Z z).

(** DivEWOpInterface, DerivableOpInterfaceImpl.cpp:1721-1806: the square of the
    denominator is created at lines 1796-1797 with one operand only, which the
    generic builder of an operation with two operands refuses by an assertion. *)
Definition powEW_one_operand (_ : xexpr) : res (option xexpr) := Bad.

(** [mapped k]: the derivative of the induction variable k is in the state
    (State::getDerivative of a block argument). Each case follows the
    createDerivative method of the operation. *)
Fixpoint derive (m : xmode) (mapped : nat -> bool) (e : xexpr) : res (option xexpr) :=
  match e with
  | XConst _ => ret (xc 0)                                         (* 1092-1171 *)
  | XTime => ret (if is_time m then xc 1 else xc 0)                (* 76-109 *)
  | XInd k => if is_time m && deps m then Ok None                  (* createValueTimeDerivative, 63-74 *)
              else if mapped k then ret (xc 0) else Ok None
  | XVar v =>                                                      (* 829-900 *)
      match vder m v with
      | Some d => ret (XVar d)
      | None => if unknown_const m then ret (xc 0) else Ok None
      end
  | XGlobal _ => ret (xc 0)                                        (* 963-1044 *)
  | XNeg e => obind2 (derive m mapped e) (fun d => ret (XNeg d))   (* 1173-1224 *)
  | XBin ew XAdd l r =>                                            (* 1226-1356 *)
      obind2 (derive m mapped l) (fun dl => obind2 (derive m mapped r) (fun dr => ret (XBin ew XAdd dl dr)))
  | XBin ew XSub l r =>                                            (* 1358-1488 *)
      obind2 (derive m mapped l) (fun dl => obind2 (derive m mapped r) (fun dr => ret (XBin ew XSub dl dr)))
  | XBin ew XMul l r =>                                            (* 1490-1632 *)
      obind2 (derive m mapped l) (fun dl => obind2 (derive m mapped r) (fun dr =>
        ret (XBin ew XAdd (XBin ew XMul dl r) (XBin ew XMul l dr))))
  | XBin ew XDiv l r =>                                            (* 1634-1806 *)
      obind2 (derive m mapped l) (fun dl => obind2 (derive m mapped r) (fun dr =>
        let numerator := XBin ew XSub (XBin ew XMul dl r) (XBin ew XMul l dr) in
        if ew then obind2 (powEW_one_operand (xc 2)) (fun den => ret (XBin ew XDiv numerator den))
        else ret (XBin ew XDiv numerator (XBin false XPow r (xc 2)))))
  | XBin false XPow l r =>                                         (* 1808-1917 *)
      obind2 (derive m mapped l) (fun dl => obind2 (derive m mapped r) (fun dr =>
        match r with
        | XConst q =>
            let pow := XBin false XPow l (XConst (q - 1)) in       (* createOrFold of SubOp *)
            ret (XBin false XMul (XBin false XMul pow dl) r)
        | _ =>
            let pow := XBin false XPow l (XBin false XSub r (xc 1)) in
            ret (XBin false XMul pow
              (XBin false XAdd (XBin false XMul r dl)
                 (XBin false XMul (XBin false XMul l (XFun XLog l)) dr)))
        end))
  | XBin true XPow l r =>                                          (* 1919-2001 *)
      obind2 (derive m mapped l) (fun dl => obind2 (derive m mapped r) (fun dr =>
        ret (XBin true XMul (XBin true XPow l r)
          (XBin true XAdd (XBin true XMul dr (XFun XLog l)) (XBin true XDiv (XBin true XMul r dl) l)))))
  | XFun f e =>
      obind2 (derive m mapped e) (fun d =>
        let square x := XBin true XPow x (xc 2) in
        let quot n x := XBin true XDiv n x in
        let prod x y := XBin true XMul x y in
        match f with
        | XAcos => ret (XNeg (quot d (XFun XSqrt (XBin true XSub (xc 1) (square e)))))  (* 2114-2183 *)
        | XAsin => ret (quot d (XFun XSqrt (XBin true XSub (xc 1) (square e))))         (* 2185-2253 *)
        | XAtan => ret (quot d (XBin true XAdd (xc 1) (square e)))                      (* 2255-2321 *)
        | XCos => ret (prod (XNeg (XFun XSin e)) d)                                     (* 2408-2467 *)
        | XCosh => ret (prod (XFun XSinh e) d)                                          (* 2469-2526 *)
        | XExp => ret (prod (XFun XExp e) d)                                            (* 2528-2585 *)
        | XLog => ret (quot d e)                                                        (* 2640-2694 *)
        | XLog10 => ret (quot d (prod e (XFun XLog (xc 10))))                           (* 2696-2759 *)
        | XSin => ret (prod (XFun XCos e) d)                                            (* 2761-2818 *)
        | XSinh => ret (prod (XFun XCosh e) d)                                          (* 2820-2877 *)
        | XSqrt => ret (quot (quot d (XFun XSqrt e)) (xc 2))                            (* 2879-2941 *)
        | XTan => ret (quot d (square (XFun XCos e)))                                   (* 2943-3006 *)
        | XTanh => ret (quot d (square (XFun XCosh e)))                                 (* 3008-3070 *)
        end)
  | XAtan2 y x =>                                                  (* 2323-2406 *)
      obind2 (derive m mapped y) (fun dy => obind2 (derive m mapped x) (fun dx =>
        ret (XBin true XDiv (XBin true XSub (XBin true XMul dy x) (XBin true XMul y dx))
               (XBin true XAdd (XBin true XMul y y) (XBin true XMul x x)))))
  | XRed a range k body =>                                         (* 2003-2112 *)
      match a with
      | XSum => obind2 (derive m (fun j => Nat.eqb j k || mapped j) body) (fun d => ret (XRed XSum range k d))
      | XOther => Ok None
      end
  end.

(** ForwardAD.cpp:136-198, createEquationTimeDerivative: both sides of the
    equation are derived. The derivatives of the induction variables are mapped
    for the old induction variables (lines 158-163) and not for the new ones,
    which the cloned operations use. *)
Definition createEquationTimeDerivative (vder : nat -> option nat) (uc : bool) (eq : xexpr * xexpr) : res (option (xexpr * xexpr)) :=
  let m := Mode vder uc true false in
  obind2 (derive m (fun _ => false) (fst eq)) (fun l =>
  obind2 (derive m (fun _ => false) (snd eq)) (fun r => Ok (Some (l, r)))).
