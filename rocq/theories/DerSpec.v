(** The value of the expressions as functions of a real parameter. *)
From Coq Require Import List Bool ZArith QArith Reals Ratan Qreals.
From Verif Require Import Result DerModel.
Import ListNotations.
Local Open Scope R_scope.

(** The real power, where it is defined:
    - a positive base may have any exponent;
    - any base may have a natural exponent (0^0 is 1);
    - a base that is not zero may have a negative integer exponent;
    - zero may have any positive exponent. *)
Inductive rpow : R -> R -> R -> Prop :=
| rpow_pos : forall x y, 0 < x -> rpow x y (exp (y * ln x))
| rpow_nat : forall x n, rpow x (INR n) (x ^ n)
| rpow_neg : forall x n, x <> 0 -> rpow x (- INR n) (/ x ^ n)
| rpow_zero : forall y, 0 < y -> rpow 0 y 0.

(** The elementary functions, on their domains. *)
Inductive rfun : xfun -> R -> R -> Prop :=
| rf_acos : forall x, -1 <= x <= 1 -> rfun XAcos x (acos x)
| rf_asin : forall x, -1 <= x <= 1 -> rfun XAsin x (asin x)
| rf_atan : forall x, rfun XAtan x (atan x)
| rf_cos : forall x, rfun XCos x (cos x)
| rf_cosh : forall x, rfun XCosh x (cosh x)
| rf_exp : forall x, rfun XExp x (exp x)
| rf_log : forall x, 0 < x -> rfun XLog x (ln x)
| rf_log10 : forall x, 0 < x -> rfun XLog10 x (ln x / ln 10)
| rf_sin : forall x, rfun XSin x (sin x)
| rf_sinh : forall x, rfun XSinh x (sinh x)
| rf_sqrt : forall x, 0 <= x -> rfun XSqrt x (sqrt x)
| rf_tan : forall x, cos x <> 0 -> rfun XTan x (tan x)
| rf_tanh : forall x, rfun XTanh x (tanh x).

(** The angle of (x, y), out of the half line y = 0, x <= 0. *)
Inductive ratan2 : R -> R -> R -> Prop :=
| ra_right : forall y x, 0 < x -> ratan2 y x (atan (y / x))
| ra_up : forall y x, 0 < y -> ratan2 y x (PI / 2 - atan (x / y))
| ra_down : forall y x, y < 0 -> ratan2 y x (- (PI / 2) - atan (x / y)).

Inductive rop : xop -> R -> R -> R -> Prop :=
| ro_add : forall x y, rop XAdd x y (x + y)
| ro_sub : forall x y, rop XSub x y (x - y)
| ro_mul : forall x y, rop XMul x y (x * y)
| ro_div : forall x y, y <> 0 -> rop XDiv x y (x / y)
| ro_pow : forall x y z, rpow x y z -> rop XPow x y z.

(** [xval var glob time ind e w]: e is defined and its value is w, when the
    variables have the values [var], the package constants [glob] and the
    induction variables [ind]. *)
Definition put (ind : nat -> Z) (k : nat) (i : Z) : nat -> Z := fun j => if Nat.eqb j k then i else ind j.
Section Value.
Variables (var glob : nat -> R) (time : R).
Inductive xval : (nat -> Z) -> xexpr -> R -> Prop :=
| xv_const : forall ind q, xval ind (XConst q) (Q2R q)
| xv_time : forall ind, xval ind XTime time
| xv_ind : forall ind k, xval ind (XInd k) (IZR (ind k))
| xv_var : forall ind v, xval ind (XVar v) (var v)
| xv_global : forall ind v, xval ind (XGlobal v) (glob v)
| xv_neg : forall ind e x, xval ind e x -> xval ind (XNeg e) (- x)
| xv_bin : forall ind ew o l r x y z, xval ind l x -> xval ind r y -> rop o x y z -> xval ind (XBin ew o l r) z
| xv_fun : forall ind f e x y, xval ind e x -> rfun f x y -> xval ind (XFun f e) y
| xv_atan2 : forall ind y x vy vx z, xval ind y vy -> xval ind x vx -> ratan2 vy vx z -> xval ind (XAtan2 y x) z
| xv_sum_nil : forall ind k e, xval ind (XRed XSum [] k e) 0
| xv_sum_cons : forall ind i is k e x s, xval (put ind k i) e x -> xval ind (XRed XSum is k e) s -> xval ind (XRed XSum (i :: is) k e) (x + s).
End Value.

(** [value_near var glob time ind e s f]: near the parameter s the expression is
    defined and is the function f; the variables and the time are functions of
    the parameter. *)
Definition value_near (var : nat -> R -> R) (glob : nat -> R) (time : R -> R) (ind : nat -> Z) (e : xexpr) (s : R) (f : R -> R) : Prop :=
  exists eps, 0 < eps /\ forall z, s - eps < z < s + eps -> xval (fun v => var v z) glob (time z) ind e (f z).
(** The derivative variables are the derivatives of their variables, and a
    variable without derivative is constant. *)
Definition derivatives_ok (m : xmode) (var : nat -> R -> R) (s : R) : Prop :=
  forall v, match vder m v with
            | Some d => derivable_pt_lim (var v) s (var d s)
            | None => derivable_pt_lim (var v) s 0
            end.
(** The parameter is the time, or the time does not depend on it. *)
Definition time_ok (m : xmode) (time : R -> R) : Prop :=
  if is_time m then forall z, time z = z else forall z1 z2, time z1 = time z2.

(** The points where the expression is defined and no operation is at the limit
    of its domain. A power needs a positive base, or a constant integer exponent
    (not in an elementwise power) which is positive when the base is zero. *)
Definition fun_interior (f : xfun) (x : R) : Prop :=
  match f with
  | XAcos | XAsin => -1 < x < 1
  | XLog | XLog10 | XSqrt => 0 < x
  | XTan => cos x <> 0
  | _ => True
  end.
Section Regular.
Variables (var glob : nat -> R) (time : R).
Inductive regular : (nat -> Z) -> xexpr -> Prop :=
| rg_const : forall ind q, regular ind (XConst q)
| rg_time : forall ind, regular ind XTime
| rg_ind : forall ind k, regular ind (XInd k)
| rg_var : forall ind v, regular ind (XVar v)
| rg_global : forall ind v, regular ind (XGlobal v)
| rg_neg : forall ind e, regular ind e -> regular ind (XNeg e)
| rg_bin : forall ind ew o l r, o = XAdd \/ o = XSub \/ o = XMul -> regular ind l -> regular ind r -> regular ind (XBin ew o l r)
| rg_div : forall ind ew l r y, regular ind l -> regular ind r -> xval var glob time ind r y -> y <> 0 -> regular ind (XBin ew XDiv l r)
| rg_pow : forall ind ew l r x, regular ind l -> regular ind r -> xval var glob time ind l x -> 0 < x -> regular ind (XBin ew XPow l r)
| rg_pow_nat : forall ind l n, regular ind l -> (1 <= n)%Z -> regular ind (XBin false XPow l (XConst (inject_Z n)))
| rg_pow_int : forall ind l n x, regular ind l -> xval var glob time ind l x -> x <> 0 -> regular ind (XBin false XPow l (XConst (inject_Z n)))
| rg_fun : forall ind f e x, regular ind e -> xval var glob time ind e x -> fun_interior f x -> regular ind (XFun f e)
| rg_atan2 : forall ind y x vy vx, regular ind y -> regular ind x -> xval var glob time ind y vy -> xval var glob time ind x vx ->
    vy <> 0 \/ 0 < vx -> regular ind (XAtan2 y x)
| rg_sum : forall ind is k e, (forall i, In i is -> regular (put ind k i) e) -> regular ind (XRed XSum is k e).
End Regular.

(** The expressions that can be derived: every variable has a derivative (or is
    taken as a constant), the induction variables are those of the enclosing
    sums, and there is no elementwise division. *)
Inductive supported (m : xmode) : list nat -> xexpr -> Prop :=
| su_const : forall b q, supported m b (XConst q)
| su_time : forall b, supported m b XTime
| su_ind : forall b k, (is_time m = false \/ deps m = false) -> In k b -> supported m b (XInd k)
| su_var : forall b v, vder m v <> None \/ unknown_const m = true -> supported m b (XVar v)
| su_global : forall b v, supported m b (XGlobal v)
| su_neg : forall b e, supported m b e -> supported m b (XNeg e)
| su_bin : forall b ew o l r, ew = false \/ o <> XDiv -> supported m b l -> supported m b r -> supported m b (XBin ew o l r)
| su_fun : forall b f e, supported m b e -> supported m b (XFun f e)
| su_atan2 : forall b y x, supported m b y -> supported m b x -> supported m b (XAtan2 y x)
| su_sum : forall b is k e, supported m (k :: b) e -> supported m b (XRed XSum is k e).
