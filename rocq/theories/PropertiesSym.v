(** Properties C39 and C40: inversion and distribution. *)
From Coq Require Import List Bool QArith Reals Qreals Lra.
From Verif Require Import Result SymModel SymSpec SymProofs.
Import ListNotations.
Local Open Scope R_scope.

(** C39: the value produced by inverting an operation with respect to an
    operand is the operand: t = y exactly when the operand is the inverse. *)
Theorem C39_inverse : forall (A : Type) (val : A -> R) fenv inv, inverse_ok fenv inv ->
  forall (t : expr A) k y i a x z u w,
  inverse inv t k y = Ok (Some i) -> nth_error (operands t) k = Some a ->
  value val fenv t = Some x -> value val fenv y = Some z -> value val fenv a = Some u -> value val fenv i = Some w ->
  (x = z <-> u = w).
Proof. intros. eapply inverse_correct; eauto. Qed.
Print Assumptions C39_inverse.
Example C39_inverse_example :
  inverse (fun _ _ => None) (EBin false BDiv (EAcc 0%nat) (EAcc 1%nat)) 1 (EAcc 2%nat)
  = Ok (Some (EBin false BDiv (EAcc 0%nat) (EAcc 2%nat))).
Proof. reflexivity. Qed.

(** C39: making an equation explicit. The left-hand side of the result is the
    subexpression at the path, and the result has the same solutions among the
    valuations for which both equations are defined. *)
Theorem C39_explicit : forall (A : Type) (val : A -> R) fenv inv, inverse_ok fenv inv ->
  forall (eq : expr A * expr A) path s l r,
  explicitate_single inv eq path s = Ok (Some (l, r)) ->
  at_path (match s with SLeft => fst eq | SRight => snd eq end) path = Some l
  /\ (defined val fenv eq -> defined val fenv (l, r) -> (holds val fenv eq <-> holds val fenv (l, r))).
Proof. intros A val fenv inv I eq path s l r H. exact (explicitate_correct val fenv inv I path eq s l r H). Qed.
Print Assumptions C39_explicit.

(** A right annotation: the function 1 is a + x, and 2 its inverse for x. *)
Definition shift_env (f : nat) (xs : list R) : option R :=
  match f, xs with
  | 1%nat, [a; x] => Some (a + x)
  | 2%nat, [a; z] => Some (z - a)
  | _, _ => None
  end.
Definition shift_inv (f k : nat) : option (nat * list nat) :=
  match f, k with 1%nat, 1%nat => Some (2%nat, [0%nat; 2%nat]) | _, _ => None end.
Lemma shift_ok : inverse_ok shift_env shift_inv.
Proof.
  intros f k g idx xs u H U. destruct f as [|[|f]]; try discriminate H. destruct k as [|[|k]]; try discriminate H. inversion H; subst.
  destruct xs as [|a [|x [|b xs]]]; try discriminate U. cbn in U. inversion U; subst. split; [cbn; auto|].
  intros z ys v y V G N. cbn in V, N. inversion V; subst. inversion N; subst. cbn in G. inversion G; subst. split; lra.
Qed.
(** 2 * f(a, x) - 3 = y is f^-1(a, (y + 3) / 2) for x. *)
Example C39_explicit_example :
  exists eq', explicitate_single shift_inv
    (EBin false BSub (EBin false BMul (EConst 2) (ECall 1 [EAcc 0%nat; EAcc 1%nat])) (EConst 3), EAcc 2%nat) [0; 1; 1]%nat SLeft
    = Ok (Some eq')
  /\ eq' = (EAcc 1%nat, ECall 2 [EAcc 0%nat; EBin false BDiv (EBin false BAdd (EAcc 2%nat) (EConst 3)) (EConst 2)]).
Proof. eexists. split; reflexivity. Qed.

(** C39: along arithmetic operations the inversion never fails. *)
Theorem C39_total : forall (A : Type) inv path (eq : expr A * expr A) s,
  arith_path (match s with SLeft => fst eq | SRight => snd eq end) path -> exists r, explicitate_single inv eq path s = Ok (Some r).
Proof.
  intros A inv path eq s H. destruct (arith_path_explicit inv path eq s H) as ([l r] & E). unfold explicitate_single. rewrite E. cbn [bind].
  destruct s; eauto.
Qed.
Print Assumptions C39_total.
Example C39_total_example :
  arith_path (EBin true BSub (EConst 1) (ENeg (EBin false BMul (EAcc 0%nat) (EConst 2)))) [1; 0; 0]%nat.
Proof. cbn. auto 10. Qed.

(** C40: where the rewritten expression is defined, it has the value of the
    original expression. Missing from the property: it may be undefined where
    the original one is defined (see below). *)
Theorem C40_defined_partial : forall (A : Type) (val : A -> R) fenv (e : expr A) w,
  value val fenv (convertToSums e) = Some w -> value val fenv e = Some w.
Proof. intros A val fenv e w. apply convert_refines. Qed.
Print Assumptions C40_defined_partial.

(** C40: the value is the same when no operand of a product is zero. *)
Theorem C40_value_partial : forall (A : Type) (val : A -> R) fenv (e : expr A),
  factors_nonzero val fenv e -> value val fenv (convertToSums e) = value val fenv e.
Proof. intros A val fenv e. apply convert_value. Qed.
Print Assumptions C40_value_partial.

(** C40: each rewriting alone. Removing subtractions and pushing negations
    never changes the value, nor where it is defined. *)
Theorem C40_negation : forall (A : Type) (val : A -> R) fenv (e : expr A),
  value val fenv (removeSubtractions e) = value val fenv e /\ value val fenv (pushNegateOps e) = value val fenv e.
Proof. intros. split; [apply removeSubtractions_value|apply pushNegateOps_value]. Qed.
Print Assumptions C40_negation.

(** Distributing one product or quotient by a non-zero value. *)
Theorem C40_distribute : forall (A : Type) (val : A -> R) fenv (v : expr A) x, value val fenv v = Some x -> x <> 0 -> forall e,
  (forall e', dmul v e = Some e' -> value val fenv e' = match value val fenv e with Some y => Some (y * x) | None => None end)
  /\ (forall e', ddiv v e = Some e' -> value val fenv e' = match value val fenv e with Some y => Some (y / x) | None => None end).
Proof.
  intros A val fenv v x V X e. destruct (dist_value val fenv v x V X e) as [M D]. split; intros e' H.
  - rewrite (M e' H). cbn [SymSpec.value]. rewrite V. now destruct (value val fenv e).
  - rewrite (D e' H). cbn [SymSpec.value]. rewrite V. destruct (value val fenv e); cbn; auto. now destruct (Req_EM_T x 0).
Qed.
Print Assumptions C40_distribute.

Definition sym_example : expr nat :=
  EBin false BMul (EBin false BSub (EAcc 0%nat) (EBin true BDiv (EAcc 1%nat) (ENeg (EAcc 2%nat)))) (EConst 2).
Example C40_example :
  convertToSums sym_example
  = EBin false BAdd (EBin false BMul (EAcc 0%nat) (EConst 2))
      (EBin true BDiv (EAcc 1%nat) (EBin false BDiv (ENeg (ENeg (EAcc 2%nat))) (EConst 2)))
  /\ factors_nonzero (fun _ => 1) (fun _ _ => None) sym_example.
Proof.
  split; [reflexivity|]. intros ew l r H. unfold sym_example in H. inversion H; subst.
  - split.
    + cbn. destruct (Req_EM_T (- (1)) 0); [lra|]. cbn. intros E. inversion E. unfold Rdiv in *. 
      replace (/ - (1)) with (-1) in * by (field; lra). lra.
    + cbn. unfold Q2R. cbn. intros E. inversion E. lra.
  - repeat match goal with S : subexpr _ _ |- _ => inversion S; subst; clear S end.
  - repeat match goal with S : subexpr _ _ |- _ => inversion S; subst; clear S end.
Qed.

(** C40 fails as stated: x / (y + z) * w becomes x / (y / w + z / w), which is
    undefined when w is zero although the product is zero. *)
Theorem C40_zero_refuted : exists (val : nat -> R) (e : expr nat),
  value val (fun _ _ => None) e = Some 0 /\ value val (fun _ _ => None) (convertToSums e) = None.
Proof.
  exists (fun n => match n with 3%nat => 0 | _ => 1 end),
    (EBin false BMul (EBin false BDiv (EAcc 0%nat) (EBin false BAdd (EAcc 1%nat) (EAcc 2%nat))) (EAcc 3%nat)).
  split; cbn.
  - destruct (Req_EM_T (1 + 1) 0); [lra|]. cbn. f_equal. lra.
  - destruct (Req_EM_T 0 0); [reflexivity|lra].
Qed.
Print Assumptions C40_zero_refuted.
