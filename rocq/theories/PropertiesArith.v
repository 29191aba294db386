(** Properties of the arithmetic on scalars: compile-time evaluation,
    simplification, generated code, built-in functions, reductions. *)
From Coq Require Import ZArith List Bool SpecFloat Reals Permutation Lia.
From Flocq Require Import Core.Zaux Core.Raux Core.Defs.
From Verif Require Import Result ArithModel ArithSpec FloatFacts ArithProofs ArithFoldProofs ArithBuiltinProofs ArithReduceProofs.
Import ListNotations.
Local Open Scope Z_scope.

(** A library for the examples: what it computes is not looked at. *)
Definition some_lib : mathlib := mkLib (fun _ x => x) (fun x _ => x) (fun x _ => x).
Definition half : spec_float := S754_finite false 4503599627370496 (-53).
Definition minus_zero : spec_float := S754_zero true.

(** ** C81: an operation on constants is evaluated to its value *)

Theorem C81_constants_are_evaluated_right_partial : forall lib env e t v,
  on_constants e -> lang_type e = Some t -> well_valued env e -> exact_fold e ->
  meaning (lib_pow lib) env e = Some v ->
  exists c, fold_exp lib e = Ok (Some (Cst c)) /\ mean_const c = Some v.
Proof.
  intros lib env [a|n u|o a|o a b|c a b|u a] t v O L W X M; cbn in O; try contradiction.
  - destruct a; try contradiction. eapply fold_un_ok; eassumption.
  - destruct a; try contradiction. destruct b; try contradiction. destruct W. eapply fold_bin_ok; eassumption.
  - destruct a; try contradiction. eapply fold_cast_ok; eassumption.
Qed.
Print Assumptions C81_constants_are_evaluated_right_partial.
(** 7 / 2 is 3.5; 3 - 2.0 is 1.0; 2 < 3 is true. *)
Example C81_nonvacuous :
  let e1 := Bin Div (Cst (AI 7)) (Cst (AI 2)) in
  let e2 := Bin Sub (Cst (AI 3)) (Cst (AR (nearest 2))) in
  let env := fun _ : nat => VB false in
  on_constants e1 /\ lang_type e1 = Some LR /\ well_valued env e1 /\ exact_fold e1 /\
  meaning (lib_pow some_lib) env e1 = Some (VR (S754_finite false 7881299347898368 (-51))) /\
  exact_fold e2 /\ meaning (lib_pow some_lib) env e2 = Some (VR (nearest 1)) /\
  fold_exp some_lib e2 = Ok (Some (Cst (AR (nearest 1)))) /\
  fold_exp some_lib (Bin Lt (Cst (AI 2)) (Cst (AI 3))) = Ok (Some (Cst (AB true))).
Proof.
  cbv zeta. repeat split; vm_compute; try reflexivity; try (intros; discriminate); lia.
Qed.

(** Where it is not: a product by zero is zero even if the other factor is not
    a number; [7 ./ 2] is the Integer 3; a negative power of an Integer is
    truncated. *)
Theorem C81_zero_times_nan_refuted : forall lib env,
  let e := Bin Mul (Cst (AR (S754_zero false))) (Cst (AR S754_nan)) in
  meaning (lib_pow lib) env e = Some (VR S754_nan) /\ fold_exp lib e = Ok (Some (Cst (AR (S754_zero false)))).
Proof. intros lib env. split; vm_compute; reflexivity. Qed.
Print Assumptions C81_zero_times_nan_refuted.
Theorem C81_elementwise_quotient_refuted : forall lib env,
  let e := Bin DivEW (Cst (AI 7)) (Cst (AI 2)) in
  lang_type e = Some LR /\ meaning (lib_pow lib) env e = Some (VR (S754_finite false 7881299347898368 (-51))) /\
  fold_exp lib e = Ok (Some (Cst (AI 3))).
Proof. intros lib env. repeat split; vm_compute; reflexivity. Qed.
Print Assumptions C81_elementwise_quotient_refuted.
Theorem C81_negative_power_refuted : forall lib env, lib_pow lib (nearest 2) (nearest (-1)) = half ->
  let e := Bin Pow (Cst (AI 2)) (Cst (AI (-1))) in
  meaning (lib_pow lib) env e = Some (VR half) /\ fold_exp lib e = Ok (Some (Cst (AI 0))).
Proof.
  intros lib env H. split.
  - cbn [meaning mean_const mean_bin both_real as_real]. now rewrite H.
  - cbn -[of_Z attr_of_real]. unfold some_attr. change (of_Z 2) with (nearest 2). change (of_Z (-1)) with (nearest (-1)). rewrite H. vm_compute. reflexivity.
Qed.
Print Assumptions C81_negative_power_refuted.
(** A constant array to the power 0 has no scalar constant to be replaced by:
    the compiler reaches code marked unreachable. *)
Theorem C81_array_power_zero_refuted : forall lib, fold_exp lib (Bin Pow (Cst AArr) (Cst (AI 0))) = Bad.
Proof. intros lib. vm_compute. reflexivity. Qed.
Print Assumptions C81_array_power_zero_refuted.

(** ** C82: the generated code computes the value of the expression *)

Theorem C82_generated_code_computes_the_value_partial : forall env pow e t,
  lang_type e = Some t -> well_valued env e -> covered pow env e ->
  exists c, generate e = Ok c /\
    (exists w, run (fun n => held (env n)) c = Ok w) /\
    forall v, meaning pow env e = Some v -> run (fun n => held (env n)) c = Ok (held v).
Proof.
  intros env pow e t L W C. destruct (lower_ok env pow e t L W C) as (c & v & Lc & (T & R & K) & M).
  exists c. split; [unfold generate; now rewrite Lc; cbn [bind]; rewrite T|]. split; [now exists (held v)|].
  intros u Mu. now rewrite <- (M u Mu).
Qed.
Print Assumptions C82_generated_code_computes_the_value_partial.
(** if not (i < 2.5) then i * r - 1 else r / i, with i = 3 and r = 2. *)
Example C82_nonvacuous :
  let env := fun n => match n with 0%nat => VI 3 | _ => VR (nearest 2) end in
  let i := Var 0 TInt in let r := Var 1 TReal in
  let e := Ite (Un Not (Bin Lt i (Cst (AR (S754_finite false 5629499534213120 (-51))))))
               (Bin Sub (Bin Mul i r) (Cst (AI 1))) (Bin Div r i) in
  lang_type e = Some LR /\ well_valued env e /\ covered (fun x _ => x) env e /\
  meaning (fun x _ => x) env e = Some (VR (nearest 5)) /\
  (c <- generate e ;; run (fun n => held (env n)) c) = Ok (FV (TF 64) (nearest 5)).
Proof.
  cbv zeta. split; [reflexivity|]. split; [vm_compute; repeat split; discriminate|]. split; [|split; vm_compute; reflexivity].
  cbn -[nearest]. repeat split; try (left; discriminate); try (right; discriminate).
Qed.

(** Where it does not. *)
Theorem C82_elementwise_difference_refuted : forall x y, in_range x -> in_range y -> in_range (x + y) -> in_range (x - y) ->
  forall env, env 0%nat = VI x -> env 1%nat = VI y ->
  let e := Bin SubEW (Var 0 TInt) (Var 1 TInt) in
  (forall pow, meaning pow env e = Some (VI (x - y))) /\
  (c <- generate e ;; run (fun n => held (env n)) c) = Ok (held (VI (x + y))).
Proof.
  intros x y Hx Hy Ha Hs env E0 E1 e. split.
  - intros pow. cbn. rewrite E0, E1. cbn. unfold an_integer. replace (in_rangeb (x - y)) with true; [reflexivity|].
    symmetry. unfold in_rangeb, in_range in *. apply andb_true_intro. split; [apply Z.leb_le|apply Z.ltb_lt]; lia.
  - cbn. rewrite E0, E1. cbn. now rewrite (wrap64 _ Ha).
Qed.
Print Assumptions C82_elementwise_difference_refuted.
Theorem C82_elementwise_quotient_refuted :
  let env := fun n => match n with 0%nat => VI 7 | _ => VI 2 end in
  let e := Bin DivEW (Var 0 TInt) (Var 1 TInt) in
  (forall pow, meaning pow env e = Some (VR (S754_finite false 7881299347898368 (-51)))) /\
  (c <- generate e ;; run (fun n => held (env n)) c) = Ok (IV (TI 64) 3).
Proof. split; [intros pow|]; vm_compute; reflexivity. Qed.
Print Assumptions C82_elementwise_quotient_refuted.
(** true > false. *)
Theorem C82_order_of_booleans_refuted :
  let env := fun n => match n with 0%nat => VB true | _ => VB false end in
  let e := Bin Gt (Var 0 TBool) (Var 1 TBool) in
  (forall pow, meaning pow env e = Some (VB true)) /\
  (c <- generate e ;; run (fun n => held (env n)) c) = Ok (held (VB false)).
Proof. split; [intros pow|]; vm_compute; reflexivity. Qed.
Print Assumptions C82_order_of_booleans_refuted.
(** NaN <> 1.0. *)
Theorem C82_different_from_nan_refuted :
  let env := fun n => match n with 0%nat => VR S754_nan | _ => VR (nearest 1) end in
  let e := Bin Ne (Var 0 TReal) (Var 1 TReal) in
  (forall pow, meaning pow env e = Some (VB true)) /\
  (c <- generate e ;; run (fun n => held (env n)) c) = Ok (held (VB false)).
Proof. split; [intros pow|]; vm_compute; reflexivity. Qed.
Print Assumptions C82_different_from_nan_refuted.
(** if b then i else r: the code does not pass the verifier. *)
Theorem C82_if_integer_else_real_refuted :
  let e := Ite (Var 0 TBool) (Var 1 TInt) (Var 2 TReal) in lang_type e = Some LR /\ generate e = Bad.
Proof. split; vm_compute; reflexivity. Qed.
Print Assumptions C82_if_integer_else_real_refuted.

(** A Boolean converted to a number is 1 or 0. *)
Theorem C82_boolean_converted_to_number : forall env b e,
  arith_type e = Ok (TI 1) -> run env e = Ok (held (VB b)) ->
  (exists c, cast_arith TInt e = Ok c /\ arith_type c = Ok (TI 64) /\ run env c = Ok (held (VI (if b then 1 else 0)))) /\
  (exists c, cast_arith TReal e = Ok c /\ arith_type c = Ok (TF 64) /\ run env c = Ok (held (VR (nearest (if b then 1 else 0))))).
Proof.
  intros env b e T R. unfold cast_arith. rewrite T. cbn [bind conv]. split; (eexists; split; [reflexivity|]; split).
  - cbn. now rewrite T.
  - cbn. rewrite R. destruct b; vm_compute; reflexivity.
  - cbn. now rewrite T.
  - cbn. rewrite R. destruct b; vm_compute; reflexivity.
Qed.
Print Assumptions C82_boolean_converted_to_number.
Example C82_boolean_converted_nonvacuous :
  let e := CmpI Islt (CstI (TI 64) 2) (CstI (TI 64) 3) in
  arith_type e = Ok (TI 1) /\ run (fun _ => held (VI 0)) e = Ok (held (VB true)).
Proof. split; vm_compute; reflexivity. Qed.

(** A number converted to a Boolean: of an Integer the lowest bit is kept, so
    2 is false, and the conversion of the Real 1.0 has no defined value. *)
Theorem C82_number_converted_to_boolean_refuted :
  (forall z env, (c <- cast_arith TBool (CstI (TI 64) (2 * z)) ;; run env c) = Ok (held (VB false))) /\
  (forall env, (c <- cast_arith TBool (CstF (TF 64) (nearest 1)) ;; run env c) = Bad).
Proof.
  split; [|intros env; vm_compute; reflexivity].
  intros z env. cbn -[wrap Z.mul]. unfold held. do 2 f_equal.
  change (wrap (TI 1) (2 * z)) with ((2 * z + 1) mod 2 - 1). rewrite Z.add_comm, Z.mul_comm, Z.mod_add by lia. reflexivity.
Qed.
Print Assumptions C82_number_converted_to_boolean_refuted.

(** ** C83: an expression has the same value at compile time and at run time *)

Theorem C83_compile_time_and_run_time_agree_partial : forall lib env e t v c,
  (forall x y, is_double x -> is_double y -> is_double (lib_pow lib x y)) ->
  on_constants e -> lang_type e = Some t -> well_valued env e -> exact_fold e -> covered (lib_pow lib) env e ->
  meaning (lib_pow lib) env e = Some v -> fold_exp lib e = Ok (Some (Cst c)) ->
  exists code folded, generate e = Ok code /\ generate (Cst c) = Ok folded /\
    run (fun n => held (env n)) code = Ok (held v) /\ run (fun n => held (env n)) folded = Ok (held v).
Proof.
  intros lib env e t v c P O L W X C M F.
  destruct (C82_generated_code_computes_the_value_partial env (lib_pow lib) e t L W C) as (code & G & _ & R).
  destruct (C81_constants_are_evaluated_right_partial lib env e t v O L W X M) as (c' & F' & Mc). rewrite F in F'. injection F' as <-.
  assert (T : has_type t v) by (eapply meaning_type; eassumption).
  assert (Wc : well_valued env (Cst c)).
  { destruct c; cbn in Mc; inversion Mc; subst; destruct t; cbn in T |- *; try contradiction; auto. }
  assert (Lc : lang_type (Cst c) = Some t).
  { destruct c; cbn in Mc; inversion Mc; subst; destruct t; cbn in T |- *; try contradiction; reflexivity. }
  destruct (C82_generated_code_computes_the_value_partial env (lib_pow lib) (Cst c) t Lc Wc I) as (code' & G' & _ & R').
  exists code, code'. split; [exact G|]. split; [exact G'|]. split; [now apply R|]. now apply R'.
Qed.
Print Assumptions C83_compile_time_and_run_time_agree_partial.
Example C83_nonvacuous :
  let e := Bin Add (Cst (AI 40)) (Cst (AR (nearest 2))) in let env := fun _ : nat => VB true in
  on_constants e /\ lang_type e = Some LR /\ well_valued env e /\ exact_fold e /\ covered (lib_pow some_lib) env e /\
  meaning (lib_pow some_lib) env e = Some (VR (nearest 42)) /\ fold_exp some_lib e = Ok (Some (Cst (AR (nearest 42)))).
Proof. cbv zeta. repeat split; vm_compute; try reflexivity; try (intros; discriminate). Qed.

(** Conversions, which the compiler inserts: the Integer 2 converted to
    Boolean is true when constant and false when computed; true converted to
    index is 1 when constant and -1 when computed; the conversion of a
    Real to Boolean is undefined in the generated code and that of a Real
    to index is not generated. *)
Theorem C83_conversion_to_boolean_refuted : forall lib,
  fold_exp lib (CastE TBool (Cst (AI 2))) = Ok (Some (Cst (AB true))) /\
  (c <- generate (CastE TBool (Var 0 TInt)) ;; run (fun _ => held (VI 2)) c) = Ok (held (VB false)).
Proof. intros lib. split; vm_compute; reflexivity. Qed.
Print Assumptions C83_conversion_to_boolean_refuted.
Theorem C83_boolean_to_index_refuted : forall lib,
  fold_exp lib (CastE TIndex (Cst (AB true))) = Ok (Some (Cst (AX 1))) /\
  (c <- generate (CastE TIndex (Var 0 TBool)) ;; run (fun _ => held (VB true)) c) = Ok (IV TIndex (-1)).
Proof. intros lib. split; vm_compute; reflexivity. Qed.
Print Assumptions C83_boolean_to_index_refuted.
Theorem C83_real_to_boolean_refuted : forall lib,
  fold_exp lib (CastE TBool (Cst (AR (nearest 1)))) = Ok (Some (Cst (AB true))) /\
  exists c, generate (CastE TBool (Var 0 TReal)) = Ok c /\ run (fun _ => held (VR (nearest 1))) c = Bad.
Proof. intros lib. split; [vm_compute; reflexivity|]. eexists. split; vm_compute; reflexivity. Qed.
Print Assumptions C83_real_to_boolean_refuted.
Theorem C83_real_to_index_refuted : generate (CastE TIndex (Var 0 TReal)) = Bad.
Proof. vm_compute. reflexivity. Qed.
Print Assumptions C83_real_to_index_refuted.
Theorem C83_order_of_booleans_refuted : forall lib,
  fold_exp lib (Bin Gt (Cst (AB true)) (Cst (AB false))) = Ok (Some (Cst (AB true))) /\
  (c <- generate (Bin Gt (Cst (AB true)) (Cst (AB false))) ;; run (fun _ => held (VB true)) c) = Ok (held (VB false)).
Proof. intros lib. split; vm_compute; reflexivity. Qed.
Print Assumptions C83_order_of_booleans_refuted.

(** ** C84: folding and simplification, anywhere and in any order, keep the value *)

Theorem C84_simplification_keeps_the_value_partial : forall lib env e e' t,
  (forall x y, is_double x -> is_double y -> is_double (lib_pow lib x y)) ->
  steps lib (exact_step (lib_pow lib) env) e e' ->
  lang_type e = Some t -> same_types e -> well_valued env e ->
  lang_type e' = Some t /\ well_valued env e' /\
  forall v, meaning (lib_pow lib) env e = Some v -> meaning (lib_pow lib) env e' = Some v.
Proof.
  intros lib env e e' t P H L S0 W.
  destruct (steps_sound lib env P (exact_step (lib_pow lib) env) e e' (fun r x => x) H t (conj L (conj S0 W))) as [(L' & _ & W') M].
  split; [exact L'|]. split; [exact W'|exact M].
Qed.
Print Assumptions C84_simplification_keeps_the_value_partial.
(** (2 + 3) * x + 0 becomes 5 * x, for an Integer x. *)
Example C84_nonvacuous :
  let env := fun _ : nat => VI 4 in
  let e := Bin Add (Bin Mul (Bin Add (Cst (AI 2)) (Cst (AI 3))) (Var 0 TInt)) (Cst (AI 0)) in
  steps some_lib (exact_step (lib_pow some_lib) env) e (Bin Mul (Cst (AI 5)) (Var 0 TInt)) /\
  lang_type e = Some LI /\ same_types e /\ well_valued env e /\ meaning (lib_pow some_lib) env e = Some (VI 20).
Proof.
  cbv zeta. split; [|repeat split; vm_compute; try reflexivity; try (intros; discriminate)].
  eapply st_next; [apply st_bin1, st_bin1, st_fold; [left; reflexivity|vm_compute; reflexivity]|].
  eapply st_next; [apply st_simplify; [left; reflexivity|vm_compute; reflexivity]|]. apply st_refl.
Qed.

(** x + 0 becomes x, which differs for the negative zero. *)
Theorem C84_add_zero_refuted : forall lib,
  let env := fun _ : nat => VR minus_zero in let e := Bin Add (Var 0 TReal) (Cst (AI 0)) in
  simplify_exp e = Ok (Some (Var 0 TReal)) /\
  meaning (lib_pow lib) env e = Some (VR (S754_zero false)) /\ meaning (lib_pow lib) env (Var 0 TReal) = Some (VR minus_zero).
Proof. intros lib. repeat split; vm_compute; reflexivity. Qed.
Print Assumptions C84_add_zero_refuted.
(** 0 * x becomes 0, which differs for infinity. *)
Theorem C84_mul_zero_refuted : forall lib,
  let env := fun _ : nat => VR (S754_infinity false) in let e := Bin Mul (Cst (AI 0)) (Var 0 TReal) in
  fold_exp lib e = Ok (Some (Cst (AR (S754_zero false)))) /\ meaning (lib_pow lib) env e = Some (VR S754_nan).
Proof. intros lib. split; vm_compute; reflexivity. Qed.
Print Assumptions C84_mul_zero_refuted.

(** ** C85: a reduction over Integers gives the same result in every order *)

Theorem C85_integer_reductions : forall n v t, order_of n t -> (forall i, (i < n)%nat -> in_range (v i)) ->
  (in_range (total v n) -> reduce (combine_int RAdd) (init_int RAdd) v t = total v n) /\
  (in_range (product v n) -> reduce (combine_int RMul) (init_int RMul) v t = product v n) /\
  ((0 < n)%nat ->
    (exists k, (k < n)%nat /\ reduce (combine_int RMin) (init_int RMin) v t = v k /\ forall i, (i < n)%nat -> v k <= v i) /\
    (exists k, (k < n)%nat /\ reduce (combine_int RMax) (init_int RMax) v t = v k /\ forall i, (i < n)%nat -> v i <= v k)).
Proof.
  intros n v t H R. split; [now apply sum_ok|]. split; [now apply product_ok|]. intros Hn. split; [now apply min_ok|now apply max_ok].
Qed.
Print Assumptions C85_integer_reductions.
(** Also when a partial sum leaves the 64 bits. *)
Example C85_nonvacuous :
  let v := fun i => match i with 0%nat => 2 ^ 62 | 1%nat => 2 ^ 62 | _ => - 2 ^ 62 end in
  let t := Node (Leaf None) (Node (Node (Leaf (Some 1%nat)) (Leaf (Some 0%nat))) (Leaf (Some 2%nat))) in
  order_of 3 t /\ total v 3 = 2 ^ 62 /\ reduce (combine_int RAdd) (init_int RAdd) v t = 2 ^ 62.
Proof.
  cbv zeta. split; [|split; vm_compute; reflexivity]. unfold order_of. cbn. apply perm_skip, perm_swap.
Qed.
Theorem C85_real_minimum : forall n v t, order_of n t -> (0 < n)%nat ->
  (forall i, (i < n)%nat -> is_double (v i) /\ finite (v i)) ->
  exists k, (k < n)%nat /\ R_of (reduce (combine_real RMin) (init_real RMin) v t) = R_of (v k) /\
    forall i, (i < n)%nat -> (R_of (v k) <= R_of (v i))%R.
Proof. exact min_real_ok. Qed.
Print Assumptions C85_real_minimum.
Theorem C85_real_maximum_partial : forall n v t, order_of n t ->
  (forall i, (i < n)%nat -> is_double (v i) /\ finite (v i)) ->
  (exists i, (i < n)%nat /\ (bpow radix2 (-1022) <= R_of (v i))%R) ->
  exists k, (k < n)%nat /\ R_of (reduce (combine_real RMax) (init_real RMax) v t) = R_of (v k) /\
    forall i, (i < n)%nat -> (R_of (v i) <= R_of (v k))%R.
Proof. exact max_real_ok. Qed.
Print Assumptions C85_real_maximum_partial.
(** The maximum of numbers none of which is positive is the smallest positive
    normal number. *)
Theorem C85_real_maximum_refuted : forall n v t, order_of n t ->
  (forall i, (i < n)%nat -> is_double (v i) /\ finite (v i)) -> (forall i, (i < n)%nat -> (R_of (v i) <= 0)%R) ->
  R_of (reduce (combine_real RMax) (init_real RMax) v t) = bpow radix2 (-1022).
Proof. exact max_real_wrong. Qed.
Print Assumptions C85_real_maximum_refuted.
Example C85_real_nonvacuous :
  let v := fun i => match i with 0%nat => nearest (-3) | _ => nearest (-2) end in
  let t := Node (Leaf (Some 0%nat)) (Node (Leaf (Some 1%nat)) (Leaf None)) in
  order_of 2 t /\ (forall i, is_double (v i) /\ finite (v i)) /\
  reduce (combine_real RMin) (init_real RMin) v t = nearest (-3) /\ reduce (combine_real RMax) (init_real RMax) v t = dbl_min.
Proof.
  cbv zeta. split; [|split; [|split; vm_compute; reflexivity]].
  - unfold order_of. cbn. change [Some 0%nat; Some 1%nat; None] with ([Some 0%nat; Some 1%nat] ++ [@None nat]). apply Permutation_sym, Permutation_cons_append.
  - intros [|i]; split; vm_compute; auto.
Qed.
(** The sum of Reals depends on the order: 2^53 + 1 + 1. *)
Theorem C85_real_sum_refuted : exists n v t1 t2, order_of n t1 /\ order_of n t2 /\
  (forall i, is_double (v i) /\ finite (v i)) /\
  reduce (combine_real RAdd) (init_real RAdd) v t1 <> reduce (combine_real RAdd) (init_real RAdd) v t2.
Proof.
  exists 3%nat, (fun i => match i with 0%nat => nearest (2 ^ 53) | _ => nearest 1 end),
    (Node (Node (Node (Leaf None) (Leaf (Some 0%nat))) (Leaf (Some 1%nat))) (Leaf (Some 2%nat))),
    (Node (Node (Leaf None) (Leaf (Some 0%nat))) (Node (Leaf (Some 1%nat)) (Leaf (Some 2%nat)))).
  split; [apply Permutation_refl|]. split; [apply Permutation_refl|]. split; [intros [|i]; split; vm_compute; auto|].
  vm_compute. discriminate.
Qed.
Print Assumptions C85_real_sum_refuted.

(** ** C86: a reduction visits each value of its range once *)

Theorem C86_ranges_of_reductions_partial : forall b e s,
  (0 < s /\ (e >= b \/ e <= b - s)) \/ (s < 0 /\ (e <= b \/ e >= b - s)) ->
  exists l, reduction_inductions b e s = Ok l /\ NoDup l /\ forall v, In v l <-> in_the_range b e s v.
Proof. intros b e s [[H C]|[H C]]; [now apply range_up|now apply range_down]. Qed.
Print Assumptions C86_ranges_of_reductions_partial.
Example C86_nonvacuous : reduction_inductions 1 8 3 = Ok [1; 4; 7] /\ reduction_inductions 8 1 (-3) = Ok [2; 5; 8] /\ reduction_inductions 5 1 2 = Ok [].
Proof. repeat split. Qed.
(** A range that ends less than a step before its beginning is empty, and its
    beginning is visited. *)
Theorem C86_empty_range_refuted : forall b e s, (0 < s /\ b - s < e < b) \/ (s < 0 /\ b < e < b - s) ->
  reduction_inductions b e s = Ok [b] /\ forall v, ~ in_the_range b e s v.
Proof. exact range_short. Qed.
Print Assumptions C86_empty_range_refuted.

(** ** C87: built-in functions of constants *)

Theorem C87_rounding : forall f, is_double f -> finite f ->
  (exists g, fold_floor TReal (Some (AR f)) = Ok (Some (AR g)) /\ is_num g (IZR (Zfloor (R_of f)))) /\
  (exists g, fold_ceil TReal (Some (AR f)) = Ok (Some (AR g)) /\ is_num g (IZR (Zceil (R_of f)))) /\
  (in_range (Zfloor (R_of f)) -> fold_integer TInt (Some (AR f)) = Ok (Some (AI (Zfloor (R_of f))))) /\
  (exists g, fold_abs TReal (Some (AR f)) = Ok (Some (AR g)) /\ is_num g (Rabs (R_of f))).
Proof.
  intros f D F. split; [eexists; split; [reflexivity|now apply rfloor_num]|]. split; [eexists; split; [reflexivity|now apply rceil_num]|].
  split; [now apply fold_integer_real|]. apply fold_abs_num. split; [exact D|]. now split.
Qed.
Print Assumptions C87_rounding.
Example C87_rounding_nonvacuous : (* floor(-2.5) = -3, ceil(-2.5) = -2 *)
  let f := S754_finite true 5629499534213120 (-51) in
  is_double f /\ finite f /\ fold_integer TInt (Some (AR f)) = Ok (Some (AI (-3))) /\ fold_ceil TReal (Some (AR f)) = Ok (Some (AR (nearest (-2)))).
Proof. repeat split; vm_compute; reflexivity. Qed.
(** div truncates, mod has the sign of the divisor, rem that of the dividend. *)
Theorem C87_integer_division_partial : forall lib x y, y <> 0 ->
  (Z.abs x < 2 ^ 53 -> Z.abs y <= 2 ^ 53 -> fold_div_trunc TInt (Some (AI x)) (Some (AI y)) = Ok (Some (AI (Z.quot x y)))) /\
  (Z.abs x + Z.abs y <= 2 ^ 53 -> fold_mod TInt (Some (AI x)) (Some (AI y)) = Ok (Some (AI (x mod y)))) /\
  (in_range (Z.quot x y) -> fold_rem lib TInt (Some (AI x)) (Some (AI y)) = Ok (Some (AI (Z.rem x y)))).
Proof.
  intros lib x y Hy. split; [intros; now apply fold_div_int|]. split; [intros; now apply fold_mod_int|]. intros. now apply fold_rem_int.
Qed.
Print Assumptions C87_integer_division_partial.
Example C87_division_nonvacuous :
  fold_div_trunc TInt (Some (AI (-7))) (Some (AI 2)) = Ok (Some (AI (-3))) /\
  fold_mod TInt (Some (AI (-7))) (Some (AI 2)) = Ok (Some (AI 1)) /\
  fold_rem some_lib TInt (Some (AI (-7))) (Some (AI 2)) = Ok (Some (AI (-1))).
Proof. repeat split; vm_compute; reflexivity. Qed.
(** div(2^53 + 1, 1) is 2^53 and mod(2^53 + 1, 2) is 0: Integers of more than 53 bits are rounded. *)
Theorem C87_integer_division_refuted :
  fold_div_trunc TInt (Some (AI (2 ^ 53 + 1))) (Some (AI 1)) = Ok (Some (AI (2 ^ 53))) /\
  fold_mod TInt (Some (AI (2 ^ 53 + 1))) (Some (AI 2)) = Ok (Some (AI 0)).
Proof. split; vm_compute; reflexivity. Qed.
Print Assumptions C87_integer_division_refuted.
Theorem C87_sign_max_min : forall a b x y, const_num a x -> const_num b y ->
  fold_sign TInt (Some a) = Ok (Some (AI (sign_of x))) /\
  (forall i j, a = AI i -> b = AI j ->
    fold_max TInt (Some a) (Some b) = Ok (Some (AI (Z.max i j))) /\ fold_min TInt (Some a) (Some b) = Ok (Some (AI (Z.min i j)))) /\
  ((exists f, a = AR f) \/ (exists f, b = AR f) ->
    (exists f, fold_max TReal (Some a) (Some b) = Ok (Some (AR f)) /\ is_num f (Rmax x y)) /\
    (exists f, fold_min TReal (Some a) (Some b) = Ok (Some (AR f)) /\ is_num f (Rmin x y))).
Proof.
  intros a b x y A B. split; [now apply fold_sign_num|]. split.
  - intros i j -> ->. split; [apply fold_max_int|apply fold_min_int].
  - intros K. split; [now apply fold_max_num|now apply fold_min_num].
Qed.
Print Assumptions C87_sign_max_min.
Example C87_max_nonvacuous : const_num (AI 2) 2 /\ const_num (AR (nearest 3)) 3 /\
  fold_max TReal (Some (AI 2)) (Some (AR (nearest 3))) = Ok (Some (AR (nearest 3))).
Proof.
  split; [split; [cbn; lia|reflexivity]|]. split; [apply normalize_num; cbn; lia|vm_compute; reflexivity].
Qed.

(** ** C88: the most generic type of two *)

Theorem C88_most_generic_type_partial : forall a b, is_scalar a = true -> is_scalar b = true ->
  (a = TInt -> b <> TIndex /\ forall w, b <> TI w) -> generic a b = Ok (documented a b).
Proof.
  intros a b Sa Sb H. destruct a as [| | | |v|v|], b as [| | | |w|w|]; try discriminate; try reflexivity.
  - now destruct (proj1 (H eq_refl)).
  - now destruct (proj2 (H eq_refl) w).
  - cbn. destruct (Z.leb_spec w v); do 2 f_equal; lia.
  - cbn. destruct (Z.leb_spec w v); do 2 f_equal; lia.
Qed.
Print Assumptions C88_most_generic_type_partial.
Theorem C88_most_generic_type_refuted :
  generic TInt TIndex = Ok TIndex /\ generic TIndex TInt = Ok TInt /\ documented TInt TIndex = TInt /\ documented TIndex TInt = TInt /\
  forall w, generic TInt (TI w) = Ok (TI w) /\ generic (TI w) TInt = Ok TInt.
Proof. repeat split. Qed.
Print Assumptions C88_most_generic_type_refuted.
Example C88_nonvacuous : generic (TI 32) TReal = Ok TReal /\ generic (TI 8) (TI 32) = Ok (TI 32) /\ generic TBool TInt = Ok TInt.
Proof. repeat split. Qed.
