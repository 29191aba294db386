(** C116: operators on arrays compute what section 10.6 of the Modelica
    specification says. *)

From Coq Require Import List Arith ZArith Bool Lia Ring InitialRing.
Import ListNotations.
From Verif Require Import ArrayOpsModel ArrayOpsSpec ArrayOpsProofs.

(** The numbers of the cases below. *)
Definition zlower := @lower Z Z.add Z.sub Z.mul Z.div Z.quot.
Definition clean : @memory Z := fun _ => 0%Z.
Definition vec2 (t : ety) : @arr Z := mkA t [2] [false] (fun i => (1 + Z.of_nat (nth 0%nat i 0%nat))%Z).
Definition mat (t : ety) (n m : nat) (d : bool) : @arr Z :=
  mkA t [n; m] [false; d] (fun i => (10 * Z.of_nat (nth 0%nat i 0%nat) + Z.of_nat (nth 1%nat i 0%nat) + 1)%Z).
Definition shown (r : option (@val Z)) (is_ : list (list nat)) : option (list nat * list Z) :=
  match r with
  | Some (VA a) => Some (a_dims a, map (a_at a) is_)
  | Some (VS _ k) => Some ([], [k])
  | None => None
  end.

(** Two arrays of the same sizes, whatever the memory contains.  Missing: the
    quotient of Integer arrays, see [C116_division_refuted]. *)
Theorem C116_arrays_partial :
  forall (K : Type) (add sub mul fdiv idiv : K -> K -> K) junk b (x y : @arr K),
  a_dims x = a_dims y -> b <> BMul -> b <> BDiv ->
  (b = BDivEW -> a_ty x = EReal \/ a_ty y = EReal) ->
  elementwise add sub mul fdiv b (a_dims x) (VA x) (VA y) (lower add sub mul fdiv idiv junk b (VA x) (VA y)).
Proof. intros. apply (arrays_ok (junk [])); assumption. Qed.
Print Assumptions C116_arrays_partial.

Example C116_arrays_case :
  shown (zlower clean BSub (VA (vec2 EInt)) (VA (mkA EReal [2] [false] (fun _ => 5%Z)))) [[0]; [1]]
  = Some ([2], [(-4)%Z; (-3)%Z]).
Proof. reflexivity. Qed.

(** A scalar with an array, in the combinations of types of [mixed_ok].
    Missing: the others, see [C116_mixed_refuted] and
    [C116_division_refuted]. *)
Theorem C116_scalar_partial :
  forall (K : Type) (zero one : K) (add sub mul fdiv idiv : K -> K -> K) (opp : K -> K),
  ring_theory zero one add mul sub opp eq ->
  forall junk b st s (x : @arr K),
  (mixed_ok b true st (a_ty x) ->
     elementwise add sub mul fdiv b (a_dims x) (VS st s) (VA x) (lower add sub mul fdiv idiv junk b (VS st s) (VA x)))
  /\ (mixed_ok b false st (a_ty x) ->
     elementwise add sub mul fdiv b (a_dims x) (VA x) (VS st s) (lower add sub mul fdiv idiv junk b (VA x) (VS st s))).
Proof.
  intros K zero one add sub mul fdiv idiv opp R junk b st s x.
  split; intros H; [apply (mixed_left zero one add sub mul fdiv idiv opp R) |
                    apply (mixed_right zero one add sub mul fdiv idiv opp R)]; assumption.
Qed.
Print Assumptions C116_scalar_partial.

Example C116_scalar_case :
  shown (zlower clean BSubEW (VS EInt 10%Z) (VA (vec2 EReal))) [[0]; [1]] = Some ([2], [9%Z; 8%Z])
  /\ shown (zlower clean BMul (VS EReal 3%Z) (VA (vec2 EInt))) [[0]; [1]] = Some ([2], [3%Z; 6%Z]).
Proof. split; reflexivity. Qed.

(** An Integer scalar times, plus (element-wise) or under a Real array, a Real
    scalar minus or divided (element-wise) with an Integer array, and an array
    times a scalar are not translated. *)
Theorem C116_mixed_refuted :
  forall (K : Type) (add sub mul fdiv idiv : K -> K -> K) junk s (x : @arr K),
  let low := lower add sub mul fdiv idiv junk in
  (a_ty x = EReal ->
     low BMul (VS EInt s) (VA x) = None /\ low BAddEW (VS EInt s) (VA x) = None
     /\ low BAddEW (VA x) (VS EInt s) = None /\ low BMulEW (VS EInt s) (VA x) = None
     /\ low BMulEW (VA x) (VS EInt s) = None /\ low BDiv (VA x) (VS EInt s) = None)
  /\ (a_ty x = EInt ->
     low BSubEW (VS EReal s) (VA x) = None /\ low BSubEW (VA x) (VS EReal s) = None
     /\ low BDivEW (VS EReal s) (VA x) = None /\ low BDivEW (VA x) (VS EReal s) = None)
  /\ (forall t, low BMul (VA x) (VS t s) = None).
Proof. intros. apply mixed_bad. Qed.
Print Assumptions C116_mixed_refuted.

Example C116_mixed_case : zlower clean BMul (VS EInt 3%Z) (VA (vec2 EReal)) = None.
Proof. reflexivity. Qed.

(** Quotients of Integer arrays are truncated, although the elements of the
    result are Real. *)
Theorem C116_division_refuted :
  forall (K : Type) (add sub mul fdiv idiv : K -> K -> K) junk (x y : @arr K) s,
  a_ty x = EInt -> a_ty y = EInt -> a_dims x = a_dims y ->
  (exists r, lower add sub mul fdiv idiv junk BDiv (VA x) (VS EInt s) = Some (VA r) /\ a_ty r = EReal
     /\ forall i, a_at r i = idiv (a_at x i) s)
  /\ (exists r, lower add sub mul fdiv idiv junk BDivEW (VA x) (VA y) = Some (VA r)
     /\ forall i, a_at r i = idiv (a_at x i) (a_at y i)).
Proof. intros. apply int_division; assumption. Qed.
Print Assumptions C116_division_refuted.

(** With rationals given by numerators over two: 1 / 2 is one half, the result
    is zero. *)
Example C116_division_case :
  shown (@lower Z Z.add Z.sub Z.mul (fun a b => (2 * a / b)%Z) (fun a b => (2 * (a / b))%Z) clean BDiv
           (VA (vec2 EInt)) (VS EInt 2%Z)) [[0]; [1]]
  = Some ([2], [0%Z; 2%Z]).
Proof. reflexivity. Qed.

(** Products of vectors and matrices are right if the memory that the result
    is put in contains zeros, and the sizes of the result are known at compile
    time (or the matrix is square).  Missing: other memory and other sizes,
    see [C116_memory_refuted] and [C116_dynamic_refuted]. *)
Theorem C116_product_partial :
  forall (K : Type) (zero one : K) (add sub mul fdiv idiv : K -> K -> K) (opp : K -> K),
  ring_theory zero one add mul sub opp eq ->
  forall junk m n p (x y : @arr K), (forall i, junk i = zero) ->
  let r := lower add sub mul fdiv idiv junk BMul (VA x) (VA y) in
  (a_dims x = [n] -> a_dims y = [n] -> is_dot zero add mul n x y r)
  /\ (a_dims x = [n] -> a_dims y = [n; m] -> (nth 1 (a_dyn y) false = true -> n = m) ->
      is_vecmat zero add mul n m x y r)
  /\ (a_dims x = [m; n] -> a_dims y = [n] -> (nth 0 (a_dyn x) false = true -> n = m) ->
      is_matvec zero add mul m n x y r)
  /\ (a_dims x = [m; n] -> a_dims y = [n; p] -> is_matmul zero add mul m n p x y r).
Proof.
  intros K zero one add sub mul fdiv idiv opp R junk m n p x y J r. subst r.
  split; [| split; [| split]]; intros.
  - apply (dot_ok zero one add sub mul fdiv idiv opp R); auto.
  - apply (vecmat_ok zero one add sub mul fdiv idiv opp R); auto.
  - apply (matvec_ok zero one add sub mul fdiv idiv opp R); auto.
  - apply (matmul_ok zero one add sub mul fdiv idiv opp R); auto.
Qed.
Print Assumptions C116_product_partial.

Example C116_product_dot : shown (zlower clean BMul (VA (vec2 EInt)) (VA (vec2 EInt))) [] = Some ([], [5%Z]).
Proof. reflexivity. Qed.
Example C116_product_matvec :
  shown (zlower clean BMul (VA (mat EInt 3 2 false)) (VA (vec2 EInt))) [[0]; [1]; [2]]
  = Some ([3], [5%Z; 35%Z; 65%Z]).
Proof. reflexivity. Qed.

(** The memory that the result is put in is not set to zero: the scalar product
    is right exactly if it happens to contain zero, and so is each element of
    the product of two matrices. *)
Theorem C116_memory_refuted :
  forall (K : Type) (zero one : K) (add sub mul fdiv idiv : K -> K -> K) (opp : K -> K),
  ring_theory zero one add mul sub opp eq ->
  forall junk (x y : @arr K),
  let r := lower add sub mul fdiv idiv junk BMul (VA x) (VA y) in
  (forall n, a_dims x = [n] -> a_dims y = [n] -> (is_dot zero add mul n x y r <-> junk [] = zero))
  /\ (forall m n p i j, a_dims x = [m; n] -> a_dims y = [n; p] -> i < m -> j < p ->
      is_matmul zero add mul m n p x y r -> junk [i; j] = zero).
Proof.
  intros K zero one add sub mul fdiv idiv opp R junk x y r. subst r. split.
  - intros. apply (dot_junk zero one add sub mul fdiv idiv opp R); auto.
  - intros m n p i j Ex Ey Hi Hj H.
    exact (matmul_junk zero one add sub mul fdiv idiv opp R junk m n p x y i j Ex Ey Hi Hj H).
Qed.
Print Assumptions C116_memory_refuted.

Example C116_memory_case :
  shown (zlower (fun _ => 7%Z) BMul (VA (vec2 EInt)) (VA (vec2 EInt))) [] = Some ([], [12%Z]).
Proof. reflexivity. Qed.

(** If the number of columns is not known at compile time, the product of a
    vector and a matrix has as many elements as the vector; so has the product
    of a matrix with an unknown number of rows and a vector. *)
Theorem C116_dynamic_refuted :
  forall (K : Type) (add sub mul fdiv idiv : K -> K -> K) junk (n m : nat) (x y : @arr K),
  let r := lower add sub mul fdiv idiv junk BMul (VA x) (VA y) in
  (a_dims x = [n] -> a_dims y = [n; m] -> nth 1 (a_dyn y) false = true ->
     exists a, r = Some (VA a) /\ a_dims a = [n])
  /\ (a_dims x = [m; n] -> a_dims y = [n] -> nth 0 (a_dyn x) false = true ->
     exists a, r = Some (VA a) /\ a_dims a = [n]).
Proof.
  intros. split; intros; [eapply vecmat_dynamic | eapply matvec_dynamic]; eauto.
Qed.
Print Assumptions C116_dynamic_refuted.

Example C116_dynamic_case :
  shown (zlower clean BMul (VA (vec2 EInt)) (VA (mat EInt 2 3 true))) [] = Some ([2], []).
Proof. reflexivity. Qed.

(** The power of a square matrix: every row of the result is the sum of the
    rows of the power; in particular the zeroth power is not the identity if
    there are two rows or more. *)
Theorem C116_power_refuted :
  forall (K : Type) (zero one : K) (add sub mul : K -> K -> K) (opp : K -> K),
  ring_theory zero one add mul sub opp eq ->
  forall (a : @arr K) n, a_dims a = [n; n] ->
  (forall e i j, j < n ->
     a_at (pow_loop zero one add mul a e) [i; j]
     = total zero add n (fun k => power zero one add mul n (fun p q => a_at a [p; q]) e k j))
  /\ (1 < n -> one <> zero ->
      a_at (pow_loop zero one add mul a 0) [0; 1]
      <> power zero one add mul n (fun p q => a_at a [p; q]) 0 0 1).
Proof.
  intros K zero one add sub mul opp R a n E. split; intros.
  - apply (power_columns zero one add sub mul opp R); assumption.
  - apply power_zero_wrong; assumption.
Qed.
Print Assumptions C116_power_refuted.

(** The square of the identity with two rows: all ones. *)
Example C116_power_case :
  map (a_at (pow_loop 0%Z 1%Z Z.add Z.mul
        (mkA EReal [2; 2] [false; false] (fun i => if nth 0 i 0 =? nth 1 i 0 then 1%Z else 0%Z)) 2))
      [[0; 0]; [0; 1]; [1; 0]; [1; 1]]
  = [1%Z; 1%Z; 1%Z; 1%Z].
Proof. reflexivity. Qed.

(** The integers are such numbers. *)
Example C116_ring_case : ring_theory 0%Z 1%Z Z.add Z.mul Z.sub Z.opp eq.
Proof. exact Zth. Qed.
