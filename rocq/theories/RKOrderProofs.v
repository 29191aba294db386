(** What the order conditions give: polynomials are integrated exactly, and the
    step on y' = l * y agrees with the exponential. *)
From Coq Require Import String Bool ZArith QArith Qreals Reals List Lia Lra.
From Verif Require Import Result RKModel RKSpec RKStatements RKProofs.
Import ListNotations.
Local Open Scope nat_scope.
Local Open Scope list_scope.

(** The sum of a row. *)
Definition row_sum (M : rk_method) (i : nat) : R :=
  Rsum (stages M) (fun j => Q2R (mat M i j)).

Definition leaf : tree := Node [].
Definition bush (k : nat) : tree := Node (repeat leaf k).

Lemma bush_size : forall k, tree_size (bush k) = S k.
Proof.
  intros k. unfold bush. rewrite tree_size_node. f_equal.
  induction k as [|k IH]; cbn; [reflexivity|]. unfold forest_size in IH. now rewrite IH.
Qed.

Lemma bush_density : forall k, density (bush k) = Z.of_nat (S k).
Proof.
  intros k. unfold bush.
  change (density (Node (repeat leaf k))) with
    (Z.of_nat (tree_size (bush k)) *
       fold_right (fun u n => density u * n) 1 (repeat leaf k))%Z.
  rewrite bush_size.
  assert (E : fold_right (fun u n => (density u * n)%Z) 1%Z (repeat leaf k) = 1%Z).
  { induction k as [|k IH]; cbn [repeat fold_right]; [reflexivity|]. rewrite IH. reflexivity. }
  rewrite E. lia.
Qed.

Lemma leaf_weight : forall M i, stage_weight M leaf i = 1%Q.
Proof. reflexivity. Qed.

Lemma bush_weight : forall M k i,
  Q2R (stage_weight M (bush k) i) = (row_sum M i ^ k)%R.
Proof.
  intros M k i. unfold bush.
  change (stage_weight M (Node (repeat leaf k)) i) with
    (fold_right (fun u q => Qsum (stages M) (fun j => mat M i j * stage_weight M u j) * q)%Q
       1%Q (repeat leaf k)).
  induction k as [|k IH]; cbn [repeat fold_right pow]; [apply Q2R_1|].
  rewrite Q2R_mult, IH, Q2R_Qsum. f_equal. unfold row_sum. apply Rsum_ext.
  intros j _. rewrite leaf_weight, Q2R_mult, Q2R_1. lra.
Qed.

Lemma Q2R_inject_Z : forall z, Q2R (inject_Z z) = IZR z.
Proof. intros z. unfold Q2R, inject_Z; cbn. lra. Qed.

Lemma condition_real : forall M b p t, order_at_least M b p -> tree_size t <= p ->
  (Rsum (stages M) (fun i => Q2R (b i) * Q2R (stage_weight M t i)) * IZR (density t) = 1)%R.
Proof.
  intros M b p t O L. specialize (O t L). apply Qeq_eqR in O.
  rewrite Q2R_mult, Q2R_inject_Z, Q2R_1 in O. rewrite <- O. f_equal.
  unfold elementary_weight. rewrite Q2R_Qsum. apply Rsum_ext. intros i _.
  now rewrite Q2R_mult.
Qed.

Lemma bush_condition : forall M b p k, order_at_least M b p -> k < p ->
  Rsum (stages M) (fun i => Q2R (b i) * row_sum M i ^ k)%R = (/ INR (S k))%R.
Proof.
  intros M b p k O L.
  assert (H := condition_real M b p (bush k) O).
  rewrite bush_size, bush_density in H. specialize (H ltac:(lia)).
  rewrite <- INR_IZR_INZ in H.
  assert (N : (INR (S k) <> 0)%R) by (apply not_0_INR; lia).
  rewrite (Rsum_ext _ _ (fun i => Q2R (b i) * Q2R (stage_weight M (bush k) i))%R).
  - apply (Rmult_eq_reg_r (INR (S k))); [|exact N]. rewrite H. field. exact N.
  - intros i _. now rewrite bush_weight.
Qed.

(** ** Polynomials *)

Lemma Rsum_sum_f : forall n f, Rsum (S n) f = sum_f_R0 f n.
Proof.
  induction n as [|n IH]; intros f; [cbn; lra|].
  change (Rsum (S (S n)) f) with (Rsum (S n) f + f (S n))%R. rewrite IH. reflexivity.
Qed.

Lemma Rsum_swap : forall n k (f : nat -> nat -> R),
  Rsum n (fun i => Rsum k (f i)) = Rsum k (fun j => Rsum n (fun i => f i j)).
Proof.
  induction n as [|n IH]; intros k f; cbn [Rsum].
  - now rewrite Rsum_zero.
  - rewrite IH, <- Rsum_plus. reflexivity.
Qed.

Lemma Rsum_scale_l : forall n f c, Rsum n (fun i => c * f i)%R = (c * Rsum n f)%R.
Proof.
  intros n f c. rewrite (Rsum_ext n _ (fun i => f i * c)%R) by (intros; lra).
  rewrite Rsum_scale. lra.
Qed.

Lemma binom : forall x y n,
  ((x + y) ^ n = Rsum (S n) (fun j => C n j * x ^ j * y ^ (n - j)))%R.
Proof. intros. rewrite Rsum_sum_f. apply binomial. Qed.

Lemma C_succ : forall k j, j <= k ->
  (C (S k) (S j) * / INR (S k) = C k j * / INR (S j))%R.
Proof.
  intros k j L. unfold C.
  replace (S k - S j) with (k - j) by lia.
  rewrite (fact_simpl k), (fact_simpl j), !mult_INR.
  assert (INR (S k) <> 0)%R by (apply not_0_INR; lia).
  assert (INR (S j) <> 0)%R by (apply not_0_INR; lia).
  assert (INR (fact k) <> 0)%R by apply INR_fact_neq_0.
  assert (INR (fact j) <> 0)%R by apply INR_fact_neq_0.
  assert (INR (fact (k - j)) <> 0)%R by apply INR_fact_neq_0.
  field. auto.
Qed.

Lemma C_zero : forall n, (C n 0 = 1)%R.
Proof.
  intros n. unfold C. rewrite Nat.sub_0_r. cbn [fact].
  assert (INR (fact n) <> 0)%R by apply INR_fact_neq_0. cbn [INR]. field. auto.
Qed.

(** The integral of a power. *)
Lemma monomial_step : forall M b p k t h, order_at_least M b p -> k < p ->
  (h * Rsum (stages M) (fun i => Q2R (b i) * (t + row_sum M i * h) ^ k)
   = ((t + h) ^ (S k) - t ^ (S k)) * / INR (S k))%R.
Proof.
  intros M b p k t h O L.
  assert (E1 : Rsum (stages M) (fun i => Q2R (b i) * (t + row_sum M i * h) ^ k)%R
               = Rsum (S k) (fun j => C k j * t ^ (k - j) * h ^ j * / INR (S j))%R).
  { rewrite (Rsum_ext _ _ (fun i => Rsum (S k) (fun j =>
       (C k j * t ^ (k - j) * h ^ j) * (Q2R (b i) * row_sum M i ^ j))%R)).
    - rewrite Rsum_swap. apply Rsum_ext. intros j J.
      rewrite Rsum_scale_l. f_equal. apply (bush_condition M b p j O). lia.
    - intros i _. rewrite (Rplus_comm t), binom, <- Rsum_scale_l.
      apply Rsum_ext. intros j _. rewrite Rpow_mult_distr. ring. }
  assert (E2 : ((t + h) ^ S k - t ^ S k)%R
               = Rsum (S k) (fun i => C (S k) (S i) * h ^ S i * t ^ (S k - S i))%R).
  { rewrite (Rplus_comm t h), binom, Rsum_shift, C_zero, Nat.sub_0_r, pow_O. lra. }
  rewrite E1, E2, <- Rsum_scale_l, <- Rsum_scale. apply Rsum_ext. intros j J.
  replace (S k - S j) with (k - j) by lia.
  replace (C (S k) (S j) * h ^ S j * t ^ (k - j) * / INR (S k))%R
    with ((C (S k) (S j) * / INR (S k)) * (h ^ S j * t ^ (k - j)))%R by ring.
  rewrite (C_succ k j) by lia. cbn [pow]. ring.
Qed.

Lemma quadrature : forall S (M : rk_method) (dom : S -> Prop) p (a : S -> nat -> R) t h y y',
  order_at_least M (wts M) p -> nodes_are_row_sums M ->
  is_step M dom (fun t _ v => Rsum p (fun k => a v k * t ^ k)%R) t h y y' ->
  forall v, dom v ->
    y' v = (y v + Rsum p (fun k =>
      a v k * (((t + h) ^ (Datatypes.S k) - t ^ (Datatypes.S k)) * / INR (Datatypes.S k))))%R.
Proof.
  intros S M dom p a t h y y' O N (k & Sl & Up) v D. rewrite (Up v D). f_equal.
  rewrite (Rsum_ext _ _ (fun i => Rsum p (fun j =>
    a v j * (Q2R (wts M i) * (t + row_sum M i * h) ^ j))%R)).
  - rewrite Rsum_swap, <- Rsum_scale_l. apply Rsum_ext. intros j J.
    rewrite Rsum_scale_l.
    rewrite <- (monomial_step M (wts M) p j t h O J). ring.
  - intros i I. rewrite (Sl i v I D), <- Rsum_scale_l. apply Rsum_ext. intros j _.
    specialize (N i I). apply Qeq_eqR in N. rewrite Q2R_Qsum in N.
    unfold row_sum. rewrite <- N. ring.
Qed.

(** ** y' = l * y *)

Fixpoint tall (k : nat) : tree :=
  match k with
  | O => leaf
  | S k' => Node [tall k']
  end.

Lemma tall_size : forall k, tree_size (tall k) = S k.
Proof.
  induction k as [|k IH]; [reflexivity|].
  cbn [tall]. rewrite tree_size_node. cbn. rewrite IH. lia.
Qed.

Lemma tall_density : forall k, density (tall k) = Z.of_nat (fact (S k)).
Proof.
  induction k as [|k IH]; [reflexivity|].
  change (density (tall (S k))) with
    (Z.of_nat (tree_size (tall (S k))) * (density (tall k) * 1))%Z.
  rewrite tall_size, IH, (fact_simpl (S k)). lia.
Qed.

(** The entries of A^k applied to the vector of ones. *)
Fixpoint powers (M : rk_method) (k i : nat) : R :=
  match k with
  | O => 1%R
  | S k' => Rsum (stages M) (fun j => Q2R (mat M i j) * powers M k' j)%R
  end.

Lemma tall_weight : forall M k i, Q2R (stage_weight M (tall k) i) = powers M k i.
Proof.
  intros M. induction k as [|k IH]; intros i; cbn [powers]; [apply Q2R_1|].
  change (stage_weight M (tall (S k)) i) with
    (Qsum (stages M) (fun j => mat M i j * stage_weight M (tall k) j) * 1)%Q.
  rewrite Q2R_mult, Q2R_1, Q2R_Qsum, Rmult_1_r. apply Rsum_ext. intros j _.
  now rewrite Q2R_mult, IH.
Qed.

Lemma tall_condition : forall M b p k, order_at_least M b p -> k < p ->
  Rsum (stages M) (fun i => Q2R (b i) * powers M k i)%R = (/ INR (fact (S k)))%R.
Proof.
  intros M b p k O L.
  assert (H := condition_real M b p (tall k) O).
  rewrite tall_size, tall_density in H. specialize (H ltac:(lia)).
  rewrite <- INR_IZR_INZ in H.
  assert (N : (INR (fact (S k)) <> 0)%R) by apply INR_fact_neq_0.
  rewrite (Rsum_ext _ _ (fun i => Q2R (b i) * Q2R (stage_weight M (tall k) i))%R).
  - apply (Rmult_eq_reg_r (INR (fact (S k)))); [|exact N]. rewrite H. field. exact N.
  - intros i _. now rewrite tall_weight.
Qed.

Lemma mat_zero : forall M i j, explicit_method M -> i <= j < stages M ->
  Q2R (mat M i j) = 0%R.
Proof.
  intros M i j E J. rewrite (Qeq_eqR _ _ (E i j J)). apply Q2R_0.
Qed.

Lemma powers_zero : forall M, explicit_method M -> forall k i, i < stages M -> i < k ->
  powers M k i = 0%R.
Proof.
  intros M E. induction k as [|k IH]; intros i I L; [lia|]. cbn [powers].
  rewrite (Rsum_ext _ _ (fun _ => 0%R)); [apply Rsum_zero|].
  intros j J. destruct (Nat.lt_ge_cases j i) as [K | K].
  - rewrite (IH j J) by lia. lra.
  - rewrite (mat_zero M i j E (conj K J)). lra.
Qed.

Lemma linear_slopes : forall S (M : rk_method) (dom : S -> Prop) l t h y k v,
  explicit_method M -> dom v ->
  is_slopes M dom (fun _ y v => l * y v)%R t h y k ->
  forall i, i < stages M ->
    k i v = (l * y v * Rsum (stages M) (fun n => (h * l) ^ n * powers M n i))%R.
Proof.
  intros S M dom l t h y k v E D Sl i. induction i as [i IH] using lt_wf_ind. intros I.
  rewrite (Sl i v I D).
  assert (E1 : Rsum (stages M) (fun j => Q2R (mat M i j) * k j v)%R
             = Rsum (stages M) (fun n => l * y v * (h * l) ^ n * powers M (Datatypes.S n) i)%R).
  { rewrite (Rsum_ext _ _ (fun j => Rsum (stages M) (fun n =>
      l * y v * (h * l) ^ n * (Q2R (mat M i j) * powers M n j))%R)).
    - rewrite Rsum_swap. apply Rsum_ext. intros n _. rewrite Rsum_scale_l. reflexivity.
    - intros j J. destruct (Nat.lt_ge_cases j i) as [K | K].
      + rewrite (IH j K) by lia. rewrite <- !Rsum_scale_l. apply Rsum_ext. intros; ring.
      + rewrite (mat_zero M i j E (conj K J)), (Rsum_ext _ _ (fun _ => 0%R)).
        * rewrite Rsum_zero. ring.
        * intros; ring. }
  rewrite E1.
  assert (E2 : Rsum (stages M) (fun n => (h * l) ^ n * powers M n i)%R
             = (1 + h * l * Rsum (stages M) (fun n => (h * l) ^ n * powers M (Datatypes.S n) i))%R).
  { assert (T : Rsum (Datatypes.S (stages M)) (fun n => (h * l) ^ n * powers M n i)%R
              = Rsum (stages M) (fun n => (h * l) ^ n * powers M n i)%R).
    { cbn [Rsum]. rewrite (powers_zero M E (stages M) i I) by lia. lra. }
    rewrite <- T, Rsum_shift, <- Rsum_scale_l. cbn [powers]. rewrite pow_O.
    f_equal; [lra|]. apply Rsum_ext. intros n _. cbn [pow powers]. ring. }
  rewrite E2.
  rewrite (Rsum_ext _ (fun n => (l * y v * (h * l) ^ n * powers M (Datatypes.S n) i)%R)
             (fun n => (l * y v) * ((h * l) ^ n * powers M (Datatypes.S n) i))%R)
    by (intros; ring).
  rewrite Rsum_scale_l. ring.
Qed.

Lemma Rsum_split : forall n k f, Rsum (n + k) f = (Rsum n f + Rsum k (fun i => f (n + i)%nat))%R.
Proof.
  intros n. induction k as [|k IH]; intros f.
  - rewrite Nat.add_0_r. cbn. lra.
  - rewrite Nat.add_succ_r. cbn [Rsum]. rewrite IH. lra.
Qed.

Lemma linear_step : forall S (M : rk_method) (dom : S -> Prop) p l t h y y',
  explicit_method M -> order_at_least M (wts M) p -> p <= stages M ->
  is_step M dom (fun _ y v => l * y v)%R t h y y' ->
  exists rest : nat -> R, forall v, dom v ->
    y' v = (y v * (Rsum (Datatypes.S p) (fun n => (h * l) ^ n * / INR (fact n))
                   + Rsum (stages M - p) (fun n => (h * l) ^ (Datatypes.S (p + n)) * rest n)))%R.
Proof.
  intros S M dom p l t h y y' E O L (k & Sl & Up).
  exists (fun n => Rsum (stages M) (fun i => Q2R (wts M i) * powers M (p + n) i)%R).
  intros v D. rewrite (Up v D).
  rewrite (Rsum_ext _ _ (fun i => Rsum (stages M) (fun n =>
    (l * y v * (h * l) ^ n) * (Q2R (wts M i) * powers M n i))%R)).
  2: { intros i I. rewrite (linear_slopes S M dom l t h y k v E D Sl i I).
       rewrite <- !Rsum_scale_l. apply Rsum_ext. intros; ring. }
  rewrite Rsum_swap.
  rewrite (Rsum_ext _ _ (fun n => (l * y v) * ((h * l) ^ n *
    Rsum (stages M) (fun i => Q2R (wts M i) * powers M n i)))%R).
  2: { intros n _. rewrite Rsum_scale_l. ring. }
  rewrite Rsum_scale_l.
  set (W := fun n => Rsum (stages M) (fun i => Q2R (wts M i) * powers M n i)%R).
  assert (E1 : Rsum (stages M) (fun n => (h * l) ^ n * W n)%R
             = (Rsum p (fun n => (h * l) ^ n * / INR (fact (Datatypes.S n)))
                + Rsum (stages M - p) (fun n => (h * l) ^ (p + n) * W (p + n)%nat))%R).
  { replace (stages M) with (p + (stages M - p)) at 1 by lia. rewrite Rsum_split.
    f_equal. apply Rsum_ext. intros n N. unfold W.
    now rewrite (tall_condition M (wts M) p n O N). }
  assert (E2 : Rsum (Datatypes.S p) (fun n => (h * l) ^ n * / INR (fact n))%R
             = (1 + h * l * Rsum p (fun n => (h * l) ^ n * / INR (fact (Datatypes.S n))))%R).
  { rewrite Rsum_shift, pow_O. change (INR (fact 0)) with 1%R. rewrite Rinv_1.
    rewrite <- Rsum_scale_l. f_equal; [lra|]. apply Rsum_ext. intros n _.
    rewrite <- tech_pow_Rmult. ring. }
  assert (E3 : Rsum (stages M - p) (fun n => (h * l) ^ (Datatypes.S (p + n)) * W (p + n)%nat)%R
             = (h * l * Rsum (stages M - p) (fun n => (h * l) ^ (p + n) * W (p + n)%nat))%R).
  { rewrite <- Rsum_scale_l. apply Rsum_ext. intros n _. rewrite <- tech_pow_Rmult. ring. }
  unfold W in *. rewrite E1, E2, E3. ring.
Qed.

(** ** Methods with the same entries *)

Lemma same_method_step : forall S (M N : rk_method) (dom : S -> Prop) f t h y y',
  (forall t y z v, (forall w, y w = z w) -> f t y v = f t z v) ->
  same_method M N -> is_step M dom f t h y y' -> is_step N dom f t h y y'.
Proof.
  intros S M N dom f t h y y' X (Es & Ea & Eb & Ec) (k & Sl & Up).
  exists k. split.
  - intros i v I D. rewrite <- Es in I. rewrite (Sl i v I D).
    rewrite (Qeq_eqR _ _ (Ec i I)). apply X. intros w. f_equal. f_equal.
    rewrite <- Es. apply Rsum_ext. intros j J. now rewrite (Qeq_eqR _ _ (Ea i j I J)).
  - intros v D. rewrite (Up v D). f_equal. f_equal. rewrite <- Es.
    apply Rsum_ext. intros j J. now rewrite (Qeq_eqR _ _ (Eb j J)).
Qed.

(** The steps of an explicit method are determined. *)
Lemma explicit_unique : forall S (M : rk_method) (dom : S -> Prop) f t h y y1 y2,
  explicit_method M ->
  (forall t y z v, dom v -> (forall w, dom w -> y w = z w) -> f t y v = f t z v) ->
  is_step M dom f t h y y1 -> is_step M dom f t h y y2 ->
  forall v, dom v -> y1 v = y2 v.
Proof.
  intros S M dom f t h y y1 y2 E X (k1 & S1 & U1) (k2 & S2 & U2) v D.
  assert (K : forall i, i < stages M -> forall v, dom v -> k1 i v = k2 i v).
  { intros i. induction i as [i IH] using lt_wf_ind. intros I w Dw.
    rewrite (S1 i w I Dw), (S2 i w I Dw). apply X; [exact Dw|]. intros u Du. f_equal. f_equal.
    apply Rsum_ext. intros j J. destruct (Nat.lt_ge_cases j i) as [L | L].
    - rewrite (IH j L) by auto. reflexivity.
    - rewrite (mat_zero M i j E (conj L J)). lra. }
  rewrite (U1 v D), (U2 v D). f_equal. f_equal. apply Rsum_ext. intros j J.
  now rewrite (K j J v D).
Qed.
