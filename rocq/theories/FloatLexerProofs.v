(** Proofs about the literal builders. *)
From Coq Require Import ZArith QArith Qpower Qfield List Bool Lia ZifyBool.
From Verif Require Import Result SubscriptModel SubscriptProofs LexerModel LexerSpec.
Import ListNotations.
Local Open Scope Z_scope.

Lemma decimal_snoc : forall ds d, decimal (ds ++ [d]) = decimal ds * 10 + d.
Proof. intros. unfold decimal. now rewrite fold_left_app. Qed.

Lemma fold_decimal : forall ds a, fold_left (fun a d => a * 10 + d) ds a = a * 10 ^ Z.of_nat (length ds) + decimal ds.
Proof.
  induction ds as [|d ds IH]; intros a.
  - cbn. lia.
  - unfold decimal. cbn [fold_left length]. rewrite !IH. rewrite Nat2Z.inj_succ, Z.pow_succ_r by lia. lia.
Qed.

Lemma decimal_app : forall a b, decimal (a ++ b) = decimal a * 10 ^ Z.of_nat (length b) + decimal b.
Proof. intros. unfold decimal. rewrite fold_left_app. apply fold_decimal. Qed.

Lemma decimal_bound : forall ds, digits_ok ds -> 0 <= decimal ds < 10 ^ Z.of_nat (length ds).
Proof.
  induction ds as [|d ds IH] using rev_ind; intros H; [cbn; lia|].
  apply Forall_app in H as [H1 H2]. inversion H2; subst. rewrite decimal_snoc, app_length.
  replace (Z.of_nat (length ds + length [d])) with (Z.succ (Z.of_nat (length ds))) by (cbn; lia).
  rewrite Z.pow_succ_r by lia. specialize (IH H1). lia.
Qed.

(** A prefix denotes a smaller number. *)
Lemma decimal_prefix : forall a b, digits_ok a -> digits_ok b -> decimal a <= decimal (a ++ b).
Proof.
  intros a b A B. rewrite decimal_app. pose proof (decimal_bound a A). pose proof (decimal_bound b B).
  assert (1 <= 10 ^ Z.of_nat (length b)) by (pose proof (Z.pow_pos_nonneg 10 (Z.of_nat (length b))); lia). nia.
Qed.

Lemma il_add_ok : forall v d, 0 <= v -> 0 <= d <= 9 -> v * 10 + d < 2 ^ 63 -> il_add v d = Ok (v * 10 + d).
Proof. intros. unfold il_add. rewrite i64_in by lia. cbn [bind]. apply i64_in. lia. Qed.

(** Feeding a list of digits. *)
Fixpoint feed (f : flexer -> Z -> res flexer) (l : list Z) (x : flexer) : res flexer :=
  match l with
  | [] => Ok x
  | d :: l' => y <- f x d ;; feed f l' y
  end.

Lemma feed_app : forall f a b x y, feed f a x = Ok y -> feed f (a ++ b) x = feed f b y.
Proof.
  induction a as [|d a IH]; cbn; intros b x y H; [congruence|].
  destruct (f x d); cbn in *; try discriminate. now apply IH.
Qed.

(** The state of the builder after the digits us, fs and the exponent. *)
Fixpoint zeros (ds : list Z) : Z := match ds with 0 :: ds' => 1 + zeros ds' | _ => 0 end.
Definition all_zero (ds : list Z) : bool := forallb (Z.eqb 0) ds.
Definition builder (us fs : list Z) (h : bool) (xs : list Z) (s : bool) : flexer :=
  mkF (decimal us) (decimal fs) h (decimal xs) s (all_zero fs) (zeros fs).

Lemma add_upper : forall us d s, digits_ok us -> 0 <= d <= 9 -> decimal (us ++ [d]) < 2 ^ 63 ->
  fl_addUpper (builder us [] false [] s) d = Ok (builder (us ++ [d]) [] false [] s).
Proof.
  intros us d s U D B. unfold fl_addUpper, builder. cbn [f_upper]. rewrite decimal_snoc in *.
  pose proof (decimal_bound us U). rewrite il_add_ok by lia. reflexivity.
Qed.

Lemma zeros_nonneg : forall ds, 0 <= zeros ds <= Z.of_nat (length ds).
Proof. induction ds as [|[|p|p] ds IH]; cbn [zeros length]; lia. Qed.
Lemma all_zero_snoc : forall ds d, all_zero (ds ++ [d]) = all_zero ds && (d =? 0).
Proof. intros. unfold all_zero. rewrite forallb_app. cbn [forallb]. rewrite andb_true_r, Z.eqb_sym. reflexivity. Qed.
Lemma zeros_snoc : forall ds d, zeros (ds ++ [d]) = if all_zero (ds ++ [d]) then zeros ds + 1 else zeros ds.
Proof.
  induction ds as [|x ds IH]; intros d; cbn [app zeros all_zero forallb].
  - destruct d; reflexivity.
  - destruct x; cbn [Z.eqb andb]; auto. rewrite IH. fold (all_zero (ds ++ [d])).
    destruct (all_zero (ds ++ [d])); lia.
Qed.

Lemma add_lower : forall us fs d, digits_ok fs -> 0 <= d <= 9 -> decimal (fs ++ [d]) < 2 ^ 63 ->
  Z.of_nat (length (fs ++ [d])) < 2 ^ 31 ->
  fl_addLower (builder us fs false [] true) d = Ok (builder us (fs ++ [d]) false [] true).
Proof.
  intros us fs d F D B L. unfold fl_addLower, builder. cbn [f_lower f_upper f_hasExp f_exp f_expSign f_leadingZero f_zeros].
  pose proof (decimal_bound fs F). rewrite decimal_snoc in B. rewrite il_add_ok by lia. cbn [bind].
  pose proof (zeros_nonneg fs). rewrite app_length in L. cbn [length] in L.
  replace (negb (all_zero fs && (d =? 0)) || (zeros fs <? 2 ^ 31 - 1)) with true by lia. cbn [assert_ok bind].
  rewrite decimal_snoc, zeros_snoc, all_zero_snoc. reflexivity.
Qed.

Lemma add_exp : forall us fs h xs s d, digits_ok xs -> 0 <= d <= 9 -> decimal (xs ++ [d]) < 2 ^ 63 ->
  fl_addExp (builder us fs h xs s) d = Ok (builder us fs true (xs ++ [d]) s).
Proof.
  intros us fs h xs s d U D B. unfold fl_addExp, builder. cbn [f_lower f_upper f_hasExp f_exp f_expSign f_leadingZero f_zeros].
  rewrite decimal_snoc in *. pose proof (decimal_bound xs U). rewrite il_add_ok by lia. reflexivity.
Qed.

Lemma set_sign : forall us fs h xs s s', fl_setSign (builder us fs h xs s) s' = builder us fs true xs s'.
Proof. reflexivity. Qed.

(** The normalizer. *)
Lemma normalizer_pow : forall fuel k lower, 0 <= k -> 10 ^ k <= 10 * lower \/ k = 0 -> lower < 10 ^ 18 -> (18 - k < Z.of_nat fuel) -> k <= 18 ->
  exists j, normalizer fuel (10 ^ k) lower = Ok (10 ^ j) /\ k <= j /\ lower < 10 ^ j /\ (j = k \/ 10 ^ (j - 1) <= lower).
Proof.
  induction fuel as [|fuel IH]; intros k lower K P L F B; [lia|].
  unfold normalizer; fold normalizer. destruct (10 ^ k <=? lower) eqn:E.
  - assert (K2 : k < 18). { apply (Z.pow_lt_mono_r_iff 10); lia. }
    assert (X : 10 ^ k * 10 = 10 ^ (k + 1)) by (rewrite Z.pow_add_r by lia; lia).
    assert (Y : 10 ^ (k + 1) <= 10 ^ 18) by (apply Z.pow_le_mono_r; lia).
    assert (Y0 : 0 < 10 ^ (k + 1)) by (apply Z.pow_pos_nonneg; lia).
    rewrite X, i64_in by (change (10 ^ 18) with 1000000000000000000 in *; lia). cbn [bind].
    destruct (IH (k + 1) lower) as (j & J1 & J2 & J3 & J4); try lia.
    exists j. repeat split; auto; [lia|]. right. destruct J4 as [->|J4]; [|auto].
    replace (k + 1 - 1) with k by lia. lia.
  - exists k. repeat split; auto; lia.
Qed.

(** Digits after the leading zeros. *)
Lemma zeros_split : forall fs, digits_ok fs -> decimal fs <> 0 ->
  10 ^ (Z.of_nat (length fs) - zeros fs - 1) <= decimal fs < 10 ^ (Z.of_nat (length fs) - zeros fs)
  /\ 0 <= Z.of_nat (length fs) - zeros fs - 1.
Proof.
  induction fs as [|d fs IH]; intros H N; [cbn in N; congruence|].
  inversion H as [|x l D F]; subst. change (d :: fs) with ([d] ++ fs) in N |- * . rewrite decimal_app in *.
  change (decimal [d]) with d in *. cbn [app length zeros]. destruct (Z.eq_dec d 0) as [->|ND].
  - rewrite Z.mul_0_l, Z.add_0_l in *. destruct (IH F N) as [A B].
    replace (Z.of_nat (S (length fs)) - (1 + zeros fs)) with (Z.of_nat (length fs) - zeros fs) by lia. auto.
  - assert (Z0 : zeros (d :: fs) = 0) by (destruct d; [congruence|reflexivity|reflexivity]).
    cbn [zeros] in Z0. rewrite Z0. pose proof (decimal_bound fs F).
    replace (Z.of_nat (S (length fs)) - 0 - 1) with (Z.of_nat (length fs)) by lia.
    replace (Z.of_nat (S (length fs)) - 0) with (Z.succ (Z.of_nat (length fs))) by lia.
    rewrite Z.pow_succ_r by lia. split; [|lia]. nia.
Qed.

Lemma normalizer_fraction : forall fs, digits_ok fs -> decimal fs < 10 ^ 18 ->
  exists n, normalizer 64 1 (decimal fs) = Ok n /\ 0 < n
    /\ (decimal fs = 0 \/ n * 10 ^ zeros fs = 10 ^ Z.of_nat (length fs)).
Proof.
  intros fs F B. pose proof (decimal_bound fs F) as P.
  destruct (normalizer_pow 64 0 (decimal fs)) as (j & J1 & J2 & J3 & J4); try lia.
  exists (10 ^ j). split; [exact J1|]. split; [apply Z.pow_pos_nonneg; lia|].
  destruct (Z.eq_dec (decimal fs) 0) as [E|N]; [auto|right].
  destruct (zeros_split fs F N) as [[A1 A2] A3]. pose proof (zeros_nonneg fs) as ZN.
  assert (J : j = Z.of_nat (length fs) - zeros fs).
  { destruct J4 as [->|J4]; [change (10 ^ 0) with 1 in J3; lia|].
    assert (J0 : 0 < j). { destruct (Z.eq_dec j 0) as [->|]; [change (10 ^ 0) with 1 in J3; lia|lia]. }
    assert (X1 : Z.of_nat (length fs) - zeros fs - 1 < j) by (apply (Z.pow_lt_mono_r_iff 10); lia).
    assert (X2 : j - 1 < Z.of_nat (length fs) - zeros fs) by (apply (Z.pow_lt_mono_r_iff 10); lia). lia. }
  subst j. rewrite <- Z.pow_add_r by lia. f_equal. lia.
Qed.

Lemma inject_pow : forall k, 0 <= k -> inject_Z (10 ^ k) == (10 ^ k)%Q.
Proof.
  intros k K. rewrite (Zpower_Qpower 10 k K). reflexivity.
Qed.

Lemma mantissa_value : forall us fs n, (decimal fs = 0 \/ n * 10 ^ zeros fs = 10 ^ Z.of_nat (length fs)) -> 0 < n ->
  (inject_Z (decimal us) + inject_Z (decimal fs) / (inject_Z n * 10 ^ zeros fs)
   == inject_Z (decimal (us ++ fs)) * 10 ^ (- Z.of_nat (length fs)))%Q.
Proof.
  intros us fs n H N. rewrite decimal_app, inject_Z_plus, inject_Z_mult, inject_pow by lia.
  assert (T : forall k, ~ (10 ^ k == 0)%Q) by (intros k; apply Qpower_not_0; discriminate).
  rewrite (Qpower_opp 10 (Z.of_nat (length fs))). pose proof (T (Z.of_nat (length fs))) as T1.
  destruct H as [H|H].
  - rewrite H. setoid_replace (inject_Z 0) with 0%Q by reflexivity.
    field. split; [exact T1|]. split; [apply T|]. intros E. unfold Qeq in E; cbn in E. lia.
  - assert (E : (inject_Z n * 10 ^ zeros fs == 10 ^ Z.of_nat (length fs))%Q).
    { rewrite <- !inject_pow by (try apply zeros_nonneg; lia). rewrite <- inject_Z_mult, H. reflexivity. }
    rewrite E. field. exact T1.
Qed.

Lemma fl_get_value : forall us fs h xs s, digits_ok fs -> decimal fs < 10 ^ 18 -> (h = false -> xs = []) ->
  exists q, fl_get (builder us fs h xs s) = Ok q
    /\ q == real_value us fs (if s then decimal xs else - decimal xs).
Proof.
  intros us fs h xs s F B H. destruct (normalizer_fraction fs F B) as (n & E & N & V).
  unfold fl_get. change (f_lower (builder us fs h xs s)) with (decimal fs). rewrite E. cbn [bind].
  cbn [builder f_upper f_zeros f_hasExp f_expSign f_exp]. eexists. split; [reflexivity|].
  pose proof (mantissa_value us fs n V N) as M. unfold real_value.
  assert (T : ~ (10 == 0)%Q) by discriminate.
  destruct h.
  - rewrite M. unfold Z.sub. rewrite Qpower_plus by exact T. ring.
  - rewrite (H eq_refl). change (decimal []) with 0. rewrite M.
    replace (if s then 0 else - 0) with 0 by (destruct s; reflexivity). reflexivity.
Qed.
