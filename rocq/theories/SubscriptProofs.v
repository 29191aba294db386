(** Proofs about the constant ranges and the subscripts. *)
From Coq Require Import ZArith List Bool Lia ZifyBool.
From Verif Require Import RangeModel MDRangeModel Result BoxSetModel AccessModel Spec
  RangeProofs MDRangeProofs BoxSetProofs AccessProofs SubscriptModel SubscriptSpec.
Import ListNotations.
Open Scope Z_scope.

Lemma i64_ok : forall z v, i64 z = Ok v -> v = z /\ - 2 ^ 63 <= z < 2 ^ 63.
Proof. intros z v. unfold i64. destruct (_ && _) eqn:E; [intros [= <-]; lia|discriminate]. Qed.
Lemma i64_in : forall z, - 2 ^ 63 <= z < 2 ^ 63 -> i64 z = Ok z.
Proof. intros z H. unfold i64. destruct (_ && _) eqn:E; auto. lia. Qed.

Lemma add_fold_value : forall r v r', add_fold r v = Ok r' ->
  forall x, range_value r' x <-> range_value r (x - v).
Proof.
  intros r v r' H x. unfold add_fold in H. apply bind_ok in H as (lo & L & H). apply bind_ok in H as (up & U & H).
  injection H as <-. apply i64_ok in L as [-> _]. apply i64_ok in U as [-> _].
  unfold range_value; cbn. split; intros (k & K & E & C); exists k; repeat split; lia.
Qed.
Lemma sub_fold_value : forall r v r', sub_fold r v = Ok r' ->
  forall x, range_value r' x <-> range_value r (x + v).
Proof.
  intros r v r' H x. unfold sub_fold in H. apply bind_ok in H as (lo & L & H). apply bind_ok in H as (up & U & H).
  injection H as <-. apply i64_ok in L as [-> _]. apply i64_ok in U as [-> _].
  unfold range_value; cbn. split; intros (k & K & E & C); exists k; repeat split; lia.
Qed.

(** The values with index below [n]. *)
Definition steps (lo step : Z) (n : nat) : list Z := map (fun i => lo + Z.of_nat i * step) (seq 0 n).
Lemma steps_in : forall lo step n v, In v (steps lo step n) <-> exists k, 0 <= k < Z.of_nat n /\ v = lo + k * step.
Proof.
  intros. unfold steps. rewrite in_map_iff. split.
  - intros (i & <- & I). apply in_seq in I. exists (Z.of_nat i). lia.
  - intros (k & K & ->). exists (Z.to_nat k). split; [rewrite Z2Nat.id; lia|]. apply in_seq. lia.
Qed.
Lemma steps_nodup : forall lo step n, step <> 0 -> NoDup (steps lo step n).
Proof.
  intros lo step n S. unfold steps. apply FinFun.Injective_map_NoDup; [|apply seq_NoDup].
  intros i j E. assert (Z.of_nat i * step = Z.of_nat j * step) by lia. apply Z.mul_cancel_r in H; auto. lia.
Qed.

Lemma count_steps : forall r, istep r <> 0 ->
  ((0 < istep r /\ ilower r <= iupper r) \/ (istep r < 0 /\ iupper r <= ilower r)) ->
  forall n, num_elements r = Ok n ->
  0 < n /\ forall k, 0 <= k -> (k < n <-> (0 < istep r /\ ilower r + k * istep r <= iupper r)
                                  \/ (istep r < 0 /\ iupper r <= ilower r + k * istep r)).
Proof.
  intros [lo up st] S C n H. cbn [istep ilower iupper] in *. unfold num_elements in H. cbn [istep ilower iupper] in H.
  apply bind_ok in H as (d & D & H). apply i64_ok in D as [-> _].
  apply bind_ok in H as (q & Q & H). apply i64_ok in H as [-> _].
  unfold div_trunc in Q. destruct (st =? 0) eqn:E; [lia|]. injection Q as <-.
  destruct C as [[P L]|[P L]].
  - rewrite Z.quot_div_nonneg by lia. pose proof (Z.div_mod (up - lo) st ltac:(lia)) as M.
    pose proof (Z.mod_pos_bound (up - lo) st P) as B. pose proof (Z.div_pos (up - lo) st ltac:(lia) P).
    split; [lia|]. intros k K. split; [intros; left|intros [[_ X]|[X _]]; [|lia]]; nia.
  - assert (X : Z.quot (up - lo) st = (lo - up) / (- st)).
    { rewrite <- (Z.quot_opp_opp (up - lo) st) by lia. rewrite Z.quot_div_nonneg by lia. f_equal; lia. }
    rewrite X. pose proof (Z.div_mod (lo - up) (- st) ltac:(lia)) as M.
    pose proof (Z.mod_pos_bound (lo - up) (- st) ltac:(lia)) as B.
    pose proof (Z.div_pos (lo - up) (- st) ltac:(lia) ltac:(lia)).
    split; [lia|]. intros k K. split; [intros; right|intros [[Y _]|[_ Y]]; [lia|]]; nia.
Qed.

Lemma num_elements_count : forall r n, num_elements r = Ok n ->
  (exists v, range_value r v) ->
  exists l, NoDup l /\ (forall v, In v l <-> range_value r v) /\ n = Z.of_nat (length l).
Proof.
  intros r n H (v & k0 & K0 & V & C0).
  assert (S : istep r <> 0) by lia.
  assert (C : (0 < istep r /\ ilower r <= iupper r) \/ (istep r < 0 /\ iupper r <= ilower r)) by nia.
  destruct (count_steps r S C n H) as [P K].
  exists (steps (ilower r) (istep r) (Z.to_nat n)). split; [now apply steps_nodup|]. split.
  - intros x. rewrite steps_in. unfold range_value. split.
    + intros (k & B & ->). exists k. repeat split; try lia. apply K; lia.
    + intros (k & B & -> & X). exists k. split; auto. apply K in X; lia.
  - unfold steps. rewrite map_length, seq_length. lia.
Qed.

Lemma parallel_in : forall lb ub step v, 0 < step ->
  (In v (parallel_values lb ub step) <-> exists k, 0 <= k /\ v = lb + k * step /\ v < ub).
Proof.
  intros lb ub step v P. unfold parallel_values. fold (steps lb step (Z.to_nat ((ub - lb + step - 1) / step))).
  rewrite steps_in. pose proof (Z.div_mod (ub - lb + step - 1) step ltac:(lia)) as M.
  pose proof (Z.mod_pos_bound (ub - lb + step - 1) step P) as B. split.
  - intros (k & K & ->). exists k. repeat split; try lia. nia.
  - intros (k & K & -> & U). exists k. split; auto. split; [lia|].
    assert (k < (ub - lb + step - 1) / step) by nia. lia.
Qed.
Lemma parallel_nodup : forall lb ub step, step <> 0 -> NoDup (parallel_values lb ub step).
Proof. intros. apply steps_nodup; auto. Qed.

Lemma reduction_exact : forall r l, reduction_values r = Ok l ->
  (exists v, range_value r v) -> NoDup l /\ forall v, In v l <-> range_value r v.
Proof.
  intros r l H (v0 & k0 & K0 & V & C0).
  assert (S : istep r <> 0) by lia.
  assert (C : (0 < istep r /\ ilower r <= iupper r) \/ (istep r < 0 /\ iupper r <= ilower r)) by nia.
  unfold reduction_values in H. apply bind_ok in H as (n & N & H). injection H as <-.
  destruct (count_steps r S C n N) as [P K].
  destruct (0 <=? istep r) eqn:E.
  - split; [apply parallel_nodup; auto|]. intros x. rewrite parallel_in by lia. unfold range_value. split.
    + intros (k & B & -> & X). exists k. repeat split; auto. apply K; auto. nia.
    + intros (k & B & -> & X). exists k. repeat split; auto. apply K in X; auto. nia.
  - split; [apply parallel_nodup; lia|]. intros x. rewrite parallel_in by lia. unfold range_value. split.
    + intros (k & B & -> & X). exists (n - 1 - k). split; [|split; [lia|]].
      * nia.
      * replace (ilower r + istep r * (n - 1) + k * - istep r) with (ilower r + (n - 1 - k) * istep r) by lia.
        apply K; nia.
    + intros (k & B & -> & X). apply K in X; auto. exists (n - 1 - k). repeat split; try lia; nia.
Qed.

Lemma reduction_unit_empty : forall r l, (istep r = 1 \/ istep r = -1) -> reduction_values r = Ok l ->
  forall v, In v l <-> range_value r v.
Proof.
  intros r l S H v.
  assert (D : (exists v, range_value r v) \/ ((istep r = 1 /\ iupper r < ilower r) \/ (istep r = -1 /\ ilower r < iupper r))).
  { destruct S as [S|S].
    - destruct (Z.le_gt_cases (ilower r) (iupper r)); [left|right; lia].
      exists (ilower r), 0. lia.
    - destruct (Z.le_gt_cases (iupper r) (ilower r)); [left|right; lia].
      exists (ilower r), 0. lia. }
  destruct D as [D|D]; [now apply (reduction_exact r l H D)|].
  unfold reduction_values in H. apply bind_ok in H as (n & N & H). injection H as <-.
  unfold num_elements in N. apply bind_ok in N as (d & X & N). apply i64_ok in X as [-> _].
  apply bind_ok in N as (q & Q & N). apply i64_ok in N as [-> _]. unfold div_trunc in Q.
  destruct D as [[D1 D2]|[D1 D2]]; rewrite D1 in *; cbn in Q; injection Q as <-.
  - rewrite Z.quot_1_r. cbn [Z.leb Z.compare]. rewrite parallel_in by lia. unfold range_value. rewrite D1. split.
    + intros (k & B & -> & U). exfalso. lia.
    + intros (k & B & -> & U). exfalso. lia.
  - replace (Z.quot (iupper r - ilower r) (-1)) with (ilower r - iupper r)
      by (change (-1) with (- (1)); rewrite Z.quot_opp_r, Z.quot_1_r by lia; lia).
    change (0 <=? -1) with false. cbv iota. change (- -1) with 1. rewrite parallel_in by lia. unfold range_value. rewrite D1. split.
    + intros (k & B & -> & U). exfalso. lia.
    + intros (k & B & -> & U). exfalso. lia.
Qed.

(** Subscripts without ranges have one value at most. *)
Lemma plain_value_unique : forall p e, plain e -> forall u v, sub_value p e u -> sub_value p e v -> u = v.
Proof.
  intros p e P u v HU. revert v. induction HU; cbn in P; intros w HV; inversion HV; subst; try tauto; try congruence;
    try (destruct P as [P1 P2]; f_equal; [now apply IHHU1|now apply IHHU2]).
  f_equal. now apply IHHU.
Qed.

Lemma access_extracted : forall p cur e v, plain e -> sub_value p e v ->
  exists a, getDimensionAccess e = Ok (Some a) /\ da_map p cur a = Ok [mdrange_of_point [v]].
Proof.
  intros p cur e v P H. induction H; cbn in P; try (destruct P as [P1 P2]); try tauto;
    try destruct (IHsub_value P) as (x & X1 & X2);
    try destruct (IHsub_value1 P1) as (x & X1 & X2); try destruct (IHsub_value2 P2) as (y & Y1 & Y2);
    cbn [getDimensionAccess]; rewrite ?X1, ?Y1; cbn [bind]; eexists; (split; [reflexivity|]);
    cbn [da_map bind]; rewrite ?X2, ?Y2; cbn [bind]; try reflexivity.
  - rewrite (bs_op_point _ _ _ (-1 * v)) by reflexivity. reflexivity.
  - now apply bs_op_point.
  - now apply bs_op_point.
  - now apply bs_op_point.
  - apply bs_op_point. unfold div_trunc. destruct (v =? 0) eqn:E; [lia|reflexivity].
  - rewrite H. reflexivity.
Qed.

Lemma materialized_value : forall p e s v, materialize e = Some s -> dividends_ok p e ->
  aeval p e = Some v -> plain s /\ sub_value p s v.
Proof.
  intros p. induction e; intros s v M D H; cbn in *; try discriminate.
  - injection M as <-. split; [exact I|]. now constructor.
  - injection M as <-. injection H as <-. split; [exact I|]. constructor.
  - destruct (materialize e1) as [x|]; [|discriminate]. destruct (materialize e2) as [y|]; [|discriminate].
    injection M as <-. destruct (aeval p e1) as [u|]; [|discriminate]. destruct (aeval p e2) as [w|]; [|discriminate].
    injection H as <-. destruct D as [D1 D2]. destruct (IHe1 _ _ eq_refl D1 eq_refl), (IHe2 _ _ eq_refl D2 eq_refl).
    split; [cbn; auto|now constructor].
  - destruct (materialize e1) as [x|]; [|discriminate]. destruct (materialize e2) as [y|]; [|discriminate].
    injection M as <-. destruct (aeval p e1) as [u|]; [|discriminate]. destruct (aeval p e2) as [w|]; [|discriminate].
    injection H as <-. destruct D as [D1 D2]. destruct (IHe1 _ _ eq_refl D1 eq_refl), (IHe2 _ _ eq_refl D2 eq_refl).
    split; [cbn; auto|now constructor].
  - destruct (materialize e1) as [x|]; [|discriminate]. destruct (materialize e2) as [y|]; [|discriminate].
    injection M as <-. destruct (aeval p e1) as [u|]; [|discriminate]. destruct (aeval p e2) as [w|]; [|discriminate].
    destruct (w =? 0) eqn:E; [discriminate|]. injection H as <-. destruct D as (D1 & D2 & D3 & D4).
    destruct (IHe1 _ _ eq_refl D1 eq_refl), (IHe2 _ _ eq_refl D2 eq_refl). split; [cbn; auto|].
    specialize (D3 u eq_refl). specialize (D4 w eq_refl). rewrite <- Z.quot_div_nonneg by lia. constructor; auto. lia.
Qed.
