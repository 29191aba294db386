(** Proofs about the reductions and their ranges. *)
From Coq Require Import ZArith List Bool Permutation Reals SpecFloat Lia Lra ZifyBool.
From Flocq Require Import Core IEEE754.BinarySingleNaN.
From Verif Require Import Result ArithModel ArithSpec FloatFacts ArithProofs ArithFoldProofs ArithBuiltinProofs.
Import ListNotations.
Local Open Scope Z_scope.

(** ** Sums and products *)

Definition M64 : Z := 2 ^ 64.
Lemma wrap_range : forall z, in_range (wrap (TI 64) z).
Proof. intros z. unfold in_range, wrap. cbn [bits]. pose proof (Z.mod_pos_bound (z + 2 ^ (64 - 1)) (2 ^ 64) ltac:(lia)). lia. Qed.
Lemma wrap_mod : forall z, wrap (TI 64) z mod M64 = z mod M64.
Proof.
  intros z. unfold wrap, M64. cbn [bits]. rewrite Zminus_mod, Zmod_mod, <- Zminus_mod. f_equal. lia.
Qed.
Lemma same_mod : forall x y, in_range x -> in_range y -> x mod M64 = y mod M64 -> x = y.
Proof.
  unfold in_range, M64. intros x y Hx Hy E.
  pose proof (Z.div_mod x (2 ^ 64) ltac:(lia)). pose proof (Z.div_mod y (2 ^ 64) ltac:(lia)). lia.
Qed.
(** The value a leaf brings. *)
Definition leaf {A} (init : A) (v : nat -> A) (i : option nat) : A := match i with None => init | Some n => v n end.
Lemma reduce_range : forall a init v t, (forall i, In i (leaves t) -> in_range (leaf init v i)) ->
  in_range (reduce (combine_int a) init v t).
Proof.
  intros a init v t. induction t as [i|x IHx y IHy]; intros H.
  - specialize (H i (or_introl eq_refl)). now destruct i.
  - cbn [reduce leaves] in *. specialize (IHx (fun i Hi => H i (in_or_app _ _ _ (or_introl Hi)))).
    specialize (IHy (fun i Hi => H i (in_or_app _ _ _ (or_intror Hi)))).
    destruct a; cbn [combine_int]; try apply wrap_range.
    + destruct (_ <? _); assumption.
    + destruct (_ <? _); assumption.
Qed.
Lemma fold_add_app : forall l m x, fold_right Z.add x (l ++ m) = fold_right Z.add 0 l + fold_right Z.add x m.
Proof. induction l as [|y l IH]; intros m x; cbn; [lia|]. rewrite IH. lia. Qed.
Lemma fold_mul_app : forall l m x, fold_right Z.mul x (l ++ m) = fold_right Z.mul 1 l * fold_right Z.mul x m.
Proof.
  induction l as [|y l IH]; intros m x; cbn [app fold_right]; [now rewrite Z.mul_1_l|]. rewrite IH. lia.
Qed.
Lemma fold_add_perm : forall l m, Permutation l m -> fold_right Z.add 0 l = fold_right Z.add 0 m.
Proof. induction 1; cbn; lia. Qed.
Lemma fold_mul_perm : forall l m, Permutation l m -> fold_right Z.mul 1 l = fold_right Z.mul 1 m.
Proof. induction 1; cbn [fold_right]; lia. Qed.
Lemma reduce_add : forall init v t,
  reduce (combine_int RAdd) init v t mod M64 = fold_right Z.add 0 (map (leaf init v) (leaves t)) mod M64.
Proof.
  intros init v t. induction t as [i|x IHx y IHy].
  - cbn [reduce leaves map fold_right]. rewrite Z.add_0_r. now destruct i.
  - cbn [reduce leaves combine_int]. rewrite map_app, fold_add_app, wrap_mod, Zplus_mod, IHx, IHy. symmetry. apply Zplus_mod.
Qed.
Lemma reduce_mul : forall init v t,
  reduce (combine_int RMul) init v t mod M64 = fold_right Z.mul 1 (map (leaf init v) (leaves t)) mod M64.
Proof.
  intros init v t. induction t as [i|x IHx y IHy].
  - cbn [reduce leaves map fold_right]. rewrite Z.mul_1_r. now destruct i.
  - cbn [reduce leaves combine_int]. rewrite map_app, fold_mul_app, wrap_mod, Zmult_mod, IHx, IHy. symmetry. apply Zmult_mod.
Qed.
Lemma leaf_values : forall {A} (init : A) v n t, order_of n t -> Permutation (map (leaf init v) (leaves t)) (init :: map v (seq 0 n)).
Proof.
  intros A init v n t H. unfold order_of in H. eapply Permutation_trans; [apply Permutation_map; exact H|]. cbn [map leaf]. rewrite map_map. cbn [leaf]. apply Permutation_refl.
Qed.
Lemma leaf_in : forall n t i, order_of n t -> In i (leaves t) <-> i = None \/ exists k, (k < n)%nat /\ i = Some k.
Proof.
  intros n t i H. split.
  - intros Hi. apply (Permutation_in _ H) in Hi. destruct Hi as [<-|Hi]; [now left|]. apply in_map_iff in Hi. destruct Hi as (k & <- & Hk).
    apply in_seq in Hk. right. exists k. split; [lia|reflexivity].
  - intros Hi. apply (Permutation_in _ (Permutation_sym H)). destruct Hi as [->|(k & Hk & ->)]; [now left|]. right. apply in_map, in_seq. lia.
Qed.
Theorem sum_ok : forall n v t, order_of n t -> (forall i, (i < n)%nat -> in_range (v i)) -> in_range (total v n) ->
  reduce (combine_int RAdd) (init_int RAdd) v t = total v n.
Proof.
  intros n v t H R T. apply same_mod; [|exact T|].
  - apply reduce_range. intros i Hi. apply (leaf_in n t i H) in Hi. destruct Hi as [->|(k & Hk & ->)]; [unfold in_range; cbn; lia|now apply R].
  - rewrite reduce_add, (fold_add_perm _ _ (leaf_values _ v n t H)). reflexivity.
Qed.
Theorem product_ok : forall n v t, order_of n t -> (forall i, (i < n)%nat -> in_range (v i)) -> in_range (product v n) ->
  reduce (combine_int RMul) (init_int RMul) v t = product v n.
Proof.
  intros n v t H R T. apply same_mod; [|exact T|].
  - apply reduce_range. intros i Hi. apply (leaf_in n t i H) in Hi. destruct Hi as [->|(k & Hk & ->)]; [unfold in_range; cbn; lia|now apply R].
  - rewrite reduce_mul, (fold_mul_perm _ _ (leaf_values _ v n t H)). cbn [fold_right]. change (init_int RMul) with 1. now rewrite Z.mul_1_l.
Qed.

(** ** Least and greatest *)

Lemma reduce_pick : forall {A} (f : A -> A -> A) init v t, (forall x y, f x y = x \/ f x y = y) ->
  exists i, In i (leaves t) /\ reduce f init v t = leaf init v i.
Proof.
  intros A f init v t Hf. induction t as [i|x (i & Hi & Ei) y (j & Hj & Ej)].
  - exists i. split; [now left|]. now destruct i.
  - cbn [reduce leaves]. destruct (Hf (reduce f init v x) (reduce f init v y)) as [->| ->].
    + exists i. split; [apply in_or_app; now left|exact Ei].
    + exists j. split; [apply in_or_app; now right|exact Ej].
Qed.
Lemma reduce_below : forall {A} (f : A -> A -> A) (le : A -> A -> Prop) (P : A -> Prop) init v t,
  (forall x y, P x -> P y -> P (f x y) /\ le (f x y) x /\ le (f x y) y) ->
  (forall x, P x -> le x x) -> (forall x y z, P x -> P y -> P z -> le x y -> le y z -> le x z) ->
  (forall i, In i (leaves t) -> P (leaf init v i)) ->
  P (reduce f init v t) /\ forall i, In i (leaves t) -> le (reduce f init v t) (leaf init v i).
Proof.
  intros A f le P init v t Hf Hr Ht. induction t as [i|x IHx y IHy]; intros HP.
  - assert (E : reduce f init v (Leaf i) = leaf init v i) by (now destruct i). rewrite E.
    split; [apply HP; now left|]. intros j [<-|[]]. apply Hr, HP. now left.
  - cbn [reduce leaves] in *. destruct (IHx (fun i Hi => HP i (in_or_app _ _ _ (or_introl Hi)))) as [Px Lx].
    destruct (IHy (fun i Hi => HP i (in_or_app _ _ _ (or_intror Hi)))) as [Py Ly].
    destruct (Hf _ _ Px Py) as (Pf & L1 & L2). split; [exact Pf|]. intros i Hi. pose proof (HP i Hi) as Pi. apply in_app_or in Hi. destruct Hi as [Hi|Hi].
    + eapply Ht; [exact Pf|exact Px|exact Pi|exact L1|now apply Lx].
    + eapply Ht; [exact Pf|exact Py|exact Pi|exact L2|now apply Ly].
Qed.
Theorem min_ok : forall n v t, order_of n t -> (0 < n)%nat -> (forall i, (i < n)%nat -> in_range (v i)) ->
  exists k, (k < n)%nat /\ reduce (combine_int RMin) (init_int RMin) v t = v k /\ forall i, (i < n)%nat -> v k <= v i.
Proof.
  intros n v t H Hn R.
  assert (L : forall i, In i (leaves t) -> reduce (combine_int RMin) (init_int RMin) v t <= leaf (init_int RMin) v i).
  { apply (reduce_below (combine_int RMin) Z.le (fun _ => True)); try (intros; auto; lia).
    intros x y _ _. cbn [combine_int]. destruct (Z.ltb_spec y x); lia. }
  destruct (reduce_pick (combine_int RMin) (init_int RMin) v t) as (i & Hi & E).
  { intros x y. cbn [combine_int]. destruct (_ <? _); auto. }
  assert (L' : forall j, (j < n)%nat -> reduce (combine_int RMin) (init_int RMin) v t <= v j).
  { intros j Hj. apply (L (Some j)). apply (leaf_in n t _ H). right. now exists j. }
  apply (leaf_in n t i H) in Hi. destruct Hi as [->|(k & Hk & ->)].
  - exists 0%nat. assert (v 0%nat = 2 ^ 63 - 1). { specialize (L' 0%nat Hn). specialize (R 0%nat Hn). unfold in_range in R. rewrite E in L'. cbn [leaf init_int] in L'. lia. }
    split; [exact Hn|]. split; [rewrite E; cbn [leaf init_int]; lia|]. intros j Hj. specialize (L' j Hj). rewrite E in L'. cbn [leaf init_int] in L'. lia.
  - exists k. split; [exact Hk|]. split; [exact E|]. intros j Hj. specialize (L' j Hj). now rewrite E in L'.
Qed.
Theorem max_ok : forall n v t, order_of n t -> (0 < n)%nat -> (forall i, (i < n)%nat -> in_range (v i)) ->
  exists k, (k < n)%nat /\ reduce (combine_int RMax) (init_int RMax) v t = v k /\ forall i, (i < n)%nat -> v i <= v k.
Proof.
  intros n v t H Hn R.
  assert (L : forall i, In i (leaves t) -> reduce (combine_int RMax) (init_int RMax) v t >= leaf (init_int RMax) v i).
  { apply (reduce_below (combine_int RMax) Z.ge (fun _ => True)); try (intros; auto; lia).
    intros x y _ _. cbn [combine_int]. destruct (Z.ltb_spec x y); lia. }
  destruct (reduce_pick (combine_int RMax) (init_int RMax) v t) as (i & Hi & E).
  { intros x y. cbn [combine_int]. destruct (_ <? _); auto. }
  assert (L' : forall j, (j < n)%nat -> reduce (combine_int RMax) (init_int RMax) v t >= v j).
  { intros j Hj. apply (L (Some j)). apply (leaf_in n t _ H). right. now exists j. }
  apply (leaf_in n t i H) in Hi. destruct Hi as [->|(k & Hk & ->)].
  - exists 0%nat. assert (v 0%nat = - 2 ^ 63). { specialize (L' 0%nat Hn). specialize (R 0%nat Hn). unfold in_range in R. rewrite E in L'. cbn [leaf init_int] in L'. lia. }
    split; [exact Hn|]. split; [rewrite E; cbn [leaf init_int]; lia|]. intros j Hj. specialize (L' j Hj). rewrite E in L'. cbn [leaf init_int] in L'. lia.
  - exists k. split; [exact Hk|]. split; [exact E|]. intros j Hj. specialize (L' j Hj). rewrite E in L'. cbn [leaf] in L'. lia.
Qed.
Definition fin (f : spec_float) : Prop := is_double f /\ finite f.
Definition Rle_of (f g : spec_float) : Prop := (R_of f <= R_of g)%R.
Lemma min_real_below : forall x y, fin x -> fin y ->
  fin (combine_real RMin x y) /\ Rle_of (combine_real RMin x y) x /\ Rle_of (combine_real RMin x y) y.
Proof.
  intros x y [Dx Fx] [Dy Fy]. cbn [combine_real]. rewrite ltb_num by assumption. unfold Rle_of.
  destruct (Rlt_bool_spec (R_of y) (R_of x)); (split; [now split|]); lra.
Qed.
Lemma max_real_above : forall x y, fin x -> fin y ->
  fin (combine_real RMax x y) /\ Rle_of x (combine_real RMax x y) /\ Rle_of y (combine_real RMax x y).
Proof.
  intros x y [Dx Fx] [Dy Fy]. cbn [combine_real]. rewrite ltb_num by assumption. unfold Rle_of.
  destruct (Rlt_bool_spec (R_of x) (R_of y)); (split; [now split|]); lra.
Qed.
Lemma dbl_max_bound : forall f, fin f -> (R_of f <= R_of dbl_max)%R.
Proof.
  intros f [D F]. destruct (double_of _ D) as [x ->]. unfold R_of. rewrite SF2R_B2SF.
  apply Rle_trans with (Rabs (B2R x)); [apply Rle_abs|]. eapply Rle_trans; [apply abs_B2R_le_emax_minus_prec; reflexivity|].
  right. unfold dbl_max, SF2R, F2R. cbn [Fnum Fexp cond_Zopp]. change (bpow radix2 1024) with (bpow radix2 (53 + 971)). change (1024 - 53) with 971.
  rewrite bpow_plus. change (bpow radix2 53) with (IZR (2 ^ 53)). rewrite <- (Rmult_1_l (bpow radix2 971)) at 2.
  rewrite <- Rmult_minus_distr_r. f_equal. rewrite <- minus_IZR. reflexivity.
Qed.
Lemma fin_init : forall a, fin (init_real a).
Proof. intros a. destruct a; (split; [reflexivity|exact I]). Qed.
Lemma fin_leaf : forall n t a v, order_of n t -> (forall i, (i < n)%nat -> fin (v i)) -> forall i, In i (leaves t) -> fin (leaf (init_real a) v i).
Proof.
  intros n t a v H F i Hi. apply (leaf_in n t i H) in Hi. destruct Hi as [->|(k & Hk & ->)]; [apply fin_init|now apply F].
Qed.
Theorem min_real_ok : forall n v t, order_of n t -> (0 < n)%nat -> (forall i, (i < n)%nat -> fin (v i)) ->
  exists k, (k < n)%nat /\ R_of (reduce (combine_real RMin) (init_real RMin) v t) = R_of (v k) /\
    forall i, (i < n)%nat -> (R_of (v k) <= R_of (v i))%R.
Proof.
  intros n v t H Hn R.
  destruct (reduce_below (combine_real RMin) Rle_of fin (init_real RMin) v t) as [P L].
  { apply min_real_below. } { intros x _. unfold Rle_of. lra. } { unfold Rle_of. intros. lra. } { now apply (fin_leaf n). }
  destruct (reduce_pick (combine_real RMin) (init_real RMin) v t) as (i & Hi & E).
  { intros x y. cbn [combine_real]. destruct (SFltb _ _); auto. }
  assert (L' : forall j, (j < n)%nat -> Rle_of (reduce (combine_real RMin) (init_real RMin) v t) (v j)).
  { intros j Hj. apply (L (Some j)). apply (leaf_in n t _ H). right. now exists j. }
  unfold Rle_of in L'. apply (leaf_in n t i H) in Hi. destruct Hi as [->|(k & Hk & ->)].
  - exists 0%nat. rewrite E in *. cbn [leaf] in *. pose proof (dbl_max_bound (v 0%nat) (R _ Hn)) as B. pose proof (L' 0%nat Hn) as L0.
    change (init_real RMin) with dbl_max in *.
    split; [exact Hn|]. split; [lra|]. intros j Hj. specialize (L' j Hj). lra.
  - exists k. rewrite E in *. cbn [leaf] in *. split; [exact Hk|]. split; [reflexivity|exact L'].
Qed.
Theorem max_real_ok : forall n v t, order_of n t -> (forall i, (i < n)%nat -> fin (v i)) ->
  (exists i, (i < n)%nat /\ (bpow radix2 (-1022) <= R_of (v i))%R) ->
  exists k, (k < n)%nat /\ R_of (reduce (combine_real RMax) (init_real RMax) v t) = R_of (v k) /\
    forall i, (i < n)%nat -> (R_of (v i) <= R_of (v k))%R.
Proof.
  intros n v t H R (p & Hp & Bp).
  destruct (reduce_below (combine_real RMax) (fun x y => Rle_of y x) fin (init_real RMax) v t) as [P L].
  { apply max_real_above. } { intros x _. unfold Rle_of. lra. } { unfold Rle_of. intros. lra. } { now apply (fin_leaf n). }
  destruct (reduce_pick (combine_real RMax) (init_real RMax) v t) as (i & Hi & E).
  { intros x y. cbn [combine_real]. destruct (SFltb _ _); auto. }
  assert (L' : forall j, (j < n)%nat -> Rle_of (v j) (reduce (combine_real RMax) (init_real RMax) v t)).
  { intros j Hj. apply (L (Some j)). apply (leaf_in n t _ H). right. now exists j. }
  assert (I0 : R_of (init_real RMax) = bpow radix2 (-1022)).
  { unfold R_of, init_real, dbl_min, SF2R, F2R. cbn [Fnum Fexp cond_Zopp]. change (-1022) with (52 + -1074). rewrite bpow_plus. reflexivity. }
  unfold Rle_of in L'. apply (leaf_in n t i H) in Hi. destruct Hi as [->|(k & Hk & ->)].
  - exists p. rewrite E in *. cbn [leaf] in *. rewrite I0 in *. pose proof (L' p Hp).
    split; [exact Hp|]. split; [lra|]. intros j Hj. specialize (L' j Hj). lra.
  - exists k. rewrite E in *. cbn [leaf] in *. split; [exact Hk|]. split; [reflexivity|exact L'].
Qed.
Theorem max_real_wrong : forall n v t, order_of n t -> (forall i, (i < n)%nat -> fin (v i)) ->
  (forall i, (i < n)%nat -> (R_of (v i) <= 0)%R) ->
  R_of (reduce (combine_real RMax) (init_real RMax) v t) = bpow radix2 (-1022).
Proof.
  intros n v t H R Neg.
  destruct (reduce_below (combine_real RMax) (fun x y => Rle_of y x) fin (init_real RMax) v t) as [P L].
  { apply max_real_above. } { intros x _. unfold Rle_of. lra. } { unfold Rle_of. intros. lra. } { now apply (fin_leaf n). }
  destruct (reduce_pick (combine_real RMax) (init_real RMax) v t) as (i & Hi & E).
  { intros x y. cbn [combine_real]. destruct (SFltb _ _); auto. }
  assert (I0 : R_of (init_real RMax) = bpow radix2 (-1022)).
  { unfold R_of, init_real, dbl_min, SF2R, F2R. cbn [Fnum Fexp cond_Zopp]. change (-1022) with (52 + -1074). rewrite bpow_plus. reflexivity. }
  assert (Pos : (0 < bpow radix2 (-1022))%R) by apply bpow_gt_0.
  assert (L0 : Rle_of (init_real RMax) (reduce (combine_real RMax) (init_real RMax) v t)).
  { apply (L None). apply (leaf_in n t _ H). now left. }
  unfold Rle_of in L0. apply (leaf_in n t i H) in Hi. destruct Hi as [->|(k & Hk & ->)]; rewrite E in *; cbn [leaf] in *.
  - exact I0.
  - specialize (Neg k Hk). rewrite I0 in L0. lra.
Qed.

(** ** Ranges *)

Lemma parallel_loop_in : forall lower upper step v, 0 < step ->
  In v (parallel_loop lower upper step) <-> exists k, 0 <= k /\ v = lower + k * step /\ v < upper.
Proof.
  intros lower upper step v Hs. unfold parallel_loop. rewrite in_map_iff.
  pose proof (Z.div_mod (upper - lower + step - 1) step ltac:(lia)) as D.
  pose proof (Z.mod_pos_bound (upper - lower + step - 1) step ltac:(lia)) as B. set (c := (upper - lower + step - 1) / step) in *. split.
  - intros (k & <- & Hk). apply in_seq in Hk. exists (Z.of_nat k). split; [lia|]. split; [reflexivity|]. nia.
  - intros (k & Hk & -> & Hu). exists (Z.to_nat k). split; [lia|]. apply in_seq. assert (k < c); [|lia]. nia.
Qed.
Lemma parallel_loop_nodup : forall lower upper step, 0 < step -> NoDup (parallel_loop lower upper step).
Proof.
  intros lower upper step Hs. unfold parallel_loop. apply FinFun.Injective_map_NoDup; [|apply seq_NoDup]. intros a b E. nia.
Qed.
Theorem range_up : forall b e s, 0 < s -> e >= b \/ e <= b - s -> exists l, reduction_inductions b e s = Ok l /\ NoDup l /\
  forall v, In v l <-> in_the_range b e s v.
Proof.
  intros b e s Hs C. unfold reduction_inductions, loop_bounds, range_size. replace (s =? 0) with false by lia. cbn [bind].
  replace (s >=? 0) with true by lia. eexists. split; [reflexivity|]. split; [now apply parallel_loop_nodup|]. intros v.
  rewrite parallel_loop_in by exact Hs. unfold in_the_range. replace (0 <=? s) with true by lia.
  pose proof (Z.quot_rem (e - b) s ltac:(lia)) as Q. set (q := Z.quot (e - b) s) in *.
  assert (RB : (e >= b /\ 0 <= Z.rem (e - b) s < s) \/ (e <= b - s /\ - s < Z.rem (e - b) s <= 0)).
  { destruct C as [C|C]; [left; split; [lia|]; apply Z.rem_bound_pos; lia|right; split; [lia|]].
    pose proof (Z.rem_bound_pos (- (e - b)) s ltac:(lia) ltac:(lia)) as B. rewrite Z.rem_opp_l in B by lia. lia. }
  split; intros (k & Hk & -> & Hu); exists k; (split; [exact Hk|]); (split; [reflexivity|]).
  - assert (k <= q) by nia. nia.
  - assert (k <= q); [|nia]. destruct RB as [[? RB]|[? RB]]; nia.
Qed.
Theorem range_down : forall b e s, s < 0 -> e <= b \/ e >= b - s -> exists l, reduction_inductions b e s = Ok l /\ NoDup l /\
  forall v, In v l <-> in_the_range b e s v.
Proof.
  intros b e s Hs C. unfold reduction_inductions, loop_bounds, range_size. replace (s =? 0) with false by lia. cbn [bind].
  replace (s >=? 0) with false by lia. eexists. split; [reflexivity|]. split; [apply parallel_loop_nodup; lia|]. intros v.
  rewrite parallel_loop_in by lia. unfold in_the_range. replace (0 <=? s) with false by lia.
  pose proof (Z.quot_rem (e - b) s ltac:(lia)) as Q. set (q := Z.quot (e - b) s) in *.
  assert (RB : (e <= b /\ s < Z.rem (e - b) s <= 0) \/ (e >= b - s /\ 0 <= Z.rem (e - b) s < - s)).
  { pose proof (Z.rem_opp_r (e - b) s ltac:(lia)) as O. destruct C as [C|C].
    - left. split; [lia|]. pose proof (Z.rem_bound_pos (- (e - b)) (- s) ltac:(lia) ltac:(lia)) as B. rewrite Z.rem_opp_l in B by lia. lia.
    - right. split; [lia|]. pose proof (Z.rem_bound_pos (e - b) (- s) ltac:(lia) ltac:(lia)) as B. lia. }
  split; intros (k & Hk & -> & Hu); exists (q - k).
  - assert (k <= q) by nia. split; [lia|]. split; [nia|]. assert (b + s * (q + 1 - 1) + k * - s = b + (q - k) * s) as -> by ring.
    assert (q * s <= (q - k) * s) by nia. destruct RB as [[? RB]|[? RB]]; [lia|]. assert (q <= 0) by nia. nia.
  - assert (k <= q). { destruct RB as [[? RB]|[? RB]]; nia. } split; [lia|]. split; [ring|]. nia.
Qed.
Theorem range_short : forall b e s, (0 < s /\ b - s < e < b) \/ (s < 0 /\ b < e < b - s) ->
  reduction_inductions b e s = Ok [b] /\ forall v, ~ in_the_range b e s v.
Proof.
  intros b e s H. unfold reduction_inductions, loop_bounds, range_size. replace (s =? 0) with false by lia. cbn [bind].
  assert (Q : Z.quot (e - b) s = 0).
  { apply Z.quot_small_iff; lia. }
  rewrite Q. split.
  - f_equal. replace (b + s * (0 + 1 - 1)) with b by lia. unfold parallel_loop. destruct (Z.geb_spec s 0) as [G|G].
    + replace ((b + 1 - b + s - 1) / s) with 1; [change (Z.to_nat 1) with 1%nat; cbn [seq map]; change (Z.of_nat 0) with 0; now rewrite Z.mul_0_l, Z.add_0_r|]. replace (b + 1 - b + s - 1) with s by lia. symmetry. apply Z.div_same. lia.
    + replace ((b + 1 - b + - s - 1) / - s) with 1; [change (Z.to_nat 1) with 1%nat; cbn [seq map]; change (Z.of_nat 0) with 0; now rewrite Z.mul_0_l, Z.add_0_r|]. replace (b + 1 - b + - s - 1) with (- s) by lia. symmetry. apply Z.div_same. lia.
  - intros v (k & Hk & -> & Hv). destruct (Z.leb_spec 0 s); nia.
Qed.
