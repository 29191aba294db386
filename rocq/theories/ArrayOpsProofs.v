(** Proofs about the operators on arrays. *)

From Coq Require Import List Arith Bool Lia Ring.
Import ListNotations.
From Verif Require Import ArrayOpsModel ArrayOpsSpec.

Section Proofs.
Context {K : Type} (zero one : K) (add sub mul fdiv idiv : K -> K -> K) (opp : K -> K).
Context (R : ring_theory zero one add mul sub opp eq).
Add Ring Kring : R.

Notation lower := (@lower K add sub mul fdiv idiv).
Notation acc := (accumulate add).
Notation tot := (total zero add).
Notation pow_loop := (pow_loop zero one add mul).
Notation power := (power zero one add mul).

Ltac ty := unfold typed; cbn; repeat match goal with H : a_ty _ = _ |- _ => rewrite ?H; clear H end;
  repeat match goal with |- context [a_ty ?x] => destruct (a_ty x) end; cbn; intuition congruence.

Lemma arrays_ok : forall junk b x y, a_dims x = a_dims y ->
  b <> BMul -> b <> BDiv -> (b = BDivEW -> a_ty x = EReal \/ a_ty y = EReal) ->
  elementwise add sub mul fdiv b (a_dims x) (VA x) (VA y) (lower junk b (VA x) (VA y)).
Proof.
  intros junk b x y E N1 N2 D.
  assert (L : rank x =? rank y = true) by (unfold rank; rewrite E; apply Nat.eqb_refl).
  destruct b; try congruence; cbn [ArrayOpsModel.lower]; unfold ew_arrays; rewrite L;
    eexists; (split; [reflexivity |]); (split; [reflexivity |]);
    (split; [try ty | intros i; cbn; try reflexivity]).
  destruct (D eq_refl) as [Q | Q]; rewrite Q; [reflexivity |]. destruct (a_ty x); reflexivity.
Qed.

Lemma mixed_left : forall junk b st s x, mixed_ok b true st (a_ty x) ->
  elementwise add sub mul fdiv b (a_dims x) (VS st s) (VA x) (lower junk b (VS st s) (VA x)).
Proof.
  intros junk b st s x H.
  destruct b; cbn in H; try contradiction; cbn [ArrayOpsModel.lower mul_op]; unfold mixed, mixed_dest;
    try (destruct H as (H & H'); try discriminate);
    destruct st, (a_ty x) eqn:T; cbn [generic ety_eqb] in *; try congruence;
    try (exfalso; specialize (H eq_refl); discriminate);
    try (exfalso; specialize (H' eq_refl); discriminate);
    eexists; (split; [reflexivity |]); (split; [reflexivity |]);
    (split; [ty | intros i; cbn; ring || reflexivity]).
Qed.

Lemma mixed_right : forall junk b st s x, mixed_ok b false st (a_ty x) ->
  elementwise add sub mul fdiv b (a_dims x) (VA x) (VS st s) (lower junk b (VA x) (VS st s)).
Proof.
  intros junk b st s x H.
  destruct b; cbn in H; try contradiction; cbn [ArrayOpsModel.lower mul_op]; unfold mixed, mixed_dest;
    try (destruct H as (H & H'); try discriminate);
    destruct st, (a_ty x) eqn:T; cbn [generic ety_eqb] in *; try congruence;
    try (exfalso; specialize (H eq_refl); discriminate);
    try (exfalso; specialize (H' eq_refl); discriminate);
    eexists; (split; [reflexivity |]); (split; [reflexivity |]);
    (split; [ty | intros i; cbn; ring || reflexivity]).
Qed.

Lemma mixed_bad : forall junk s x,
  (a_ty x = EReal ->
     lower junk BMul (VS EInt s) (VA x) = None /\ lower junk BAddEW (VS EInt s) (VA x) = None
     /\ lower junk BAddEW (VA x) (VS EInt s) = None /\ lower junk BMulEW (VS EInt s) (VA x) = None
     /\ lower junk BMulEW (VA x) (VS EInt s) = None /\ lower junk BDiv (VA x) (VS EInt s) = None)
  /\ (a_ty x = EInt ->
     lower junk BSubEW (VS EReal s) (VA x) = None /\ lower junk BSubEW (VA x) (VS EReal s) = None
     /\ lower junk BDivEW (VS EReal s) (VA x) = None /\ lower junk BDivEW (VA x) (VS EReal s) = None)
  /\ (forall t, lower junk BMul (VA x) (VS t s) = None).
Proof.
  intros junk s x. split; [| split].
  - intros E. cbn [ArrayOpsModel.lower mul_op]. unfold mixed. rewrite E. cbn. repeat split; reflexivity.
  - intros E. cbn [ArrayOpsModel.lower]. unfold mixed_dest. rewrite E. cbn. repeat split; reflexivity.
  - intros t. reflexivity.
Qed.

Lemma int_division : forall junk x y s, a_ty x = EInt -> a_ty y = EInt -> a_dims x = a_dims y ->
  (exists r, lower junk BDiv (VA x) (VS EInt s) = Some (VA r) /\ a_ty r = EReal
     /\ forall i, a_at r i = idiv (a_at x i) s)
  /\ (exists r, lower junk BDivEW (VA x) (VA y) = Some (VA r)
     /\ forall i, a_at r i = idiv (a_at x i) (a_at y i)).
Proof.
  intros junk x y s Ex Ey Ed. split.
  - cbn [ArrayOpsModel.lower]. unfold mixed. rewrite Ex. cbn. eexists. repeat split; reflexivity.
  - cbn [ArrayOpsModel.lower]. unfold ew_arrays, rank. rewrite Ed, Nat.eqb_refl, Ex, Ey.
    eexists. split; [reflexivity |]. intros i. reflexivity.
Qed.

(** ** Sums *)

Lemma fold_seq : forall n a f,
  fold_right (fun k s => add (f k) s) zero (seq a (S n))
  = add (fold_right (fun k s => add (f k) s) zero (seq a n)) (f (a + n)).
Proof.
  induction n as [| n IH]; intros a f.
  - cbn. rewrite Nat.add_0_r. ring.
  - change (seq a (S (S n))) with (a :: seq (S a) (S n)). cbn [fold_right]. rewrite IH.
    cbn [seq fold_right]. replace (S a + n) with (a + S n) by lia. ring.
Qed.

Lemma tot_S : forall n f, tot (S n) f = add (tot n f) (f n).
Proof. intros n f. unfold total. apply (fold_seq n 0 f). Qed.

Lemma acc_tot : forall n init f, acc n init f = add init (tot n f).
Proof.
  induction n as [| n IH]; intros init f; [cbn; ring |].
  cbn [accumulate]. rewrite IH, tot_S. ring.
Qed.

Lemma tot_ext : forall n f g, (forall k, k < n -> f k = g k) -> tot n f = tot n g.
Proof.
  induction n as [| n IH]; intros f g H; [reflexivity |]. rewrite !tot_S.
  rewrite (IH f g), (H n) by (intros; try apply H; lia). reflexivity.
Qed.

Lemma tot_add : forall n f g, tot n (fun k => add (f k) (g k)) = add (tot n f) (tot n g).
Proof. induction n as [| n IH]; intros f g; [cbn; ring |]. rewrite !tot_S, IH. ring. Qed.

Lemma tot_scale : forall n f c, tot n (fun k => mul (f k) c) = mul (tot n f) c.
Proof. induction n as [| n IH]; intros f c; [cbn; ring |]. rewrite !tot_S, IH. ring. Qed.

Lemma tot_zero : forall n, tot n (fun _ => zero) = zero.
Proof. induction n as [| n IH]; [reflexivity |]. rewrite tot_S, IH. ring. Qed.

Lemma tot_swap : forall n m f,
  tot n (fun i => tot m (fun j => f i j)) = tot m (fun j => tot n (fun i => f i j)).
Proof.
  induction n as [| n IH]; intros m f.
  - cbn. symmetry. apply tot_zero.
  - rewrite tot_S, IH, <- tot_add. apply tot_ext. intros j Hj. rewrite tot_S. reflexivity.
Qed.

(** ** Products *)

Lemma dot_ok : forall junk n x y, a_dims x = [n] -> a_dims y = [n] -> junk [] = zero ->
  is_dot zero add mul n x y (lower junk BMul (VA x) (VA y)).
Proof.
  intros junk n x y Ex Ey J. cbn [ArrayOpsModel.lower mul_op]. unfold rank. rewrite Ex, Ey. cbn [length].
  exists (generic (a_ty x) (a_ty y)). split; [| ty].
  do 2 f_equal. unfold dot, dim. rewrite Ex. cbn [nth]. rewrite acc_tot, J. ring.
Qed.

Lemma vecmat_ok : forall junk n m x y, a_dims x = [n] -> a_dims y = [n; m] ->
  (forall i, junk i = zero) -> (nth 1 (a_dyn y) false = true -> n = m) ->
  is_vecmat zero add mul n m x y (lower junk BMul (VA x) (VA y)).
Proof.
  intros junk n m x y Ex Ey J D. cbn [ArrayOpsModel.lower mul_op]. unfold rank. rewrite Ex, Ey. cbn [length].
  eexists. split; [reflexivity |]. unfold vecmat, dim. rewrite Ey. cbn [a_dims a_at nth]. split; [| split].
  - destruct (nth 1 (a_dyn y) false); [rewrite D by reflexivity |]; reflexivity.
  - ty.
  - intros j Hj. rewrite acc_tot, J. ring.
Qed.

Lemma matvec_ok : forall junk n m x y, a_dims x = [m; n] -> a_dims y = [n] ->
  (forall i, junk i = zero) -> (nth 0 (a_dyn x) false = true -> n = m) ->
  is_matvec zero add mul m n x y (lower junk BMul (VA x) (VA y)).
Proof.
  intros junk n m x y Ex Ey J D. cbn [ArrayOpsModel.lower mul_op]. unfold rank. rewrite Ex, Ey. cbn [length].
  eexists. split; [reflexivity |]. unfold vecmat, transpose, dim.
  rewrite Ex. cbn [a_dims a_at a_dyn nth]. split; [| split].
  - destruct (nth 0 (a_dyn x) false); [rewrite D by reflexivity |]; reflexivity.
  - ty.
  - intros i Hi. rewrite acc_tot, J. transitivity (tot n (fun k => mul (a_at y [k]) (a_at x [i; k]))); [ring |].
    apply tot_ext. intros k Hk. ring.
Qed.

Lemma matmul_ok : forall junk m n p x y, a_dims x = [m; n] -> a_dims y = [n; p] ->
  (forall i, junk i = zero) ->
  is_matmul zero add mul m n p x y (lower junk BMul (VA x) (VA y)).
Proof.
  intros junk m n p x y Ex Ey J. cbn [ArrayOpsModel.lower mul_op]. unfold rank. rewrite Ex, Ey. cbn [length].
  eexists. split; [reflexivity |]. unfold matmul, dim. rewrite Ex, Ey. cbn [a_dims a_at nth].
  split; [reflexivity |]. split; [ty |]. intros i j Hi Hj. rewrite acc_tot, J. ring.
Qed.

Lemma dot_junk : forall junk n x y, a_dims x = [n] -> a_dims y = [n] ->
  (is_dot zero add mul n x y (lower junk BMul (VA x) (VA y)) <-> junk [] = zero).
Proof.
  intros junk n x y Ex Ey. split; [| apply dot_ok; assumption].
  intros (t & E & _). cbn [ArrayOpsModel.lower mul_op] in E. unfold rank in E. rewrite Ex, Ey in E. cbn [length] in E.
  injection E as _ E. unfold dot, dim in E. rewrite Ex in E. cbn [nth] in E. rewrite acc_tot in E.
  set (q := tot n _) in E. transitivity (sub (add (junk []) q) q); [ring |].
  change (sub (add (junk []) q) q = zero). rewrite E. unfold q. ring.
Qed.

Lemma matmul_junk : forall junk m n p x y i j, a_dims x = [m; n] -> a_dims y = [n; p] ->
  i < m -> j < p -> is_matmul zero add mul m n p x y (lower junk BMul (VA x) (VA y)) ->
  junk [i; j] = zero.
Proof.
  intros junk m n p x y i j Ex Ey Hi Hj (a & E & _ & _ & H).
  specialize (H i j Hi Hj). cbn [ArrayOpsModel.lower mul_op] in E. unfold rank in E.
  rewrite Ex, Ey in E. cbn [length] in E. injection E as <-.
  unfold matmul, dim in H. rewrite Ex in H. cbn [a_at nth] in H. rewrite acc_tot in H.
  set (q := tot n _) in H. transitivity (sub (add (junk [i; j]) q) q); [ring |].
  rewrite H. unfold q. ring.
Qed.

Lemma vecmat_dynamic : forall junk n m x y, a_dims x = [n] -> a_dims y = [n; m] ->
  nth 1 (a_dyn y) false = true ->
  exists a, lower junk BMul (VA x) (VA y) = Some (VA a) /\ a_dims a = [n].
Proof.
  intros junk n m x y Ex Ey D. cbn [ArrayOpsModel.lower mul_op]. unfold rank. rewrite Ex, Ey. cbn [length].
  eexists. split; [reflexivity |]. unfold vecmat, dim. rewrite D, Ey. reflexivity.
Qed.

Lemma matvec_dynamic : forall junk n m x y, a_dims x = [m; n] -> a_dims y = [n] ->
  nth 0 (a_dyn x) false = true ->
  exists a, lower junk BMul (VA x) (VA y) = Some (VA a) /\ a_dims a = [n].
Proof.
  intros junk n m x y Ex Ey D. cbn [ArrayOpsModel.lower mul_op]. unfold rank. rewrite Ex, Ey. cbn [length].
  eexists. split; [reflexivity |]. unfold vecmat, transpose, dim. cbn [a_dims a_dyn nth]. rewrite D, Ex. reflexivity.
Qed.

(** ** Powers *)

Lemma pow_dims : forall a n e, a_dims a = [n; n] -> a_dims (pow_loop a e) = [n; n].
Proof.
  intros a n e E. destruct e as [| e]; [exact E |]. cbn [ArrayOpsModel.pow_loop]. unfold matmul, dim.
  cbn [a_dims]. rewrite E. cbn [nth].
  assert (Q : a_dims (pow_loop a e) = [n; n]).
  { induction e as [| e IH]; [exact E |]. cbn [ArrayOpsModel.pow_loop]. unfold matmul, dim. cbn [a_dims].
    rewrite IH, E. reflexivity. }
  rewrite Q. reflexivity.
Qed.

Lemma power_columns : forall a n e i j, a_dims a = [n; n] -> j < n ->
  a_at (pow_loop a e) [i; j] = tot n (fun k => power n (fun p q => a_at a [p; q]) e k j).
Proof.
  intros a n e. induction e as [| e IH]; intros i j E Hj.
  - cbn [ArrayOpsModel.pow_loop ArrayOpsSpec.power a_at].
    assert (Q : forall m, tot m (fun k => if k =? j then one else zero) = if j <? m then one else zero).
    { induction m as [| m IHm]; [reflexivity |]. rewrite tot_S, IHm.
      destruct (Nat.ltb_spec j m), (Nat.eqb_spec m j), (Nat.ltb_spec j (S m)); try lia; ring. }
    rewrite Q. apply Nat.ltb_lt in Hj. rewrite Hj. reflexivity.
  - cbn [ArrayOpsModel.pow_loop ArrayOpsSpec.power]. unfold matmul, dim. cbn [a_at nth].
    rewrite (pow_dims a n e E). cbn [nth]. rewrite acc_tot.
    transitivity (tot n (fun k => mul (tot n (fun p => power n (fun p q => a_at a [p; q]) e p k)) (a_at a [k; j]))).
    + transitivity (tot n (fun k => mul (a_at (pow_loop a e) [i; k]) (a_at a [k; j]))); [ring |].
      apply tot_ext. intros k Hk. rewrite IH by assumption. reflexivity.
    + rewrite tot_swap. apply tot_ext. intros k Hk. rewrite tot_scale. reflexivity.
Qed.

Lemma power_zero_wrong : forall a n, a_dims a = [n; n] -> 1 < n -> one <> zero ->
  a_at (pow_loop a 0) [0; 1] <> power n (fun p q => a_at a [p; q]) 0 0 1.
Proof. intros a n E Hn H. cbn. exact H. Qed.

End Proofs.
