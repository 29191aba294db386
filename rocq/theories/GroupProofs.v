(** Proofs about the explicitation. *)
From Coq Require Import List Bool ZArith QArith Reals Qreals Lra Lia.
From Verif Require Import Result MDRangeModel BoxSetModel Spec BoxSetProofs SymModel SymSpec SymProofs GroupModel GroupSpec.
Import ListNotations.
Local Open Scope R_scope.

Ltac step H := first [rewrite dmul_neg in H|rewrite ddiv_neg in H|rewrite dmul_bin in H|rewrite ddiv_bin in H|discriminate H].
Section Has.
Context {A : Type}.
(** The leaves of an expression. *)
Fixpoint has (a : A) (e : expr A) : Prop :=
  match e with
  | EConst _ => False
  | EAcc b => a = b
  | ENeg x => has a x
  | EBin _ _ l r => has a l \/ has a r
  | ECall _ args => (fix go l := match l with [] => False | x :: l' => has a x \/ go l' end) args
  end.
Lemma has_call : forall a f args, has a (ECall f args) <-> exists x, In x args /\ has a x.
Proof.
  intros a f args. cbn [has]. induction args as [|x args IH].
  - split; [intros []|intros (x & [] & _)].
  - rewrite IH. split.
    + intros [H|(y & I & H)]; [exists x; cbn; auto|exists y; cbn; auto].
    + intros (y & [->|I] & H); [now left|right; exists y; auto].
Qed.
Lemma has_subexpr : forall a e, has a e <-> subexpr (EAcc a) e.
Proof.
  intros a e. induction e as [q|b|e IH|ew o l r IHl IHr|f args IH] using expr_ind'.
  - split; [intros []|intros H; inversion H].
  - cbn. split; [intros ->; constructor|intros H; now inversion H].
  - cbn [has]. rewrite IH. split; [now constructor|intros H; now inversion H].
  - cbn [has]. rewrite IHl, IHr. split; [intros [H|H]; [now apply sub_left|now apply sub_right]|intros H; inversion H; auto].
  - rewrite has_call. rewrite Forall_forall in IH. split.
    + intros (x & I & H). apply (sub_call _ _ _ x I). now apply IH.
    + intros H. inversion H; subst. match goal with I : In ?x _ |- _ => exists x; split; auto; now apply (IH x I) end.
Qed.

Lemma flat_index_in {X Y} (f : nat -> X -> list Y) : forall l i y, In y (flat_index f i l) <-> exists k x, nth_error l k = Some x /\ In y (f (i + k)%nat x).
Proof.
  induction l as [|x l IH]; intros i y; cbn [flat_index].
  - split; [intros []|intros ([|k] & x & H & _); discriminate].
  - rewrite in_app_iff, IH. split.
    + intros [H|(k & z & N & H)]; [exists O, x; rewrite Nat.add_0_r; auto|exists (S k), z; rewrite Nat.add_succ_r; auto].
    + intros ([|k] & z & N & H); [left; inversion N; subst; now rewrite Nat.add_0_r in H|right; exists k, z; rewrite Nat.add_succ_r in H; auto].
Qed.
Lemma accesses_path : forall e p (a : A), In (p, a) (accesses_of e) -> at_path e p = Some (EAcc a).
Proof.
  induction e as [q|b|e IH|ew o l r IHl IHr|f args IH] using expr_ind'; intros p a H; cbn [accesses_of] in H.
  - destruct H.
  - destruct H as [H|[]]. now inversion H.
  - apply in_map_iff in H as ([p' a'] & E & H). inversion E; subst. cbn. now apply IH.
  - apply in_app_iff in H as [H|H]; apply in_map_iff in H as ([p' a'] & E & H); inversion E; subst; cbn; auto.
  - apply flat_index_in in H as (k & x & N & H). apply in_map_iff in H as ([p' a'] & E & H). inversion E; subst. cbn. rewrite N.
    rewrite Forall_forall in IH. apply IH; auto. now apply nth_error_In in N.
Qed.
Lemma accesses_has : forall e (a : A), In a (map snd (accesses_of e)) <-> has a e.
Proof.
  induction e as [q|b|e IH|ew o l r IHl IHr|f args IH] using expr_ind'; intros a.
  - split; intros [].
  - cbn. intuition.
  - cbn [accesses_of has]. rewrite <- IH, map_map. reflexivity.
  - cbn [accesses_of has]. rewrite <- IHl, <- IHr, map_app, in_app_iff, !map_map. reflexivity.
  - rewrite has_call. cbn [accesses_of]. rewrite in_map_iff. split.
    + intros ([p b] & <- & H). apply flat_index_in in H as (k & x & N & H). apply in_map_iff in H as ([p' b'] & E & H). inversion E; subst.
      exists x. apply nth_error_In in N. split; auto. rewrite Forall_forall in IH. apply IH; auto. apply in_map_iff. exists (p', b); auto.
    + intros (x & I & H). rewrite Forall_forall in IH. apply (IH x I) in H. apply in_map_iff in H as ([p b] & <- & H).
      apply In_nth_error in I as (k & N). exists ((k :: p)%list, b). split; auto. apply flat_index_in. exists k, x. split; auto.
      apply in_map_iff. now exists (p, b).
Qed.

(** The rewritings add no leaf. *)
Lemma dneg_has : forall e e' (a : A), dneg e = Some e' -> has a e' -> has a e.
Proof.
  assert (K : forall e (a : A), (forall e' (a : A), dneg e = Some e' -> has a e' -> has a e)
     -> has a (match dneg e with Some y => y | None => ENeg e end) -> has a e).
  { intros e a H. destruct (dneg e) as [y|]; [now apply H|auto]. }
  induction e as [q|b|e IH|ew o l r IHl IHr|f args IH] using expr_ind'; intros e' a H; cbn [dneg] in H; try discriminate.
  - inversion H; subst. cbn [has]. now apply K.
  - destruct o; inversion H; subst; clear H.
    + cbn [has]. intros [H|H]; [left; now apply K|right; now apply K].
    + cbn [has]. intros [H|H]; [left; now apply K|right; now apply K].
    + destruct (dneg l) as [l'|]; [|destruct (dneg r) as [r'|]]; cbn [has]; intros [H|H]; eauto.
    + destruct (dneg l) as [l'|]; [|destruct (dneg r) as [r'|]]; cbn [has]; intros [H|H]; eauto.
Qed.
Lemma dist_has : forall v e (a : A),
  (forall e', dmul v e = Some e' -> has a e' -> has a e \/ has a v) /\ (forall e', ddiv v e = Some e' -> has a e' -> has a e \/ has a v).
Proof.
  intros v e a. 
  induction e as [q|b|e IH|ew o l r IHl IHr|f args IH] using expr_ind'; (split; intros e' H; step H).
  - destruct IH as [IH _]. inversion H; subst. cbn [has]. destruct (dmul v e) as [y|]; [now apply IH|cbn [has]; tauto].
  - destruct IH as [_ IH]. inversion H; subst. cbn [has]. destruct (ddiv v e) as [y|]; [now apply IH|cbn [has]; tauto].
  - destruct IHl as [IHl IHl'], IHr as [IHr IHr']. destruct o; inversion H; subst; clear H.
    + cbn [has]. intros [H|H]; [destruct (dmul v l) as [y|]; [apply (IHl y eq_refl) in H|cbn [has] in H]; tauto|
        destruct (dmul v r) as [y|]; [apply (IHr y eq_refl) in H|cbn [has] in H]; tauto].
    + cbn [has]. intros [H|H]; [destruct (dmul v l) as [y|]; [apply (IHl y eq_refl) in H|cbn [has] in H]; tauto|
        destruct (dmul v r) as [y|]; [apply (IHr y eq_refl) in H|cbn [has] in H]; tauto].
    + destruct (dmul v l) as [l'|]; [|destruct (dmul v r) as [r'|]]; cbn [has]; intros [H|H]; try tauto.
      * apply (IHl l' eq_refl) in H. tauto.
      * apply (IHr r' eq_refl) in H. tauto.
    + destruct (dmul v l) as [l'|]; [|destruct (ddiv v r) as [r'|]]; cbn [has]; intros [H|H]; try tauto.
      * apply (IHl l' eq_refl) in H. tauto.
      * apply (IHr' r' eq_refl) in H. tauto.
  - destruct IHl as [IHl' IHl], IHr as [IHr' IHr]. destruct o; inversion H; subst; clear H.
    + cbn [has]. intros [H|H]; [destruct (ddiv v l) as [y|]; [apply (IHl y eq_refl) in H|cbn [has] in H]; tauto|
        destruct (ddiv v r) as [y|]; [apply (IHr y eq_refl) in H|cbn [has] in H]; tauto].
    + cbn [has]. intros [H|H]; [destruct (ddiv v l) as [y|]; [apply (IHl y eq_refl) in H|cbn [has] in H]; tauto|
        destruct (ddiv v r) as [y|]; [apply (IHr y eq_refl) in H|cbn [has] in H]; tauto].
    + destruct (ddiv v l) as [l'|]; [|destruct (ddiv v r) as [r'|]]; cbn [has]; intros [H|H]; try tauto.
      * apply (IHl l' eq_refl) in H. tauto.
      * apply (IHr r' eq_refl) in H. tauto.
    + destruct (ddiv v l) as [l'|]; [|destruct (dmul v r) as [r'|]]; cbn [has]; intros [H|H]; try tauto.
      * apply (IHl l' eq_refl) in H. tauto.
      * apply (IHr' r' eq_refl) in H. tauto.
Qed.
Lemma distribute_has : forall e e' (a : A), distribute e = Some e' -> has a e' -> has a e.
Proof.
  intros e e' a H K. destruct e as [q|b|x|ew o l r|f args]; cbn [distribute] in H; try discriminate.
  - cbn [has]. now apply (dneg_has x e').
  - destruct o; try discriminate; cbn [has].
    + destruct (dmul r l) as [x|] eqn:D.
      * inversion H; subst. now apply (proj1 (dist_has r l a) e' D) in K.
      * apply (proj1 (dist_has l r a) e' H) in K. tauto.
    + now apply (proj2 (dist_has r l a) e' H) in K.
Qed.
Lemma map_has : forall (g : expr A -> expr A) f args a, Forall (fun e => has a (g e) -> has a e) args ->
  has a (ECall f (map g args)) -> has a (ECall f args).
Proof.
  intros g f args a H. rewrite !has_call. intros (x & I & K). apply in_map_iff in I as (y & <- & I). exists y. split; auto.
  rewrite Forall_forall in H. now apply H.
Qed.
Lemma removeSubtractions_has : forall e (a : A), has a (removeSubtractions e) -> has a e.
Proof.
  intros e a. induction e as [q|b|e IH|ew o l r IHl IHr|f args IH] using expr_ind'; cbn [removeSubtractions]; auto.
  - destruct ew; [cbn [has]; tauto|]. destruct o; cbn [has]; tauto.
  - now apply map_has.
Qed.
Lemma distributeMulAndDivOps_has : forall e (a : A), has a (distributeMulAndDivOps e) -> has a e.
Proof.
  intros e a. induction e as [q|b|e IH|ew o l r IHl IHr|f args IH] using expr_ind'; cbn [distributeMulAndDivOps]; auto.
  - destruct (distribute (EBin ew o (distributeMulAndDivOps l) (distributeMulAndDivOps r))) as [y|] eqn:D; [|cbn [has]; tauto].
    intros H. apply (distribute_has _ _ _ D) in H. cbn [has] in *. tauto.
  - now apply map_has.
Qed.
Lemma pushNegateOps_has : forall e (a : A), has a (pushNegateOps e) -> has a e.
Proof.
  intros e a. induction e as [q|b|e IH|ew o l r IHl IHr|f args IH] using expr_ind'; cbn [pushNegateOps]; auto.
  - destruct (distribute (ENeg (pushNegateOps e))) as [y|] eqn:D; [|cbn [has]; tauto].
    intros H. apply (distribute_has _ _ _ D) in H. cbn [has] in *. tauto.
  - cbn [has]. tauto.
  - now apply map_has.
Qed.
Lemma convert_has : forall e (a : A), has a (convertToSums e) -> has a e.
Proof. intros e a H. now apply removeSubtractions_has, distributeMulAndDivOps_has, pushNegateOps_has. Qed.
Lemma collect_has : forall e x (a : A), In x (collectSummedValues e) -> has a x -> has a e.
Proof.
  induction e as [q|b|e IH|ew o l IHl r IHr|f args]; intros x a I H; cbn [collectSummedValues] in I; try (destruct I as [<-|[]]; exact H).
  destruct ew; [destruct I as [<-|[]]; exact H|]. destruct o; try (destruct I as [<-|[]]; exact H).
  apply in_app_iff in I as [I|I]; cbn [has]; eauto.
Qed.
End Has.

Section Group.
Context {A : Type} (avar : A -> nat) (aimg : A -> bset) (asame : A -> A -> bool).
Context (val : A -> R) (fenv : nat -> list R -> option R).
Notation value := (value val fenv).

Fixpoint sumv (es : list (expr A)) : option R :=
  match es with
  | [] => Some 0
  | e :: es' => obind (value e) (fun x => obind (sumv es') (fun y => Some (x + y)))
  end.
Lemma sumv_app : forall a b, sumv (a ++ b) = obind (sumv a) (fun x => obind (sumv b) (fun y => Some (x + y))).
Proof.
  induction a as [|e a IH]; intros b; cbn [sumv app].
  - cbn. destruct (sumv b); cbn; auto. f_equal. lra.
  - rewrite IH. destruct (value e), (sumv a), (sumv b); cbn; auto. f_equal. lra.
Qed.
Lemma collect_value : forall e, value e = sumv (collectSummedValues e).
Proof.
  assert (S1 : forall e, value e = sumv [e]).
  { intros e. cbn [sumv]. destruct (value e); cbn; auto. f_equal. lra. }
  induction e as [q|b|e IH|ew o l IHl r IHr|f args]; cbn [collectSummedValues]; try apply S1.
  destruct ew; [apply S1|]. destruct o; try apply S1. rewrite sumv_app, <- IHl, <- IHr. reflexivity.
Qed.
Lemma remaining_value : forall es acc s, value (fold_left (fun r e => EBin false BAdd r e) es acc) = Some s ->
  exists t u, value acc = Some t /\ sumv es = Some u /\ s = t + u.
Proof.
  induction es as [|e es IH]; intros acc s H; cbn [fold_left] in H.
  - exists s, 0. repeat split; auto. lra.
  - apply IH in H as (t & u & T & U & ->). cbn [SymSpec.value] in T. cbn [sumv].
    destruct (value acc) as [x|]; [|discriminate]. destruct (value e) as [y|]; [|discriminate]. cbn in T. inversion T; subst.
    rewrite U. cbn. exists x, (y + u). repeat split; auto. lra.
Qed.
Lemma groupRemaining_value : forall es s, value (groupRemaining es) = Some s -> sumv es = Some s.
Proof.
  intros es s H. apply remaining_value in H as (t & u & T & U & ->). cbn in T. inversion T. rewrite U. f_equal. unfold Q2R. cbn. lra.
Qed.

Variable v : nat.
Variable vi : bset.
Definition matching (a : A) : Prop := avar a = v /\ bs_eq vi (aimg a) = true.

Lemma factor_value : forall x e, (forall a, has a e -> matching a -> val a = x) -> forall c f,
  getMultiplyingFactor avar aimg v vi e = Some (c, Some f) -> value e = obind (value f) (fun q => Some (q * x ^ c)).
Proof.
  intros x. induction e as [q|b|e IH|ew o l IHl r IHr|fn args]; intros X c f H; cbn [getMultiplyingFactor] in H.
  - inversion H; subst. cbn. f_equal. lra.
  - destruct (Nat.eqb (avar b) v && bs_eq vi (aimg b)) eqn:M; inversion H; subst. apply andb_true_iff in M as [M1 M2].
    apply Nat.eqb_eq in M1. cbn. rewrite (X b); [|reflexivity|now split]. f_equal. unfold Q2R. cbn. lra.
  - destruct (getMultiplyingFactor avar aimg v vi e) as [[c' [f'|]]|]; inversion H; subst. cbn [SymSpec.value].
    rewrite (IH X c f' eq_refl). destruct (value f'); cbn; auto. f_equal. lra.
  - assert (XL : forall a, has a l -> matching a -> val a = x) by (intros a Ha; apply X; cbn [has]; auto).
    assert (XR : forall a, has a r -> matching a -> val a = x) by (intros a Ha; apply X; cbn [has]; auto).
    destruct ew; [discriminate|]. destruct o; try discriminate.
    + destruct (getMultiplyingFactor avar aimg v vi l) as [[cl [fl|]]|]; destruct (getMultiplyingFactor avar aimg v vi r) as [[cr [fr|]]|]; inversion H; subst.
      cbn [SymSpec.value]. rewrite (IHl XL cl fl eq_refl), (IHr XR cr fr eq_refl). destruct (value fl), (value fr); cbn; auto.
      f_equal. rewrite pow_add. ring.
    + destruct (getMultiplyingFactor avar aimg v vi l) as [[cl [fl|]]|]; try discriminate.
      destruct (hasAccessToVar avar aimg v vi r); inversion H; subst. cbn [SymSpec.value]. rewrite (IHl XL c fl eq_refl).
      destruct (value fl), (value r); cbn; auto. destruct (Req_EM_T r1 0); cbn; auto. f_equal. unfold Rdiv. ring.
  - discriminate.
Qed.
Definition touches (a : A) : Prop := ((bs_empty (aimg a) && bs_empty vi) || bs_overlaps (aimg a) vi)%bool = true.
Lemma factor_count : forall e, (forall a, has a e -> matching a -> touches a) ->
  forall c f, getMultiplyingFactor avar aimg v vi e = Some (c, Some f) ->
  (exists a, has a e /\ matching a) -> (1 <= c)%nat.
Proof.
  induction e as [q|b|e IH|ew o l IHl r IHr|fn args]; intros touch c f H (a & Ha & M); cbn [getMultiplyingFactor] in H.
  - destruct Ha.
  - destruct (Nat.eqb (avar b) v && bs_eq vi (aimg b)); inversion H; subst; auto.
  - destruct (getMultiplyingFactor avar aimg v vi e) as [[c' [f'|]]|]; inversion H; subst. apply (IH touch c f' eq_refl). now exists a.
  - assert (TL : forall a, has a l -> matching a -> touches a) by (intros b Hb; apply touch; cbn [has]; auto).
    assert (TR : forall a, has a r -> matching a -> touches a) by (intros b Hb; apply touch; cbn [has]; auto).
    destruct ew; [discriminate|]. destruct o; try discriminate.
    + destruct (getMultiplyingFactor avar aimg v vi l) as [[cl [fl|]]|]; destruct (getMultiplyingFactor avar aimg v vi r) as [[cr [fr|]]|]; inversion H; subst.
      destruct Ha as [Ha|Ha]; [assert (1 <= cl)%nat by (apply (IHl TL cl fl eq_refl); now exists a)|assert (1 <= cr)%nat by (apply (IHr TR cr fr eq_refl); now exists a)]; lia.
    + destruct (getMultiplyingFactor avar aimg v vi l) as [[cl [fl|]]|]; try discriminate.
      destruct (hasAccessToVar avar aimg v vi r) eqn:HA; inversion H; subst. destruct Ha as [Ha|Ha]; [apply (IHl TL c fl eq_refl); now exists a|].
      exfalso. assert (T : hasAccessToVar avar aimg v vi r = true); [|congruence]. unfold hasAccessToVar.
      pose proof (TR a Ha M) as T. apply accesses_has in Ha. apply in_map_iff in Ha as (q & Q & I). apply existsb_exists. exists q. split; auto. cbn beta zeta. rewrite Q.
      destruct M as [M1 M2]. rewrite M1, Nat.eqb_refl. cbn [andb]. exact T.
  - discriminate.
Qed.
Lemma factors_value : forall x es, (forall e a, In e es -> has a e -> matching a -> val a = x) ->
  (forall e a, In e es -> has a e -> matching a -> touches a) -> (forall e, In e es -> exists a, has a e /\ matching a) ->
  forall acc F s, group_factors avar aimg v vi acc es = Some F -> value F = Some s ->
  exists t u, value acc = Some t /\ sumv es = Some u /\ u = (s - t) * x.
Proof.
  intros x. induction es as [|e es IH]; intros X TC M acc F s H S; cbn [group_factors] in H.
  - inversion H; subst. exists s, 0. repeat split; auto. lra.
  - destruct (getMultiplyingFactor avar aimg v vi e) as [[c [f|]]|] eqn:G; try discriminate. destruct (Nat.ltb 1 c) eqn:C; [discriminate|].
    apply Nat.ltb_ge in C. assert (1 <= c)%nat by (apply (factor_count e) with (f := f); auto; [intros a; apply TC; now left|apply M; now left]). assert (c = 1%nat) by lia. subst c.
    apply IH with (s := s) in H as (t & u & T & U & E); auto; [|intros e' a I; apply X; now right|intros e' a I; apply TC; now right|intros e' I; apply M; now right].
    cbn [SymSpec.value] in T. destruct (value acc) as [t0|]; [|discriminate]. destruct (value f) as [q|] eqn:Q; [|discriminate]. cbn in T. inversion T; subst.
    cbn [sumv]. rewrite (factor_value x e) with (c := 1%nat) (f := f); auto; [|intros a; apply X; now left].
    rewrite Q, U. cbn. exists t0, (q * (x * 1) + (s - (t0 + q)) * x). repeat split; auto. ring.
Qed.
End Group.

Section Partition.
Context {A : Type} (avar : A -> nat) (aimg : A -> bset).
Context (val : A -> R) (fenv : nat -> list R -> option R).
Lemma any_access_true : forall accs req, any_access avar aimg accs req = Ok true ->
  exists a, In a accs /\ avar a = avar req /\ bs_eq (aimg req) (aimg a) = true.
Proof.
  induction accs as [|a accs IH]; intros req H; cbn [any_access] in H; [discriminate|].
  destruct (Nat.eqb (avar a) (avar req)) eqn:E; cbn [negb] in H.
  - apply Nat.eqb_eq in E. destruct (bs_eq (aimg req) (aimg a)) eqn:B; [exists a; cbn; auto|].
    destruct (bs_overlaps (aimg req) (aimg a)); [discriminate|]. destruct (IH req H) as (b & I & P). exists b. cbn. auto.
  - destruct (IH req H) as (b & I & P). exists b. cbn. auto.
Qed.
Lemma partition_spec : forall req es yes no, partition_values avar aimg es req = Ok (yes, no) ->
  sumv val fenv es = obind (sumv val fenv yes) (fun x => obind (sumv val fenv no) (fun y => Some (x + y)))
  /\ (forall e, In e yes -> In e es /\ exists a, has a e /\ matching avar aimg (avar req) (aimg req) a)
  /\ (forall e, In e no -> In e es).
Proof.
  intros req. induction es as [|e es IH]; intros yes no H; cbn [partition_values] in H.
  - inversion H; subst. cbn. split; [f_equal; lra|]. split; intros e [].
  - destruct (containsAccess avar aimg e req) as [b| | ] eqn:C; cbn [bind] in H; try discriminate.
    destruct (partition_values avar aimg es req) as [[y n]| | ]; cbn [bind fst snd] in H; try discriminate.
    destruct (IH y n eq_refl) as (S & Y & N). destruct b; inversion H; subst.
    + split; [|split].
      * cbn [sumv]. rewrite S. destruct (value val fenv e), (sumv val fenv y), (sumv val fenv no); cbn; auto. f_equal. lra.
      * intros e' [<-|I]; [|destruct (Y e' I); split; [now right|auto]]. split; [now left|].
        unfold containsAccess in C. apply any_access_true in C as (a & I & V & B). exists a. split; [now apply accesses_has|now split].
      * intros e' I. right. auto.
    + split; [|split].
      * cbn [sumv]. rewrite S. destruct (value val fenv e), (sumv val fenv yes), (sumv val fenv n); cbn; auto. f_equal. lra.
      * intros e' I. destruct (Y e' I). split; [now right|auto].
      * intros e' [<-|I]; [now left|right; auto].
Qed.
End Partition.

Section Main.
Context {A : Type} (avar : A -> nat) (aimg : A -> bset) (asame : A -> A -> bool).
Context (cfold : expr A -> option Q) (inv : nat -> nat -> option (nat * list nat)) (fenv : nat -> list R -> option R).
Context (elem : A -> list Z) (cell : nat -> list Z -> R).
Notation val := (leaf_value avar elem cell).
Notation value := (value val fenv).

Lemma leaf_of_has : forall a (eq : expr A * expr A), leaf_of a eq <-> has a (fst eq) \/ has a (snd eq).
Proof. intros. unfold leaf_of. now rewrite !has_subexpr. Qed.
Lemma writes_in : forall eq v m w, In w (getWriteAccesses avar aimg (getAccesses eq) v m) <->
  In w (getAccesses eq) /\ avar (snd w) = v /\ ((bs_empty m && bs_empty (aimg (snd w))) || bs_contains m (aimg (snd w)))%bool = true.
Proof. intros. clear asame cfold inv fenv elem cell. unfold getWriteAccesses. rewrite filter_In, andb_true_iff, Nat.eqb_eq. tauto. Qed.
Lemma getAccesses_leaf : forall (eq : expr A * expr A) s p a, In (s, p, a) (getAccesses eq) -> at_path (target eq s) p = Some (EAcc a) /\ leaf_of a eq.
Proof.
  intros eq s p a H. unfold getAccesses in H. apply in_app_iff in H as [H|H]; apply in_map_iff in H as ([p' a'] & E & H); inversion E; subst; cbn [fst snd target].
  - split; [now apply accesses_path|]. apply leaf_of_has. left. apply accesses_has. apply in_map_iff. eexists; split; [|exact H]; reflexivity.
  - split; [now apply accesses_path|]. apply leaf_of_has. right. apply accesses_has. apply in_map_iff. eexists; split; [|exact H]; reflexivity.
Qed.
Lemma leaf_getAccesses : forall (eq : expr A * expr A) a, leaf_of a eq -> exists s p, In (s, p, a) (getAccesses eq).
Proof.
  intros eq a H. apply leaf_of_has in H as [H|H]; apply accesses_has in H; apply in_map_iff in H as ([p b] & <- & H).
  - exists SLeft, p. unfold getAccesses. apply in_app_iff. left. apply in_map_iff. now exists (p, b).
  - exists SRight, p. unfold getAccesses. apply in_app_iff. right. apply in_map_iff. now exists (p, b).
Qed.

Variable eq : expr A * expr A.
Hypothesis OK : elements_ok avar aimg asame elem eq.
Lemma eq_images : forall a b, leaf_of a eq -> leaf_of b eq -> bs_eq (aimg b) (aimg a) = true ->
  (aimg a = [] /\ aimg b = [] /\ elem a = [] /\ elem b = []) \/ (aimg a <> [] /\ aimg b <> [] /\ in_boxes (elem a) (aimg a) /\ in_boxes (elem b) (aimg b)
     /\ forall p, in_boxes p (aimg a) <-> in_boxes p (aimg b)).
Proof.
  intros a b Ha Hb E. destruct OK as [O _]. pose proof (O a Ha) as Oa. pose proof (O b Hb) as Ob.
  rewrite bs_eq_spec in E. destruct (aimg a) as [|xa la]; destruct (aimg b) as [|xb lb].
  - left. auto.
  - exfalso. apply E in Ob as (? & [] & _).
  - exfalso. apply E in Oa as (? & [] & _).
  - right. split; [discriminate|]. split; [discriminate|]. split; [exact Oa|]. split; [exact Ob|]. intros p. symmetry. apply E.
Qed.
Lemma equivalence_value : forall a b, leaf_of a eq -> leaf_of b eq -> avar a = avar b -> bs_eq (aimg b) (aimg a) = true ->
  checkAccessEquivalence aimg asame a b = true -> val a = val b.
Proof.
  intros a b Ha Hb V E C. unfold leaf_value. rewrite V. f_equal. unfold checkAccessEquivalence in C.
  destruct (eq_images a b Ha Hb E) as [(_ & _ & -> & ->)|(Na & Nb & Ia & Ib & P)]; auto.
  destruct (bs_empty (aimg a) && bs_empty (aimg b)) eqn:B.
  { apply andb_true_iff in B as [B _]. destruct (aimg a); [congruence|discriminate]. }
  destruct (asame a b) eqn:S; [now apply OK|]. apply andb_true_iff in C as [C _]. apply Nat.eqb_eq in C.
  apply P in Ib. apply in_bs_points in Ia, Ib. destruct (bs_points (aimg a)) as [|p [|q l]]; try discriminate C.
  destruct Ia as [<-|[]], Ib as [<-|[]]. reflexivity.
Qed.

Lemma matching_value : forall m v w0 a, In w0 (getWriteAccesses avar aimg (getAccesses eq) v m) ->
  forallb (fun w => checkAccessEquivalence aimg asame (snd w) (snd w0))
    (filter (fun w => (bs_empty m && bs_empty (aimg (snd w))) || bs_overlaps m (aimg (snd w)))%bool (getWriteAccesses avar aimg (getAccesses eq) v m)) = true ->
  leaf_of a eq -> matching avar aimg (avar (snd w0)) (aimg (snd w0)) a -> val a = val (snd w0).
Proof.
  intros m v [[s0 p0] b] a W F Ha [Va E]. cbn [snd] in *. apply writes_in in W as (Wb & Vb & Cb). cbn [snd] in *.
  assert (Hb : leaf_of b eq) by (apply (getAccesses_leaf eq s0 p0); auto).
  destruct (eq_images a b Ha Hb E) as [(_ & _ & E1 & E2)|(Na & Nb & Ia & Ib & P)].
  { unfold leaf_value. now rewrite Va, E1, E2. }
  apply equivalence_value; auto. destruct (leaf_getAccesses eq a Ha) as (s & p & Wa).
  rewrite forallb_forall in F. apply (F (s, p, a)). clear F. apply orb_true_iff in Cb as [Cb|Cb].
  { apply andb_true_iff in Cb as [_ Cb]. destruct (aimg b); [congruence|discriminate]. }
  rewrite bs_contains_spec in Cb. assert (Ca : forall q, in_boxes q (aimg a) -> in_boxes q m) by (intros q Q; apply Cb; now apply P).
  apply filter_In. split.
  - apply writes_in. cbn [snd]. split; auto. split; [congruence|]. apply orb_true_iff. right. now apply bs_contains_spec.
  - cbn [snd]. apply orb_true_iff. right. apply bs_overlaps_spec. exists (elem a). auto.
Qed.
Lemma matching_touches : forall a b, leaf_of a eq -> leaf_of b eq -> matching avar aimg (avar b) (aimg b) a -> touches aimg (aimg b) a.
Proof.
  intros a b Ha Hb [_ E]. unfold touches. destruct (eq_images a b Ha Hb E) as [(-> & -> & _)|(Na & Nb & Ia & Ib & P)]; [reflexivity|].
  apply orb_true_iff. right. apply bs_overlaps_spec. exists (elem b). split; auto. now apply P.
Qed.

(** One side: the sum of the factors by the variable, and the rest. *)
Lemma side_value : forall req e es yes no F s r, leaf_of req eq ->
  (forall a, leaf_of a eq -> matching avar aimg (avar req) (aimg req) a -> val a = val req) ->
  (forall a, has a e -> leaf_of a eq) ->
  es = collectSummedValues (convertToSums e) -> partition_values avar aimg es req = Ok (yes, no) ->
  groupFactors avar aimg (avar req) (aimg req) yes = Some F -> value F = Some s -> value (groupRemaining no) = Some r ->
  value e = Some (s * val req + r).
Proof.
  intros req e es yes no F s r Hr X L -> P G S R0. destruct (partition_spec avar aimg val fenv req _ yes no P) as (E & Y & N).
  assert (YL : forall x a, In x yes -> has a x -> leaf_of a eq).
  { intros x a I H. apply L, convert_has. destruct (Y x I) as [I' _]. now apply (collect_has _ x). }
  apply convert_refines. rewrite collect_value, E. unfold groupFactors in G.
  destruct (factors_value avar aimg val fenv (avar req) (aimg req) (val req) yes) with (acc := @EConst A 0%Q) (F := F) (s := s) as (t & u & T & U & ->); auto.
  - intros x a I H M. apply X; eauto.
  - intros x a I H M. apply matching_touches; eauto.
  - intros x I. apply Y in I. tauto.
  - apply groupRemaining_value in R0. rewrite U, R0. cbn in T. inversion T. cbn. f_equal. unfold Q2R. cbn. lra.
Qed.

Lemma bin_value : forall ew o l r w, value (EBin ew o l r) = Some w -> exists x y, value l = Some x /\ value r = Some y /\ bop_value o x y = Some w.
Proof.
  intros ew o l r w H. cbn [SymSpec.value] in H. destruct (value l) as [x|]; [|discriminate]. destruct (value r) as [y|]; [|discriminate].
  exists x, y. auto.
Qed.
Lemma div_value : forall n d w, value (EBin false BDiv n d) = Some w -> exists x y, value n = Some x /\ value d = Some y /\ y <> 0 /\ w = x / y.
Proof.
  intros n d w H. apply bin_value in H as (x & y & X & Y & B). cbn in B. destruct (Req_EM_T y 0); inversion B. exists x, y. auto.
Qed.
Lemma conclude : forall req rhs w L R0, value (fst eq) = Some L -> value (snd eq) = Some R0 -> value rhs = Some w ->
  (L = R0 <-> val req = w) -> defined val fenv eq /\ (holds val fenv eq <-> holds val fenv (EAcc req, rhs)).
Proof.
  intros req rhs w L R0 HL HR W E. split; [split; congruence|]. unfold holds. cbn [fst snd]. rewrite HL, HR, W. cbn. split.
  - intros (x & X & Y). exists w. split; auto. f_equal. apply E. congruence.
  - intros (x & X & Y). exists R0. split; auto. f_equal. apply E. congruence.
Qed.

Lemma group_correct : forall v m l r, groupLeftHandSide avar aimg asame cfold eq m (getWriteAccesses avar aimg (getAccesses eq) v m) = Ok (Some (l, r)) ->
  exists w, In w (getWriteAccesses avar aimg (getAccesses eq) v m) /\ l = EAcc (snd w)
  /\ (defined val fenv (l, r) -> defined val fenv eq /\ (holds val fenv eq <-> holds val fenv (l, r))).
Proof.
  intros v m l r H. unfold groupLeftHandSide in H. pose proof (matching_value m v) as MV.
  destruct (getWriteAccesses avar aimg (getAccesses eq) v m) as [|w0 ws] eqn:W; [discriminate|]. exists w0. split; [now left|].
  specialize (MV w0). set (rel := filter _ (w0 :: ws)) in *.
  destruct (forallb (fun w => checkAccessEquivalence aimg asame (snd w) (snd w0)) rel) eqn:F; cbn [negb] in H; [|discriminate].
  assert (X : forall a, leaf_of a eq -> matching avar aimg (avar (snd w0)) (aimg (snd w0)) a -> val a = val (snd w0)) by (intros a; apply MV; auto; now left).
  assert (Hr : leaf_of (snd w0) eq).
  { assert (I : In w0 (getWriteAccesses avar aimg (getAccesses eq) v m)) by (rewrite W; now left). apply writes_in in I as [I _].
    destruct w0 as [[s p] a]. now apply (getAccesses_leaf eq s p). }
  clear MV F. set (req := snd w0) in *.
  assert (LL : forall a, has a (fst eq) -> leaf_of a eq) by (intros a Ha; apply leaf_of_has; auto).
  assert (LR : forall a, has a (snd eq) -> leaf_of a eq) by (intros a Ha; apply leaf_of_has; auto).
  destruct (existsb lhs_side rel); destruct (existsb (fun w => negb (lhs_side w)) rel); [| | |discriminate].
  - destruct (partition_values avar aimg (collectSummedValues (convertToSums (fst eq))) req) as [[ly ln]| | ] eqn:PL; cbn [bind fst snd] in H; try discriminate.
    destruct (partition_values avar aimg (collectSummedValues (convertToSums (snd eq))) req) as [[ry rn]| | ] eqn:PR; cbn [bind fst snd] in H; try discriminate.
    destruct (groupFactors avar aimg (avar req) (aimg req) ly) as [lf|] eqn:GL; [|discriminate].
    destruct (groupFactors avar aimg (avar req) (aimg req) ry) as [rf|] eqn:GR; [|discriminate].
    destruct (divisor_ok cfold (EBin false BSub lf rf)); [|discriminate]. inversion H; subst l r. split; [reflexivity|].
    intros [_ D]. cbn [fst snd] in D. destruct (value _) as [w|] eqn:V in D; [clear D|congruence].
    destruct (div_value _ _ _ V) as (n & d & N & Dv & NZ & Ew).
    apply bin_value in N as (rr & lr & RR & LRv & N). apply bin_value in Dv as (lfv & rfv & LF & RF & Dv). cbn in N, Dv. inversion N; inversion Dv; subst n d.
    pose proof (side_value req (fst eq) _ ly ln lf lfv lr Hr X LL eq_refl PL GL LF LRv) as VL.
    pose proof (side_value req (snd eq) _ ry rn rf rfv rr Hr X LR eq_refl PR GR RF RR) as VR.
    apply (conclude req _ w _ _ VL VR V). rewrite Ew. split.
    + intros E. apply (Rmult_eq_reg_r (lfv - rfv)); auto. replace ((rr - lr) / (lfv - rfv) * (lfv - rfv)) with (rr - lr) by (field; auto). lra.
    + intros E. apply (f_equal (fun z => z * (lfv - rfv))) in E. replace ((rr - lr) / (lfv - rfv) * (lfv - rfv)) with (rr - lr) in E by (field; auto). lra.
  - destruct (partition_values avar aimg (collectSummedValues (convertToSums (fst eq))) req) as [[ly ln]| | ] eqn:PL; cbn [bind fst snd] in H; try discriminate.
    destruct (groupFactors avar aimg (avar req) (aimg req) ly) as [lf|] eqn:GL; [|discriminate].
    destruct (divisor_ok cfold lf); [|discriminate]. inversion H; subst l r. split; [reflexivity|].
    intros [_ D]. cbn [fst snd] in D. destruct (value _) as [w|] eqn:V in D; [clear D|congruence].
    destruct (div_value _ _ _ V) as (n & d & N & LF & NZ & Ew).
    apply bin_value in N as (rr & lr & RR & LRv & N). cbn in N. inversion N; subst n.
    pose proof (side_value req (fst eq) _ ly ln lf d lr Hr X LL eq_refl PL GL LF LRv) as VL.
    apply (conclude req _ w _ _ VL RR V). rewrite Ew. split.
    + intros E. apply (Rmult_eq_reg_r d); auto. replace ((rr - lr) / d * d) with (rr - lr) by (field; auto). lra.
    + intros E. apply (f_equal (fun z => z * d)) in E. replace ((rr - lr) / d * d) with (rr - lr) in E by (field; auto). lra.
  - destruct (partition_values avar aimg (collectSummedValues (convertToSums (snd eq))) req) as [[ry rn]| | ] eqn:PR; cbn [bind fst snd] in H; try discriminate.
    destruct (groupFactors avar aimg (avar req) (aimg req) ry) as [rf|] eqn:GR; [|discriminate].
    destruct (divisor_ok cfold rf); [|discriminate]. inversion H; subst l r. split; [reflexivity|].
    intros [_ D]. cbn [fst snd] in D. destruct (value _) as [w|] eqn:V in D; [clear D|congruence].
    destruct (div_value _ _ _ V) as (n & d & N & RF & NZ & Ew).
    apply bin_value in N as (ll & rr & LLv & RR & N). cbn in N. inversion N; subst n.
    pose proof (side_value req (snd eq) _ ry rn rf d rr Hr X LR eq_refl PR GR RF RR) as VR.
    apply (conclude req _ w _ _ LLv VR V). rewrite Ew. split.
    + intros E. apply (Rmult_eq_reg_r d); auto. replace ((ll - rr) / d * d) with (ll - rr) by (field; auto). lra.
    + intros E. apply (f_equal (fun z => z * d)) in E. replace ((ll - rr) / d * d) with (ll - rr) in E by (field; auto). lra.
Qed.
Lemma explicit_correct : inverse_ok fenv inv -> forall v m l r, explicitate avar aimg asame cfold inv eq v m = Ok (Some (l, r)) ->
  exists w, In w (getWriteAccesses avar aimg (getAccesses eq) v m) /\ l = EAcc (snd w)
  /\ (defined val fenv eq -> defined val fenv (l, r) -> (holds val fenv eq <-> holds val fenv (l, r))).
Proof.
  intros I v m l r H. unfold explicitate in H.
  assert (G : forall l r, groupLeftHandSide avar aimg asame cfold eq m (getWriteAccesses avar aimg (getAccesses eq) v m) = Ok (Some (l, r)) ->
    exists w, In w (getWriteAccesses avar aimg (getAccesses eq) v m) /\ l = EAcc (snd w)
    /\ (defined val fenv eq -> defined val fenv (l, r) -> (holds val fenv eq <-> holds val fenv (l, r)))).
  { intros l0 r0 H0. apply group_correct in H0 as (w & Iw & E & C). exists w. split; auto. split; auto. intros _ D. now apply C. }
  destruct (getWriteAccesses avar aimg (getAccesses eq) v m) as [|[[s p] a] [|w1 ws]] eqn:W; [discriminate| |now apply G].
  exists (s, p, a). split; [now left|]. destruct (explicitate_correct val fenv inv I p eq s l r H) as [P C].
  assert (In (s, p, a) (getAccesses eq)).
  { assert (J : In (s, p, a) (getWriteAccesses avar aimg (getAccesses eq) v m)) by (rewrite W; now left). now apply writes_in in J. }
  apply getAccesses_leaf in H0 as [P' _]. rewrite P' in P. inversion P; subst. split; auto.
Qed.
End Main.

(** ** The result does not read what it writes *)
Section Solved.
Context {A : Type} (avar : A -> nat) (aimg : A -> bset).
Lemma remaining_has : forall es acc (b : A), has b (fold_left (fun r e => EBin false BAdd r e) es acc) -> has b acc \/ exists e, In e es /\ has b e.
Proof.
  induction es as [|e es IH]; intros acc b H; cbn [fold_left] in H; [auto|]. apply IH in H as [H|(x & I & H)].
  - cbn [has] in H. destruct H as [H|H]; [auto|]. right. exists e. cbn. auto.
  - right. exists x. cbn. auto.
Qed.
Lemma factor_has : forall v vi e c f (b : A), getMultiplyingFactor avar aimg v vi e = Some (c, Some f) -> has b f -> avar b = v -> ~ touches aimg vi b.
Proof.
  intros v vi. induction e as [q|d|e IH|ew o l IHl r IHr|fn args]; intros c f b H Hb V; cbn [getMultiplyingFactor] in H.
  - inversion H; subst. destruct Hb.
  - destruct (Nat.eqb (avar d) v && bs_eq vi (aimg d)); inversion H; subst. destruct Hb.
  - destruct (getMultiplyingFactor avar aimg v vi e) as [[c' [f'|]]|]; inversion H; subst. apply (IH c f' b eq_refl Hb eq_refl).
  - destruct ew; [discriminate|]. destruct o; try discriminate.
    + destruct (getMultiplyingFactor avar aimg v vi l) as [[cl [fl|]]|]; destruct (getMultiplyingFactor avar aimg v vi r) as [[cr [fr|]]|]; inversion H; subst.
      destruct Hb as [Hb|Hb]; [apply (IHl cl fl b eq_refl Hb eq_refl)|apply (IHr cr fr b eq_refl Hb eq_refl)].
    + destruct (getMultiplyingFactor avar aimg v vi l) as [[cl [fl|]]|]; try discriminate.
      destruct (hasAccessToVar avar aimg v vi r) eqn:HA; inversion H; subst. destruct Hb as [Hb|Hb]; [apply (IHl c fl b eq_refl Hb eq_refl)|].
      intros T. assert (HA' : hasAccessToVar avar aimg (avar b) vi r = true); [|congruence]. unfold hasAccessToVar.
      apply accesses_has in Hb. apply in_map_iff in Hb as (q & Q & I). apply existsb_exists. exists q. split; auto. cbn beta zeta. rewrite Q.
      rewrite Nat.eqb_refl. exact T.
  - discriminate.
Qed.
Lemma factors_has : forall v vi es acc F (b : A), group_factors avar aimg v vi acc es = Some F -> has b F -> avar b = v -> has b acc \/ ~ touches aimg vi b.
Proof.
  intros v vi. induction es as [|e es IH]; intros acc F b H Hb V; cbn [group_factors] in H; [inversion H; subst; auto|].
  destruct (getMultiplyingFactor avar aimg v vi e) as [[c [f|]]|] eqn:G; try discriminate. destruct (Nat.ltb 1 c); [discriminate|].
  apply (IH _ _ b) in H; auto. destruct H as [H|H]; auto. destruct H as [H|H]; auto. right. now apply (factor_has v vi e c f).
Qed.
Lemma any_access_false : forall accs req, any_access avar aimg accs req = Ok false ->
  forall a, In a accs -> avar a = avar req -> bs_eq (aimg req) (aimg a) = false /\ bs_overlaps (aimg req) (aimg a) = false.
Proof.
  induction accs as [|x accs IH]; intros req H a I V; [destruct I|]. cbn [any_access] in H.
  destruct (Nat.eqb (avar x) (avar req)) eqn:E; cbn [negb] in H.
  - destruct (bs_eq (aimg req) (aimg x)) eqn:B; [discriminate|]. destruct (bs_overlaps (aimg req) (aimg x)) eqn:O; [discriminate|].
    destruct I as [<-|I]; auto.
  - destruct I as [<-|I]; [apply Nat.eqb_neq in E; congruence|auto].
Qed.
Lemma partition_no : forall req es yes no, partition_values avar aimg es req = Ok (yes, no) ->
  forall e b, In e no -> has b e -> avar b = avar req -> bs_eq (aimg req) (aimg b) = false /\ bs_overlaps (aimg req) (aimg b) = false.
Proof.
  intros req. induction es as [|x es IH]; intros yes no H e b I Hb V; cbn [partition_values] in H; [inversion H; subst; destruct I|].
  destruct (containsAccess avar aimg x req) as [c| | ] eqn:C; cbn [bind] in H; try discriminate.
  destruct (partition_values avar aimg es req) as [[y n]| | ]; cbn [bind fst snd] in H; try discriminate.
  destruct c; inversion H; subst; [now apply (IH y no eq_refl e b)|]. destruct I as [<-|I]; [|now apply (IH yes n eq_refl e b)].
  unfold containsAccess in C. apply (any_access_false _ _ C b); auto. now apply accesses_has.
Qed.

(** Inversion: the accesses of the result are those out of the path. *)
Lemma inverse_args_has : forall (args : list (expr A)) y idx es e, inverse_args args y idx = Ok es -> In e es ->
  e = y \/ exists i, In i idx /\ nth_error args i = Some e.
Proof.
  induction idx as [|i idx IH]; intros es e H I; cbn [inverse_args] in H; [inversion H; subst; destruct I|].
  destruct (inverse_args args y idx) as [es'| | ] eqn:E'; cbn [bind] in H.
  2-3: destruct (nth_error args i); [discriminate|destruct (Nat.eqb i (length args)); discriminate].
  assert (G : In e es' -> e = y \/ exists j, In j (i :: idx) /\ nth_error args j = Some e).
  { intros J. destruct (IH es' e eq_refl J) as [->|(j & J1 & J2)]; [auto|]. right. exists j. cbn. auto. }
  destruct (nth_error args i) as [a|] eqn:N; cbn [bind] in H.
  - inversion H; subst. destruct I as [<-|I]; [right; exists i; cbn; auto|auto].
  - destruct (Nat.eqb i (length args)); [|discriminate]. inversion H; subst. destruct I as [<-|I]; auto.
Qed.
Lemma inverse_has : forall inv, (forall f k g idx, inv f k = Some (g, idx) -> ~ In k idx) ->
  forall t k (y : expr A) i b, inverse inv t k y = Ok (Some i) -> has b i ->
  has b y \/ exists k' x, k' <> k /\ nth_error (operands t) k' = Some x /\ has b x.
Proof.
  intros inv IN t k y i b H Hb. destruct t as [q|d|e|ew o l r|f args]; cbn [inverse] in H; try discriminate.
  - destruct k; inversion H; subst. auto.
  - destruct k as [|[|k]]; destruct o; inversion H; subst; cbn [has] in Hb; destruct Hb as [Hb|Hb]; auto; right.
    all: first [exists 1%nat, r; split; [discriminate|]; split; [reflexivity|exact Hb]|exists 0%nat, l; split; [discriminate|]; split; [reflexivity|exact Hb]].
  - destruct (Nat.leb (length args) k); [discriminate|]. destruct (inv f k) as [[g idx]|] eqn:G; [|discriminate].
    destruct (inverse_args args y idx) as [es| | ] eqn:E; cbn [bind] in H; try discriminate. inversion H; subst.
    apply has_call in Hb as (x & I & Hb). destruct (inverse_args_has args y idx es x E I) as [->|(j & J & N)]; [auto|].
    right. exists j, x. split; [|split; auto]. intros ->. now apply (IN f k g idx G).
Qed.
Lemma operand_accesses : forall (t x : expr A) k p b, nth_error (operands t) k = Some x -> In (p, b) (accesses_of x) -> In (k :: p, b) (accesses_of t).
Proof.
  intros t x k p b N I. destruct t as [q|d|e|ew o l r|f args]; cbn [operands] in N; cbn [accesses_of].
  - destruct k; discriminate.
  - destruct k; discriminate.
  - destruct k as [|[|k]]; inversion N; subst. apply in_map_iff. now exists (p, b).
  - apply in_app_iff. destruct k as [|[|[|k]]]; inversion N; subst; [left|right]; apply in_map_iff; now exists (p, b).
  - apply flat_index_in. exists k, x. split; auto. apply in_map_iff. now exists (p, b).
Qed.
Lemma path_has : forall inv, (forall f k g idx, inv f k = Some (g, idx) -> ~ In k idx) ->
  forall path (eq : expr A * expr A) s eq' b, explicitate_path inv eq path s = Ok (Some eq') -> has b (other eq' s) ->
  has b (other eq s) \/ exists p, p <> path /\ In (p, b) (accesses_of (target eq s)).
Proof.
  intros inv IN. induction path as [|k path IH]; intros eq s eq' b H Hb; cbn [explicitate_path] in H; [inversion H; subst; auto|].
  destruct (explicitateLeaf inv eq k s) as [[eq1|]| | ] eqn:L; cbn [bind] in H; try discriminate.
  apply leaf_eq in L as [L1 L2]. destruct (IH _ _ _ b H Hb) as [K|(p & P & I)].
  - destruct (inverse_has inv IN _ _ _ _ b L2 K) as [K'|(k' & x & NK & N & K')]; [auto|]. right.
    apply accesses_has in K'. apply in_map_iff in K' as ([p d] & <- & I). exists (k' :: p)%list. split; [congruence|].
    now apply (operand_accesses _ x).
  - right. exists (k :: p)%list. split; [congruence|]. now apply (operand_accesses _ (target eq1 s)).
Qed.
End Solved.

Section SolvedMain.
Context {A : Type} (avar : A -> nat) (aimg : A -> bset) (asame : A -> A -> bool).
Context (cfold : expr A -> option Q) (inv : nat -> nat -> option (nat * list nat)) (elem : A -> list Z).
Variable eq : expr A * expr A.
Hypothesis OK : elements_ok avar aimg asame elem eq.
Hypothesis IN : forall f k g idx, inv f k = Some (g, idx) -> ~ In k idx.

Definition not_read (m : bset) (a b : A) : Prop := m <> [] /\ forall p, in_boxes p (aimg a) -> ~ in_boxes p (aimg b).
Lemma write_contained : forall v m s p a, In (s, p, a) (getWriteAccesses avar aimg (getAccesses eq) v m) -> all_or_none m (aimg a) ->
  (m = [] /\ aimg a = []) \/ (m <> [] /\ forall p, in_boxes p (aimg a) -> in_boxes p m).
Proof.
  intros v m s p a W C. apply writes_in in W as (W & _ & B). cbn [snd] in B. destruct C as [C|(C1 & C2 & _)]; [now left|]. right. split; auto.
  apply orb_true_iff in B as [B|B]; [|now apply bs_contains_spec]. apply andb_true_iff in B as [B _]. destruct m; [congruence|discriminate].
Qed.
Lemma no_touch : forall v m s p a b, In (s, p, a) (getWriteAccesses avar aimg (getAccesses eq) v m) -> all_or_none m (aimg a) -> all_or_none m (aimg b) ->
  bs_eq (aimg a) (aimg b) = false \/ ~ touches aimg (aimg a) b -> (bs_overlaps (aimg a) (aimg b) = false \/ ~ touches aimg (aimg a) b) -> not_read m a b.
Proof.
  intros v m s p a b W Ca Cb E O. pose proof (write_contained v m s p a W Ca) as [[M Ia]|[M Ia]].
  - exfalso. destruct Cb as [(_ & Ib)|(Nm & _)]; [|congruence]. destruct E as [E|E]; [rewrite Ia, Ib in E; discriminate|].
    apply E. unfold touches. now rewrite Ia, Ib.
  - split; auto. intros q Qa Qb. destruct O as [O|O].
    + assert (bs_overlaps (aimg a) (aimg b) = true) by (apply bs_overlaps_spec; exists q; auto). congruence.
    + apply O. unfold touches. apply orb_true_iff. right. apply bs_overlaps_spec. exists q. auto.
Qed.

Lemma group_solved : forall v m l r, (forall b, leaf_of b eq -> avar b = v -> all_or_none m (aimg b)) ->
  groupLeftHandSide avar aimg asame cfold eq m (getWriteAccesses avar aimg (getAccesses eq) v m) = Ok (Some (l, r)) ->
  exists a, l = EAcc a /\ forall b, has b r -> avar b = v -> not_read m a b.
Proof.
  intros v m l r CL H. unfold groupLeftHandSide in H. pose proof (no_touch v m) as NT.
  assert (WA : forall w, In w (getWriteAccesses avar aimg (getAccesses eq) v m) -> leaf_of (snd w) eq /\ avar (snd w) = v).
  { intros [[s p] a] I. apply writes_in in I as (I & V & _). split; auto. now apply (getAccesses_leaf eq s p). }
  assert (RL : forall b s, has b (target eq s) -> avar b = v -> 
     (exists q, In (s, q, b) (filter (fun w => (bs_empty m && bs_empty (aimg (snd w))) || bs_overlaps m (aimg (snd w)))%bool (getWriteAccesses avar aimg (getAccesses eq) v m)))
     \/ (m <> [] /\ forall p, in_boxes p (aimg b) -> ~ in_boxes p m)).
  { intros b s Hb V. assert (Lb : leaf_of b eq) by (apply leaf_of_has; destruct s; auto).
    assert (exists q, In (s, q, b) (getAccesses eq)) as (q & Iq).
    { unfold getAccesses. destruct s; cbn [target] in Hb; apply accesses_has in Hb; apply in_map_iff in Hb as ([q d] & <- & I); exists q; apply in_app_iff;
        [left|right]; apply in_map_iff; now exists (q, d). }
    destruct (CL b Lb V) as [(M & Ib)|(M & Nb & [C|C])]; [left|left|right; auto].
    - exists q. apply filter_In. split; [apply writes_in; cbn [snd]; rewrite M, Ib; auto|]. cbn [snd]. now rewrite M, Ib.
    - exists q. apply filter_In. split; [apply writes_in; cbn [snd]; split; [exact Iq|]; split; [exact V|]; apply orb_true_iff; right; now apply bs_contains_spec|].
      cbn [snd]. apply orb_true_iff. right. apply bs_overlaps_spec. exists (elem b).
      destruct OK as [O _]. specialize (O b Lb). destruct (aimg b) eqn:E; [congruence|]. rewrite <- E in *. split; auto. }
  destruct (getWriteAccesses avar aimg (getAccesses eq) v m) as [|w0 ws] eqn:W; [discriminate|].
  destruct (WA w0 (or_introl eq_refl)) as [La Va]. exists (snd w0).
  assert (Ca : all_or_none m (aimg (snd w0))) by now apply CL.
  set (rel := filter _ (w0 :: ws)) in *. destruct (negb _) in H; [discriminate|].
  assert (NT' : forall b, leaf_of b eq -> avar b = v -> bs_eq (aimg (snd w0)) (aimg b) = false \/ ~ touches aimg (aimg (snd w0)) b ->
     bs_overlaps (aimg (snd w0)) (aimg b) = false \/ ~ touches aimg (aimg (snd w0)) b -> not_read m (snd w0) b).
  { intros b Lb Vb. destruct w0 as [[s p] a]. apply (NT s p a b); auto. now left. }
  assert (WC : (m = [] /\ aimg (snd w0) = []) \/ (m <> [] /\ forall p, in_boxes p (aimg (snd w0)) -> in_boxes p m)).
  { destruct w0 as [[s p] a]. apply (write_contained v m s p a); auto. rewrite W. now left. }
  (* the sides that are rewritten *)
  assert (SD : forall s yes no F, partition_values avar aimg (collectSummedValues (convertToSums (target eq s))) (snd w0) = Ok (yes, no) ->
     groupFactors avar aimg (avar (snd w0)) (aimg (snd w0)) yes = Some F ->
     forall b, avar b = v -> (has b F \/ has b (groupRemaining no)) -> (has b F -> leaf_of b eq) -> not_read m (snd w0) b).
  { intros s yes no F P G b Vb [Hb|Hb] LF.
    - unfold groupFactors in G. destruct (factors_has avar aimg _ _ _ _ _ b G Hb) as [K|K]; [congruence|destruct K|]. apply NT'; auto.
    - unfold groupRemaining in Hb. apply remaining_has in Hb as [[]|(e & I & Hb)].
      assert (Lb : leaf_of b eq).
      { destruct (partition_spec avar aimg (fun _ => 0) (fun _ _ => None) (snd w0) _ yes no P) as (_ & _ & N).
        apply leaf_of_has. assert (has b (target eq s)) by (apply convert_has; apply (collect_has _ e); auto). destruct s; auto. }
      destruct (partition_no avar aimg (snd w0) _ yes no P e b I Hb) as [B1 B2]; [congruence|]. apply NT'; auto. }
  assert (FL : forall s yes no F b, partition_values avar aimg (collectSummedValues (convertToSums (target eq s))) (snd w0) = Ok (yes, no) ->
     groupFactors avar aimg (avar (snd w0)) (aimg (snd w0)) yes = Some F -> has b F -> leaf_of b eq).
  { intros s yes no F b P G Hb. destruct (partition_spec avar aimg (fun _ => 0) (fun _ _ => None) (snd w0) _ yes no P) as (_ & Y & _).
    assert (K : forall es acc F, (forall e, In e es -> In e yes) -> group_factors avar aimg (avar (snd w0)) (aimg (snd w0)) acc es = Some F -> has b F -> has b acc \/ exists e, In e es /\ has b e).
    { clear G Hb F. assert (FH : forall e c f, getMultiplyingFactor avar aimg (avar (snd w0)) (aimg (snd w0)) e = Some (c, Some f) -> has b f -> has b e).
      { induction e as [q|d|e IH|ew o x IHl y IHr|fn args]; intros c f H0 Hb; cbn [getMultiplyingFactor] in H0.
        - inversion H0; subst. destruct Hb.
        - destruct (_ && _) in H0; inversion H0; subst. destruct Hb.
        - destruct (getMultiplyingFactor avar aimg _ _ e) as [[c' [f'|]]|]; inversion H0; subst. apply (IH c f' eq_refl Hb).
        - destruct ew; [discriminate|]. destruct o; try discriminate.
          + destruct (getMultiplyingFactor avar aimg _ _ x) as [[cl [fl|]]|]; destruct (getMultiplyingFactor avar aimg _ _ y) as [[cr [fr|]]|]; inversion H0; subst.
            destruct Hb as [Hb|Hb]; [left; apply (IHl cl fl eq_refl Hb)|right; apply (IHr cr fr eq_refl Hb)].
          + destruct (getMultiplyingFactor avar aimg _ _ x) as [[cl [fl|]]|]; try discriminate. destruct (hasAccessToVar _ _ _ _ y); inversion H0; subst.
            destruct Hb as [Hb|Hb]; [left; apply (IHl c fl eq_refl Hb)|now right].
        - discriminate. }
      induction es as [|e es IH]; intros acc F SUB G Hb; cbn [group_factors] in G; [inversion G; subst; auto|].
      destruct (getMultiplyingFactor avar aimg _ _ e) as [[c [f|]]|] eqn:GE; try discriminate. destruct (Nat.ltb 1 c); [discriminate|].
      apply IH in G; auto; [|intros; apply SUB; now right]. destruct G as [[G|G]|(x & I & G)]; [auto| |].
      - right. exists e. split; [now left|]. now apply (FH e c f).
      - right. exists x. split; [now right|auto]. }
    destruct (K yes _ F (fun _ I => I) G Hb) as [[]|(e & I & He)]. destruct (Y e I) as [I' _].
    apply leaf_of_has. assert (has b (target eq s)) by (apply convert_has; apply (collect_has _ e); auto). destruct s; auto. }
  (* the side that is kept *)
  assert (KD : forall s b, (forall q d, ~ In (s, q, d) rel) -> has b (target eq s) -> avar b = v -> not_read m (snd w0) b).
  { intros s b NR Hb Vb. destruct (RL b s Hb Vb) as [(q & I)|(M & D)]; [now apply NR in I|]. split; auto.
    destruct WC as [[M' _]|[_ WC]]; [congruence|]. intros p Pa Pb. now apply (D p Pb), WC. }
  destruct (existsb lhs_side rel) eqn:EL; destruct (existsb (fun w => negb (lhs_side w)) rel) eqn:ER; [| | |discriminate].
  - destruct (partition_values avar aimg (collectSummedValues (convertToSums (fst eq))) (snd w0)) as [[ly ln]| | ] eqn:PL; cbn [bind fst snd] in H; try discriminate.
    destruct (partition_values avar aimg (collectSummedValues (convertToSums (snd eq))) (snd w0)) as [[ry rn]| | ] eqn:PR; cbn [bind fst snd] in H; try discriminate.
    destruct (groupFactors avar aimg (avar (snd w0)) (aimg (snd w0)) ly) as [lf|] eqn:GL; [|discriminate].
    destruct (groupFactors avar aimg (avar (snd w0)) (aimg (snd w0)) ry) as [rf|] eqn:GR; [|discriminate].
    destruct (divisor_ok cfold (EBin false BSub lf rf)); [|discriminate]. inversion H; subst l r. split; [reflexivity|].
    intros b Hb Vb. cbn [has] in Hb.
    pose proof (SD SLeft ly ln lf PL GL b Vb) as S1. pose proof (SD SRight ry rn rf PR GR b Vb) as S2.
    pose proof (FL SLeft ly ln lf b PL GL) as F1. pose proof (FL SRight ry rn rf b PR GR) as F2. tauto.
  - destruct (partition_values avar aimg (collectSummedValues (convertToSums (fst eq))) (snd w0)) as [[ly ln]| | ] eqn:PL; cbn [bind fst snd] in H; try discriminate.
    destruct (groupFactors avar aimg (avar (snd w0)) (aimg (snd w0)) ly) as [lf|] eqn:GL; [|discriminate].
    destruct (divisor_ok cfold lf); [|discriminate]. inversion H; subst l r. split; [reflexivity|].
    intros b Hb Vb. cbn [has] in Hb.
    pose proof (SD SLeft ly ln lf PL GL b Vb) as S1. pose proof (FL SLeft ly ln lf b PL GL) as F1.
    assert (K : has b (snd eq) -> not_read m (snd w0) b).
    { intros K. apply (KD SRight b); auto. intros q d I. assert (existsb (fun w => negb (lhs_side w)) rel = true); [|congruence].
      apply existsb_exists. exists (SRight, q, d). auto. }
    tauto.
  - destruct (partition_values avar aimg (collectSummedValues (convertToSums (snd eq))) (snd w0)) as [[ry rn]| | ] eqn:PR; cbn [bind fst snd] in H; try discriminate.
    destruct (groupFactors avar aimg (avar (snd w0)) (aimg (snd w0)) ry) as [rf|] eqn:GR; [|discriminate].
    destruct (divisor_ok cfold rf); [|discriminate]. inversion H; subst l r. split; [reflexivity|].
    intros b Hb Vb. cbn [has] in Hb.
    pose proof (SD SRight ry rn rf PR GR b Vb) as S1. pose proof (FL SRight ry rn rf b PR GR) as F1.
    assert (K : has b (fst eq) -> not_read m (snd w0) b).
    { intros K. apply (KD SLeft b); auto. intros q d I. assert (existsb lhs_side rel = true); [|congruence].
      apply existsb_exists. exists (SLeft, q, d). auto. }
    tauto.
Qed.
Lemma explicit_solved : forall v m l r, (forall b, leaf_of b eq -> avar b = v -> all_or_none m (aimg b)) ->
  explicitate avar aimg asame cfold inv eq v m = Ok (Some (l, r)) ->
  exists a, l = EAcc a /\ forall b, has b r -> avar b = v -> not_read m a b.
Proof.
  intros v m l r CL H. unfold explicitate in H. pose proof (group_solved v m l r CL) as G.
  destruct (getWriteAccesses avar aimg (getAccesses eq) v m) as [|[[s p] a] [|w1 ws]] eqn:W; [discriminate| |now apply G]. clear G.
  assert (WI : In (s, p, a) (getWriteAccesses avar aimg (getAccesses eq) v m)) by (rewrite W; now left).
  pose proof WI as WI'. apply writes_in in WI' as (Ia & Va & _). cbn [snd] in Va. destruct (getAccesses_leaf eq s p a Ia) as [Pa La].
  exists a. unfold explicitate_single in H.
  destruct (explicitate_path inv eq p s) as [[eq'|]| | ] eqn:P; cbn [bind] in H; try discriminate.
  assert (LR : l = target eq' s /\ r = other eq' s) by (destruct eq', s; inversion H; auto). destruct LR as [-> ->]. split.
  { assert (T : at_path (target eq s) p = Some (target eq' s)).
    { clear -P. revert eq P. induction p as [|k p IH]; intros eq P; cbn [explicitate_path] in P; [now inversion P|].
      destruct (explicitateLeaf inv eq k s) as [[eq1|]| | ] eqn:L; cbn [bind] in P; try discriminate. apply leaf_eq in L as [L1 _].
      cbn [at_path]. rewrite L1. now apply IH. }
    congruence. }
  intros b Hb Vb.
  assert (exists s' p', (s', p') <> (s, p) /\ In (s', p', b) (getAccesses eq)) as (s' & p' & NE & I).
  { destruct (path_has inv IN p eq s eq' b P Hb) as [K|(p' & NP & I)].
    - apply accesses_has in K. apply in_map_iff in K as ([q d] & <- & I). exists (match s with SLeft => SRight | SRight => SLeft end), q.
      split; [destruct s; discriminate|]. unfold getAccesses. apply in_app_iff. destruct s; [right|left]; apply in_map_iff; now exists (q, d).
    - exists s, p'. split; [congruence|]. unfold getAccesses. apply in_app_iff. destruct s; [left|right]; apply in_map_iff; now exists (p', b). }
  assert (Lb : leaf_of b eq) by (apply (getAccesses_leaf eq s' p'); auto).
  assert (NW : ~ In (s', p', b) (getWriteAccesses avar aimg (getAccesses eq) v m)).
  { rewrite W. intros [E|[]]. inversion E; subst. congruence. }
  assert (NB : ((bs_empty m && bs_empty (aimg b)) || bs_contains m (aimg b))%bool = false).
  { destruct ((bs_empty m && bs_empty (aimg b)) || bs_contains m (aimg b))%bool eqn:B; auto. exfalso. apply NW. apply writes_in. auto. }
  apply orb_false_iff in NB as [NB1 NB2].
  destruct (CL b Lb Vb) as [(M & Ib)|(M & _ & [C|C])].
  - rewrite M, Ib in NB1. discriminate.
  - exfalso. assert (bs_contains m (aimg b) = true) by now apply bs_contains_spec. congruence.
  - split; auto. destruct (write_contained v m s p a WI (CL a La Va)) as [[M' _]|[_ WC]]; [congruence|].
    intros q Qa Qb. now apply (C q Qb), WC.
Qed.
End SolvedMain.
