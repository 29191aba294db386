(** Proofs about the symbolic manipulation. *)
From Coq Require Import List Bool QArith Reals Qreals Lra Lia.
From Verif Require Import Result SymModel SymSpec.
Import ListNotations.
Local Open Scope R_scope.

Section Ind.
Context {A : Type} (P : expr A -> Prop).
Hypothesis Hc : forall q, P (EConst q).
Hypothesis Ha : forall a, P (EAcc a).
Hypothesis Hn : forall e, P e -> P (ENeg e).
Hypothesis Hb : forall ew o l r, P l -> P r -> P (EBin ew o l r).
Hypothesis Hf : forall f args, Forall P args -> P (ECall f args).
Fixpoint expr_ind' (e : expr A) : P e :=
  match e with
  | EConst q => Hc q
  | EAcc a => Ha a
  | ENeg x => Hn x (expr_ind' x)
  | EBin ew o l r => Hb ew o l r (expr_ind' l) (expr_ind' r)
  | ECall f args => Hf f args ((fix go l := match l return Forall P l with
                                | [] => Forall_nil P | x :: l' => Forall_cons x (expr_ind' x) (go l') end) args)
  end.
End Ind.

Section Value.
Context {A : Type} (val : A -> R) (fenv : nat -> list R -> option R).
Notation value := (value val fenv).

(** ** Distribution *)
Definition refines (a b : expr A) : Prop := forall w, value a = Some w -> value b = Some w.

Ltac values :=
  repeat match goal with
  | |- context [obind (value ?x) _] => let E := fresh "E" in destruct (value x) as [?|] eqn:E; cbn [obind] in *
  | H : context [obind (value ?x) _] |- _ => let E := fresh "E" in destruct (value x) as [?|] eqn:E; cbn [obind] in *
  end.

Lemma dneg_value : forall e e', dneg e = Some e' -> value e' = obind (value e) (fun v => Some (- v)).
Proof.
  assert (K : forall e, (forall e', dneg e = Some e' -> value e' = obind (value e) (fun v => Some (- v)))
     -> value (match dneg e with Some y => y | None => ENeg e end) = obind (value e) (fun v => Some (- v))).
  { intros e H. destruct (dneg e) as [y|]; [now apply H|reflexivity]. }
  induction e as [q|a|e IH|ew o l r IHl IHr|f args IH] using expr_ind'; intros e' H; cbn [dneg] in H; try discriminate.
  - inversion H; subst. cbn [SymSpec.value]. rewrite (K e IH). now destruct (value e).
  - destruct o; inversion H; subst; clear H.
    + cbn [SymSpec.value]. rewrite (K l IHl), (K r IHr). destruct (value l), (value r); cbn; auto. f_equal. lra.
    + cbn [SymSpec.value]. rewrite (K l IHl), (K r IHr). destruct (value l), (value r); cbn; auto. f_equal. lra.
    + destruct (dneg l) as [l'|]; [|destruct (dneg r) as [r'|]]; cbn [SymSpec.value].
      * rewrite (IHl l' eq_refl). destruct (value l), (value r); cbn; auto. f_equal. lra.
      * rewrite (IHr r' eq_refl). destruct (value l), (value r); cbn; auto. f_equal. lra.
      * destruct (value l), (value r); cbn; auto. f_equal. lra.
    + destruct (dneg l) as [l'|]; [|destruct (dneg r) as [r'|]]; cbn [SymSpec.value].
      * rewrite (IHl l' eq_refl). destruct (value l), (value r); cbn; auto. destruct (Req_EM_T r1 0); cbn; auto. f_equal. unfold Rdiv. lra.
      * rewrite (IHr r' eq_refl). destruct (value l), (value r); cbn; auto. destruct (Req_EM_T r1 0), (Req_EM_T (- r1) 0); cbn; auto; try lra.
        f_equal. field. auto.
      * destruct (value l), (value r); cbn; auto. destruct (Req_EM_T r1 0); cbn; auto. f_equal. unfold Rdiv. lra.
Qed.

Lemma dmul_neg : forall v x : expr A, dmul v (ENeg x) = Some (ENeg (match dmul v x with Some y => y | None => EBin false BMul x v end)).
Proof. reflexivity. Qed.
Lemma dmul_bin : forall (v : expr A) ew o l r, dmul v (EBin ew o l r) = match o with
  | BAdd =>
      Some (EBin ew BAdd (match dmul v l with Some y => y | None => EBin false BMul l v end)
                         (match dmul v r with Some y => y | None => EBin false BMul r v end))
  | BSub =>
      Some (EBin ew BSub (match dmul v l with Some y => y | None => EBin false BMul l v end)
                         (match dmul v r with Some y => y | None => EBin false BMul r v end))
  | BMul =>
      Some (match dmul v l with
            | Some l' => EBin ew BMul l' r
            | None => match dmul v r with
                      | Some r' => EBin ew BMul l r'
                      | None => EBin ew BMul (EBin false BMul l v) r
                      end
            end)
  | BDiv =>
      Some (match dmul v l with
            | Some l' => EBin ew BDiv l' r
            | None => match ddiv v r with
                      | Some r' => EBin ew BDiv l r'
                      | None => EBin ew BDiv (EBin false BMul l v) r
                      end
            end)
  end.
Proof. now intros v ew []. Qed.
Lemma ddiv_neg : forall v x : expr A, ddiv v (ENeg x) = Some (ENeg (match ddiv v x with Some y => y | None => EBin false BDiv x v end)).
Proof. reflexivity. Qed.
Lemma ddiv_bin : forall (v : expr A) ew o l r, ddiv v (EBin ew o l r) = match o with
  | BAdd =>
      Some (EBin ew BAdd (match ddiv v l with Some y => y | None => EBin false BDiv l v end)
                         (match ddiv v r with Some y => y | None => EBin false BDiv r v end))
  | BSub =>
      Some (EBin ew BSub (match ddiv v l with Some y => y | None => EBin false BDiv l v end)
                         (match ddiv v r with Some y => y | None => EBin false BDiv r v end))
  | BMul =>
      Some (match ddiv v l with
            | Some l' => EBin ew BMul l' r
            | None => match ddiv v r with
                      | Some r' => EBin ew BMul l r'
                      | None => EBin ew BMul (EBin false BDiv l v) r
                      end
            end)
  | BDiv =>
      Some (match ddiv v l with
            | Some l' => EBin ew BDiv l' r
            | None => match dmul v r with
                      | Some r' => EBin ew BDiv l r'
                      | None => EBin ew BDiv (EBin false BDiv l v) r
                      end
            end)
  end.
Proof. now intros v ew []. Qed.
Ltac step H := first [rewrite dmul_neg in H|rewrite ddiv_neg in H|rewrite dmul_bin in H|rewrite ddiv_bin in H|discriminate H].

(** Distributing a value different from zero. *)
Lemma dist_value : forall v x, value v = Some x -> x <> 0 -> forall e,
  (forall e', dmul v e = Some e' -> value e' = value (EBin false BMul e v))
  /\ (forall e', ddiv v e = Some e' -> value e' = value (EBin false BDiv e v)).
Proof.
  intros v x V X.
  assert (XX : forall T (a b : T), (if Req_EM_T x 0 then a else b) = b) by (intros; now destruct (Req_EM_T x 0)).
  assert (KM : forall e, (forall e', dmul v e = Some e' -> value e' = value (EBin false BMul e v))
     -> value (match dmul v e with Some y => y | None => EBin false BMul e v end) = value (EBin false BMul e v)).
  { intros e H. destruct (dmul v e) as [y|]; [now apply H|reflexivity]. }
  assert (KD : forall e, (forall e', ddiv v e = Some e' -> value e' = value (EBin false BDiv e v))
     -> value (match ddiv v e with Some y => y | None => EBin false BDiv e v end) = value (EBin false BDiv e v)).
  { intros e H. destruct (ddiv v e) as [y|]; [now apply H|reflexivity]. }
  induction e as [q|a|e IH|ew o l r IHl IHr|f args IH] using expr_ind'; (split; intros e' H; step H).
  - destruct IH as [IH _]. inversion H; subst. cbn [SymSpec.value]. rewrite (KM e IH). cbn [SymSpec.value]. rewrite V.
    destruct (value e); cbn; auto. f_equal. lra.
  - destruct IH as [_ IH]. inversion H; subst. cbn [SymSpec.value]. rewrite (KD e IH). cbn [SymSpec.value]. rewrite V.
    destruct (value e); cbn; auto. rewrite !XX. cbn. f_equal. unfold Rdiv. lra.
  - destruct IHl as [IHl _], IHr as [IHr IHrd]. destruct o; inversion H; subst; clear H.
    + cbn [SymSpec.value]. rewrite (KM l IHl), (KM r IHr). cbn [SymSpec.value]. rewrite V.
      destruct (value l), (value r); cbn; auto. f_equal. lra.
    + cbn [SymSpec.value]. rewrite (KM l IHl), (KM r IHr). cbn [SymSpec.value]. rewrite V.
      destruct (value l), (value r); cbn; auto. f_equal. lra.
    + destruct (dmul v l) as [l'|]; [|destruct (dmul v r) as [r'|]]; cbn [SymSpec.value].
      * rewrite (IHl l' eq_refl). cbn [SymSpec.value]. rewrite V. destruct (value l), (value r); cbn; auto. f_equal. lra.
      * rewrite (IHr r' eq_refl). cbn [SymSpec.value]. rewrite V. destruct (value l), (value r); cbn; auto. f_equal. lra.
      * rewrite V. destruct (value l), (value r); cbn; auto. f_equal. lra.
    + destruct (dmul v l) as [l'|]; [|destruct (ddiv v r) as [r'|]]; cbn [SymSpec.value].
      * rewrite (IHl l' eq_refl). cbn [SymSpec.value]. rewrite V. destruct (value l), (value r); cbn; auto.
        destruct (Req_EM_T r1 0); cbn; auto. f_equal. unfold Rdiv. lra.
      * rewrite (IHrd r' eq_refl). cbn [SymSpec.value]. rewrite V. destruct (value l), (value r); cbn; auto. rewrite XX. cbn.
        destruct (Req_EM_T r1 0) as [Z|Z]; cbn.
        -- destruct (Req_EM_T (r1 / x) 0) as [_|N]; auto. exfalso. apply N. subst. unfold Rdiv. lra.
        -- destruct (Req_EM_T (r1 / x) 0) as [N|_].
           ++ exfalso. apply Z. replace r1 with (r1 / x * x) by (field; auto). rewrite N. lra.
           ++ f_equal. field. auto.
      * rewrite V. destruct (value l), (value r); cbn; auto. destruct (Req_EM_T r1 0); cbn; auto. f_equal. unfold Rdiv. lra.
  - destruct IHl as [_ IHl], IHr as [IHrm IHr]. destruct o; inversion H; subst; clear H.
    + cbn [SymSpec.value]. rewrite (KD l IHl), (KD r IHr). cbn [SymSpec.value]. rewrite V.
      destruct (value l), (value r); cbn; auto; rewrite ?XX; cbn; auto. f_equal. unfold Rdiv. lra.
    + cbn [SymSpec.value]. rewrite (KD l IHl), (KD r IHr). cbn [SymSpec.value]. rewrite V.
      destruct (value l), (value r); cbn; auto; rewrite ?XX; cbn; auto. f_equal. unfold Rdiv. lra.
    + destruct (ddiv v l) as [l'|]; [|destruct (ddiv v r) as [r'|]]; cbn [SymSpec.value].
      * rewrite (IHl l' eq_refl). cbn [SymSpec.value]. rewrite V. destruct (value l), (value r); cbn; auto; rewrite ?XX; cbn; auto.
        f_equal. unfold Rdiv. lra.
      * rewrite (IHr r' eq_refl). cbn [SymSpec.value]. rewrite V. destruct (value l), (value r); cbn; auto; rewrite ?XX; cbn; auto.
        f_equal. unfold Rdiv. lra.
      * rewrite V. destruct (value l), (value r); cbn; auto; rewrite ?XX; cbn; auto. f_equal. unfold Rdiv. lra.
    + destruct (ddiv v l) as [l'|]; [|destruct (dmul v r) as [r'|]]; cbn [SymSpec.value].
      * rewrite (IHl l' eq_refl). cbn [SymSpec.value]. rewrite V. destruct (value l), (value r); cbn; auto; rewrite ?XX; cbn; auto.
        destruct (Req_EM_T r1 0); cbn; rewrite ?XX; auto. f_equal. field. auto.
      * rewrite (IHrm r' eq_refl). cbn [SymSpec.value]. rewrite V. destruct (value l), (value r); cbn; auto.
        destruct (Req_EM_T r1 0) as [Z|Z], (Req_EM_T (r1 * x) 0) as [N|N]; cbn; rewrite ?XX; auto.
        -- exfalso. apply N. rewrite Z. lra.
        -- exfalso. apply Rmult_integral in N as [N|N]; auto.
        -- f_equal. field. auto.
      * rewrite V. destruct (value l), (value r); cbn; auto; rewrite ?XX; cbn; auto.
        destruct (Req_EM_T r1 0); cbn; rewrite ?XX; auto. f_equal. field. auto.
Qed.

(** Distributing any value. *)
Lemma dist_refines : forall v e,
  (forall e', dmul v e = Some e' -> refines e' (EBin false BMul e v))
  /\ (forall e', ddiv v e = Some e' -> refines e' (EBin false BDiv e v)).
Proof.
  intros v. destruct (value v) as [x|] eqn:V; [destruct (Req_EM_T x 0) as [->|X]|].
  - (* zero: the product is zero if everything is defined *)
    assert (KM : forall e, (forall e', dmul v e = Some e' -> refines e' (EBin false BMul e v))
       -> refines (match dmul v e with Some y => y | None => EBin false BMul e v end) (EBin false BMul e v)).
    { intros e H. destruct (dmul v e) as [y|]; [now apply H|now intros w]. }
    assert (Z0 : forall T (a b : T), (if Req_EM_T 0 0 then a else b) = a) by (intros; now destruct (Req_EM_T 0 0)).
    assert (KD : forall e, (forall e', ddiv v e = Some e' -> refines e' (EBin false BDiv e v))
       -> value (match ddiv v e with Some y => y | None => EBin false BDiv e v end) = None).
    { intros e H. assert (N : value (EBin false BDiv e v) = None).
      { cbn [SymSpec.value]. rewrite V. destruct (value e); cbn; auto. }
      destruct (ddiv v e) as [y|]; [|exact N]. destruct (value y) as [w|] eqn:Y; auto.
      specialize (H y eq_refl w Y). congruence. }
    assert (MV : forall e w, value (EBin false BMul e v) = Some w -> exists y, value e = Some y /\ w = 0).
    { intros e w H. cbn [SymSpec.value] in H. rewrite V in H. destruct (value e) as [y|]; cbn in H; [|discriminate].
      inversion H; subst. exists y. split; auto. lra. }
    assert (MK : forall e y, value e = Some y -> value (EBin false BMul e v) = Some 0).
    { intros e y H. cbn [SymSpec.value]. rewrite V, H. cbn. f_equal. lra. }
    induction e as [q|a|e IH|ew o l r IHl IHr|f args IH] using expr_ind'; (split; intros e' H; step H).
    + destruct IH as [IH _]. inversion H; subst. intros w W. cbn [SymSpec.value] in W.
      destruct (value (match dmul v e with Some y => y | None => EBin false BMul e v end)) as [u|] eqn:U; cbn in W; [|discriminate].
      apply (KM e IH) in U. apply MV in U as (y & Y & ->). inversion W; subst.
      rewrite (MK (ENeg e) (- y)); [f_equal; lra|]. cbn [SymSpec.value]. now rewrite Y.
    + destruct IH as [_ IH]. inversion H; subst. intros w W. cbn [SymSpec.value] in W. rewrite (KD e IH) in W. discriminate.
    + destruct IHl as [IHl _], IHr as [IHr IHrd]. destruct o; inversion H; subst; clear H; intros w W.
      * cbn [SymSpec.value] in W.
        destruct (value (match dmul v l with Some y => y | None => EBin false BMul l v end)) as [u|] eqn:U; cbn in W; [|discriminate].
        destruct (value (match dmul v r with Some y => y | None => EBin false BMul r v end)) as [t|] eqn:T; cbn in W; [|discriminate].
        apply (KM l IHl) in U. apply (KM r IHr) in T. apply MV in U as (y & Y & ->), T as (z & Z & ->). inversion W; subst.
        rewrite (MK _ (y + z)); [f_equal; lra|]. cbn [SymSpec.value]. now rewrite Y, Z.
      * cbn [SymSpec.value] in W.
        destruct (value (match dmul v l with Some y => y | None => EBin false BMul l v end)) as [u|] eqn:U; cbn in W; [|discriminate].
        destruct (value (match dmul v r with Some y => y | None => EBin false BMul r v end)) as [t|] eqn:T; cbn in W; [|discriminate].
        apply (KM l IHl) in U. apply (KM r IHr) in T. apply MV in U as (y & Y & ->), T as (z & Z & ->). inversion W; subst.
        rewrite (MK _ (y - z)); [f_equal; lra|]. cbn [SymSpec.value]. now rewrite Y, Z.
      * assert (G : exists y z, value l = Some y /\ value r = Some z /\ w = 0).
        { destruct (dmul v l) as [l'|]; [|destruct (dmul v r) as [r'|]]; cbn [SymSpec.value] in W.
          - destruct (value l') as [u|] eqn:U; cbn in W; [|discriminate]. apply (IHl l' eq_refl) in U. apply MV in U as (y & Y & ->).
            destruct (value r) as [z|]; cbn in W; [|discriminate]. inversion W; subst. exists y, z. repeat split; auto. lra.
          - destruct (value l) as [y|]; cbn in W; [|discriminate]. destruct (value r') as [u|] eqn:U; cbn in W; [|discriminate].
            apply (IHr r' eq_refl) in U. apply MV in U as (z & Z & ->). inversion W; subst. exists y, z. repeat split; auto. lra.
          - rewrite V in W. destruct (value l) as [y|], (value r) as [z|]; cbn in W; try discriminate. inversion W; subst.
            exists y, z. repeat split; auto. lra. }
        destruct G as (y & z & Y & Z & ->). apply (MK _ (y * z)). cbn [SymSpec.value]. now rewrite Y, Z.
      * assert (G : exists y z, value l = Some y /\ value r = Some z /\ z <> 0 /\ w = 0).
        { destruct (dmul v l) as [l'|]; [|destruct (ddiv v r) as [r'|]]; cbn [SymSpec.value] in W.
          - destruct (value l') as [u|] eqn:U; cbn in W; [|discriminate]. apply (IHl l' eq_refl) in U. apply MV in U as (y & Y & ->).
            destruct (value r) as [z|]; cbn in W; [|discriminate]. destruct (Req_EM_T z 0); [discriminate|]. inversion W; subst.
            exists y, z. repeat split; auto. unfold Rdiv. lra.
          - destruct (value l) as [y|]; cbn in W; [|discriminate]. destruct (value r') as [u|] eqn:U; cbn in W; [|discriminate].
            apply (IHrd r' eq_refl) in U. cbn [SymSpec.value] in U. rewrite V in U.
            destruct (value r); cbn in U; [rewrite Z0 in U|]; discriminate.
          - rewrite V in W. destruct (value l) as [y|], (value r) as [z|]; cbn in W; try discriminate.
            destruct (Req_EM_T z 0); [discriminate|]. inversion W; subst. exists y, z. repeat split; auto. unfold Rdiv. lra. }
        destruct G as (y & z & Y & Z & NZ & ->). apply (MK _ (y / z)). cbn [SymSpec.value]. rewrite Y, Z. cbn. now destruct (Req_EM_T z 0).
    + destruct IHl as [_ IHl], IHr as [IHrm IHr]. pose proof (KD l IHl) as KL. pose proof (KD r IHr) as KR.
      assert (N : value e' = None).
      { destruct o; inversion H; subst; clear H; cbn [SymSpec.value].
        - now rewrite KL.
        - now rewrite KL.
        - destruct (ddiv v l) as [l'|] eqn:DL; [|destruct (ddiv v r) as [r'|] eqn:DR]; cbn [SymSpec.value].
          + now rewrite KL.
          + rewrite KR. now destruct (value l).
          + rewrite V. destruct (value l); cbn; auto. rewrite Z0. reflexivity.
        - destruct (ddiv v l) as [l'|] eqn:DL; [|destruct (dmul v r) as [r'|] eqn:DR]; cbn [SymSpec.value].
          + now rewrite KL.
          + destruct (value l); cbn; auto. destruct (value r') as [u|] eqn:U; cbn; auto.
            apply (IHrm r' eq_refl) in U. apply MV in U as (y & _ & ->). now rewrite Z0.
          + rewrite V. destruct (value l); cbn; auto. rewrite Z0. reflexivity. }
      intros w W. congruence.
  - intros e. destruct (dist_value v x V X e) as [M D]. split; intros e' H w W.
    + now rewrite <- (M e' H).
    + now rewrite <- (D e' H).
  - (* undefined: the result is undefined too *)
    assert (U : forall e, value (EBin false BMul e v) = None /\ value (EBin false BDiv e v) = None).
    { intros e. cbn [SymSpec.value]. rewrite V. destruct (value e); auto. }
    assert (N : forall e, (forall e', dmul v e = Some e' -> value e' = None) /\ (forall e', ddiv v e = Some e' -> value e' = None)).
    { induction e as [q|a|e IH|ew o l r IHl IHr|f args IH] using expr_ind'; (split; intros e' H; step H).
      - destruct IH as [IH _]. inversion H; subst. cbn [SymSpec.value]. destruct (dmul v e) as [y|]; [now rewrite (IH y eq_refl)|].
        now rewrite (proj1 (U e)).
      - destruct IH as [_ IH]. inversion H; subst. cbn [SymSpec.value]. destruct (ddiv v e) as [y|]; [now rewrite (IH y eq_refl)|].
        now rewrite (proj2 (U e)).
      - destruct IHl as [IHl _], IHr as [IHr IHrd]. destruct o; inversion H; subst; clear H; cbn [SymSpec.value].
        + destruct (dmul v l) as [y|]; [now rewrite (IHl y eq_refl)|now rewrite (proj1 (U l))].
        + destruct (dmul v l) as [y|]; [now rewrite (IHl y eq_refl)|now rewrite (proj1 (U l))].
        + destruct (dmul v l) as [l'|]; [|destruct (dmul v r) as [r'|]]; cbn [SymSpec.value].
          * now rewrite (IHl l' eq_refl).
          * rewrite (IHr r' eq_refl). now destruct (value l).
          * rewrite V. now destruct (value l).
        + destruct (dmul v l) as [l'|]; [|destruct (ddiv v r) as [r'|]]; cbn [SymSpec.value].
          * now rewrite (IHl l' eq_refl).
          * rewrite (IHrd r' eq_refl). now destruct (value l).
          * rewrite V. now destruct (value l).
      - destruct IHl as [_ IHl], IHr as [IHrm IHr]. destruct o; inversion H; subst; clear H; cbn [SymSpec.value].
        + destruct (ddiv v l) as [y|]; [now rewrite (IHl y eq_refl)|now rewrite (proj2 (U l))].
        + destruct (ddiv v l) as [y|]; [now rewrite (IHl y eq_refl)|now rewrite (proj2 (U l))].
        + destruct (ddiv v l) as [l'|]; [|destruct (ddiv v r) as [r'|]]; cbn [SymSpec.value].
          * now rewrite (IHl l' eq_refl).
          * rewrite (IHr r' eq_refl). now destruct (value l).
          * rewrite V. now destruct (value l).
        + destruct (ddiv v l) as [l'|]; [|destruct (dmul v r) as [r'|]]; cbn [SymSpec.value].
          * now rewrite (IHl l' eq_refl).
          * rewrite (IHrm r' eq_refl). now destruct (value l).
          * rewrite V. now destruct (value l). }
    intros e. split; intros e' H w W; exfalso; [pose proof (proj1 (N e) e' H)|pose proof (proj2 (N e) e' H)]; congruence.
Qed.

Lemma value_ew : forall ew ew' o l r, value (EBin ew o l r) = value (EBin ew' o l r).
Proof. reflexivity. Qed.
Lemma mul_comm_value : forall ew l r, value (EBin ew BMul l r) = value (EBin false BMul r l).
Proof. intros. cbn [SymSpec.value]. destruct (value l), (value r); cbn; auto. f_equal. lra. Qed.

Lemma distribute_refines : forall e e', distribute e = Some e' -> refines e' e.
Proof.
  intros e e' H. destruct e as [q|a|x|ew o l r|f args]; cbn [distribute] in H; try discriminate.
  - intros w W. rewrite (dneg_value x e' H) in W. exact W.
  - destruct o; try discriminate.
    + destruct (dmul r l) as [x|] eqn:D.
      * inversion H; subst. intros w W. now apply (proj1 (dist_refines r l) e' D) in W.
      * intros w W. apply (proj1 (dist_refines l r) e' H) in W. now rewrite (mul_comm_value ew l r).
    + intros w W. now apply (proj2 (dist_refines r l) e' H) in W.
Qed.
Lemma distribute_value : forall e e', distribute e = Some e' ->
  match e with EBin _ BMul l r => value l <> Some 0 /\ value r <> Some 0 | _ => True end -> value e' = value e.
Proof.
  intros e e' H N. destruct e as [q|a|x|ew o l r|f args]; cbn [distribute] in H; try discriminate.
  - now apply dneg_value.
  - destruct o; try discriminate.
    + destruct N as [N1 N2]. destruct (dmul r l) as [x|] eqn:D.
      * inversion H; subst. destruct (value r) as [y|] eqn:Y.
        -- rewrite (proj1 (dist_value r y Y ltac:(congruence) l) e' D). apply value_ew.
        -- cbn [SymSpec.value]. rewrite Y. transitivity (@None R); [|now destruct (value l)].
           destruct (value e') as [w|] eqn:W; auto. apply (proj1 (dist_refines r l) e' D) in W. cbn [SymSpec.value] in W. rewrite Y in W.
           destruct (value l); discriminate.
      * destruct (value l) as [y|] eqn:Y.
        -- rewrite (proj1 (dist_value l y Y ltac:(congruence) r) e' H). symmetry. apply mul_comm_value.
        -- cbn [SymSpec.value]. rewrite Y. destruct (value e') as [w|] eqn:W; auto.
           apply (proj1 (dist_refines l r) e' H) in W. cbn [SymSpec.value] in W. rewrite Y in W. destruct (value r); discriminate.
    + destruct (value r) as [y|] eqn:Y; [destruct (Req_EM_T y 0) as [->|X]|].
      * cbn [SymSpec.value]. rewrite Y. assert (Q : value e' = None).
        { destruct (value e') as [w|] eqn:W; auto. apply (proj2 (dist_refines r l) e' H) in W. cbn [SymSpec.value] in W. rewrite Y in W.
          destruct (value l); cbn in W; [destruct (Req_EM_T 0 0)|]; congruence. }
        rewrite Q. destruct (value l); cbn; auto. destruct (Req_EM_T 0 0); congruence.
      * rewrite (proj2 (dist_value r y Y X l) e' H). apply value_ew.
      * cbn [SymSpec.value]. rewrite Y. destruct (value e') as [w|] eqn:W; [|now destruct (value l)].
        apply (proj2 (dist_refines r l) e' H) in W. cbn [SymSpec.value] in W. rewrite Y in W. destruct (value l); discriminate.
Qed.

(** Congruence. *)
Lemma refines_neg : forall a b, refines a b -> refines (ENeg a) (ENeg b).
Proof.
  intros a b H w W. cbn [SymSpec.value] in *. destruct (value a) as [x|] eqn:E; [|discriminate]. now rewrite (H x E).
Qed.
Lemma refines_bin : forall ew o a b c d, refines a c -> refines b d -> refines (EBin ew o a b) (EBin ew o c d).
Proof.
  intros ew o a b c d H K w W. cbn [SymSpec.value] in *. destruct (value a) as [x|] eqn:E; [|discriminate].
  destruct (value b) as [y|] eqn:F; [|discriminate]. now rewrite (H x E), (K y F).
Qed.
Lemma all_some_refines : forall f args l, Forall (fun e => refines (f e) e) args ->
  all_some (map value (map f args)) = Some l -> all_some (map value args) = Some l.
Proof.
  induction args as [|a args IH]; intros l H W; auto. inversion H; subst. cbn [map all_some] in *.
  destruct (value (f a)) as [x|] eqn:E; [|discriminate]. rewrite (H2 x E). cbn [obind] in *.
  destruct (all_some (map value (map f args))) as [xs|]; [|discriminate]. rewrite (IH xs); auto.
Qed.
Lemma refines_call : forall g f args, Forall (fun e => refines (f e) e) args -> refines (ECall g (map f args)) (ECall g args).
Proof.
  intros g f args H w W. cbn [SymSpec.value] in *. destruct (all_some (map value (map f args))) as [l|] eqn:E; [|discriminate].
  now rewrite (all_some_refines f args l H E).
Qed.
Lemma refines_trans : forall a b c, refines a b -> refines b c -> refines a c.
Proof. intros a b c H K w W. auto. Qed.
Lemma refines_refl : forall a, refines a a.
Proof. now intros a w. Qed.

Lemma all_some_ext : forall (f : expr A -> expr A) args, Forall (fun e => value (f e) = value e) args ->
  map value (map f args) = map value args.
Proof. induction 1; cbn; congruence. Qed.

Lemma removeSubtractions_value : forall e, value (removeSubtractions e) = value e.
Proof.
  induction e as [q|a|e IH|ew o l r IHl IHr|f args IH] using expr_ind'; cbn [removeSubtractions]; auto.
  - cbn [SymSpec.value]. now rewrite IH.
  - assert (G : forall ew, value (EBin ew o (removeSubtractions l) (removeSubtractions r)) = value (EBin ew o l r))
      by (intros; cbn [SymSpec.value]; now rewrite IHl, IHr).
    destruct ew; [apply G|]. destruct o; try apply G. cbn [SymSpec.value]. rewrite IHl, IHr.
    destruct (value l), (value r); cbn; auto.
  - cbn [SymSpec.value]. now rewrite all_some_ext.
Qed.
Lemma pushNegateOps_value : forall e, value (pushNegateOps e) = value e.
Proof.
  induction e as [q|a|e IH|ew o l r IHl IHr|f args IH] using expr_ind'; cbn [pushNegateOps]; auto.
  - assert (G : value (ENeg (pushNegateOps e)) = value (ENeg e)) by (cbn [SymSpec.value]; now rewrite IH).
    destruct (distribute (ENeg (pushNegateOps e))) as [y|] eqn:D; [|exact G].
    rewrite (distribute_value _ _ D I). exact G.
  - cbn [SymSpec.value]. now rewrite IHl, IHr.
  - cbn [SymSpec.value]. now rewrite all_some_ext.
Qed.
Lemma distributeMulAndDivOps_refines : forall e, refines (distributeMulAndDivOps e) e.
Proof.
  induction e as [q|a|e IH|ew o l r IHl IHr|f args IH] using expr_ind'; cbn [distributeMulAndDivOps]; try apply refines_refl.
  - now apply refines_neg.
  - pose proof (refines_bin ew o _ _ _ _ IHl IHr) as G.
    destruct (distribute (EBin ew o (distributeMulAndDivOps l) (distributeMulAndDivOps r))) as [y|] eqn:D; [|exact G].
    eapply refines_trans; [apply (distribute_refines _ _ D)|exact G].
  - now apply refines_call.
Qed.
Lemma factors_sub : forall e x, factors_nonzero val fenv e -> (forall y, subexpr y x -> subexpr y e) -> factors_nonzero val fenv x.
Proof. intros e x F S ew l r H. apply (F ew). auto. Qed.
Lemma distributeMulAndDivOps_value : forall e, factors_nonzero val fenv e -> value (distributeMulAndDivOps e) = value e.
Proof.
  induction e as [q|a|e IH|ew o l r IHl IHr|f args IH] using expr_ind'; intros F; cbn [distributeMulAndDivOps]; auto.
  - cbn [SymSpec.value]. rewrite IH; auto. eapply factors_sub; [exact F|]. intros. now constructor.
  - assert (L : value (distributeMulAndDivOps l) = value l) by (apply IHl; eapply factors_sub; [exact F|]; intros; now apply sub_left).
    assert (R0 : value (distributeMulAndDivOps r) = value r) by (apply IHr; eapply factors_sub; [exact F|]; intros; now apply sub_right).
    assert (G : value (EBin ew o (distributeMulAndDivOps l) (distributeMulAndDivOps r)) = value (EBin ew o l r))
      by (cbn [SymSpec.value]; now rewrite L, R0).
    destruct (distribute (EBin ew o (distributeMulAndDivOps l) (distributeMulAndDivOps r))) as [y|] eqn:D; [|exact G].
    rewrite (distribute_value _ _ D); [exact G|]. destruct o; auto. rewrite L, R0. apply (F ew). constructor.
  - cbn [SymSpec.value]. rewrite all_some_ext; auto. rewrite Forall_forall in *. intros x X. apply IH; auto.
    eapply factors_sub; [exact F|]. intros. eapply sub_call; eauto.
Qed.

Lemma removeSubtractions_factors : forall e, factors_nonzero val fenv e -> factors_nonzero val fenv (removeSubtractions e).
Proof.
  induction e as [q|a|e IH|ew o l r IHl IHr|f args IH] using expr_ind'; intros F; cbn [removeSubtractions]; auto.
  - assert (F' : factors_nonzero val fenv (removeSubtractions e)) by (apply IH; eapply factors_sub; [exact F|]; intros; now constructor).
    intros ew l r H. inversion H; subst. now apply (F' ew).
  - assert (L : factors_nonzero val fenv (removeSubtractions l)) by (apply IHl; eapply factors_sub; [exact F|]; intros; now apply sub_left).
    assert (R0 : factors_nonzero val fenv (removeSubtractions r)) by (apply IHr; eapply factors_sub; [exact F|]; intros; now apply sub_right).
    assert (G : factors_nonzero val fenv (EBin ew o (removeSubtractions l) (removeSubtractions r))).
    { intros ew' l' r' H. inversion H; subst; [|now apply (L ew')|now apply (R0 ew')].
      rewrite !removeSubtractions_value. apply (F ew). constructor. }
    destruct ew; [exact G|]. destruct o; try exact G.
    intros ew' l' r' H. inversion H; subst; [now apply (L ew')|].
    match goal with S : subexpr _ (ENeg _) |- _ => inversion S; subst end. now apply (R0 ew').
  - intros ew l r H. inversion H; subst.
    match goal with S : In _ (map _ _) |- _ => apply in_map_iff in S as (x & <- & X) end. rewrite Forall_forall in IH.
    apply (IH x X) with (ew := ew); auto. eapply factors_sub; [exact F|]. intros. eapply sub_call; eauto.
Qed.

Lemma convert_refines : forall e, refines (convertToSums e) e.
Proof.
  intros e w W. unfold convertToSums in W. rewrite pushNegateOps_value in W. apply distributeMulAndDivOps_refines in W.
  now rewrite removeSubtractions_value in W.
Qed.
Lemma convert_value : forall e, factors_nonzero val fenv e -> value (convertToSums e) = value e.
Proof.
  intros e F. unfold convertToSums. rewrite pushNegateOps_value, distributeMulAndDivOps_value, removeSubtractions_value; auto.
  now apply removeSubtractions_factors.
Qed.

(** ** Inversion *)
Lemma all_some_nth : forall (l : list (option R)) xs k, all_some l = Some xs -> nth_error xs k = match nth_error l k with Some o => o | None => None end.
Proof.
  induction l as [|o l IH]; intros xs k H; cbn [all_some] in H; [inversion H; now destruct k|].
  destruct o as [x|]; [|discriminate]. cbn [obind] in H. destruct (all_some l) as [ys|]; [|discriminate]. inversion H; subst.
  destruct k; cbn; auto.
Qed.
Lemma all_some_length : forall (l : list (option R)) xs, all_some l = Some xs -> length xs = length l.
Proof.
  induction l as [|o l IH]; intros xs H; cbn [all_some] in H; [now inversion H|].
  destruct o as [x|]; [|discriminate]. cbn [obind] in H. destruct (all_some l) as [ys|]; [|discriminate]. inversion H; subst. cbn. now rewrite (IH ys).
Qed.
Lemma inverse_args_values : forall args y z xs, all_some (map value args) = Some xs -> value y = Some z ->
  forall idx es, inverse_args args y idx = Ok es -> all_some (map value es) = inverse_values xs z idx.
Proof.
  intros args y z xs H Y. pose proof (all_some_length _ _ H) as L. rewrite map_length in L.
  induction idx as [|i idx IH]; intros es E; cbn [inverse_args] in E; [now inversion E|].
  destruct (inverse_args args y idx) as [es'| | ] eqn:E'; cbn [bind] in E.
  2-3: destruct (nth_error args i); [discriminate|destruct (Nat.eqb i (length args)); discriminate].
  cbn [inverse_values]. rewrite (all_some_nth _ _ i H), nth_error_map, L.
  destruct (nth_error args i) as [a|] eqn:N; cbn [bind option_map] in *.
  - inversion E; subst. cbn [map all_some]. rewrite (IH es' eq_refl).
    destruct (value a) as [v|] eqn:VA; [reflexivity|]. exfalso.
    pose proof (all_some_nth _ _ i H) as M. rewrite nth_error_map, N in M. cbn in M. rewrite VA in M. apply nth_error_None in M.
    assert (nth_error args i <> None) by congruence. apply nth_error_Some in H0. lia.
  - destruct (Nat.eqb i (length args)); [|discriminate]. inversion E; subst. cbn [map all_some]. rewrite Y. cbn [obind].
    now rewrite (IH es' eq_refl).
Qed.
Lemma inverse_args_uses : forall (args : list (expr A)) y idx es, inverse_args args y idx = Ok es -> In (length args) idx -> In y es.
Proof.
  induction idx as [|i idx IH]; intros es E I; [destruct I|]. cbn [inverse_args] in E.
  destruct (inverse_args args y idx) as [es'| | ] eqn:E'; cbn [bind] in E.
  2-3: destruct (nth_error args i); [discriminate|destruct (Nat.eqb i (length args)); discriminate].
  destruct (nth_error args i) as [a|] eqn:N; cbn [bind] in E.
  - inversion E; subst. destruct I as [->|I]; [|right; now apply IH].
    assert (nth_error args (length args) <> None) by congruence. apply nth_error_Some in H. lia.
  - destruct (Nat.eqb i (length args)); [|discriminate]. inversion E; subst. destruct I as [->|I]; [now left|right; now apply IH].
Qed.
Lemma all_some_defined : forall (l : list (expr A)) xs e, all_some (map value l) = Some xs -> In e l -> value e <> None.
Proof.
  induction l as [|a l IH]; intros xs e H I; [destruct I|]. cbn [map all_some] in H.
  destruct (value a) eqn:V; [|discriminate]. cbn [obind] in H. destruct (all_some (map value l)) as [ys|]; [|discriminate].
  destruct I as [<-|I]; [congruence|now apply (IH ys)].
Qed.

Lemma operand_defined : forall t k a, nth_error (operands t) k = Some a -> value t <> None -> value a <> None.
Proof.
  intros t k a H D N. apply D. destruct t as [q|b|x|ew o l r|f args]; cbn [operands] in H; cbn [SymSpec.value].
  - destruct k; discriminate.
  - destruct k; discriminate.
  - destruct k as [|[|k]]; inversion H; subst. now rewrite N.
  - destruct k as [|[|[|k]]]; inversion H; subst; rewrite N; auto. now destruct (value l).
  - destruct (all_some (map value args)) as [xs|] eqn:E; auto. exfalso.
    apply (all_some_defined args xs a E); auto. now apply nth_error_In in H.
Qed.
Variable inv : nat -> nat -> option (nat * list nat).
Hypothesis INV : inverse_ok fenv inv.
Lemma inverse_correct : forall t k y i a x z u w, inverse inv t k y = Ok (Some i) -> nth_error (operands t) k = Some a ->
  value t = Some x -> value y = Some z -> value a = Some u -> value i = Some w -> (x = z <-> u = w).
Proof.
  intros t k y i a x z u w H N T Y A0 I.
  destruct t as [q|b|e|ew o l r|f args]; cbn [inverse operands] in *; try discriminate.
  - destruct k as [|k]; [|discriminate]. inversion H; inversion N; subst. cbn [SymSpec.value] in *. rewrite A0 in T. rewrite Y in I.
    cbn [obind] in *. inversion T; inversion I; subst. split; lra.
  - destruct k as [|[|k]]; [| |destruct o; discriminate]; inversion N; subst; clear N; destruct o; inversion H; subst; clear H;
      cbn [SymSpec.value] in *; rewrite ?A0, ?Y in *; cbn [obind] in *.
    + destruct (value r) as [v|]; [|discriminate]. cbn in *. inversion T; inversion I; subst. split; lra.
    + destruct (value r) as [v|]; [|discriminate]. cbn in *. inversion T; inversion I; subst. split; lra.
    + destruct (value r) as [v|]; [|discriminate]. cbn in *. destruct (Req_EM_T v 0); [discriminate|]. inversion T; inversion I; subst.
      split; [intros <-; field; auto|intros ->; field; auto].
    + destruct (value r) as [v|]; [|discriminate]. cbn in *. destruct (Req_EM_T v 0); [discriminate|]. inversion T; inversion I; subst.
      split; [intros <-; field; auto|intros ->; field; auto].
    + destruct (value l) as [v|]; [|discriminate]. cbn in *. inversion T; inversion I; subst. split; lra.
    + destruct (value l) as [v|]; [|discriminate]. cbn in *. inversion T; inversion I; subst. split; lra.
    + destruct (value l) as [v|]; [|discriminate]. cbn in *. destruct (Req_EM_T v 0); [discriminate|]. inversion T; inversion I; subst.
      split; [intros <-; field; auto|intros ->; field; auto].
    + destruct (value l) as [v|]; [|discriminate]. cbn in *. destruct (Req_EM_T u 0); [discriminate|].
      destruct (Req_EM_T z 0); [discriminate|]. inversion T; inversion I; subst. split.
      * intros E. apply (Rmult_eq_reg_r z); auto. replace (v / z * z) with v by (field; auto). rewrite <- E. field. auto.
      * intros E. apply (Rmult_eq_reg_r u); auto. replace (v / u * u) with v by (field; auto). rewrite E. field. auto.
  - destruct (Nat.leb (length args) k) eqn:K; [discriminate|]. destruct (inv f k) as [[g idx]|] eqn:G; [|discriminate].
    destruct (inverse_args args y idx) as [es| | ] eqn:E; cbn [bind] in H; [|discriminate..]. inversion H; subst.
    cbn [SymSpec.value] in T, I. destruct (all_some (map value args)) as [xs|] eqn:X; [|discriminate]. cbn [obind] in T.
    rewrite (inverse_args_values args y z xs X Y idx es E) in I. destruct (inverse_values xs z idx) as [ys|] eqn:V; [|discriminate].
    cbn [obind] in I. destruct (INV f k g idx xs x G T) as [_ C]. apply (C z ys w u V I).
    rewrite (all_some_nth _ _ k X), nth_error_map, N. cbn. exact A0.
Qed.
Lemma inverse_uses : forall t k y i, inverse inv t k y = Ok (Some i) -> value t <> None -> value i <> None -> value y <> None.
Proof.
  intros t k y i H T I N. destruct t as [q|b|e|ew o l r|f args]; cbn [inverse] in *; try discriminate.
  - destruct k as [|k]; [|discriminate]. inversion H; subst. cbn [SymSpec.value] in I. now rewrite N in I.
  - destruct k as [|[|k]]; destruct o; inversion H; subst; cbn [SymSpec.value] in I; rewrite N in I; try now apply I.
    + now destruct (value l).
    + now destruct (value l).
  - destruct (Nat.leb (length args) k) eqn:K; [discriminate|]. destruct (inv f k) as [[g idx]|] eqn:G; [|discriminate].
    destruct (inverse_args args y idx) as [es| | ] eqn:E; cbn [bind] in H; [|discriminate..]. inversion H; subst.
    cbn [SymSpec.value] in T, I. destruct (all_some (map value args)) as [xs|] eqn:X; [|now apply T]. cbn [obind] in T.
    destruct (fenv f xs) as [u|] eqn:U; [|now apply T]. destruct (INV f k g idx xs u G U) as [L _].
    rewrite (all_some_length _ _ X), map_length in L. pose proof (inverse_args_uses args y idx es E L) as M.
    destruct (all_some (map value es)) as [ys|] eqn:W; [|now apply I]. now apply (all_some_defined es ys y W M).
Qed.

Definition target (eq : expr A * expr A) (s : side) := match s with SLeft => fst eq | SRight => snd eq end.
Definition other (eq : expr A * expr A) (s : side) := match s with SLeft => snd eq | SRight => fst eq end.
Lemma leaf_eq : forall eq k s eq', explicitateLeaf inv eq k s = Ok (Some eq') ->
  nth_error (operands (target eq s)) k = Some (target eq' s) /\ inverse inv (target eq s) k (other eq s) = Ok (Some (other eq' s)).
Proof.
  intros [l r] k s eq' H. unfold explicitateLeaf in H. destruct s; cbn [target other fst snd].
  - destruct (inverse inv l k r) as [[i|]| | ] eqn:I; cbn [bind] in H; try discriminate.
    destruct (nth_error (operands l) k); inversion H; subst; auto.
  - destruct (inverse inv r k l) as [[i|]| | ] eqn:I; cbn [bind] in H; try discriminate.
    destruct (nth_error (operands r) k); inversion H; subst; auto.
Qed.
Lemma path_defined : forall path eq s eq', explicitate_path inv eq path s = Ok (Some eq') ->
  value (target eq s) <> None -> value (other eq' s) <> None -> value (other eq s) <> None.
Proof.
  induction path as [|k path IH]; intros eq s eq' H T O; cbn [explicitate_path] in H; [inversion H; now subst|].
  destruct (explicitateLeaf inv eq k s) as [[eq1|]| | ] eqn:L; cbn [bind] in H; try discriminate.
  apply leaf_eq in L as [L1 L2]. apply (inverse_uses _ _ _ _ L2 T). apply (IH _ _ _ H); auto.
  now apply (operand_defined _ _ _ L1).
Qed.
Lemma holds_iff : forall eq s, defined val fenv eq -> exists x y, value (target eq s) = Some x /\ value (other eq s) = Some y /\ (holds val fenv eq <-> x = y).
Proof.
  intros [l r] s [D1 D2]. cbn [fst snd] in *. destruct (value l) as [x|] eqn:X; [|congruence]. destruct (value r) as [y|] eqn:Y; [|congruence].
  assert (E : holds val fenv (l, r) <-> x = y).
  { split; [intros (v & V1 & V2); cbn [fst snd] in *; congruence|intros ->; exists y; auto]. }
  destruct s; [exists x, y|exists y, x]; cbn [target other fst snd]; repeat split; auto; rewrite E; auto.
Qed.
Lemma defined_split : forall eq s, defined val fenv eq <-> value (target eq s) <> None /\ value (other eq s) <> None.
Proof. intros [l r] []; unfold defined; cbn; tauto. Qed.
Lemma path_correct : forall path eq s eq', explicitate_path inv eq path s = Ok (Some eq') ->
  at_path (target eq s) path = Some (target eq' s)
  /\ (defined val fenv eq -> defined val fenv eq' -> (holds val fenv eq <-> holds val fenv eq')).
Proof.
  induction path as [|k path IH]; intros eq s eq' H; cbn [explicitate_path] in H; [inversion H; subst; split; [reflexivity|tauto]|].
  destruct (explicitateLeaf inv eq k s) as [[eq1|]| | ] eqn:L; cbn [bind] in H; try discriminate.
  apply leaf_eq in L as [L1 L2]. destruct (IH _ _ _ H) as [P C]. split; [cbn [at_path]; now rewrite L1|].
  intros D D'. assert (D1 : defined val fenv eq1).
  { apply (defined_split eq1 s). apply (defined_split eq s) in D as [DT DO]. apply (defined_split eq' s) in D' as [DT' DO'].
    assert (value (target eq1 s) <> None) by now apply (operand_defined _ _ _ L1). split; auto. now apply (path_defined _ _ _ _ H). }
  rewrite <- (C D1 D'). destruct (holds_iff eq s D) as (x & z & X & Z & ->). destruct (holds_iff eq1 s D1) as (u & w & U & W & ->).
  now apply (inverse_correct _ _ _ _ _ _ _ _ _ L2 L1).
Qed.
Lemma explicitate_correct : forall path eq s l r, explicitate_single inv eq path s = Ok (Some (l, r)) ->
  at_path (target eq s) path = Some l
  /\ (defined val fenv eq -> defined val fenv (l, r) -> (holds val fenv eq <-> holds val fenv (l, r))).
Proof.
  intros path eq s l r H. unfold explicitate_single in H.
  destruct (explicitate_path inv eq path s) as [[eq'|]| | ] eqn:P; cbn [bind] in H; try discriminate.
  - destruct (path_correct _ _ _ _ P) as [Q C]. destruct eq' as [a b]. destruct s; inversion H; subst; [now split|].
    split; [exact Q|]. intros D D'. rewrite C; auto; [|destruct D'; now split].
    unfold holds. cbn [fst snd]. split; intros (x & X & Y); exists x; auto.
Qed.
End Value.

(** The path of an arithmetic expression is always inverted. *)
Fixpoint arith_path {A} (e : expr A) (path : list nat) : Prop :=
  match path with
  | [] => True
  | k :: path' =>
      match e with
      | ENeg x => k = 0%nat /\ arith_path x path'
      | EBin _ _ l r => (k = 0%nat /\ arith_path l path') \/ (k = 1%nat /\ arith_path r path')
      | _ => False
      end
  end.
Lemma arith_path_explicit {A} : forall inv path (eq : expr A * expr A) s, arith_path (target eq s) path ->
  exists eq', explicitate_path inv eq path s = Ok (Some eq').
Proof.
  induction path as [|k path IH]; intros eq s H; cbn [explicitate_path]; [eauto|].
  assert (exists eq1, explicitateLeaf inv eq k s = Ok (Some eq1) /\ arith_path (target eq1 s) path) as (eq1 & -> & P).
  { destruct eq as [l r]. unfold explicitateLeaf. destruct s; cbn [target fst snd] in H.
    - destruct l as [q|b|e|ew o x y|f args]; cbn [arith_path] in H; try contradiction.
      + destruct H as [-> H]. cbn [inverse bind operands nth_error]. eexists. split; [reflexivity|exact H].
      + destruct H as [[-> H]|[-> H]]; destruct o; cbn [inverse bind operands nth_error]; (eexists; split; [reflexivity|exact H]).
    - destruct r as [q|b|e|ew o x y|f args]; cbn [arith_path] in H; try contradiction.
      + destruct H as [-> H]. cbn [inverse bind operands nth_error]. eexists. split; [reflexivity|exact H].
      + destruct H as [[-> H]|[-> H]]; destruct o; cbn [inverse bind operands nth_error]; (eexists; split; [reflexivity|exact H]). }
  cbn [bind]. now apply IH.
Qed.
