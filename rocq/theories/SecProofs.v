(** * Algorithm sections: proofs *)
From Coq Require Import ZArith List Bool Arith Lia Permutation.
From Verif Require Import Result AccessModel WritesMapModel StmtModel StmtSpec StmtProofs StmtLowerProofs
  CallModel CallSpec CallProofs SecModel SecSpec.
Import ListNotations.
Local Open Scope nat_scope.

Lemma cval_ok : forall I d s r, cval I d (map s (gets d) ++ r) = Some (ceval I s d, r).
Proof.
  intros I d. induction d as [z|x|o a IHa b IHb]; intros s r; cbn; [reflexivity|reflexivity|].
  rewrite map_app, <- app_assoc, IHa, IHb. reflexivity.
Qed.

(** ** What is read and written *)

Lemma written_oapp : forall a b, written (oapp a b) = written a ++ written b.
Proof. induction a; intros b; cbn; rewrite ?IHa1, ?IHa2, ?IHa3, ?IHa, <- ?app_assoc; reflexivity. Qed.
Lemma got_oapp : forall a b, got (oapp a b) = got a ++ got b.
Proof. induction a; intros b; cbn; rewrite ?IHa1, ?IHa2, ?IHa3, ?IHa, <- ?app_assoc; reflexivity. Qed.
Lemma written_yield : forall o, written (add_yield o) = written o.
Proof. intros o. unfold add_yield. destruct (ends_in_terminator o); [reflexivity|]. rewrite written_oapp. cbn. apply app_nil_r. Qed.
Lemma got_yield : forall o, got (add_yield o) = got o.
Proof. intros o. unfold add_yield. destruct (ends_in_terminator o); [reflexivity|]. rewrite got_oapp. cbn. apply app_nil_r. Qed.

Lemma lower_exp_reads : forall dec sc e le D, lower_exp dec sc e = Ok le ->
  (forall x, In x (vars_of (lreads le)) -> In x D) -> names_ok D (map fst sc) e.
Proof.
  intros dec sc e le D H K x Hx. unfold lower_exp in H. apply bind_ok in H as (rs & H & E). injection E as <-.
  cbn in K. revert rs H K Hx. induction (reads e) as [|y l IH]; intros rs H K Hx; [destruct Hx|].
  cbn in H. apply bind_ok in H as (r & Hr & H). apply bind_ok in H as (rs' & Hrs & E). injection E as <-.
  destruct Hx as [->|Hx].
  - unfold lookup_name in Hr. destruct (lookup_index sc x) as [k|] eqn:E.
    + left. destruct (in_dec Nat.eq_dec x (map fst sc)) as [i|n]; [exact i|].
      rewrite (lookup_index_none _ _ n) in E. discriminate.
    + right. destruct (existsb (Nat.eqb x) dec); [|discriminate]. injection Hr as <-. apply K. cbn. auto.
  - apply (IH rs' Hrs); [|exact Hx]. intros z Hz. apply K. cbn. apply in_or_app. auto.
Qed.

Definition W_stmt (s : stmt) : Prop := forall dec sc lp k os k',
  covered_stmt dec (map fst sc) lp s -> lower_stmt dec sc k s = Ok (os, k') ->
  (forall x, In x (written os) <-> In x (assigned s)) /\
  (forall D, (forall x, In x (got os) \/ In x (written os) -> In x D) -> covered_stmt D (map fst sc) lp s).
Definition W_block (b : block) : Prop := forall dec sc lp k os k',
  covered_block dec (map fst sc) lp b -> lower_block dec sc k b = Ok (os, k') ->
  (forall x, In x (written os) <-> In x (assigned_block b)) /\
  (forall D, (forall x, In x (got os) \/ In x (written os) -> In x D) -> covered_block D (map fst sc) lp b).
Definition W_alt (a : alt) : Prop := forall dec sc lp k h os k',
  covered_alt dec (map fst sc) lp a -> lower_alt dec sc k a = Ok (h, os, k') ->
  (forall x, In x (written os) <-> In x (assigned_alt a)) /\
  (forall D, (forall x, In x (got os) \/ In x (written os) -> In x D) -> covered_alt D (map fst sc) lp a).

Ltac names H := eapply lower_exp_reads; [exact H|]; intros ? ?; cbn; rewrite ?in_app_iff; tauto.

Lemma lowered_vars : (forall s, W_stmt s) /\ (forall b, W_block b) /\ (forall a, W_alt a).
Proof.
  apply stmt_mut.
  - (* assign *)
    intros x e dec sc lp k os k' (H1 & H2 & H3) L. cbn [lower_stmt] in L.
    apply bind_ok in L as (le & Le & L). apply bind_ok in L as (r & Lr & L).
    unfold lookup_name in Lr. rewrite (lookup_index_none _ _ H2) in Lr.
    destruct (existsb (Nat.eqb x) dec); [|discriminate]. injection Lr as <-. injection L as <- <-.
    split; [cbn; tauto|]. intros D K. cbn [got written] in K. split; [|split].
    + apply K. right. left. reflexivity.
    + exact H2.
    + eapply lower_exp_reads; [exact Le|]. intros y Hy. apply K. left. apply in_or_app. auto.
  - (* if *)
    intros c th IHt el IHe dec sc lp k os k' (H1 & H2 & H3 & H4) L. cbn [lower_stmt] in L.
    apply bind_ok in L as (lc & Lc & L). apply bind_ok in L as ([ot kt] & Lt & L).
    apply bind_ok in L as ([[h oe] ke] & Le & L). cbn [fst snd] in *. injection L as <- <-.
    destruct (IHt _ _ _ _ _ _ H2 Lt) as [Wt Ct]. destruct (IHe _ _ _ _ _ _ _ H3 Le) as [We Ce].
    split.
    + intros x. cbn. rewrite !in_app_iff, Wt, We. cbn. tauto.
    + intros D K. cbn [got written] in K. cbn [covered_stmt].
      assert (K' : forall x, In x (vars_of (lreads lc)) \/ In x (got ot) \/ In x (got oe) \/ In x (written ot) \/ In x (written oe) -> In x D)
        by (intros x Hx; apply K; rewrite !in_app_iff; cbn; tauto).
      split; [|split; [|split]].
      * eapply lower_exp_reads; [exact Lc|]. auto.
      * apply Ct. intros x Hx. apply K'. tauto.
      * apply Ce. intros x Hx. apply K'. tauto.
      * exact H4.
  - (* for *)
    intros ix b IHb dec sc lp k os k' (x & lo & hi & -> & H1 & H2 & H3 & H4) L. cbn [lower_stmt] in L.
    apply bind_ok in L as (rg & Lg & L). apply bind_ok in L as ([ob kb] & Lb & L). cbn [bind fst snd] in L.
    injection L as <- <-. cbn [lower_range] in Lg. apply bind_ok in Lg as (llo & Llo & Lg).
    apply bind_ok in Lg as (lhi & Lhi & Lg). injection Lg as <-. cbn [fst snd].
    destruct (IHb dec ((x, k) :: sc) true (S k) ob kb H4 Lb) as [Wb Cb].
    split.
    + intros y. cbn. rewrite written_yield, in_app_iff, Wb. cbn. tauto.
    + intros D K. cbn [got written] in K. cbn [covered_stmt].
      assert (K' : forall y, In y (vars_of (lreads llo)) \/ In y (vars_of (lreads lhi)) \/ In y (got ob) \/ In y (written ob) -> In y D)
        by (intros y Hy; apply K; rewrite written_yield, got_yield, !in_app_iff; cbn; tauto).
      exists x, lo, hi. split; [reflexivity|]. split; [|split; [|split]].
      * eapply lower_exp_reads; [exact Llo|]. auto.
      * eapply lower_exp_reads; [exact Lhi|]. auto.
      * exact H3.
      * apply (Cb D). intros y Hy. apply K'. tauto.
  - (* while *)
    intros c b IHb dec sc lp k os k' (H1 & H2 & H3) L. cbn [lower_stmt] in L.
    apply bind_ok in L as (lc & Lc & L). apply bind_ok in L as ([ob kb] & Lb & L). cbn [fst snd] in *. injection L as <- <-.
    destruct (IHb _ _ _ _ _ _ H2 Lb) as [Wb Cb]. split.
    + intros y. cbn. rewrite written_yield, in_app_iff, Wb. cbn. tauto.
    + intros D K. cbn [got written] in K. cbn [covered_stmt].
      assert (K' : forall y, In y (vars_of (lreads lc)) \/ In y (got ob) \/ In y (written ob) -> In y D)
        by (intros y Hy; apply K; rewrite written_yield, got_yield, !in_app_iff; cbn; tauto).
      split; [|split].
      * eapply lower_exp_reads; [exact Lc|]. auto.
      * apply Cb. intros y Hy. apply K'. tauto.
      * exact H3.
  - intros dec sc lp k os k' H L. injection L as <- <-. split; [cbn; tauto|]. intros D _. exact H.
  - intros dec sc lp k os k' H L. injection L as <- <-. split; [cbn; tauto|]. intros D _. exact H.
  - intros dec sc lp k os k' H L. injection L as <- <-. split; [cbn; tauto|]. intros D _. exact H.
  - (* cons *)
    intros s IHs b IHb dec sc lp k os k' (H1 & H2 & H3) L. cbn [lower_block] in L.
    apply bind_ok in L as ([o1 k1] & L1 & L). apply bind_ok in L as ([o2 k2] & L2 & L). cbn [fst snd] in *. injection L as <- <-.
    destruct (IHs _ _ _ _ _ _ H1 L1) as [W1 C1]. destruct (IHb _ _ _ _ _ _ H2 L2) as [W2 C2]. split.
    + intros y. rewrite written_oapp. cbn. rewrite !in_app_iff, W1, W2. tauto.
    + intros D K. rewrite written_oapp, got_oapp in K. cbn [covered_block]. split; [|split].
      * apply C1. intros y Hy. apply K. rewrite !in_app_iff. tauto.
      * apply C2. intros y Hy. apply K. rewrite !in_app_iff. tauto.
      * exact H3.
  - intros dec sc lp k h os k' H L. injection L as <- <- <-. split; [cbn; tauto|]. intros D _. exact H.
  - intros b IHb dec sc lp k h os k' H L. cbn [lower_alt] in L. apply bind_ok in L as ([ob kb] & Lb & L). cbn [fst snd] in *.
    injection L as <- <- <-. exact (IHb _ _ _ _ _ _ H Lb).
  - (* elseif *)
    intros c b IHb a IHa dec sc lp k h os k' (H1 & H2 & H3 & H4) L. cbn [lower_alt] in L.
    apply bind_ok in L as (lc & Lc & L). apply bind_ok in L as ([ot kt] & Lt & L).
    apply bind_ok in L as ([[h' oe] ke] & Le & L). cbn [fst snd] in *. injection L as <- <- <-.
    destruct (IHb _ _ _ _ _ _ H2 Lt) as [Wt Ct]. destruct (IHa _ _ _ _ _ _ _ H3 Le) as [We Ce].
    split.
    + intros x. cbn. rewrite !in_app_iff, Wt, We. cbn. tauto.
    + intros D K. cbn [got written] in K. cbn [covered_alt].
      assert (K' : forall x, In x (vars_of (lreads lc)) \/ In x (got ot) \/ In x (got oe) \/ In x (written ot) \/ In x (written oe) -> In x D)
        by (intros x Hx; apply K; rewrite !in_app_iff; cbn; tauto).
      split; [|split; [|split]].
      * eapply lower_exp_reads; [exact Lc|]. auto.
      * apply Ct. intros x Hx. apply K'. tauto.
      * apply Ce. intros x Hx. apply K'. tauto.
      * exact H4.
Qed.

(** ** Other variables do not matter *)

Definition agree (D : list nat) (s t : nat -> Z) : Prop := forall x, In x D -> s x = t x.

Lemma value_agree : forall D ix s t e, names_ok D (map fst ix) e -> agree D s t -> value ix s e = value ix t e.
Proof.
  intros D ix s t e N A. apply value_frame. intros y Hy Hn. apply A. destruct (N y Hy); tauto.
Qed.
Lemma values_agree : forall D ix s t l, Forall (names_ok D (map fst ix)) l -> agree D s t -> values ix s l = values ix t l.
Proof.
  intros D ix s t l F A. induction F as [|e l He F IH]; [reflexivity|]. cbn.
  rewrite (value_agree _ _ _ _ _ He A), IH. reflexivity.
Qed.
Lemma set_agree : forall D s t x v, agree D s t -> agree D (set s x v) (set t x v).
Proof. intros D s t x v A y Hy. unfold set. destruct (Nat.eqb y x); auto. Qed.

Fixpoint good_for (D : list nat) (ix : list nat) (l : list (nat * list sexp)) (b : block) : Prop :=
  match l with
  | [] => covered_block D ix true b
  | (x, r) :: l' => Forall (names_ok D ix) r /\ good_for D (x :: ix) l' b
  end.

Lemma exec_agree : forall D,
  (forall ix s b s' o, exec_stmt ix s b s' o -> forall lp t, covered_stmt D (map fst ix) lp b -> agree D s t ->
     exists t', exec_stmt ix t b t' o /\ agree D s' t') /\
  (forall ix s b s' o, exec_block ix s b s' o -> forall lp t, covered_block D (map fst ix) lp b -> agree D s t ->
     exists t', exec_block ix t b t' o /\ agree D s' t') /\
  (forall ix s b s' o, exec_alt ix s b s' o -> forall lp t, covered_alt D (map fst ix) lp b -> agree D s t ->
     exists t', exec_alt ix t b t' o /\ agree D s' t') /\
  (forall ix s l b s' o, exec_for ix s l b s' o -> forall t, good_for D (map fst ix) l b -> agree D s t ->
     exists t', exec_for ix t l b t' o /\ agree D s' t') /\
  (forall ix s x vs l b s' o, exec_iter ix s x vs l b s' o -> forall t, good_for D (x :: map fst ix) l b -> agree D s t ->
     exists t', exec_iter ix t x vs l b t' o /\ agree D s' t').
Proof.
  intros D. apply exec_mut.
  - (* assign *)
    intros ix st x e v E lp t (H1 & H2 & H3) A. exists (set t x v). split; [|now apply set_agree].
    constructor. now rewrite <- (value_agree _ _ _ _ _ H3 A).
  - intros ix st c th el v st' o E Hv _ IH lp t (H1 & H2 & H3 & H4) A.
    destruct (IH lp t H2 A) as (t' & X & A'). exists t'. split; [|exact A'].
    eapply E_if_true; [now rewrite <- (value_agree _ _ _ _ _ H1 A), E|exact Hv|exact X].
  - intros ix st c th el st' o E _ IH lp t (H1 & H2 & H3 & H4) A.
    destruct (IH lp t H3 A) as (t' & X & A'). exists t'. split; [|exact A'].
    eapply E_if_false; [now rewrite <- (value_agree _ _ _ _ _ H1 A)|exact X].
  - intros ix st l body st' o _ IH lp t (x & lo & hi & -> & H1 & H2 & H3 & H4) A.
    destruct (IH t) as (t' & X & A'); [cbn; auto|exact A|]. exists t'. split; [now constructor|exact A'].
  - intros ix st c body E lp t (H1 & H2 & H3) A. exists t. split; [|exact A].
    apply E_while_done. now rewrite <- (value_agree _ _ _ _ _ H1 A).
  - intros ix st c body v st1 st' o E Hv _ IH1 _ IH2 lp t (H1 & H2 & H3) A.
    destruct (IH1 true t H2 A) as (t1 & X1 & A1). destruct (IH2 lp t1) as (t' & X & A'); [cbn; auto|exact A1|].
    exists t'. split; [|exact A']. eapply E_while_again; [now rewrite <- (value_agree _ _ _ _ _ H1 A), E|exact Hv|exact X1|exact X].
  - intros ix st c body v st1 E Hv _ IH1 lp t (H1 & H2 & H3) A.
    destruct (IH1 true t H2 A) as (t1 & X1 & A1). exists t1. split; [|exact A1].
    eapply E_while_break; [now rewrite <- (value_agree _ _ _ _ _ H1 A), E|exact Hv|exact X1].
  - intros ix st c body v st1 E Hv _ IH1 lp t (H1 & H2 & H3) A.
    destruct (IH1 true t H2 A) as (t1 & X1 & A1). exists t1. split; [|exact A1].
    eapply E_while_return; [now rewrite <- (value_agree _ _ _ _ _ H1 A), E|exact Hv|exact X1].
  - intros ix st lp t H A. exists t. split; [constructor|exact A].
  - intros ix st lp t H A. exists t. split; [constructor|exact A].
  - intros ix st lp t H A. exists t. split; [constructor|exact A].
  - intros ix st s b st1 st' o _ IH1 _ IH2 lp t (H1 & H2 & H3) A.
    destruct (IH1 lp t H1 A) as (t1 & X1 & A1). destruct (IH2 lp t1 H2 A1) as (t' & X & A').
    exists t'. split; [|exact A']. eapply E_cons; eauto.
  - intros ix st s b st1 o _ IH1 No lp t (H1 & H2 & H3) A.
    destruct (IH1 lp t H1 A) as (t1 & X1 & A1). exists t1. split; [|exact A1]. eapply E_leave; eauto.
  - intros ix st lp t H A. exists t. split; [constructor|exact A].
  - intros ix st b st' o _ IH lp t H A. destruct (IH lp t H A) as (t' & X & A'). exists t'. split; [now constructor|exact A'].
  - intros ix st c b a v st' o E Hv _ IH lp t (H1 & H2 & H3 & H4) A.
    destruct (IH lp t H2 A) as (t' & X & A'). exists t'. split; [|exact A'].
    eapply E_elseif_true; [now rewrite <- (value_agree _ _ _ _ _ H1 A), E|exact Hv|exact X].
  - intros ix st c b a st' o E _ IH lp t (H1 & H2 & H3 & H4) A.
    destruct (IH lp t H3 A) as (t' & X & A'). exists t'. split; [|exact A'].
    eapply E_elseif_false; [now rewrite <- (value_agree _ _ _ _ _ H1 A)|exact X].
  - intros ix st body st' o _ IH t H A. destruct (IH true t H A) as (t' & X & A'). exists t'. split; [now constructor|exact A'].
  - intros ix st x r l body rv vs st' o E Er _ IH t (H1 & H2) A.
    destruct (IH t H2 A) as (t' & X & A'). exists t'. split; [|exact A'].
    eapply E_index; [now rewrite <- (values_agree _ _ _ _ _ H1 A), E|exact Er|exact X].
  - intros ix st x l body t H A. exists t. split; [constructor|exact A].
  - intros ix st x v vs l body st1 st' o _ IH1 _ IH2 t H A.
    destruct (IH1 t H A) as (t1 & X1 & A1). destruct (IH2 t1 H A1) as (t' & X & A').
    exists t'. split; [|exact A']. eapply E_again; eauto.
  - intros ix st x v vs l body st1 _ IH1 t H A.
    destruct (IH1 t H A) as (t1 & X1 & A1). exists t1. split; [|exact A1]. eapply E_broken; eauto.
  - intros ix st x v vs l body st1 _ IH1 t H A.
    destruct (IH1 t H A) as (t1 & X1 & A1). exists t1. split; [|exact A1]. eapply E_returned; eauto.
Qed.

Lemma one_section : forall s b s', exec_function s [b] s' <-> exists o, o <> Breaking /\ exec_block [] s b s' o.
Proof.
  intros s b s'. split.
  - intros H. inversion H as [|? ? ? s1 ? X Y|? ? ? ? X]; subst.
    + inversion Y; subst. exists Normal. split; [discriminate|exact X].
    + exists Returning. split; [discriminate|exact X].
  - intros (o & No & X). destruct o.
    + eapply F_next; [exact X|constructor].
    + congruence.
    + apply F_return. exact X.
Qed.

Lemma section_agree : forall D b s s' t, covered_block D [] false b -> agree D s t -> exec_function s [b] s' ->
  exists t', exec_function t [b] t' /\ agree D s' t'.
Proof.
  intros D b s s' t C A H. apply one_section in H as (o & No & X).
  destruct (proj1 (proj2 (exec_agree D)) _ _ _ _ _ X false t C A) as (t' & X' & A').
  exists t'. split; [|exact A']. apply one_section. exists o. auto.
Qed.

(** ** The defaults before the body *)

Definition default_exp (I : nat -> Z -> Z -> Z) (d : cexp) : sexp :=
  SE (gets d) (fun vs => option_map fst (cval I d vs)).
Definition with_defaults (I : nat -> Z -> Z -> Z) (l : list (nat * cexp)) (b : block) : block :=
  fold_right (fun a r => BCons (SAssign (fst a) (default_exp I (snd a))) r) b l.

Lemma default_exp_value : forall I s d, value [] s (default_exp I d) = Some (ceval I s d).
Proof.
  intros I s d. unfold value, default_exp. cbn [value_of reads].
  replace (map (name_value [] s) (gets d)) with (map s (gets d) ++ []).
  - rewrite cval_ok. reflexivity.
  - rewrite app_nil_r. apply map_ext. reflexivity.
Qed.

Lemma with_defaults_exec : forall I l b s s' o,
  exec_block [] s (with_defaults I l b) s' o <-> exec_block [] (run_sets I l s) b s' o.
Proof.
  intros I l b. induction l as [|[x d] l IH]; intros s s' o; [reflexivity|]. cbn [with_defaults fold_right run_sets fst snd].
  fold (with_defaults I l b). rewrite <- IH. split; intros H.
  - inversion H as [|? ? ? ? s1 ? ? X Y|? ? ? ? ? ? X N]; subst.
    + inversion X as [? ? ? ? v E| | | | | | | | |]; subst. rewrite default_exp_value in E. injection E as <-. exact Y.
    + inversion X; subst. congruence.
  - eapply E_cons; [|exact H]. change (assign s x (ceval I s d)) with (set s x (ceval I s d)). constructor.
    apply default_exp_value.
Qed.

Lemma with_defaults_covered : forall I l dec b, covered_block dec [] false b ->
  (forall x d, In (x, d) l -> In x dec /\ incl (gets d) dec) -> covered_block dec [] false (with_defaults I l b).
Proof.
  intros I l dec b C. induction l as [|[x d] l IH]; intros H; [exact C|]. cbn [with_defaults fold_right covered_block fst snd].
  destruct (H x d (or_introl eq_refl)) as [Hx Hd]. split; [|split].
  - cbn. split; [exact Hx|]. split; [auto|]. intros y Hy. right. apply Hd. exact Hy.
  - apply IH. intros y e Hy. apply H. right. exact Hy.
  - intros [E|E]; discriminate E.
Qed.

Lemma with_defaults_lower : forall I l dec b os k', lower_block dec [] 0 b = Ok (os, k') ->
  (forall x d, In (x, d) l -> In x dec /\ incl (gets d) dec) ->
  lower_block dec [] 0 (with_defaults I l b) = Ok (default_sets I l os, k').
Proof.
  intros I l dec b os k' L. induction l as [|[x d] l IH]; intros H; [exact L|].
  destruct (H x d (or_introl eq_refl)) as [Hx Hd].
  assert (X : forall l, incl l dec -> lookup_names dec [] l = Ok (map RVar l)).
  { clear. induction l as [|y l IH]; intros H; [reflexivity|]. cbn. unfold lookup_name. cbn.
    assert (existsb (Nat.eqb y) dec = true) as -> by (apply existsb_exists; exists y; rewrite Nat.eqb_refl; split; [apply H; left; reflexivity|reflexivity]).
    cbn. rewrite IH; [reflexivity|]. intros z Hz. apply H. right. exact Hz. }
  cbn [with_defaults fold_right lower_block lower_stmt fst snd]. unfold lower_exp. cbn [reads default_exp]. rewrite (X _ Hd). cbn [bind].
  unfold lookup_name. cbn [lookup_index].
  assert (existsb (Nat.eqb x) dec = true) as -> by (apply existsb_exists; exists x; rewrite Nat.eqb_refl; auto).
  cbn [bind fst snd]. fold (with_defaults I l b). rewrite IH by (intros y e Hy; apply H; right; exact Hy). cbn. reflexivity.
Qed.

Lemma run_algorithms_concat : forall I l s, run_algorithms I l s = run_sets I (concat l) s.
Proof.
  intros I l. induction l as [|a l IH]; intros s; [reflexivity|]. cbn. rewrite IH.
  revert s. induction a as [|[x e] a IHa]; intros s; [reflexivity|]. cbn. apply IHa.
Qed.

(** ** The function of a section *)

Lemma map_find_app : forall A x (l m : list (nat * A)),
  map_find x (l ++ m) = match map_find x l with Some a => Some a | None => map_find x m end.
Proof.
  intros A x l m. induction l as [|[y a] l IH]; [reflexivity|]. cbn. destruct (Nat.eqb x y); [reflexivity|exact IH].
Qed.

Lemma start_found : forall dec starts x, In x dec -> NoDup (map fst starts) ->
  exists d, map_find x (explicit_starts dec starts) = Some d /\ start_of starts x d /\
    forall d', start_of starts x d' -> d' = d.
Proof.
  intros dec starts x Hx N. unfold explicit_starts. rewrite map_find_app.
  destruct (map_find x starts) as [d|] eqn:E.
  - exists d. apply map_find_in in E as Ed. split; [reflexivity|]. split; [left; exact Ed|].
    intros d' [H|[-> H]]; [|exfalso; exact (H d Ed)].
    clear E. induction starts as [|[y e] l IH]; [destruct H|]. cbn in N. inversion N as [|? ? N1 N2]; subst.
    destruct H as [H|H]; destruct Ed as [Ed|Ed].
    + congruence.
    + exfalso. apply N1. injection H as -> ->. apply in_map_iff. exists (x, d). auto.
    + exfalso. apply N1. injection Ed as -> ->. apply in_map_iff. exists (x, d'). auto.
    + apply IH; auto.
  - apply map_find_none in E. exists (CNum 0). split; [|split].
    + assert (K : In x (filter (fun x => negb (has_key x starts)) dec)).
      { apply filter_In. split; [exact Hx|]. unfold has_key. destruct (map_find x starts) as [e|] eqn:E'; [|reflexivity].
        exfalso. apply E. apply in_map_iff. exists (x, e). split; [reflexivity|]. apply map_find_in. exact E'. }
      revert K. generalize (filter (fun x => negb (has_key x starts)) dec) as l. induction l as [|y l IH]; intros K; [destruct K|].
      cbn. destruct (Nat.eqb_spec x y) as [->|Ny]; [reflexivity|]. destruct K as [K|K]; [congruence|]. auto.
    + right. split; [reflexivity|]. intros e He. apply E. apply in_map_iff. exists (x, e). auto.
    + intros d' [H|[-> _]]; [|reflexivity]. exfalso. apply E. apply in_map_iff. exists (x, d'). auto.
Qed.

Lemma section_inputs : forall ins outs ds algs,
  inputs {| f_vars := map (fun x => (x, IOInput)) ins ++ map (fun x => (x, IOOutput)) outs; f_defaults := ds; f_algs := algs |} = ins.
Proof.
  intros ins outs ds algs. unfold inputs. cbn [f_vars].
  induction ins as [|x l IH]; [|cbn; f_equal; exact IH]. cbn. induction outs as [|y m IH]; [reflexivity|exact IH].
Qed.

Lemma inserted_in : forall addr f algs x d, f_algs f = [[]] -> insert_defaults addr f = Ok algs -> In (x, d) (concat algs) ->
  In (x, d) (f_defaults f).
Proof.
  intros addr f algs x d Ha H K. unfold insert_defaults in H. apply bind_ok in H as (order & _ & H). cbv zeta in H.
  rewrite Ha in H. injection H as <-. cbn in K. rewrite !app_nil_r in K. apply in_flat_map in K as (y & _ & K).
  destruct (map_find y (rev (local_defaults f))) as [e|] eqn:E; [|destruct K]. destruct K as [K|[]]. injection K as -> ->.
  apply map_find_in in E. apply in_rev in E. unfold local_defaults in E. apply filter_In in E. apply E.
Qed.

Lemma map_res_pairs : forall (F : nat -> option cexp) l, (forall x, In x l -> F x <> None) ->
  exists ds, map_res (fun x => d <- of_option (F x) ;; Ok (x, d)) l = Ok ds /\ map fst ds = l /\
    forall x d, In (x, d) ds <-> In x l /\ F x = Some d.
Proof.
  intros F l. induction l as [|x l IH]; intros H.
  - exists []. cbn. split; [reflexivity|]. split; [reflexivity|]. intros; tauto.
  - destruct IH as (ds & E & M & K); [intros y Hy; apply H; right; exact Hy|]. cbn.
    destruct (F x) as [d|] eqn:Ex; [|exfalso; exact (H x (or_introl eq_refl) Ex)]. cbn. rewrite E. cbn.
    exists ((x, d) :: ds). split; [reflexivity|]. split; [cbn; congruence|]. intros y e. cbn. rewrite K. split.
    + intros [X|X]; [injection X as <- <-; auto|tauto].
    + intros [[->|X] Y]; [left; congruence|tauto].
Qed.

Lemma rank_agree : forall I starts A s t,
  acyclic starts ->
  (forall x, In x A -> exists d, start_of starts x d /\ incl (gets d) A /\ s x = ceval I s d /\ t x = ceval I t d) ->
  forall x, In x A -> s x = t x.
Proof.
  intros I starts A s t [rank R] H.
  assert (X : forall n x, rank x < n -> In x A -> s x = t x).
  { induction n as [|n IH]; intros x Hr Hx; [lia|]. destruct (H x Hx) as (d & Sd & G & Es & Et). rewrite Es, Et.
    assert (K : forall y, In y (gets d) -> s y = t y).
    { intros y Hy. apply IH; [|apply G; exact Hy]. destruct Sd as [Sd|[-> _]]; [|destruct Hy]. specialize (R x d y Sd Hy). lia. }
    clear -K. induction d as [z|y|o a IHa b IHb]; cbn in *; [reflexivity|apply K; auto|].
    rewrite IHa, IHb; [reflexivity| |]; intros y Hy; apply K; apply in_or_app; auto. }
  intros x. apply (X (S (rank x))). lia.
Qed.

Lemma ceval_agree : forall I s t d, (forall y, In y (gets d) -> s y = t y) -> ceval I s d = ceval I t d.
Proof.
  intros I s t d K. induction d as [z|y|o a IHa b IHb]; cbn in *; [reflexivity|apply K; auto|].
  rewrite IHa, IHb; [reflexivity| |]; intros y Hy; apply K; apply in_or_app; auto.
Qed.

Lemma frame_in : forall ins m junk x, In x ins -> frame ins (map m ins) junk x = m x.
Proof.
  intros ins m junk x. unfold frame. induction ins as [|y l IH]; intros H; [destruct H|]. cbn.
  destruct (Nat.eqb_spec x y) as [->|N]; [reflexivity|]. destruct H as [H|H]; [congruence|]. apply IH. exact H.
Qed.

Lemma combine_seq_in : forall (l : list nat) k x i, In (x, i) (combine l (seq k (length l))) <-> (k <= i /\ nth_error l (i - k) = Some x).
Proof.
  intros l. induction l as [|y l IH]; intros k x i; cbn.
  - split; [tauto|]. intros [_ H]. destruct (i - k); discriminate.
  - rewrite IH. split.
    + intros [H|[H1 H2]]; [injection H as -> ->; rewrite Nat.sub_diag; auto|].
      split; [lia|]. replace (i - k) with (S (i - S k)) by lia. exact H2.
    + intros [H1 H2]. destruct (Nat.eq_dec i k) as [->|N].
      * rewrite Nat.sub_diag in H2. cbn in H2. left. congruence.
      * right. split; [lia|]. replace (i - k) with (S (i - S k)) in H2 by lia. exact H2.
Qed.

Theorem section_correct : forall I addr order dec starts b,
  visits_once order -> covered_block dec [] false b -> starts_from starts b ->
  exists f, compile_section I addr order dec starts b = Ok f /\
    forall m, equations_hold f m <-> section_holds I starts b m.
Proof.
  intros I addr order dec starts b Hord C (Ns & Ac & Sf).
  destruct (proj1 (proj2 lowered) b dec [] false 0 C) as (os & k' & L & _).
  destruct (proj1 (proj2 lowered_vars) b dec [] false 0 os k' C L) as [W CD].
  assert (Adec : forall x, In x (assigned_block b) -> In x dec).
  { clear -C. revert C. enough (X : (forall s ix lp, covered_stmt dec ix lp s -> forall x, In x (assigned s) -> In x dec) /\
      (forall b ix lp, covered_block dec ix lp b -> forall x, In x (assigned_block b) -> In x dec) /\
      (forall a ix lp, covered_alt dec ix lp a -> forall x, In x (assigned_alt a) -> In x dec)) by (intros C; eapply X; exact C).
    apply stmt_mut; intros; cbn in *; rewrite ?in_app_iff in *.
    - destruct H. intuition congruence.
    - destruct H1 as (_ & Ha & Hb & _). destruct H2; eauto.
    - destruct H0 as (x0 & lo & hi & _ & _ & _ & _ & H0). eauto.
    - destruct H0 as (_ & H0 & _). eauto.
    - contradiction.
    - contradiction.
    - contradiction.
    - destruct H1 as (Ha & Hb & _). destruct H2; eauto.
    - contradiction.
    - eauto.
    - destruct H1 as (_ & Ha & Hb & _). destruct H2; eauto. }
  unfold compile_section. rewrite L. cbn [bind fst snd]. cbv zeta.
  set (outs := order (written os)). set (ins := filter (fun x => negb (existsb (Nat.eqb x) (written os))) (order (got os))).
  assert (Ho : forall x, In x outs <-> In x (assigned_block b)).
  { intros x. unfold outs. rewrite (proj2 (Hord _) x). apply W. }
  assert (Hi : forall x, In x ins <-> In x (got os) /\ ~ In x (assigned_block b)).
  { intros x. unfold ins. rewrite filter_In, (proj2 (Hord _) x), <- W. rewrite negb_true_iff.
    split; intros [H K]; split; auto.
    - intros X. assert (Y : existsb (Nat.eqb x) (written os) = true) by (apply existsb_exists; exists x; rewrite Nat.eqb_refl; auto). congruence.
    - destruct (existsb (Nat.eqb x) (written os)) eqn:E; [|reflexivity]. exfalso. apply existsb_exists in E as (y & Hy & E).
      apply Nat.eqb_eq in E as ->. auto. }
  assert (CD' : covered_block (ins ++ outs) [] false b).
  { apply CD. intros x Hx. apply in_or_app. rewrite Hi, Ho. destruct (in_dec Nat.eq_dec x (assigned_block b)); [auto|].
    destruct Hx as [Hx|Hx]; [auto|]. apply W in Hx. auto. }
  destruct (map_res_pairs (fun x => map_find x (explicit_starts dec starts)) outs) as (ds & Eds & Mds & Kds).
  { intros x Hx. destruct (start_found dec starts x) as (d & E & _); [apply Adec, Ho; exact Hx|exact Ns|]. congruence. }
  rewrite Eds. cbn [bind].
  assert (Kst : forall x d, In (x, d) ds <-> In x (assigned_block b) /\ start_of starts x d).
  { intros x d. rewrite Kds, Ho. split; intros [H K]; split; auto;
      destruct (start_found dec starts x (Adec x H) Ns) as (e & E & Se & U).
    - congruence.
    - rewrite E. f_equal. symmetry. auto. }
  set (f := {| f_vars := map (fun x => (x, IOInput)) ins ++ map (fun x => (x, IOOutput)) outs; f_defaults := ds; f_algs := [[]] |}).
  assert (Hins : inputs f = ins) by apply section_inputs.
  assert (Nds : NoDup (map fst ds)) by (rewrite Mds; apply Hord).
  assert (G : forall x d y, In (x, d) ds -> In y (gets d) -> In y (assigned_block b)).
  { intros x d y H Hy. apply Kst in H as [Hx [H|[-> _]]]; [|destruct Hy]. exact (Sf x d y Hx H Hy). }
  destruct (insert_defaults_ok addr f) as (algs & Ealgs & R).
  { exact Nds. }
  { destruct Ac as [rank Hr]. exists rank. intros x d y H Hy. apply Kst in H as [Hx [H|[-> _]]]; [|destruct Hy]. exact (Hr x d y H Hy). }
  { intros x d y H _ Hy. rewrite Hins, Hi. cbn [f_defaults f] in *. pose proof (G _ _ _ H Hy) as Ga. split; [tauto|].
    destruct (start_found dec starts y (Adec y Ga) Ns) as (e & _ & Se & _). exists e. apply Kst. auto. }
  rewrite Ealgs. cbn [bind].
  assert (Hpre : forall x d, In (x, d) (concat algs) -> In x dec /\ incl (gets d) dec).
  { intros x d H. apply (inserted_in addr f _ x d eq_refl Ealgs) in H. cbn [f_defaults f] in H. split.
    - apply Adec. apply Kst in H. apply H.
    - intros y Hy. apply Adec. exact (G _ _ _ H Hy). }
  pose proof (with_defaults_lower I (concat algs) dec b os k' L Hpre) as L'.
  pose proof (with_defaults_covered I (concat algs) dec b C Hpre) as C'.
  set (b' := with_defaults I (concat algs) b) in *.
  assert (X : exists g, (assert_ok (placed (default_sets I (concat algs) os)) = Ok tt /\
     convert [default_sets I (concat algs) os] = Ok g /\ assert_ok (legal g) = Ok tt) /\
     (b' <> BNil -> forall st st', exec_function st [b'] st' <-> exists fuel, run_function g fuel st = Ok st')).
  { destruct (compile_correct dec [b']) as (g & Eg & Rg); [constructor; [exact C'|constructor]|].
    destruct b' as [|s0 b0] eqn:Eb.
    - injection L' as <- _. eexists. split; [|congruence]. split; [reflexivity|]. split; reflexivity.
    - exists g. unfold compile in Eg. cbn [lower_algs] in Eg. rewrite L' in Eg. cbn [bind fst snd] in Eg.
      destruct (assert_ok (placed (default_sets I (concat algs) os))) as [[]| |] eqn:E1; try discriminate. cbn [bind] in Eg.
      apply bind_ok in Eg as (g' & Eg' & Eg). apply bind_ok in Eg as ([] & El & Eg). injection Eg as ->.
      split; [split; [reflexivity|]; split; assumption|]. intros _. exact Rg. }
  destruct X as (g & (E1 & E2 & E3) & Rg). rewrite E1. cbn [bind]. rewrite E2. cbn [bind]. rewrite E3. cbn [bind].
  eexists. split; [reflexivity|]. intros m.
  (* the store in which the body starts *)
  assert (B : forall junk, exists s', run_sets I (concat algs) (frame ins (map m ins) junk) = s' /\
     (forall x d, In x (assigned_block b) -> start_of starts x d -> s' x = ceval I s' d) /\
     (forall x, In x ins -> s' x = m x)).
  { intros junk. destruct (R I (frame ins (map m ins) junk)) as (s' & [D1 D2] & E). exists s'.
    split; [rewrite <- run_algorithms_concat; exact E|]. rewrite Hins in D1, D2. cbn [f_defaults f] in D1, D2. split.
    - intros x d Hx Hd. apply D1; [apply Kst; auto|]. rewrite Hi. tauto.
    - intros x Hx. rewrite D2 by auto. apply frame_in. exact Hx. }
  assert (U : forall st s', at_beginning I starts b m st ->
     (forall x d, In x (assigned_block b) -> start_of starts x d -> s' x = ceval I s' d) ->
     (forall x, In x ins -> s' x = m x) -> agree (ins ++ outs) st s').
  { intros st s' [B1 B2] S1 S2 x Hx. apply in_app_or in Hx as [Hx|Hx].
    - rewrite S2 by exact Hx. apply B2. apply Hi in Hx. tauto.
    - apply Ho in Hx. revert x Hx. apply (rank_agree I starts (assigned_block b) st s' Ac).
      intros x Hx. destruct (start_found dec starts x (Adec x Hx) Ns) as (d & _ & Sd & _). exists d. split; [exact Sd|]. split; [|auto].
      intros y Hy. apply (G x d); [apply Kst; auto|exact Hy]. }
  assert (Bn : forall x, In x (assigned_block b) -> b' <> BNil).
  { intros x Hx E. unfold b' in E. destruct (concat algs) as [|a l]; [|discriminate]. cbn in E. subst b. destruct Hx. }
  assert (Fw : forall s st', exec_function s [b'] st' <-> exec_function (run_sets I (concat algs) s) [b] st').
  { intros s st'. rewrite !one_section. split; intros (o & No & H); exists o; split; auto; apply with_defaults_exec; exact H. }
  unfold equations_hold, section_equations, equation_holds, call_returns. cbn [sf_outputs sf_inputs sf_graph].
  split.
  - intros H. destruct (B m) as (s' & Es & S1 & S2).
    set (st := fun x => if in_dec Nat.eq_dec x (assigned_block b) then s' x else m x).
    assert (Hst : at_beginning I starts b m st).
    { split.
      - intros x d Hx Hd. unfold st at 1. destruct (in_dec Nat.eq_dec x (assigned_block b)); [|contradiction].
        rewrite (S1 x d Hx Hd). apply ceval_agree. intros y Hy. unfold st.
        destruct (in_dec Nat.eq_dec y (assigned_block b)) as [|n']; [reflexivity|]. exfalso. apply n'. apply (G x d); [apply Kst; auto|exact Hy].
      - intros x Hx. unfold st. destruct (in_dec Nat.eq_dec x (assigned_block b)); [contradiction|reflexivity]. }
    exists st. split; [exact Hst|]. intros x Hx.
    assert (Hn : exists i, nth_error outs i = Some x) by (apply In_nth_error; apply Ho; exact Hx). destruct Hn as [i Hn].
    destruct (H (x, (ins, i))) with (junk := m) as (results & (fuel & st' & Er & ->) & En).
    { apply in_map_iff. exists (x, i). split; [reflexivity|]. apply combine_seq_in. split; [lia|]. rewrite Nat.sub_0_r. exact Hn. }
    cbn [fst snd] in *. rewrite nth_error_map, Hn in En. cbn in En. injection En as En.
    assert (Ex : exec_function (frame ins (map m ins) m) [b'] st') by (apply (Rg (Bn x Hx)); exists fuel; exact Er).
    apply Fw in Ex. rewrite Es in Ex.
    destruct (section_agree (ins ++ outs) b s' st' st CD') as (st2 & X2 & A2); [|exact Ex|].
    { intros y Hy. symmetry. apply U; auto. }
    exists st2. split; [exact X2|]. rewrite <- (A2 x); [exact En|]. apply in_or_app. right. apply Ho. exact Hx.
  - intros (st & Hst & H) e He junk. apply in_map_iff in He as ([x i] & <- & He). apply combine_seq_in in He as [_ Hn].
    rewrite Nat.sub_0_r in Hn. cbn [fst snd].
    assert (Hx : In x (assigned_block b)) by (apply Ho; eapply nth_error_In; exact Hn).
    destruct (H x Hx) as (st' & Ex & Em). destruct (B junk) as (s' & Es & S1 & S2).
    destruct (section_agree (ins ++ outs) b st st' s' CD') as (st2 & X2 & A2); [apply U; auto|exact Ex|].
    rewrite <- Es in X2. apply Fw in X2. apply (Rg (Bn x Hx)) in X2 as [fuel X2].
    exists (map st2 outs). split; [exists fuel, st2; auto|]. rewrite nth_error_map, Hn. cbn. f_equal.
    rewrite <- (A2 x); [exact Em|]. apply in_or_app. right. apply Ho. exact Hx.
Qed.

(** ** Start values that read other variables *)

Theorem section_start_reads : forall I addr order dec starts b x d y,
  visits_once order -> covered_block dec [] false b -> NoDup (map fst starts) ->
  In x (assigned_block b) -> In (x, d) starts -> In y (gets d) -> ~ In y (assigned_block b) ->
  compile_section I addr order dec starts b = Bad.
Proof.
  intros I addr order dec starts b x d y Hord C Ns Hx Hd Hy Ny.
  destruct (proj1 (proj2 lowered) b dec [] false 0 C) as (os & k' & L & _).
  destruct (proj1 (proj2 lowered_vars) b dec [] false 0 os k' C L) as [W _].
  unfold compile_section. rewrite L. cbn [bind fst snd]. cbv zeta.
  set (outs := order (written os)). set (ins := filter (fun x => negb (existsb (Nat.eqb x) (written os))) (order (got os))).
  assert (Ho : forall z, In z outs <-> In z (assigned_block b)).
  { intros z. unfold outs. rewrite (proj2 (Hord _) z). apply W. }
  destruct (map_res (fun z => e <- of_option (map_find z (explicit_starts dec starts)) ;; Ok (z, e)) outs) as [ds| |] eqn:Eds; [|reflexivity|].
  - cbn [bind].
    assert (K : map fst ds = outs /\ forall z e, In (z, e) ds <-> In z outs /\ map_find z (explicit_starts dec starts) = Some e).
    { destruct (map_res_pairs (fun z => map_find z (explicit_starts dec starts)) outs) as (ds' & E' & M & K).
      - intros z Hz E. clear -Eds Hz E. revert ds Eds. induction outs as [|w l IH]; intros ds Eds; [destruct Hz|]. cbn in Eds.
        apply bind_ok in Eds as (p & Ep & Eds). apply bind_ok in Eds as (r & Er & Eds). destruct Hz as [->|Hz]; [|eapply IH; eauto].
        rewrite E in Ep. discriminate.
      - cbv beta in E'. rewrite Eds in E'. injection E' as <-. auto. }
    destruct K as [M K].
    rewrite (insert_defaults_bad addr _ x d y); [reflexivity|..]; cbn [f_defaults].
    + rewrite M. apply Hord.
    + apply K. split; [apply Ho; exact Hx|]. unfold explicit_starts. rewrite map_find_app.
      destruct (map_find x starts) as [e|] eqn:E.
      * f_equal. apply map_find_in in E. clear -Ns E Hd. induction starts as [|[w f] l IH]; [destruct Hd|]. cbn in Ns. inversion Ns as [|? ? N1 N2]; subst.
        destruct E as [E|E]; destruct Hd as [H|H]; [congruence| | |auto]; exfalso; apply N1.
        -- injection E as -> ->. apply in_map_iff. exists (x, d). auto.
        -- injection H as -> ->. apply in_map_iff. exists (x, e). auto.
      * apply map_find_none in E. exfalso. apply E. apply in_map_iff. exists (x, d). auto.
    + rewrite section_inputs. unfold ins. rewrite filter_In. intros [_ X]. apply negb_true_iff in X.
      assert (Y : existsb (Nat.eqb x) (written os) = true) by (apply existsb_exists; exists x; rewrite Nat.eqb_refl; split; [apply W; exact Hx|reflexivity]).
      congruence.
    + exact Hy.
    + right. intros d' X. apply K in X as [X _]. apply Ho in X. contradiction.
  - exfalso. clear -Eds. revert Eds. induction outs as [|z l IH]; intros E; [discriminate|]. cbn in E.
    destruct (map_find z (explicit_starts dec starts)); cbn in E; [|discriminate].
    destruct (map_res _ l) as [| |]; cbn in E; try discriminate. auto.
Qed.
