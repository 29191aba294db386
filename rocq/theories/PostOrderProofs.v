(** Proofs about the post-order visit. *)
From Coq Require Import ZArith List Bool Arith Lia Permutation Relations.
From Verif Require Import Result ListTac WritesMapModel SchedModel SchedSpec.
Import ListNotations.
Local Open Scope nat_scope.

Lemma memb_in : forall l x, existsb (Nat.eqb x) l = true <-> In x l.
Proof.
  intros. rewrite existsb_exists. split.
  - intros (y & Hy & E). apply Nat.eqb_eq in E. now subst.
  - intros H. exists x. split; [assumption|apply Nat.eqb_refl].
Qed.
Lemma memb_out : forall l x, existsb (Nat.eqb x) l = false <-> ~ In x l.
Proof. intros. rewrite <- memb_in, not_true_iff_false. tauto. Qed.

Section Visit.
Variable adj : nat -> list nat.
Variable root : nat.
Definition edge (a b : nat) : Prop := In b (adj a).
(** The vertices of the stack are a path from the last one. *)
Fixpoint stack_path (st : list nat) : Prop :=
  match st with
  | [] => True
  | [x] => x = root
  | x :: (y :: _) as st' => edge y x /\ stack_path st'
  end.
Definition out_ok (out : list nat) : Prop :=
  forall l1 u l2, out = l1 ++ u :: l2 -> forall v, In v (adj u) -> In v l2 \/ reaches edge v u.
Record visit_ok (stack : list (nat * list nat)) (visited out : list nat) : Prop := {
  v_nodup : NoDup (map fst stack ++ out);
  v_visited : forall x, In x visited <-> In x (map fst stack ++ out);
  v_children : forall v cs, In (v, cs) stack -> exists pre, adj v = pre ++ cs /\ incl pre visited;
  v_path : stack_path (map fst stack);
  v_out : out_ok out;
  v_reach : forall x, In x visited -> reaches edge root x;
  v_done : forall u, In u out -> incl (adj u) visited;
  v_root : In root visited }.

Lemma path_reaches : forall st x y, stack_path (x :: st) -> In y (x :: st) -> reaches edge y x.
Proof.
  induction st as [|z st IH]; intros x y P [->|H]; try apply rt_refl; [now destruct H|].
  destruct P as (E & P). eapply rt_trans; [exact (IH z y P H)|]. now apply rt_step.
Qed.

Lemma po_run_ok : forall fuel stack visited out r, visit_ok stack visited out ->
  po_run fuel adj stack visited out = Ok r ->
  exists visited', visit_ok [] visited' (rev r).
Proof.
  induction fuel as [|f IH]; intros stack visited out r V H; cbn in H; [discriminate|].
  destruct stack as [|[v [|c cs]] st].
  - injection H as <-. exists visited. now rewrite rev_involutive.
  - refine (IH _ _ _ _ _ H). destruct V as [N I C P O R D Rt]. constructor; cbn in *; auto.
    + apply Permutation_NoDup with (2 := N). apply Permutation_middle.
    + intros x. rewrite I. cbn. rewrite !in_app_iff. cbn. tauto.
    + destruct st; cbn in *; [exact Logic.I|]. now destruct P.
    + intros [|a l1] u l2 E w Hw; cbn in E.
      * injection E as <- <-. destruct (C v [] (or_introl eq_refl)) as (pre & Ea & Hp). rewrite app_nil_r in Ea. rewrite Ea in Hw.
        apply Hp, I in Hw. rewrite in_app_iff in Hw.
        assert (Hw' : In w (v :: map fst st) \/ In w out) by (cbn; tauto). destruct Hw' as [Hw'|Hw']; [|now left].
        right. now apply (path_reaches (map fst st)).
      * injection E as _ E. exact (O l1 u l2 E w Hw).
    + intros u [<-|Hu]; [|now apply D]. destruct (C v [] (or_introl eq_refl)) as (pre & Ea & Hp). rewrite app_nil_r in Ea. now rewrite Ea.
  - destruct (existsb (Nat.eqb c) visited) eqn:M.
    + apply memb_in in M. refine (IH _ _ _ _ _ H). destruct V as [N I C P O R D Rt]. constructor; auto.
      intros w ds [E|Hw]; [|apply C; now right]. injection E as <- <-.
      destruct (C v (c :: cs) (or_introl eq_refl)) as (pre & Ea & Hp). exists (pre ++ [c]). rewrite <- app_assoc. split; [assumption|].
      intros x Hx. apply in_app_iff in Hx as [Hx|[<-|[]]]; auto.
    + apply memb_out in M. refine (IH _ _ _ _ _ H). destruct V as [N I C P O R D Rt].
      destruct (C v (c :: cs) (or_introl eq_refl)) as (pre & Ea & Hp).
      assert (Ec : edge v c) by (unfold edge; rewrite Ea; apply in_or_app; right; now left).
      constructor; auto.
      * cbn in *. constructor; [|assumption]. intros Hx. apply M, I, Hx.
      * intros x. cbn in *. specialize (I x). tauto.
      * intros w ds [E|[E|Hw]].
        -- injection E as <- <-. exists []. split; [reflexivity|intros x []].
        -- injection E as <- <-. exists (pre ++ [c]). rewrite <- app_assoc. split; [assumption|].
           intros x Hx. apply in_app_iff in Hx as [Hx|[<-|[]]]; [right; auto|now left].
        -- destruct (C w ds (or_intror Hw)) as (pre' & E & Hi). exists pre'. split; [assumption|]. intros x Hx. right. auto.
      * cbn in *. auto.
      * intros x [<-|Hx]; [|auto]. eapply rt_trans; [|apply rt_step, Ec]. apply R, I. now left.
      * intros u Hu x Hx. right. now apply (D u Hu).
      * now right.
Qed.

(** The remaining work. *)
Variable nodes : list nat.
Hypothesis nodes_nodup : NoDup nodes.
Hypothesis nodes_closed : forall v c, In v nodes -> In c (adj v) -> In c nodes.
Definition weight (v : nat) : nat := 1 + length (adj v).
Definition to_visit (visited : list nat) : list nat := filter (fun v => negb (existsb (Nat.eqb v) visited)) nodes.
Definition po_measure (stack : list (nat * list nat)) (visited : list nat) : nat :=
  list_sum (map (fun s => 1 + length (snd s)) stack) + list_sum (map weight (to_visit visited)).
Lemma list_sum_app : forall a b, list_sum (a ++ b) = list_sum a + list_sum b.
Proof. unfold list_sum. induction a as [|x a IH]; intros b; cbn; [reflexivity|]. rewrite IH. lia. Qed.
Lemma list_sum_perm : forall a b, Permutation a b -> list_sum a = list_sum b.
Proof. unfold list_sum. induction 1; cbn; lia. Qed.
Lemma to_visit_remove : forall l vis c, NoDup l -> In c l -> ~ In c vis ->
  Permutation (filter (fun v => negb (existsb (Nat.eqb v) vis)) l)
    (c :: filter (fun v => negb (existsb (Nat.eqb v) (c :: vis))) l).
Proof.
  induction l as [|x l IH]; intros vis c N Hc Hv; [destruct Hc|].
  apply NoDup_cons_iff in N as (Nx & N). cbn [filter existsb].
  destruct (Nat.eq_dec x c) as [->|D].
  - rewrite Nat.eqb_refl. cbn. replace (existsb (Nat.eqb c) vis) with false by (symmetry; now apply memb_out). cbn.
    apply perm_skip. erewrite filter_ext_in; [reflexivity|]. intros v Hv'. cbn.
    destruct (Nat.eqb v c) eqn:E; [|reflexivity]. apply Nat.eqb_eq in E. now subst.
  - destruct Hc as [->|Hc]; [easy|]. replace (Nat.eqb x c) with false by (symmetry; now apply Nat.eqb_neq). cbn [orb].
    destruct (existsb (Nat.eqb x) vis); cbn [negb].
    + now apply IH.
    + eapply Permutation_trans; [apply perm_skip, (IH vis c N Hc Hv)|]. apply perm_swap.
Qed.

Lemma po_run_total : forall fuel stack visited out, po_measure stack visited < fuel ->
  (forall v cs, In (v, cs) stack -> In v nodes /\ incl cs nodes) ->
  exists r, po_run fuel adj stack visited out = Ok r.
Proof.
  induction fuel as [|f IH]; intros stack visited out M S; [lia|]. cbn.
  destruct stack as [|[v [|c cs]] st].
  - eauto.
  - apply IH; [|intros w ds Hw; apply S; now right]. unfold po_measure, list_sum in *. cbn in M |- *. lia.
  - destruct (existsb (Nat.eqb c) visited) eqn:E.
    + apply IH; [unfold po_measure, list_sum in *; cbn in M |- *; lia|]. intros w ds [Hw|Hw]; [|apply S; now right]. injection Hw as <- <-.
      destruct (S v (c :: cs) (or_introl eq_refl)) as (Hv & Hc). split; [assumption|]. intros x Hx. apply Hc. now right.
    + apply memb_out in E. destruct (S v (c :: cs) (or_introl eq_refl)) as (Hv & Hc).
      assert (Cn : In c nodes) by (apply Hc; now left).
      apply IH.
      * unfold po_measure, to_visit in *. pose proof (to_visit_remove nodes visited c nodes_nodup Cn E) as P.
        rewrite (list_sum_perm _ _ (Permutation_map _ P)) in M. unfold list_sum, weight in *. cbn in M |- *. lia.
      * intros w ds [Hw|[Hw|Hw]]; [| |apply S; now right]; injection Hw as <- <-.
        -- split; [assumption|]. intros x Hx. exact (nodes_closed c x Cn Hx).
        -- split; [assumption|]. intros x Hx. apply Hc. now right.
Qed.
End Visit.

Lemma reaches_map : forall (R R' : nat -> nat -> Prop) (a b : nat),
  (forall x y, R (S x) y -> exists y', y = S y' /\ R' x y') ->
  reaches R (S a) b -> exists b', b = S b' /\ reaches R' a b'.
Proof.
  intros R R' a b H C. apply clos_rt_rt1n in C. remember (S a) as x eqn:E. revert a E.
  induction C as [|x y z Hxy C IH]; intros a ->.
  - exists a. split; [reflexivity|apply rt_refl].
  - destruct (H a y Hxy) as (y' & -> & Hy). destruct (IH y' eq_refl) as (b' & -> & Hb). exists b'. split; [reflexivity|].
    eapply rt_trans; [apply rt_step, Hy|exact Hb].
Qed.

Definition drop_entry (l : list nat) : list nat := flat_map (fun v => match v with 0 => [] | S i => [i] end) l.
Lemma drop_entry_in : forall l x, In x (drop_entry l) <-> In (S x) l.
Proof.
  intros. unfold drop_entry. rewrite in_flat_map. split.
  - intros ([|i] & Hi & Hx); [destruct Hx|]. destruct Hx as [->|[]]. exact Hi.
  - intros H. exists (S x). split; [assumption|now left].
Qed.
Lemma drop_entry_nodup : forall l, NoDup l -> NoDup (drop_entry l).
Proof.
  induction l as [|[|i] l IH]; intros N; apply NoDup_cons_iff in N || constructor; try (destruct N as (Nx & N)); cbn; auto.
  constructor; [|auto]. now rewrite (drop_entry_in l i).
Qed.
Lemma drop_entry_split : forall l l1 x l2, drop_entry l = l1 ++ x :: l2 ->
  exists k1 k2, l = k1 ++ S x :: k2 /\ drop_entry k1 = l1 /\ drop_entry k2 = l2.
Proof.
  induction l as [|[|i] l IH]; intros l1 x l2 E; cbn in E; [now destruct l1| |].
  - destruct (IH l1 x l2 E) as (k1 & k2 & -> & E1 & E2). exists (0 :: k1), k2. auto.
  - destruct l1 as [|y l1]; cbn in E.
    + injection E as <- <-. exists [], l. auto.
    + injection E as <- E. destruct (IH l1 x l2 E) as (k1 & k2 & -> & E1 & E2). exists (S i :: k1), k2. cbn. rewrite <- E1. auto.
Qed.

(** The visit gives each vertex once, and a linked vertex comes before unless it
    leads back. *)
Lemma post_order_ok : forall n adj, (forall i, i < n -> incl (adj i) (seq 0 n)) ->
  exists r, post_order n adj = Ok r /\ Permutation r (seq 0 n) /\
    forall u v, u < n -> In v (adj u) -> precedes r v u \/ reaches (fun a b => In b (adj a)) v u.
Proof.
  intros n adj A. set (adj' := with_entry n adj).
  assert (Hc : forall v c, In v (seq 0 (S n)) -> In c (adj' v) -> In c (seq 0 (S n))).
  { intros [|v] c Hv Hx; cbn in Hx.
    - apply in_map_iff in Hx as (j & <- & Hj). apply in_seq in Hj. apply in_seq. lia.
    - apply in_map_iff in Hx as (j & <- & Hj). apply in_seq in Hv. apply A in Hj; [|lia]. apply in_seq in Hj. apply in_seq. lia. }
  destruct (po_run_total adj' (seq 0 (S n)) (seq_NoDup _ _) Hc (po_fuel n adj) [(0, adj' 0)] [0] []) as (r & Hr).
  { unfold po_measure, to_visit. cbn [seq filter existsb Nat.eqb orb negb map snd].
    assert (F : forall l, (forall x, In x l -> x <> 0) -> filter (fun v => negb (Nat.eqb v 0 || false)) l = l).
    { induction l as [|x l IH]; intros H; [reflexivity|]. cbn [filter]. rewrite (proj2 (Nat.eqb_neq x 0)) by (apply H; now left). cbn.
      rewrite IH; [reflexivity|]. intros y Hy. apply H. now right. }
    rewrite F by (intros x Hx; apply in_seq in Hx; lia).
    assert (Q : forall k s, list_sum (map (weight adj') (seq (S s) k)) = k + list_sum (map (fun i => length (adj i)) (seq s k))).
    { induction k as [|k IH]; intros s; [reflexivity|]. cbn [seq map list_sum fold_right]. fold (list_sum (map (weight adj') (seq (S (S s)) k))).
      rewrite IH. unfold weight. cbn [adj' with_entry]. rewrite map_length.
      fold (list_sum (map (fun i => length (adj i)) (seq (S s) k))). lia. }
    rewrite Q. unfold po_fuel. cbn [adj' with_entry list_sum fold_right]. rewrite map_length, seq_length. lia. }
  { intros v cs [E|[]]. injection E as <- <-. split; [apply in_seq; lia|]. intros x Hx. apply (Hc 0 x); [apply in_seq; lia|assumption]. }
  unfold post_order. fold adj'. change (with_entry n adj 0) with (adj' 0). rewrite Hr. cbn [bind].
  eexists. split; [reflexivity|]. fold (drop_entry r).
  assert (V0 : visit_ok adj' 0 [(0, adj' 0)] [0] []).
  { constructor.
    - cbn. repeat constructor. intros [].
    - intros x. cbn. tauto.
    - intros v cs [E|[]]. injection E as <- <-. exists []. split; [reflexivity|intros x []].
    - reflexivity.
    - intros l1 u l2 E. now destruct l1.
    - intros x [<-|[]]. apply rt_refl.
    - intros u [].
    - now left. }
  destruct (po_run_ok adj' 0 _ _ _ _ _ V0 Hr) as (vis & [N I _ _ O R D Rt]). cbn [map app] in N, I.
  assert (Hin : forall x, In x r <-> In x vis) by (intros x; rewrite I, <- in_rev; tauto).
  assert (Hall : forall i, i < n -> In (S i) r).
  { intros i Hi. apply Hin, (D 0); [rewrite <- in_rev; now apply Hin|]. cbn. apply in_map, in_seq. lia. }
  split.
  - apply NoDup_Permutation; [apply drop_entry_nodup; rewrite <- (rev_involutive r); now apply NoDup_rev|apply seq_NoDup|].
    intros x. rewrite drop_entry_in, in_seq. split; [|intros H; apply Hall; lia]. intros Hx. apply Hin, R in Hx.
    assert (Hx' : In (S x) (seq 0 (S n))).
    { apply clos_rt_rtn1 in Hx. remember (S x) as y. clear - Hx Hc. induction Hx as [|y z Hyz _ IH]; [apply in_seq; lia|]. now apply (Hc y). }
    apply in_seq in Hx'. lia.
  - intros u v Hu Hv. destruct (in_split (S u) (rev r)) as (l1 & l2 & E).
    { rewrite <- in_rev. now apply Hall. }
    destruct (O l1 (S u) l2 E (S v)) as [H|H].
    + cbn. now apply in_map.
    + left. destruct (in_split _ _ H) as (l3 & l4 & ->).
      apply (f_equal (@rev nat)) in E. rewrite rev_involutive in E. rewrite E.
      rewrite !rev_app_distr. cbn [rev]. rewrite !rev_app_distr. cbn [rev].
      exists (drop_entry (rev l4)), (drop_entry (rev l3)), (drop_entry (rev l1)).
      unfold drop_entry. rewrite !flat_map_app. cbn. rewrite <- !app_assoc. reflexivity.
    + right. destruct (reaches_map (edge adj') (fun a b => In b (adj a)) v (S u)) as (b' & Eb & Hb); [|exact H|].
      * intros x y Hxy. unfold edge in Hxy. cbn in Hxy. apply in_map_iff in Hxy as (y' & <- & Hy). eauto.
      * injection Eb as <-. exact Hb.
Qed.
