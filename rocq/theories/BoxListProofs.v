(** Lists of boxes: the points they cover, disjointness, sorting and merging. *)
From Coq Require Import ZArith List Bool Lia ZifyBool Permutation.
From Verif Require Import RangeModel MDRangeModel Spec RangeProofs MDRangeProofs
  Result RTreeModel IndexSetModel RTreeSplitProofs ListTac.
Import ListNotations.
Local Open Scope nat_scope.


Lemma disjoint_sym : forall a b, disjoint_boxes a b -> disjoint_boxes b a.
Proof. unfold disjoint_boxes. intros a b H p [A B]. eapply H; eauto. Qed.

Lemma FOP_inv : forall A (R : A -> A -> Prop) x l, ForallOrdPairs R (x :: l) ->
  Forall (R x) l /\ ForallOrdPairs R l.
Proof. intros A R x l H. inversion H; auto. Qed.

Lemma disj_perm : forall l l', Permutation l l' -> disj l -> disj l'.
Proof.
  induction 1; intros D; auto.
  - apply FOP_inv in D as [A B]. constructor; [|apply IHPermutation; auto].
    eapply Permutation_Forall; eauto.
  - apply FOP_inv in D as [A B]. apply FOP_inv in B as [B C]. inversion A; subst.
    constructor; [constructor; auto using disjoint_sym|]. constructor; auto.
Qed.

Lemma FOP_app_inv : forall A (R : A -> A -> Prop) l1 l2, ForallOrdPairs R (l1 ++ l2) ->
  ForallOrdPairs R l1 /\ ForallOrdPairs R l2 /\ (forall x y, In x l1 -> In y l2 -> R x y).
Proof.
  induction l1 as [|z l1 IH]; intros l2 H; cbn in H.
  - split; [constructor|]. split; auto. intros x y [].
  - apply FOP_inv in H as [A' B]. apply IH in B as (B1 & B2 & B3). rewrite Forall_app in A'.
    destruct A' as [A1 A2]. split; [constructor; auto|]. split; auto.
    intros x y [<-|Hx] Hy; auto. rewrite Forall_forall in A2. auto.
Qed.

Lemma disj_app : forall a b, disj (a ++ b) <->
  disj a /\ disj b /\ (forall p, in_boxes p a -> in_boxes p b -> False).
Proof.
  intros a b. split.
  - intros H. apply FOP_app_inv in H as (A & B & C). split; auto. split; auto.
    intros p (x & Hx & Px) (y & Hy & Py). eapply C; eauto.
  - intros (A & B & C). apply ForallOrdPairs_app; auto.
    intros x y Hx Hy p [Px Py]. apply (C p); [exists x|exists y]; auto.
Qed.

Lemma in_boxes_app : forall p a b, in_boxes p (a ++ b) <-> in_boxes p a \/ in_boxes p b.
Proof.
  intros p a b. unfold in_boxes. split.
  - intros (x & Hx & Px). apply in_app_or in Hx as [Hx|Hx]; eauto.
  - intros [(x & Hx & Px)|(x & Hx & Px)]; exists x; split; auto; apply in_or_app; auto.
Qed.
Lemma in_boxes_cons : forall p x l, in_boxes p (x :: l) <-> in_box p x \/ in_boxes p l.
Proof.
  intros p x l. unfold in_boxes. split.
  - intros (y & [<-|Hy] & Py); eauto.
  - intros [H|(y & Hy & Py)]; [exists x|exists y]; cbn; auto.
Qed.
Lemma in_boxes_nil : forall p, ~ in_boxes p [].
Proof. intros p (x & [] & _). Qed.
Lemma in_boxes_single : forall p x, in_boxes p [x] <-> in_box p x.
Proof. intros. rewrite in_boxes_cons. split; auto. intros [|H]; auto. destruct (in_boxes_nil _ H). Qed.
Lemma in_boxes_perm : forall p l l', Permutation l l' -> in_boxes p l -> in_boxes p l'.
Proof. intros p l l' H (x & Hx & Px). exists x. split; auto. eapply Permutation_in; eauto. Qed.
Lemma in_boxes_flat_map : forall A (f : A -> list mdrange) l p,
  in_boxes p (flat_map f l) <-> exists x, In x l /\ in_boxes p (f x).
Proof.
  intros A f l p. unfold in_boxes. split.
  - intros (b & Hb & Pb). apply in_flat_map in Hb as (x & Hx & Hb). eauto.
  - intros (x & Hx & b & Hb & Pb). exists b. split; auto. apply in_flat_map. eauto.
Qed.
Lemma in_boxes_map : forall A (f : A -> mdrange) l p,
  in_boxes p (map f l) <-> exists x, In x l /\ in_box p (f x).
Proof.
  intros A f l p. unfold in_boxes. split.
  - intros (b & Hb & Pb). apply in_map_iff in Hb as (x & <- & Hx). eauto.
  - intros (x & Hx & Pb). exists (f x). split; auto. apply in_map; auto.
Qed.

Lemma box_of_len : forall rk a b, box_of rk a -> box_of rk b -> length a = length b.
Proof. intros rk a b [_ A] [_ B]. congruence. Qed.
Lemma box_of_ranges : forall rk a, box_of rk a -> Forall range_ok a.
Proof. intros rk a [[_ A] _]. auto. Qed.

(** Subtraction in terms of box_of. *)
Lemma subtract_in : forall rk a b p, box_of rk a -> box_of rk b ->
  (in_boxes p (mdrange_subtract a b) <-> in_box p a /\ ~ in_box p b).
Proof. intros. apply mdrange_subtract_in; eauto using box_of_len, box_of_ranges. Qed.
Lemma subtract_boxes : forall rk a b, box_of rk a -> box_of rk b ->
  Forall (box_of rk) (mdrange_subtract a b).
Proof.
  intros rk a b Ha Hb. apply Forall_forall. intros c Hc.
  apply mdrange_subtract_ok in Hc as [A B]; eauto using box_of_len, box_of_ranges.
  destruct Ha as [[Hn _] Ha]. split; [split; auto|congruence].
  intros ->. destruct a; [auto|discriminate].
Qed.
Lemma subtract_disj : forall rk a b, box_of rk a -> box_of rk b -> disj (mdrange_subtract a b).
Proof. intros. apply mdrange_subtract_disjoint; eauto using box_of_len, box_of_ranges. Qed.
Lemma overlaps_box : forall rk a b, box_of rk a -> box_of rk b ->
  (mdrange_overlaps a b = true <-> exists p, in_box p a /\ in_box p b).
Proof. intros. apply mdrange_overlaps_spec; eauto using box_of_len, box_of_ranges. Qed.
Lemma overlaps_false : forall rk a b, box_of rk a -> box_of rk b ->
  (mdrange_overlaps a b = false <-> disjoint_boxes a b).
Proof.
  intros rk a b Ha Hb. pose proof (overlaps_box rk a b Ha Hb) as H.
  split.
  - intros E p Hp. rewrite E in H. assert (false = true) by (apply H; eauto). discriminate.
  - intros D. destruct (mdrange_overlaps a b); auto. destruct H as [H _].
    destruct H as [p Hp]; auto. destruct (D p Hp).
Qed.
Lemma box_point : forall rk a, box_of rk a -> exists p, in_box p a.
Proof. intros rk a H. eexists. apply box_inhabited. eapply box_of_ranges; eauto. Qed.
Lemma in_box_dec : forall p b, in_box p b \/ ~ in_box p b.
Proof.
  induction p as [|v p IH]; intros [|r b].
  - left; constructor.
  - right. intros H; inversion H.
  - right. intros H; inversion H.
  - rewrite in_box_cons. destruct (IH b) as [H|H]; [|tauto].
    unfold in_range. assert (rbegin r <= v < rend r \/ ~ (rbegin r <= v < rend r))%Z by lia. tauto.
Qed.

(** Sorting. *)
Lemma insert_sorted_perm : forall x l, Permutation (x :: l) (insert_sorted x l).
Proof.
  induction l as [|y l IH]; cbn; auto. destruct (mdrange_lt y x); auto.
  rewrite perm_swap. constructor. auto.
Qed.
Lemma sort_boxes_perm : forall l, Permutation l (sort_boxes l).
Proof.
  induction l as [|x l IH]; cbn; auto. rewrite <- insert_sorted_perm. constructor; auto.
Qed.

(** The relation between the content of the tree before and after. *)
Definition same (rk : nat) (l l' : list mdrange) : Prop :=
  Forall (box_of rk) l ->
  Forall (box_of rk) l' /\ (forall p, in_boxes p l <-> in_boxes p l') /\ (disj l -> disj l').

Lemma same_perm : forall rk l l', Permutation l l' -> same rk l l'.
Proof.
  intros rk l l' H F. split; [eapply Permutation_Forall; eauto|]. split.
  - intros p. split; apply in_boxes_perm; auto. symmetry; auto.
  - apply disj_perm; auto.
Qed.
Lemma same_refl : forall rk l, same rk l l.
Proof. intros. apply same_perm. reflexivity. Qed.
Lemma same_trans : forall rk a b c, same rk a b -> same rk b c -> same rk a c.
Proof.
  intros rk a b c H1 H2 F. destruct (H1 F) as (A1 & B1 & C1). destruct (H2 A1) as (A2 & B2 & C2).
  split; auto. split; auto. intros p. rewrite B1. auto.
Qed.
Lemma same_app : forall rk a b c, same rk a b -> same rk (a ++ c) (b ++ c).
Proof.
  intros rk a b c H F. apply Forall_app in F as [Fa Fc]. destruct (H Fa) as (A & B & C).
  split; [apply Forall_app; auto|]. split.
  - intros p. rewrite !in_boxes_app, B. tauto.
  - rewrite !disj_app. intros (Da & Dc & X). split; auto. split; auto.
    intros p Pb Pc. apply (X p); auto. apply B; auto.
Qed.

(** Merging. *)
Lemma find_partner_spec : forall x after before b y a d,
  find_partner x before after = Some (b, y, a, d) ->
  mdrange_canBeMerged x y = (true, d) /\ before ++ after = b ++ y :: a.
Proof.
  induction after as [|z after IH]; intros before b y a d H; cbn in H; [discriminate|].
  destruct (mdrange_canBeMerged x z) as [can dd] eqn:E. destruct can.
  - injection H as <- <- <- <-. auto.
  - apply IH in H as [H1 H2]. split; auto. rewrite <- H2, <- app_assoc. reflexivity.
Qed.

Lemma same_cons : forall rk x a b, same rk a b -> same rk (x :: a) (x :: b).
Proof.
  intros rk x a b H. eapply same_trans; [apply same_perm; apply Permutation_cons_append|].
  eapply same_trans; [apply same_app; eauto|]. apply same_perm. symmetry. apply Permutation_cons_append.
Qed.

Lemma merge_two_same : forall rk x y d rest, mdrange_canBeMerged x y = (true, d) ->
  same rk (x :: y :: rest) (mdrange_merge x y d :: rest).
Proof.
  intros rk x y d rest H.
  change (same rk ([x; y] ++ rest) ([mdrange_merge x y d] ++ rest)). apply same_app.
  intros F. inversion F as [|? ? Hx F']; subst. inversion F' as [|? ? Hy _]; subst.
  pose proof (box_of_len _ _ _ Hx Hy) as HL.
  destruct (mdrange_merge_ok x y d HL) as [A B]; eauto using box_of_ranges.
  split; [|split].
  - constructor; auto. destruct Hx as [[Hn _] Hx]. split; [split; auto|congruence].
    intros E. rewrite E in B. destruct x; [auto|discriminate].
  - intros p. rewrite in_boxes_single, !in_boxes_cons, (mdrange_merge_spec x y d p);
      eauto using box_of_ranges. pose proof (in_boxes_nil p). tauto.
  - intros _. repeat constructor.
Qed.

Lemma merge_round_same : forall rk l l', merge_round l = Some l' ->
  same rk l l' /\ length l = S (length l').
Proof.
  induction l as [|x l IH]; intros l' H; cbn in H; [discriminate|].
  destruct (find_partner x [] l) as [[[[b y] a] d]|] eqn:E.
  - injection H as <-. apply find_partner_spec in E as [E1 E2]. cbn in E2. subst l. split.
    + eapply same_trans; [|apply merge_two_same; eauto]. apply same_perm. constructor.
      symmetry. apply Permutation_middle.
    + cbn. rewrite !app_length. cbn. lia.
  - destruct (merge_round l) as [l2|]; [|discriminate]. injection H as <-.
    destruct (IH l2 eq_refl) as [A B]. split; [apply same_cons; auto|cbn; lia].
Qed.

Lemma merge_loop_same : forall rk fuel l, same rk l (merge_loop fuel l)
  /\ length (merge_loop fuel l) <= length l /\ (l <> [] -> merge_loop fuel l <> []).
Proof.
  induction fuel as [|f IH]; intros l; cbn.
  - split; [apply same_refl|]. auto.
  - destruct (merge_round l) as [l'|] eqn:E.
    + apply (merge_round_same rk) in E as E'. destruct E' as [A B]. destruct (IH l') as (C & D & F).
      split; [eapply same_trans; eauto|]. split; [lia|]. intros _. apply F.
      intros ->. destruct l as [|x [|y l]]; cbn in *; try discriminate.
    + split; [apply same_refl|]. auto.
Qed.

Lemma hook_same : forall rk l, same rk l (is_hook l).
Proof.
  intros. unfold is_hook, merge_boxes. eapply same_trans; [apply same_perm, sort_boxes_perm|].
  apply merge_loop_same.
Qed.
Lemma hook_boxes : forall rk l, Forall (box_of rk) l -> Forall (box_of rk) (is_hook l).
Proof. intros rk l H. apply (hook_same rk l H). Qed.
Lemma hook_length : forall l, length (is_hook l) <= length l.
Proof.
  intros. unfold is_hook, merge_boxes.
  destruct (merge_loop_same 0 (length (sort_boxes l)) (sort_boxes l)) as (_ & H & _).
  rewrite <- (Permutation_length (sort_boxes_perm l)) in H at 2. auto.
Qed.
Lemma hook_ne : forall l, l <> [] -> is_hook l <> [].
Proof.
  intros l H. unfold is_hook, merge_boxes.
  destruct (merge_loop_same 0 (length (sort_boxes l)) (sort_boxes l)) as (_ & _ & G). apply G.
  intros E. apply H. apply Permutation_nil. rewrite <- E. symmetry. apply sort_boxes_perm.
Qed.
Lemma hook_one : forall b, is_hook [b] = [b].
Proof. reflexivity. Qed.
