(** Facts on index sets as unions of boxes. *)
From Coq Require Import ZArith List Bool Lia ZifyBool.
From Verif Require Import RangeModel MDRangeModel BoxSetModel Spec RangeProofs MDRangeProofs
  IndexSetModel BoxListProofs.
Import ListNotations.
Open Scope Z_scope.

Lemma in_range_values : forall v r, In v (range_values r) <-> in_range v r.
Proof.
  intros v r. unfold range_values, in_range. rewrite in_map_iff. unfold range_size. split.
  - intros (i & <- & H). apply in_seq in H. lia.
  - intros H. exists (Z.to_nat (v - rbegin r)). split; [lia|]. apply in_seq. lia.
Qed.

Lemma in_box_points : forall b p, In p (box_points b) <-> in_box p b.
Proof.
  induction b as [|r b IH]; intros p; cbn.
  - unfold in_box. split.
    + intros [<-|[]]. constructor.
    + intros H. inversion H. auto.
  - rewrite in_flat_map. split.
    + intros (v & Hv & Hp). apply in_map_iff in Hp as (q & <- & Hq).
      apply in_box_cons. split; [now apply in_range_values|now apply IH].
    + intros H. destruct p as [|v q]; [inversion H|]. apply in_box_cons in H as (H1 & H2).
      exists v. split; [now apply in_range_values|]. apply in_map. now apply IH.
Qed.

Lemma in_bs_points : forall s p, In p (bs_points s) <-> in_boxes p s.
Proof.
  intros s p. unfold bs_points, in_boxes. rewrite in_flat_map.
  split; intros (b & H1 & H2); exists b; (split; [assumption|]); now apply in_box_points.
Qed.

Lemma box_mem_spec : forall b p, box_mem b p = true <-> in_box p b.
Proof.
  intros b p. unfold box_mem. rewrite andb_true_iff. split.
  - intros (H1 & H2). apply Nat.eqb_eq in H1. now apply mdrange_contains_point_spec.
  - intros H. assert (L : length p = length b) by now apply in_box_length.
    split; [now apply Nat.eqb_eq|now apply mdrange_contains_point_spec].
Qed.

Lemma bs_mem_spec : forall s p, bs_mem s p = true <-> in_boxes p s.
Proof.
  intros s p. unfold bs_mem, in_boxes. rewrite existsb_exists.
  split; intros (b & H1 & H2); exists b; (split; [assumption|]); now apply box_mem_spec.
Qed.

Lemma bs_mem_false : forall s p, bs_mem s p = false <-> ~ in_boxes p s.
Proof.
  intros s p. rewrite <- bs_mem_spec. destruct (bs_mem s p); split; congruence.
Qed.

Lemma bs_contains_spec : forall s o,
  bs_contains s o = true <-> forall p, in_boxes p o -> in_boxes p s.
Proof.
  intros s o. unfold bs_contains. rewrite forallb_forall.
  split; intros H p Hp.
  - apply bs_mem_spec, H, in_bs_points, Hp.
  - apply bs_mem_spec, H, in_bs_points, Hp.
Qed.

Lemma bs_overlaps_spec : forall s o,
  bs_overlaps s o = true <-> exists p, in_boxes p s /\ in_boxes p o.
Proof.
  intros s o. unfold bs_overlaps. rewrite existsb_exists. split.
  - intros (p & H1 & H2). exists p. split; [now apply bs_mem_spec|now apply in_bs_points].
  - intros (p & H1 & H2). exists p. split; [now apply in_bs_points|now apply bs_mem_spec].
Qed.

Lemma bs_eq_spec : forall s o,
  bs_eq s o = true <-> forall p, in_boxes p s <-> in_boxes p o.
Proof.
  intros s o. unfold bs_eq. rewrite andb_true_iff, !bs_contains_spec. firstorder.
Qed.

Lemma bs_union_spec : forall s o p, in_boxes p (bs_union s o) <-> in_boxes p s \/ in_boxes p o.
Proof. intros. apply in_boxes_app. Qed.

(** Sets of points of rank [rk]. *)
Definition bs_of (rk : nat) (s : bset) : Prop := Forall (box_of rk) s.

Lemma bs_of_length : forall rk s p, bs_of rk s -> in_boxes p s -> length p = rk.
Proof.
  intros rk s p H (b & Hb & Hp). rewrite (in_box_length _ _ Hp).
  unfold bs_of in H. rewrite Forall_forall in H. apply (H b Hb).
Qed.

Lemma bs_nonempty : forall rk s, bs_of rk s -> s <> [] -> exists p, in_boxes p s.
Proof.
  intros rk [|b s] H Hne; [congruence|]. inversion H; subst.
  destruct (box_point rk b) as (p & Hp); [assumption|].
  exists p. exists b. cbn. auto.
Qed.

Lemma bs_empty_spec : forall rk s, bs_of rk s -> (bs_empty s = true <-> forall p, ~ in_boxes p s).
Proof.
  intros rk [|b s] H; cbn.
  - split; [|reflexivity]. intros _ p. apply in_boxes_nil.
  - split; [discriminate|]. intros K.
    destruct (bs_nonempty rk (b :: s) H) as (p & Hp); [congruence|]. destruct (K p Hp).
Qed.

Lemma bs_remove_spec : forall rk s b, bs_of rk s -> box_of rk b ->
  bs_of rk (bs_remove s b) /\
  forall p, in_boxes p (bs_remove s b) <-> in_boxes p s /\ ~ in_box p b.
Proof.
  intros rk s b Hs Hb. unfold bs_of in *. rewrite Forall_forall in Hs. split.
  - apply Forall_forall. intros c Hc. unfold bs_remove in Hc. apply in_flat_map in Hc as (x & Hx & Hc).
    destruct (mdrange_overlaps x b) eqn:E.
    + assert (F := subtract_boxes rk x b (Hs x Hx) Hb). rewrite Forall_forall in F. auto.
    + destruct Hc as [<-|[]]. auto.
  - intros p. unfold bs_remove. rewrite in_boxes_flat_map. split.
    + intros (x & Hx & Hp). destruct (mdrange_overlaps x b) eqn:E.
      * apply (subtract_in rk) in Hp; auto. destruct Hp as (H1 & H2).
        split; [exists x; auto|assumption].
      * apply in_boxes_single in Hp. split; [exists x; auto|].
        intros Hpb. apply (overlaps_false rk) in E; auto. now apply (E p).
    + intros ((x & Hx & Hp) & Hn). exists x. split; [assumption|].
      destruct (mdrange_overlaps x b) eqn:E.
      * apply (subtract_in rk); auto.
      * now apply in_boxes_single.
Qed.

Lemma bs_diff_spec : forall rk o s, bs_of rk s -> bs_of rk o ->
  bs_of rk (bs_diff s o) /\
  forall p, in_boxes p (bs_diff s o) <-> in_boxes p s /\ ~ in_boxes p o.
Proof.
  intros rk o. unfold bs_diff. induction o as [|b o IH]; intros s Hs Ho; cbn.
  - split; [assumption|]. intros p. split; [|tauto]. intros H. split; [assumption|]. apply in_boxes_nil.
  - inversion Ho; subst. destruct (bs_remove_spec rk s b Hs) as (A & B); [assumption|].
    destruct (IH (bs_remove s b) A) as (C & D); [assumption|].
    split; [assumption|]. intros p. rewrite D, B, in_boxes_cons. tauto.
Qed.

Lemma bs_intersect_spec : forall rk s o, bs_of rk s -> bs_of rk o ->
  bs_of rk (bs_intersect s o) /\
  forall p, in_boxes p (bs_intersect s o) <-> in_boxes p s /\ in_boxes p o.
Proof.
  intros rk s o Hs Ho. unfold bs_of in *. rewrite Forall_forall in Hs, Ho.
  assert (P : forall q, In q (filter (fun q => mdrange_overlaps (fst q) (snd q)) (list_prod s o)) <->
     In (fst q) s /\ In (snd q) o /\ mdrange_overlaps (fst q) (snd q) = true).
  { intros (x, y). rewrite filter_In, in_prod_iff. cbn. tauto. }
  split.
  - apply Forall_forall. intros c Hc. unfold bs_intersect in Hc.
    apply in_map_iff in Hc as (q & <- & Hq). apply P in Hq as (Hx & Hy & E).
    destruct q as (x, y); cbn in *.
    assert (Bx := Hs x Hx). assert (By := Ho y Hy). destruct Bx as ((N & Ox) & Lx), By as ((_ & Oy) & Ly).
    assert (L : length x = length y) by congruence.
    split; [split|].
    + intros Z0. assert (K := mdrange_intersect_length x y L). rewrite Z0 in K.
      destruct x; [congruence|discriminate].
    + now apply mdrange_intersect_ok.
    + now rewrite mdrange_intersect_length.
  - intros p. unfold bs_intersect. rewrite in_boxes_map. split.
    + intros (q & Hq & Hp). apply P in Hq as (Hx & Hy & E). destruct q as (x, y); cbn in *.
      apply mdrange_intersect_spec in Hp; [|apply (box_of_len rk); auto|assumption].
      split; [exists x|exists y]; tauto.
    + intros ((x & Hx & Hp) & (y & Hy & Hq)).
      assert (E : mdrange_overlaps x y = true).
      { apply (overlaps_box rk); auto. exists p; auto. }
      exists (x, y). split; [apply P; cbn; auto|]. cbn.
      apply mdrange_intersect_spec; auto. apply (box_of_len rk); auto.
Qed.

Lemma of_point_in : forall p q, in_box q (mdrange_of_point p) <-> q = p.
Proof.
  induction p as [|v p IH]; intros q.
  - cbn. apply in_box_nil.
  - destruct q as [|w q].
    + split; [intros H; inversion H|discriminate].
    + cbn. rewrite in_box_cons. fold (mdrange_of_point p). rewrite IH. unfold in_range. cbn. split.
      * intros (H1 & ->). f_equal. lia.
      * intros H. inversion H; subst. split; [lia|reflexivity].
Qed.

Lemma of_point_box : forall rk p, length p = rk -> (1 <= rk)%nat -> box_of rk (mdrange_of_point p).
Proof.
  intros rk p H H1. split; [split|].
  - destruct p; cbn in *; [lia|discriminate].
  - unfold mdrange_of_point. apply Forall_forall. intros r Hr.
    apply in_map_iff in Hr as (v & <- & _). unfold range_ok. cbn. lia.
  - unfold mdrange_of_point. now rewrite map_length.
Qed.

Lemma of_points_in : forall l p, in_boxes p (bs_of_points l) <-> In p l.
Proof.
  intros l p. unfold bs_of_points. rewrite in_boxes_map. split.
  - intros (x & Hx & Hp). apply of_point_in in Hp. now subst.
  - intros H. exists p. split; [assumption|]. now apply of_point_in.
Qed.

Lemma bs_append_spec : forall rk s o, bs_of rk s -> forall q,
  in_boxes q (bs_append s o) <->
  exists p p', q = p ++ p' /\ in_boxes p s /\ in_boxes p' o.
Proof.
  intros rk s o Hs q. unfold bs_append. rewrite in_boxes_flat_map. split.
  - intros (b & Hb & Hq). apply (in_boxes_map _ (fun c => mdrange_append b c)) in Hq as (c & Hc & Hq).
    cbv beta in Hq. unfold mdrange_append in Hq.
    exists (firstn (length b) q), (skipn (length b) q).
    split; [now rewrite firstn_skipn|].
    assert (L := in_box_length _ _ Hq). rewrite app_length in L.
    rewrite <- (firstn_skipn (length b) q) in Hq.
    apply in_box_app in Hq; [|rewrite firstn_length; lia].
    split; [exists b|exists c]; tauto.
  - intros (p & p' & -> & (b & Hb & Hp) & (c & Hc & Hp')).
    exists b. split; [assumption|]. apply (in_boxes_map _ (fun c => mdrange_append b c)). exists c. split; [assumption|].
    apply in_box_app; [now apply in_box_length|]. auto.
Qed.
