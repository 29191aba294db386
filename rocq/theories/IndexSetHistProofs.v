(** Every index set a program can build is well formed; its content and the
    effect of each operation, seen through contains(point). *)
From Coq Require Import ZArith List Bool Lia Permutation.
From Verif Require Import RangeModel MDRangeModel Spec RangeProofs MDRangeProofs
  Result RTreeModel IndexSetModel IndexSetIterModel IndexSetSpec TreeSpec RTreeSplitProofs
  RTreeQueryProofs RTreeProofs BoxListProofs
  ListTac IndexSetProofs IndexSetQueryProofs IndexSetBuildProofs IndexSetOpsProofs
  IndexSetRemoveProofs IndexSetProjProofs IndexSetIterProofs.
Import ListNotations.
Local Open Scope nat_scope.

Lemma isMin_pos : 1 <= isMin. Proof. unfold isMin; lia. Qed.
Lemma isMax_min : 2 * isMin <= isMax. Proof. unfold isMin, isMax; lia. Qed.
Lemma isBounds_fit : isMin * isMin <= isMax + isMin. Proof. unfold isMin, isMax; lia. Qed.
Local Hint Resolve isMin_pos isMax_min isBounds_fit : core.


Definition good (c : bool) (rk : nat) (t : iset) : Prop :=
  wset rk t /\ (c = true -> disj (is_ranges t)).

Lemma nonempty_root : forall t, is_empty t = false -> rt_root mdrange t <> None.
Proof. intros t H E. unfold is_empty in H. rewrite E in H. discriminate. Qed.
Lemma nonempty_rank : forall rk t, wset rk t -> is_empty t = false ->
  rt_initialized mdrange t = true /\ is_rank t = rk.
Proof.
  intros rk t (_ & A & B) H. destruct (rt_initialized mdrange t) eqn:E.
  - split; auto.
  - apply nonempty_root in H. rewrite B in H; auto.
Qed.

Section Proj.
Variable rk : nat.
Variable t : iset.
Hypothesis Ht : wset rk t.
Hypothesis Hne : is_empty t = false.
Definition image (g : point -> point) (t' : iset) : Prop :=
  forall q, in_boxes q (is_ranges t') <-> exists p, in_boxes p (is_ranges t) /\ q = g p.
Lemma slice_ok : forall bits, length bits = rk -> 1 <= ones bits ->
  exists t', is_slice isMin isMax t bits = Ok t' /\ wset (ones bits) t' /\ image (select bits) t'.
Proof.
  intros bits Hl H1. apply (map_ranges_ok isMin isMax isMin_pos isMax_min isBounds_fit rk); auto.
  - apply nonempty_root; auto.
  - intros b Hb. eapply slice_box; eauto.
Qed.
Lemma takeFirst_ok : forall n, 1 <= n <= rk ->
  exists t', is_takeFirst isMin isMax t n = Ok t' /\ wset n t' /\ image (firstn n) t'.
Proof.
  intros n Hn. unfold is_takeFirst. destruct (nonempty_rank rk t Ht Hne) as [-> ->].
  replace (Nat.leb n rk) with true by (symmetry; apply Nat.leb_le; lia). cbn [negb orb assert_ok bind].
  apply (map_ranges_ok isMin isMax isMin_pos isMax_min isBounds_fit rk); auto.
  - apply nonempty_root; auto.
  - intros b Hb. eapply firstn_box; eauto.
Qed.
Lemma takeLast_ok : forall n, 1 <= n <= rk ->
  exists t', is_takeLast isMin isMax t n = Ok t' /\ wset n t' /\ image (skipn (rk - n)) t'.
Proof.
  intros n Hn. unfold is_takeLast. destruct (nonempty_rank rk t Ht Hne) as [-> ->].
  replace (Nat.leb n rk) with true by (symmetry; apply Nat.leb_le; lia). cbn [negb orb assert_ok bind].
  apply (map_ranges_ok isMin isMax isMin_pos isMax_min isBounds_fit rk); auto.
  - apply nonempty_root; auto.
  - intros b Hb. unfold mdrange_takeLast. replace (length b) with rk by (symmetry; apply Hb).
    replace n with (rk - (rk - n)) at 1 by lia. eapply skipn_box; eauto. lia.
Qed.
Lemma dropFirst_ok : forall n, n < rk ->
  exists t', is_dropFirst isMin isMax t n = Ok t' /\ wset (rk - n) t' /\ image (skipn n) t'.
Proof.
  intros n Hn. unfold is_dropFirst. destruct (nonempty_rank rk t Ht Hne) as [-> ->].
  replace (Nat.ltb n rk) with true by (symmetry; apply Nat.ltb_lt; lia). cbn [negb orb assert_ok bind].
  apply (map_ranges_ok isMin isMax isMin_pos isMax_min isBounds_fit rk); auto.
  - apply nonempty_root; auto.
  - intros b Hb. eapply skipn_box; eauto.
Qed.
Lemma dropLast_ok : forall n, n < rk ->
  exists t', is_dropLast isMin isMax t n = Ok t' /\ wset (rk - n) t' /\ image (firstn (rk - n)) t'.
Proof.
  intros n Hn. unfold is_dropLast. destruct (nonempty_rank rk t Ht Hne) as [-> ->].
  replace (Nat.ltb n rk) with true by (symmetry; apply Nat.ltb_lt; lia). cbn [negb orb assert_ok bind].
  apply (map_ranges_ok isMin isMax isMin_pos isMax_min isBounds_fit rk); auto.
  - apply nonempty_root; auto.
  - intros b Hb. unfold mdrange_dropLast. replace (length b) with rk by (symmetry; apply Hb).
    eapply firstn_box; eauto. lia.
Qed.
End Proj.

Lemma insert_wset : forall rk t b t', wset rk t -> box_of rk b -> is_insert isMin isMax t b = Ok t' ->
  wset rk t' /\ (forall p, in_boxes p (is_ranges t') <-> in_boxes p (is_ranges t) \/ in_box p b)
  /\ (disj (is_ranges t) -> disj (is_ranges t')).
Proof. intros. eapply (insert_ok isMin isMax); eauto. all: unfold isMin; lia. Qed.
Lemma insert_set_wset : forall rk t u t', wset rk t -> wset rk u ->
  is_insert_set isMin isMax t u = Ok t' ->
  wset rk t'
  /\ (forall p, in_boxes p (is_ranges t') <-> in_boxes p (is_ranges t) \/ in_boxes p (is_ranges u))
  /\ (disj (is_ranges t) -> disj (is_ranges t')).
Proof.
  intros rk t u t' Ht Hu H. pose proof (wset_boxes rk u Hu) as B.
  eapply (insert_boxes_ok isMin isMax); eauto. all: unfold isMin; lia.
Qed.

Theorem built_good : forall c rk t, built c rk t -> good c rk t.
Proof.
  induction 1; unfold good in *.
  - split; [|intros _; constructor]. split; [cbn; auto|]. split; cbn; auto; discriminate.
  - split; [|discriminate]. eapply (setFromRanges_ok isMin isMax); eauto.
  - destruct (build_ok rk isMin isMax isMin_pos isMax_min l t) as (A & _ & B); auto.
  - unfold is_of_points in *. assert (F : Forall (box_of rk) (map mdrange_of_point l)).
    { apply Forall_map. eapply Forall_impl; [|exact H0]. intros p Hp. apply point_box; auto. }
    destruct (setFromRanges_ok isMin isMax isMin_pos isMax_min rk _ t F H1) as (A & _ & B).
    split; auto. intros _. apply B. eapply points_disj; eauto.
  - split; [apply IHbuilt|discriminate].
  - destruct IHbuilt as [A _]. destruct (wset_emptyCopy rk t A) as [B C].
    split; auto. intros _. rewrite C. constructor.
  - destruct IHbuilt as [A B]. destruct (insert_wset rk t b t') as (C & _ & D); auto.
  - destruct IHbuilt as [A B].
    destruct (insert_wset rk t (mdrange_of_point p) t') as (C & _ & D); auto. apply point_box; auto.
  - destruct IHbuilt1 as [A B], IHbuilt2 as [A' _].
    destruct (insert_set_wset rk t u t') as (C & _ & D); auto.
  - destruct IHbuilt as [A B].
    destruct (remove_ok isMin isMax isMin_pos isMax_min rk t b t') as (C & _ & _ & D); auto.
  - destruct IHbuilt as [A B].
    destruct (remove_ok isMin isMax isMin_pos isMax_min rk t (mdrange_of_point p) t') as (C & _ & _ & D);
      auto. apply point_box; auto.
  - destruct IHbuilt1 as [A B], IHbuilt2 as [A' _].
    destruct (remove_set_ok isMin isMax isMin_pos isMax_min rk t u t') as (C & _ & _ & D); auto.
  - destruct IHbuilt as [A B].
    destruct (intersect_box_ok rk isMin isMax isMin_pos isMax_min t b t') as (C & _ & D); auto.
  - destruct IHbuilt1 as [A B], IHbuilt2 as [A' B'].
    destruct (intersect_set_ok rk isMin isMax isMin_pos isMax_min t u t') as (C & _ & D); auto.
    split; auto. intros E. apply andb_true_iff in E. destruct E. auto.
  - destruct IHbuilt as [A B].
    destruct (complement_ok rk isMin isMax isMin_pos isMax_min t b t') as (C & _ & D); auto.
  - split; [|discriminate]. destruct IHbuilt as [A _].
    destruct (slice_ok rk t A H0 bits) as (v & E & W & _); auto. congruence.
  - split; [|discriminate]. destruct IHbuilt as [A _].
    destruct (takeFirst_ok rk t A H0 n) as (v & E & W & _); auto. congruence.
  - split; [|discriminate]. destruct IHbuilt as [A _].
    destruct (takeLast_ok rk t A H0 n) as (v & E & W & _); auto. congruence.
  - split; [|discriminate]. destruct IHbuilt as [A _].
    destruct (dropFirst_ok rk t A H0 n) as (v & E & W & _); auto. congruence.
  - split; [|discriminate]. destruct IHbuilt as [A _].
    destruct (dropLast_ok rk t A H0 n) as (v & E & W & _); auto. congruence.
  - destruct IHbuilt1 as [A B], IHbuilt2 as [A' B'].
    destruct (append_ok isMin isMax isMin_pos isMax_min isBounds_fit rk rk' t u A A'
                (nonempty_root t H1)) as (v & E & W & _ & D).
    assert (v = t') by congruence. subst v. split; auto.
    intros F. apply andb_true_iff in F. destruct F. auto.
  - destruct IHbuilt1 as [A B], IHbuilt2 as [A' B'].
    destruct (prepend_ok isMin isMax isMin_pos isMax_min isBounds_fit rk rk' t u A A'
                (nonempty_root t H1)) as (v & E & W & _ & D).
    assert (v = t') by congruence. subst v. split; auto.
    intros F. apply andb_true_iff in F. destruct F. auto.
Qed.

Lemma built_wset : forall c rk t, built c rk t -> wset rk t.
Proof. intros c rk t H. apply built_good in H. apply H. Qed.
Lemma built_disj : forall rk t, built true rk t -> disj (is_ranges t).
Proof. intros rk t H. apply built_good in H. apply H. auto. Qed.

Lemma member_length : forall rk t p, wset rk t -> in_boxes p (is_ranges t) -> length p = rk.
Proof.
  intros rk t p W (b & Hb & Hp). pose proof (wset_boxes rk t W) as F. rewrite Forall_forall in F.
  rewrite (in_box_length _ _ Hp). apply F; auto.
Qed.
Lemma holds_in : forall rk t p, wset rk t -> 1 <= rk -> length p = rk ->
  (holds t p <-> in_boxes p (is_ranges t)).
Proof.
  intros rk t p W H1 Hl. destruct (contains_point_spec rk t p W Hl H1) as (v & E & S).
  unfold holds. rewrite E. split; intros H; [apply S; congruence|]. apply S in H. congruence.
Qed.
Lemma box_rank : forall rk b, box_of rk b -> 1 <= rk.
Proof. intros rk [|r b] [[H _] <-]; cbn; [congruence|lia]. Qed.
Lemma box_point : forall rk b, box_of rk b -> exists p, in_box p b /\ length p = rk.
Proof.
  intros rk b Hb. exists (begins b). split. apply box_inhabited; apply Hb.
  unfold begins. rewrite map_length. apply Hb.
Qed.
(** ** The operations, seen through contains(point). *)
Lemma insert_holds : forall c rk t b t', built c rk t -> box_of rk b ->
  is_insert isMin isMax t b = Ok t' ->
  forall p, length p = rk -> (holds t' p <-> holds t p \/ in_box p b).
Proof.
  intros c rk t b t' H Hb E p Hp. pose proof (box_rank rk b Hb) as H1. apply built_wset in H.
  destruct (insert_wset rk t b t' H Hb E) as (W & S & _).
  rewrite (holds_in rk t' p), (holds_in rk t p); auto.
Qed.
Lemma insert_point_holds : forall c rk t q t', built c rk t -> 1 <= rk -> length q = rk ->
  is_insert_point isMin isMax t q = Ok t' ->
  forall p, length p = rk -> (holds t' p <-> holds t p \/ p = q).
Proof.
  intros c rk t q t' H H1 Hq E p Hp. rewrite <- in_box_of_point.
  eapply insert_holds; eauto. apply point_box; auto.
Qed.
Lemma insert_set_holds : forall c c' rk t u t', 1 <= rk -> built c rk t -> built c' rk u ->
  is_insert_set isMin isMax t u = Ok t' ->
  forall p, length p = rk -> (holds t' p <-> holds t p \/ holds u p).
Proof.
  intros c c' rk t u t' H1 H H' E p Hp. apply built_wset in H, H'.
  destruct (insert_set_wset rk t u t' H H' E) as (W & S & _).
  rewrite (holds_in rk t' p), (holds_in rk t p), (holds_in rk u p); auto.
Qed.
Lemma remove_holds : forall c rk t b t', built c rk t -> box_of rk b ->
  is_remove isMin isMax t b = Ok t' ->
  forall p, length p = rk ->
    (holds t' p -> holds t p) /\ (holds t p /\ ~ in_box p b -> holds t' p).
Proof.
  intros c rk t b t' H Hb E p Hp. pose proof (box_rank rk b Hb) as H1. apply built_wset in H.
  destruct (remove_ok isMin isMax isMin_pos isMax_min rk t b t' H Hb E) as (W & S & S' & _).
  rewrite (holds_in rk t' p), (holds_in rk t p); auto. split; auto. intros []; auto.
Qed.
Lemma remove_point_holds : forall c rk t q t', built c rk t -> 1 <= rk -> length q = rk ->
  is_remove_point isMin isMax t q = Ok t' ->
  forall p, length p = rk ->
    (holds t' p -> holds t p) /\ (holds t p /\ p <> q -> holds t' p).
Proof.
  intros c rk t q t' H H1 Hq E p Hp. rewrite <- (in_box_of_point q p).
  eapply remove_holds; eauto. apply point_box; auto.
Qed.
Lemma remove_set_holds : forall c c' rk t u t', 1 <= rk -> built c rk t -> built c' rk u ->
  is_remove_set isMin isMax t u = Ok t' ->
  forall p, length p = rk ->
    (holds t' p -> holds t p) /\ (holds t p /\ ~ holds u p -> holds t' p).
Proof.
  intros c c' rk t u t' H1 H H' E p Hp. apply built_wset in H, H'.
  destruct (remove_set_ok isMin isMax isMin_pos isMax_min rk t u t' H H' E) as (W & S & S' & _).
  rewrite (holds_in rk t' p), (holds_in rk t p), (holds_in rk u p); auto. split; auto. intros []; auto.
Qed.
Lemma boxes_holds : forall rk l t, 1 <= rk -> Forall (box_of rk) l ->
  is_setFromRanges isMin isMax l = Ok t ->
  forall p, length p = rk -> (holds t p <-> in_boxes p l).
Proof.
  intros rk l t H1 F E p Hp.
  destruct (build_ok rk isMin isMax isMin_pos isMax_min l t F E) as (W & S & _).
  rewrite (holds_in rk t p); auto.
Qed.
Lemma points_holds : forall rk l t, 1 <= rk -> Forall (fun p => length p = rk) l ->
  is_of_points isMin isMax l = Ok t ->
  forall p, length p = rk -> (holds t p <-> In p l).
Proof.
  intros rk l t H1 F E p Hp.
  assert (B : Forall (box_of rk) (map mdrange_of_point l)).
  { apply Forall_map. eapply Forall_impl; [|exact F]. intros q Hq. apply point_box; auto. }
  rewrite (boxes_holds rk _ t H1 B E p Hp). unfold in_boxes. split.
  - intros (b & Hb & Hin). apply in_map_iff in Hb. destruct Hb as (q & <- & Hq).
    apply in_box_of_point in Hin. subst; auto.
  - intros Hin. exists (mdrange_of_point p). split; [apply in_map; auto|]. apply in_box_of_point; auto.
Qed.

Lemma contains_box_holds : forall c rk t b, built c rk t -> box_of rk b ->
  exists v, is_contains_box t b = Ok v /\ (v = true <-> forall p, in_box p b -> holds t p).
Proof.
  intros c rk t b H Hb. apply built_wset in H. pose proof (box_rank rk b Hb) as H1.
  destruct (contains_box_spec rk t b H Hb) as (v & E & S). exists v. split; auto.
  rewrite S. split; intros A p Hp.
  - apply (holds_in rk); auto. rewrite (in_box_length _ _ Hp). apply Hb.
  - apply (holds_in rk t p); auto. rewrite (in_box_length _ _ Hp). apply Hb.
Qed.
Lemma overlaps_box_holds : forall c rk t b, built c rk t -> box_of rk b ->
  exists v, is_overlaps_box t b = Ok v /\ (v = true <-> exists p, in_box p b /\ holds t p).
Proof.
  intros c rk t b H Hb. apply built_wset in H. pose proof (box_rank rk b Hb) as H1.
  destruct (overlaps_points isMin isMax isMin_pos isMax_min rk 1 (fun _ => True)
              (le_n 1) isMin_pos t b H Hb) as (v & E & S).
  exists v. split; auto.
  rewrite S. split; intros (p & A & B); exists p; split; auto.
  - apply (holds_in rk); auto. rewrite (in_box_length _ _ A). apply Hb.
  - apply (holds_in rk t p); auto. rewrite (in_box_length _ _ A). apply Hb.
Qed.
Lemma overlaps_set_holds : forall c c' rk t u, 1 <= rk -> built c rk t -> built c' rk u ->
  exists v, is_overlaps_set t u = Ok v
    /\ (v = true <-> exists p, length p = rk /\ holds t p /\ holds u p).
Proof.
  intros c c' rk t u H1 H H'. apply built_wset in H, H'.
  destruct (overlaps_set_spec rk t u H H') as (v & E & S). exists v. split; auto.
  rewrite S. split.
  - intros (p & A & B). pose proof (member_length rk t p H A) as L. exists p. split; auto.
    rewrite (holds_in rk t p), (holds_in rk u p); auto.
  - intros (p & L & A & B). exists p. rewrite (holds_in rk t p) in A; auto.
    rewrite (holds_in rk u p) in B; auto.
Qed.
Lemma contains_set_holds : forall c rk t u, 1 <= rk -> built c rk t -> built true rk u ->
  exists N v, (forall fuel, N <= fuel -> is_contains_set fuel t u = Ok v)
    /\ (v = true <-> forall p, length p = rk -> holds u p -> holds t p).
Proof.
  intros c rk t u H1 H H'. pose proof (built_disj rk u H') as D. apply built_wset in H, H'.
  destruct (contains_set_spec rk t u H H' D) as (N & v & E & S). exists N, v. split; auto.
  rewrite S. split; intros A p.
  - intros L Hu. rewrite (holds_in rk u p) in Hu; auto. rewrite (holds_in rk t p); auto.
  - intros Hp. pose proof (member_length rk u p H' Hp) as L.
    rewrite <- (holds_in rk t p); auto. apply A; auto. rewrite (holds_in rk u p); auto.
Qed.
Lemma intersect_box_holds : forall c rk t b, built c rk t -> box_of rk b ->
  exists t', is_intersect_box isMin isMax t b = Ok t' /\ built c rk t'
    /\ forall p, length p = rk -> (holds t' p <-> holds t p /\ in_box p b).
Proof.
  intros c rk t b H Hb. pose proof (box_rank rk b Hb) as H1. pose proof (built_wset _ _ _ H) as W.
  destruct (intersect_box_total rk isMin isMax isMin_pos isMax_min isBounds_fit t b W Hb) as (r & E).
  destruct (intersect_box_ok rk isMin isMax isMin_pos isMax_min t b r W Hb E) as (W' & S & _).
  exists r. split; auto. split; [eapply built_intersect_box; eauto|]. intros p L.
  rewrite (holds_in rk r p), (holds_in rk t p); auto.
Qed.
Lemma intersect_set_holds : forall c c' rk t u, 1 <= rk -> built c rk t -> built c' rk u ->
  exists t', is_intersect_set isMin isMax t u = Ok t' /\ built (c && c') rk t'
    /\ forall p, length p = rk -> (holds t' p <-> holds t p /\ holds u p).
Proof.
  intros c c' rk t u H1 H H'. pose proof (built_wset _ _ _ H) as W. pose proof (built_wset _ _ _ H') as W'.
  destruct (intersect_set_total rk isMin isMax isMin_pos isMax_min isBounds_fit t u W W') as (r & E).
  destruct (intersect_set_ok rk isMin isMax isMin_pos isMax_min t u r W W' E) as (Wr & S & _).
  exists r. split; auto. split; [eapply built_intersect_set; eauto|]. intros p L.
  rewrite (holds_in rk r p), (holds_in rk t p), (holds_in rk u p); auto.
Qed.
Lemma complement_holds : forall c rk t b, built c rk t -> box_of rk b ->
  exists t', is_complement isMin isMax t b = Ok t' /\ built true rk t'
    /\ forall p, length p = rk -> (holds t' p <-> in_box p b /\ ~ holds t p).
Proof.
  intros c rk t b H Hb. pose proof (box_rank rk b Hb) as H1. pose proof (built_wset _ _ _ H) as W.
  destruct (complement_total rk isMin isMax isMin_pos isMax_min isBounds_fit t b W Hb) as (r & E).
  destruct (complement_ok rk isMin isMax isMin_pos isMax_min t b r W Hb E) as (W' & S & _).
  exists r. split; auto. split; [eapply built_complement; eauto|]. intros p L.
  rewrite (holds_in rk r p), (holds_in rk t p); auto.
Qed.
Lemma image_holds : forall rk rk' t t' g, 1 <= rk -> 1 <= rk' -> wset rk t -> wset rk' t' ->
  image t g t' -> forall q, length q = rk' ->
  (holds t' q <-> exists p, length p = rk /\ holds t p /\ q = g p).
Proof.
  intros rk rk' t t' g H1 H1' W W' I q L. rewrite (holds_in rk' t' q); auto. rewrite (I q).
  split.
  - intros (p & A & B). pose proof (member_length rk t p W A). exists p. split; auto. split; auto.
    rewrite (holds_in rk t p); auto.
  - intros (p & Lp & A & B). exists p. split; auto. rewrite (holds_in rk t p) in A; auto.
Qed.
Lemma ones_length : forall bits, ones bits <= length bits.
Proof. induction bits as [|[] bits IH]; cbn; lia. Qed.
Lemma slice_holds : forall c rk t bits, built c rk t -> is_empty t = false ->
  length bits = rk -> 1 <= ones bits ->
  exists t', is_slice isMin isMax t bits = Ok t' /\ built false (ones bits) t'
    /\ forall q, length q = ones bits ->
       (holds t' q <-> exists p, length p = rk /\ holds t p /\ q = select bits p).
Proof.
  intros c rk t bits H Hne L H1. pose proof (ones_length bits). pose proof (built_wset _ _ _ H) as W.
  destruct (slice_ok rk t W Hne bits L H1) as (t' & E & W' & I).
  exists t'. split; auto. split; [eapply built_slice; eauto|].
  apply (image_holds rk (ones bits) t t'); auto. lia.
Qed.
Lemma takeFirst_holds : forall c rk t n, built c rk t -> is_empty t = false -> 1 <= n <= rk ->
  exists t', is_takeFirst isMin isMax t n = Ok t' /\ built false n t'
    /\ forall q, length q = n ->
       (holds t' q <-> exists p, length p = rk /\ holds t p /\ q = firstn n p).
Proof.
  intros c rk t n H Hne Hn. pose proof (built_wset _ _ _ H) as W.
  destruct (takeFirst_ok rk t W Hne n Hn) as (t' & E & W' & I).
  exists t'. split; auto. split; [eapply built_takeFirst; eauto|].
  apply (image_holds rk n t t'); auto; lia.
Qed.
Lemma takeLast_holds : forall c rk t n, built c rk t -> is_empty t = false -> 1 <= n <= rk ->
  exists t', is_takeLast isMin isMax t n = Ok t' /\ built false n t'
    /\ forall q, length q = n ->
       (holds t' q <-> exists p, length p = rk /\ holds t p /\ q = skipn (rk - n) p).
Proof.
  intros c rk t n H Hne Hn. pose proof (built_wset _ _ _ H) as W.
  destruct (takeLast_ok rk t W Hne n Hn) as (t' & E & W' & I).
  exists t'. split; auto. split; [eapply built_takeLast; eauto|].
  apply (image_holds rk n t t'); auto; lia.
Qed.
Lemma dropFirst_holds : forall c rk t n, built c rk t -> is_empty t = false -> n < rk ->
  exists t', is_dropFirst isMin isMax t n = Ok t' /\ built false (rk - n) t'
    /\ forall q, length q = rk - n ->
       (holds t' q <-> exists p, length p = rk /\ holds t p /\ q = skipn n p).
Proof.
  intros c rk t n H Hne Hn. pose proof (built_wset _ _ _ H) as W.
  destruct (dropFirst_ok rk t W Hne n Hn) as (t' & E & W' & I).
  exists t'. split; auto. split; [eapply built_dropFirst; eauto|].
  apply (image_holds rk (rk - n) t t'); auto; lia.
Qed.
Lemma dropLast_holds : forall c rk t n, built c rk t -> is_empty t = false -> n < rk ->
  exists t', is_dropLast isMin isMax t n = Ok t' /\ built false (rk - n) t'
    /\ forall q, length q = rk - n ->
       (holds t' q <-> exists p, length p = rk /\ holds t p /\ q = firstn (rk - n) p).
Proof.
  intros c rk t n H Hne Hn. pose proof (built_wset _ _ _ H) as W.
  destruct (dropLast_ok rk t W Hne n Hn) as (t' & E & W' & I).
  exists t'. split; auto. split; [eapply built_dropLast; eauto|].
  apply (image_holds rk (rk - n) t t'); auto; lia.
Qed.
Lemma append_holds : forall c c' rk rk' t u, 1 <= rk -> 1 <= rk' -> built c rk t -> built c' rk' u ->
  is_empty t = false ->
  exists t', is_append isMin isMax t u = Ok t' /\ built (c && c') (rk + rk') t'
    /\ forall p p', length p = rk -> length p' = rk' ->
       (holds t' (p ++ p') <-> holds t p /\ holds u p').
Proof.
  intros c c' rk rk' t u H1 H1' H H' Hne.
  pose proof (built_wset _ _ _ H) as W. pose proof (built_wset _ _ _ H') as W'.
  destruct (append_ok isMin isMax isMin_pos isMax_min isBounds_fit rk rk' t u W W'
              (nonempty_root t Hne)) as (v & E & Wv & S & _).
  exists v. split; auto. split; [eapply built_append; eauto|]. intros p p' L L'.
  rewrite (holds_in (rk + rk') v); auto; [|lia|rewrite app_length; lia].
  rewrite S, (holds_in rk t p), (holds_in rk' u p'); auto. split.
  - intros (a & b & Ha & Hb & Heq). pose proof (member_length rk t a W Ha).
    assert (p = a) as ->.
    { apply (f_equal (firstn rk)) in Heq. rewrite !firstn_app in Heq.
      rewrite L, H0, Nat.sub_diag in Heq. cbn [firstn] in Heq. rewrite !app_nil_r in Heq.
      rewrite !firstn_all2 in Heq by lia. auto. }
    apply app_inv_head in Heq. subst; auto.
  - intros [A B]. exists p, p'. auto.
Qed.
Lemma prepend_holds : forall c c' rk rk' t u, 1 <= rk -> 1 <= rk' -> built c rk t -> built c' rk' u ->
  is_empty t = false ->
  exists t', is_prepend isMin isMax t u = Ok t' /\ built (c && c') (rk' + rk) t'
    /\ forall p p', length p = rk -> length p' = rk' ->
       (holds t' (p' ++ p) <-> holds t p /\ holds u p').
Proof.
  intros c c' rk rk' t u H1 H1' H H' Hne.
  pose proof (built_wset _ _ _ H) as W. pose proof (built_wset _ _ _ H') as W'.
  destruct (prepend_ok isMin isMax isMin_pos isMax_min isBounds_fit rk rk' t u W W'
              (nonempty_root t Hne)) as (v & E & Wv & S & _).
  exists v. split; auto. split; [eapply built_prepend; eauto|]. intros p p' L L'.
  rewrite (holds_in (rk' + rk) v); auto; [|lia|rewrite app_length; lia].
  rewrite S, (holds_in rk t p), (holds_in rk' u p'); auto. split.
  - intros (a & b & Ha & Hb & Heq). pose proof (member_length rk' u b W' Hb).
    assert (p' = b) as ->.
    { apply (f_equal (firstn rk')) in Heq. rewrite !firstn_app in Heq.
      rewrite L', H0, Nat.sub_diag in Heq. cbn [firstn] in Heq. rewrite !app_nil_r in Heq.
      rewrite !firstn_all2 in Heq by lia. auto. }
    apply app_inv_head in Heq. subst; auto.
  - intros [A B]. exists p, p'. auto.
Qed.

Lemma iterate_holds : forall c rk t, 1 <= rk -> built c rk t ->
  exists l, (forall fuel, Z.to_nat (is_size t) <= fuel -> is_iterate fuel t = Ok l)
    /\ (forall p, In p l <-> length p = rk /\ holds t p)
    /\ (c = true -> NoDup l /\ is_size t = Z.of_nat (length l)).
Proof.
  intros c rk t H1 H. pose proof (built_wset _ _ _ H) as W. pose proof (wset_boxes rk t W) as B.
  exists (flat_map pts (is_ranges t)). split; [|split].
  - intros fuel Hf. eapply iterate_spec; eauto.
  - intros p. rewrite (allpts_in rk); auto. split.
    + intros A. pose proof (member_length rk t p W A). split; auto. apply (holds_in rk); auto.
    + intros [L A]. apply (holds_in rk t p) in A; auto.
  - intros ->. apply built_disj in H. split. eapply allpts_nodup; eauto.
    rewrite is_size_sum. symmetry. eapply allpts_size; eauto.
Qed.
Lemma compact_holds : forall c rk t, 1 <= rk -> built c rk t ->
  exists l, is_getCompactRanges t = Ok l /\ Forall (box_of rk) l
    /\ (forall p, length p = rk -> (holds t p <-> in_boxes p l))
    /\ (c = true -> disj l).
Proof.
  intros c rk t H1 H. pose proof (built_wset _ _ _ H) as W. pose proof (wset_boxes rk t W) as B.
  destruct (compact_spec rk t W) as (l & E & S). exists l. split; auto.
  destruct (S B) as (S1 & S2 & S3). split; auto. split.
  - intros p L. rewrite (holds_in rk t p); auto.
  - intros ->. apply built_disj in H. auto.
Qed.

Lemma nonempty_holds : forall rk t, wset rk t -> 1 <= rk -> is_empty t = false ->
  exists p, length p = rk /\ holds t p.
Proof.
  intros rk t W H1 Hne. pose proof (wset_boxes rk t W) as B.
  destruct (is_ranges t) as [|b l] eqn:E.
  - exfalso. eapply rt_ok_qtree in W. unfold is_ranges, is_empty, qtree in *.
    destruct (rt_root mdrange t) as [r|] eqn:Er; [|discriminate].
    apply qok_nonempty in W. auto.
  - inversion B; subst. destruct (box_point rk b) as (p & Hp & L); auto.
    exists p. split; auto. apply (holds_in rk); auto. rewrite E. exists b. split; auto. left; auto.
Qed.
Lemma empty_holds : forall t p, is_empty t = true -> ~ holds t p.
Proof.
  intros t p H. unfold holds, is_contains_point, is_contains_box, is_empty in *.
  destruct (rt_root mdrange t); discriminate.
Qed.
Lemma eq_holds : forall c c' rk t u, 1 <= rk -> built c rk t -> built c' rk u ->
  is_empty t = false \/ is_empty u = false ->
  exists v, is_eq t u = Ok v
    /\ (v = true <-> forall p, length p = rk -> (holds t p <-> holds u p)).
Proof.
  intros c c' rk t u H1 H H' Hne. apply built_wset in H, H'.
  destruct (Nat.eq_dec (is_rank t) (is_rank u)) as [Er|Er].
  - destruct (eq_spec rk t u H H' Er) as (v & E & S). exists v. split; auto. rewrite S.
    split; intros A p.
    + intros L. rewrite (holds_in rk t p), (holds_in rk u p); auto.
    + split; intros B.
      * pose proof (member_length rk t p H B) as L. specialize (A p L).
        rewrite (holds_in rk t p), (holds_in rk u p) in A; auto. apply A; auto.
      * pose proof (member_length rk u p H' B) as L. specialize (A p L).
        rewrite (holds_in rk t p), (holds_in rk u p) in A; auto. apply A; auto.
  - exists false. split.
    + unfold is_eq. apply Nat.eqb_neq in Er. rewrite Er. reflexivity.
    + split; [discriminate|]. intros A. exfalso.
      destruct (is_empty t) eqn:Et, (is_empty u) eqn:Eu.
      * destruct Hne; discriminate.
      * destruct (nonempty_holds rk u H' H1 Eu) as (p & L & Hp). apply A in Hp; auto.
        eapply empty_holds; eauto.
      * destruct (nonempty_holds rk t H H1 Et) as (p & L & Hp). apply A in Hp; auto.
        eapply empty_holds; eauto.
      * destruct (nonempty_rank rk t H Et), (nonempty_rank rk u H' Eu). congruence.
Qed.

(** ** Histories *)
Lemma after_snoc : forall h e p,
  after (h ++ [e]) p <-> match e with
                         | Add b => after h p \/ in_box p b
                         | Remove b => after h p /\ ~ in_box p b
                         end.
Proof. intros h e p. unfold after. rewrite fold_left_app. destruct e; reflexivity. Qed.
Lemma fold_res_snoc : forall A B (f : B -> A -> res B) l x b,
  fold_res f (l ++ [x]) b = (b' <- fold_res f l b ;; f b' x).
Proof.
  intros A B f l x. induction l as [|y l IH]; intros b; cbn.
  - destruct (f b x); reflexivity.
  - destruct (f b y); cbn; auto.
Qed.
Lemma run_snoc : forall h e t, run t (h ++ [e]) = (t' <- run t h ;; apply_edit t' e).
Proof. intros. apply fold_res_snoc. Qed.

Lemma run_built : forall rk h t, Forall (fun e => box_of rk (edit_box e)) h ->
  run is_empty_set h = Ok t -> built true rk t.
Proof.
  intros rk h. induction h as [|e h IH] using rev_ind; intros t F E.
  - cbn in E. injection E as <-. constructor.
  - apply Forall_app in F. destruct F as [F1 F2]. inversion F2; subst.
    rewrite run_snoc in E. apply bind_ok in E. destruct E as (u & E1 & E2).
    specialize (IH u F1 E1). destruct e as [b|b]; cbn in *.
    + eapply built_insert; eauto.
    + eapply built_remove; eauto.
Qed.

Lemma additions_holds : forall rk l t, 1 <= rk -> Forall (box_of rk) l ->
  run is_empty_set (map Add l) = Ok t ->
  forall p, length p = rk -> (holds t p <-> in_boxes p l).
Proof.
  intros rk l. induction l as [|b l IH] using rev_ind; intros t H1 F E p L.
  - cbn in E. injection E as <-. split.
    + intros A. exfalso. revert A. apply empty_holds. reflexivity.
    + intros (b & [] & _).
  - apply Forall_app in F. destruct F as [F1 F2]. inversion F2; subst.
    rewrite map_app in E. cbn [map] in E. rewrite run_snoc in E. apply bind_ok in E.
    destruct E as (u & E1 & E2). cbn [apply_edit] in E2.
    assert (B : built true (length p) u).
    { eapply run_built; [|exact E1]. apply Forall_map. exact F1. }
    rewrite (insert_holds true (length p) u b t B H2 E2 p eq_refl), (IH u); auto.
    unfold in_boxes. split.
    + intros [(x & A & A')|A]; [exists x|exists b]; split; auto; apply in_or_app; cbn; auto.
    + intros (x & A & A'). apply in_app_or in A. destruct A as [A|[<-|[]]]; eauto.
Qed.

(** Whatever the result, nothing that should stay is lost and nothing foreign
    appears. *)
Lemma history_holds : forall rk h t, 1 <= rk -> Forall (fun e => box_of rk (edit_box e)) h ->
  run is_empty_set h = Ok t ->
  forall p, length p = rk ->
    (after h p -> holds t p) /\ (holds t p -> exists b, In (Add b) h /\ in_box p b).
Proof.
  intros rk h. induction h as [|e h IH] using rev_ind; intros t H1 F E p L.
  - cbn in E. injection E as <-. split; [intros []|].
    intros A. exfalso. revert A. apply empty_holds. reflexivity.
  - apply Forall_app in F. destruct F as [F1 F2]. inversion F2; subst.
    rewrite run_snoc in E. apply bind_ok in E. destruct E as (u & E1 & E2).
    assert (B : built true (length p) u) by (exact (run_built _ h u F1 E1)).
    destruct (IH u H1 F1 E1 p eq_refl) as [I1 I2]. rewrite after_snoc.
    assert (K : (exists b, In (Add b) h /\ in_box p b) ->
                exists b, In (Add b) (h ++ [e]) /\ in_box p b).
    { intros (b & X & Y). exists b. split; auto. apply in_or_app; auto. }
    destruct e as [b|b]; cbn [apply_edit edit_box] in *.
    + rewrite (insert_holds true (length p) u b t B H2 E2 p eq_refl). split.
      * intros [A|A]; auto.
      * intros [A|A]; auto. exists b. split; auto. apply in_or_app; cbn; auto.
    + destruct (remove_holds true (length p) u b t B H2 E2 p eq_refl) as [R1 R2]. split; auto.
      intros [A A']; auto.
Qed.

Lemma small_history : forall rk L h, 1 <= rk -> length L <= isMax ->
  Forall (fun e => box_of rk (edit_box e)) h ->
  (forall b p, In (Add b) h -> in_box p b -> In p L) ->
  exists t, run is_empty_set h = Ok t /\ small t /\ covered L (is_ranges t)
    /\ forall p, length p = rk -> (in_boxes p (is_ranges t) <-> after h p).
Proof.
  intros rk L h H1 HL. induction h as [|e h IH] using rev_ind; intros F C.
  - exists is_empty_set. split; auto. split; [cbn; auto|]. split.
    + split; [constructor|]. intros p (b & [] & _).
    + intros p _. split; [intros (b & [] & _)|intros []].
  - apply Forall_app in F. destruct F as [F1 F2]. inversion F2; subst.
    destruct (IH F1) as (u & E & Su & Cu & Hu).
    { intros b p A. apply C. apply in_or_app; auto. }
    pose proof (run_built rk h u F1 E) as B. pose proof (built_wset _ _ _ B) as W.
    rewrite run_snoc, E. cbn [bind]. destruct e as [b|b]; cbn [apply_edit edit_box] in *.
    + assert (Cb : forall p, in_box p b -> In p L).
      { intros p. apply C. apply in_or_app; cbn; auto. }
      destruct (insert_small isMin isMax isMin_pos isMax_min rk L u b W Su Cu H2 Cb HL)
        as (t & Et & St).
      destruct (insert_wset rk u b t W H2 Et) as (Wt & S & D).
      exists t. split; auto. split; auto. split.
      * split. apply D; apply Cu. intros p Hp. apply S in Hp. destruct Hp; auto. apply Cu; auto.
      * intros p Lp. rewrite S, after_snoc, Hu; auto. reflexivity.
    + destruct (remove_small isMin isMax isMin_pos isMax_min rk L u b W Su Cu H2 HL)
        as (t & Et & St & S).
      destruct (remove_ok isMin isMax isMin_pos isMax_min rk u b t W H2 Et) as (Wt & _ & _ & D).
      exists t. split; auto. split; auto. split.
      * split. apply D; apply Cu. intros p Hp. apply S in Hp. apply Cu. apply Hp.
      * intros p Lp. rewrite S, after_snoc, Hu; auto. reflexivity.
Qed.
Lemma small_history_holds : forall rk L h, 1 <= rk -> length L <= isMax ->
  Forall (fun e => box_of rk (edit_box e)) h ->
  (forall b p, In (Add b) h -> in_box p b -> In p L) ->
  exists t, run is_empty_set h = Ok t /\ forall p, length p = rk -> (holds t p <-> after h p).
Proof.
  intros rk L h H1 HL F C. destruct (small_history rk L h H1 HL F C) as (t & E & _ & _ & S).
  exists t. split; auto. intros p Lp.
  rewrite (holds_in rk t p); auto. eapply built_wset. eapply run_built; eauto.
Qed.

Lemma hash_holds : forall H rk t u, 1 <= rk -> built true rk t -> built true rk u ->
  (forall p, length p = rk -> (holds t p <-> holds u p)) -> is_hash H t = is_hash H u.
Proof.
  intros Hh rk t u H1 Bt Bu Heq.
  destruct (iterate_holds true rk t H1 Bt) as (lt & _ & It & Nt).
  destruct (iterate_holds true rk u H1 Bu) as (lu & _ & Iu & Nu).
  destruct (Nt eq_refl) as [Nt1 Nt2], (Nu eq_refl) as [Nu1 Nu2].
  assert (P : Permutation lt lu).
  { apply NoDup_Permutation; auto. intros p. rewrite It, Iu. split; intros [L A]; split; auto; apply Heq; auto. }
  assert (Es : is_size t = is_size u) by (rewrite Nt2, Nu2, (Permutation_length P); reflexivity).
  unfold is_hash. rewrite Es.
  destruct (is_empty t) eqn:Et, (is_empty u) eqn:Eu; auto; exfalso.
  - destruct (nonempty_holds rk u (built_wset _ _ _ Bu) H1 Eu) as (p & L & A).
    apply Heq in A; auto. eapply empty_holds; eauto.
  - destruct (nonempty_holds rk t (built_wset _ _ _ Bt) H1 Et) as (p & L & A).
    apply Heq in A; auto. eapply empty_holds; eauto.
Qed.

Lemma of_boxes : forall rk l, 1 <= rk -> Forall (box_of rk) l ->
  exists t, is_setFromRanges isMin isMax l = Ok t /\
    Forall (box_of rk) (is_ranges t) /\
    (forall p, length p = rk -> (holds t p <-> in_boxes p l)) /\
    (disj l -> disj (is_ranges t)).
Proof.
  intros rk l H1 F. destruct (setFromRanges_total isMin isMax isMin_pos isMax_min l isBounds_fit) as (t & E).
  exists t. destruct (build_ok rk isMin isMax isMin_pos isMax_min l t F E) as (W & S & D).
  split; auto. split; [apply wset_boxes; auto|]. split; auto.
  intros p L. apply (boxes_holds rk l t H1 F E p L).
Qed.
Lemma of_points : forall rk l, 1 <= rk -> Forall (fun p => length p = rk) l ->
  exists t, is_of_points isMin isMax l = Ok t /\
    Forall (box_of rk) (is_ranges t) /\
    (forall p, length p = rk -> (holds t p <-> In p l)) /\
    disj (is_ranges t).
Proof.
  intros rk l H1 F.
  destruct (setFromRanges_total isMin isMax isMin_pos isMax_min (map mdrange_of_point l) isBounds_fit)
    as (t & E).
  exists t. assert (B : built true rk t) by (eapply built_points; eauto).
  split; auto. split; [apply wset_boxes; eapply built_wset; eauto|]. split.
  - apply (points_holds rk l t H1 F E).
  - eapply built_disj; eauto.
Qed.
Lemma contains_point_ranges : forall c rk t p, 1 <= rk -> built c rk t -> length p = rk ->
  exists v, is_contains_point t p = Ok v /\ (v = true <-> in_boxes p (is_ranges t)).
Proof. intros. eapply contains_point_spec; eauto. eapply built_wset; eauto. Qed.

Lemma empty_projections : forall t u bits n, is_empty t = true ->
  is_slice isMin isMax t bits = Ok t /\
  (n <= is_rank t -> is_takeFirst isMin isMax t n = Ok t /\ is_takeLast isMin isMax t n = Ok t) /\
  (n < is_rank t -> is_dropFirst isMin isMax t n = Ok t /\ is_dropLast isMin isMax t n = Ok t) /\
  is_append isMin isMax t u = Ok t /\ is_prepend isMin isMax t u = Ok t.
Proof.
  intros t u bits n H.
  unfold is_slice, is_takeFirst, is_takeLast, is_dropFirst, is_dropLast, is_append, is_prepend,
    is_map_ranges, is_empty in *.
  destruct (rt_root mdrange t); [discriminate|]. split; auto. split; [|split; auto].
  - intros L. apply Nat.leb_le in L. rewrite L, orb_true_r. auto.
  - intros L. apply Nat.ltb_lt in L. rewrite L, orb_true_r. auto.
Qed.

Lemma disj_nth : forall l i j d, i < j < length l -> disj l ->
  disjoint_boxes (nth i l d) (nth j l d).
Proof.
  induction l as [|x l IH]; intros i j d H D; cbn in H; [lia|].
  inversion D as [|y l' F D']; subst. destruct j as [|j]; [lia|]. destruct i as [|i]; cbn [nth].
  - rewrite Forall_forall in F. apply F. apply nth_In. lia.
  - apply IH; auto. lia.
Qed.
