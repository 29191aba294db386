(** Index sets: projections and products. *)
From Coq Require Import ZArith List Bool Lia ZifyBool Permutation Sorted.
From Verif Require Import RangeModel MDRangeModel Spec RangeProofs MDRangeProofs
  Result RTreeModel IndexSetModel RTreeSplitProofs RTreeQueryProofs RTreeProofs BoxListProofs
  ListTac IndexSetSpec IndexSetProofs IndexSetQueryProofs IndexSetBuildProofs IndexSetOpsProofs.
Import ListNotations.
Local Open Scope nat_scope.

Local Notation objs := (objs mdrange).

Lemma Forall2_firstn : forall A B (R : A -> B -> Prop) n l l', Forall2 R l l' ->
  Forall2 R (firstn n l) (firstn n l').
Proof. intros A B R n l l' H. revert n. induction H; intros [|n]; cbn; auto. Qed.
Lemma Forall2_skipn : forall A B (R : A -> B -> Prop) n l l', Forall2 R l l' ->
  Forall2 R (skipn n l) (skipn n l').
Proof. intros A B R n l l' H. revert n. induction H; intros [|n]; cbn; auto. Qed.

Lemma in_box_app : forall p q a b, in_box p a -> in_box q b -> in_box (p ++ q) (a ++ b).
Proof. intros. apply Forall2_app; auto. Qed.
Lemma in_box_app_inv : forall r a b, in_box r (a ++ b) ->
  in_box (firstn (length a) r) a /\ in_box (skipn (length a) r) b.
Proof.
  intros r a b H. apply Forall2_app_inv_r in H as (p & q & H1 & H2 & ->).
  rewrite <- (in_box_length p a H1). rewrite firstn_app, Nat.sub_diag, firstn_all, skipn_app,
    Nat.sub_diag, skipn_all. cbn. rewrite app_nil_r. auto.
Qed.

(** The projection of a box is a box, and its points are the projections. *)
Lemma firstn_box : forall rk n b, box_of rk b -> 1 <= n <= rk ->
  box_of n (firstn n b)
  /\ forall q, in_box q (firstn n b) <-> exists p, in_box p b /\ q = firstn n p.
Proof.
  intros rk n b Hb Hn. pose proof (box_of_ranges _ _ Hb) as Hr. destruct Hb as [[Hne _] Hl]. split.
  - split; [split|].
    + destruct b; cbn in *; [lia|]. destruct n; [lia|]. discriminate.
    + apply Forall_forall. intros x Hx. rewrite Forall_forall in Hr. apply Hr.
      rewrite <- (firstn_skipn n b). apply in_or_app; auto.
    + rewrite firstn_length. lia.
  - intros q. split.
    + intros Hq. exists (q ++ begins (skipn n b)).
      assert (Hlq : length q = n).
      { rewrite (in_box_length _ _ Hq), firstn_length. lia. }
      split.
      * rewrite <- (firstn_skipn n b) at 2. apply in_box_app; auto. apply box_inhabited.
        apply Forall_forall. intros x Hx. rewrite Forall_forall in Hr. apply Hr.
        rewrite <- (firstn_skipn n b). apply in_or_app; auto.
      * rewrite firstn_app, <- Hlq, firstn_all, Nat.sub_diag. cbn. rewrite app_nil_r; auto.
    + intros (p & Hp & ->). apply Forall2_firstn; auto.
Qed.

Lemma skipn_box : forall rk n b, box_of rk b -> n < rk ->
  box_of (rk - n) (skipn n b)
  /\ forall q, in_box q (skipn n b) <-> exists p, in_box p b /\ q = skipn n p.
Proof.
  intros rk n b Hb Hn. pose proof (box_of_ranges _ _ Hb) as Hr. destruct Hb as [[Hne _] Hl]. split.
  - split; [split|].
    + intros E. apply (f_equal (@length _)) in E. rewrite skipn_length in E. cbn in E. lia.
    + apply Forall_forall. intros x Hx. rewrite Forall_forall in Hr. apply Hr.
      rewrite <- (firstn_skipn n b). apply in_or_app; auto.
    + rewrite skipn_length. lia.
  - intros q. split.
    + intros Hq. exists (begins (firstn n b) ++ q). split.
      * rewrite <- (firstn_skipn n b) at 2. apply in_box_app; auto. apply box_inhabited.
        apply Forall_forall. intros x Hx. rewrite Forall_forall in Hr. apply Hr.
        rewrite <- (firstn_skipn n b). apply in_or_app; auto.
      * assert (Hlb : length (begins (firstn n b)) = n).
        { unfold begins. rewrite map_length, firstn_length. lia. }
        rewrite skipn_app, Hlb, Nat.sub_diag. rewrite <- Hlb at 1. rewrite skipn_all. reflexivity.
    + intros (p & Hp & ->). apply Forall2_skipn; auto.
Qed.


Lemma slice_box_gen : forall bits b, Forall range_ok b -> length bits = length b ->
  Forall range_ok (mdrange_slice b bits) /\ length (mdrange_slice b bits) = ones bits
  /\ forall q, in_box q (mdrange_slice b bits) <-> exists p, in_box p b /\ q = select bits p.
Proof.
  induction bits as [|s bits IH]; intros [|r b] Hr Hl; cbn in Hl; try lia.
  - cbn. split; auto. split; auto. intros q. split.
    + intros H. exists []. split; [constructor|]. inversion H; auto.
    + intros (p & Hp & ->). constructor.
  - injection Hl as Hl. inversion Hr as [|? ? Hx Hb]; subst. destruct (IH b Hb Hl) as (A & B & C).
    destruct s; cbn [mdrange_slice ones].
    + split; [constructor; auto|]. split; [cbn; lia|]. intros q. split.
      * intros H. destruct q as [|v q]; [inversion H|]. apply in_box_cons in H as [H1 H2].
        apply C in H2 as (p & Hp & ->). exists (v :: p). split; [apply in_box_cons; auto|reflexivity].
      * intros (p & Hp & ->). destruct p as [|v p]; [inversion Hp|]. apply in_box_cons in Hp as [H1 H2].
        cbn. apply in_box_cons. split; auto. apply C. eauto.
    + split; auto. split; auto. intros q. split.
      * intros H. apply C in H as (p & Hp & ->). exists (rbegin r :: p). split; [|reflexivity].
        apply in_box_cons. split; auto. unfold in_range, range_ok in *. lia.
      * intros (p & Hp & ->). destruct p as [|v p]; [inversion Hp|]. apply in_box_cons in Hp as [H1 H2].
        cbn. apply C. eauto.
Qed.

Lemma slice_box : forall rk bits b, box_of rk b -> length bits = rk -> 1 <= ones bits ->
  box_of (ones bits) (mdrange_slice b bits)
  /\ forall q, in_box q (mdrange_slice b bits) <-> exists p, in_box p b /\ q = select bits p.
Proof.
  intros rk bits b Hb Hl H1. destruct (slice_box_gen bits b) as (A & B & C).
  - eapply box_of_ranges; eauto.
  - destruct Hb; congruence.
  - split; auto. split; auto. split; auto. intros E. rewrite E in B. cbn in B. lia.
Qed.

Section Proj.
Variable minE maxE : nat.
Hypothesis minE_pos : 1 <= minE.
Hypothesis maxE_min : 2 * minE <= maxE.
Hypothesis bounds_fit : minE * minE <= maxE + minE.

(** Applying a map of boxes that describes a map of points. *)
Lemma map_ranges_ok : forall rk rk' (f : mdrange -> mdrange) (g : point -> point) t,
  wset rk t -> rt_root mdrange t <> None ->
  (forall b, box_of rk b -> box_of rk' (f b)
     /\ forall q, in_box q (f b) <-> exists p, in_box p b /\ q = g p) ->
  exists t', is_map_ranges minE maxE f t = Ok t' /\ wset rk' t'
    /\ forall q, in_boxes q (is_ranges t') <-> exists p, in_boxes p (is_ranges t) /\ q = g p.
Proof.
  intros rk rk' f g t Ht Hne Hf. unfold is_map_ranges.
  pose proof (wset_boxes rk t Ht) as Hb. unfold is_ranges in *.
  destruct (rt_root mdrange t) as [r|] eqn:Er; [|congruence].
  destruct (setFromRanges_total minE maxE minE_pos maxE_min (map f (objs r)) bounds_fit) as [t' E].
  exists t'. split; auto. rewrite Forall_forall in Hb.
  apply (setFromRanges_ok minE maxE minE_pos maxE_min rk') in E as (A & B & _).
  - split; auto. intros q. unfold is_ranges in B. rewrite B, in_boxes_map. split.
    + intros (x & Hx & Hq). apply Hf in Hq as (p & Hp & ->); auto. exists p. split; auto. exists x; auto.
    + intros (p & (x & Hx & Hp) & ->). exists x. split; auto. apply Hf; auto. eauto.
  - apply Forall_forall. intros y Hy. apply in_map_iff in Hy as (x & <- & Hx). apply Hf; auto.
Qed.

Lemma FOP_cross : forall (R : mdrange -> mdrange -> Prop) (f : mdrange -> mdrange -> mdrange) la lb,
  ForallOrdPairs R la -> ForallOrdPairs R lb ->
  (forall a b b', In a la -> In b lb -> In b' lb -> R b b' -> R (f a b) (f a b')) ->
  (forall a a' b b', In a la -> In a' la -> In b lb -> In b' lb -> R a a' -> R (f a b) (f a' b')) ->
  ForallOrdPairs R (flat_map (fun a => map (f a) lb) la).
Proof.
  intros R f la lb Ha Hb H1 H2. induction Ha as [|a la Hx Ha IH]; cbn; [constructor|].
  apply ForallOrdPairs_app.
  - assert (G : forall l, (forall b, In b l -> In b lb) -> ForallOrdPairs R l -> ForallOrdPairs R (map (f a) l)).
    { intros l Hl HF. induction HF as [|b l Hbl HF IHl]; cbn; constructor.
      - apply Forall_forall. intros y Hy. apply in_map_iff in Hy as (b' & <- & Hb').
        rewrite Forall_forall in Hbl. apply H1; auto; try apply Hl; cbn; auto.
      - apply IHl. intros; apply Hl; cbn; auto. }
    apply G; auto.
  - apply IH; intros; [apply H1|apply H2]; cbn; auto.
  - intros x y Hxx Hy. apply in_map_iff in Hxx as (b & <- & Hb').
    apply in_flat_map in Hy as (a' & Ha' & Hy). apply in_map_iff in Hy as (b' & <- & Hb'').
    rewrite Forall_forall in Hx. apply H2; cbn; auto.
Qed.

Lemma disjoint_app_l : forall a a' b b', length a = length a' ->
  disjoint_boxes a a' -> disjoint_boxes (a ++ b) (a' ++ b').
Proof.
  intros a a' b b' HL H p [P1 P2]. apply in_box_app_inv in P1 as [A _]. apply in_box_app_inv in P2 as [B _].
  rewrite <- HL in B. apply (H _ (conj A B)).
Qed.
Lemma disjoint_app_r : forall a a' b b', length a = length a' ->
  disjoint_boxes b b' -> disjoint_boxes (a ++ b) (a' ++ b').
Proof.
  intros a a' b b' HL H p [P1 P2]. apply in_box_app_inv in P1 as [_ A]. apply in_box_app_inv in P2 as [_ B].
  rewrite <- HL in B. apply (H _ (conj A B)).
Qed.

Lemma box_app : forall r1 r2 a b, box_of r1 a -> box_of r2 b -> box_of (r1 + r2) (a ++ b).
Proof.
  intros r1 r2 a b [[A1 A2] A3] [[B1 B2] B3]. split; [split|].
  - destruct a; [congruence|discriminate].
  - apply Forall_app; auto.
  - rewrite app_length. lia.
Qed.

Lemma append_ok : forall r1 r2 t u, wset r1 t -> wset r2 u -> rt_root mdrange t <> None ->
  exists v, is_append minE maxE t u = Ok v /\ wset (r1 + r2) v
    /\ (forall q, in_boxes q (is_ranges v) <->
          exists p p', in_boxes p (is_ranges t) /\ in_boxes p' (is_ranges u) /\ q = p ++ p')
    /\ (disj (is_ranges t) -> disj (is_ranges u) -> disj (is_ranges v)).
Proof.
  intros r1 r2 t u Ht Hu Hne. unfold is_append.
  pose proof (wset_boxes r1 t Ht) as Hb. pose proof (wset_boxes r2 u Hu) as Hbu.
  unfold is_ranges at 1 in Hb. unfold is_ranges at 4.
  assert (Et : forall r, rt_root mdrange t = Some r -> is_ranges t = objs r).
  { intros r E. unfold is_ranges. rewrite E. auto. }
  destruct (rt_root mdrange t) as [r|] eqn:Er; [|congruence]. rewrite (Et r eq_refl).
  destruct (setFromRanges_total minE maxE minE_pos maxE_min
     (flat_map (fun b => map (fun o => mdrange_append b o) (is_ranges u)) (objs r)) bounds_fit) as [v E].
  exists v. split; auto. rewrite Forall_forall in Hb, Hbu.
  apply build_ok with (rk := r1 + r2) in E as (A & B & C); auto.
  - split; auto. split.
    + intros q. unfold is_ranges in B at 1. rewrite B, in_boxes_flat_map. split.
      * intros (x & Hx & Hq). rewrite in_boxes_map in Hq. destruct Hq as (y & Hy & Hq).
        unfold mdrange_append, mdrange_prepend in Hq.
        apply in_box_app_inv in Hq as [Q1 Q2]. exists (firstn (length x) q), (skipn (length x) q).
        split; [exists x; auto|]. split; [exists y; auto|]. rewrite firstn_skipn; auto.
      * intros (p & p' & (x & Hx & Hp) & (y & Hy & Hp') & ->). exists x. split; auto.
        apply in_boxes_map. exists y. split; auto. apply in_box_app; auto.
    + intros D1 D2. apply C. apply FOP_cross; auto.
      * intros a b b' Ha Hb1 Hb2 D. apply disjoint_app_r; auto.
      * intros a a' b b' Ha Ha' Hb1 Hb2 D. apply disjoint_app_l; auto.
        destruct (Hb a Ha), (Hb a' Ha'). congruence.
  - apply Forall_forall. intros y Hy. apply in_flat_map in Hy as (x & Hx & Hy).
    apply in_map_iff in Hy as (z & <- & Hz). apply box_app; auto.
Qed.

Lemma prepend_ok : forall r1 r2 t u, wset r1 t -> wset r2 u -> rt_root mdrange t <> None ->
  exists v, is_prepend minE maxE t u = Ok v /\ wset (r2 + r1) v
    /\ (forall q, in_boxes q (is_ranges v) <->
          exists p p', in_boxes p (is_ranges t) /\ in_boxes p' (is_ranges u) /\ q = p' ++ p)
    /\ (disj (is_ranges t) -> disj (is_ranges u) -> disj (is_ranges v)).
Proof.
  intros r1 r2 t u Ht Hu Hne. unfold is_prepend.
  pose proof (wset_boxes r1 t Ht) as Hb. pose proof (wset_boxes r2 u Hu) as Hbu.
  unfold is_ranges at 1 in Hb. unfold is_ranges at 4.
  assert (Et : forall r, rt_root mdrange t = Some r -> is_ranges t = objs r).
  { intros r E. unfold is_ranges. rewrite E. auto. }
  destruct (rt_root mdrange t) as [r|] eqn:Er; [|congruence]. rewrite (Et r eq_refl).
  destruct (setFromRanges_total minE maxE minE_pos maxE_min
     (flat_map (fun b => map (fun o => mdrange_prepend b o) (is_ranges u)) (objs r)) bounds_fit) as [v E].
  exists v. split; auto. rewrite Forall_forall in Hb, Hbu.
  apply build_ok with (rk := r2 + r1) in E as (A & B & C); auto.
  - split; auto. split.
    + intros q. unfold is_ranges in B at 1. rewrite B, in_boxes_flat_map. split.
      * intros (x & Hx & Hq). rewrite in_boxes_map in Hq. destruct Hq as (y & Hy & Hq).
        unfold mdrange_append, mdrange_prepend in Hq.
        apply in_box_app_inv in Hq as [Q1 Q2]. exists (skipn (length y) q), (firstn (length y) q).
        split; [exists x; auto|]. split; [exists y; auto|]. rewrite firstn_skipn; auto.
      * intros (p & p' & (x & Hx & Hp) & (y & Hy & Hp') & ->). exists x. split; auto.
        apply in_boxes_map. exists y. split; auto. apply in_box_app; auto.
    + intros D1 D2. apply C. apply FOP_cross; auto.
      * intros a b b' Ha Hb1 Hb2 D. apply disjoint_app_l; auto.
        destruct (Hbu b Hb1), (Hbu b' Hb2). congruence.
      * intros a a' b b' Ha Ha' Hb1 Hb2 D. apply disjoint_app_r; auto.
        destruct (Hbu b Hb1), (Hbu b' Hb2). congruence.
  - apply Forall_forall. intros y Hy. apply in_flat_map in Hy as (x & Hx & Hy).
    apply in_map_iff in Hy as (z & <- & Hz). apply box_app; auto.
Qed.
End Proj.
