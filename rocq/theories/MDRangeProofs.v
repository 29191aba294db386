(** Lemmas on boxes. *)
From Coq Require Import ZArith List Bool Lia ZifyBool Sorting.Sorted.
From Verif Require Import RangeModel MDRangeModel Spec RangeProofs.
Import ListNotations.
Open Scope Z_scope.

Lemma in_box_length : forall p b, in_box p b -> length p = length b.
Proof. intros p b H; unfold in_box in H; induction H; cbn; auto. Qed.

Lemma in_box_cons : forall v p r b,
  in_box (v :: p) (r :: b) <-> in_range v r /\ in_box p b.
Proof.
  intros; unfold in_box; split; intros H.
  - inversion H; auto.
  - destruct H; constructor; auto.
Qed.

Lemma in_box_nil : forall p, in_box p [] <-> p = [].
Proof. intros p; unfold in_box; split; intros H; [inversion H; auto|subst; constructor]. Qed.

Lemma in_box_app : forall p q a b, length p = length a ->
  (in_box (p ++ q) (a ++ b) <-> in_box p a /\ in_box q b).
Proof.
  induction p as [|v p IH]; intros q [|r a] b HL; cbn in HL; try lia.
  - cbn. rewrite in_box_nil. tauto.
  - cbn [app]. rewrite !in_box_cons, IH by lia. tauto.
Qed.

Lemma box_inhabited : forall b, Forall range_ok b ->
  in_box (map rbegin b) b.
Proof.
  induction b as [|r b IH]; intros H; cbn.
  - apply in_box_nil; auto.
  - inversion H; subst. apply in_box_cons; split; auto. unfold in_range, range_ok in *; lia.
Qed.

Lemma mdrange_contains_point_spec : forall b p, length p = length b ->
  (mdrange_contains_point b p = true <-> in_box p b).
Proof.
  induction b as [|r b IH]; intros [|v p] HL; cbn in *; try lia.
  - rewrite in_box_nil; tauto.
  - rewrite in_box_cons, <- range_contains_value_spec.
    destruct (range_contains_value r v); cbn.
    + rewrite IH by lia. tauto.
    + split; [discriminate|intros [? _]; discriminate].
Qed.

Lemma mdrange_contains_spec : forall a b, length a = length b ->
  Forall range_ok b ->
  (mdrange_contains a b = true <-> forall p, in_box p b -> in_box p a).
Proof.
  induction a as [|r a IH]; intros [|s b] HL Hb; cbn in *; try lia.
  - tauto.
  - inversion Hb; subst. destruct (range_contains r s) eqn:E; cbn.
    + rewrite IH by (auto; lia). split; intros H p Hp.
      * destruct p as [|v p]; [inversion Hp|].
        apply in_box_cons in Hp as [Hv Hp]. apply in_box_cons. split; auto.
        revert Hv. apply range_contains_spec; auto.
      * specialize (H (rbegin s :: p)).
        rewrite !in_box_cons in H. apply H. split; auto.
        unfold in_range, range_ok in *; lia.
    + split; [discriminate|]. intros H. exfalso.
      assert (range_contains r s = true); [|congruence].
      apply range_contains_spec; auto. intros v Hv.
      specialize (H (v :: map rbegin b)). rewrite !in_box_cons in H.
      apply H. split; auto. apply box_inhabited; auto.
Qed.

Lemma mdrange_overlaps_spec : forall a b, length a = length b ->
  Forall range_ok a -> Forall range_ok b ->
  (mdrange_overlaps a b = true <-> exists p, in_box p a /\ in_box p b).
Proof.
  induction a as [|r a IH]; intros [|s b] HL Ha Hb; cbn in *; try lia.
  - split; auto. intros _. exists []. rewrite in_box_nil; auto.
  - inversion Ha; inversion Hb; subst. destruct (range_overlaps r s) eqn:E; cbn.
    + rewrite IH by (auto; lia). split.
      * intros [p [Hp1 Hp2]]. apply range_overlaps_spec in E as [v [Hv1 Hv2]]; auto.
        exists (v :: p). rewrite !in_box_cons; auto.
      * intros [[|v p] [Hp1 Hp2]]; [inversion Hp1|].
        apply in_box_cons in Hp1; apply in_box_cons in Hp2. exists p; tauto.
    + split; [discriminate|]. intros [[|v p] [Hp1 Hp2]]; [inversion Hp1|].
      apply in_box_cons in Hp1; apply in_box_cons in Hp2.
      assert (range_overlaps r s = true); [|congruence].
      apply range_overlaps_spec; auto. exists v; tauto.
Qed.

Lemma mdrange_overlaps_sym : forall a b, mdrange_overlaps a b = mdrange_overlaps b a.
Proof.
  induction a as [|r a IH]; intros [|s b]; cbn; auto.
  rewrite (range_overlaps_sym r s), IH; auto.
Qed.

Lemma mdrange_overlaps_cons : forall r a s b,
  mdrange_overlaps (r :: a) (s :: b) = true <->
  range_overlaps r s = true /\ mdrange_overlaps a b = true.
Proof.
  intros; cbn; destruct (range_overlaps r s); cbn; split; intros; try tauto;
  try discriminate.
Qed.

Lemma mdrange_intersect_spec : forall a b p, length a = length b ->
  mdrange_overlaps a b = true ->
  (in_box p (mdrange_intersect a b) <-> in_box p a /\ in_box p b).
Proof.
  induction a as [|r a IH]; intros [|s b] p HL H; cbn [length] in HL; try lia.
  - cbn. rewrite in_box_nil; tauto.
  - apply mdrange_overlaps_cons in H as [H1 H2]. cbn [mdrange_intersect].
    destruct p as [|v p].
    + split; intros Hp; [inversion Hp|destruct Hp as [Hp _]; inversion Hp].
    + rewrite !in_box_cons, IH, range_intersect_spec by (auto; lia). tauto.
Qed.

Lemma mdrange_intersect_length : forall a b, length a = length b ->
  length (mdrange_intersect a b) = length a.
Proof. induction a; intros [|s b] HL; cbn in *; try lia. rewrite IHa; lia. Qed.

Lemma mdrange_intersect_ok : forall a b, length a = length b ->
  Forall range_ok a -> Forall range_ok b -> mdrange_overlaps a b = true ->
  Forall range_ok (mdrange_intersect a b).
Proof.
  induction a as [|r a IH]; intros [|s b] HL Ha Hb H; cbn [length] in HL; try lia.
  - constructor.
  - apply mdrange_overlaps_cons in H as [H1 H2]. inversion Ha; inversion Hb; subst.
    cbn. constructor; auto. apply range_intersect_ok; auto.
Qed.

Lemma mdrange_any_overlaps_spec : forall a b, length a = length b ->
  Forall range_ok a -> Forall range_ok b ->
  (mdrange_anyDimensionOverlaps a b = true <->
   exists i r s v, nth_error a i = Some r /\ nth_error b i = Some s /\
     in_range v r /\ in_range v s).
Proof.
  induction a as [|r a IH]; intros [|s b] HL Ha Hb; cbn in *; try lia.
  - split; [discriminate|]. intros [[|i] [x [y [v [H _]]]]]; discriminate.
  - inversion Ha; inversion Hb; subst. destruct (range_overlaps r s) eqn:E.
    + split; auto. intros _. apply range_overlaps_spec in E as [v Hv]; auto.
      exists 0%nat, r, s, v. cbn. tauto.
    + rewrite IH by (auto; lia). split.
      * intros [i [x [y [v H]]]]. exists (S i), x, y, v. auto.
      * intros [[|i] [x [y [v H]]]]; cbn in H.
        -- destruct H as [Hx [Hy Hv]]. inversion Hx; inversion Hy; subst.
           assert (range_overlaps x y = true); [|congruence].
           apply range_overlaps_spec; auto. exists v; auto.
        -- exists i, x, y, v. auto.
Qed.

(** Difference. *)
Lemma mdrange_subtract_loop_in : forall a b done p,
  length a = length b -> Forall range_ok a -> Forall range_ok b ->
  mdrange_overlaps a b = true ->
  (in_boxes p (mdrange_subtract_loop done a b) <->
   exists d q, p = d ++ q /\ in_box d done /\ in_box q a /\ ~ in_box q b).
Proof.
  unfold in_boxes.
  induction a as [|x a IH]; intros [|y b] done p HL Ha Hb HO; cbn [length] in HL; try lia.
  - cbn. split; [intros [? [[] _]]|]. intros [d [q [_ [_ [Hq Hn]]]]]. contradiction.
  - inversion Ha; inversion Hb; subst. apply mdrange_overlaps_cons in HO as [HO1 HO2].
    cbn [mdrange_subtract_loop]. split.
    + intros [c [Hc Hp]]. apply in_app_or in Hc as [Hc|Hc].
      * apply in_map_iff in Hc as [s [Hs Hin]]. subst c.
        apply Forall2_app_inv_r in Hp as [d [q [Hd [Hq Heq]]]].
        subst p. inversion Hq as [|v ? q' ? Hv Hq']; subst.
        exists d, (v :: q').
        assert (Hv' : in_range v x /\ ~ in_range v y).
        { apply range_subtract_in; auto. exists s; auto. }
        repeat split; auto.
        -- apply in_box_cons; split; [tauto|auto].
        -- intros Hc. apply in_box_cons in Hc. tauto.
      * assert (Hex : exists c0, In c0 (mdrange_subtract_loop (done ++ [range_intersect x y]) a b) /\ in_box p c0) by eauto.
        apply IH in Hex; auto; try lia.
        destruct Hex as [d [q [Heq [Hd [Hq Hn]]]]].
        apply Forall2_app_inv_r in Hd as [d1 [d2 [Hd1 [Hd2 Heq']]]].
        inversion Hd2 as [|v ? q' ? Hv Hq']; subst. inversion Hq'; subst.
        apply range_intersect_spec in Hv; auto.
        exists d1, (v :: q). rewrite <- app_assoc. repeat split; auto.
        -- apply in_box_cons; tauto.
        -- intros Hcc. apply in_box_cons in Hcc. tauto.
    + intros [d [q [Heq [Hd [Hq Hn]]]]]. subst p.
      destruct q as [|v q]; [inversion Hq|].
      apply in_box_cons in Hq as [Hv Hq].
      destruct (range_contains_value y v) eqn:E.
      * apply range_contains_value_spec in E.
        assert (Hex : exists c, In c (mdrange_subtract_loop (done ++ [range_intersect x y]) a b) /\ in_box ((d ++ [v]) ++ q) c).
        { apply IH; auto; try lia. exists (d ++ [v]), q. repeat split; auto.
          - apply in_box_app; [apply in_box_length; auto|]. split; auto.
            apply in_box_cons. split; [apply range_intersect_spec; auto|apply in_box_nil; auto].
          - intros Hc. apply Hn. apply in_box_cons. auto. }
        destruct Hex as [c [Hc1 Hc2]]. exists c. split.
        -- apply in_or_app; right; auto.
        -- rewrite <- app_assoc in Hc2. exact Hc2.
      * assert (Hs : exists s, In s (range_subtract x y) /\ in_range v s).
        { apply range_subtract_in; auto. split; auto.
          intros Hc. apply range_contains_value_spec in Hc. congruence. }
        destruct Hs as [s [Hs1 Hs2]]. exists (done ++ s :: a). split.
        -- apply in_or_app; left. apply in_map_iff. exists s; auto.
        -- apply in_box_app; [apply in_box_length; auto|]. split; auto.
           apply in_box_cons; auto.
Qed.

Lemma mdrange_subtract_in : forall a b p,
  length a = length b -> Forall range_ok a -> Forall range_ok b ->
  (in_boxes p (mdrange_subtract a b) <-> in_box p a /\ ~ in_box p b).
Proof.
  intros a b p HL Ha Hb. unfold mdrange_subtract.
  destruct (mdrange_overlaps a b) eqn:E; cbn [negb].
  - rewrite mdrange_subtract_loop_in by auto. split.
    + intros [d [q [Heq [Hd [Hq Hn]]]]]. apply in_box_nil in Hd. subst; cbn; auto.
    + intros [Hp Hn]. exists [], p. repeat split; auto. apply in_box_nil; auto.
  - unfold in_boxes. split.
    + intros [c [[Hc|[]] Hp]]. subst c. split; auto. intros Hb'.
      assert (mdrange_overlaps a b = true); [|congruence].
      apply mdrange_overlaps_spec; auto. exists p; auto.
    + intros [Hp _]. exists a. cbn; auto.
Qed.

Lemma mdrange_subtract_loop_ok : forall a b done c,
  length a = length b -> Forall range_ok a -> Forall range_ok b -> Forall range_ok done ->
  mdrange_overlaps a b = true ->
  In c (mdrange_subtract_loop done a b) ->
  Forall range_ok c /\ length c = (length done + length a)%nat.
Proof.
  induction a as [|x a IH]; intros [|y b] done c HL Ha Hb Hd HO Hc;
    cbn [length] in HL; try lia; try contradiction.
  inversion Ha; inversion Hb; subst. apply mdrange_overlaps_cons in HO as [HO1 HO2].
  cbn [mdrange_subtract_loop] in Hc. apply in_app_or in Hc as [Hc|Hc].
  - apply in_map_iff in Hc as [s [Hs Hin]]. subst c. split.
    + apply Forall_app; split; auto. constructor; auto.
      eapply range_subtract_ok; [| |exact Hin]; auto.
    + rewrite app_length; cbn; lia.
  - apply IH in Hc; auto; try lia.
    + destruct Hc as [Hc1 Hc2]. split; auto. rewrite Hc2, app_length; cbn; lia.
    + apply Forall_app; split; auto. constructor; auto. apply range_intersect_ok; auto.
Qed.

Lemma mdrange_subtract_ok : forall a b c,
  length a = length b -> Forall range_ok a -> Forall range_ok b ->
  In c (mdrange_subtract a b) -> Forall range_ok c /\ length c = length a.
Proof.
  intros a b c HL Ha Hb Hc. unfold mdrange_subtract in Hc.
  destruct (mdrange_overlaps a b) eqn:E; cbn [negb] in Hc.
  - apply mdrange_subtract_loop_ok in Hc; auto.
  - destruct Hc as [Hc|[]]. subst; auto.
Qed.

Lemma ForallOrdPairs_app : forall A (R : A -> A -> Prop) l1 l2,
  ForallOrdPairs R l1 -> ForallOrdPairs R l2 ->
  (forall x y, In x l1 -> In y l2 -> R x y) ->
  ForallOrdPairs R (l1 ++ l2).
Proof.
  induction l1 as [|x l1 IH]; intros l2 H1 H2 H; cbn; auto.
  inversion H1; subst. constructor.
  - apply Forall_app; split; auto. apply Forall_forall. intros; apply H; cbn; auto.
  - apply IH; auto. intros; apply H; cbn; auto.
Qed.

Lemma ForallOrdPairs_map : forall A B (f : A -> B) (R : A -> A -> Prop) (S : B -> B -> Prop) l,
  (forall x y, R x y -> S (f x) (f y)) ->
  ForallOrdPairs R l -> ForallOrdPairs S (map f l).
Proof.
  intros A B f R S l HRS H. induction H; cbn; constructor; auto.
  apply Forall_forall. intros y Hy. apply in_map_iff in Hy as [z [Hz Hin]]. subst.
  apply HRS. rewrite Forall_forall in H. auto.
Qed.

Lemma mdrange_subtract_loop_disjoint : forall a b done,
  length a = length b -> Forall range_ok a -> Forall range_ok b ->
  mdrange_overlaps a b = true ->
  ForallOrdPairs disjoint_boxes (mdrange_subtract_loop done a b).
Proof.
  induction a as [|x a IH]; intros [|y b] done HL Ha Hb HO; cbn [length] in HL; try lia.
  - constructor.
  - inversion Ha; inversion Hb; subst. apply mdrange_overlaps_cons in HO as [HO1 HO2].
    cbn [mdrange_subtract_loop]. apply ForallOrdPairs_app.
    + eapply ForallOrdPairs_map; [|apply range_subtract_ordered; auto].
      intros s t Hst p [Hp1 Hp2].
      apply Forall2_app_inv_r in Hp1 as [d [q [Hd [Hq Heq]]]].
      apply Forall2_app_inv_r in Hp2 as [d' [q' [Hd' [Hq' Heq']]]].
      assert (d = d' /\ q = q') as [-> ->].
      { apply in_box_length in Hd, Hd'. subst p.
        apply app_eq_app in Heq' as [l [[H H']|[H H']]]; subst; rewrite app_length in *;
        destruct l; cbn in *; try lia; rewrite app_nil_r; auto. }
      destruct q' as [|v q']; [inversion Hq|]. apply in_box_cons in Hq, Hq'. unfold in_range in *; lia.
    + apply IH; auto; lia.
    + intros c1 c2 Hc1 Hc2 p [Hp1 Hp2].
      apply in_map_iff in Hc1 as [s [Hs Hin]]. subst c1.
      assert (Hex : in_boxes p (mdrange_subtract_loop (done ++ [range_intersect x y]) a b)) by (exists c2; auto).
      apply mdrange_subtract_loop_in in Hex; auto; try lia.
      destruct Hex as [d [q [Heq [Hd [Hq Hn]]]]]. subst p.
      apply Forall2_app_inv_r in Hd as [d1 [d2 [Hd1 [Hd2 Heq']]]].
      inversion Hd2 as [|v ? q' ? Hv Hq']; subst. inversion Hq'; subst.
      apply range_intersect_spec in Hv; auto.
      rewrite <- app_assoc in Hp1. apply in_box_app in Hp1 as [_ Hp1].
      2:{ apply in_box_length; auto. }
      cbn in Hp1. apply in_box_cons in Hp1 as [Hvs _].
      assert (in_range v x /\ ~ in_range v y); [|tauto].
      apply range_subtract_in; auto. exists s; auto.
Qed.

Lemma mdrange_subtract_disjoint : forall a b,
  length a = length b -> Forall range_ok a -> Forall range_ok b ->
  ForallOrdPairs disjoint_boxes (mdrange_subtract a b).
Proof.
  intros a b HL Ha Hb. unfold mdrange_subtract.
  destruct (mdrange_overlaps a b) eqn:E; cbn [negb].
  - apply mdrange_subtract_loop_disjoint; auto.
  - repeat constructor.
Qed.

(** Merging. *)
Lemma canBeMerged_loop_spec : forall a b i found dim res,
  length a = length b ->
  mdrange_canBeMerged_loop a b i found dim = (true, res) ->
  (found = true /\ res = dim /\ a = b) \/
  (found = false /\ (i <= res)%nat /\
   exists pre r s post, a = pre ++ r :: post /\ b = pre ++ s :: post /\
     length pre = (res - i)%nat /\ r <> s /\ range_canBeMerged r s = true).
Proof.
  induction a as [|r a IH]; intros [|s b] i found dim res HL H; cbn in *; try lia.
  - inversion H; subst. left; auto.
  - destruct (range_ne r s) eqn:E.
    + destruct (range_canBeMerged r s) eqn:E2; [|discriminate].
      destruct found; [discriminate|]. apply IH in H; [|lia].
      destruct H as [[_ [-> ->]]|[? _]]; [|discriminate].
      right. split; auto. split; [lia|].
      exists [], r, s, b. cbn. repeat split; auto; try lia.
      intros ->. assert (range_ne s s = false) by (apply range_ne_false; auto). congruence.
    + apply range_ne_false in E. subst s. apply IH in H; [|lia].
      destruct H as [[-> [-> ->]]|[-> [Hi [pre [r0 [s0 [post [-> [-> [HL' [Hne Hm]]]]]]]]]]].
      * left; auto.
      * right. split; auto. split; [lia|]. exists (r :: pre), r0, s0, post. cbn.
        repeat split; auto. lia.
Qed.

Lemma canBeMerged_spec : forall a b dim, length a = length b ->
  mdrange_canBeMerged a b = (true, dim) ->
  exists pre r s post, a = pre ++ r :: post /\ b = pre ++ s :: post /\
    length pre = dim /\ r <> s /\ range_canBeMerged r s = true.
Proof.
  intros a b dim HL H. apply canBeMerged_loop_spec in H; auto.
  destruct H as [[? _]|[_ [_ [pre [r [s [post [H1 [H2 [H3 H4]]]]]]]]]]; [discriminate|].
  exists pre, r, s, post. repeat split; try tauto; lia.
Qed.

Lemma mdrange_merge_shape : forall pre r s post,
  mdrange_merge (pre ++ r :: post) (pre ++ s :: post) (length pre) =
  pre ++ range_merge r s :: post.
Proof. induction pre; intros; cbn; auto. rewrite IHpre; auto. Qed.

Lemma mdrange_merge_spec : forall a b dim p,
  length a = length b -> Forall range_ok a -> Forall range_ok b ->
  mdrange_canBeMerged a b = (true, dim) ->
  (in_box p (mdrange_merge a b dim) <-> in_box p a \/ in_box p b).
Proof.
  intros a b dim p HL Ha Hb H.
  apply canBeMerged_spec in H as [pre [r [s [post [-> [-> [<- [Hne Hm]]]]]]]]; auto.
  rewrite mdrange_merge_shape.
  apply Forall_app in Ha as [_ Ha]; apply Forall_app in Hb as [_ Hb].
  inversion Ha; inversion Hb; subst.
  split.
  - intros Hp. apply Forall2_app_inv_r in Hp as [d [q [Hd [Hq ->]]]].
    pose proof (in_box_length _ _ Hd).
    destruct q as [|v q]; [inversion Hq|]. apply in_box_cons in Hq as [Hv Hq].
    apply range_merge_spec in Hv; auto.
    rewrite !in_box_app, !in_box_cons by auto. tauto.
  - intros [Hp|Hp]; apply Forall2_app_inv_r in Hp as [d [q [Hd [Hq ->]]]];
    pose proof (in_box_length _ _ Hd);
    destruct q as [|v q]; try (inversion Hq; fail); apply in_box_cons in Hq as [Hv Hq];
    rewrite in_box_app, in_box_cons by auto; rewrite range_merge_spec by auto; tauto.
Qed.

Lemma mdrange_merge_ok : forall a b dim,
  length a = length b -> Forall range_ok a -> Forall range_ok b ->
  mdrange_canBeMerged a b = (true, dim) ->
  Forall range_ok (mdrange_merge a b dim) /\ length (mdrange_merge a b dim) = length a.
Proof.
  intros a b dim HL Ha Hb H.
  apply canBeMerged_spec in H as [pre [r [s [post [-> [-> [<- [Hne Hm]]]]]]]]; auto.
  rewrite mdrange_merge_shape. split; [|rewrite !app_length; reflexivity].
  apply Forall_app in Ha as [? Ha]; apply Forall_app in Hb as [? Hb].
  inversion Ha; inversion Hb; subst. apply Forall_app; split; auto. constructor; auto.
  apply range_merge_ok; auto.
Qed.

Lemma canBeMerged_loop_complete : forall pre r s post i dim,
  r <> s -> range_canBeMerged r s = true ->
  mdrange_canBeMerged_loop (pre ++ r :: post) (pre ++ s :: post) i false dim
  = (true, (i + length pre)%nat).
Proof.
  assert (Hrest : forall post i dim, mdrange_canBeMerged_loop post post i true dim = (true, dim)).
  { induction post as [|t post IH]; intros; cbn; auto.
    assert (range_ne t t = false) as -> by (apply range_ne_false; auto). apply IH. }
  induction pre as [|t pre IH]; intros r s post i dim Hne Hm; cbn.
  - destruct (range_ne r s) eqn:E.
    + rewrite Hm, Hrest. f_equal; lia.
    + apply range_ne_false in E; contradiction.
  - assert (range_ne t t = false) as -> by (apply range_ne_false; auto).
    rewrite IH by auto. f_equal; lia.
Qed.

Lemma range_eq_dec : forall r s : range, {r = s} + {r <> s}.
Proof. decide equality; apply Z.eq_dec. Qed.

Lemma range_not_contained : forall r s, range_ok r -> range_ok s ->
  (forall v, in_range v r -> in_range v s) \/ (exists v, in_range v r /\ ~ in_range v s).
Proof.
  intros r s Hr Hs. unfold in_range, range_ok in *.
  destruct (Z_lt_ge_dec (rbegin r) (rbegin s)).
  - right. exists (rbegin r). lia.
  - destruct (Z_lt_ge_dec (rend s) (rend r)).
    + right. exists (rend r - 1). lia.
    + left. intros; lia.
Qed.

Lemma box_ext : forall a b, Forall range_ok a -> Forall range_ok b ->
  (forall p, in_box p a <-> in_box p b) -> a = b.
Proof.
  induction a as [|r a IH]; intros [|s b] Ha Hb H; auto.
  - assert (Hc : in_box [] (s :: b)) by (apply H, in_box_nil; auto). inversion Hc.
  - assert (Hc : in_box [] (r :: a)) by (apply H, in_box_nil; auto). inversion Hc.
  - inversion Ha; inversion Hb; subst. f_equal.
    + apply range_ext; auto. intros v. pose proof (H (v :: map rbegin a)) as G1.
      pose proof (H (v :: map rbegin b)) as G2. rewrite !in_box_cons in G1, G2.
      pose proof (box_inhabited a). pose proof (box_inhabited b). tauto.
    + apply IH; auto. intros p. pose proof (H (rbegin r :: p)) as G1.
      pose proof (H (rbegin s :: p)) as G2. rewrite !in_box_cons in G1, G2.
      assert (in_range (rbegin r) r) by (unfold in_range, range_ok in *; lia).
      assert (in_range (rbegin s) s) by (unfold in_range, range_ok in *; lia). tauto.
Qed.

Lemma boxes_union_shape : forall a b c,
  length a = length b ->
  Forall range_ok a -> Forall range_ok b -> Forall range_ok c ->
  (forall p, in_box p c <-> in_box p a \/ in_box p b) ->
  ~ (forall p, in_box p a -> in_box p b) ->
  ~ (forall p, in_box p b -> in_box p a) ->
  exists pre r s post, a = pre ++ r :: post /\ b = pre ++ s :: post /\
    r <> s /\ range_canBeMerged r s = true.
Proof.
  induction a as [|r a IH]; intros [|s b] c HL Ha Hb Hc HU Hab Hba; cbn in HL; try lia.
  - exfalso; apply Hab; auto.
  - inversion Ha as [|? ? Hr Ha']; inversion Hb as [|? ? Hs Hb']; subst.
    destruct c as [|t c].
    { exfalso. assert (Hn : in_box [] (r :: a) \/ in_box [] (s :: b)) by (apply HU, in_box_nil; auto).
      destruct Hn as [Hn|Hn]; inversion Hn. }
    inversion Hc as [|? ? Ht Hc']; subst.
    assert (HU' : forall v q, in_range v t /\ in_box q c <->
       (in_range v r /\ in_box q a) \/ (in_range v s /\ in_box q b)).
    { intros v q. pose proof (HU (v :: q)) as H. rewrite !in_box_cons in H. exact H. }
    pose proof (box_inhabited _ Ha') as Ia. pose proof (box_inhabited _ Hb') as Ib.
    destruct (range_eq_dec r s) as [->|Hne].
    + assert (Is : in_range (rbegin s) s) by (unfold in_range, range_ok in *; lia).
      destruct (IH b c) as [pre [r0 [s0 [post [-> [-> [Hne Hm]]]]]]]; auto.
      * intros q. pose proof (HU' (rbegin s) q). pose proof (HU' (rbegin s) (map rbegin a)). tauto.
      * intros H. apply Hab. intros [|v q] Hq; [inversion Hq|].
        rewrite in_box_cons in *. intuition.
      * intros H. apply Hba. intros [|v q] Hq; [inversion Hq|].
        rewrite in_box_cons in *. intuition.
      * exists (s :: pre), r0, s0, post. auto.
    + assert (Heq : a = b).
      { destruct (range_not_contained r s Hr Hs) as [Hrs|[v [Hvr Hvs]]];
        destruct (range_not_contained s r Hs Hr) as [Hsr|[w [Hws Hwr]]].
        - exfalso. apply Hne. apply range_ext; auto. intros; split; auto.
        - exfalso. apply Hab. intros [|x q] Hq; [inversion Hq|].
          rewrite in_box_cons in *. destruct Hq as [Hx Hq]. split; auto.
          pose proof (HU' w q). pose proof (HU' x q). pose proof (HU' w (map rbegin b)). tauto.
        - exfalso. apply Hba. intros [|x q] Hq; [inversion Hq|].
          rewrite in_box_cons in *. destruct Hq as [Hx Hq]. split; auto.
          pose proof (HU' v q). pose proof (HU' x q). pose proof (HU' v (map rbegin a)). tauto.
        - apply box_ext; auto. intros q.
          pose proof (HU' v q). pose proof (HU' w q).
          pose proof (HU' v (map rbegin a)). pose proof (HU' w (map rbegin b)). tauto. }
      subst b. exists [], r, s, a. repeat split; auto.
      destruct (range_canBeMerged r s) eqn:E; auto. exfalso.
      apply (range_not_mergeable r s t); auto. intros v.
      pose proof (HU' v (map rbegin a)).
      assert (in_box (map rbegin a) c).
      { pose proof (HU' (rbegin r) (map rbegin a)). 
        assert (in_range (rbegin r) r) by (unfold in_range, range_ok in *; lia). tauto. }
      tauto.
Qed.

Lemma canBeMerged_complete : forall a b c,
  length a = length b ->
  Forall range_ok a -> Forall range_ok b -> Forall range_ok c ->
  (forall p, in_box p c <-> in_box p a \/ in_box p b) ->
  ~ (forall p, in_box p a -> in_box p b) ->
  ~ (forall p, in_box p b -> in_box p a) ->
  exists dim, mdrange_canBeMerged a b = (true, dim).
Proof.
  intros a b c HL Ha Hb Hc HU Hab Hba.
  destruct (boxes_union_shape a b c) as [pre [r [s [post [-> [-> [Hne Hm]]]]]]]; auto.
  unfold mdrange_canBeMerged. rewrite canBeMerged_loop_complete by auto. eauto.
Qed.

(** Iteration. *)
Fixpoint zseq (lo : Z) (n : nat) : list Z :=
  match n with O => [] | S n' => lo :: zseq (lo + 1) n' end.

Lemma in_zseq : forall n lo v, In v (zseq lo n) <-> lo <= v < lo + Z.of_nat n.
Proof.
  induction n; intros lo v; cbn [zseq In].
  - lia.
  - rewrite IHn. lia.
Qed.

Definition begins (b : mdrange) : point := map rbegin b.

(** All the points of the box from [p] on, in row-major order. *)
Fixpoint enum_from (b : mdrange) (p : point) : list point :=
  match b, p with
  | r :: b', v :: p' =>
      map (cons v) (enum_from b' p')
      ++ flat_map (fun w => map (cons w) (enum_from b' (begins b')))
                  (zseq (v + 1) (Z.to_nat (rend r - (v + 1))))
  | _, _ => [[]]
  end.

Fixpoint next_point (b : mdrange) (p : point) : option point :=
  match b, p with
  | r :: b', v :: p' =>
      match next_point b' p' with
      | Some q => Some (v :: q)
      | None => if v + 1 <? rend r then Some ((v + 1) :: begins b') else None
      end
  | _, _ => None
  end.

Lemma enum_from_unfold : forall b p, length p = length b ->
  enum_from b p = p :: match next_point b p with
                       | Some q => enum_from b q
                       | None => [] end.
Proof.
  induction b as [|r b IH]; intros [|v p] HL; cbn in HL; try lia; cbn [enum_from next_point]; auto.
  rewrite (IH p) by lia. cbn [map app]. f_equal.
  destruct (next_point b p) as [q|] eqn:E; cbn [map app]; auto.
  destruct (v + 1 <? rend r) eqn:E2.
  - assert (Z.to_nat (rend r - (v + 1)) = S (Z.to_nat (rend r - (v + 1 + 1)))) as -> by lia.
    cbn [zseq flat_map]. auto.
  - assert (Z.to_nat (rend r - (v + 1)) = O) as -> by lia. auto.
Qed.

Lemma next_point_in : forall b p q, Forall range_ok b -> in_box p b ->
  next_point b p = Some q -> in_box q b.
Proof.
  induction b as [|r b IH]; intros [|v p] q Hb Hp H; cbn in H; try discriminate.
  apply in_box_cons in Hp as [Hv Hp]. inversion Hb; subst.
  destruct (next_point b p) as [q'|] eqn:E.
  - inversion H; subst. apply in_box_cons; split; eauto.
  - destruct (v + 1 <? rend r) eqn:E2; inversion H; subst.
    apply in_box_cons; split; [unfold in_range in *; lia|apply box_inhabited; auto].
Qed.

Lemma in_enum_begins : forall b q, Forall range_ok b ->
  (In q (enum_from b (begins b)) <-> in_box q b).
Proof.
  induction b as [|r b IH]; intros q Hb; cbn [enum_from begins map].
  - rewrite in_box_nil. cbn. intuition.
  - inversion Hb; subst. fold (begins b).
    rewrite in_app_iff, in_map_iff, in_flat_map. split.
    + intros [[q' [<- Hq']]|[w [Hw Hq]]].
      * apply in_box_cons; split; [unfold in_range, range_ok in *; lia|apply IH; auto].
      * apply in_map_iff in Hq as [q' [<- Hq']]. apply in_zseq in Hw.
        apply in_box_cons; split; [unfold in_range, range_ok in *; lia|apply IH; auto].
    + intros Hq. destruct q as [|v q]; [inversion Hq|]. apply in_box_cons in Hq as [Hv Hq].
      destruct (Z.eq_dec v (rbegin r)) as [->|Hne].
      * left. exists q; split; auto. apply IH; auto.
      * right. exists v. split.
        -- apply in_zseq. unfold in_range in *; lia.
        -- apply in_map, IH; auto.
Qed.

Lemma enum_from_lengths : forall b p q, length p = length b ->
  In q (enum_from b p) -> length q = length b.
Proof.
  induction b as [|r b IH]; intros [|v p] q HL Hq; cbn [length] in HL; try lia; cbn in Hq.
  - destruct Hq as [<-|[]]; auto.
  - apply in_app_iff in Hq as [Hq|Hq].
    + apply in_map_iff in Hq as [q' [<- Hq']]. cbn. f_equal. eapply IH; eauto.
    + apply in_flat_map in Hq as [w [_ Hq]]. apply in_map_iff in Hq as [q' [<- Hq']].
      cbn. f_equal. eapply IH; [|eauto]. unfold begins; apply map_length.
Qed.

Lemma SSorted_app : forall A (R : A -> A -> Prop) l1 l2,
  StronglySorted R l1 -> StronglySorted R l2 ->
  (forall x y, In x l1 -> In y l2 -> R x y) -> StronglySorted R (l1 ++ l2).
Proof.
  induction l1 as [|x l1 IH]; intros l2 H1 H2 H; cbn; auto.
  inversion H1; subst. constructor.
  - apply IH; auto. intros; apply H; cbn; auto.
  - apply Forall_app; split; auto. apply Forall_forall. intros; apply H; cbn; auto.
Qed.

Lemma SSorted_cons_map : forall v l, StronglySorted lex_lt l -> StronglySorted lex_lt (map (cons v) l).
Proof.
  intros v l H; induction H; cbn; constructor; auto.
  apply Forall_forall. intros y Hy. apply in_map_iff in Hy as [z [<- Hz]].
  apply lex_next. rewrite Forall_forall in H0; auto.
Qed.

Lemma SSorted_flat : forall l n, StronglySorted lex_lt l ->
  (forall x, In x l -> length x = n) ->
  forall k lo, StronglySorted lex_lt (flat_map (fun w => map (cons w) l) (zseq lo k)).
Proof.
  intros l n Hl Hn. induction k; intros lo; cbn [zseq flat_map].
  - constructor.
  - apply SSorted_app; auto.
    + apply SSorted_cons_map; auto.
    + intros x y Hx Hy. apply in_map_iff in Hx as [x' [<- Hx]].
      apply in_flat_map in Hy as [w [Hw Hy]]. apply in_map_iff in Hy as [y' [<- Hy]].
      apply in_zseq in Hw. apply lex_here; [lia|]. rewrite (Hn x'), (Hn y'); auto.
Qed.

Lemma enum_from_sorted : forall b p, length p = length b ->
  StronglySorted lex_lt (enum_from b p).
Proof.
  induction b as [|r b IH]; intros [|v p] HL; cbn [length] in HL; try lia; cbn [enum_from].
  - constructor; constructor.
  - assert (HLb : length (begins b) = length b) by (unfold begins; apply map_length).
    apply SSorted_app.
    + apply SSorted_cons_map, IH; lia.
    + apply SSorted_flat with (n := length b); auto. intros; eapply enum_from_lengths; eauto.
    + intros x y Hx Hy. apply in_map_iff in Hx as [x' [<- Hx]].
      apply in_flat_map in Hy as [w [Hw Hy]]. apply in_map_iff in Hy as [y' [<- Hy]].
      apply in_zseq in Hw. apply lex_here; [lia|].
      apply enum_from_lengths in Hx; [|lia]. apply enum_from_lengths in Hy; auto. lia.
Qed.

Lemma flat_map_const_length : forall (l : list point) (k : list Z),
  length (flat_map (fun w => map (cons w) l) k) = (length k * length l)%nat.
Proof.
  induction k; cbn [flat_map length]; [lia|]. rewrite app_length, map_length, IHk. cbn; auto.
Qed.

Lemma zseq_length : forall n lo, length (zseq lo n) = n.
Proof. induction n; intros; cbn; auto. Qed.

Lemma fold_size_acc : forall b acc,
  fold_left (fun acc r => acc * (rend r - rbegin r)) b acc =
  acc * fold_left (fun acc r => acc * (rend r - rbegin r)) b 1.
Proof.
  induction b as [|r b IH]; intros acc; cbn [fold_left]; [lia|].
  rewrite IH, (IH (1 * _)). lia.
Qed.

Lemma mdrange_size_cons : forall r b, mdrange_size (r :: b) = range_size r * mdrange_size b.
Proof.
  intros; unfold mdrange_size; cbn [fold_left]. rewrite fold_size_acc.
  unfold range_size; lia.
Qed.

Lemma mdrange_size_pos : forall b, Forall range_ok b -> 0 < mdrange_size b.
Proof.
  induction b as [|r b IH]; intros H; [unfold mdrange_size; cbn; lia|].
  inversion H; subst. rewrite mdrange_size_cons. unfold range_size, range_ok in *.
  apply Z.mul_pos_pos; auto; lia.
Qed.

Lemma enum_begins_length : forall b, Forall range_ok b ->
  Z.of_nat (length (enum_from b (begins b))) = mdrange_size b.
Proof.
  induction b as [|r b IH]; intros Hb; cbn [enum_from begins map]; auto.
  inversion Hb; subst. fold (begins b).
  rewrite app_length, map_length, flat_map_const_length, zseq_length, mdrange_size_cons.
  assert (E : Z.of_nat (length (enum_from b (begins b))) = mdrange_size b) by auto.
  unfold range_size, range_ok in *. rewrite Nat2Z.inj_add, Nat2Z.inj_mul, Z2Nat.id by lia.
  unfold point in *. rewrite E. ring.
Qed.

(** The iterator state standing on point [p]. *)
Fixpoint its_at (b : mdrange) (p : point) : list rangeIt :=
  match b, p with
  | r :: b', v :: p' => mkRangeIt v (rend r) :: its_at b' p'
  | _, _ => []
  end.
Definition it_at (b : mdrange) (p : point) : mdIt :=
  mkMdIt (map range_begin_it b) (its_at b p) (map range_end_it b) p.

Lemma findIndex_S : forall pos cur ends,
  mdIt_findIndex (S pos) cur ends =
  let it := rangeIt_incr (nth pos cur default_it) in
  let cur' := set_nth cur pos it in
  if rangeIt_ne it (nth pos ends default_it) then (Some pos, cur')
  else mdIt_findIndex pos cur' ends.
Proof. reflexivity. Qed.

Lemma findIndex_cons : forall n c cur e ends,
  mdIt_findIndex (S n) (c :: cur) (e :: ends) =
  match mdIt_findIndex n cur ends with
  | (Some pos, cur') => (Some (S pos), c :: cur')
  | (None, cur') =>
      if rangeIt_ne (rangeIt_incr c) e then (Some 0%nat, rangeIt_incr c :: cur')
      else (None, rangeIt_incr c :: cur')
  end.
Proof.
  induction n; intros c cur e ends.
  - cbn. destruct (rangeIt_ne (rangeIt_incr c) e); auto.
  - rewrite (findIndex_S (S n) (c :: cur)), (findIndex_S n cur ends). cbn [nth set_nth]. cbv zeta.
    destruct (rangeIt_ne (rangeIt_incr (nth n cur default_it)) (nth n ends default_it)); auto.
Qed.

Lemma reset_cons : forall k i bg begs c cur x idx,
  mdIt_reset k (S i) (bg :: begs) (c :: cur) (x :: idx) =
  let '(cur', idx') := mdIt_reset k i begs cur idx in (c :: cur', x :: idx').
Proof.
  induction k; intros; cbn [mdIt_reset]; auto.
  cbn [nth set_nth]. rewrite IHk. auto.
Qed.

Lemma reset_all : forall b cur idx, length cur = length b -> length idx = length b ->
  mdIt_reset (length b) 0 (map range_begin_it b) cur idx =
  (map range_begin_it b, begins b).
Proof.
  induction b as [|r b IH]; intros [|c cur] [|x idx] H1 H2; cbn [length] in *; try lia.
  - reflexivity.
  - cbn [mdIt_reset map nth set_nth]. rewrite reset_cons, IH by lia. reflexivity.
Qed.

Lemma its_at_length : forall b p, length p = length b -> length (its_at b p) = length b.
Proof. induction b; intros [|v p] H; cbn in *; try lia. rewrite IHb; lia. Qed.

Lemma its_at_begins : forall b, its_at b (begins b) = map range_begin_it b.
Proof. induction b; cbn; auto. fold (begins b). rewrite IHb. auto. Qed.

(** What findIndex followed by the reset loop computes. *)
Lemma fetch_spec : forall b p, in_box p b ->
  match next_point b p with
  | Some q =>
      exists pos cur, mdIt_findIndex (length b) (its_at b p) (map range_end_it b) = (Some pos, cur)
        /\ (pos < length b)%nat
        /\ length cur = length b
        /\ mdIt_reset (length b - S pos) (S pos) (map range_begin_it b) cur
             (set_nth p pos (rangeIt_deref (nth pos cur default_it)))
           = (its_at b q, q)
  | None =>
      mdIt_findIndex (length b) (its_at b p) (map range_end_it b) = (None, map range_end_it b)
  end.
Proof.
  induction b as [|r b IH]; intros p Hp.
  - apply in_box_nil in Hp; subst. reflexivity.
  - destruct p as [|v p]; [inversion Hp|]. apply in_box_cons in Hp as [Hv Hp].
    pose proof (in_box_length _ _ Hp) as HL.
    specialize (IH p Hp). cbn [next_point length its_at map].
    destruct (next_point b p) as [q|].
    + destruct IH as [pos [cur [H1 [H2 [H3 H4]]]]].
      exists (S pos), (mkRangeIt v (rend r) :: cur). rewrite findIndex_cons, H1.
      repeat split; try (cbn; lia).
      cbn [nth set_nth Nat.sub]. rewrite reset_cons, H4. reflexivity.
    + destruct (v + 1 <? rend r) eqn:E.
      * exists 0%nat, (mkRangeIt (v + 1) (rend r) :: map range_end_it b).
        rewrite findIndex_cons, IH. unfold rangeIt_ne, rangeIt_incr, range_end_it; cbn.
        assert (Z.min (v + 1) (rend r) = v + 1) as -> by lia.
        assert ((v + 1 =? rend r) = false) as -> by lia. cbn.
        repeat split; try lia.
        -- rewrite map_length; auto.
        -- rewrite Nat.sub_0_r, reset_cons, reset_all; [|rewrite map_length; auto|lia].
           rewrite its_at_begins. reflexivity.
      * rewrite findIndex_cons, IH. unfold rangeIt_ne, rangeIt_incr, range_end_it, in_range in *; cbn.
        assert (Z.min (v + 1) (rend r) = rend r) as -> by lia.
        rewrite Z.eqb_refl. cbn. reflexivity.
Qed.

Lemma fetchNext_at : forall b p, in_box p b ->
  match next_point b p with
  | Some q => mdIt_fetchNext (it_at b p) = it_at b q
  | None => mdit_current (mdIt_fetchNext (it_at b p)) = map range_end_it b
  end.
Proof.
  intros b p Hp. pose proof (fetch_spec b p Hp) as H.
  pose proof (in_box_length _ _ Hp) as HL.
  unfold mdIt_fetchNext, it_at; cbn [mdit_indices mdit_current mdit_end mdit_begin].
  rewrite HL. destruct (next_point b p) as [q|].
  - destruct H as [pos [cur [-> [H2 [H3 H4]]]]]. rewrite H4. reflexivity.
  - rewrite H. reflexivity.
Qed.

Lemma rangeIts_eq_refl : forall l, rangeIts_eq l l = true.
Proof. induction l as [|[c e] l IH]; cbn; auto. unfold rangeIt_eq; cbn. rewrite !Z.eqb_refl, IH; auto. Qed.

Lemma it_at_ne_end : forall b p, b <> [] -> in_box p b ->
  mdIt_eq (it_at b p) (mdrange_end b) = false.
Proof.
  intros [|r b] [|v p] Hne Hp; try congruence; try (inversion Hp; fail).
  apply in_box_cons in Hp as [Hv Hp]. unfold mdIt_eq; cbn. unfold rangeIt_eq; cbn.
  unfold in_range in Hv. assert ((v =? rend r) = false) as -> by lia. auto.
Qed.

Lemma run_at_end : forall f it b, mdit_current it = map range_end_it b ->
  mdIt_run f it (mdrange_end b) = Some [].
Proof.
  intros f it b H. assert (mdIt_eq it (mdrange_end b) = true) as E.
  { unfold mdIt_eq; cbn. rewrite H. apply rangeIts_eq_refl. }
  destruct f; cbn; rewrite E; auto.
Qed.

Lemma run_from : forall n b p fuel, b <> [] -> Forall range_ok b -> in_box p b ->
  length (enum_from b p) = n -> (n <= fuel)%nat ->
  mdIt_run fuel (it_at b p) (mdrange_end b) = Some (enum_from b p).
Proof.
  induction n as [|n IH]; intros b p fuel Hne Hb Hp Hn Hf;
    pose proof (in_box_length _ _ Hp) as HL;
    rewrite enum_from_unfold in Hn |- * by auto; cbn in Hn; try lia.
  destruct fuel as [|f]; [lia|]. cbn [mdIt_run].
  rewrite it_at_ne_end by auto. pose proof (fetchNext_at b p Hp) as HF.
  destruct (next_point b p) as [q|] eqn:E.
  - rewrite HF, IH; auto; try lia. eapply next_point_in; eauto.
  - rewrite run_at_end by auto. reflexivity.
Qed.

Lemma begin_is_at : forall b, mdrange_begin b = it_at b (begins b).
Proof.
  intros b; unfold mdrange_begin, it_at. rewrite its_at_begins. f_equal.
Qed.

Lemma mdrange_iteration : forall b, mdrange_ok b ->
  exists l,
    (forall fuel, (Z.to_nat (mdrange_size b) <= fuel)%nat ->
       mdIt_run fuel (mdrange_begin b) (mdrange_end b) = Some l) /\
    (forall p, In p l <-> in_box p b) /\
    StronglySorted lex_lt l /\
    Z.of_nat (length l) = mdrange_size b.
Proof.
  intros b [Hne Hb]. exists (enum_from b (begins b)).
  pose proof (enum_begins_length b Hb) as HL.
  split; [|split; [|split]].
  - intros fuel Hf. rewrite begin_is_at. eapply run_from; eauto; [apply box_inhabited; auto|lia].
  - intros; apply in_enum_begins; auto.
  - apply enum_from_sorted. unfold begins; apply map_length.
  - auto.
Qed.

Lemma lex_lt_irrefl : forall p, ~ lex_lt p p.
Proof. induction p; intros H; inversion H; subst; [lia|auto]. Qed.

Lemma lex_lt_length : forall p q, lex_lt p q -> length p = length q.
Proof. intros p q H; induction H; cbn; lia. Qed.

Lemma lex_lt_trans : forall p q r, lex_lt p q -> lex_lt q r -> lex_lt p r.
Proof.
  intros p q r H; revert r; induction H; intros t Ht;
    pose proof (lex_lt_length _ _ Ht) as HT; inversion Ht; subst; cbn in HT.
  - apply lex_here; lia.
  - apply lex_here; lia.
  - apply lex_lt_length in H. apply lex_here; lia.
  - apply lex_next; auto.
Qed.

Lemma SSorted_NoDup : forall A (R : A -> A -> Prop) l, (forall x, ~ R x x) ->
  StronglySorted R l -> NoDup l.
Proof.
  intros A R l HR H; induction H; constructor; auto.
  intros Hin. rewrite Forall_forall in H0. apply (HR a). auto.
Qed.

(** Order on boxes. *)
Lemma mdrange_eq_spec : forall a b, mdrange_eq a b = true <-> a = b.
Proof.
  intros a b. unfold mdrange_eq. destruct (Nat.eqb (length a) (length b)) eqn:E; cbn.
  - assert (HL : length a = length b) by lia. clear E. revert b HL.
    induction a as [|r a IH]; intros [|s b] HL; cbn in *; try lia; try tauto.
    destruct (range_ne r s) eqn:E.
    + split; [discriminate|]. intros H; inversion H; subst.
      assert (range_ne s s = false) by (apply range_ne_false; auto). congruence.
    + apply range_ne_false in E; subst. rewrite IH by lia.
      split; intros H; [f_equal; auto|inversion H; auto].
  - split; [discriminate|]. intros ->. rewrite Nat.eqb_refl in E; discriminate.
Qed.

Lemma mdrange_compare_loop_0 : forall a b, length a = length b ->
  (mdrange_compare_loop a b = 0 <-> a = b).
Proof.
  induction a as [|r a IH]; intros [|s b] HL; cbn in *; try lia; try tauto.
  destruct (range_compare r s =? 0) eqn:E; cbn.
  - assert (range_compare r s = 0) as E' by lia. apply range_compare_0 in E'; subst.
    rewrite IH by lia. split; intros H; [f_equal; auto|inversion H; auto].
  - split; intros H; [lia|]. inversion H; subst.
    assert (range_compare s s = 0) by (apply range_compare_0; auto). lia.
Qed.

Lemma mdrange_compare_0 : forall a b, mdrange_compare a b = 0 <-> a = b.
Proof.
  intros a b; unfold mdrange_compare. destruct (Nat.eqb (length a) (length b)) eqn:E; cbn.
  - apply mdrange_compare_loop_0; lia.
  - split; intros H; [case_ifs; lia|subst; lia].
Qed.

Lemma mdrange_compare_loop_antisym : forall a b,
  mdrange_compare_loop b a = - mdrange_compare_loop a b.
Proof.
  induction a as [|r a IH]; intros [|s b]; cbn; try lia.
  rewrite (range_compare_antisym r s). rewrite (IH b).
  destruct (range_compare r s =? 0) eqn:E.
  - assert ((- range_compare r s =? 0) = true) as -> by lia. cbn; lia.
  - assert ((- range_compare r s =? 0) = false) as -> by lia. cbn; lia.
Qed.

Lemma mdrange_compare_antisym : forall a b, mdrange_compare b a = - mdrange_compare a b.
Proof.
  intros a b; unfold mdrange_compare. rewrite (mdrange_compare_loop_antisym a b).
  case_ifs; lia.
Qed.

Lemma mdrange_compare_loop_trans : forall a b c,
  length a = length b -> length b = length c ->
  mdrange_compare_loop a b <= 0 -> mdrange_compare_loop b c <= 0 ->
  mdrange_compare_loop a c <= 0.
Proof.
  induction a as [|r a IH]; intros [|s b] [|t c] H1 H2; cbn in *; try lia.
  intros Ha Hb.
  pose proof (range_compare_trans r s t) as HT.
  pose proof (range_compare_antisym r s). pose proof (range_compare_antisym s t).
  pose proof (range_compare_antisym r t).
  pose proof (range_compare_trans s r t). pose proof (range_compare_trans r t s).
  pose proof (range_compare_trans t r s). pose proof (range_compare_trans s t r).
  pose proof (range_compare_trans t s r).
  specialize (IH b c).
  destruct (range_compare r s =? 0) eqn:E1; destruct (range_compare s t =? 0) eqn:E2;
  destruct (range_compare r t =? 0) eqn:E3; cbn in *; try (apply IH; lia); try lia.
Qed.

Lemma mdrange_compare_trans : forall a b c,
  mdrange_compare a b <= 0 -> mdrange_compare b c <= 0 -> mdrange_compare a c <= 0.
Proof.
  intros a b c; unfold mdrange_compare.
  pose proof (mdrange_compare_loop_trans a b c). case_ifs; try lia.
Qed.

Lemma in_box_of_point : forall p q, in_box q (mdrange_of_point p) <-> q = p.
Proof.
  induction p as [|v p IH]; intros [|w q]; cbn; try (rewrite in_box_nil); try tauto.
  - split; [intros H; inversion H|discriminate].
  - fold (mdrange_of_point p). rewrite in_box_cons, IH. unfold in_range; cbn.
    split; [intros [H ->]; f_equal; lia|intros H; inversion H; subst; split; auto; lia].
Qed.

Lemma of_point_ok : forall p, Forall range_ok (mdrange_of_point p).
Proof.
  intros p; apply Forall_forall. intros r H. apply in_map_iff in H as [v [<- _]].
  unfold range_ok; cbn; lia.
Qed.
