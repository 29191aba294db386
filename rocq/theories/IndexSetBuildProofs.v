(** Index sets: construction from ranges, intersection, complement, projections
    and products. *)
From Coq Require Import ZArith List Bool Lia ZifyBool Permutation Sorted.
From Verif Require Import RangeModel MDRangeModel Spec RangeProofs MDRangeProofs
  Result RTreeModel IndexSetModel RTreeSplitProofs RTreeQueryProofs RTreeProofs BoxListProofs
  ListTac IndexSetProofs IndexSetQueryProofs.
Import ListNotations.
Local Open Scope nat_scope.

(** ** Removing overlaps from a list of boxes *)

Lemma subtract_all_spec : forall rk other, box_of rk other -> forall l, Forall (box_of rk) l ->
  Forall (box_of rk) (subtract_all l other)
  /\ (forall p, in_boxes p (subtract_all l other) <-> in_boxes p l /\ ~ in_box p other)
  /\ (disj l -> disj (subtract_all l other)).
Proof.
  intros rk r Hr l H. unfold subtract_all. induction H as [|x l Hx Hl IH]; cbn.
  - split; auto. split; [|auto]. intros p. pose proof (in_boxes_nil p). tauto.
  - destruct IH as (A & B & C).
    set (y := if mdrange_overlaps x r then mdrange_subtract x r else [x]) in *.
    assert (Y : Forall (box_of rk) y /\ (forall p, in_boxes p y <-> in_box p x /\ ~ in_box p r) /\ disj y).
    { unfold y. destruct (mdrange_overlaps x r) eqn:E.
      - split; [eapply subtract_boxes; eauto|]. split; [|eapply subtract_disj; eauto].
        intros p. apply (subtract_in rk); auto.
      - split; auto. split; [|repeat constructor]. intros p. rewrite in_boxes_single.
        apply (overlaps_false rk) in E; auto. specialize (E p). tauto. }
    clearbody y. destruct Y as (Y1 & Y2 & Y3). split; [|split].
    + apply Forall_app; auto.
    + intros p. rewrite in_boxes_app, in_boxes_cons, B, Y2. tauto.
    + intros D. apply FOP_inv in D as [D1 D2]. apply disj_app. split; auto.
      split; auto. intros p P1 P2. apply Y2 in P1. apply B in P2.
      destruct P2 as [(z & Hz & Pz) _]. rewrite Forall_forall in D1.
      apply (D1 z Hz p). tauto.
Qed.

Lemma subtract_fold_spec : forall rk others, Forall (box_of rk) others ->
  forall l, Forall (box_of rk) l ->
  Forall (box_of rk) (fold_left subtract_all others l)
  /\ (forall p, in_boxes p (fold_left subtract_all others l) <-> in_boxes p l /\ ~ in_boxes p others)
  /\ (disj l -> disj (fold_left subtract_all others l)).
Proof.
  intros rk others H. induction H as [|x others Hx Ho IH]; intros l Hl; cbn [fold_left].
  - split; auto. split; auto. intros p. pose proof (in_boxes_nil p). tauto.
  - destruct (subtract_all_spec rk x Hx l Hl) as (A & B & C).
    destruct (IH _ A) as (D & E & F). split; auto. split; auto.
    intros p. rewrite E, B, in_boxes_cons. tauto.
Qed.

Lemma Forall_firstn_skipn : forall A (P : A -> Prop) n l, Forall P l ->
  Forall P (firstn n l) /\ Forall P (skipn n l).
Proof. intros A P n l H. rewrite <- (firstn_skipn n l) in H. apply Forall_app in H. auto. Qed.

Lemma step_spec : forall rk stored current, Forall (box_of rk) stored -> box_of rk current ->
  Forall (box_of rk) (setFromRanges_step stored current)
  /\ (forall p, in_boxes p (setFromRanges_step stored current)
        <-> in_boxes p stored \/ in_box p current)
  /\ (disj stored ->
      (forall p, in_boxes p (firstn (length stored - backscan current (rev stored)) stored) ->
                 in_box p current -> False) ->
      disj (setFromRanges_step stored current)).
Proof.
  intros rk stored current Hs Hc. unfold setFromRanges_step.
  destruct stored as [|s0 stored0].
  { split; auto. split; [|intros; repeat constructor].
    intros p. rewrite in_boxes_single. pose proof (in_boxes_nil p). tauto. }
  set (stored := s0 :: stored0) in *. clearbody stored. clear s0 stored0.
  set (idx := length stored - backscan current (rev stored)). clearbody idx.
  destruct (Forall_firstn_skipn _ _ idx stored Hs) as [F1 F2].
  destruct (subtract_fold_spec rk (skipn idx stored) F2 [current]) as (A & B & C); auto.
  set (d := fold_left subtract_all (skipn idx stored) [current]) in *. clearbody d.
  pose proof (sort_boxes_perm (skipn idx stored ++ d)) as P.
  split; [|split].
  - apply Forall_app; split; auto. eapply Permutation_Forall; [exact P|]. apply Forall_app; auto.
  - intros p.
    assert (E : in_boxes p (sort_boxes (skipn idx stored ++ d)) <-> in_boxes p (skipn idx stored ++ d)).
    { split; apply in_boxes_perm; [symmetry|]; auto. }
    rewrite in_boxes_app, E, in_boxes_app, B, in_boxes_single.
    rewrite <- (firstn_skipn idx stored) at 4. rewrite in_boxes_app.
    destruct (in_boxes_dec p (skipn idx stored)); tauto.
  - intros D X. rewrite <- (firstn_skipn idx stored) in D. apply disj_app in D as (D1 & D2 & D3).
    apply disj_app. split; auto.
    assert (DD : disj (skipn idx stored ++ d)).
    { apply disj_app. split; auto. split; [apply C; repeat constructor|].
      intros p P1 P2. apply B in P2. tauto. }
    split; [eapply disj_perm; eauto|].
    intros p P1 P2.
    assert (P2' : in_boxes p (skipn idx stored ++ d)).
    { eapply in_boxes_perm; [symmetry; exact P|auto]. }
    apply in_boxes_app in P2' as [P2'|P2']; [eauto|].
    apply B in P2' as [P2' _]. apply in_boxes_single in P2'. eauto.
Qed.

Lemma steps_spec : forall rk ranges, Forall (box_of rk) ranges ->
  forall stored, Forall (box_of rk) stored ->
  Forall (box_of rk) (fold_left setFromRanges_step ranges stored)
  /\ (forall p, in_boxes p (fold_left setFromRanges_step ranges stored)
        <-> in_boxes p stored \/ in_boxes p ranges)
  /\ (disj (stored ++ ranges) -> disj (fold_left setFromRanges_step ranges stored)).
Proof.
  intros rk ranges H. induction H as [|x ranges Hx Hr IH]; intros stored Hs; cbn [fold_left].
  - split; auto. split; [|rewrite app_nil_r; auto]. intros p. pose proof (in_boxes_nil p). tauto.
  - destruct (step_spec rk stored x Hs Hx) as (A & B & C).
    destruct (IH _ A) as (D & E & F). split; auto. split.
    + intros p. rewrite E, B, in_boxes_cons. tauto.
    + intros X. apply F. apply disj_app in X as (X1 & X2 & X3). apply FOP_inv in X2 as [X2 X4].
      apply disj_app. split; [|split; auto].
      * apply C; auto. intros p P1 P2. apply (X3 p).
        -- rewrite <- (firstn_skipn (length stored - backscan x (rev stored)) stored).
           apply in_boxes_app. auto.
        -- apply in_boxes_cons. auto.
      * intros p P1 P2. apply B in P1 as [P1|P1].
        -- apply (X3 p); auto. apply in_boxes_cons; auto.
        -- destruct P2 as (y & Hy & Py). rewrite Forall_forall in X2. apply (X2 y Hy p). auto.
Qed.

Lemma nonOverlapping_spec : forall rk ranges, Forall (box_of rk) ranges ->
  Forall (box_of rk) (nonOverlapping ranges)
  /\ (forall p, in_boxes p (nonOverlapping ranges) <-> in_boxes p ranges)
  /\ (disj ranges -> disj (nonOverlapping ranges)).
Proof.
  intros rk ranges H. unfold nonOverlapping. pose proof (sort_boxes_perm ranges) as P.
  destruct (steps_spec rk (sort_boxes ranges) (Permutation_Forall P H) []) as (A & B & C); auto.
  split; auto. split.
  - intros p. rewrite B.
    assert (E : in_boxes p (sort_boxes ranges) <-> in_boxes p ranges)
      by (split; apply in_boxes_perm; [symmetry|]; auto).
    pose proof (in_boxes_nil p). tauto.
  - intros D. apply C. cbn. eapply disj_perm; eauto.
Qed.

(** ** Lists of points *)

Definition ble (a b : mdrange) : Prop := (mdrange_compare a b <= 0)%Z.
Lemma ble_refl : forall a, ble a a.
Proof. intros a. unfold ble. assert (mdrange_compare a a = 0%Z) by (apply mdrange_compare_0; auto). lia. Qed.
Lemma ble_total : forall a b, mdrange_lt b a = false -> ble a b.
Proof. intros a b H. unfold mdrange_lt, ble in *. rewrite (mdrange_compare_antisym b a). lia. Qed.
Lemma ble_lt : forall a b, mdrange_lt a b = true -> ble a b.
Proof. intros a b H. unfold mdrange_lt, ble in *. lia. Qed.
Lemma ble_antisym : forall a b, ble a b -> ble b a -> a = b.
Proof.
  intros a b H1 H2. unfold ble in *. rewrite (mdrange_compare_antisym a b) in H2.
  apply mdrange_compare_0. lia.
Qed.

Lemma ble_trans : forall a b c, ble a b -> ble b c -> ble a c.
Proof. unfold ble. apply mdrange_compare_trans. Qed.

Definition blt (a b : mdrange) : Prop := ble a b /\ a <> b.

Lemma blt_not : forall a b, ble a b -> mdrange_lt b a = false.
Proof. intros a b H. unfold mdrange_lt, ble in *. rewrite (mdrange_compare_antisym a b). lia. Qed.

Lemma insert_sorted_hd : forall x l, Forall (ble x) l -> insert_sorted x l = x :: l.
Proof. intros x [|y l] H; cbn; auto. inversion H; subst. rewrite blt_not; auto. Qed.
Lemma sort_sorted_id : forall l, StronglySorted ble l -> sort_boxes l = l.
Proof. intros l H. induction H as [|x l Hl IH Hx]; cbn; auto. rewrite IH. apply insert_sorted_hd; auto. Qed.

Lemma insert_sorted_sorted : forall x l, StronglySorted ble l -> StronglySorted ble (insert_sorted x l).
Proof.
  intros x l H. induction H as [|y l Hl IH Hy]; cbn; [repeat constructor|].
  destruct (mdrange_lt y x) eqn:E.
  - constructor; auto. eapply Permutation_Forall; [apply insert_sorted_perm|].
    constructor; auto. apply ble_lt; auto.
  - assert (ble x y) by (apply ble_total; auto).
    constructor; [constructor; auto|]. constructor; auto.
    eapply Forall_impl; [|exact Hy]. intros z Hz. eapply ble_trans; eauto.
Qed.
Lemma sort_boxes_sorted : forall l, StronglySorted ble (sort_boxes l).
Proof. induction l as [|x l IH]; cbn; [constructor|]. apply insert_sorted_sorted; auto. Qed.

Lemma SS_impl : forall A (R S : A -> A -> Prop) l, (forall a b, R a b -> S a b) ->
  StronglySorted R l -> StronglySorted S l.
Proof.
  intros A R S l H X. induction X as [|a l Hl IH Ha]; constructor; auto.
  eapply Forall_impl; [|exact Ha]. auto.
Qed.
Lemma SS_app_inv : forall A (R : A -> A -> Prop) l1 l2, StronglySorted R (l1 ++ l2) ->
  StronglySorted R l1 /\ StronglySorted R l2 /\ (forall x y, In x l1 -> In y l2 -> R x y).
Proof.
  induction l1 as [|a l1 IH]; intros l2 H; cbn in H.
  - split; [constructor|]. split; auto. intros x y [].
  - inversion H as [|? ? H1 H2]; subst. apply IH in H1 as (A1 & A2 & A3).
    apply Forall_app in H2 as [H2 H3]. rewrite Forall_forall in H3. split; [constructor; auto|].
    split; auto. intros x y [->|Hx] Hy; auto.
Qed.

Definition isPoint (b : mdrange) : Prop := exists p, b = mdrange_of_point p.

Lemma point_boxes_overlap : forall rk a b, box_of rk a -> box_of rk b -> isPoint a -> isPoint b ->
  mdrange_overlaps a b = true -> a = b.
Proof.
  intros rk a b Ha Hb [p ->] [q ->] H. apply (overlaps_box rk) in H as (x & X1 & X2); auto.
  apply in_box_of_point in X1, X2. congruence.
Qed.
Lemma range_self : forall r, range_ok r -> range_overlaps r r = true.
Proof.
  intros r H. apply range_overlaps_spec; auto. exists (rbegin r). unfold in_range, range_ok in *. lia.
Qed.
Lemma any_self : forall rk b, box_of rk b -> mdrange_anyDimensionOverlaps b b = true.
Proof.
  intros rk [|r b] [[H1 H2] _]; [congruence|]. cbn. inversion H2; subst.
  rewrite range_self; auto.
Qed.
Lemma boxes_empty : forall rk l, Forall (box_of rk) l -> (forall p, ~ in_boxes p l) -> l = [].
Proof.
  intros rk [|x l] H E; auto. inversion H; subst. destruct (box_point rk x) as [p Hp]; auto.
  destruct (E p). apply in_boxes_cons. auto.
Qed.

Lemma subtract_none : forall rk others x, Forall (box_of rk) others -> box_of rk x ->
  (forall y, In y others -> mdrange_overlaps x y = false) ->
  fold_left subtract_all others [x] = [x].
Proof.
  intros rk others x Ho Hx. induction Ho as [|y others Hy Ho IH]; intros H; cbn [fold_left]; auto.
  unfold subtract_all at 2. cbn. rewrite (H y (or_introl eq_refl)). cbn. apply IH.
  intros z Hz. apply H. right; auto.
Qed.

Lemma point_step : forall rk S x, Forall (box_of rk) S -> Forall isPoint S -> box_of rk x -> isPoint x ->
  StronglySorted blt S -> Forall (fun y => ble y x) S ->
  StronglySorted blt (setFromRanges_step S x)
  /\ Forall isPoint (setFromRanges_step S x)
  /\ Forall (fun y => ble y x) (setFromRanges_step S x).
Proof.
  intros rk S x HS PS Hx Px SS LE.
  assert (D : In x S \/ ~ In x S).
  { destruct (in_dec (list_eq_dec range_eq_dec) x S); auto. }
  assert (SSle : StronglySorted ble S) by (eapply SS_impl; [|exact SS]; unfold blt; tauto).
  unfold setFromRanges_step. destruct S as [|s0 S0]; [repeat constructor; auto using ble_refl|].
  set (S := s0 :: S0) in *. clearbody S. clear s0 S0.
  assert (G : setFromRanges_step S x = S \/ setFromRanges_step S x = S ++ [x] \/ True) by auto. clear G.
  set (idx := length S - backscan x (rev S)).
  destruct (Forall_firstn_skipn _ _ idx S HS) as [F1 F2].
  destruct D as [D|D].
  - assert (E : exists S0, S = S0 ++ [x]).
    { destruct (exists_last (l := S)) as (S0 & z & ->); [intros ->; destruct D|].
      exists S0. f_equal. f_equal. apply in_app_or in D as [D|[D|[]]]; auto.
      apply SS_app_inv in SS as (_ & _ & SS). specialize (SS x z D (or_introl eq_refl)).
      apply Forall_app in LE as [_ LE]. inversion LE; subst. destruct SS as [S1 S2].
      apply ble_antisym; auto. }
    destruct E as [S0 ->].
    assert (I : In x (skipn idx (S0 ++ [x]))).
    { assert (idx <= length S0).
      { unfold idx. rewrite rev_app_distr, app_length. cbn [rev app backscan].
        rewrite (any_self rk x Hx). cbn. lia. }
      rewrite skipn_app. apply in_or_app. right. replace (idx - length S0) with 0 by lia. left; auto. }
    destruct (subtract_fold_spec rk (skipn idx (S0 ++ [x])) F2 [x]) as (A & B & _); auto.
    rewrite (boxes_empty rk _ A).
    2: { intros p Hp. apply B in Hp as [Hp Hn]. apply in_boxes_single in Hp. apply Hn. exists x; auto. }
    rewrite app_nil_r, sort_sorted_id.
    2: { rewrite <- (firstn_skipn idx (S0 ++ [x])) in SSle. apply SS_app_inv in SSle. tauto. }
    rewrite firstn_skipn. auto.
  - rewrite (subtract_none rk); auto.
    2: { intros y Hy. destruct (mdrange_overlaps x y) eqn:E; auto. exfalso. apply D.
         assert (Iy : In y S) by (rewrite <- (firstn_skipn idx S); apply in_or_app; auto).
         rewrite Forall_forall in HS, PS.
         assert (x = y) as -> by (eapply point_boxes_overlap; eauto). auto. }
    rewrite sort_sorted_id.
    + rewrite app_assoc, firstn_skipn. split; [|split].
      * clear - SS LE D. induction SS as [|a l Hl IH Ha]; cbn; [repeat constructor|].
        inversion LE; subst. constructor.
        -- apply IH; auto. intros X. apply D. right; auto.
        -- apply Forall_app; split; auto. constructor; auto. split; auto. intros ->. apply D. left; auto.
      * apply Forall_app; auto.
      * apply Forall_app; split; auto. constructor; auto using ble_refl.
    + rewrite <- (firstn_skipn idx S) in SSle, LE. apply SS_app_inv in SSle as (_ & SSle & _).
      apply Forall_app in LE as [_ LE]. clear - SSle LE.
      induction SSle as [|a l Hl IH Ha]; cbn; [repeat constructor|]. inversion LE; subst.
      constructor; auto. apply Forall_app; auto.
Qed.

Lemma point_steps : forall rk l, Forall (box_of rk) l -> Forall isPoint l -> StronglySorted ble l ->
  forall S, Forall (box_of rk) S -> Forall isPoint S -> StronglySorted blt S ->
  (forall x y, In x S -> In y l -> ble x y) ->
  StronglySorted blt (fold_left setFromRanges_step l S)
  /\ Forall isPoint (fold_left setFromRanges_step l S).
Proof.
  intros rk l Hl. induction Hl as [|x l Hx Hl IH]; intros Pl SSl S HS PS SS LE; cbn [fold_left]; auto.
  inversion Pl; inversion SSl; subst.
  assert (LE' : Forall (fun y => ble y x) S).
  { apply Forall_forall. intros y Hy. apply LE; auto. left; auto. }
  destruct (point_step rk S x HS PS Hx H1 SS LE') as (A & B & C).
  apply IH; auto.
  - apply step_spec; auto.
  - intros a b Ha Hb. rewrite Forall_forall in C, H6. eapply ble_trans; [apply C|apply H6]; auto.
Qed.

Lemma points_disj : forall rk points, 1 <= rk -> Forall (fun p => length p = rk) points ->
  disj (nonOverlapping (map mdrange_of_point points)).
Proof.
  intros rk points Hrk H. unfold nonOverlapping.
  pose proof (sort_boxes_perm (map mdrange_of_point points)) as P.
  assert (B : Forall (box_of rk) (map mdrange_of_point points)).
  { apply Forall_map. eapply Forall_impl; [|exact H]. intros p Hp. apply point_box; auto. }
  assert (Q : Forall isPoint (map mdrange_of_point points)).
  { apply Forall_map. apply Forall_forall. intros p _. exists p; auto. }
  destruct (point_steps rk (sort_boxes (map mdrange_of_point points)) (Permutation_Forall P B)
              (Permutation_Forall P Q) (sort_boxes_sorted _) [] (Forall_nil _) (Forall_nil _)
              (SSorted_nil _)) as [S1 S2].
  { intros x y []. }
  clear P B Q. set (l := fold_left _ _ _) in *. clearbody l. clear H.
  induction S1 as [|a l Hl IH Ha]; [constructor|]. inversion S2 as [|? ? [p ->] S3]; subst.
  constructor; [|apply IH; auto]. apply Forall_forall. intros b Hb q [Q1 Q2].
  rewrite Forall_forall in Ha, S3. destruct (S3 b Hb) as [p' ->].
  apply in_box_of_point in Q1, Q2. subst. destruct (Ha _ Hb) as [_ N]. apply N. congruence.
Qed.

(** ** The operations that build a new set *)

Section Build.
Variable minE maxE : nat.
Hypothesis minE_pos : 1 <= minE.
Hypothesis maxE_min : 2 * minE <= maxE.

Lemma setFromRanges_ok : forall rk ranges t, Forall (box_of rk) ranges ->
  is_setFromRanges minE maxE ranges = Ok t ->
  wset rk t /\ (forall p, in_boxes p (is_ranges t) <-> in_boxes p ranges)
  /\ (disj (nonOverlapping ranges) -> disj (is_ranges t)).
Proof.
  intros rk ranges t H E. unfold is_setFromRanges in E.
  destruct (nonOverlapping_spec rk ranges H) as (A & B & _).
  destruct (nonOverlapping ranges) as [|b l] eqn:En.
  - cbn in E. injection E as <-. split; [|split].
    + split; [cbn; auto|]. split; cbn; auto; discriminate.
    + intros p. rewrite <- B. reflexivity.
    + auto.
  - rewrite <- En in *.
    eapply (setFromObjects_ok mdrange box_shape minE maxE rk 1 (fun _ => True)) in E; auto.
    + destruct E as [E1 E2]. split; [exact E1|].
      change (rt_objs mdrange t) with (is_ranges t) in E2. split.
      * intros p. rewrite <- B. split; apply in_boxes_perm; [symmetry|]; auto.
      * apply disj_perm; auto.
    + rewrite En. discriminate.
Qed.

Lemma setFromRanges_total : forall ranges, minE * minE <= maxE + minE ->
  exists t, is_setFromRanges minE maxE ranges = Ok t.
Proof.
  intros ranges H. unfold is_setFromRanges.
  apply (setFromObjects_total mdrange box_shape minE maxE 1); auto.
Qed.
End Build.
