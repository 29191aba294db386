(** Index sets: containment, overlap of two sets, sizes. *)
From Coq Require Import ZArith List Bool Lia ZifyBool Permutation Sorted.
From Verif Require Import RangeModel MDRangeModel Spec RangeProofs MDRangeProofs
  Result RTreeModel IndexSetModel RTreeSplitProofs RTreeQueryProofs RTreeProofs BoxListProofs
  ListTac IndexSetProofs.
Import ListNotations.
Local Open Scope nat_scope.

Definition oin := objs_in mdrange box_shape box_eq.

(** ** Points of a list of boxes, and sizes *)

Definition pts (b : mdrange) : list point := enum_from b (begins b).
Fixpoint sumsize (l : list mdrange) : Z :=
  match l with [] => 0%Z | b :: l' => (mdrange_size b + sumsize l')%Z end.

Lemma pts_in : forall rk b p, box_of rk b -> (In p (pts b) <-> in_box p b).
Proof. intros. apply in_enum_begins. eapply box_of_ranges; eauto. Qed.
Lemma pts_nodup : forall b, NoDup (pts b).
Proof.
  intros b. eapply SSorted_NoDup; [apply lex_lt_irrefl|]. apply enum_from_sorted.
  unfold begins. apply map_length.
Qed.
Lemma pts_size : forall rk b, box_of rk b -> Z.of_nat (length (pts b)) = mdrange_size b.
Proof. intros. apply enum_begins_length. eapply box_of_ranges; eauto. Qed.
Lemma size_pos : forall rk b, box_of rk b -> (0 < mdrange_size b)%Z.
Proof. intros. apply mdrange_size_pos. eapply box_of_ranges; eauto. Qed.

Lemma allpts_in : forall rk l, Forall (box_of rk) l -> forall p,
  In p (flat_map pts l) <-> in_boxes p l.
Proof.
  intros rk l H p. rewrite in_flat_map. unfold in_boxes. rewrite Forall_forall in H.
  split; intros (b & Hb & Hp); exists b; split; auto; eapply pts_in; eauto.
Qed.
Lemma allpts_nodup : forall rk l, Forall (box_of rk) l -> disj l -> NoDup (flat_map pts l).
Proof.
  intros rk l H. induction H as [|x l Hx Hl IH]; intros D; cbn; [constructor|].
  apply FOP_inv in D as [D1 D2]. apply NoDup_app_intro; auto using pts_nodup.
  intros p P1 P2. apply (pts_in rk) in P1; auto. apply (allpts_in rk) in P2; auto.
  destruct P2 as (y & Hy & Py). rewrite Forall_forall in D1. apply (D1 y Hy p). auto.
Qed.
Lemma allpts_size : forall rk l, Forall (box_of rk) l ->
  Z.of_nat (length (flat_map pts l)) = sumsize l.
Proof.
  intros rk l H. induction H as [|x l Hx Hl IH]; cbn; auto.
  rewrite app_length, Nat2Z.inj_add, (pts_size rk x), IH; auto.
Qed.
Lemma sumsize_app : forall a b, sumsize (a ++ b) = (sumsize a + sumsize b)%Z.
Proof. induction a; intros; cbn; auto. rewrite IHa. lia. Qed.
Lemma sumsize_nonneg : forall rk l, Forall (box_of rk) l -> (0 <= sumsize l)%Z.
Proof. intros rk l H. rewrite <- (allpts_size rk); auto. lia. Qed.

Lemma is_size_sum : forall t, is_size t = sumsize (is_ranges t).
Proof.
  intros t. unfold is_size. generalize (is_ranges t) as l.
  assert (G : forall l a, fold_left (fun acc b => (acc + mdrange_size b)%Z) l a = (a + sumsize l)%Z).
  { induction l as [|x l IH]; intros a; cbn; [lia|]. rewrite IH. lia. }
  intros l. rewrite G. lia.
Qed.

Lemma subtract_smaller : forall rk r x, box_of rk r -> box_of rk x ->
  mdrange_overlaps r x = true -> (sumsize (mdrange_subtract r x) < mdrange_size r)%Z.
Proof.
  intros rk r x Hr Hx Ho.
  apply (overlaps_box rk) in Ho as (p & P1 & P2); auto.
  pose proof (subtract_boxes rk r x Hr Hx) as B.
  rewrite <- (allpts_size rk), <- (pts_size rk r); auto.
  assert (S (length (flat_map pts (mdrange_subtract r x))) <= length (pts r)); [|lia].
  change (length (p :: flat_map pts (mdrange_subtract r x)) <= length (pts r)).
  apply NoDup_incl_length.
  - constructor.
    + intros H. apply (allpts_in rk) in H; auto. apply (subtract_in rk) in H; tauto.
    + eapply allpts_nodup; eauto. eapply subtract_disj; eauto.
  - intros q [<-|Hq]; eapply pts_in; eauto.
    apply (allpts_in rk) in Hq; auto. apply (subtract_in rk) in Hq; tauto.
Qed.

(** More stored points than distinct ones is impossible for disjoint boxes. *)
Lemma subset_size : forall rk l l', Forall (box_of rk) l -> Forall (box_of rk) l' -> disj l ->
  (forall p, in_boxes p l -> in_boxes p l') -> (sumsize l <= sumsize l')%Z.
Proof.
  intros rk l l' H H' D S. rewrite <- (allpts_size rk), <- (allpts_size rk l'); auto.
  apply inj_le. apply NoDup_incl_length; [eapply allpts_nodup; eauto|].
  intros p Hp. apply (allpts_in rk); auto. apply S. apply (allpts_in rk l); auto.
Qed.

Lemma contains_box : forall rk a b, box_of rk a -> box_of rk b ->
  (mdrange_contains a b = true <-> within b a).
Proof.
  intros. unfold within. apply mdrange_contains_spec; eauto using box_of_len, box_of_ranges.
Qed.

Lemma in_boxes_dec : forall p l, in_boxes p l \/ ~ in_boxes p l.
Proof.
  intros p. induction l as [|x l IH].
  - right. apply in_boxes_nil.
  - rewrite in_boxes_cons. destruct (in_box_dec p x); tauto.
Qed.

Section Q.
Variable rk : nat.
Local Notation box := (box_of rk).
Local Notation qok := (qok mdrange box_shape rk).
Local Notation objs := (objs mdrange).
Local Notation nbd := (nbd mdrange).
Local Notation nchildren := (nchildren mdrange).
Local Notation nobjects := (nobjects mdrange).
Local Notation isLeaf := (isLeaf mdrange).
Local Notation scount := (scount mdrange).
Local Notation nodeCount := (nodeCount mdrange).

(** A node's boundary is the smallest box around its content. *)
Fixpoint tight (n : inode) : Prop :=
  (forall c, (forall x, In x (objs n) -> within x c) -> within (nbd n) c)
  /\ fold_right (fun x P => tight x /\ P) True (RTreeModel.nchildren mdrange n).

Lemma tight_unfold : forall n, tight n <->
  (forall c, (forall x, In x (objs n) -> within x c) -> within (nbd n) c)
  /\ Forall tight (nchildren n).
Proof.
  intros [i b c o]. cbn [tight RTreeModel.nchildren].
  rewrite (fold_and_Forall _ tight). reflexivity.
Qed.

(** The sets reachable by the operations. *)
Definition wset (t : iset) : Prop := wf rk 1 (fun _ => True) t.

Lemma sub_tight : forall lo up k r n,
  RTreeProofs.sub mdrange box_shape rk lo up (fun _ => False) r k n -> tight n.
Proof.
  induction k as [|k IH]; intros r n H; rewrite sub_unfold in H; destruct H as (Hb & _ & Hx & Hc);
    destruct (Hx (fun x => x)) as [Hm _]; apply tight_unfold;
    unfold RTreeModel.computeBoundary in Hm;
    rewrite (isLeaf_content mdrange box_shape rk lo up _ _ _ Hc) in Hm; cbn in Hc.
  - destruct Hc as [Hch Ho]. rewrite Hch. split; [|constructor].
    assert (Ho' : Forall box (map box_shape (nobjects n))) by (apply Forall_map; exact Ho).
    apply getMBR_props with (rk := rk) in Hm as [_ [_ Hm]]; [|exact Ho'].
    intros c Hcov. refine (Hm c _). intros b p Hb' Hp. apply in_map_iff in Hb' as (x & <- & Hx').
    apply (Hcov x); [|exact Hp]. apply oin. auto.
  - destruct Hc as (Hch & Ho & Hs).
    assert (Ft : Forall tight (nchildren n)).
    { eapply Forall_impl; [|exact Hs]. intros a Ha. eapply IH; eauto. }
    split; [|exact Ft].
    assert (Ho' : Forall box (map nbd (nchildren n))).
    { apply Forall_forall. intros b Hb'. apply in_map_iff in Hb' as (m & <- & Hm').
      rewrite Forall_forall in Hs. specialize (Hs m Hm').
      rewrite sub_unfold in Hs. apply Hs. }
    apply getMBR_props with (rk := rk) in Hm as [_ [_ Hm]]; [|exact Ho'].
    intros c Hcov. refine (Hm c _). intros b p Hb' Hp. apply in_map_iff in Hb' as (m & <- & Hm').
    rewrite Forall_forall in Ft. destruct (proj1 (tight_unfold m) (Ft m Hm')) as [T _].
    apply (T c); auto. intros x Hx'. apply Hcov. apply oin. right. eauto.
Qed.

Lemma wset_root : forall t r, wset t -> rt_root mdrange t = Some r ->
  qok r /\ tight r /\ is_ranges t = objs r.
Proof.
  intros t r H E. split; [|split].
  - apply (wf_q rk 1 (fun _ => True)) in H. unfold qtree in H. rewrite E in H. auto.
  - destruct H as [H _]. rewrite E in H. destruct H as [[K H] _]. eapply sub_tight; eauto.
  - unfold is_ranges. rewrite E. reflexivity.
Qed.

Lemma wset_boxes : forall t, wset t -> Forall box (is_ranges t).
Proof. intros t H. eapply wf_boxes; eauto. Qed.

Lemma qok_boxes : forall n, qok n -> Forall box (objs n).
Proof.
  intros n H. apply Forall_forall. intros x Hx. apply (qok_covers mdrange box_shape box_eq rk n H x Hx).
Qed.
Lemma qok_points : forall n p, qok n -> in_boxes p (objs n) -> in_box p (nbd n).
Proof.
  intros n p H (x & Hx & Px). apply (qok_covers mdrange box_shape box_eq rk n H x Hx). auto.
Qed.

Lemma qok_children : forall n, qok n -> Forall qok (nchildren n).
Proof.
  intros n H. apply qok_unfold in H. destruct H as (_ & _ & _ & H).
  eapply Forall_impl; [|exact H]. intros a [_ Ha]; exact Ha.
Qed.
Lemma isLeaf_true : forall n : inode, isLeaf n = true <-> nchildren n = [].
Proof. intros [i b [|c l] o]; cbn; split; congruence. Qed.
Lemma qok_leaf : forall n, qok n -> isLeaf n = true -> objs n = nobjects n.
Proof.
  intros n H E. apply isLeaf_true in E. rewrite objs_node, E. cbn. apply app_nil_r.
Qed.
Lemma qok_inner : forall n, qok n -> isLeaf n = false -> objs n = flat_map objs (nchildren n).
Proof.
  intros n H E. rewrite objs_node. apply qok_unfold in H. destruct H as (_ & _ & H & _).
  destruct H as [[H _]|[_ ->]]; auto. apply isLeaf_true in H. congruence.
Qed.

(** ** contains(box) *)

Lemma findOverlapping_spec : forall fuel b st, box b -> Forall qok st -> scount st <= fuel ->
  exists o, findOverlapping fuel b st = Ok o
    /\ match o with
       | Some x => In x (flat_map objs st) /\ mdrange_overlaps b x = true
       | None => forall x, In x (flat_map objs st) -> mdrange_overlaps b x = false
       end.
Proof.
  induction fuel as [|f IH]; intros b [|n st] Hb H Hc; cbn [findOverlapping].
  - exists None; split; auto. intros x [].
  - cbn in Hc. rewrite nodeCount_eq in Hc. lia.
  - exists None; split; auto. intros x [].
  - pose proof (Forall_inv H) as Hn.
    destruct (find _ (nobjects n)) as [x|] eqn:E.
    + exists (Some x). split; auto. apply find_some in E as [Hx E]. split; auto.
      cbn. apply in_or_app. left. apply oin. auto.
    + destruct (IH b (kids mdrange b n ++ st)) as (o & Ho & Hs); auto.
      { apply (kids_qok mdrange box_shape rk); auto. }
      { pose proof (kids_count mdrange b n st). lia. }
      exists o. split; auto. destruct o as [x|].
      * destruct Hs as [Hs1 Hs2]. split; auto.
        apply (search_step mdrange box_shape box_eq rk b n st x); auto.
        unfold box_shape. rewrite mdrange_overlaps_sym. auto.
      * intros x Hx. destruct (mdrange_overlaps b x) eqn:Eo; auto. exfalso.
        assert (Eo' : mdrange_overlaps x b = true) by (rewrite mdrange_overlaps_sym; auto).
        apply (search_step mdrange box_shape box_eq rk b n st x) in Hx as [Hx|Hx]; auto.
        -- pose proof (find_none _ _ E x Hx) as N. cbn in N. congruence.
        -- rewrite Hs in Eo; auto. discriminate.
Qed.

Lemma containsBoxLoop_spec : forall root : inode, qok root -> forall fuel queue, Forall box queue ->
  (sumsize queue < Z.of_nat fuel)%Z ->
  exists v, containsBoxLoop fuel root queue = Ok v
    /\ (v = true <-> forall p, in_boxes p queue -> in_boxes p (objs root)).
Proof.
  intros root Hr. induction fuel as [|f IH]; intros queue Hq Hf.
  - pose proof (sumsize_nonneg rk queue Hq). lia.
  - destruct queue as [|range rest]; cbn [containsBoxLoop].
    { exists true. split; auto. split; auto. intros _ p Hp. destruct (in_boxes_nil _ Hp). }
    inversion Hq as [|? ? Hb Hrest]; subst.
    assert (Hst : exists o, findOverlapping (nodeCount root) range
        (if mdrange_overlaps (nbd root) range then [root] else []) = Ok o
        /\ match o with
           | Some x => In x (objs root) /\ mdrange_overlaps range x = true
           | None => forall x, In x (objs root) -> mdrange_overlaps range x = false
           end).
    { destruct (mdrange_overlaps (nbd root) range) eqn:E.
      - destruct (findOverlapping_spec (nodeCount root) range [root]) as (o & Ho & Hs); auto.
        { cbn; lia. }
        exists o. split; auto. cbn in Hs. rewrite app_nil_r in Hs. auto.
      - exists None. rewrite nodeCount_eq. split; auto. intros x Hx.
        destruct (mdrange_overlaps range x) eqn:E2; auto. rewrite <- E. symmetry.
        rewrite mdrange_overlaps_sym in E2.
        eapply (root_overlaps rk); eauto. }
    destruct Hst as (o & Ho & Hs). rewrite Ho. cbn [bind].
    destruct o as [x|].
    + destruct Hs as [Hx Eo]. assert (Bx : box x).
      { pose proof (qok_boxes root Hr) as F. rewrite Forall_forall in F. auto. }
      destruct (IH (rest ++ mdrange_subtract range x)) as (v & Hv & Sv).
      * apply Forall_app; split; auto. eapply subtract_boxes; eauto.
      * pose proof (subtract_smaller rk range x Hb Bx Eo). rewrite sumsize_app.
        cbn in Hf. lia.
      * exists v. split; auto. rewrite Sv. split; intros H p Hp.
        -- apply in_boxes_cons in Hp as [Hp|Hp].
           ++ destruct (in_box_dec p x) as [Px|Px]; [exists x; auto|].
              apply H. apply in_boxes_app. right. apply (subtract_in rk); auto.
           ++ apply H. apply in_boxes_app. auto.
        -- apply in_boxes_app in Hp as [Hp|Hp]; apply H; apply in_boxes_cons; auto.
           left. apply (subtract_in rk) in Hp; tauto.
    + exists false. split; auto. split; [discriminate|]. intros H. exfalso.
      destruct (box_point rk range Hb) as [p Hp].
      destruct (H p) as (x & Hx & Px); [apply in_boxes_cons; auto|].
      pose proof (qok_boxes root Hr) as F. rewrite Forall_forall in F.
      assert (mdrange_overlaps range x = true); [|rewrite Hs in *; auto; discriminate].
      apply (overlaps_box rk); eauto.
Qed.

Lemma contains_box_spec : forall t b, wset t -> box b ->
  exists v, is_contains_box t b = Ok v
    /\ (v = true <-> forall p, in_box p b -> in_boxes p (is_ranges t)).
Proof.
  intros t b Ht Hb. unfold is_contains_box.
  destruct (rt_root mdrange t) as [r|] eqn:E.
  - destruct (wset_root t r Ht E) as (Q & _ & ->).
    destruct (containsBoxLoop_spec r Q (S (Z.to_nat (mdrange_size b))) [b]) as (v & Hv & Sv); auto.
    { pose proof (size_pos rk b Hb). cbn [sumsize]. lia. }
    exists v. split; auto. rewrite Sv. split; intros H p Hp; apply H; apply in_boxes_single; auto.
  - exists false. split; auto. split; [discriminate|]. intros H. exfalso.
    destruct (box_point rk b Hb) as [p Hp]. apply H in Hp. unfold is_ranges in Hp. rewrite E in Hp.
    destruct (in_boxes_nil _ Hp).
Qed.

Lemma point_box : forall p, length p = rk -> 1 <= rk -> box (mdrange_of_point p).
Proof.
  intros p H H1. split; [split|].
  - intros E. apply (f_equal (@length _)) in E. unfold mdrange_of_point in E.
    rewrite map_length in E. cbn in E. lia.
  - apply of_point_ok.
  - unfold mdrange_of_point. rewrite map_length. auto.
Qed.

Lemma contains_point_spec : forall t p, wset t -> length p = rk -> 1 <= rk ->
  exists v, is_contains_point t p = Ok v /\ (v = true <-> in_boxes p (is_ranges t)).
Proof.
  intros t p Ht Hl Hrk. unfold is_contains_point.
  destruct (contains_box_spec t (mdrange_of_point p) Ht (point_box p Hl Hrk)) as (v & Hv & S).
  exists v. split; auto. rewrite S. split; intros H.
  - apply H. apply in_box_of_point. auto.
  - intros q Hq. apply in_box_of_point in Hq. subst. auto.
Qed.

(** ** Simultaneous descent *)

Fixpoint pcount (l : list (inode * inode)) : nat :=
  match l with [] => 0 | q :: l' => nodeCount (fst q) * nodeCount (snd q) + pcount l' end.
Lemma pcount_app : forall a b, pcount (a ++ b) = pcount a + pcount b.
Proof. induction a; intros; cbn; auto. rewrite IHa. lia. Qed.
Lemma pcount_rev : forall a, pcount (rev a) = pcount a.
Proof. induction a; cbn; auto. rewrite pcount_app. cbn. lia. Qed.
Lemma pcount_left : forall l r, pcount (map (fun c => (c, r)) l) = scount l * nodeCount r.
Proof. induction l; intros; cbn; auto. rewrite IHl. lia. Qed.
Lemma pcount_right : forall l r, pcount (map (fun c => (l, c)) r) = nodeCount l * scount r.
Proof. induction r; cbn; auto. rewrite IHr. lia. Qed.

Definition pair_in (st : list (inode * inode)) (x y : mdrange) : Prop :=
  exists l r, In (l, r) st /\ In x (objs l) /\ In y (objs r).

Lemma objs_overlap_nodes : forall l r x y, qok l -> qok r -> In x (objs l) -> In y (objs r) ->
  mdrange_overlaps x y = true -> mdrange_overlaps (nbd l) (nbd r) = true.
Proof.
  intros l r x y Hl Hr Hx Hy Ho.
  destruct (qok_covers mdrange box_shape box_eq rk l Hl x Hx) as [Bx Wx].
  destruct (qok_covers mdrange box_shape box_eq rk r Hr y Hy) as [By Wy].
  apply (overlaps_box rk) in Ho as (p & P1 & P2); auto.
  apply (overlaps_box rk); eauto using qok_bd.
Qed.

Lemma pairWalk_spec : forall fuel st, Forall (fun q => qok (fst q) /\ qok (snd q)) st ->
  pcount st <= fuel ->
  exists L, pairWalk fuel st = Ok L
    /\ forall x y, In (x, y) (flat_map overlappingObjects L) <->
         pair_in st x y /\ mdrange_overlaps x y = true.
Proof.
  induction fuel as [|f IH]; intros [|[l r] st] H Hc; cbn [pairWalk].
  - exists []. split; auto. intros x y. cbn. split; [tauto|]. intros [(l & r & [] & _) _].
  - cbn in Hc. rewrite !nodeCount_eq in Hc. lia.
  - exists []. split; auto. intros x y. cbn. split; [tauto|]. intros [(l & r & [] & _) _].
  - inversion H as [|? ? [Hl Hr] Hst]; subst. cbn [fst snd] in Hl, Hr. cbn [pcount fst snd] in Hc.
    pose proof (nodeCount_eq mdrange l) as Nl. pose proof (nodeCount_eq mdrange r) as Nr.
    destruct (isLeaf l) eqn:El; [destruct (isLeaf r) eqn:Er|].
    + destruct (IH st) as (L & HL & S); auto; [nia|].
      rewrite HL. cbn [bind]. eexists. split; [reflexivity|]. intros x y.
      cbn [flat_map]. rewrite in_app_iff, S.
      unfold overlappingObjects at 1. rewrite filter_In. cbn [fst snd].
      rewrite in_prod_iff. unfold pair_in. split.
      * intros [[[Hx Hy] Ho]|[(l' & r' & Hi & Hx & Hy) Ho]].
        -- split; auto. exists l, r. split; [left; auto|]. rewrite (qok_leaf l), (qok_leaf r); auto.
        -- split; auto. exists l', r'. split; [right; auto|]. auto.
      * intros [(l' & r' & [[= <- <-]|Hi] & Hx & Hy) Ho].
        -- left. rewrite (qok_leaf l), (qok_leaf r) in *; auto.
        -- right. split; auto. exists l', r'. auto.
    + destruct (IH (rev (map (fun c => (l, c))
                 (filter (fun c => mdrange_overlaps (nbd c) (nbd l)) (nchildren r))) ++ st))
        as (L & HL & S).
      * apply Forall_app; split; auto. apply Forall_rev. apply Forall_map. apply Forall_filter.
        eapply Forall_impl; [|apply qok_children; exact Hr]. cbn. auto.
      * rewrite pcount_app, pcount_rev, pcount_right.
        pose proof (scount_filter mdrange (fun c => mdrange_overlaps (nbd c) (nbd l)) (nchildren r)).
        nia.
      * exists L. split; auto. intros x y. rewrite S. unfold pair_in. split.
        -- intros [(l' & r' & Hi & Hx & Hy) Ho]. split; auto.
           apply in_app_or in Hi as [Hi|Hi]; [|exists l', r'; split; [right; auto|]; auto].
           rewrite <- in_rev in Hi. apply in_map_iff in Hi as (c & [= <- <-] & Hi).
           apply filter_In in Hi as [Hi _]. exists l, r. split; [left; auto|]. split; auto.
           apply oin. right. eauto.
        -- intros [(l' & r' & [[= <- <-]|Hi] & Hx & Hy) Ho]; split; auto.
           2: { exists l', r'. split; [apply in_or_app; auto|]. auto. }
           rewrite (qok_inner r) in Hy; auto. apply in_flat_map in Hy as (c & Hi & Hy).
           exists l, c. split; [|auto]. apply in_or_app. left. rewrite <- in_rev.
           apply in_map_iff. exists c. split; auto. apply filter_In. split; auto.
           rewrite mdrange_overlaps_sym. pose proof (qok_children r Hr) as Q.
           rewrite Forall_forall in Q. eapply objs_overlap_nodes; eauto.
    + destruct (IH (rev (map (fun c => (c, r))
                 (filter (fun c => mdrange_overlaps (nbd c) (nbd r)) (nchildren l))) ++ st))
        as (L & HL & S).
      * apply Forall_app; split; auto. apply Forall_rev. apply Forall_map. apply Forall_filter.
        eapply Forall_impl; [|apply qok_children; exact Hl]. cbn. auto.
      * rewrite pcount_app, pcount_rev, pcount_left.
        pose proof (scount_filter mdrange (fun c => mdrange_overlaps (nbd c) (nbd r)) (nchildren l)).
        nia.
      * exists L. split; auto. intros x y. rewrite S. unfold pair_in. split.
        -- intros [(l' & r' & Hi & Hx & Hy) Ho]. split; auto.
           apply in_app_or in Hi as [Hi|Hi]; [|exists l', r'; split; [right; auto|]; auto].
           rewrite <- in_rev in Hi. apply in_map_iff in Hi as (c & [= <- <-] & Hi).
           apply filter_In in Hi as [Hi _]. exists l, r. split; [left; auto|]. split; auto.
           apply oin. right. eauto.
        -- intros [(l' & r' & [[= <- <-]|Hi] & Hx & Hy) Ho]; split; auto.
           2: { exists l', r'. split; [apply in_or_app; auto|]. auto. }
           rewrite (qok_inner l) in Hx; auto. apply in_flat_map in Hx as (c & Hi & Hx).
           exists c, r. split; [|auto]. apply in_or_app. left. rewrite <- in_rev.
           apply in_map_iff. exists c. split; auto. apply filter_In. split; auto.
           pose proof (qok_children l Hl) as Q.
           rewrite Forall_forall in Q. eapply objs_overlap_nodes; eauto.
Qed.

Lemma pairLeaves_spec : forall t u, wset t -> wset u ->
  exists L, pairLeaves t u = Ok L
    /\ forall x y, In (x, y) (flat_map overlappingObjects L) <->
         In x (is_ranges t) /\ In y (is_ranges u) /\ mdrange_overlaps x y = true.
Proof.
  intros t u Ht Hu. unfold pairLeaves.
  destruct (rt_root mdrange t) as [l|] eqn:El.
  2: { exists []. split; auto. intros x y. unfold is_ranges at 1. rewrite El. cbn. tauto. }
  destruct (rt_root mdrange u) as [r|] eqn:Er.
  2: { exists []. split; auto. intros x y. unfold is_ranges at 2. rewrite Er. cbn. tauto. }
  destruct (wset_root t l Ht El) as (Ql & _ & ->). destruct (wset_root u r Hu Er) as (Qr & _ & ->).
  destruct (mdrange_overlaps (nbd l) (nbd r)) eqn:E.
  - destruct (pairWalk_spec (nodeCount l * nodeCount r) [(l, r)]) as (L & HL & S); auto.
    { cbn. lia. }
    exists L. split; auto. intros x y. rewrite S. unfold pair_in. split.
    + intros [(l' & r' & [[= <- <-]|[]] & Hx & Hy) Ho]. auto.
    + intros (Hx & Hy & Ho). split; auto. exists l, r. split; [left; auto|]. auto.
  - destruct (pairWalk_spec (nodeCount l * nodeCount r) []) as (L & HL & S); auto.
    { cbn. lia. }
    exists L. split; auto. intros x y. rewrite S. unfold pair_in. split.
    + intros [(l' & r' & [] & _) _].
    + intros (Hx & Hy & Ho). rewrite (objs_overlap_nodes l r x y) in E; auto. discriminate.
Qed.

Lemma overlaps_set_spec : forall t u, wset t -> wset u ->
  exists v, is_overlaps_set t u = Ok v
    /\ (v = true <-> exists p, in_boxes p (is_ranges t) /\ in_boxes p (is_ranges u)).
Proof.
  intros t u Ht Hu. unfold is_overlaps_set.
  destruct (pairLeaves_spec t u Ht Hu) as (L & HL & S). rewrite HL. cbn [bind].
  eexists. split; [reflexivity|].
  pose proof (wset_boxes t Ht) as Bt. pose proof (wset_boxes u Hu) as Bu.
  rewrite Forall_forall in Bt, Bu. rewrite existsb_exists. split.
  - intros (q & Hq & Ho). destruct (overlappingObjects q) as [|[x y] rest] eqn:E; [discriminate|].
    assert (I : In (x, y) (flat_map overlappingObjects L)).
    { apply in_flat_map. exists q. split; auto. rewrite E. left; auto. }
    apply S in I as (Hx & Hy & I). apply (overlaps_box rk) in I as (p & P1 & P2); auto.
    exists p. split; [exists x; auto|exists y; auto].
  - intros (p & (x & Hx & Px) & (y & Hy & Py)).
    assert (I : In (x, y) (flat_map overlappingObjects L)).
    { apply S. split; auto. split; auto. apply (overlaps_box rk); eauto. }
    apply in_flat_map in I as (q & Hq & I). exists q. split; auto.
    destruct (overlappingObjects q); [destruct I|auto].
Qed.

(** ** Containment of trees: the version behind operator== *)

Lemma leavesWithin_spec : forall bound, box bound -> forall fuel st, Forall qok st -> Forall tight st ->
  scount st <= fuel ->
  exists o, leavesWithin fuel bound st = Ok o
    /\ match o with
       | Some l => forall x, In x (flat_map nobjects l) <-> In x (flat_map objs st)
       | None => exists x p, In x (flat_map objs st) /\ in_box p x /\ ~ in_box p bound
       end.
Proof.
  intros bound Hb. induction fuel as [|f IH]; intros [|n st] Hq Ht Hc; cbn [leavesWithin].
  - exists (Some []). split; auto. intros x. reflexivity.
  - cbn in Hc. rewrite nodeCount_eq in Hc. lia.
  - exists (Some []). split; auto. intros x. reflexivity.
  - inversion Hq as [|? ? Qn Qst]; subst. inversion Ht as [|? ? Tn Tst]; subst.
    destruct (mdrange_contains bound (nbd n)) eqn:E; cbn [negb].
    + destruct (IH (rev (nchildren n) ++ st)) as (o & Ho & S).
      * apply Forall_app; split; auto. apply Forall_rev. apply qok_children; auto.
      * apply Forall_app; split; auto. apply Forall_rev. apply tight_unfold in Tn. tauto.
      * rewrite scount_app, scount_rev. cbn in Hc. rewrite nodeCount_eq in Hc. lia.
      * rewrite Ho. cbn [bind]. eexists. split; [reflexivity|].
        assert (G : forall x, In x (flat_map objs (rev (nchildren n) ++ st)) <->
                    In x (flat_map objs (nchildren n)) \/ In x (flat_map objs st)).
        { intros x. rewrite flat_map_app, in_app_iff, !in_flat_map.
          split; (intros [(c & H1 & H2)|H]; [left; exists c; rewrite <- in_rev in *; auto|auto]). }
        destruct o as [l|].
        -- intros x. destruct (isLeaf n) eqn:En.
           ++ cbn. rewrite !in_app_iff, S, G, (qok_leaf n), (proj1 (isLeaf_true n) En); auto.
              cbn. tauto.
           ++ rewrite S, G. cbn. rewrite in_app_iff, (qok_inner n); auto. tauto.
        -- destruct S as (x & p & Hx & Hp & Hn). exists x, p. split; auto. cbn.
           rewrite in_app_iff, objs_node, in_app_iff. apply G in Hx. tauto.
    + exists None. split; auto. apply tight_unfold in Tn. destruct Tn as [Tn _].
      assert (X : exists x p, In x (objs n) /\ in_box p x /\ ~ in_box p bound).
      { pose proof (qok_boxes n Qn) as F.
        assert (D : (forall x, In x (objs n) -> mdrange_contains bound x = true) \/
                    exists x, In x (objs n) /\ mdrange_contains bound x = false).
        { clear - F. induction (objs n) as [|x l IH]; [left; intros x []|].
          inversion F; subst. destruct (IH H2) as [A|(y & A & B)].
          - destruct (mdrange_contains bound x) eqn:E; [|right; exists x; split; [left|]; auto].
            left. intros y [<-|Hy]; auto.
          - right. exists y. split; [right|]; auto. }
        rewrite Forall_forall in F.
        destruct D as [D|(x & Hx & D)].
        - exfalso. assert (W : within (nbd n) bound).
          { apply Tn. intros x Hx p Hp. specialize (D x Hx).
            apply (contains_box rk) in D; auto. }
          apply (contains_box rk) in W; eauto using qok_bd. congruence.
        - exists x.
          assert (N : ~ within x bound) by (intros W; apply (contains_box rk) in W; auto; congruence).
          assert (exists p, In p (pts x) /\ ~ in_box p bound) as (p & Hp & Np).
          { destruct (Forall_Exists_dec (fun p => in_box p bound)) with (l := pts x) as [A|A].
            - intros p. destruct (mdrange_contains_point bound p) eqn:Ec.
              + destruct (Nat.eq_dec (length p) (length bound)) as [El|El].
                * left. apply mdrange_contains_point_spec; auto.
                * right. intros H. apply in_box_length in H. auto.
              + right. intros H. pose proof (in_box_length _ _ H) as El.
                apply mdrange_contains_point_spec in H; auto. congruence.
            - exfalso. apply N. intros p Hp. rewrite Forall_forall in A. apply A.
              apply (pts_in rk); auto.
            - apply Exists_exists in A. auto. }
          exists p. split; auto. split; auto. apply (pts_in rk) in Hp; auto. }
      destruct X as (x & p & Hx & Hp & Hn). exists x, p. split; auto. cbn. apply in_or_app. auto.
Qed.

Lemma all_contained_spec : forall t, wset t -> forall l, Forall box l ->
  exists v, all_contained t l = Ok v
    /\ (v = true <-> forall p, in_boxes p l -> in_boxes p (is_ranges t)).
Proof.
  intros t Ht l H. induction H as [|b l Hb Hl IH]; cbn [all_contained].
  - exists true. split; auto. split; auto. intros _ p Hp. destruct (in_boxes_nil _ Hp).
  - destruct (contains_box_spec t b Ht Hb) as (c & Hc & Sc). rewrite Hc. cbn [bind].
    destruct c.
    + destruct IH as (v & Hv & Sv). exists v. split; auto. rewrite Sv. split.
      * intros H p Hp. apply in_boxes_cons in Hp as [Hp|Hp]; auto. apply Sc; auto.
      * intros H p Hp. apply H. apply in_boxes_cons. auto.
    + exists false. split; auto. split; [discriminate|]. intros H. apply Sc.
      intros p Hp. apply H. apply in_boxes_cons. auto.
Qed.

Lemma rtree_contains_spec : forall t u, wset t -> wset u ->
  exists v, is_rtree_contains t u = Ok v
    /\ (v = true <-> forall p, in_boxes p (is_ranges u) -> in_boxes p (is_ranges t)).
Proof.
  intros t u Ht Hu. unfold is_rtree_contains.
  destruct (rt_root mdrange u) as [r|] eqn:Er.
  2: { exists true. split; auto. split; auto. intros _ p Hp. unfold is_ranges in Hp. rewrite Er in Hp.
       destruct (in_boxes_nil _ Hp). }
  destruct (wset_root u r Hu Er) as (Qr & Tr & Er').
  pose proof (wset_boxes u Hu) as Bu.
  destruct (rt_root mdrange t) as [l|] eqn:El.
  2: { exists false. split; auto. split; [discriminate|]. intros H. exfalso.
       rewrite Er' in *. destruct (objs r) as [|x os] eqn:Eo.
       - eapply (qok_nonempty mdrange box_shape rk); eauto.
       - inversion Bu; subst. destruct (box_point rk x) as [p Hp]; auto.
         assert (in_boxes p (is_ranges t)) as X by (apply H; apply in_boxes_cons; auto).
         unfold is_ranges in X. rewrite El in X. destruct (in_boxes_nil _ X). }
  destruct (wset_root t l Ht El) as (Ql & Tl & El').
  destruct (leavesWithin_spec (nbd l) (qok_bd mdrange box_shape rk l Ql) (nodeCount r) [r])
    as (o & Ho & S); auto.
  { cbn; lia. }
  rewrite Ho. cbn [bind]. cbn [flat_map] in S. rewrite app_nil_r in S. destruct o as [leaves|].
  - destruct (all_contained_spec t Ht (flat_map nobjects leaves)) as (v & Hv & Sv).
    { apply Forall_forall. intros x Hx. apply S in Hx. rewrite <- Er' in Hx.
      rewrite Forall_forall in Bu. auto. }
    exists v. split; auto. rewrite Sv, Er'.
    split; intros H p (x & Hx & Px); apply H; exists x; split; auto; apply S; auto.
  - exists false. split; auto. split; [discriminate|]. intros H. exfalso.
    destruct S as (x & p & Hx & Px & Np). apply Np. apply qok_points; auto. rewrite <- El'.
    apply H. rewrite Er'. exists x; auto.
Qed.

Lemma eq_spec : forall t u, wset t -> wset u -> is_rank t = is_rank u ->
  exists v, is_eq t u = Ok v
    /\ (v = true <-> forall p, in_boxes p (is_ranges t) <-> in_boxes p (is_ranges u)).
Proof.
  intros t u Ht Hu Hr. unfold is_eq. rewrite Hr, Nat.eqb_refl. cbn [negb].
  destruct (rtree_contains_spec t u Ht Hu) as (c & Hc & Sc). rewrite Hc. cbn [bind].
  destruct c.
  - destruct (rtree_contains_spec u t Hu Ht) as (d & Hd & Sd). rewrite Hd.
    exists d. split; auto. rewrite Sd. split.
    + intros H p. split; auto. apply Sc. auto.
    + intros H p. apply H.
  - exists false. split; auto. split; [discriminate|]. intros H. apply Sc. intros p. apply H.
Qed.

(** ** contains(IndexSet) *)

Lemma remainingAfter_in : forall l b, box b -> Forall box l ->
  Forall box (remainingAfter b l)
  /\ forall p, in_boxes p (remainingAfter b l) <-> in_box p b /\ ~ in_boxes p l.
Proof.
  intros l b Hb Hl. unfold remainingAfter.
  assert (G : forall l, Forall box l -> forall rem, Forall box rem ->
    Forall box (fold_left (fun rem x => flat_map (fun q => mdrange_subtract q x) rem) l rem)
    /\ forall p, in_boxes p (fold_left (fun rem x => flat_map (fun q => mdrange_subtract q x) rem) l rem)
        <-> in_boxes p rem /\ ~ in_boxes p l).
  { clear l b Hb Hl. intros l H. induction H as [|x l Hx Hl IH]; intros rem Hr; cbn [fold_left].
    - split; auto. intros p. pose proof (in_boxes_nil p). tauto.
    - destruct (flat_subtract_spec rk x Hx rem Hr) as (A & B & _).
      destruct (IH _ A) as (C & D). split; auto. intros p. rewrite D, B, in_boxes_cons. tauto. }
  destruct (G l Hl [b]) as (A & B); auto. split; auto. intros p. rewrite B, in_boxes_single. tauto.
Qed.

Definition covered (e : inode * list inode) : Prop :=
  forall p, in_boxes p (objs (fst e)) -> in_boxes p (flat_map objs (snd e)).
Definition entry_ok (e : inode * list inode) : Prop := qok (fst e) /\ Forall qok (snd e).

Definition expandLhs (rhs : inode) (lhsNodes : list inode) : list inode :=
  flat_map (fun l => if isLeaf l then [l]
                     else filter (fun c => mdrange_overlaps (nbd c) (nbd rhs)) (nchildren l)) lhsNodes.
Definition nodesFor (lhsNodes : list inode) (child : inode) : list inode :=
  flat_map
    (fun l => if isLeaf l
              then (if mdrange_overlaps (nbd l) (nbd child) then [l] else [])
              else map (fun _ => l)
                     (filter (fun lc => mdrange_overlaps (nbd lc) (nbd child)) (nchildren l)))
    lhsNodes.

Lemma point_overlap : forall a b p, box a -> box b -> in_box p a -> in_box p b ->
  mdrange_overlaps a b = true.
Proof. intros. apply (overlaps_box rk); eauto. Qed.

Lemma expandLhs_ok : forall rhs ls, Forall qok ls -> Forall qok (expandLhs rhs ls).
Proof.
  intros rhs ls H. apply Forall_forall. intros x Hx. apply in_flat_map in Hx as (l & Hl & Hx).
  rewrite Forall_forall in H. specialize (H l Hl). destruct (isLeaf l).
  - destruct Hx as [<-|[]]; auto.
  - apply filter_In in Hx as [Hx _]. pose proof (qok_children l H) as Q.
    rewrite Forall_forall in Q. auto.
Qed.
Lemma expandLhs_covered : forall rhs ls, qok rhs -> Forall qok ls ->
  (covered (rhs, expandLhs rhs ls) <-> covered (rhs, ls)).
Proof.
  intros rhs ls Hr Hl. rewrite Forall_forall in Hl. unfold covered; cbn [fst snd].
  split; intros H p Hp; pose proof (qok_points rhs p Hr Hp) as Pr; specialize (H p Hp);
    destruct H as (x & Hx & Px).
  - exists x. split; auto. apply in_flat_map in Hx as (c & Hc & Hx).
    apply in_flat_map in Hc as (l & Hi & Hc). apply in_flat_map. exists l. split; auto.
    destruct (isLeaf l) eqn:E.
    + destruct Hc as [<-|[]]; auto.
    + apply filter_In in Hc as [Hc _]. apply oin. eauto.
  - exists x. split; auto. apply in_flat_map in Hx as (l & Hi & Hx). specialize (Hl l Hi).
    apply in_flat_map. destruct (isLeaf l) eqn:E.
    + exists l. split; auto. apply in_flat_map. exists l. split; auto. rewrite E. left; auto.
    + rewrite (qok_inner l) in Hx; auto. apply in_flat_map in Hx as (c & Hc & Hx).
      exists c. split; auto. apply in_flat_map. exists l. split; auto. rewrite E.
      apply filter_In. split; auto.
      pose proof (qok_children l Hl) as Q. rewrite Forall_forall in Q.
      apply (point_overlap _ _ p); eauto using qok_bd. apply qok_points; auto. exists x; auto.
Qed.

Lemma nodesFor_ok : forall ls c, Forall qok ls -> Forall qok (nodesFor ls c).
Proof.
  intros ls c H. apply Forall_forall. intros x Hx. apply in_flat_map in Hx as (l & Hl & Hx).
  rewrite Forall_forall in H. specialize (H l Hl). destruct (isLeaf l).
  - destruct (mdrange_overlaps _ _); [destruct Hx as [<-|[]]; auto|destruct Hx].
  - apply in_map_iff in Hx as (? & <- & _). auto.
Qed.
Lemma nodesFor_covered : forall ls c, qok c -> Forall qok ls ->
  (covered (c, nodesFor ls c) <-> covered (c, ls)).
Proof.
  intros ls c Hc Hl. rewrite Forall_forall in Hl. unfold covered; cbn [fst snd].
  split; intros H p Hp; pose proof (qok_points c p Hc Hp) as Pr; specialize (H p Hp);
    destruct H as (x & Hx & Px).
  - exists x. split; auto. apply in_flat_map in Hx as (m & Hm & Hx).
    apply in_flat_map in Hm as (l & Hi & Hm). apply in_flat_map. exists l. split; auto.
    destruct (isLeaf l) eqn:E.
    + destruct (mdrange_overlaps _ _); [destruct Hm as [<-|[]]; auto|destruct Hm].
    + apply in_map_iff in Hm as (? & <- & _). auto.
  - exists x. split; auto. apply in_flat_map in Hx as (l & Hi & Hx). specialize (Hl l Hi).
    apply in_flat_map. exists l. split; auto. apply in_flat_map. exists l. split; auto.
    destruct (isLeaf l) eqn:E.
    + rewrite (point_overlap (nbd l) (nbd c) p); eauto using qok_bd; [left; auto|].
      apply qok_points; auto. exists x; auto.
    + rewrite (qok_inner l) in Hx; auto. apply in_flat_map in Hx as (m & Hm & Hx).
      apply in_map_iff. exists m. split; auto. apply filter_In. split; auto.
      pose proof (qok_children l Hl) as Q. rewrite Forall_forall in Q.
      apply (point_overlap _ _ p); eauto using qok_bd. apply qok_points; auto. exists x; auto.
Qed.
Lemma covered_inner : forall r ls, qok r -> isLeaf r = false ->
  (covered (r, ls) <-> Forall (fun c => covered (c, ls)) (nchildren r)).
Proof.
  intros r ls Hr E. unfold covered; cbn [fst snd]. rewrite (qok_inner r), Forall_forall; auto. split.
  - intros H c Hc p (x & Hx & Px). apply H. exists x. split; auto. apply in_flat_map. eauto.
  - intros H p (x & Hx & Px). apply in_flat_map in Hx as (c & Hc & Hx). apply (H c Hc). exists x; auto.
Qed.
Lemma covered_nil : forall c, qok c -> ~ covered (c, []).
Proof.
  intros c Hc H. pose proof (qok_nonempty mdrange box_shape rk c Hc) as N.
  pose proof (qok_boxes c Hc) as B. unfold covered in H; cbn in H.
  destruct (objs c) as [|x l]; [congruence|]. inversion B; subst.
  destruct (box_point rk x) as [p Hp]; auto.
  apply (in_boxes_nil p). apply H. apply in_boxes_cons. auto.
Qed.

Definition leafTest (rhs : inode) (ls : list inode) : bool :=
  existsb (fun o => match remainingAfter o (flat_map nobjects ls) with [] => false | _ => true end)
    (nobjects rhs).
Lemma leafTest_spec : forall rhs ls, qok rhs -> Forall qok ls -> isLeaf rhs = true ->
  existsb (fun l => negb (isLeaf l)) ls = false ->
  (leafTest rhs ls = false <-> covered (rhs, ls)).
Proof.
  intros rhs ls Hr Hl Er El.
  assert (Eo : flat_map nobjects ls = flat_map objs ls).
  { clear - Hl El. induction Hl as [|l ls Ql Qls IH]; auto. cbn in *.
    apply orb_false_iff in El as [E1 E2]. rewrite IH; auto. f_equal. symmetry. apply qok_leaf; auto.
    destruct (isLeaf l); auto; discriminate. }
  assert (Bl : Forall box (flat_map objs ls)).
  { apply Forall_forall. intros x Hx. apply in_flat_map in Hx as (l & Hi & Hx).
    rewrite Forall_forall in Hl. pose proof (qok_boxes l (Hl l Hi)) as F. rewrite Forall_forall in F. auto. }
  unfold leafTest, covered. cbn [fst snd]. rewrite Eo, (qok_leaf rhs); auto.
  pose proof (qok_boxes rhs Hr) as Br. rewrite (qok_leaf rhs) in Br; auto.
  rewrite Forall_forall in Br. split.
  - intros H p (x & Hx & Px). destruct (in_boxes_dec p (flat_map objs ls)) as [D|D]; auto. exfalso.
    destruct (remainingAfter_in (flat_map objs ls) x (Br x Hx) Bl) as [_ S].
    assert (I : in_boxes p (remainingAfter x (flat_map objs ls))) by (apply S; auto).
    assert (X : existsb (fun o => match remainingAfter o (flat_map objs ls) with [] => false | _ => true end)
      (nobjects rhs) = true).
    { apply existsb_exists. exists x. split; auto. destruct (remainingAfter x _); auto.
      destruct (in_boxes_nil _ I). }
    congruence.
  - intros H. clear El. destruct (existsb _ _) eqn:X; auto. exfalso.
    apply existsb_exists in X as (x & Hx & X).
    destruct (remainingAfter_in (flat_map objs ls) x (Br x Hx) Bl) as [F S].
    destruct (remainingAfter x _) as [|q rest]; [discriminate|]. inversion F; subst.
    destruct (box_point rk q) as [p Hp]; auto.
    assert (I : in_boxes p (q :: rest)) by (apply in_boxes_cons; auto).
    apply S in I as [I1 I2]. apply I2. apply H. exists x; auto.
Qed.

Lemma containsSetLoop_sound : forall fuel st v, Forall entry_ok st ->
  containsSetLoop fuel st = Ok v -> (v = true <-> Forall covered st).
Proof.
  induction fuel as [|f IH]; intros [|[rhs ls] st] v Hst H; cbn [containsSetLoop] in H.
  - injection H as <-. split; auto.
  - discriminate.
  - injection H as <-. split; auto.
  - inversion Hst as [|? ? [Hr Hl] Hst']; subst. cbn [fst snd] in Hr, Hl.
    destruct (isLeaf rhs) eqn:Er.
    + destruct (existsb (fun l => negb (isLeaf l)) ls) eqn:El.
      * fold (expandLhs rhs ls) in H. apply IH in H.
        -- rewrite H. split; intros F; inversion F; subst; constructor; auto;
             apply expandLhs_covered; auto.
        -- constructor; auto. split; cbn [fst snd]; auto using expandLhs_ok.
      * fold (leafTest rhs ls) in H. pose proof (leafTest_spec rhs ls Hr Hl Er El) as L.
        destruct (leafTest rhs ls).
        -- injection H as <-. split; [discriminate|]. intros F. inversion F; subst.
           apply L in H1. discriminate.
        -- apply IH in H; auto. rewrite H. split; intros F.
           ++ constructor; auto. apply L; auto.
           ++ inversion F; auto.
    + fold (nodesFor ls) in H.
      assert (Qc : Forall qok (nchildren rhs)) by (apply qok_children; auto).
      destruct (existsb _ (nchildren rhs)) eqn:Ex.
      * injection H as <-. split; [discriminate|]. intros F. exfalso. inversion F; subst.
        apply existsb_exists in Ex as (c & Hc & Ex).
        rewrite covered_inner in H1; auto. rewrite Forall_forall in H1, Qc.
        specialize (H1 c Hc). rewrite <- nodesFor_covered in H1; auto.
        change (match nodesFor ls c with [] => true | _ => false end = true) in Ex.
        destruct (nodesFor ls c); [|discriminate]. exact (covered_nil c (Qc c Hc) H1).
      * apply IH in H.
        -- rewrite H, Forall_app. clear H. split.
           ++ intros [A B]. constructor; auto. rewrite covered_inner; auto.
              apply Forall_forall. intros c Hc. rewrite Forall_forall in A, Qc.
              apply nodesFor_covered; auto. apply A. rewrite <- in_rev. apply in_map_iff. exists c. split; [reflexivity|auto].
           ++ intros F. inversion F; subst. split; auto. apply Forall_rev. apply Forall_map.
              rewrite covered_inner in H1; auto. rewrite Forall_forall in H1, Qc.
              apply Forall_forall. intros c Hc. apply nodesFor_covered; auto.
        -- apply Forall_app; split; auto. apply Forall_rev. apply Forall_map.
           eapply Forall_impl; [|exact Qc]. intros c Hc. split; cbn [fst snd]; auto. apply nodesFor_ok; auto.
Qed.

(** The loop ends: the right-hand nodes get lower, then the left-hand ones. *)
Definition ends (st : list (inode * list inode)) : Prop :=
  exists N v, forall f, N <= f -> containsSetLoop f st = Ok v.
Lemma ends_nil : ends [].
Proof. exists 0, true. intros [|f] _; reflexivity. Qed.
Lemma ends_app : forall l st, Forall (fun e => forall st, ends st -> ends (e :: st)) l ->
  ends st -> ends (l ++ st).
Proof. intros l st H. induction H; cbn; auto. Qed.

Fixpoint maxdepth (ls : list inode) : nat :=
  match ls with [] => 0 | l :: ls' => Nat.max (depth mdrange l) (maxdepth ls') end.
Lemma maxdepth_in : forall ls l, In l ls -> depth mdrange l <= maxdepth ls.
Proof. induction ls; intros l []; cbn; [subst; lia|]. specialize (IHls l H). lia. Qed.
Lemma maxdepth_le : forall ls d, (forall l, In l ls -> depth mdrange l <= d) -> maxdepth ls <= d.
Proof.
  induction ls as [|l ls IH]; intros d H; cbn; [lia|].
  pose proof (H l (or_introl eq_refl)). specialize (IH d (fun x Hx => H x (or_intror Hx))). lia.
Qed.
Lemma depth_child : forall (n c : inode), In c (nchildren n) -> depth mdrange c < depth mdrange n.
Proof.
  intros [i b ch o] c H. cbn in H |- *. induction ch as [|x ch IH]; [destruct H|].
  destruct H as [->|H]; cbn; [lia|]. specialize (IH H). lia.
Qed.
Lemma depth_leaf : forall n : inode, isLeaf n = true -> depth mdrange n = 1 \/ depth mdrange n = 0.
Proof. intros [i b [|c l] o] H; cbn in *; [auto|discriminate]. Qed.

Lemma ends_leaf : forall d rhs ls st, isLeaf rhs = true -> maxdepth ls <= d -> ends st ->
  ends ((rhs, ls) :: st).
Proof.
  induction d as [|d IH]; intros rhs ls st Er Hd He.
  - assert (El : existsb (fun l => negb (isLeaf l)) ls = false).
    { destruct (existsb _ ls) eqn:X; auto. apply existsb_exists in X as (l & Hl & X).
      pose proof (maxdepth_in ls l Hl). destruct l as [i b [|c ch] o]; cbn in *; [discriminate|lia]. }
    destruct He as (N & v & He). destruct (leafTest rhs ls) eqn:Lt.
    + exists (S N), false. intros [|f] Hf; [lia|]. cbn [containsSetLoop].
      rewrite Er, El. fold (leafTest rhs ls). rewrite Lt. auto.
    + exists (S N), v. intros [|f] Hf; [lia|]. cbn [containsSetLoop].
      rewrite Er, El. fold (leafTest rhs ls). rewrite Lt. apply He. lia.
  - destruct (existsb (fun l => negb (isLeaf l)) ls) eqn:El.
    + destruct (IH rhs (expandLhs rhs ls) st) as (N & v & HN); auto.
      * apply maxdepth_le. intros c Hc. apply in_flat_map in Hc as (l & Hl & Hc).
        pose proof (maxdepth_in ls l Hl) as D. destruct (isLeaf l) eqn:E.
        -- destruct Hc as [<-|[]].
           apply existsb_exists in El as (m & Hm & Em).
           pose proof (maxdepth_in ls m Hm) as Dm.
           destruct m as [i b [|c ch] o]; [discriminate|].
           pose proof (depth_child (Node mdrange i b (c :: ch) o) c (or_introl eq_refl)) as Dc.
           destruct (depth_leaf l E); [|lia].
           assert (1 <= depth mdrange c) by (destruct c; cbn; lia). lia.
        -- apply filter_In in Hc as [Hc _]. apply depth_child in Hc. lia.
      * exists (S N), v. intros [|f] Hf; [lia|]. cbn [containsSetLoop].
        rewrite Er, El. apply HN. lia.
    + destruct He as (N & v & He). destruct (leafTest rhs ls) eqn:Lt.
      * exists (S N), false. intros [|f] Hf; [lia|]. cbn [containsSetLoop].
        rewrite Er, El. fold (leafTest rhs ls). rewrite Lt. auto.
      * exists (S N), v. intros [|f] Hf; [lia|]. cbn [containsSetLoop].
        rewrite Er, El. fold (leafTest rhs ls). rewrite Lt. apply He. lia.
Qed.

Lemma ends_entry : forall rhs ls st, ends st -> ends ((rhs, ls) :: st).
Proof.
  induction rhs as [i b ch o IH] using (nodeInd mdrange). intros ls st He.
  destruct (isLeaf (Node mdrange i b ch o)) eqn:Er.
  - eapply ends_leaf; eauto.
  - assert (E2 : ends (rev (map (fun child => (child, nodesFor ls child)) ch) ++ st)).
    { apply ends_app; auto. apply Forall_rev. apply Forall_map.
      eapply Forall_impl; [|exact IH]. intros c Hc st' He'. apply Hc. auto. }
    destruct E2 as (N & v & HN).
    destruct (existsb (fun child => match nodesFor ls child with [] => true | _ => false end) ch) eqn:Ex.
    + exists (S N), false. intros [|f] Hf; [lia|]. cbn [containsSetLoop]. rewrite Er.
      change ((if existsb (fun child => match nodesFor ls child with [] => true | _ => false end) ch
               then Ok false
               else containsSetLoop f
                      (rev (map (fun child => (child, nodesFor ls child)) ch) ++ st)) = Ok false).
      rewrite Ex. auto.
    + exists (S N), v. intros [|f] Hf; [lia|]. cbn [containsSetLoop]. rewrite Er.
      change ((if existsb (fun child => match nodesFor ls child with [] => true | _ => false end) ch
               then Ok false
               else containsSetLoop f
                      (rev (map (fun child => (child, nodesFor ls child)) ch) ++ st)) = Ok v).
      rewrite Ex. apply HN. lia.
Qed.

Lemma contains_within : forall a b, box a -> box b ->
  (mdrange_contains a b = true <-> within b a).
Proof. intros. apply (contains_box rk); auto. Qed.

Lemma contains_set_spec : forall t u, wset t -> wset u -> disj (is_ranges u) ->
  exists N v, (forall fuel, N <= fuel -> is_contains_set fuel t u = Ok v)
    /\ (v = true <-> forall p, in_boxes p (is_ranges u) -> in_boxes p (is_ranges t)).
Proof.
  intros t u Ht Hu D. unfold is_contains_set.
  destruct (rt_root mdrange u) as [r|] eqn:Er.
  2: { exists 0, true. split; auto. split; auto. intros _ p Hp. unfold is_ranges in Hp. rewrite Er in Hp.
       destruct (in_boxes_nil _ Hp). }
  destruct (wset_root u r Hu Er) as (Qr & Tr & Er').
  pose proof (wset_boxes u Hu) as Bu. pose proof (wset_boxes t Ht) as Bt.
  destruct (rt_root mdrange t) as [l|] eqn:El.
  2: { exists 0, false. split; auto. split; [discriminate|]. intros H. exfalso.
       apply (covered_nil r Qr). intros p Hp. cbn in *. rewrite <- Er' in Hp. apply H in Hp.
       unfold is_ranges in Hp. rewrite El in Hp. auto. }
  destruct (wset_root t l Ht El) as (Ql & Tl & El').
  destruct (Z.ltb_spec (is_size t) (is_size u)) as [Hs|Hs].
  { exists 0, false. split; auto. split; [discriminate|]. intros H. exfalso.
    rewrite !is_size_sum in Hs. pose proof (subset_size rk _ _ Bu Bt D H). lia. }
  destruct (mdrange_contains (nbd l) (nbd r)) eqn:Ec; cbn [negb].
  - destruct (ends_entry r [l] [] ends_nil) as (N & v & HN). exists N, v. split; auto.
    assert (EO : Forall entry_ok [(r, [l])]) by (constructor; auto; split; cbn; auto).
    pose proof (containsSetLoop_sound N [(r, [l])] v EO (HN N (le_n _))) as S.
    rewrite S, El', Er'. split.
    + intros F p Hp. inversion F; subst. specialize (H1 p Hp). cbn in H1. rewrite app_nil_r in H1. auto.
    + intros H. constructor; auto. intros p Hp. cbn. rewrite app_nil_r. auto.
  - exists 0, false. split; auto. split; [discriminate|]. intros H. exfalso.
    apply tight_unfold in Tr. destruct Tr as [Tr _].
    assert (W : within (nbd r) (nbd l)).
    { apply Tr. intros x Hx p Px. apply qok_points; auto. rewrite <- El'. apply H. rewrite Er'.
      exists x; auto. }
    apply contains_within in W; eauto using qok_bd. congruence.
Qed.
End Q.
