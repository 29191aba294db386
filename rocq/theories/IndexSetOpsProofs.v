(** Index sets: intersection, complement, projections, products, removals. *)
From Coq Require Import ZArith List Bool Lia ZifyBool Permutation Sorted.
From Verif Require Import RangeModel MDRangeModel Spec RangeProofs MDRangeProofs
  Result RTreeModel IndexSetModel RTreeSplitProofs RTreeQueryProofs RTreeProofs BoxListProofs
  ListTac IndexSetProofs IndexSetQueryProofs IndexSetBuildProofs.
Import ListNotations.
Local Open Scope nat_scope.

Local Notation objs := (objs mdrange).
Local Notation nbd := (nbd mdrange).
Local Notation nchildren := (nchildren mdrange).
Local Notation nobjects := (nobjects mdrange).
Local Notation isLeaf := (isLeaf mdrange).
Local Notation scount := (scount mdrange).
Local Notation nodeCount := (nodeCount mdrange).

Lemma filter_perm : forall A (f : A -> bool) l l', Permutation l l' ->
  Permutation (filter f l) (filter f l').
Proof.
  intros A f l l' H. induction H; cbn; auto.
  - destruct (f x); auto.
  - destruct (f x), (f y); auto. apply perm_swap.
  - etransitivity; eauto.
Qed.
Lemma rev_perm : forall A (l : list A), Permutation (rev l) l.
Proof. intros. symmetry. apply Permutation_rev. Qed.

(** Elements of a filtered flat_map whose group is skipped. *)
Lemma filter_flat_skip : forall A B (f : A -> list B) (g : B -> bool) (h : A -> bool) l,
  (forall a, In a l -> h a = false -> filter g (f a) = []) ->
  filter g (flat_map f (filter h l)) = filter g (flat_map f l).
Proof.
  intros A B f g h l H. induction l as [|a l IH]; cbn; auto.
  destruct (h a) eqn:E; cbn; rewrite !filter_app, IH by (intros; apply H; auto; right; auto); auto.
  rewrite (H a) by (auto; left; auto). reflexivity.
Qed.

(** ** Pairs of overlapping objects, with multiplicity *)

Definition ov (q : mdrange * mdrange) : bool := mdrange_overlaps (fst q) (snd q).
Definition prods (st : list (inode * inode)) : list (mdrange * mdrange) :=
  flat_map (fun q => list_prod (objs (fst q)) (objs (snd q))) st.

Lemma list_prod_app_l : forall A B (a b : list A) (c : list B),
  list_prod (a ++ b) c = list_prod a c ++ list_prod b c.
Proof. induction a; intros; cbn; auto. rewrite IHa, app_assoc. reflexivity. Qed.
Lemma list_prod_app_r : forall A B (a : list A) (b c : list B),
  Permutation (list_prod a (b ++ c)) (list_prod a b ++ list_prod a c).
Proof.
  induction a as [|x a IH]; intros; cbn; auto. rewrite map_app, IH. perm_app.
Qed.
Lemma prods_left : forall l r, flat_map (fun q : inode * inode => list_prod (objs (fst q)) (objs (snd q)))
  (map (fun c => (c, r)) l) = list_prod (flat_map objs l) (objs r).
Proof. induction l; intros; cbn; auto. rewrite IHl, list_prod_app_l. reflexivity. Qed.
Lemma prods_right : forall l r, Permutation
  (flat_map (fun q : inode * inode => list_prod (objs (fst q)) (objs (snd q))) (map (fun c => (l, c)) r))
  (list_prod (objs l) (flat_map objs r)).
Proof.
  induction r as [|c r IH]; cbn.
  - induction (objs l); cbn; auto.
  - rewrite IH. symmetry. apply list_prod_app_r.
Qed.

Section Ops.
Variable rk : nat.
Local Notation box := (box_of rk).
Local Notation qok := (qok mdrange box_shape rk).

Lemma filter_empty : forall A (f : A -> bool) l, (forall x, In x l -> f x = true -> False) -> filter f l = [].
Proof.
  intros A f l H. apply filter_none. intros x Hx. destruct (f x) eqn:E; auto. destruct (H x Hx E).
Qed.

Lemma pairWalk_perm : forall fuel st, Forall (fun q => qok (fst q) /\ qok (snd q)) st ->
  pcount st <= fuel ->
  exists L, pairWalk fuel st = Ok L
    /\ Permutation (flat_map overlappingObjects L) (filter ov (prods st)).
Proof.
  induction fuel as [|f IH]; intros [|[l r] st] H Hc; cbn [pairWalk].
  - exists []. split; auto.
  - cbn in Hc. rewrite !nodeCount_eq in Hc. lia.
  - exists []. split; auto.
  - inversion H as [|? ? [Hl Hr] Hst]; subst. cbn [fst snd] in Hl, Hr. cbn [pcount fst snd] in Hc.
    pose proof (nodeCount_eq mdrange l) as Nl. pose proof (nodeCount_eq mdrange r) as Nr.
    unfold prods. cbn [flat_map fst snd]. fold (prods st). rewrite filter_app.
    destruct (isLeaf l) eqn:El; [destruct (isLeaf r) eqn:Er|].
    + destruct (IH st) as (L & HL & S); auto; [nia|].
      rewrite HL. cbn [bind]. eexists. split; [reflexivity|].
      cbn [flat_map]. rewrite S. unfold overlappingObjects. cbn [fst snd].
      rewrite (qok_leaf rk l), (qok_leaf rk r); auto.
    + destruct (IH (rev (map (fun c => (l, c))
                 (filter (fun c => mdrange_overlaps (nbd c) (nbd l)) (nchildren r))) ++ st))
        as (L & HL & S).
      * apply Forall_app; split; auto. apply Forall_rev. apply Forall_map. apply Forall_filter.
        eapply Forall_impl; [|apply (qok_children rk); exact Hr]. cbn. auto.
      * rewrite pcount_app, pcount_rev, pcount_right.
        pose proof (scount_filter mdrange (fun c => mdrange_overlaps (nbd c) (nbd l)) (nchildren r)).
        nia.
      * exists L. split; auto. rewrite S. unfold prods. rewrite flat_map_app, filter_app.
        apply Permutation_app; auto.
        etransitivity; [apply filter_perm; apply flat_map_perm; apply rev_perm|].
        etransitivity; [apply filter_perm; apply prods_right|].
        rewrite (qok_inner rk r); auto.
        etransitivity; [apply filter_perm; symmetry; apply prods_right|].
        etransitivity; [|apply filter_perm; apply prods_right].
        assert (E : forall h (c : list inode), map (fun x => (l, x)) (filter h c)
                    = filter (fun q => h (snd q)) (map (fun x => (l, x)) c)).
        { intros h c. induction c as [|a c IHc]; cbn; auto. destruct (h a); cbn; rewrite IHc; auto. }
        rewrite E, filter_flat_skip; [reflexivity|].
        intros q Hq Hf. apply in_map_iff in Hq as (c & <- & Hc'). cbn [fst snd] in *.
        apply filter_empty. intros [x y] Hxy Ho. apply in_prod_iff in Hxy as [Hx Hy].
        pose proof (qok_children rk r Hr) as Q. rewrite Forall_forall in Q.
        rewrite mdrange_overlaps_sym in Hf. unfold ov in Ho. cbn in Ho.
        rewrite (objs_overlap_nodes rk l c x y) in Hf; auto. discriminate.
    + destruct (IH (rev (map (fun c => (c, r))
                 (filter (fun c => mdrange_overlaps (nbd c) (nbd r)) (nchildren l))) ++ st))
        as (L & HL & S).
      * apply Forall_app; split; auto. apply Forall_rev. apply Forall_map. apply Forall_filter.
        eapply Forall_impl; [|apply (qok_children rk); exact Hl]. cbn. auto.
      * rewrite pcount_app, pcount_rev, pcount_left.
        pose proof (scount_filter mdrange (fun c => mdrange_overlaps (nbd c) (nbd r)) (nchildren l)).
        nia.
      * exists L. split; auto. rewrite S. unfold prods. rewrite flat_map_app, filter_app.
        apply Permutation_app; auto.
        etransitivity; [apply filter_perm; apply flat_map_perm; apply rev_perm|].
        rewrite (qok_inner rk l), <- prods_left; auto.
        assert (E : forall h (c : list inode), map (fun x => (x, r)) (filter h c)
                    = filter (fun q => h (fst q)) (map (fun x => (x, r)) c)).
        { intros h c. induction c as [|a c IHc]; cbn; auto. destruct (h a); cbn; rewrite IHc; auto. }
        rewrite E, filter_flat_skip; [reflexivity|].
        intros q Hq Hf. apply in_map_iff in Hq as (c & <- & Hc'). cbn [fst snd] in *.
        apply filter_empty. intros [x y] Hxy Ho. apply in_prod_iff in Hxy as [Hx Hy].
        pose proof (qok_children rk l Hl) as Q. rewrite Forall_forall in Q.
        unfold ov in Ho. cbn in Ho.
        rewrite (objs_overlap_nodes rk c r x y) in Hf; auto. discriminate.
Qed.

Lemma pairLeaves_perm : forall t u, wset rk t -> wset rk u ->
  exists L, pairLeaves t u = Ok L
    /\ Permutation (flat_map overlappingObjects L) (filter ov (list_prod (is_ranges t) (is_ranges u))).
Proof.
  intros t u Ht Hu. unfold pairLeaves.
  destruct (rt_root mdrange t) as [l|] eqn:El.
  2: { exists []. split; auto. unfold is_ranges at 1. rewrite El. cbn. auto. }
  destruct (rt_root mdrange u) as [r|] eqn:Er.
  2: { exists []. split; auto. unfold is_ranges at 2. rewrite Er. cbn.
       induction (is_ranges t); cbn; auto. }
  destruct (wset_root rk t l Ht El) as (Ql & _ & ->). destruct (wset_root rk u r Hu Er) as (Qr & _ & ->).
  destruct (mdrange_overlaps (nbd l) (nbd r)) eqn:E.
  - destruct (pairWalk_perm (nodeCount l * nodeCount r) [(l, r)]) as (L & HL & S); auto.
    { cbn. lia. }
    exists L. split; auto. rewrite S. cbn. rewrite app_nil_r. reflexivity.
  - destruct (pairWalk_perm (nodeCount l * nodeCount r) []) as (L & HL & S); auto.
    { cbn. lia. }
    exists L. split; auto. rewrite S. cbn. rewrite filter_empty; auto.
    intros [x y] Hxy Ho. apply in_prod_iff in Hxy as [Hx Hy].
    rewrite (objs_overlap_nodes rk l r x y) in E; auto. discriminate.
Qed.

(** ** Intersection *)

Lemma intersectLoop_spec : forall b, box b -> forall fuel st, Forall qok st -> scount st <= fuel ->
  exists l, intersectLoop fuel b st = Ok (map (fun x => mdrange_intersect b x) l)
    /\ Permutation l (filter (fun x => mdrange_overlaps x b) (flat_map objs st)).
Proof.
  intros b Hb. induction fuel as [|f IH]; intros [|n st] H Hc; cbn [intersectLoop].
  - exists []. split; auto.
  - cbn in Hc. rewrite nodeCount_eq in Hc. lia.
  - exists []. split; auto.
  - pose proof (Forall_inv H) as Hn.
    destruct (IH (kids mdrange b n ++ st)) as (l & Hl & S); auto.
    { apply (kids_qok mdrange box_shape rk); auto. }
    { pose proof (kids_count mdrange b n st). lia. }
    unfold kids in Hl. rewrite Hl. cbn [bind]. eexists. split; [rewrite <- map_app; reflexivity|].
    rewrite S. cbn [flat_map]. rewrite (objs_node mdrange n), flat_map_app, !filter_app, <- app_assoc.
    apply Permutation_app; auto. apply Permutation_app; auto.
    unfold kids. etransitivity; [apply filter_perm; apply flat_map_perm; apply rev_perm|].
    rewrite filter_flat_skip; auto. intros c Hc' Hf. apply filter_empty. intros x Hx Ho.
    pose proof (qok_children rk n Hn) as Q. rewrite Forall_forall in Q.
    rewrite (root_overlaps rk c b x) in Hf; auto. discriminate.
Qed.

Lemma intersect_box_of : forall a b, box a -> box b -> mdrange_overlaps a b = true ->
  box (mdrange_intersect a b) /\ forall p, in_box p (mdrange_intersect a b) <-> in_box p a /\ in_box p b.
Proof.
  intros a b Ha Hb Ho. pose proof (box_of_len _ _ _ Ha Hb) as HL.
  split; [|intros p; apply mdrange_intersect_spec; auto].
  destruct Ha as [[Ha1 Ha2] Ha3]. destruct Hb as [[Hb1 Hb2] Hb3].
  assert (L : length (mdrange_intersect a b) = rk) by (rewrite mdrange_intersect_length; auto).
  split; auto. split.
  - intros E. rewrite E in L. destruct a; [congruence|cbn in Ha3; subst; discriminate].
  - apply mdrange_intersect_ok; auto.
Qed.

Lemma FOP_weaken : forall A B (f : A -> B) (R : A -> A -> Prop) (S : B -> B -> Prop) l,
  (forall x y, In x l -> In y l -> R x y -> S (f x) (f y)) ->
  ForallOrdPairs R l -> ForallOrdPairs S (map f l).
Proof.
  intros A B f R S l H X. induction X as [|x l Hx Hl IH]; cbn; [constructor|].
  constructor.
  - apply Forall_map. rewrite Forall_forall in *. intros y Hy. apply H; [left; auto|right; auto|auto].
  - apply IH. intros a b Ha Hb. apply H; right; auto.
Qed.
Lemma FOP_filter : forall A (R : A -> A -> Prop) f l, ForallOrdPairs R l -> ForallOrdPairs R (filter f l).
Proof.
  intros A R f l X. induction X as [|x l Hx Hl IH]; cbn; [constructor|].
  destruct (f x); auto. constructor; auto. apply Forall_filter; auto.
Qed.

Lemma NoDup_disj : forall l, Forall box l -> disj l -> NoDup l.
Proof.
  intros l H. induction H as [|x l Hx Hl IH]; intros D; [constructor|].
  apply FOP_inv in D as [D1 D2]. constructor; auto. intros I. rewrite Forall_forall in D1.
  destruct (box_point rk x) as [p Hp]; auto. apply (D1 x I p). auto.
Qed.
Lemma disj_pair : forall l x y, disj l -> In x l -> In y l -> x <> y -> disjoint_boxes x y.
Proof.
  intros l x y D. induction D as [|z l Hz Hl IH]; intros Hx Hy N; [destruct Hx|].
  rewrite Forall_forall in Hz. destruct Hx as [->|Hx], Hy as [->|Hy]; auto; try congruence.
  apply disjoint_sym. auto.
Qed.
Lemma NoDup_FOP : forall A (R : A -> A -> Prop) l, NoDup l ->
  (forall x y, In x l -> In y l -> x <> y -> R x y) -> ForallOrdPairs R l.
Proof.
  intros A R l H. induction H as [|x l Hx Hl IH]; intros X; constructor.
  - apply Forall_forall. intros y Hy. apply X; [left; auto|right; auto|]. intros ->; auto.
  - apply IH. intros a b Ha Hb. apply X; right; auto.
Qed.
Lemma NoDup_prod : forall A B (a : list A) (b : list B), NoDup a -> NoDup b -> NoDup (list_prod a b).
Proof.
  intros A B a b Ha Hb. induction Ha as [|x a Hx Ha IH]; cbn; [constructor|].
  apply NoDup_app_intro; auto.
  - apply FinFun.Injective_map_NoDup; auto. intros y z [=]; auto.
  - intros [u v] H1 H2. apply in_map_iff in H1 as (y & [= <- <-] & _).
    apply in_prod_iff in H2 as [H2 _]. auto.
Qed.

Section Bounds.
Variable minE maxE : nat.
Hypothesis minE_pos : 1 <= minE.
Hypothesis maxE_min : 2 * minE <= maxE.

Lemma wset_emptyCopy : forall t, wset rk t -> wset rk (is_emptyCopy t) /\ is_ranges (is_emptyCopy t) = [].
Proof.
  intros t (A & B & C). split; [|reflexivity]. split; cbn; auto.
Qed.

Lemma build_ok : forall ranges t, Forall box ranges -> is_setFromRanges minE maxE ranges = Ok t ->
  wset rk t /\ (forall p, in_boxes p (is_ranges t) <-> in_boxes p ranges)
  /\ (disj ranges -> disj (is_ranges t)).
Proof.
  intros ranges t H E. destruct (setFromRanges_ok minE maxE minE_pos maxE_min rk ranges t H E) as (A & B & C).
  split; auto. split; auto. intros D. apply C. apply (nonOverlapping_spec rk); auto.
Qed.

Lemma intersect_box_ok : forall t b r, wset rk t -> box b ->
  is_intersect_box minE maxE t b = Ok r ->
  wset rk r
  /\ (forall p, in_boxes p (is_ranges r) <-> in_boxes p (is_ranges t) /\ in_box p b)
  /\ (disj (is_ranges t) -> disj (is_ranges r)).
Proof.
  intros t b u Ht Hb H. unfold is_intersect_box in H.
  destruct (rt_root mdrange t) as [r|] eqn:Er.
  2: { injection H as <-. split; auto. split; auto. intros p. unfold is_ranges. rewrite Er.
       pose proof (in_boxes_nil p). tauto. }
  destruct (wset_root rk t r Ht Er) as (Q & _ & E).
  destruct (mdrange_overlaps (nbd r) b) eqn:Eo.
  - destruct (intersectLoop_spec b Hb (nodeCount r) [r]) as (l & Hl & P); auto.
    { cbn; lia. }
    cbn [flat_map] in P. rewrite app_nil_r, <- E in P.
    rewrite Hl in H. cbn [bind] in H. pose proof (wset_boxes rk t Ht) as B. rewrite Forall_forall in B.
    assert (I : forall x, In x l <-> In x (is_ranges t) /\ mdrange_overlaps x b = true).
    { intros x. split; intros HH.
      - apply (Permutation_in _ P) in HH. apply filter_In in HH. auto.
      - apply (Permutation_in _ (Permutation_sym P)). apply filter_In. auto. }
    assert (J : forall x, In x l -> box (mdrange_intersect b x)
                /\ forall p, in_box p (mdrange_intersect b x) <-> in_box p b /\ in_box p x).
    { intros x Hx. apply I in Hx as [Hx Ho]. apply intersect_box_of; auto.
      rewrite mdrange_overlaps_sym; auto. }
    apply build_ok in H as (A1 & A2 & A3).
    + split; auto. split.
      * intros p. rewrite A2. split.
        -- intros (y & Hy & Py). apply in_map_iff in Hy as (x & <- & Hx). apply (J x Hx) in Py.
           split; [exists x; split; [apply I; auto|]|]; tauto.
        -- intros [(x & Hx & Px) Pb]. exists (mdrange_intersect b x).
           assert (Ix : In x l) by (apply I; split; auto; apply (point_overlap rk _ _ p); auto).
           split; [apply in_map_iff; eauto|]. apply J; auto.
      * intros D. apply A3. eapply FOP_weaken with (R := disjoint_boxes).
        -- intros x y Hx Hy Dxy p [P1 P2]. apply J in P1; auto. apply J in P2; auto.
           apply (Dxy p). tauto.
        -- eapply disj_perm; [symmetry; exact P|]. apply FOP_filter; auto.
    + apply Forall_map. apply Forall_forall. intros x Hx. apply J; auto.
  - injection H as <-. destruct (wset_emptyCopy t Ht) as [A B]. rewrite B. split; auto. split.
    + intros p. split; [intros X; destruct (in_boxes_nil _ X)|]. intros [(x & Hx & Px) Pb].
      rewrite E in Hx. exfalso.
      pose proof (wset_boxes rk t Ht) as F. rewrite Forall_forall in F.
      assert (mdrange_overlaps (nbd r) b = true); [|congruence].
      eapply (root_overlaps rk); eauto. apply (point_overlap rk _ _ p); auto. apply F. rewrite E; auto.
    + intros _. constructor.
Qed.

Lemma intersect_set_ok : forall t u r, wset rk t -> wset rk u ->
  is_intersect_set minE maxE t u = Ok r ->
  wset rk r
  /\ (forall p, in_boxes p (is_ranges r) <-> in_boxes p (is_ranges t) /\ in_boxes p (is_ranges u))
  /\ (disj (is_ranges t) -> disj (is_ranges u) -> disj (is_ranges r)).
Proof.
  intros t u r Ht Hu H. unfold is_intersect_set in H.
  destruct (rt_root mdrange t) as [lr|] eqn:El.
  2: { injection H as <-. split; auto. split; auto. intros p. unfold is_ranges at 1 2. rewrite El.
       pose proof (in_boxes_nil p). tauto. }
  destruct (rt_root mdrange u) as [rr|] eqn:Er.
  2: { injection H as <-. destruct (wset_emptyCopy t Ht) as [A B]. rewrite B. split; auto.
       split; [|intros; constructor]. intros p. unfold is_ranges at 2. rewrite Er.
       pose proof (in_boxes_nil p). tauto. }
  destruct (pairLeaves_perm t u Ht Hu) as (L & HL & P). rewrite HL in H. cbn [bind] in H.
  pose proof (wset_boxes rk t Ht) as Bt. pose proof (wset_boxes rk u Hu) as Bu.
  assert (Ft := Bt). assert (Fu := Bu). rewrite Forall_forall in Ft, Fu.
  set (l := flat_map overlappingObjects L) in *. clearbody l.
  assert (I : forall q, In q l <-> In (fst q) (is_ranges t) /\ In (snd q) (is_ranges u) /\ ov q = true).
  { intros [x y]. cbn [fst snd]. split; intros HH.
    - apply (Permutation_in _ P) in HH. apply filter_In in HH. rewrite in_prod_iff in HH. tauto.
    - apply (Permutation_in _ (Permutation_sym P)). apply filter_In. rewrite in_prod_iff. tauto. }
  assert (J : forall q, In q l -> box (mdrange_intersect (fst q) (snd q))
              /\ forall p, in_box p (mdrange_intersect (fst q) (snd q)) <-> in_box p (fst q) /\ in_box p (snd q)).
  { intros q Hq. apply I in Hq as (H1 & H2 & H3). apply intersect_box_of; auto. }
  apply build_ok in H as (A1 & A2 & A3).
  - split; auto. split.
    + intros p. rewrite A2. split.
      * intros (z & Hz & Pz). apply in_map_iff in Hz as (q & <- & Hq). apply J in Pz; auto.
        apply I in Hq as (H1 & H2 & _). split; [exists (fst q)|exists (snd q)]; tauto.
      * intros [(x & Hx & Px) (y & Hy & Py)]. exists (mdrange_intersect x y).
        assert (Iq : In (x, y) l).
        { apply I. cbn. split; auto. split; auto. unfold ov; cbn. apply (point_overlap rk _ _ p); auto. }
        split; [apply in_map_iff; exists (x, y); auto|]. apply (J (x, y) Iq). auto.
    + intros Dt Du. apply A3. eapply FOP_weaken with (R := fun q q' => q <> q').
      * intros [x y] [x' y'] Hq Hq' N p [P1 P2]. apply J in P1; auto. apply J in P2; auto. cbn in P1, P2.
        apply I in Hq as (H1 & H2 & _). apply I in Hq' as (H1' & H2' & _). cbn in *.
        destruct (list_eq_dec range_eq_dec x x') as [<-|N1].
        -- destruct (list_eq_dec range_eq_dec y y') as [<-|N2]; [congruence|].
           apply (disj_pair _ y y' Du H2 H2' N2 p). tauto.
        -- apply (disj_pair _ x x' Dt H1 H1' N1 p). tauto.
      * apply NoDup_FOP; auto. eapply Permutation_NoDup; [symmetry; exact P|].
        apply NoDup_filter. apply NoDup_prod; apply NoDup_disj; auto.
  - apply Forall_map. apply Forall_forall. intros q Hq. apply J; auto.
Qed.

(** ** Complement *)

Lemma complement_ok : forall t b r, wset rk t -> box b -> is_complement minE maxE t b = Ok r ->
  wset rk r
  /\ (forall p, in_boxes p (is_ranges r) <-> in_box p b /\ ~ in_boxes p (is_ranges t))
  /\ disj (is_ranges r).
Proof.
  intros t b u Ht Hb H. unfold is_complement in H.
  destruct (rt_root mdrange t) as [r|] eqn:Er.
  - apply bind_ok in H as (l & Hl & H).
    destruct (peel_spec minE maxE minE_pos maxE_min rk 1 (fun _ => True) (le_n 1) minE_pos t Ht (objs r) [] [b] []) as (out & O1 & O2 & O3 & O4); auto.
    + unfold is_ranges. rewrite Er. reflexivity.
    + left. pose proof (wf_nonempty rk 1 (fun _ => True) t r Ht Er) as N. unfold is_ranges in N. rewrite Er in N. auto.
    + intros p _ HH. destruct (in_boxes_nil _ HH).
    + intros p HH. destruct (in_boxes_nil _ HH).
    + rewrite O1 in Hl. injection Hl as <-. apply build_ok in H as (A1 & A2 & A3); auto.
      split; auto. split.
      * intros p. rewrite A2, O3, in_boxes_single. pose proof (in_boxes_nil p). tauto.
      * apply A3. apply O4. cbn. repeat constructor.
  - apply build_ok in H as (A1 & A2 & A3); auto. split; auto. split.
    + intros p. rewrite A2, in_boxes_single. unfold is_ranges. rewrite Er.
      pose proof (in_boxes_nil p). tauto.
    + apply A3. repeat constructor.
Qed.

(** ** Totality of the constructions *)
Hypothesis bounds_fit : minE * minE <= maxE + minE.

Lemma intersect_box_total : forall t b, wset rk t -> box b ->
  exists r, is_intersect_box minE maxE t b = Ok r.
Proof.
  intros t b Ht Hb. unfold is_intersect_box.
  destruct (rt_root mdrange t) as [r|] eqn:Er; [|eauto].
  destruct (mdrange_overlaps (nbd r) b); [|eauto].
  destruct (wset_root rk t r Ht Er) as (Q & _ & E).
  destruct (intersectLoop_spec b Hb (nodeCount r) [r]) as (l & Hl & P); auto.
  { cbn; lia. }
  rewrite Hl. cbn [bind]. apply setFromRanges_total; auto.
Qed.
Lemma intersect_set_total : forall t u, wset rk t -> wset rk u ->
  exists r, is_intersect_set minE maxE t u = Ok r.
Proof.
  intros t u Ht Hu. unfold is_intersect_set.
  destruct (rt_root mdrange t) as [lr|] eqn:El; [|eauto].
  destruct (rt_root mdrange u) as [rr|] eqn:Er; [|eauto].
  destruct (pairLeaves_perm t u Ht Hu) as (L & HL & P). rewrite HL. cbn [bind].
  apply setFromRanges_total; auto.
Qed.
Lemma complement_total : forall t b, wset rk t -> box b ->
  exists r, is_complement minE maxE t b = Ok r.
Proof.
  intros t b Ht Hb. unfold is_complement.
  destruct (rt_root mdrange t) as [r|] eqn:Er; [|apply setFromRanges_total; auto].
  destruct (peel_spec minE maxE minE_pos maxE_min rk 1 (fun _ => True) (le_n 1) minE_pos t Ht (objs r) [] [b] []) as (out & O1 & _); auto.
  + unfold is_ranges. rewrite Er. reflexivity.
  + left. pose proof (wf_nonempty rk 1 (fun _ => True) t r Ht Er) as N. unfold is_ranges in N. rewrite Er in N. auto.
  + intros p _ HH. destruct (in_boxes_nil _ HH).
  + intros p HH. destruct (in_boxes_nil _ HH).
  + rewrite O1. cbn [bind]. apply setFromRanges_total; auto.
Qed.
End Bounds.
End Ops.
