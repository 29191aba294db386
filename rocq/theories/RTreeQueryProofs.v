(** Searching and iterating an R-tree whose boundaries cover its content. *)
From Coq Require Import ZArith List Bool Lia ZifyBool Permutation.
From Verif Require Import RangeModel MDRangeModel Spec RangeProofs MDRangeProofs
  Result RTreeModel RTreeSplitProofs ListTac.
Import ListNotations.
Local Open Scope nat_scope.

Definition within (a b : mdrange) : Prop := forall p, in_box p a -> in_box p b.

Lemma within_overlaps : forall rk a b c, box_of rk a -> box_of rk b -> box_of rk c ->
  within a b -> mdrange_overlaps a c = true -> mdrange_overlaps b c = true.
Proof.
  intros rk a b c [[_ Ha] La] [[_ Hb] Lb] [[_ Hc] Lc] Hw H.
  apply mdrange_overlaps_spec; auto; [congruence|].
  apply mdrange_overlaps_spec in H; auto; [|congruence].
  destruct H as (p & Hp & Hq). exists p. auto.
Qed.

Lemma within_refl : forall a, within a a.
Proof. intros a p; auto. Qed.
Lemma within_trans : forall a b c, within a b -> within b c -> within a c.
Proof. unfold within; auto. Qed.

Section Query.
Variable T : Type.
Variable shape : T -> mdrange.
Variable isEqual : T -> T -> bool.
Variable rk : nat.

Local Notation node := (node T).
Local Notation Node := (Node T).
Local Notation nid := (nid T).
Local Notation nbd := (nbd T).
Local Notation nchildren := (nchildren T).
Local Notation nobjects := (nobjects T).
Local Notation isLeaf := (isLeaf T).
Local Notation objs := (objs T).
Local Notation nodeCount := (nodeCount T).
Local Notation walkNodes := (walkNodes T).

Lemma nodeInd : forall P : node -> Prop,
  (forall i b c o, Forall P c -> P (Node i b c o)) -> forall n, P n.
Proof.
  intros P H. fix IH 1. intros [i b c o]. apply H.
  induction c as [|x c IHc]; constructor; auto.
Qed.

(** Every node is a leaf with objects or has children, and its boundary covers
    what is below. *)
Fixpoint qok (n : node) : Prop :=
  match n with
  | RTreeModel.Node _ _ b c o =>
      box_of rk b
      /\ Forall (fun x => box_of rk (shape x) /\ within (shape x) b) o
      /\ ((c = [] /\ o <> []) \/ (c <> [] /\ o = []))
      /\ fold_right (fun x P => (within (nbd x) b /\ qok x) /\ P) True c
  end.

Lemma fold_and_Forall : forall A (P : A -> Prop) l,
  fold_right (fun x Q => P x /\ Q) True l <-> Forall P l.
Proof.
  induction l as [|x l IH]; cbn; split; intros H; auto.
  - destruct H. constructor; auto. apply IH; auto.
  - inversion H; subst. split; auto. apply IH; auto.
Qed.

Lemma qok_unfold : forall n, qok n <->
  box_of rk (nbd n)
  /\ Forall (fun x => box_of rk (shape x) /\ within (shape x) (nbd n)) (nobjects n)
  /\ ((nchildren n = [] /\ nobjects n <> []) \/ (nchildren n <> [] /\ nobjects n = []))
  /\ Forall (fun x => within (nbd x) (nbd n) /\ qok x) (nchildren n).
Proof.
  intros [i b c o]. cbn [qok RTreeModel.nbd RTreeModel.nchildren RTreeModel.nobjects].
  rewrite (fold_and_Forall _ (fun x => within (nbd x) b /\ qok x)). reflexivity.
Qed.

Lemma objs_in : forall n x, In x (objs n) <->
  In x (nobjects n) \/ exists c, In c (nchildren n) /\ In x (objs c).
Proof. intros [i b c o] x. cbn. rewrite in_app_iff, in_flat_map. tauto. Qed.

Lemma qok_covers : forall n, qok n -> forall x, In x (objs n) ->
  box_of rk (shape x) /\ within (shape x) (nbd n).
Proof.
  induction n as [i b c o IH] using nodeInd; intros H x Hx.
  apply qok_unfold in H. cbn in H. destruct H as (Hb & Ho & _ & Hc).
  apply objs_in in Hx. cbn in Hx. destruct Hx as [Hx|(m & Hm & Hx)].
  - rewrite Forall_forall in Ho. apply Ho; auto.
  - rewrite Forall_forall in IH, Hc. destruct (Hc m Hm) as [W Q].
    destruct (IH m Hm Q x Hx) as [B W']. split; auto. cbn. eapply within_trans; eauto.
Qed.

Lemma qok_bd : forall n, qok n -> box_of rk (nbd n).
Proof. intros n H. apply qok_unfold in H. tauto. Qed.

Lemma qok_nonempty : forall n, qok n -> objs n <> [].
Proof.
  induction n as [i b c o IH] using nodeInd; intros H.
  apply qok_unfold in H. cbn in H. destruct H as (_ & _ & [[-> H]|[H ->]] & Hc); cbn.
  - intros E. apply app_eq_nil in E. tauto.
  - destruct c as [|m c]; [congruence|]. inversion Hc; inversion IH; subst. cbn.
    intros E. apply app_eq_nil in E. tauto.
Qed.

Fixpoint scount (l : list node) : nat :=
  match l with [] => 0 | n :: l' => nodeCount n + scount l' end.

Lemma nodeCount_eq : forall n, nodeCount n = S (scount (nchildren n)).
Proof.
  intros [i b c o]. cbn. f_equal.
Qed.
Lemma scount_app : forall a b, scount (a ++ b) = scount a + scount b.
Proof. induction a; intros; cbn; auto. rewrite IHa. lia. Qed.
Lemma scount_rev : forall a, scount (rev a) = scount a.
Proof. induction a; cbn; auto. rewrite scount_app. cbn. lia. Qed.
Lemma scount_filter : forall f a, scount (filter f a) <= scount a.
Proof. induction a as [|x a]; cbn; auto. destruct (f x); cbn; lia. Qed.

(** pre-order list of the nodes *)
Fixpoint preorder (n : node) : list node :=
  match n with RTreeModel.Node _ _ _ c _ => n :: flat_map preorder c end.
Lemma preorder_eq : forall n, preorder n = n :: flat_map preorder (nchildren n).
Proof. intros [i b c o]. reflexivity. Qed.

Lemma walkNodes_spec : forall fuel range st, scount st <= fuel ->
  walkNodes fuel range st
  = Ok (filter (fun n => mdrange_overlaps (nbd n) range) (flat_map preorder st)).
Proof.
  induction fuel as [|f IH]; intros range [|n st] H; cbn [RTreeModel.walkNodes]; auto;
    cbn in H; rewrite nodeCount_eq in H.
  - lia.
  - rewrite IH by (rewrite scount_app; lia). cbn. rewrite preorder_eq.
    rewrite flat_map_app. cbn. destruct (mdrange_overlaps (nbd n) range); reflexivity.
Qed.

Lemma preorder_objs : forall n, flat_map nobjects (preorder n) = objs n.
Proof.
  induction n as [i b c o IH] using nodeInd. cbn. f_equal.
  induction c as [|m c IHc]; cbn; auto. inversion IH; subst.
  rewrite flat_map_app. rewrite H1, IHc; auto.
Qed.

Lemma preorder_qok : forall n, qok n -> Forall qok (preorder n).
Proof.
  induction n as [i b c o IH] using nodeInd; intros H. cbn. constructor; auto.
  apply qok_unfold in H. cbn in H. destruct H as (_ & _ & _ & Hc).
  apply Forall_forall. intros x Hx. apply in_flat_map in Hx as (m & Hm & Hx).
  rewrite Forall_forall in IH, Hc. specialize (IH m Hm (proj2 (Hc m Hm))).
  rewrite Forall_forall in IH. auto.
Qed.

Lemma filter_flat_map : forall A B (g : A -> list B) f l,
  filter f (flat_map g l) = flat_map (fun x => filter f (g x)) l.
Proof.
  induction l as [|x l IH]; cbn; auto. rewrite filter_app, IH. reflexivity.
Qed.

Lemma filter_none : forall A (f : A -> bool) l, (forall x, In x l -> f x = false) -> filter f l = [].
Proof.
  induction l as [|x l IH]; intros H; cbn; auto. rewrite (H x) by (left; auto). apply IH.
  intros; apply H; right; auto.
Qed.

Lemma leaves_objs : forall range l, box_of rk range -> Forall qok l ->
  flat_map (fun n => filter (fun o => mdrange_overlaps (shape o) range) (nobjects n))
    (filter isLeaf (filter (fun n => mdrange_overlaps (nbd n) range) l))
  = filter (fun o => mdrange_overlaps (shape o) range) (flat_map nobjects l).
Proof.
  intros range l Hr H. induction H as [|n l Hn Hl IH]; cbn; auto.
  rewrite filter_app, <- IH. apply qok_unfold in Hn. destruct Hn as (Hb & Ho & Hc & _).
  destruct (mdrange_overlaps (nbd n) range) eqn:E; cbn.
  - unfold RTreeModel.isLeaf at 1. destruct Hc as [[-> _]|[Hne Hno]]; cbn.
    + reflexivity.
    + destruct (nchildren n); [congruence|]. rewrite Hno. reflexivity.
  - rewrite (filter_none _ _ (nobjects n)); auto. intros x Hx.
    rewrite Forall_forall in Ho. destruct (Ho x Hx) as [B W].
    destruct (mdrange_overlaps (shape x) range) eqn:E'; auto.
    rewrite <- E. symmetry. eapply within_overlaps with (a := shape x); eauto.
Qed.

Definition qtree (t : rtree T) : Prop :=
  match rt_root T t with None => True | Some r => qok r end.
Definition tree_objs (t : rtree T) : list T :=
  match rt_root T t with None => [] | Some r => objs r end.

Lemma walkObjects_spec : forall t range, qtree t -> box_of rk range ->
  walkOverlappingObjects T shape t range
  = Ok (filter (fun o => mdrange_overlaps (shape o) range) (tree_objs t)).
Proof.
  intros t range H Hr. unfold walkOverlappingObjects, walkOverlappingLeafNodes, tree_objs, qtree in *.
  destruct (rt_root T t) as [r|]; [|reflexivity].
  rewrite walkNodes_spec by (cbn; lia). cbn. rewrite app_nil_r.
  f_equal. rewrite leaves_objs; auto using preorder_qok. rewrite preorder_objs. reflexivity.
Qed.

Lemma walkLeaves_spec : forall t range, qtree t ->
  walkOverlappingLeafNodes T t range
  = Ok (match rt_root T t with
        | None => []
        | Some r => filter isLeaf (filter (fun n => mdrange_overlaps (nbd n) range) (preorder r))
        end).
Proof.
  intros t range H. unfold walkOverlappingLeafNodes, qtree in *.
  destruct (rt_root T t) as [r|]; [|reflexivity].
  rewrite walkNodes_spec by (cbn; lia). cbn. rewrite app_nil_r. reflexivity.
Qed.

(** Searching with a stack whose nodes overlap the range. *)
Definition kids (b : mdrange) (n : node) : list node :=
  rev (filter (fun c => mdrange_overlaps (nbd c) b) (nchildren n)).

Lemma search_step : forall b n st x, box_of rk b -> qok n ->
  mdrange_overlaps (shape x) b = true ->
  (In x (flat_map objs (n :: st)) <->
   In x (nobjects n) \/ In x (flat_map objs (kids b n ++ st))).
Proof.
  intros b n st x Hb Hn Hx. cbn. rewrite flat_map_app, !in_app_iff, objs_in.
  apply qok_unfold in Hn. destruct Hn as (_ & _ & _ & Hc). rewrite Forall_forall in Hc.
  assert (E : (exists c, In c (nchildren n) /\ In x (objs c)) <-> In x (flat_map objs (kids b n))).
  { rewrite in_flat_map. unfold kids. split; intros (c & H1 & H2); exists c; split; auto.
    - rewrite <- in_rev. apply filter_In. split; auto. destruct (Hc c H1) as [_ Q].
      destruct (qok_covers c Q x H2) as [B W].
      eapply within_overlaps with (a := shape x); eauto using qok_bd.
    - rewrite <- in_rev in H1. apply filter_In in H1. tauto. }
  rewrite E. tauto.
Qed.

Lemma kids_qok : forall b n st, Forall qok (n :: st) -> Forall qok (kids b n ++ st).
Proof.
  intros b n st H. inversion H; subst. apply Forall_app; split; auto.
  apply qok_unfold in H2. destruct H2 as (_ & _ & _ & Hc).
  unfold kids. apply Forall_rev. apply Forall_forall. intros c Hc'.
  apply filter_In in Hc' as [Hc' _]. rewrite Forall_forall in Hc. apply Hc; auto.
Qed.

Lemma kids_count : forall b n st, scount (kids b n ++ st) < scount (n :: st).
Proof.
  intros. cbn. rewrite nodeCount_eq, scount_app. unfold kids. rewrite scount_rev.
  pose proof (scount_filter (fun c => mdrange_overlaps (nbd c) b) (nchildren n)). lia.
Qed.

Lemma containsLoop_spec : forall fuel o st, box_of rk (shape o) -> Forall qok st ->
  scount st <= fuel ->
  exists r, containsLoop T shape isEqual fuel o st = Ok r
    /\ (r = true <-> exists x, In x (flat_map objs st)
                       /\ mdrange_overlaps (shape x) (shape o) = true /\ isEqual o x = true).
Proof.
  induction fuel as [|f IH]; intros o [|n st] Ho H Hc; cbn [containsLoop].
  - exists false; split; auto; split; [discriminate|]. intros (x & [] & _).
  - cbn in Hc. rewrite nodeCount_eq in Hc. lia.
  - exists false; split; auto; split; [discriminate|]. intros (x & [] & _).
  - pose proof (Forall_inv H) as Hn.
    destruct (existsb _ (nobjects n)) eqn:E.
    + exists true. split; auto. split; auto. intros _.
      apply existsb_exists in E as (x & Hx & E). apply andb_prop in E. exists x. split; [|tauto].
      apply (search_step (shape o) n st x); auto; tauto.
    + destruct (IH o (kids (shape o) n ++ st)) as (r & Hr & Hs); auto using kids_qok.
      { pose proof (kids_count (shape o) n st). lia. }
      exists r. split; auto. rewrite Hs. split; intros (x & Hx & H1 & H2); exists x; split; auto.
      * apply (search_step (shape o) n st x); auto.
      * apply (search_step (shape o) n st x) in Hx as [Hx|Hx]; auto. exfalso.
        assert (existsb (fun x0 => mdrange_overlaps (shape x0) (shape o) && isEqual o x0)
                  (nobjects n) = true).
        { apply existsb_exists. exists x. rewrite H1, H2. auto. }
        congruence.
Qed.

Lemma rt_contains_spec : forall t o, qtree t -> box_of rk (shape o) ->
  exists r, rt_contains T shape isEqual t o = Ok r
    /\ (r = true <-> exists x, In x (tree_objs t)
                       /\ mdrange_overlaps (shape x) (shape o) = true /\ isEqual o x = true).
Proof.
  intros t o H Ho. unfold rt_contains, tree_objs, qtree in *.
  destruct (rt_root T t) as [r|].
  2: { exists false. split; auto. split; [discriminate|]. intros (x & [] & _). }
  destruct (mdrange_overlaps (nbd r) (shape o)) eqn:E.
  - destruct (containsLoop_spec (nodeCount r) o [r]) as (b & Hb & Hs); auto.
    { cbn; lia. }
    exists b. split; auto. rewrite Hs. cbn. rewrite app_nil_r. tauto.
  - exists false. rewrite nodeCount_eq. split; auto. split; [discriminate|].
    intros (x & Hx & H1 & H2). destruct (qok_covers r H x Hx) as [B W].
    rewrite <- E. eapply within_overlaps with (a := shape x); eauto using qok_bd.
Qed.

(** The object iterator. *)
Definition topLeaf (st : list node) : Prop :=
  match st with [] => True | n :: _ => isLeaf n = true end.

Lemma itDescend_spec : forall fuel st, Forall qok st -> scount st <= fuel ->
  exists st', itDescend T fuel st = Ok st' /\ Forall qok st' /\ topLeaf st'
    /\ flat_map objs st' = flat_map objs st
    /\ scount st' <= scount st.
Proof.
  induction fuel as [|f IH]; intros [|n st] H Hc; cbn [itDescend].
  - exists []; cbn; auto 6.
  - cbn in Hc. rewrite nodeCount_eq in Hc. lia.
  - exists []; cbn; auto 6.
  - destruct (isLeaf n) eqn:El.
    + exists (n :: st). cbn; auto 6.
    + inversion H as [|? ? Hn Hst]; subst. apply qok_unfold in Hn. destruct Hn as (_ & _ & Hn & Hk).
      cbn in Hc. rewrite nodeCount_eq in Hc.
      destruct (IH (nchildren n ++ st)) as (st' & A & B & C & D & F).
      { apply Forall_app; split; auto. eapply Forall_impl; [|exact Hk]. intros a Ha. apply Ha. }
      { rewrite scount_app. lia. }
      exists st'. split; auto. split; auto. split; auto. split.
      * rewrite D, flat_map_app. cbn. f_equal. destruct n as [i b c o]. cbn in *.
        unfold RTreeModel.isLeaf in El. cbn in El. destruct c; [discriminate|].
        destruct Hn as [[? _]|[_ ->]]; [discriminate|]. reflexivity.
      * rewrite scount_app in F. cbn. rewrite nodeCount_eq. lia.
Qed.

Fixpoint ocount (st : list node) : nat :=
  match st with [] => 0 | n :: st' => length (objs n) + ocount st' end.
Lemma ocount_objs : forall st, length (flat_map objs st) = ocount st.
Proof. induction st; cbn; auto. rewrite app_length. lia. Qed.

Lemma itRun_spec : forall fuel st k, Forall qok st -> topLeaf st ->
  match st with [] => k = 0 | n :: _ => k < length (nobjects n) end ->
  scount st + ocount st - k <= fuel ->
  itRun T fuel st k = Ok (skipn k (flat_map objs st)).
Proof.
  induction fuel as [|f IH]; intros [|n st] k H Ht Hk Hc; cbn [itRun].
  - subst; auto.
  - cbn in Hc. rewrite nodeCount_eq in Hc. destruct n as [i b c o]; cbn in *.
    rewrite app_length in Hc. destruct k; lia.
  - subst; auto.
  - cbn in Ht. destruct n as [i b c o]. unfold RTreeModel.isLeaf in Ht. cbn in Ht, Hk.
    destruct c as [|m c]; [|discriminate]. cbn [RTreeModel.nobjects].
    destruct (nth_error o k) as [x|] eqn:E.
    2: { apply nth_error_None in E. lia. }
    cbn [of_option bind]. inversion H as [|? ? Hn Hst]; subst.
    assert (G : forall l, skipn k (o ++ l) = x :: skipn (S k) o ++ l).
    { clear - E. revert k E. induction o as [|y o IHo]; intros [|k] E l; cbn in *; try discriminate.
      - congruence.
      - rewrite IHo; auto. }
    cbn [scount ocount] in Hc. rewrite nodeCount_eq in Hc.
    cbn [RTreeModel.nchildren scount RTreeModel.objs flat_map] in Hc. rewrite app_nil_r in Hc.
    destruct (Nat.eqb_spec (S k) (length o)) as [Ek|Ek].
    + destruct (itDescend_spec f st Hst) as (st' & A & B & C & D & F).
      { lia. }
      rewrite A. cbn [bind].
      rewrite IH; auto.
      * cbn. rewrite app_nil_r, G. rewrite D. rewrite Ek, skipn_all. reflexivity.
      * destruct st' as [|q st']; auto. inversion B as [|? ? Hq _]; subst. apply qok_unfold in Hq.
        cbn in C. unfold RTreeModel.isLeaf in C. destruct (nchildren q); [|discriminate].
        destruct Hq as (_ & _ & [[_ Hq]|[Hq _]] & _); [|congruence].
        destruct (nobjects q); [congruence|cbn; lia].
      * assert (ocount st' = ocount st) by (rewrite <- !ocount_objs; congruence). lia.
    + rewrite IH; auto.
      * cbn [bind flat_map RTreeModel.objs]. rewrite app_nil_r, G. f_equal. f_equal.
        rewrite skipn_app. replace (S k - length o) with 0 by lia. reflexivity.
      * cbn [RTreeModel.nobjects]. lia.
      * cbn [scount ocount]. rewrite nodeCount_eq.
        cbn [RTreeModel.nchildren scount RTreeModel.objs flat_map]. rewrite app_nil_r. lia.
Qed.

Lemma rt_iterate_spec : forall t fuel, qtree t ->
  (forall r, rt_root T t = Some r -> nodeCount r + length (objs r) <= fuel) ->
  rt_iterate T fuel t = Ok (tree_objs t).
Proof.
  intros t fuel H Hf. unfold rt_iterate, tree_objs, qtree in *.
  destruct (rt_root T t) as [r|]; auto. specialize (Hf r eq_refl).
  destruct (itDescend_spec fuel [r]) as (st & A & B & C & D & F); auto.
  { cbn. lia. }
  rewrite A. cbn [bind]. rewrite itRun_spec; auto.
  - cbn. rewrite D. cbn. rewrite app_nil_r. reflexivity.
  - destruct st as [|q st']; auto. inversion B as [|? ? Hq _]; subst. apply qok_unfold in Hq.
    cbn in C. unfold RTreeModel.isLeaf in C. destruct (nchildren q); [|discriminate].
    destruct Hq as (_ & _ & [[_ Hq]|[Hq _]] & _); [|congruence].
    destruct (nobjects q); [congruence|cbn; lia].
  - assert (ocount st = length (objs r)).
    { rewrite <- ocount_objs, D. cbn. rewrite app_nil_r. reflexivity. }
    cbn in F. lia.
Qed.
End Query.
