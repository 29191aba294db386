(** Histories of a tree of arbitrary objects (RTree<T>: no hook), and the shape
    of the trees of index sets. *)
From Coq Require Import ZArith List Bool Lia Permutation.
From Verif Require Import RangeModel MDRangeModel Spec RangeProofs MDRangeProofs
  Result RTreeModel TreeSpec RTreeSplitProofs RTreeQueryProofs RTreeProofs RTreeTotalProofs ListTac
  BoxListProofs IndexSetModel IndexSetSpec IndexSetProofs IndexSetHistProofs.
Import ListNotations.
Local Open Scope nat_scope.

Section Shape.
Variable T : Type.
Variable shape : T -> mdrange.
Variable rk lo : nat.
Variable up : nat -> Prop.

Lemma sub_tree_at : forall k r n, sub T shape rk lo up (fun _ => False) r k n ->
  tree_at T shape (fun m => 1 <= m /\ up m) (fun m => 1 <= m /\ lo <= m /\ up m) r k n.
Proof.
  induction k as [|k IH]; intros r [i b c o] H; apply sub_unfold in H;
    destruct H as (Hb & Hu & Hx & Hc); cbn in Hc.
  - destruct Hc as [-> Ho]. destruct (Hx (fun x => x)) as [Hm Hl]. unfold computeBoundary in Hm.
    cbn in Hm, Hl, Hu.
    assert (Hne : 1 <= length o) by (destruct o; [discriminate|cbn; lia]).
    constructor.
    + eapply getMBR_props; [|exact Hm]. apply Forall_map. exact Ho.
    + destruct r; auto.
  - destruct Hc as (Hne & -> & Hc). destruct (Hx (fun x => x)) as [Hm Hl].
    unfold computeBoundary, isLeaf, fanOut in *.
    cbn in Hm, Hl, Hu. destruct c as [|x c]; [congruence|]. 
    constructor; auto.
    + eapply Forall_impl; [|exact Hc]. intros y. apply IH.
    + eapply getMBR_props; [|exact Hm]. eapply sub_bds; eauto.
    + cbn in *. destruct r; [split; [lia|auto]|]. split; [lia|]. split; auto.
Qed.
Lemma ok_well_formed : forall t, rt_ok T shape rk lo up t ->
  well_formed T shape (fun m => 1 <= m /\ up m) (fun m => 1 <= m /\ lo <= m /\ up m) t.
Proof.
  intros t (G & _) r E. rewrite E in G. destruct G as [[K HK] _]. exists K. apply sub_tree_at; auto.
Qed.
Lemma tree_at_weaken : forall (rf rf' f f' : nat -> Prop), (forall m, rf m -> rf' m) ->
  (forall m, f m -> f' m) -> forall h r n, tree_at T shape rf f r h n -> tree_at T shape rf' f' r h n.
Proof.
  intros rf rf' f f' H H'. induction h as [|h IH]; intros r n K; inversion K; subst; constructor; auto.
  - destruct r; auto.
  - eapply Forall_impl; [|eassumption]. auto.
  - destruct r; auto.
Qed.
Lemma well_formed_weaken : forall (rf rf' f f' : nat -> Prop) t, (forall m, rf m -> rf' m) ->
  (forall m, f m -> f' m) -> well_formed T shape rf f t -> well_formed T shape rf' f' t.
Proof.
  intros rf rf' f f' t H H' W r E. destruct (W r E) as (h & Hh). exists h.
  eapply tree_at_weaken; eauto.
Qed.
Lemma stored_objs : forall t, stored T t = rt_objs T t.
Proof. reflexivity. Qed.
Lemma rt_empty_ok : rt_ok T shape rk lo up (rt_empty T).
Proof. split; [cbn; auto|]. split; cbn; auto; discriminate. Qed.

Lemma preorder_plug : forall root n, In n (preorder T root) -> exists ctx, plug T n ctx = root.
Proof.
  intros root. induction root as [i b c o IH] using (nodeInd T). intros n H.
  rewrite preorder_eq in H. destruct H as [<-|H]; [exists []; auto|]. cbn [nchildren] in H.
  apply in_flat_map in H. destruct H as (x & Hx & Hn).
  rewrite Forall_forall in IH. destruct (IH x Hx n Hn) as (ctx & Hc).
  apply in_split in Hx. destruct Hx as (l1 & l2 & ->).
  exists (ctx ++ [mkFrame T i b l1 l2 o]). rewrite plug_app, Hc. reflexivity.
Qed.
End Shape.

Section Hist.
Variable T : Type.
Variable shape : T -> mdrange.
Variable isEqual : T -> T -> bool.
Variable minE maxE : nat.
Variable rk : nat.
Hypothesis minE_pos : 1 <= minE.
Hypothesis maxE_min : 2 * minE <= maxE.
Variable lo : nat.
Hypothesis lo_pos : 1 <= lo.
Hypothesis lo_min : lo <= minE.
Local Notation hook := (fun l : list T => l).
Local Notation upto := (fun m => m <= maxE).
Local Notation tok := (rt_ok T shape rk lo upto).
Local Notation ins := (rt_insert T shape hook minE maxE).
Local Notation del := (rt_remove T shape isEqual hook minE maxE).
Local Notation delLeaf := (rt_remove_leaf T shape isEqual hook minE maxE).

Lemma perm_app_r : forall a b c : list T, Permutation a b -> Permutation (a ++ c) (b ++ c).
Proof. intros. apply Permutation_app_tail; auto. Qed.

Lemma ins_ok : forall t o t', tok t -> box_of rk (shape o) -> ins t o = Ok t' ->
  tok t' /\ Permutation (rt_objs T t ++ [o]) (rt_objs T t').
Proof.
  intros t o t' Ht Ho E.
  eapply (rt_insert_ok T shape isEqual hook minE maxE rk lo upto) with (R := @Permutation T); eauto;
    try (intros; lia).
  - intros. etransitivity; eauto.
  - apply perm_app_r.
Qed.
Lemma plug_set_same : forall n (ctx : list (frame T)), plug T (set_objects T n (nobjects T n)) ctx = plug T n ctx.
Proof. intros [i b c o] ctx. reflexivity. Qed.

(** One leaf of a removal: either nothing changes, or the equal objects of that
    leaf disappear. *)
Lemma delLeaf_ok : forall o t i t', tok t -> delLeaf o t i = Ok t' ->
  (exists n ctx root, rt_root T t = Some root /\ locate T i root [] = Some (n, ctx)
     /\ existsb (isEqual o) (nobjects T n) = false /\ t' = t)
  \/ (tok t' /\ exists n ctx root, rt_root T t = Some root /\ locate T i root [] = Some (n, ctx)
      /\ Permutation (rt_objs T t) (nobjects T n ++ ctxobjs T ctx)
      /\ existsb (isEqual o) (nobjects T n) = true
      /\ Permutation (rt_objs T t')
           (filter (fun x => negb (isEqual o x)) (nobjects T n) ++ ctxobjs T ctx)).
Proof.
  intros o t i t' Ht H. unfold rt_remove_leaf in H.
  destruct (rt_root T t) as [root|] eqn:Er; [|discriminate].
  apply bind_ok in H as ([n ctx] & Hl & H). apply of_option_inv in Hl.
  change (fun x => isEqual o x) with (isEqual o) in H.
  destruct (existsb (isEqual o) (nobjects T n)) eqn:Em.
  - right. apply bind_ok in H as ([r fr] & Hadj & H). injection H as <-.
    pose proof Ht as (G & _). rewrite Er in G. destruct G as [[K HK] _].
    pose proof (locate_root T i root n ctx Hl) as [Hid Hp]. rewrite <- Hp in HK.
    apply (unplug_sub T shape minE maxE rk lo upto) in HK as (k & -> & Hs & _); auto; try lia.
    apply sub_unfold in Hs. destruct Hs as (_ & Hup & _ & Hc).
    assert (Hleaf : nchildren T n = [] /\ Forall (okT T shape rk) (nobjects T n)).
    { destruct k; [exact Hc|]. destruct Hc as (_ & Ho & _). rewrite Ho in Em. discriminate. }
    destruct Hleaf as [Hch Hobj].
    eapply (leaf_update_ok T shape isEqual hook minE maxE rk lo upto) with (R := @Permutation T) in Hadj;
      eauto; try (intros; lia).
    + destruct Hadj as (A & B & C). split; [exact A|]. exists n, ctx, root. split; auto. split; auto.
      split.
      * unfold rt_objs, oobjs. rewrite Er. exact B.
      * split; auto. unfold rt_objs. cbn [rt_root]. symmetry. exact C.
    + intros. etransitivity; eauto.
    + apply perm_app_r.
    + unfold isLeaf. rewrite Hch. reflexivity.
    + apply Forall_forall. intros x Hx. apply filter_In in Hx. rewrite Forall_forall in Hobj. apply Hobj, Hx.
    + intros Hlt. exfalso.
      assert (length (filter (fun x => negb (isEqual o x)) (nobjects T n)) <= length (nobjects T n)).
      { clear. induction (nobjects T n) as [|x l IH]; cbn; auto. destruct (negb (isEqual o x)); cbn; lia. }
      destruct n as [ni nb nc no]. cbn in *. subst nc. unfold fanOut in Hup. cbn in Hup. lia.
  - left. injection H as <-. exists n, ctx, root. split; auto. split; auto. split; auto.
    assert (Hf : filter (fun x => negb (isEqual o x)) (nobjects T n) = nobjects T n).
    { clear -Em. induction (nobjects T n) as [|x l IH]; cbn in *; auto.
      apply orb_false_iff in Em as [-> Em]. cbn. f_equal; auto. }
    rewrite Hf, plug_set_same. apply locate_root in Hl as [_ ->]. destruct t; cbn in *; congruence.
Qed.

(** [l'] is [l] without some objects equal to [o]. *)
Definition lacks (o : T) (l l' : list T) : Prop :=
  exists gone, Permutation l (l' ++ gone) /\ Forall (fun x => isEqual o x = true) gone.
Lemma lacks_refl : forall o l, lacks o l l.
Proof. intros o l. exists []. rewrite app_nil_r. auto. Qed.
Lemma lacks_trans : forall o a b c, lacks o a b -> lacks o b c -> lacks o a c.
Proof.
  intros o a b c (g & P & F) (g' & P' & F'). exists (g' ++ g). split.
  - etransitivity; [exact P|]. rewrite app_assoc. apply Permutation_app_tail; auto.
  - apply Forall_app; auto.
Qed.
Lemma filter_split : forall o l, Permutation l
  (filter (fun x => negb (isEqual o x)) l ++ filter (isEqual o) l).
Proof.
  intros o l. induction l as [|x l IH]; cbn; auto. destruct (isEqual o x) eqn:E; cbn.
  - apply Permutation_cons_app; auto.
  - constructor; auto.
Qed.
Lemma delLeaf_lacks : forall o t i t', tok t -> delLeaf o t i = Ok t' ->
  tok t' /\ lacks o (rt_objs T t) (rt_objs T t').
Proof.
  intros o t i t' Ht H. apply delLeaf_ok in H; auto.
  destruct H as [(n & ctx & root & _ & _ & _ & ->)|(K & n & ctx & root & _ & _ & P & _ & P')].
  - split; auto using lacks_refl.
  - split; auto. exists (filter (isEqual o) (nobjects T n)). split.
    + rewrite P, P'. rewrite (filter_split o (nobjects T n)) at 1. 
      rewrite <- !app_assoc. apply Permutation_app_head. apply Permutation_app_comm.
    + apply Forall_forall. intros x Hx. apply filter_In in Hx. apply Hx.
Qed.
Lemma delLeaves_lacks : forall o l t t', tok t -> fold_res (delLeaf o) l t = Ok t' ->
  tok t' /\ lacks o (rt_objs T t) (rt_objs T t').
Proof.
  intros o l. induction l as [|i l IH]; intros t t' Ht H; cbn in H.
  - injection H as <-. split; auto using lacks_refl.
  - apply bind_ok in H as (t1 & H1 & H). apply delLeaf_lacks in H1 as [K1 L1]; auto.
    apply IH in H as [K L]; auto. split; auto. eapply lacks_trans; eauto.
Qed.
Lemma del_ok : forall o t t', tok t -> del t o = Ok t' ->
  tok t' /\ lacks o (rt_objs T t) (rt_objs T t').
Proof.
  intros o t t' Ht H. unfold rt_remove in H. apply bind_ok in H as (leaves & _ & H).
  eapply delLeaves_lacks; eauto.
Qed.

(** An object stored once is removed. *)
Lemma delLeaves_unchanged : forall o l t t', tok t -> Forall (fun x => isEqual o x = false) (rt_objs T t) ->
  fold_res (delLeaf o) l t = Ok t' -> t' = t.
Proof.
  intros o l. induction l as [|i l IH]; intros t t' Ht F H; cbn in H.
  - injection H as <-. auto.
  - apply bind_ok in H as (t1 & H1 & H). apply delLeaf_ok in H1; auto.
    destruct H1 as [(n & ctx & root & _ & _ & _ & ->)|(K & n & ctx & root & Er & El & P & Em & P')].
    + apply IH in H; auto.
    + exfalso. apply existsb_exists in Em as (x & Hx & Ex). rewrite Forall_forall in F.
      rewrite F in Ex; [discriminate|]. apply (Permutation_in x (Permutation_sym P)).
      apply in_or_app; auto.
Qed.

Definition count (o : T) (l : list T) : nat := length (filter (isEqual o) l).
Lemma filter_perm : forall (f : T -> bool) l l', Permutation l l' -> Permutation (filter f l) (filter f l').
Proof.
  intros f l l' P. induction P; cbn; auto.
  - destruct (f x); auto.
  - destruct (f x), (f y); auto. constructor.
  - etransitivity; eauto.
Qed.
Lemma count_app : forall o a b, count o (a ++ b) = count o a + count o b.
Proof. intros. unfold count. rewrite filter_app, app_length. auto. Qed.
Lemma count_zero : forall o l, count o l = 0 -> Forall (fun x => isEqual o x = false) l.
Proof.
  intros o l H. apply Forall_forall. intros x Hx. destruct (isEqual o x) eqn:E; auto. exfalso.
  assert (In x (filter (isEqual o) l)) by (apply filter_In; auto).
  unfold count in H. destruct (filter (isEqual o) l); [auto|discriminate].
Qed.
Lemma count_pos : forall o l, existsb (isEqual o) l = true -> 1 <= count o l.
Proof.
  intros o l H. apply existsb_exists in H as (x & Hx & E).
  assert (In x (filter (isEqual o) l)) by (apply filter_In; auto).
  unfold count. destruct (filter (isEqual o) l); [destruct H|cbn; lia].
Qed.
Lemma count_filter : forall o l, count o (filter (fun x => negb (isEqual o x)) l) = 0.
Proof.
  intros o l. unfold count. induction l as [|x l IH]; cbn; auto.
  destruct (isEqual o x) eqn:E; cbn; auto. rewrite E; auto.
Qed.

Lemma del_once_leaves : forall o l t t' root n ctx, tok t -> count o (rt_objs T t) <= 1 ->
  rt_root T t = Some root -> locate T (nid T n) root [] = Some (n, ctx) ->
  existsb (isEqual o) (nobjects T n) = true -> In (nid T n) l ->
  fold_res (delLeaf o) l t = Ok t' -> count o (rt_objs T t') = 0.
Proof.
  intros o l t t' root n ctx Ht Hc Er El Ex. revert t' . induction l as [|i l IH]; intros t' Hin H; cbn in H.
  - destruct Hin.
  - apply bind_ok in H as (t1 & H1 & H). apply delLeaf_ok in H1; auto.
    destruct H1 as [(m & c & r & Er' & El' & Em & ->)|(K & m & c & r & Er' & El' & P & Em & P')].
    + destruct Hin as [->|Hin]; [congruence|]. apply IH; auto.
    + assert (Z0 : count o (rt_objs T t1) = 0).
      { unfold count in *. rewrite (Permutation_length (filter_perm (isEqual o) _ _ P')).
        rewrite (Permutation_length (filter_perm (isEqual o) _ _ P)) in Hc.
        fold (count o (nobjects T m ++ ctxobjs T c)) in Hc.
        fold (count o (filter (fun x => negb (isEqual o x)) (nobjects T m) ++ ctxobjs T c)).
        rewrite count_app in *. rewrite count_filter. apply count_pos in Em. lia. }
      apply delLeaves_unchanged in H; auto. subst; auto. apply count_zero; auto.
Qed.

Lemma del_once : forall o t t', tok t -> box_of rk (shape o) ->
  (forall x, isEqual o x = true -> shape x = shape o) ->
  count o (rt_objs T t) <= 1 -> del t o = Ok t' ->
  tok t' /\ Permutation (rt_objs T t) (rt_objs T t' ++ filter (isEqual o) (rt_objs T t))
  /\ Forall (fun x => isEqual o x = false) (rt_objs T t').
Proof.
  intros o t t' Ht Hb Hs Hc H. pose proof H as H0. apply del_ok in H0 as [K (g & P & F)]; auto.
  assert (Z0 : count o (rt_objs T t') = 0).
  { destruct (existsb (isEqual o) (rt_objs T t)) eqn:Ex.
    - apply existsb_exists in Ex as (x & Hx & Ex). unfold rt_remove in H.
      apply bind_ok in H as (leaves & Hl & H). pose proof (rt_ok_qtree _ _ _ _ _ _ Ht) as Q.
      rewrite (walkLeaves_spec T shape rk) in Hl; auto. injection Hl as <-.
      unfold rt_objs, oobjs in Hx. destruct (rt_root T t) as [root|] eqn:Er; [|destruct Hx].
      rewrite <- preorder_objs in Hx. apply in_flat_map in Hx as (n & Hn & Hx).
      unfold qtree in Q. rewrite Er in Q. pose proof (preorder_qok T shape rk root Q) as QF.
      rewrite Forall_forall in QF. pose proof (QF n Hn) as Qn.
      destruct (preorder_plug T root n Hn) as (ctx & Hp).
      assert (El : locate T (nid T n) root [] = Some (n, ctx)).
      { rewrite <- Hp. rewrite (locate_plug T minE maxE lo); auto.
        - rewrite app_nil_r; auto.
        - rewrite Hp. destruct Ht as (G & _). rewrite Er in G. apply G. }
      eapply (del_once_leaves o _ t t' root n ctx); eauto.
      + apply existsb_exists. exists x; auto.
      + apply in_map_iff. exists n. split; auto.
        destruct n as [ni nb nc no]. cbn in Qn, Hx |- *. destruct Qn as (Qb & Qo & Qc & _).
        apply filter_In. split; [apply filter_In; split; auto|].
        * rewrite Forall_forall in Qo. destruct (Qo x Hx) as [Qx Qw].
          eapply (within_overlaps rk (shape x)); eauto.
          rewrite (Hs x Ex). apply mdrange_overlaps_spec; auto; try apply Hb.
          exists (begins (shape o)). split; apply box_inhabited; apply Hb.
        * unfold isLeaf. cbn. destruct Qc as [[-> _]|[_ ->]]; auto.
    - rewrite (Permutation_length (filter_perm (isEqual o) _ _ P)) || idtac.
      destruct (existsb (isEqual o) (rt_objs T t')) eqn:Ex'.
      + exfalso. apply existsb_exists in Ex' as (x & Hx & Ex').
        assert (existsb (isEqual o) (rt_objs T t) = true); [|congruence].
        apply existsb_exists. exists x. split; auto. apply (Permutation_in x (Permutation_sym P)).
        apply in_or_app; auto.
      + unfold count. clear -Ex'. induction (rt_objs T t') as [|x l IH]; cbn in *; auto.
        apply orb_false_iff in Ex' as [-> Ex']. auto. }
  split; auto. split; [|apply count_zero; auto].
  rewrite P at 1. apply Permutation_app_head.
  rewrite (filter_perm (isEqual o) _ _ P), filter_app.
  unfold count in Z0. apply length_zero_iff_nil in Z0. rewrite Z0. cbn.
  clear -F. induction F as [|x l Hx F IH]; cbn; auto. rewrite Hx. auto.
Qed.
End Hist.

Section Insertions.
Variable T : Type.
Variable shape : T -> mdrange.
Variable isEqual : T -> T -> bool.
Variable minE maxE : nat.
Variable rk : nat.
Hypothesis minE_pos : 1 <= minE.
Hypothesis maxE_min : 2 * minE <= maxE.
Local Notation ins := (rt_insert T shape (fun l : list T => l) minE maxE).
Lemma ins_total : forall t o, rt_ok T shape rk minE (fun m => m <= maxE) t -> box_of rk (shape o) -> exists t', ins t o = Ok t'.
Proof.
  intros t o Ht Ho.
  exact (rt_insert_total T shape isEqual (fun l => l) minE maxE minE_pos maxE_min rk (fun m => m <= maxE)
           (fun l => eq_refl) t o Ht Ho).
Qed.
Lemma inserts_ok : forall l t, rt_ok T shape rk minE (fun m => m <= maxE) t -> Forall (fun o => box_of rk (shape o)) l ->
  exists t', fold_res ins l t = Ok t' /\ rt_ok T shape rk minE (fun m => m <= maxE) t' /\ Permutation (rt_objs T t ++ l) (rt_objs T t').
Proof.
  induction l as [|o l IH]; intros t Ht F.
  - exists t. cbn. rewrite app_nil_r. auto.
  - inversion F; subst. destruct (ins_total t o Ht H1) as (t1 & E1).
    destruct (ins_ok T shape isEqual minE maxE rk minE_pos maxE_min minE minE_pos (le_n _) t o t1 Ht H1 E1) as [K P].
    destruct (IH t1 K H2) as (t' & E & K' & P'). exists t'. cbn [fold_res]. rewrite E1. cbn [bind].
    split; auto. split; auto. etransitivity; [|exact P'].
    replace (o :: l) with ([o] ++ l) by auto. rewrite app_assoc. apply Permutation_app_tail; auto.
Qed.

End Insertions.

(** Index sets built by additions only. *)
Lemma additions_shape : forall rk l t, Forall (box_of rk) l ->
  run is_empty_set (map Add l) = Ok t ->
  rt_ok mdrange box_shape rk isMin (fun m => m <= isMax) t.
Proof.
  intros rk l. induction l as [|b l IH] using rev_ind; intros t F E.
  - cbn in E. injection E as <-. apply rt_empty_ok.
  - apply Forall_app in F. destruct F as [F1 F2]. inversion F2; subst.
    rewrite map_app in E. cbn [map] in E. rewrite run_snoc in E. apply bind_ok in E.
    destruct E as (u & E1 & E2). cbn [apply_edit] in E2. specialize (IH u F1 E1).
    assert (D : forall a b : nat, a <= b -> b <= isMax -> a <= isMax) by (intros; lia).
    refine (proj1 (insert_ok isMin isMax isMin_pos isMax_min rk isMin (fun m => m <= isMax)
                     isMin_pos (le_n _) D (le_n _) u b t IH _ E2)). auto.
Qed.
Lemma built_shape : forall c rk t, built c rk t ->
  rt_ok mdrange box_shape rk 1 (fun _ => True) t.
Proof. exact built_wset. Qed.

Section Reach.
Variable T : Type.
Variable shape : T -> mdrange.
Variable isEqual : T -> T -> bool.
Variable minE maxE rk : nat.
Hypothesis minE_pos : 1 <= minE.
Hypothesis maxE_min : 2 * minE <= maxE.

Lemma reach_ok : forall t, reach T shape isEqual minE maxE rk t ->
  rt_ok T shape rk 1 (fun m => m <= maxE) t.
Proof.
  induction 1.
  - apply rt_empty_ok.
  - destruct l as [|o l].
    + cbn in H0. injection H0 as <-. split; [cbn; auto|]. split; cbn; auto; discriminate.
    + assert (D : forall a b : nat, a <= b -> b <= maxE -> a <= maxE) by (intros; lia).
      eapply (setFromObjects_ok T shape minE maxE rk 1 (fun m => m <= maxE)) in H0; eauto;
        try discriminate; try lia. apply H0.
  - eapply (ins_ok T shape isEqual minE maxE rk minE_pos maxE_min 1 (le_n 1) minE_pos); eauto.
  - eapply (del_ok T shape isEqual minE maxE rk minE_pos maxE_min 1 (le_n 1) minE_pos); eauto.
Qed.
Lemma grown_ok : forall t, grown T shape isEqual minE maxE rk t ->
  rt_ok T shape rk minE (fun m => m <= maxE) t.
Proof.
  induction 1.
  - apply rt_empty_ok.
  - eapply (ins_ok T shape isEqual minE maxE rk minE_pos maxE_min minE minE_pos (le_n _)); eauto.
  - eapply (del_ok T shape isEqual minE maxE rk minE_pos maxE_min minE minE_pos (le_n _)); eauto.
Qed.

Lemma grown_well_formed : forall t, grown T shape isEqual minE maxE rk t ->
  well_formed T shape (between 1 maxE) (between minE maxE) t.
Proof.
  intros t H. apply grown_ok, ok_well_formed in H. eapply well_formed_weaken; [| |exact H];
    intros m; unfold between; tauto.
Qed.
Lemma reach_well_formed : forall t, reach T shape isEqual minE maxE rk t ->
  well_formed T shape (between 1 maxE) (between 1 maxE) t.
Proof.
  intros t H. apply reach_ok, ok_well_formed in H. eapply well_formed_weaken; [| |exact H];
    intros m; unfold between; tauto.
Qed.
Lemma insertions_total : forall l, Forall (fun o => box_of rk (shape o)) l ->
  exists t, fold_res (rt_insert T shape (fun l => l) minE maxE) l (rt_empty T) = Ok t
    /\ Permutation l (stored T t)
    /\ well_formed T shape (between 1 maxE) (between minE maxE) t.
Proof.
  intros l F.
  destruct (inserts_ok T shape isEqual minE maxE rk minE_pos maxE_min l (rt_empty T)
              (rt_empty_ok T shape rk minE (fun m => m <= maxE)) F) as (t & E & K & P).
  exists t. split; auto. split; auto. apply ok_well_formed in K.
  eapply well_formed_weaken; [| |exact K]; intros m; unfold between; tauto.
Qed.

Lemma insert_exact : forall t o t', reach T shape isEqual minE maxE rk t -> box_of rk (shape o) ->
  rt_insert T shape (fun l => l) minE maxE t o = Ok t' ->
  Permutation (o :: stored T t) (stored T t').
Proof.
  intros t o t' H Ho E. apply reach_ok in H.
  eapply (ins_ok T shape isEqual minE maxE rk minE_pos maxE_min 1 (le_n 1) minE_pos) in E as [_ P]; eauto.
  etransitivity; [|exact P]. apply Permutation_cons_append.
Qed.
Lemma insert_defined : forall t o, grown T shape isEqual minE maxE rk t -> box_of rk (shape o) ->
  exists t', rt_insert T shape (fun l => l) minE maxE t o = Ok t'.
Proof.
  intros t o H Ho. apply grown_ok in H.
  eapply (ins_total T shape isEqual minE maxE rk minE_pos maxE_min); eauto.
Qed.
Lemma remove_only_equal : forall t o t', reach T shape isEqual minE maxE rk t ->
  rt_remove T shape isEqual (fun l => l) minE maxE t o = Ok t' ->
  exists gone, Permutation (stored T t) (stored T t' ++ gone)
    /\ Forall (fun x => isEqual o x = true) gone.
Proof.
  intros t o t' H E. apply reach_ok in H.
  eapply (del_ok T shape isEqual minE maxE rk minE_pos maxE_min 1 (le_n 1) minE_pos) in E as [_ P]; eauto.
Qed.
Lemma remove_once : forall t o t', reach T shape isEqual minE maxE rk t -> box_of rk (shape o) ->
  (forall x, isEqual o x = true -> shape x = shape o) ->
  length (filter (isEqual o) (stored T t)) <= 1 ->
  rt_remove T shape isEqual (fun l => l) minE maxE t o = Ok t' ->
  Permutation (stored T t) (stored T t' ++ filter (isEqual o) (stored T t))
  /\ Forall (fun x => isEqual o x = false) (stored T t').
Proof.
  intros t o t' H Ho Hs Hc E. apply reach_ok in H.
  eapply (del_once T shape isEqual minE maxE rk minE_pos maxE_min 1 (le_n 1) minE_pos) in E as [_ P]; eauto.
Qed.

Lemma search_exact : forall t b, reach T shape isEqual minE maxE rk t -> box_of rk b ->
  exists l rest, walkOverlappingObjects T shape t b = Ok l
    /\ Permutation (stored T t) (l ++ rest)
    /\ Forall (fun o => exists p, in_box p (shape o) /\ in_box p b) l
    /\ Forall (fun o => forall p, ~ (in_box p (shape o) /\ in_box p b)) rest.
Proof.
  intros t b H Hb. apply reach_ok in H. pose proof H as H0. apply rt_ok_qtree in H.
  exists (filter (fun o => mdrange_overlaps (shape o) b) (stored T t)).
  exists (filter (fun o => negb (mdrange_overlaps (shape o) b)) (stored T t)).
  assert (F : Forall (fun o => box_of rk (shape o)) (stored T t)).
  { destruct H0 as (G & _). unfold stored. destruct (rt_root T t) as [r|]; auto.
    destruct G as [[K HK] _]. revert HK. generalize true. revert r.
    induction K as [|K IH]; intros r x HK; apply sub_unfold in HK; destruct HK as (_ & _ & _ & Hc);
      destruct r as [i bd c o]; cbn in *.
    - destruct Hc as [-> Ho]. cbn. rewrite app_nil_r. exact Ho.
    - destruct Hc as (_ & -> & Hc). cbn. apply Forall_forall. intros y Hy.
      apply in_flat_map in Hy as (n & Hn & Hy). rewrite Forall_forall in Hc.
      pose proof (IH n false (Hc n Hn)) as F. rewrite Forall_forall in F. apply F; auto. }
  rewrite Forall_forall in F.
  split; [apply (walkObjects_spec T shape rk); auto|]. split; [|split].
  - clear. induction (stored T t) as [|x l IH]; cbn; auto. destruct (mdrange_overlaps (shape x) b); cbn.
    + constructor; auto.
    + apply Permutation_cons_app; auto.
  - apply Forall_forall. intros o Ho. apply filter_In in Ho as [Ho E].
    destruct (F o Ho) as [[_ X] Y], Hb as [[_ X'] Y'].
    apply mdrange_overlaps_spec in E; auto. congruence.
  - apply Forall_forall. intros o Ho p Hp. apply filter_In in Ho as [Ho E].
    destruct (F o Ho) as [[_ X] Y], Hb as [[_ X'] Y'].
    apply negb_true_iff in E. enough (mdrange_overlaps (shape o) b = true) by congruence.
    apply mdrange_overlaps_spec; auto. congruence. eauto.
Qed.

Lemma well_formed_fan : forall t, well_formed T shape (between 1 maxE) (between minE maxE) t ->
  match rt_root T t with
  | None => True
  | Some r => forallb (fanOutInvariant T minE maxE) (nchildren T r) = true
  end.
Proof.
  intros t H. destruct (rt_root T t) as [r|] eqn:E; auto. destruct (H r E) as (h & Hh).
  assert (G : forall h n, tree_at T shape (between 1 maxE) (between minE maxE) false h n ->
                fanOutInvariant T minE maxE n = true).
  { clear. induction h as [|h IH]; intros n H; inversion H; subst; cbn.
    - unfold between in *. rewrite !andb_true_iff, !Nat.leb_le. unfold fanOut; cbn. auto with arith.
    - unfold between in *. destruct children as [|c cs]; [congruence|]. unfold fanOut; cbn in *.
      rewrite !andb_true_iff, !Nat.leb_le.
      match goal with F : Forall _ (c :: cs) |- _ => inversion F as [|x xs Fc Fcs]; subst end.
      split; [split; [lia|destruct maxE; [lia|apply Nat.leb_le; lia]]|]. split; auto. apply forallb_forall. rewrite Forall_forall in Fcs. auto. }
  inversion Hh; subst; cbn; auto. apply forallb_forall.
  match goal with F : Forall _ children |- _ => rewrite Forall_forall in F; eauto end.
Qed.
End Reach.

Lemma additions_well_formed : forall rk l t, Forall (box_of rk) l ->
  run is_empty_set (map Add l) = Ok t ->
  well_formed mdrange (fun b => b) (between 1 isMax) (between isMin isMax) t.
Proof.
  intros rk l t F E. apply (additions_shape rk) in E; auto. apply ok_well_formed in E.
  eapply well_formed_weaken; [| |exact E]; intros m; unfold between; tauto.
Qed.
Lemma built_well_formed : forall c rk t, built c rk t ->
  well_formed mdrange (fun b => b) (fun m => 1 <= m) (fun m => 1 <= m) t.
Proof.
  intros c rk t H. apply built_shape, ok_well_formed in H.
  eapply well_formed_weaken; [| |exact H]; intros m; cbn; tauto.
Qed.
