(** Insertions into the R-tree that cannot fail. *)
From Coq Require Import ZArith List Bool Lia ZifyBool Permutation.
From Verif Require Import RangeModel MDRangeModel Spec RangeProofs MDRangeProofs
  Result RTreeModel RTreeSplitProofs RTreeQueryProofs RTreeProofs ListTac.
Import ListNotations.
Local Open Scope nat_scope.

Section Total.
Variable T : Type.
Variable shape : T -> mdrange.
Variable isEqual : T -> T -> bool.
Variable hook : list T -> list T.
Variable minE maxE : nat.
Hypothesis minE_pos : 1 <= minE.
Hypothesis maxE_min : 2 * minE <= maxE.

Local Notation node := (node T).
Local Notation frame := (frame T).
Local Notation Node := (Node T).
Local Notation nid := (nid T).
Local Notation nbd := (nbd T).
Local Notation nchildren := (nchildren T).
Local Notation nobjects := (nobjects T).
Local Notation isLeaf := (isLeaf T).
Local Notation fanOut := (fanOut T).
Local Notation ids := (ids T).
Local Notation plug1 := (plug1 T).
Local Notation plug := (plug T).
Local Notation locate := (locate T).
Local Notation depth := (depth T).
Local Notation set_objects := (set_objects T).
Local Notation recalcBoundary := (recalcBoundary T shape).
Local Notation updateBoundaries := (updateBoundaries T shape).
Local Notation splitNode := (splitNode T shape minE).
Local Notation splitNodeAndPropagate := (splitNodeAndPropagate T shape minE maxE).
Local Notation chooseLeaf := (chooseLeaf T).
Local Notation chooseDestination := (chooseDestination T).
Local Notation down := (down T).
Local Notation adjustTree := (adjustTree T shape hook minE maxE).

Lemma map_nonnil : forall A B (f : A -> B) l, l <> [] -> map f l <> [].
Proof. intros A B f [|x l] H; cbn; congruence. Qed.

Lemma recalc_total : forall n, fanOut n <> 0 ->
  exists b c, recalcBoundary n = Ok (set_bd T n b, c).
Proof.
  intros n H. unfold RTreeModel.recalcBoundary, RTreeModel.computeBoundary, RTreeModel.fanOut in *.
  destruct (isLeaf n).
  - destruct (getMBR_some (map shape (nobjects n))) as [m ->].
    { apply map_nonnil. destruct (nobjects n); cbn in *; congruence. }
    cbn. eauto.
  - destruct (getMBR_some (map nbd (nchildren n))) as [m ->].
    { apply map_nonnil. destruct (nchildren n); cbn in *; congruence. }
    cbn. eauto.
Qed.

Lemma plug1_fan0 : forall n f, fanOut (plug1 n f) <> 0.
Proof.
  intros n f. unfold RTreeModel.fanOut, RTreeModel.isLeaf. cbn.
  destruct (fleft T f); cbn; lia.
Qed.

Lemma updateBoundaries_total : forall ctx n, fanOut n <> 0 -> exists r, updateBoundaries n ctx = Ok r.
Proof.
  induction ctx as [|f ctx IH]; intros n H; cbn [RTreeModel.updateBoundaries];
    destruct (recalc_total n H) as (b & c & ->); cbn [bind]; destruct c; eauto.
  apply IH. apply plug1_fan0.
Qed.

Lemma splitNode_total : forall fresh n, maxE < fanOut n ->
  exists i1 b1 c1 o1 i2 b2 c2 o2, splitNode fresh n = Ok (Node i1 b1 c1 o1, Node i2 b2 c2 o2).
Proof.
  intros fresh n H. unfold RTreeModel.splitNode, RTreeModel.fanOut in *. destruct (isLeaf n).
  - destruct (splitEntries_total T shape minE (nobjects n)) as (l1 & l2 & E); auto; [lia|].
    rewrite E. cbn [bind]. apply splitEntries_spec in E as (_ & _ & _ & N1 & N2); auto.
    destruct (getMBR_some (map shape l1)) as [m1 ->]; [apply map_nonnil; auto|].
    destruct (getMBR_some (map shape l2)) as [m2 ->]; [apply map_nonnil; auto|].
    cbn. do 8 eexists. reflexivity.
  - destruct (splitEntries_total node nbd minE (nchildren n)) as (l1 & l2 & E); auto; [lia|].
    rewrite E. cbn [bind]. apply splitEntries_spec in E as (_ & _ & _ & N1 & N2); auto.
    destruct (getMBR_some (map nbd l1)) as [m1 ->]; [apply map_nonnil; auto|].
    destruct (getMBR_some (map nbd l2)) as [m2 ->]; [apply map_nonnil; auto|].
    cbn. do 8 eexists. reflexivity.
Qed.

Lemma splitNP_total : forall ctx fresh n, exists r fr, splitNodeAndPropagate fresh n ctx = Ok (r, fr).
Proof.
  induction ctx as [|f ctx IH]; intros fresh n; cbn [RTreeModel.splitNodeAndPropagate];
    destruct (Nat.ltb maxE (fanOut n)) eqn:E.
  - apply Nat.ltb_lt in E. destruct (splitNode_total fresh n E) as (i1 & b1 & c1 & o1 & i2 & b2 & c2 & o2 & ->).
    cbn [bind]. eauto.
  - eauto.
  - apply Nat.ltb_lt in E. destruct (splitNode_total fresh n E) as (i1 & b1 & c1 & o1 & i2 & b2 & c2 & o2 & ->).
    cbn [bind].
    match goal with |- context [RTreeModel.fanOut T ?p <=? maxE] => set (q := p) end.
    destruct (fanOut q <=? maxE); cbn [bind].
    + destruct (recalc_total q) as (b & c & ->).
      { subst q. unfold RTreeModel.fanOut, RTreeModel.isLeaf. cbn. destruct (fleft T f); cbn; lia. }
      cbn [bind]. apply IH.
    + apply IH.
  - destruct (updateBoundaries_total ctx (plug1 n f) (plug1_fan0 n f)) as [r ->]. cbn. eauto.
Qed.

Lemma adjustTree_total : forall cfuel n ctx fresh, NoDup (ids (plug n ctx)) ->
  (ctx <> [] -> minE <= fanOut n) ->
  exists r fr, adjustTree cfuel (plug n ctx) fresh (nid n) = Ok (r, fr).
Proof.
  intros cfuel n ctx fresh Hd Hm. unfold RTreeModel.adjustTree.
  rewrite (locate_plug T minE maxE minE) by auto. rewrite app_nil_r. cbn [of_option bind].
  destruct (splitNP_total ctx fresh n) as (r & fr & Es).
  destruct ctx as [|f ctx].
  - destruct (Nat.eqb_spec (fanOut n) 0); [eauto|].
    destruct (Nat.ltb maxE (fanOut n)).
    + rewrite Es. cbn. eauto.
    + destruct (updateBoundaries_total [] n) as [r' ->]; auto. cbn. eauto.
  - assert (minE <= fanOut n) by (apply Hm; discriminate).
    destruct (Nat.ltb_spec (fanOut n) minE); [lia|].
    destruct (Nat.ltb maxE (fanOut n)).
    + rewrite Es. cbn. eauto.
    + destruct (updateBoundaries_total (f :: ctx) n) as [r' ->]; [lia|]. cbn. eauto.
Qed.

Lemma chooseDestination_total : forall l b, l <> [] ->
  exists k c, chooseDestination l b = Ok k /\ nth_error l k = Some c.
Proof.
  intros l b H. unfold RTreeModel.chooseDestination. destruct l as [|x [|y l]]; [congruence| |].
  - exists 0, x. auto.
  - cbn [first_best map of_option].
    set (k := first_best_loop _ _ _ _ _).
    assert (Hk : k < length (x :: y :: l)).
    { subst k. match goal with |- first_best_loop ?bt ?ll ?i ?be ?bi < _ =>
        pose proof (first_best_loop_lt _ bt ll i be bi) as HH end.
      cbn [length map] in *. rewrite map_length in HH. lia. }
    clearbody k. destruct (nth_error (x :: y :: l) k) as [c|] eqn:E.
    + exists k, c. auto.
    + apply nth_error_None in E. cbn [length] in *. lia.
Qed.

Lemma depth_child : forall n c, In c (nchildren n) -> depth c < depth n.
Proof.
  intros [i b ch o] c H. cbn in *. induction ch as [|x ch IH]; [destruct H|].
  cbn. destruct H as [->|H]; [lia|]. specialize (IH H). lia.
Qed.

Lemma chooseLeaf_total : forall fuel b n ctx, depth n <= fuel -> exists d, chooseLeaf fuel b n ctx = Ok d.
Proof.
  induction fuel as [|f IH]; intros b n ctx H; cbn [RTreeModel.chooseLeaf];
    destruct (isLeaf n) eqn:E; eauto.
  - destruct n; cbn in H; lia.
  - unfold RTreeModel.isLeaf in E.
    destruct (chooseDestination_total (nchildren n) b) as (k & c & -> & Hn).
    { destruct (nchildren n); congruence. }
    cbn [bind]. unfold RTreeModel.down. rewrite Hn. cbn [of_option bind].
    apply IH. apply nth_error_In in Hn. apply depth_child in Hn. lia.
Qed.

Lemma plug_set_objects_ids : forall n ctx o, ids (plug (set_objects n o) ctx) = ids (plug n ctx).
Proof.
  intros n ctx. revert n. induction ctx as [|f ctx IH] using rev_ind; intros n o.
  - destruct n; reflexivity.
  - rewrite !plug_app. cbn [RTreeModel.plug]. unfold RTreeModel.plug1. cbn [RTreeModel.ids].
    rewrite !flat_map_app. cbn [flat_map]. rewrite IH. reflexivity.
Qed.

(** An insertion cannot fail if the processing of the leaf does not shrink it. *)
Section Insert.
Variable rk : nat.
Variable up : nat -> Prop.
Hypothesis hook_keeps : forall l, length (hook l) = length l.

Lemma rt_insert_total : forall t o, rt_ok T shape rk minE up t -> okT T shape rk o ->
  exists t', rt_insert T shape hook minE maxE t o = Ok t'.
Proof.
  intros t o (Hg & Hi & Hni) Ho. unfold rt_insert.
  assert (Hl : length (shape o) = rk) by apply Ho.
  assert (Ha : Nat.eqb (length (shape o))
                 (if rt_initialized T t then rt_rank T t else length (shape o)) = true).
  { apply Nat.eqb_eq. destruct (rt_initialized T t); auto. rewrite Hi; auto. }
  rewrite Ha. cbn [assert_ok bind].
  destruct (rt_root T t) as [root|] eqn:Er; [|eauto].
  destruct (chooseLeaf_total (depth root) (shape o) root []) as [[n ctx] Hc]; auto.
  rewrite Hc. cbn [bind]. apply chooseLeaf_spec in Hc as (Hleaf & c1 & -> & Hp).
  rewrite app_nil_r in *. cbn in Hg. destruct Hg as ((K & Hs) & (Hnd & _)).
  rewrite <- Hp in Hs, Hnd.
  destruct (adjustTree_total
              (collapse_fuel T (plug (set_objects n (hook (nobjects n ++ [o]))) c1))
              (set_objects n (hook (nobjects n ++ [o]))) c1 (rt_fresh T t)) as (r & fr & E).
  - rewrite plug_set_objects_ids. auto.
  - intros Hne. apply (unplug_sub T shape minE maxE rk minE up) in Hs as (k & -> & Hn & _); auto.
    assert (k = 0) by (eapply leaf_level; eauto). subst k.
    rewrite sub_unfold in Hn. destruct Hn as (_ & _ & Hx & Hcont).
    destruct Hx as [_ Hx]; [tauto|]. specialize (Hx ltac:(destruct c1; [congruence|auto])).
    unfold RTreeModel.fanOut, RTreeModel.isLeaf in *. cbn in *. destruct (nchildren n); [|discriminate].
    rewrite hook_keeps, app_length. cbn. lia.
  - cbn [RTreeModel.nid RTreeModel.set_objects] in E. unfold RTreeModel.set_objects in *.
    cbn [RTreeModel.nid] in E. rewrite E. cbn [bind]. eauto.
Qed.
End Insert.
End Total.
