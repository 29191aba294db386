(** The invariant of the R-tree and its preservation. *)
From Coq Require Import ZArith List Bool Lia ZifyBool Permutation.
From Verif Require Import RangeModel MDRangeModel Spec RangeProofs MDRangeProofs
  Result RTreeModel RTreeSplitProofs RTreeQueryProofs ListTac.
Import ListNotations.
Local Open Scope nat_scope.

Section RTreeProofs.
Variable T : Type.
Variable shape : T -> mdrange.
Variable isEqual : T -> T -> bool.
Variable hook : list T -> list T.
Variable minE maxE : nat.
(** rank of the stored boxes; lower bound and admissible sizes of the nodes *)
Variable rk : nat.
Variable lo : nat.
Variable up : nat -> Prop.
Hypothesis minE_pos : 1 <= minE.
Hypothesis maxE_min : 2 * minE <= maxE.
Hypothesis lo_pos : 1 <= lo.
Hypothesis lo_min : lo <= minE.
Hypothesis up_down : forall a b, a <= b -> up b -> up a.
Hypothesis up_max : up maxE.

(** how the content of the tree may be transformed *)
Variable R : list T -> list T -> Prop.
Hypothesis R_perm : forall l l', Permutation l l' -> R l l'.
Hypothesis R_trans : forall a b c, R a b -> R b c -> R a c.
Hypothesis R_app : forall a b c, R a b -> R (a ++ c) (b ++ c).
Hypothesis R_hook : forall l, R l (hook l).

Definition okT (o : T) : Prop := box_of rk (shape o).
Hypothesis hook_ok : forall l, Forall okT l -> Forall okT (hook l).
Hypothesis hook_len : forall l, length (hook l) <= length l.
Hypothesis hook_nonempty : forall l, l <> [] -> hook l <> [].
Hypothesis hook_single : forall o, hook [o] = [o].

Local Notation node := (node T).
Local Notation frame := (frame T).
Local Notation Node := (Node T).
Local Notation nid := (nid T).
Local Notation nbd := (nbd T).
Local Notation nchildren := (nchildren T).
Local Notation nobjects := (nobjects T).
Local Notation isLeaf := (isLeaf T).
Local Notation fanOut := (fanOut T).
Local Notation computeBoundary := (computeBoundary T shape).
Local Notation recalcBoundary := (recalcBoundary T shape).
Local Notation objs := (objs T).
Local Notation ids := (ids T).
Local Notation plug1 := (plug1 T).
Local Notation plug := (plug T).
Local Notation locate := (locate T).
Local Notation fid := (fid T).
Local Notation fbd := (fbd T).
Local Notation fleft := (fleft T).
Local Notation fright := (fright T).
Local Notation fobjs := (fobjs T).
Local Notation mkFrame := (mkFrame T).
Local Notation set_objects := (set_objects T).
Local Notation set_children := (set_children T).
Local Notation set_bd := (set_bd T).
Local Notation updateBoundaries := (updateBoundaries T shape).
Local Notation splitNode := (splitNode T shape minE).
Local Notation splitNodeAndPropagate := (splitNodeAndPropagate T shape minE maxE).
Local Notation chooseLeaf := (chooseLeaf T).
Local Notation chooseDestination := (chooseDestination T).
Local Notation down := (down T).
Local Notation cstate := (cstate T).
Local Notation mkC := (mkC T).
Local Notation c_root := (c_root T).
Local Notation c_fresh := (c_fresh T).
Local Notation c_todo := (c_todo T).
Local Notation relocateObject := (relocateObject T shape hook minE maxE).
Local Notation relocateNode := (relocateNode T shape minE maxE).
Local Notation collapseInner := (collapseInner T shape hook minE maxE).
Local Notation collapseOuter := (collapseOuter T shape hook minE maxE).
Local Notation adjustTree := (adjustTree T shape hook minE maxE).

Notation okb := (box_of rk).

Lemma up_le : forall k, k <= maxE -> up k.
Proof. intros; eapply up_down; eauto. Qed.

(** Induction over trees. *)
Lemma node_ind' : forall P : node -> Prop,
  (forall i b c o, Forall P c -> P (Node i b c o)) -> forall n, P n.
Proof.
  intros P H. fix IH 1. intros [i b c o]. apply H.
  induction c; constructor; auto.
Qed.

(** Identifiers with levels. *)
Fixpoint lv (k : nat) (n : node) : list (nat * nat) :=
  match n with RTreeModel.Node _ i _ c _ => (i, k) :: flat_map (lv (pred k)) c end.

Lemma lv_ids : forall n k, map fst (lv k n) = ids n.
Proof.
  induction n as [i b c o IH] using node_ind'; intros k; cbn.
  f_equal. induction IH as [|x c Hx Hc IHc]; cbn; auto.
  rewrite map_app, Hx, IHc. reflexivity.
Qed.

Fixpoint ctxlv (k : nat) (ctx : list frame) : list (nat * nat) :=
  match ctx with
  | [] => []
  | f :: ctx' => (fid f, S k) :: flat_map (lv k) (fleft f ++ fright f) ++ ctxlv (S k) ctx'
  end.

Lemma lv_plug : forall ctx n k,
  Permutation (lv (k + length ctx) (plug n ctx)) (lv k n ++ ctxlv k ctx).
Proof.
  induction ctx as [|f ctx IH]; intros n k; cbn.
  - rewrite Nat.add_0_r, app_nil_r. reflexivity.
  - replace (k + S (length ctx)) with (S k + length ctx) by lia.
    rewrite IH. cbn.
    rewrite !flat_map_app. cbn. perm_app.
Qed.

Fixpoint ctxobjs (ctx : list frame) : list T :=
  match ctx with
  | [] => []
  | f :: ctx' => fobjs f ++ flat_map objs (fleft f ++ fright f) ++ ctxobjs ctx'
  end.

Lemma objs_plug : forall ctx n, Permutation (objs (plug n ctx)) (objs n ++ ctxobjs ctx).
Proof.
  induction ctx as [|f ctx IH]; intros n; cbn.
  - rewrite app_nil_r. reflexivity.
  - rewrite IH. cbn. rewrite !flat_map_app. cbn. perm_app.
Qed.

Lemma plug_app : forall c1 c2 n, plug n (c1 ++ c2) = plug (plug n c1) c2.
Proof. induction c1; intros; cbn; auto. Qed.

(** Structure of a node at a level; exempted nodes ([E]) may have a wrong
    boundary and too few elements. [r] marks the root. *)
Section Exempt.
Variable E : nat -> Prop.

Fixpoint sub (r : bool) (k : nat) (n : node) : Prop :=
  okb (nbd n) /\ up (fanOut n)
  /\ (~ E (nid n) -> computeBoundary n = Some (nbd n) /\ (r = false -> lo <= fanOut n))
  /\ match k with
     | O => nchildren n = [] /\ Forall okT (nobjects n)
     | S k' => nchildren n <> [] /\ nobjects n = [] /\ Forall (sub false k') (nchildren n)
     end.

(** The part of [sub] about the content. *)
Definition content (k : nat) (n : node) : Prop :=
  match k with
  | O => nchildren n = [] /\ Forall okT (nobjects n)
  | S k' => nchildren n <> [] /\ nobjects n = [] /\ Forall (sub false k') (nchildren n)
  end.

Lemma sub_unfold : forall r k n, sub r k n <->
  okb (nbd n) /\ up (fanOut n)
  /\ (~ E (nid n) -> computeBoundary n = Some (nbd n) /\ (r = false -> lo <= fanOut n))
  /\ content k n.
Proof. intros r [|k] n; reflexivity. Qed.

Lemma sub_root : forall r k n, sub r k n -> sub true k n.
Proof. intros r k n H. rewrite sub_unfold in *. intuition (try discriminate). Qed.

Fixpoint ctxOK (k : nat) (ctx : list frame) (hb : mdrange) : Prop :=
  match ctx with
  | [] => True
  | f :: ctx' =>
      Forall (sub false k) (fleft f ++ fright f) /\ fobjs f = [] /\ okb (fbd f)
      /\ up (S (length (fleft f ++ fright f)))
      /\ (~ E (fid f) ->
          getMBR (map nbd (fleft f) ++ hb :: map nbd (fright f)) = Some (fbd f)
          /\ (ctx' = [] \/ lo <= S (length (fleft f ++ fright f))))
      /\ ctxOK (S k) ctx' (fbd f)
  end.

(** The same with the parent of the hole free to have any boundary. *)
Definition ctxOKx (k : nat) (ctx : list frame) : Prop :=
  match ctx with
  | [] => True
  | f :: ctx' =>
      Forall (sub false k) (fleft f ++ fright f) /\ fobjs f = [] /\ okb (fbd f)
      /\ up (S (length (fleft f ++ fright f)))
      /\ (~ E (fid f) -> (ctx' = [] \/ lo <= S (length (fleft f ++ fright f))))
      /\ ctxOK (S k) ctx' (fbd f)
  end.

Lemma ctxOK_x : forall k ctx hb, ctxOK k ctx hb -> ctxOKx k ctx.
Proof. intros k [|f ctx] hb H; cbn in *; intuition. Qed.

Definition isnil (ctx : list frame) : bool := match ctx with [] => true | _ => false end.

Lemma children_plug1 : forall n f, nchildren (plug1 n f) = fleft f ++ n :: fright f.
Proof. reflexivity. Qed.

Lemma plug1_notleaf : forall n f, isLeaf (plug1 n f) = false.
Proof. intros n f. unfold RTreeModel.isLeaf. cbn. destruct (fleft f); reflexivity. Qed.

Lemma plug1_fan : forall n f, fanOut (plug1 n f) = S (length (fleft f ++ fright f)).
Proof.
  intros. unfold RTreeModel.fanOut. rewrite plug1_notleaf. cbn.
  rewrite !app_length; cbn; lia.
Qed.

Lemma plug1_bd : forall n f, computeBoundary (plug1 n f)
  = getMBR (map nbd (fleft f) ++ nbd n :: map nbd (fright f)).
Proof.
  intros. unfold RTreeModel.computeBoundary. rewrite plug1_notleaf. cbn.
  rewrite map_app. reflexivity.
Qed.

Lemma plug1_content : forall k n f, Forall (sub false k) (fleft f ++ fright f) ->
  fobjs f = [] -> sub false k n -> content (S k) (plug1 n f).
Proof.
  intros k n f Hs Ho Hn. cbn. repeat split; auto.
  - destruct (fleft f); discriminate.
  - apply Forall_app in Hs as [A B]. apply Forall_app; split; auto.
Qed.

Lemma plug1_content_inv : forall k n f, content k (plug1 n f) ->
  exists k', k = S k' /\ Forall (sub false k') (fleft f ++ fright f) /\ fobjs f = []
             /\ sub false k' n.
Proof.
  intros [|k] n f H; cbn in H.
  - destruct H as [H _]. destruct (fleft f); discriminate.
  - destruct H as (_ & Ho & H). exists k. apply Forall_app in H as [A B].
    inversion B; subst. repeat split; auto. apply Forall_app; auto.
Qed.

Lemma plug_sub : forall ctx n k, sub (isnil ctx) k n -> ctxOK k ctx (nbd n) ->
  sub true (k + length ctx) (plug n ctx).
Proof.
  induction ctx as [|f ctx IH]; intros n k Hn Hc.
  - cbn in *. rewrite Nat.add_0_r. auto.
  - cbn [RTreeModel.plug length]. replace (k + S (length ctx)) with (S k + length ctx) by lia.
    cbn in Hc. destruct Hc as (Hs & Ho & Hb & Hu & Hx & Hc).
    apply IH; auto. rewrite sub_unfold. split; [exact Hb|]. split; [rewrite plug1_fan; auto|].
    split; [|apply plug1_content; auto].
    intros HE. rewrite plug1_bd, plug1_fan. destruct (Hx HE) as [A [->|L]]; split; auto.
    discriminate.
Qed.

Lemma unplug_sub : forall ctx n K, sub true K (plug n ctx) ->
  exists k, K = k + length ctx /\ sub (isnil ctx) k n /\ ctxOK k ctx (nbd n).
Proof.
  induction ctx as [|f ctx IH]; intros n K H.
  - exists K. cbn in *. rewrite Nat.add_0_r. auto.
  - cbn in H. apply IH in H as (k1 & -> & Hn & Hc).
    rewrite sub_unfold in Hn. destruct Hn as (Hb & Hu & Hx & Hct).
    apply plug1_content_inv in Hct as (k & -> & Hs & Ho & Hn).
    exists k. split; [cbn; lia|]. split; [exact Hn|]. cbn.
    rewrite plug1_fan in *. rewrite plug1_bd in Hx.
    split; auto. split; auto. split; auto. split; auto. split; auto.
    intros HE. destruct (Hx HE) as [A B]. split; auto.
    destruct ctx as [|f' ctx']; [left; auto | right; apply B; reflexivity].
Qed.

Lemma sub_bds : forall r k l, Forall (sub r k) l -> Forall okb (map nbd l).
Proof.
  intros r k l H. induction H as [|n l Hn Hl IH]; cbn; constructor; auto.
  rewrite sub_unfold in Hn. apply Hn.
Qed.

Lemma content_bd : forall k n b, content k n -> computeBoundary n = Some b -> okb b.
Proof.
  intros k n b H Hb. unfold RTreeModel.computeBoundary in Hb.
  destruct k; cbn in H.
  - destruct H as [Hc Ho]. unfold RTreeModel.isLeaf in Hb. rewrite Hc in Hb.
    eapply getMBR_props in Hb; [apply Hb|]. apply Forall_map; auto.
  - destruct H as (Hc & Ho & Hs). unfold RTreeModel.isLeaf in Hb.
    destruct (nchildren n) eqn:En; [congruence|].
    eapply getMBR_props in Hb; [apply Hb|]. eapply sub_bds; eauto.
Qed.

Lemma content_set_bd : forall k n b, content k n -> content k (set_bd n b).
Proof. intros [|k] n b H; exact H. Qed.

Lemma fanOut_set_bd : forall n b, fanOut (set_bd n b) = fanOut n.
Proof. reflexivity. Qed.
Lemma computeBoundary_set_bd : forall n b, computeBoundary (set_bd n b) = computeBoundary n.
Proof. reflexivity. Qed.

Lemma recalc_inv : forall n n' c, recalcBoundary n = Ok (n', c) ->
  exists b, computeBoundary n = Some b /\ n' = set_bd n b /\ c = negb (mdrange_eq b (nbd n)).
Proof.
  intros n n' c H. unfold RTreeModel.recalcBoundary in H.
  apply bind_ok in H as (b & Hb & H). apply of_option_inv in Hb.
  injection H as <- <-. eauto.
Qed.

Lemma updateB_ok : forall ctx n k root',
  updateBoundaries n ctx = Ok root' ->
  okb (nbd n) -> up (fanOut n) ->
  (~ E (nid n) -> ctx <> [] -> lo <= fanOut n) -> content k n -> ctxOK k ctx (nbd n) ->
  sub true (k + length ctx) root'
  /\ Permutation (objs root') (objs (plug n ctx))
  /\ Permutation (lv (k + length ctx) root') (lv (k + length ctx) (plug n ctx)).
Proof.
  induction ctx as [|f ctx IH]; intros n k root' H Hb Hu Hlo Hc Hctx.
  - cbn in H. apply bind_ok in H as ([n' c] & Hr & H).
    apply recalc_inv in Hr as (b & Eb & -> & ->).
    assert (root' = set_bd n b).
    { destruct (negb _); cbn in H; congruence. }
    subst root'. cbn [RTreeModel.plug length]. rewrite Nat.add_0_r. split; [|split].
    + rewrite sub_unfold. split; [eapply content_bd; eauto|].
      split; [rewrite fanOut_set_bd; auto|].
      split; [|apply content_set_bd; auto].
      intros HE. rewrite computeBoundary_set_bd. split; auto. discriminate.
    + destruct n; reflexivity.
    + destruct n; reflexivity.
  - cbn [RTreeModel.updateBoundaries] in H. apply bind_ok in H as ([n' c] & Hr & H).
    apply recalc_inv in Hr as (b & Eb & -> & ->).
    assert (Hn' : sub false k (set_bd n b)).
    { rewrite sub_unfold. split; [eapply content_bd; eauto|].
      split; [rewrite fanOut_set_bd; auto|].
      split; [|apply content_set_bd; auto].
      intros HE. rewrite computeBoundary_set_bd, fanOut_set_bd. split; auto.
      intros _. apply Hlo; auto. discriminate. }
    destruct (negb (mdrange_eq b (nbd n))) eqn:Ec.
    + cbn in Hctx. destruct Hctx as (Hs & Ho & Hbf & Huf & Hx & Hctx).
      apply IH with (k := S k) in H; auto.
      * replace (k + length (f :: ctx)) with (S k + length ctx) by (cbn; lia).
        destruct H as (A & B & C). split; auto.
        change (plug (plug1 (set_bd n b) f) ctx) with (plug (set_bd n b) (f :: ctx)) in *.
        split.
        -- rewrite B. rewrite !objs_plug. destruct n; reflexivity.
        -- rewrite C. replace (S k + length ctx) with (k + length (f :: ctx)) by (cbn; lia).
           rewrite !lv_plug. destruct n; reflexivity.
      * rewrite plug1_fan; auto.
      * intros HE Hne. rewrite plug1_fan. destruct (Hx HE) as [_ [|]]; auto. congruence.
      * apply plug1_content; auto.
    + injection H as <-. apply negb_false_iff in Ec. apply mdrange_eq_spec in Ec. subst b.
      assert (En : set_bd n (nbd n) = n) by (destruct n; reflexivity).
      rewrite En in *. change (plug (plug1 n f) ctx) with (plug n (f :: ctx)).
      split; [|split]; try reflexivity. apply plug_sub; auto.
Qed.

End Exempt.

Lemma sub_mono : forall (E E' : nat -> Prop) k r n,
  (forall i, In i (ids n) -> E i -> E' i) -> sub E r k n -> sub E' r k n.
Proof.
  induction k as [|k IH]; intros r n HE H; rewrite sub_unfold in *;
    destruct H as (Hb & Hu & Hx & Hc).
  - repeat split; auto; try apply Hb; try apply Hx; try apply Hc; auto;
      intros HH; apply H; apply HE; auto; destruct n; cbn; auto.
  - split; auto. split; auto. split.
    { intros HN. apply Hx. intros HH. apply HN, HE; auto. destruct n; cbn; auto. }
    cbn in *. destruct Hc as (A & B & C). repeat split; auto.
    apply Forall_forall. intros c Hc. rewrite Forall_forall in C.
    apply IH; auto. intros i Hi. apply HE. destruct n; cbn in *. right.
    apply in_flat_map; eauto.
Qed.

Fixpoint ctxids (ctx : list frame) : list nat :=
  match ctx with
  | [] => []
  | f :: ctx' => fid f :: flat_map ids (fleft f ++ fright f) ++ ctxids ctx'
  end.

Lemma ctxlv_ids : forall ctx k, map fst (ctxlv k ctx) = ctxids ctx.
Proof.
  induction ctx as [|f ctx IH]; intros k; cbn; auto.
  f_equal. rewrite map_app, IH. f_equal.
  induction (fleft f ++ fright f) as [|x l IHl]; cbn; auto.
  rewrite map_app, lv_ids, IHl. reflexivity.
Qed.

Lemma ids_plug : forall n ctx, Permutation (ids (plug n ctx)) (ids n ++ ctxids ctx).
Proof.
  intros. rewrite <- (lv_ids _ (0 + length ctx)). rewrite lv_plug.
  rewrite map_app, lv_ids, ctxlv_ids. reflexivity.
Qed.

Lemma ctxOK_mono : forall (E E' : nat -> Prop) ctx k hb,
  (forall i, In i (ctxids ctx) -> E i -> E' i) -> ctxOK E k ctx hb -> ctxOK E' k ctx hb.
Proof.
  induction ctx as [|f ctx IH]; intros k hb HE H; cbn in *; auto.
  destruct H as (Hs & Ho & Hb & Hu & Hx & Hc).
  split.
  { apply Forall_forall. intros c Hin. rewrite Forall_forall in Hs.
    eapply sub_mono; [|apply Hs; auto]. intros i Hi. apply HE. right.
    apply in_or_app. left. apply in_flat_map; eauto. }
  repeat (split; auto).
  - apply Hx; intros HH; apply H; apply HE; auto.
  - apply Hx; intros HH; apply H; apply HE; auto.
  - apply IH; auto. intros i Hi. apply HE. right. apply in_or_app; auto.
Qed.

(** locate *)
Fixpoint locate_list (i : nat) (id : nat) (bd : mdrange) (ob : list T) (ctx : list frame)
    (left right : list node) : option (node * list frame) :=
  match right with
  | [] => None
  | c :: r =>
      match locate i c (mkFrame id bd left r ob :: ctx) with
      | Some z => Some z
      | None => locate_list i id bd ob ctx (left ++ [c]) r
      end
  end.

Lemma locate_unfold : forall i id bd ch ob ctx,
  locate i (Node id bd ch ob) ctx =
  if Nat.eqb id i then Some (Node id bd ch ob, ctx)
  else locate_list i id bd ob ctx [] ch.
Proof.
  intros. cbn. destruct (Nat.eqb id i); auto.
  match goal with |- ?f [] ch = _ =>
    enough (G : forall l, f l ch = locate_list i id bd ob ctx l ch) by apply G end.
  induction ch as [|c ch IH]; intros l; cbn; auto.
  destruct (locate i c _); [auto | apply IH].
Qed.

Lemma locate_list_spec : forall i id bd ob ctx n ctx',
  forall right left,
  Forall (fun c => forall ctx n ctx', locate i c ctx = Some (n, ctx') ->
            nid n = i /\ exists c1, ctx' = c1 ++ ctx /\ plug n c1 = c) right ->
  locate_list i id bd ob ctx left right = Some (n, ctx') ->
  nid n = i /\ exists c1, ctx' = c1 ++ ctx /\ plug n c1 = Node id bd (left ++ right) ob.
Proof.
  induction right as [|c r IH]; intros left HF H; cbn in H; [discriminate|].
  inversion HF; subst. destruct (locate i c _) as [[m cc]|] eqn:El.
  - injection H as -> ->. apply H2 in El as (A & c1 & -> & Hp).
    split; auto. exists (c1 ++ [mkFrame id bd left r ob]).
    split; [rewrite <- app_assoc; reflexivity|]. rewrite plug_app, Hp. reflexivity.
  - apply IH in H as (A & c1 & -> & Hp); auto. split; auto. exists c1. split; auto.
    rewrite Hp. rewrite <- app_assoc. reflexivity.
Qed.

Lemma locate_spec : forall i n ctx m ctx', locate i n ctx = Some (m, ctx') ->
  nid m = i /\ exists c1, ctx' = c1 ++ ctx /\ plug m c1 = n.
Proof.
  intros i. induction n as [id bd ch ob IH] using node_ind'; intros ctx m ctx' H.
  rewrite locate_unfold in H. destruct (Nat.eqb_spec id i) as [He|Hne].
  - injection H as <- <-. split; auto. exists []. split; reflexivity.
  - eapply locate_list_spec in H; eauto.
Qed.

Lemma locate_root : forall i root n ctx, locate i root [] = Some (n, ctx) ->
  nid n = i /\ plug n ctx = root.
Proof.
  intros i root n ctx H. apply locate_spec in H as (A & c1 & -> & Hp).
  rewrite app_nil_r. auto.
Qed.

Lemma locate_notin : forall i n ctx, ~ In i (ids n) -> locate i n ctx = None.
Proof.
  intros i. induction n as [id bd ch ob IH] using node_ind'; intros ctx H.
  rewrite locate_unfold. cbn in H. destruct (Nat.eqb_spec id i); [tauto|].
  assert (Hn : ~ In i (flat_map ids ch)) by tauto. clear H.
  enough (G : forall l, locate_list i id bd ob ctx l ch = None) by apply G.
  induction IH as [|c ch Hc Hch IHc]; intros l; cbn; auto.
  cbn in Hn. rewrite in_app_iff in Hn. rewrite Hc by tauto. apply IHc; tauto.
Qed.

Lemma locate_list_skip : forall i id bd ob ctx right left c tail,
  ~ In i (flat_map ids right) ->
  locate_list i id bd ob ctx left (right ++ c :: tail)
  = locate_list i id bd ob ctx (left ++ right) (c :: tail).
Proof.
  induction right as [|x right IH]; intros left c tail H.
  - rewrite app_nil_r; auto.
  - cbn [app locate_list]. cbn in H. rewrite in_app_iff in H.
    rewrite locate_notin by tauto. rewrite IH by tauto.
    rewrite <- app_assoc. reflexivity.
Qed.

Lemma locate_plug : forall ctx n c0, NoDup (ids (plug n ctx)) ->
  locate (nid n) (plug n ctx) c0 = Some (n, ctx ++ c0).
Proof.
  induction ctx as [|f ctx IH] using rev_ind; intros n c0 H.
  - cbn. destruct n as [i b ch ob]. rewrite locate_unfold. cbn. rewrite Nat.eqb_refl. auto.
  - rewrite plug_app in *. cbn [RTreeModel.plug] in *. unfold RTreeModel.plug1 in *.
    rewrite locate_unfold. cbn in H. inversion H as [|? ? Hni Hnd]; subst.
    assert (Hin : In (nid n) (ids (plug n ctx))).
    { eapply Permutation_in; [symmetry; apply ids_plug|]. apply in_or_app. left.
      destruct n; cbn; auto. }
    rewrite flat_map_app in Hnd, Hni. cbn in Hnd, Hni.
    destruct (Nat.eqb_spec (fid f) (nid n)) as [He|Hne].
    { exfalso. apply Hni. rewrite He. apply in_or_app. right. apply in_or_app. left; auto. }
    assert (Hleft : ~ In (nid n) (flat_map ids (fleft f))).
    { intros HH. clear Hni H. revert HH Hnd. generalize (flat_map ids (fleft f)) as L.
      intros L HH Hnd. apply in_split in HH as (l1 & l2 & ->).
      rewrite <- app_assoc in Hnd. cbn in Hnd. apply NoDup_remove_2 in Hnd.
      apply Hnd. apply in_or_app. right. apply in_or_app. right. apply in_or_app; auto. }
    rewrite locate_list_skip by auto. cbn [locate_list app].
    rewrite IH.
    + rewrite <- app_assoc. destruct f; reflexivity.
    + eapply NoDup_app_l, NoDup_app_r. eauto.
Qed.

(** identifiers in use *)
Definition wfids (fresh : nat) (n : node) : Prop :=
  NoDup (ids n) /\ forall i, In i (ids n) -> i < fresh.

Lemma wfids_perm : forall fresh n m, Permutation (ids n) (ids m) -> wfids fresh n -> wfids fresh m.
Proof.
  intros fresh n m P [A B]. split.
  - eapply Permutation_NoDup; eauto.
  - intros i Hi. apply B. eapply Permutation_in; [symmetry; eauto|auto].
Qed.

Lemma lv_perm_ids : forall k k' n m, Permutation (lv k n) (lv k' m) -> Permutation (ids n) (ids m).
Proof.
  intros k k' n m P. apply (Permutation_map fst) in P. rewrite !lv_ids in P. auto.
Qed.

Lemma lv_node : forall k n, lv k n = (nid n, k) :: flat_map (lv (pred k)) (nchildren n).
Proof. intros k [i b c o]; reflexivity. Qed.

Lemma objs_node : forall n, objs n = nobjects n ++ flat_map objs (nchildren n).
Proof. intros [i b c o]; reflexivity. Qed.

Lemma isLeaf_content : forall E k n, content E k n -> isLeaf n = match k with O => true | _ => false end.
Proof.
  intros E [|k] n H; cbn in H; unfold RTreeModel.isLeaf.
  - destruct H as [-> _]; auto.
  - destruct H as (H & _). destruct (nchildren n); congruence.
Qed.

Lemma fanOut_content : forall E k n, content E k n ->
  fanOut n = match k with O => length (nobjects n) | _ => length (nchildren n) end.
Proof.
  intros E k n H. unfold RTreeModel.fanOut. rewrite (isLeaf_content _ _ _ H). destruct k; auto.
Qed.

Lemma flat_map_perm : forall A B (f : A -> list B) l l',
  Permutation l l' -> Permutation (flat_map f l) (flat_map f l').
Proof.
  intros A B f l l' P. induction P; cbn; auto.
  - apply Permutation_app_head; auto.
  - rewrite !app_assoc. apply Permutation_app_tail, Permutation_app_comm.
  - etransitivity; eauto.
Qed.

Lemma splitNode_ok : forall E k fresh n a b,
  splitNode fresh n = Ok (a, b) -> content E k n ->
  content E k a /\ content E k b
  /\ computeBoundary a = Some (nbd a) /\ computeBoundary b = Some (nbd b)
  /\ fanOut a + fanOut b = fanOut n /\ minE <= fanOut a /\ minE <= fanOut b
  /\ nid a = fresh /\ nid b = S fresh
  /\ Permutation (objs n) (objs a ++ objs b)
  /\ Permutation (flat_map (lv (pred k)) (nchildren n))
       (flat_map (lv (pred k)) (nchildren a) ++ flat_map (lv (pred k)) (nchildren b)).
Proof.
  intros E k fresh n a b H Hc. unfold RTreeModel.splitNode in H.
  rewrite (isLeaf_content _ _ _ Hc) in H.
  rewrite (fanOut_content _ _ _ Hc). destruct k as [|k].
  - apply bind_ok in H as ([l1 l2] & Hs & H). apply bind_ok in H as (b1 & H1 & H).
    apply bind_ok in H as (b2 & H2 & H). injection H as <- <-.
    apply of_option_inv in H1, H2. apply splitEntries_spec in Hs as (P & L1 & L2 & N1 & N2); auto.
    cbn in Hc. destruct Hc as [Hc Ho].
    assert (Ho' : Forall okT (l1 ++ l2)) by (eapply Permutation_Forall; eauto).
    apply Forall_app in Ho' as [Ho1 Ho2].
    cbn [content RTreeModel.nchildren RTreeModel.nobjects RTreeModel.nbd RTreeModel.nid].
    unfold RTreeModel.fanOut, RTreeModel.computeBoundary; cbn.
    rewrite !objs_node, Hc. cbn. rewrite !app_nil_r.
    apply Permutation_length in P as PL. rewrite app_length in PL.
    repeat split; auto.
  - apply bind_ok in H as ([l1 l2] & Hs & H). apply bind_ok in H as (b1 & H1 & H).
    apply bind_ok in H as (b2 & H2 & H). injection H as <- <-.
    apply of_option_inv in H1, H2. apply splitEntries_spec in Hs as (P & L1 & L2 & N1 & N2); auto.
    cbn in Hc. destruct Hc as (Hc & Ho & Hs).
    assert (Hs' : Forall (sub E false k) (l1 ++ l2)) by (eapply Permutation_Forall; eauto).
    apply Forall_app in Hs' as [Hs1 Hs2].
    apply Permutation_length in P as PL. rewrite app_length in PL.
    cbn [content RTreeModel.nchildren RTreeModel.nobjects RTreeModel.nbd RTreeModel.nid].
    assert (I1 : isLeaf (Node fresh b1 l1 []) = false) by (destruct l1; [congruence|reflexivity]).
    assert (I2 : isLeaf (Node (S fresh) b2 l2 []) = false) by (destruct l2; [congruence|reflexivity]).
    unfold RTreeModel.fanOut, RTreeModel.computeBoundary. rewrite I1, I2. cbn.
    split; [auto|]. split; [auto|]. split; [auto|]. split; [auto|]. split; [lia|].
    split; [auto|]. split; [auto|]. split; [auto|]. split; [auto|]. split.
    + rewrite objs_node, Ho. cbn. rewrite <- flat_map_app. apply flat_map_perm; auto.
    + rewrite <- flat_map_app. apply flat_map_perm; auto.
Qed.

Lemma sub_of_content : forall E r k n, content E k n -> up (fanOut n) ->
  computeBoundary n = Some (nbd n) -> (r = false -> ~ E (nid n) -> lo <= fanOut n) ->
  sub E r k n.
Proof.
  intros E r k n Hc Hu Hb Hlo. rewrite sub_unfold. repeat split; auto;
    try (eapply content_bd; eauto; fail).
Qed.

Lemma splitNP_ok : forall E ctx n k fresh root' fresh',
  splitNodeAndPropagate fresh n ctx = Ok (root', fresh') ->
  content E k n ->
  (maxE < fanOut n -> forall a b, a + b = fanOut n -> minE <= a -> minE <= b -> up a /\ up b) ->
  (fanOut n <= maxE -> up (fanOut n) /\ computeBoundary n = Some (nbd n)
     /\ (~ E (nid n) -> ctx <> [] -> lo <= fanOut n)) ->
  ctxOKx E k ctx -> wfids fresh (plug n ctx) ->
  exists K', sub E true K' root'
    /\ Permutation (objs root') (objs (plug n ctx)) /\ wfids fresh' root' /\ fresh <= fresh'
    /\ (forall i l, In (i, l) (lv K' root') ->
          In (i, l) (lv (k + length ctx) (plug n ctx)) \/ fresh <= i).
Proof.
  intros E. induction ctx as [|f ctx IH]; intros n k fresh root' fresh' H Hc Hbig Hsmall Hx Hw.
  - cbn [RTreeModel.splitNodeAndPropagate] in H.
    destruct (Nat.ltb_spec maxE (fanOut n)) as [Hlt|Hge].
    + apply bind_ok in H as ([a b] & Hs & H). injection H as <- <-.
      eapply splitNode_ok in Hs as (Ca & Cb & Ba & Bb & Fs & Fa & Fb & Na & Nb & Po & Pl); eauto.
      destruct (Hbig Hlt _ _ Fs Fa Fb) as [Ua Ub].
      assert (Sa : sub E false k a) by (apply sub_of_content; auto; intros; lia).
      assert (Sb : sub E false k b) by (apply sub_of_content; auto; intros; lia).
      exists (S k). split; [|split; [|split; [|split]]].
      * apply sub_of_content; auto.
        -- cbn. repeat split; auto. discriminate.
        -- cbn. apply up_le. lia.
        -- discriminate.
      * cbn. rewrite app_nil_r. symmetry; auto.
      * cbn in Hw. destruct Hw as [Hn Hf].
        assert (P : Permutation (ids n) (nid n :: flat_map ids (nchildren a) ++ flat_map ids (nchildren b))).
        { destruct n as [i0 b0 c0 o0]. cbn in *. constructor.
          apply (Permutation_map fst) in Pl. rewrite map_app in Pl.
          assert (G : forall l, map fst (flat_map (lv (pred k)) l) = flat_map ids l).
          { induction l; cbn; auto. rewrite map_app, lv_ids, IHl. auto. }
          rewrite !G in Pl. auto. }
        split.
        -- assert (P' : NoDup (nid n :: flat_map ids (nchildren a) ++ flat_map ids (nchildren b)))
             by (eapply Permutation_NoDup; eauto).
           assert (Hf' : forall i, In i (flat_map ids (nchildren a) ++ flat_map ids (nchildren b)) -> i < fresh).
           { intros i Hi. apply Hf. eapply Permutation_in; [symmetry; eauto|]. right; auto. }
           apply NoDup_cons_iff in P' as [_ Hnd]. cbn. rewrite app_nil_r.
           destruct a as [ia ba ca oa], b as [ib bb cb ob]. cbn in *. subst ia ib.
           rewrite <- Permutation_middle.
           constructor; [|constructor; [|constructor; auto]].
           ++ cbn. intros [HH|[HH|HH]]; try lia. apply Hf' in HH; lia.
           ++ cbn. intros [HH|HH]; try lia. apply Hf' in HH; lia.
           ++ intros HH. apply Hf' in HH; lia.
        -- intros i Hi. cbn in Hi. rewrite app_nil_r in Hi.
           destruct a as [ia ba ca oa], b as [ib bb cb ob]. cbn in *. subst ia ib.
           rewrite !in_app_iff in Hi. cbn in Hi.
           destruct Hi as [<-|[<-|[Hi|[<-|Hi]]]]; try lia.
           ++ assert (i < fresh); [|lia]. apply Hf. eapply Permutation_in; [symmetry; eauto|].
              right. apply in_or_app; auto.
           ++ assert (i < fresh); [|lia]. apply Hf. eapply Permutation_in; [symmetry; eauto|].
              right. apply in_or_app; auto.
      * lia.
      * intros i l Hi. cbn [RTreeModel.plug length]. rewrite Nat.add_0_r.
        rewrite (lv_node k n). rewrite lv_node in Hi. cbn in Hi. rewrite app_nil_r in Hi.
        destruct Hi as [Hi|Hi]; [injection Hi as <- <-; right; lia|].
        apply in_app_or in Hi as [Hi|Hi]; rewrite lv_node in Hi; cbn in Hi.
        -- destruct Hi as [Hi|Hi]; [injection Hi as <- <-; right; lia|].
           left. right. eapply Permutation_in; [symmetry; eauto|]. apply in_or_app; auto.
        -- destruct Hi as [Hi|Hi]; [injection Hi as <- <-; right; lia|].
           left. right. eapply Permutation_in; [symmetry; eauto|]. apply in_or_app; auto.
    + injection H as <- <-. destruct (Hsmall Hge) as (Hu & Hb & Hlo).
      exists k. cbn in *. rewrite Nat.add_0_r. split; [|split; [|split; [|split]]]; auto.
      apply sub_of_content; auto. discriminate.
  - cbn [RTreeModel.splitNodeAndPropagate] in H.
    cbn in Hx. destruct Hx as (Hs & Ho & Hb & Hu & Hlo & Hctx).
    destruct (Nat.ltb_spec maxE (fanOut n)) as [Hlt|Hge].
    + apply bind_ok in H as ([a b] & Hsp & H).
      eapply splitNode_ok in Hsp as (Ca & Cb & Ba & Bb & Fs & Fa & Fb & Na & Nb & Po & Pl); eauto.
      destruct (Hbig Hlt _ _ Fs Fa Fb) as [Ua Ub].
      set (a' := Node (nid n) (nbd a) (nchildren a) (nobjects a)) in *.
      set (p := Node (fid f) (fbd f) (fleft f ++ a' :: fright f ++ [b]) (fobjs f)) in *.
      assert (Ca' : content E k a') by (destruct k; exact Ca).
      assert (Fa' : fanOut a' = fanOut a) by reflexivity.
      assert (Sa : sub E false k a').
      { apply sub_of_content; auto; try (rewrite Fa'; auto). intros; lia. }
      assert (Sb : sub E false k b) by (apply sub_of_content; auto; intros; lia).
      assert (Cp : content E (S k) p).
      { cbn. repeat split; auto. { destruct (fleft f); discriminate. }
        apply Forall_app in Hs as [A B]. apply Forall_app; split; auto.
        constructor; auto. apply Forall_app; split; auto. }
      assert (Fp : fanOut p = S (S (length (fleft f ++ fright f)))).
      { rewrite (fanOut_content _ _ _ Cp). cbn. rewrite !app_length. cbn. rewrite app_length. cbn. lia. }
      apply bind_ok in H as (p' & Hp' & H).
      assert (Hpp : p' = set_bd p (nbd p') /\ (fanOut p <= maxE -> computeBoundary p' = Some (nbd p'))).
      { destruct (Nat.leb_spec (fanOut p) maxE) as [Hle|Hgt].
        - apply bind_ok in Hp' as ([q c] & Hq & Hp'). injection Hp' as <-.
          apply recalc_inv in Hq as (bb & Hbb & -> & _). split; auto.
        - injection Hp' as <-. split; [destruct p; reflexivity | lia]. }
      destruct Hpp as [Ep Bp].
      assert (Cp' : content E (S k) p') by (rewrite Ep; apply content_set_bd; auto).
      assert (Fp' : fanOut p' = fanOut p) by (rewrite Ep; reflexivity).
      assert (PL : forall K, K = k + length (f :: ctx) ->
        Permutation (lv K (plug p' ctx)) ((S fresh, k) :: lv K (plug n (f :: ctx)))).
      { intros K ->. rewrite (lv_plug (f :: ctx) n k).
        replace (k + length (f :: ctx)) with (S k + length ctx) by (cbn; lia).
        rewrite (lv_plug ctx p' (S k)). rewrite Ep. rewrite !lv_node. cbn.
        rewrite Pl. rewrite !flat_map_app. cbn. rewrite !flat_map_app. cbn.
        rewrite (lv_node k b), Nb, app_nil_r. cbn. perm_app. }
      eapply IH with (k := S k) in H; auto.
      * destruct H as (K' & A & B & C & D & F).
        exists K'. split; auto. split; [|split; auto; split; [lia|]].
        -- rewrite B. rewrite objs_plug. rewrite (objs_plug (f :: ctx)). cbn [ctxobjs].
           rewrite Po. rewrite Ep. rewrite objs_node. cbn. rewrite !flat_map_app. cbn.
           rewrite !flat_map_app. cbn. rewrite (objs_node a). perm_app.
        -- intros i l Hi. apply F in Hi as [Hi|Hi]; [|right; lia].
           replace (S k + length ctx) with (k + length (f :: ctx)) in Hi by (cbn; lia).
           eapply Permutation_in in Hi; [|apply PL; reflexivity].
           destruct Hi as [Hi|Hi]; auto. injection Hi as <- <-. right; lia.
      * intros Hlt' x y Hxy Hx' Hy'. rewrite Fp', Fp in *.
        split; eapply up_down with (b := S (length (fleft f ++ fright f))); auto; lia.
      * intros Hle. rewrite Fp' in *. rewrite Fp. split; [apply up_le; lia|].
        split; [apply Bp; lia|]. intros HE Hne.
        rewrite Ep in HE. cbn in HE. destruct (Hlo HE); [congruence|lia].
      * eapply ctxOK_x; eauto.
      * assert (P : Permutation (ids (plug p' ctx)) (S fresh :: ids (plug n (f :: ctx)))).
        { specialize (PL _ eq_refl). apply (Permutation_map fst) in PL.
          cbn [map fst] in PL. rewrite !lv_ids in PL. auto. }
        destruct Hw as [Hn Hf]. split.
        -- eapply Permutation_NoDup; [symmetry; eauto|]. constructor; auto.
           intros HH. apply Hf in HH. lia.
        -- intros i Hi. eapply Permutation_in in Hi; eauto. destruct Hi as [<-|Hi]; [lia|].
           apply Hf in Hi; lia.
    + destruct (Hsmall Hge) as (Hun & Hbn & Hln).
      apply bind_ok in H as (r & Hr & H). injection H as <- <-.
      eapply (updateB_ok E) with (k := S k) in Hr; auto.
      * destruct Hr as (A & B & C).
        change (plug (plug1 n f) ctx) with (plug n (f :: ctx)) in *.
        replace (S k + length ctx) with (k + length (f :: ctx)) in * by (cbn; lia).
        exists (k + length (f :: ctx)). split; auto. split; auto. split; [|split; auto].
        -- eapply wfids_perm; [|exact Hw]. symmetry. eapply lv_perm_ids; eauto.
        -- intros i l Hi. left. eapply Permutation_in; eauto.
      * rewrite plug1_fan; auto.
      * intros HE Hne. rewrite plug1_fan. destruct (Hlo HE); auto; congruence.
      * apply plug1_content; auto. apply sub_of_content; auto.
        intros _ HE. apply Hln; auto. discriminate.
Qed.

(** Descending. *)
Lemma down_spec : forall n ctx k c ctx', down n ctx k = Ok (c, ctx') ->
  exists f, ctx' = f :: ctx /\ plug1 c f = n /\ nth_error (nchildren n) k = Some c.
Proof.
  intros n ctx k c ctx' H. unfold RTreeModel.down in H.
  apply bind_ok in H as (x & Hx & H). apply of_option_inv in Hx. injection H as <- <-.
  eexists. split; [reflexivity|]. split; auto.
  unfold RTreeModel.plug1. cbn. destruct n as [i b ch o]. cbn in *. f_equal.
  revert ch Hx. clear. induction k as [|k IH]; intros [|y ch] Hx; cbn in *; try discriminate.
  - congruence.
  - f_equal. apply IH; auto.
Qed.

Lemma chooseLeaf_spec : forall fuel b n ctx d dctx, chooseLeaf fuel b n ctx = Ok (d, dctx) ->
  isLeaf d = true /\ exists c1, dctx = c1 ++ ctx /\ plug d c1 = n.
Proof.
  induction fuel as [|f IH]; intros b n ctx d dctx H; cbn in H.
  - destruct (isLeaf n) eqn:El; [|discriminate]. injection H as <- <-.
    split; auto. exists []; auto.
  - destruct (isLeaf n) eqn:El.
    { injection H as <- <-. split; auto. exists []; auto. }
    apply bind_ok in H as (k & _ & H). apply bind_ok in H as ([c ctx'] & Hd & H).
    apply down_spec in Hd as (fr & -> & Hp & _). apply IH in H as (A & c1 & -> & B).
    split; auto. exists (c1 ++ [fr]). split; [rewrite <- app_assoc; auto|].
    rewrite plug_app, B. auto.
Qed.

Lemma leaf_level : forall E r k n, sub E r k n -> isLeaf n = true -> k = 0.
Proof.
  intros E r [|k] n H Hl; auto. rewrite sub_unfold in H. destruct H as (_ & _ & _ & Hc).
  rewrite (isLeaf_content _ _ _ Hc) in Hl. discriminate.
Qed.

Definition Todo (s : cstate) : nat -> Prop := fun i => In i (c_todo s).
Definition Ex (s : cstate) (pid : nat) : nat -> Prop := fun i => In i (c_todo s) \/ i = pid.

(** what happens to the identifiers *)
Definition lvstep (K : nat) (root : node) (K' : nat) (root' : node) (fresh : nat) : Prop :=
  forall i l, In (i, l) (lv K' root') -> In (i, l) (lv K root) \/ fresh <= i.

Lemma plug_set_objects_lv : forall n ctx o K,
  Permutation (lv K (plug (set_objects n o) ctx)) (lv K (plug n ctx)).
Proof.
  intros n ctx o K. revert n K. induction ctx as [|f ctx IH] using rev_ind; intros n K.
  - destruct n; reflexivity.
  - rewrite !plug_app. cbn. constructor. rewrite !flat_map_app. cbn.
    apply Permutation_app_head, Permutation_app_tail. apply IH.
Qed.

Lemma plug_set_objects_wf : forall n ctx o fresh,
  wfids fresh (plug n ctx) -> wfids fresh (plug (set_objects n o) ctx).
Proof.
  intros. eapply wfids_perm; [|eauto]. eapply (lv_perm_ids 0 0). symmetry. apply plug_set_objects_lv.
Qed.

Lemma leaf_objs : forall E n, content E 0 n -> objs n = nobjects n.
Proof. intros E n [H _]. rewrite objs_node, H. cbn. apply app_nil_r. Qed.

Lemma relocObj_ok : forall pid s o s' K,
  relocateObject pid s o = Ok s' ->
  sub (Ex s pid) true K (c_root s) -> wfids (c_fresh s) (c_root s) -> okT o ->
  exists K', sub (Ex s' pid) true K' (c_root s') /\ wfids (c_fresh s') (c_root s')
    /\ R (objs (c_root s) ++ [o]) (objs (c_root s'))
    /\ lvstep K (c_root s) K' (c_root s') (c_fresh s) /\ c_fresh s <= c_fresh s'
    /\ incl (c_todo s) (c_todo s').
Proof.
  intros pid s o s' K H Hsub Hw Ho. unfold RTreeModel.relocateObject in H.
  apply bind_ok in H as ([p ctx] & Hp & H). apply of_option_inv in Hp.
  apply locate_root in Hp as [Hid Hpl].
  apply bind_ok in H as ([d dctx] & Hd & H).
  apply chooseLeaf_spec in Hd as (Hleaf & c1 & -> & Hc1).
  assert (Hroot : plug d (c1 ++ ctx) = c_root s) by (rewrite plug_app, Hc1; auto).
  set (dctx := c1 ++ ctx) in *. clearbody dctx.
  rewrite <- Hroot in *.
  destruct (unplug_sub _ _ _ _ Hsub) as (k & -> & Hd & Hctx).
  assert (k = 0) by (eapply leaf_level; eauto). subst k.
  rewrite sub_unfold in Hd. destruct Hd as (Hbd & Hup & Hx & Hcont).
  set (d' := set_objects d (hook (nobjects d ++ [o]))) in *.
  assert (Hcont' : content (Ex s pid) 0 d').
  { cbn in *. destruct Hcont as [A B]. split; auto. apply hook_ok.
    apply Forall_app; split; auto. }
  assert (Fd : fanOut d = length (nobjects d)) by (rewrite (fanOut_content _ _ _ Hcont); auto).
  assert (Fd' : fanOut d' <= S (fanOut d)).
  { rewrite (fanOut_content _ _ _ Hcont'), Fd. cbn.
    pose proof (hook_len (nobjects d ++ [o])). rewrite app_length in H0. cbn in H0. lia. }
  assert (HR : R (objs (plug d dctx) ++ [o]) (objs (plug d' dctx))).
  { eapply R_trans with (b := (nobjects d ++ [o]) ++ ctxobjs dctx).
    - apply R_perm. rewrite objs_plug, (leaf_objs _ _ Hcont). perm_app.
    - eapply R_trans with (b := hook (nobjects d ++ [o]) ++ ctxobjs dctx).
      + apply R_app, R_hook.
      + apply R_perm. rewrite objs_plug, (leaf_objs _ _ Hcont'). reflexivity. }
  assert (Hw' : wfids (c_fresh s) (plug d' dctx)) by (apply plug_set_objects_wf; auto).
  assert (HL : forall K', lvstep K' (plug d' dctx) K' (plug d dctx) (c_fresh s)
                /\ lvstep K' (plug d dctx) K' (plug d' dctx) (c_fresh s)).
  { intros K'. split; intros i l Hi; left; (eapply Permutation_in; [|exact Hi]);
      [symmetry|]; apply plug_set_objects_lv. }
  destruct (Nat.ltb_spec maxE (fanOut d')) as [Hlt|Hge].
  - apply bind_ok in H as ([r fr] & Hs & H). injection H as <-.
    eapply (splitNP_ok (Ex s pid)) with (k := 0) in Hs; eauto.
    + destruct Hs as (K' & A & B & C & D & F). exists K'.
      cbn [RTreeModel.c_root RTreeModel.c_fresh RTreeModel.c_todo]. repeat split; auto; try apply C.
      * eapply R_trans; [exact HR|]. apply R_perm. symmetry; auto.
      * intros i l Hi. apply F in Hi as [Hi|Hi]; auto. eapply HL; eauto.
      * apply incl_refl.
    + intros _ x y Hxy Hx' Hy'. split; eapply up_down with (b := fanOut d); auto; lia.
    + intros; lia.
    + eapply ctxOK_x; eauto.
  - destruct (Nat.ltb_spec (fanOut d') minE) as [Hlt2|Hge2].
    + injection H as <-.
      cbn [RTreeModel.c_root RTreeModel.c_fresh RTreeModel.c_todo].
      assert (Hm : forall i, Ex s pid i -> Ex (mkC (plug d' dctx) (c_fresh s) (nid d' :: c_todo s)) pid i).
      { unfold Ex; cbn. intuition. }
      exists (0 + length dctx). repeat split; auto; try apply Hw'.
      * apply plug_sub.
        -- rewrite sub_unfold. split; [exact Hbd|]. split; [apply up_le; lia|]. split.
           ++ intros HN. exfalso. apply HN. unfold Ex; cbn; auto.
           ++ cbn in Hcont' |- *. auto.
        -- eapply ctxOK_mono; [|exact Hctx]. intros; apply Hm; auto.
      * apply HL.
      * intros x Hx'. right; auto.
    + apply bind_ok in H as (r & Hr & H). injection H as <-.
      eapply (updateB_ok (Ex s pid)) with (k := 0) in Hr; eauto.
      * destruct Hr as (A & B & C). exists (0 + length dctx).
        cbn [RTreeModel.c_root RTreeModel.c_fresh RTreeModel.c_todo].
        repeat split; auto.
        -- eapply wfids_perm; [|exact Hw']. symmetry. eapply lv_perm_ids; eauto.
        -- eapply wfids_perm; [|exact Hw']. symmetry. eapply lv_perm_ids; eauto.
        -- eapply R_trans; [exact HR|]. apply R_perm. symmetry; auto.
        -- intros i l Hi. eapply HL. eapply Permutation_in; eauto.
        -- apply incl_refl.
      * intros; lia.
Qed.

Lemma lvstep_ids : forall K root K' root' fresh i, lvstep K root K' root' fresh ->
  In i (ids root') -> In i (ids root) \/ fresh <= i.
Proof.
  intros K root K' root' fresh i H Hi. rewrite <- (lv_ids _ K') in Hi.
  apply in_map_iff in Hi as ([x l] & <- & Hi). apply H in Hi as [Hi|Hi]; auto.
  left. rewrite <- (lv_ids _ K). apply in_map_iff. exists (x, l); auto.
Qed.

Lemma lvstep_trans : forall K r K' r' K'' r'' f f', f <= f' ->
  lvstep K r K' r' f -> lvstep K' r' K'' r'' f' -> lvstep K r K'' r'' f.
Proof.
  intros K r K' r' K'' r'' f f' Hf A B i l Hi. apply B in Hi as [Hi|Hi]; [auto|right; lia].
Qed.

Lemma relocObjs_ok : forall pid os s s' K,
  fold_res (relocateObject pid) os s = Ok s' ->
  sub (Ex s pid) true K (c_root s) -> wfids (c_fresh s) (c_root s) -> Forall okT os ->
  exists K', sub (Ex s' pid) true K' (c_root s') /\ wfids (c_fresh s') (c_root s')
    /\ R (objs (c_root s) ++ os) (objs (c_root s'))
    /\ lvstep K (c_root s) K' (c_root s') (c_fresh s) /\ c_fresh s <= c_fresh s'
    /\ incl (c_todo s) (c_todo s').
Proof.
  induction os as [|o os IH]; intros s s' K H Hs Hw Ho; cbn in H.
  - injection H as <-. exists K. repeat split; auto; try apply Hw.
    + rewrite app_nil_r. apply R_perm; reflexivity.
    + intros i l; auto.
    + apply incl_refl.
  - apply bind_ok in H as (s1 & H1 & H). inversion Ho; subst.
    eapply relocObj_ok in H1 as (K1 & A1 & B1 & C1 & D1 & F1 & G1); eauto.
    eapply IH in H as (K2 & A2 & B2 & C2 & D2 & F2 & G2); eauto.
    exists K2. repeat split; auto; try apply B2.
    + eapply R_trans; [|exact C2]. eapply R_trans with (b := (objs (c_root s) ++ [o]) ++ os).
      * apply R_perm. rewrite <- app_assoc. reflexivity.
      * apply R_app; auto.
    + eapply lvstep_trans with (f' := c_fresh s1); eauto.
    + lia.
    + eapply incl_tran; eauto.
Qed.

(** level of an identifier *)
Definition plevel (pid L K : nat) (root : node) : Prop :=
  forall l, In (pid, l) (lv K root) -> l = L.

Lemma plevel_step : forall pid L K root K' root' fresh, plevel pid L K root ->
  pid < fresh -> lvstep K root K' root' fresh -> plevel pid L K' root'.
Proof.
  intros pid L K root K' root' fresh H Hf Hs l Hl. apply Hs in Hl as [Hl|Hl]; [apply H; auto|lia].
Qed.

Lemma relocNode_ok : forall pid s m s' K km,
  relocateNode pid s m = Ok s' ->
  sub (Ex s pid) true K (c_root s) -> wfids (c_fresh s) (c_root s) ->
  sub (Ex s pid) false km m -> plevel pid (S (S km)) K (c_root s) ->
  NoDup (ids m) -> (forall i, In i (ids m) -> i < c_fresh s /\ ~ In i (ids (c_root s))) ->
  exists K', sub (Ex s' pid) true K' (c_root s') /\ wfids (c_fresh s') (c_root s')
    /\ Permutation (objs (c_root s) ++ objs m) (objs (c_root s'))
    /\ (forall i l, In (i, l) (lv K' (c_root s')) ->
          In (i, l) (lv K (c_root s)) \/ In (i, l) (lv km m) \/ c_fresh s <= i)
    /\ c_fresh s <= c_fresh s' /\ c_todo s = c_todo s'.
Proof.
  intros pid s m s' K km H Hsub Hw Hm Hlev Hnd Hdis. unfold RTreeModel.relocateNode in H.
  apply bind_ok in H as ([p ctx] & Hp & H). apply of_option_inv in Hp.
  apply locate_root in Hp as [Hid Hpl].
  apply bind_ok in H as (kk & _ & H).
  apply bind_ok in H as ([d dctx] & Hd & H).
  apply down_spec in Hd as (f & -> & Hf & _).
  assert (Hroot : plug d (f :: ctx) = c_root s) by (cbn; rewrite Hf; auto).
  assert (Hlvl : exists kp, K = kp + length ctx /\ kp = S (S km)).
  { rewrite <- Hpl in Hsub. destruct (unplug_sub _ _ _ _ Hsub) as (kp & -> & _ & _).
    exists kp. split; auto. apply Hlev. rewrite <- Hpl.
    eapply Permutation_in; [symmetry; apply lv_plug|]. apply in_or_app. left.
    rewrite lv_node. left. rewrite Hid. auto. }
  destruct Hlvl as (kp & -> & ->).
  rewrite <- Hroot in *. set (dctx := f :: ctx) in *.
  destruct (unplug_sub _ _ _ _ Hsub) as (k & Ek & Hd & Hctx).
  assert (k = S km) by (cbn in Ek; lia). subst k.
  change (isnil dctx) with false in Hd. clearbody dctx.
  rewrite sub_unfold in Hd. destruct Hd as (Hbd & Hup & Hx & Hcont).
  set (d' := set_children d (nchildren d ++ [m])) in *.
  assert (Hcont' : content (Ex s pid) (S km) d').
  { cbn in *. destruct Hcont as (A & B & C). repeat split; auto.
    - destruct (nchildren d); discriminate.
    - apply Forall_app; split; auto. }
  assert (Fd' : fanOut d' = S (fanOut d)).
  { rewrite (fanOut_content _ _ _ Hcont'), (fanOut_content _ _ _ Hcont). cbn.
    rewrite app_length. cbn. lia. }
  assert (HO : Permutation (objs (plug d dctx) ++ objs m) (objs (plug d' dctx))).
  { rewrite !objs_plug. rewrite (objs_node d), (objs_node d'). cbn.
    rewrite flat_map_app. cbn. perm_app. }
  assert (HL : Permutation (lv (S km + length dctx) (plug d' dctx))
                 (lv (S km + length dctx) (plug d dctx) ++ lv km m)).
  { rewrite !lv_plug. rewrite (lv_node _ d), (lv_node _ d'). cbn.
    rewrite flat_map_app. cbn. perm_app. }
  assert (Hw' : wfids (c_fresh s) (plug d' dctx)).
  { apply (Permutation_map fst) in HL. rewrite map_app, !lv_ids in HL.
    destruct Hw as [W1 W2]. split.
    - eapply Permutation_NoDup; [symmetry; eauto|].
      apply NoDup_app_intro; auto. intros i Hi Hj. apply Hdis in Hj. tauto.
    - intros i Hi. eapply Permutation_in in Hi; [|exact HL]. apply in_app_or in Hi as [Hi|Hi]; auto.
      apply Hdis; auto. }
  destruct (Nat.ltb_spec maxE (fanOut d')) as [Hlt|Hge].
  - apply bind_ok in H as ([r fr] & Hs & H). injection H as <-.
    eapply (splitNP_ok (Ex s pid)) with (k := S km) in Hs; eauto.
    + destruct Hs as (K' & A & B & C & D & F). exists K'.
      cbn [RTreeModel.c_root RTreeModel.c_fresh RTreeModel.c_todo].
      split; [exact A|]. split; [exact C|]. split; [rewrite HO; symmetry; auto|].
      split; [|split; auto].
      intros i l Hi. apply F in Hi as [Hi|Hi]; auto. eapply Permutation_in in Hi; [|exact HL].
      rewrite Ek. apply in_app_or in Hi as [Hi|Hi]; auto.
    + intros _ x y Hxy Hx' Hy'. split; eapply up_down with (b := fanOut d); auto; lia.
    + intros; lia.
    + eapply ctxOK_x; eauto.
  - apply bind_ok in H as (r & Hr & H). injection H as <-.
    eapply (updateB_ok (Ex s pid)) with (k := S km) in Hr; auto.
    + destruct Hr as (A & B & C). exists (S km + length dctx).
      cbn [RTreeModel.c_root RTreeModel.c_fresh RTreeModel.c_todo].
      split; [exact A|]. split.
      { eapply wfids_perm; [|exact Hw']. symmetry. eapply lv_perm_ids; eauto. }
      split; [rewrite HO; symmetry; auto|]. split; [|split; auto].
      intros i l Hi. eapply Permutation_in in Hi; [|exact C].
      eapply Permutation_in in Hi; [|exact HL]. rewrite Ek. apply in_app_or in Hi as [Hi|Hi]; auto.
    + apply up_le; auto.
    + intros HE _. rewrite Fd'. destruct (Hx HE) as [_ G]. specialize (G eq_refl). lia.
Qed.

Lemma Ex_eq : forall s s' pid i, c_todo s = c_todo s' -> Ex s pid i -> Ex s' pid i.
Proof. intros s s' pid i H. unfold Ex. rewrite H. auto. Qed.

Lemma relocNodes_ok : forall pid km ms s s' K,
  fold_res (relocateNode pid) ms s = Ok s' ->
  sub (Ex s pid) true K (c_root s) -> wfids (c_fresh s) (c_root s) ->
  Forall (sub (Ex s pid) false km) ms -> plevel pid (S (S km)) K (c_root s) ->
  pid < c_fresh s -> ~ In pid (flat_map ids ms) ->
  NoDup (flat_map ids ms) ->
  (forall i, In i (flat_map ids ms) -> i < c_fresh s /\ ~ In i (ids (c_root s))) ->
  exists K', sub (Ex s' pid) true K' (c_root s') /\ wfids (c_fresh s') (c_root s')
    /\ Permutation (objs (c_root s) ++ flat_map objs ms) (objs (c_root s'))
    /\ plevel pid (S (S km)) K' (c_root s')
    /\ c_fresh s <= c_fresh s' /\ c_todo s = c_todo s'.
Proof.
  intros pid km. induction ms as [|m ms IH]; intros s s' K H Hs Hw Hm Hl Hp Hpm Hnd Hdis; cbn in H.
  - injection H as <-. exists K. cbn. rewrite app_nil_r. repeat split; auto; apply Hw.
  - apply bind_ok in H as (s1 & H1 & H). inversion Hm as [|? ? Hm1 Hm2]; subst.
    cbn in Hnd, Hdis, Hpm. rewrite in_app_iff in Hpm.
    eapply relocNode_ok in H1 as (K1 & A1 & B1 & C1 & D1 & F1 & G1); eauto.
    + eapply IH in H as (K2 & A2 & B2 & C2 & D2 & F2 & G2); eauto.
      * exists K2. split; auto. split; auto. split; [|split; auto; split; [lia|congruence]].
        rewrite <- C2, <- C1. cbn. rewrite <- app_assoc. reflexivity.
      * eapply Forall_impl; [|exact Hm2]. intros x Hx.
        eapply sub_mono; [|exact Hx]. intros i _. apply Ex_eq; auto.
      * intros l Hi. apply D1 in Hi as [Hi|[Hi|Hi]]; auto; [|lia].
        exfalso. apply Hpm. left. rewrite <- (lv_ids _ km). apply in_map_iff.
        exists (pid, l); auto.
      * lia.
      * eapply NoDup_app_r; eauto.
      * intros i Hi. split.
        { assert (i < c_fresh s) by (apply Hdis, in_or_app; auto). lia. }
        intros Hj. rewrite <- (lv_ids _ K1) in Hj. apply in_map_iff in Hj as ([x l] & Ex' & Hj).
        cbn in Ex'. subst x. apply D1 in Hj as [Hj|[Hj|Hj]].
        -- destruct (Hdis i) as [_ G]; [apply in_or_app; auto|]. apply G.
           rewrite <- (lv_ids _ K). apply in_map_iff. exists (i, l); auto.
        -- eapply NoDup_app_disj with (x := i); [exact Hnd| |exact Hi].
           rewrite <- (lv_ids _ km). apply in_map_iff. exists (i, l); auto.
        -- destruct (Hdis i) as [G _]; [apply in_or_app; auto|]. lia.
    + eapply NoDup_app_l; eauto.
    + intros i Hi. apply Hdis. apply in_or_app; auto.
Qed.

(** The node being collapsed. *)
Definition curAt (s : cstate) (i : nat) (k : nat) (n : node) (ctx : list frame) : Prop :=
  c_root s = plug n ctx /\ nid n = i /\ okb (nbd n) /\ up (fanOut n) /\ nobjects n = []
  /\ (nchildren n = [] \/ exists k', k = S k' /\ Forall (sub (Todo s) false k') (nchildren n))
  /\ ctxOK (Todo s) k ctx (nbd n) /\ wfids (c_fresh s) (c_root s).

Lemma wf_drop_child : forall fresh n f ctx,
  wfids fresh (plug n (f :: ctx)) ->
  wfids fresh (plug (Node (fid f) (fbd f) (fleft f ++ fright f) (fobjs f)) ctx).
Proof.
  intros fresh n f ctx [A B].
  assert (P : Permutation (ids (plug n (f :: ctx)))
    (ids n ++ ids (plug (Node (fid f) (fbd f) (fleft f ++ fright f) (fobjs f)) ctx))).
  { rewrite !ids_plug. cbn. perm_app. }
  split.
  - eapply NoDup_app_r. eapply Permutation_NoDup; eauto.
  - intros i Hi. apply B. eapply Permutation_in; [symmetry; eauto|]. apply in_or_app; auto.
Qed.

Lemma collapseInner_ok : forall fuel i os s s' j os' k n ctx,
  collapseInner fuel i os s = Ok (s', j, os') ->
  curAt s i k n ctx -> Forall okT os ->
  exists k' n' ctx', curAt s' j k' n' ctx' /\ (ctx' = [] \/ minE <= fanOut n')
    /\ R (objs (c_root s) ++ os) (objs (c_root s') ++ os') /\ Forall okT os'.
Proof.
  induction fuel as [|fl IH]; intros i os s s' j os' k n ctx H Hcur Hos;
    pose proof Hcur as (Hroot & Hid & Hbd & Hup & Hno & Hch & Hctx & Hw);
    assert (Hloc : locate i (c_root s) [] = Some (n, ctx))
      by (rewrite Hroot in Hw |- *; rewrite <- Hid;
          rewrite locate_plug by apply Hw; rewrite app_nil_r; auto);
    cbn [RTreeModel.collapseInner] in H; rewrite Hloc in H; cbn [of_option bind] in H.
  - destruct ctx as [|f ctx].
    + injection H as <- <- <-. exists k, n, []. split; [auto|]. split; [auto|]. split; [apply R_perm; reflexivity|auto].
    + destruct (Nat.ltb_spec (fanOut n) minE) as [Hlt|Hge]; [discriminate|].
      injection H as <- <- <-. exists k, n, (f :: ctx). split; [auto|]. split; [auto|]. split; [apply R_perm; reflexivity|auto].
  - destruct ctx as [|f ctx].
    { injection H as <- <- <-. exists k, n, []. split; [auto|]. split; [auto|]. split; [apply R_perm; reflexivity|auto]. }
    destruct (Nat.ltb_spec (fanOut n) minE) as [Hlt|Hge].
    2: { injection H as <- <- <-. exists k, n, (f :: ctx). split; [auto|]. split; [auto|]. split; [apply R_perm; reflexivity|auto]. }
    set (p := Node (fid f) (fbd f) (fleft f ++ fright f) (fobjs f)) in *.
    set (s1 := mkC (plug p ctx) (c_fresh s) (c_todo s)) in *.
    cbn [ctxOK] in Hctx. destruct Hctx as (Hsib & Hfo & Hfb & Hfu & Hfx & Hctx).
    assert (Hw1 : wfids (c_fresh s) (plug p ctx))
      by (rewrite Hroot in Hw; eapply wf_drop_child; eauto).
    assert (Fup : up (length (fleft f ++ fright f))) by (eapply up_down; [|exact Hfu]; lia).
    assert (HO1 : Permutation (objs (c_root s)) (objs (plug p ctx) ++ flat_map objs (nchildren n))).
    { rewrite Hroot, (objs_plug (f :: ctx)), objs_plug, (objs_node n), Hno. cbn. perm_app. }
    assert (HI1 : Permutation (ids (c_root s))
                    (ids (plug p ctx) ++ i :: flat_map ids (nchildren n))).
    { rewrite Hroot, (ids_plug n), ids_plug. rewrite <- Hid. destruct n as [i0 b0 c0 o0]. cbn.
      perm_app. }
    apply bind_ok in H as ([s2 os2] & H2 & H). apply bind_ok in H as (s3 & H3 & H).
    destruct (fleft f ++ fright f) as [|q sib] eqn:Esib.
    + (* no sibling *)
      assert (s2 = s1 /\ os2 = os) as [-> ->].
      { destruct os; cbn in H2; injection H2 as <- <-; auto. }
      destruct (nchildren n) as [|m ms] eqn:Ech.
      2: { exfalso. cbn in H3. unfold RTreeModel.relocateNode at 1 in H3.
           assert (L : locate (fid f) (c_root s1) [] = Some (p, ctx)).
           { cbn. change (fid f) with (nid p). rewrite locate_plug by apply Hw1.
             rewrite app_nil_r; auto. }
           rewrite L in H3. cbn in H3. discriminate. }
      cbn in H3. injection H3 as <-.
      eapply (IH (fid f) os s1 s' j os' (S k) p ctx) in H; auto.
      * destruct H as (k' & n' & ctx' & A & B & C & D).
        exists k', n', ctx'. split; [auto|]. split; [auto|]. split; auto.
        eapply R_trans; [|exact C]. apply R_app, R_perm. rewrite HO1. cbn. rewrite app_nil_r.
        reflexivity.
      * unfold curAt. split; [reflexivity|]. split; [reflexivity|]. split; [exact Hfb|].
        split; [cbn; rewrite Hfo; exact Fup|]. split; [exact Hfo|]. split; [left; reflexivity|].
        split; [exact Hctx|exact Hw1].
    + (* at least a sibling *)
      assert (Hsub1 : sub (Ex s1 (fid f)) true (S k + length ctx) (c_root s1)).
      { cbn [RTreeModel.c_root]. apply plug_sub.
        - rewrite sub_unfold. split; [exact Hfb|]. split; [exact Fup|]. split.
          + intros HN. exfalso. apply HN. right. reflexivity.
          + cbn. split; [discriminate|]. split; [auto|].
            eapply Forall_impl; [|exact Hsib]. intros x Hx. eapply sub_mono; [|exact Hx].
            intros y _ Hy. left. exact Hy.
        - eapply ctxOK_mono; [|exact Hctx]. intros y _ Hy. left. exact Hy. }
      assert (Hlev1 : plevel (fid f) (S k) (S k + length ctx) (c_root s1)).
      { intros l Hl. cbn [RTreeModel.c_root] in Hl.
        eapply Permutation_in in Hl; [|apply lv_plug].
        pose proof (proj1 Hw1) as Hnd.
        assert (Hnd' : NoDup (fid f :: flat_map ids (q :: sib) ++ ctxids ctx)).
        { eapply Permutation_NoDup; [|exact Hnd]. rewrite ids_plug. reflexivity. }
        apply in_app_or in Hl as [Hl|Hl].
        - rewrite lv_node in Hl. destruct Hl as [Hl|Hl]; [cbn in Hl; congruence|].
          exfalso. apply NoDup_cons_iff in Hnd' as [Hnd' _]. apply Hnd'. apply in_or_app. left.
          cbn [RTreeModel.nchildren p] in Hl.
          assert (G : forall L kk, In (fid f, l) (flat_map (lv kk) L) -> In (fid f) (flat_map ids L)).
          { intros L kk HH. apply in_flat_map in HH as (x & Hx & HH). apply in_flat_map.
            exists x. split; [auto|]. rewrite <- (lv_ids _ kk). apply in_map_iff. exists (fid f, l); auto. }
          eapply G; exact Hl.
        - exfalso. apply NoDup_cons_iff in Hnd' as [Hnd' _]. apply Hnd'. apply in_or_app. right.
          rewrite <- (ctxlv_ids _ (S k)). apply in_map_iff. exists (fid f, l); auto. }
      assert (H2' : fold_res (relocateObject (fid f)) os s1 = Ok s2 /\ os2 = []).
      { destruct os as [|o os]; cbn [RTreeModel.nchildren p] in H2.
        - injection H2 as <- <-. auto.
        - apply bind_ok in H2 as (x & Hx & H2). injection H2 as <- <-. auto. }
      destruct H2' as [H2' ->]. clear H2.
      eapply relocObjs_ok in H2' as (K2 & A2 & B2 & C2 & D2 & F2 & G2); eauto.
      assert (Hpf : fid f < c_fresh s).
      { apply (proj2 Hw1). eapply Permutation_in; [symmetry; apply ids_plug|]. left. reflexivity. }
      assert (Hlev2 : plevel (fid f) (S k) K2 (c_root s2)) by (eapply plevel_step; eauto).
      assert (Hids : NoDup (ids (plug p ctx) ++ i :: flat_map ids (nchildren n))).
      { eapply Permutation_NoDup; [exact HI1|]. apply Hw. }
      assert (Hpin : In (fid f) (ids (plug p ctx))).
      { eapply Permutation_in; [symmetry; apply ids_plug|]. left. reflexivity. }
      assert (H3' : exists K3, sub (Ex s3 (fid f)) true K3 (c_root s3)
                /\ wfids (c_fresh s3) (c_root s3)
                /\ Permutation (objs (c_root s2) ++ flat_map objs (nchildren n)) (objs (c_root s3))
                /\ plevel (fid f) (S k) K3 (c_root s3) /\ incl (c_todo s) (c_todo s3)).
      { destruct Hch as [Hch|(k' & -> & Hch)].
        - rewrite Hch in *. cbn in H3. injection H3 as <-. exists K2. cbn. rewrite app_nil_r.
          repeat split; auto; apply B2.
        - eapply relocNodes_ok with (km := k') (K := K2) in H3; eauto.
          + destruct H3 as (K3 & A3 & B3 & C3 & D3 & F3 & G3). exists K3.
            repeat split; auto; try apply B3. rewrite <- G3. exact G2.
          + eapply Forall_impl; [|exact Hch]. intros x Hx. eapply sub_mono; [|exact Hx].
            intros y _ Hy. left. apply G2. exact Hy.
          + cbn in F2. lia.
          + intros HH. eapply NoDup_app_disj; [exact Hids|exact Hpin|]. right; auto.
          + apply NoDup_app_r in Hids. apply NoDup_cons_iff in Hids. tauto.
          + intros x Hx. 
            assert (Hxs : x < c_fresh s).
            { apply (proj2 Hw). eapply Permutation_in; [symmetry; exact HI1|].
              apply in_or_app. right. right. auto. }
            split; [cbn in F2; lia|]. intros Hx2.
            eapply lvstep_ids in Hx2; [|exact D2]. destruct Hx2 as [Hx2|Hx2]; [|cbn in Hx2; lia].
            eapply NoDup_app_disj; [exact Hids|exact Hx2|]. right; auto. }
      destruct H3' as (K3 & A3 & B3 & C3 & D3 & G3).
      destruct (locate (fid f) (c_root s3) []) as [[p3 ctx3]|] eqn:L3.
      2: { exfalso. destruct fl; cbn in H; rewrite L3 in H; discriminate. }
      pose proof (locate_root _ _ _ _ L3) as [Hid3 Hpl3].
      assert (Hcur3 : curAt s3 (fid f) (S k) p3 ctx3).
      { rewrite <- Hpl3 in A3, D3. destruct (unplug_sub _ _ _ _ A3) as (k3 & -> & Hp3 & Hc3).
        assert (k3 = S k).
        { apply D3. eapply Permutation_in; [symmetry; apply lv_plug|]. apply in_or_app. left.
          rewrite lv_node, Hid3. left. reflexivity. }
        subst k3. rewrite sub_unfold in Hp3. destruct Hp3 as (Hb3 & Hu3 & _ & Hct3).
        cbn in Hct3. destruct Hct3 as (Hne3 & Hno3 & Hch3).
        assert (Hnd3 : NoDup (fid f :: flat_map ids (nchildren p3) ++ ctxids ctx3)).
        { eapply Permutation_NoDup; [|apply B3]. rewrite <- Hpl3, ids_plug, <- Hid3.
          destruct p3; reflexivity. }
        apply NoDup_cons_iff in Hnd3 as [Hnin _]. rewrite in_app_iff in Hnin.
        unfold curAt. split; [auto|]. split; [auto|]. split; [auto|]. split; [auto|]. split; [auto|]. split.
        - right. exists k. split; [auto|]. apply Forall_forall. intros x Hx.
          rewrite Forall_forall in Hch3. eapply sub_mono; [|apply Hch3; auto].
          intros y Hy [Hy2|Hy2]; auto. exfalso. subst y. apply Hnin. left.
          apply in_flat_map; eauto.
        - split; [|exact B3]. eapply ctxOK_mono; [|exact Hc3]. intros y Hy [Hy2|Hy2]; auto.
          exfalso. subst y. apply Hnin. auto. }
      eapply IH in H; [|exact Hcur3|constructor].
      destruct H as (k' & n' & ctx' & A & B & C & D).
      exists k', n', ctx'. split; [auto|]. split; [auto|]. split; auto.
      eapply R_trans; [|exact C]. rewrite app_nil_r.
      eapply R_trans with (b := (objs (c_root s1) ++ os) ++ flat_map objs (nchildren n)).
      { apply R_perm. rewrite HO1. cbn [RTreeModel.c_root s1]. perm_app. }
      eapply R_trans; [apply R_app; exact C2|]. apply R_perm. exact C3.
Qed.

Lemma collapseOuter_ok : forall fuel s root' fresh' K,
  collapseOuter fuel s = Ok (root', fresh') ->
  sub (Todo s) true K (c_root s) -> wfids (c_fresh s) (c_root s) ->
  exists K', sub (fun _ => False) true K' root' /\ wfids fresh' root'
    /\ R (objs (c_root s)) (objs root').
Proof.
  induction fuel as [|fl IH]; intros s root' fresh' K H Hs Hw; cbn [RTreeModel.collapseOuter] in H.
  - destruct (c_todo s) as [|i todo] eqn:Et; [|discriminate].
    injection H as <- <-. exists K. split; [|split; [exact Hw|apply R_perm; reflexivity]].
    eapply sub_mono; [|exact Hs]. unfold Todo. rewrite Et. auto.
  - destruct (c_todo s) as [|i todo] eqn:Et.
    { injection H as <- <-. exists K. split; [|split; [exact Hw|apply R_perm; reflexivity]].
      eapply sub_mono; [|exact Hs]. unfold Todo. rewrite Et. auto. }
    apply bind_ok in H as ([n ctx] & Hl & H). apply of_option_inv in Hl.
    apply locate_root in Hl as [Hid Hpl].
    apply bind_ok in H as ([[s2 j] os'] & Hin & H).
    apply bind_ok in H as ([m mctx] & Hm & H). apply of_option_inv in Hm.
    apply bind_ok in H as (r & Hr & H). apply bind_ok in H as (u & Ha & H).
    apply assert_ok_inv in Ha. destruct os' as [|]; [|discriminate].
    set (s1 := mkC (plug (set_objects n []) ctx) (c_fresh s) todo) in *.
    rewrite <- Hpl in Hs, Hw.
    destruct (unplug_sub _ _ _ _ Hs) as (k & -> & Hn & Hctx).
    rewrite sub_unfold in Hn. destruct Hn as (Hb & Hu & _ & Hc).
    assert (Hnd : NoDup (i :: flat_map ids (nchildren n) ++ ctxids ctx)).
    { eapply Permutation_NoDup; [|apply Hw]. rewrite ids_plug, <- Hid. destruct n; reflexivity. }
    apply NoDup_cons_iff in Hnd as [Hnin _]. rewrite in_app_iff in Hnin.
    assert (Hcur : curAt s1 i k (set_objects n []) ctx).
    { unfold curAt. cbn [RTreeModel.c_root s1 RTreeModel.c_fresh]. split; auto.
      split; [destruct n; exact Hid|]. split; [destruct n; exact Hb|]. split.
      { eapply up_down; [|exact Hu]. destruct n as [a b c o]. unfold RTreeModel.fanOut, RTreeModel.isLeaf.
        cbn. destruct c; cbn; lia. }
      split; [destruct n; reflexivity|]. split; [|split].
      - destruct k as [|k]; cbn in Hc.
        + left. destruct n; cbn in *; tauto.
        + right. exists k. split; [auto|]. apply Forall_forall. intros x Hx.
          destruct Hc as (_ & _ & Hc). rewrite Forall_forall in Hc.
          assert (Hx' : In x (nchildren n)) by (destruct n; exact Hx).
          eapply sub_mono; [|apply Hc; auto]. intros y Hy Hy2. unfold Todo in *. rewrite Et in Hy2.
          destruct Hy2 as [<-|Hy2]; auto. exfalso. apply Hnin. left. apply in_flat_map; eauto.
      - replace (nbd (set_objects n [])) with (nbd n) by (destruct n; reflexivity).
        eapply ctxOK_mono; [|exact Hctx]. intros y Hy Hy2. unfold Todo in *. rewrite Et in Hy2.
        destruct Hy2 as [<-|Hy2]; auto. exfalso. apply Hnin. auto.
      - apply plug_set_objects_wf; auto. }
    assert (Hos : Forall okT (nobjects n)).
    { destruct k; cbn in Hc; [tauto|]. destruct Hc as (_ & -> & _). constructor. }
    eapply collapseInner_ok in Hin; eauto.
    destruct Hin as (k' & n' & ctx' & Hcur2 & Hfan & HR & _).
    destruct Hcur2 as (Hroot2 & Hid2 & Hb2 & Hu2 & Hno2 & Hch2 & Hctx2 & Hw2).
    assert (E2 : locate j (c_root s2) [] = Some (n', ctx')).
    { rewrite Hroot2 in Hw2 |- *. rewrite <- Hid2. rewrite locate_plug by apply Hw2.
      rewrite app_nil_r; auto. }
    rewrite E2 in Hm. injection Hm as <- <-.
    assert (Hc2 : content (Todo s2) k' n').
    { destruct Hch2 as [Hch2|(k2 & -> & Hch2)].
      - exfalso. destruct ctx'; cbn in Hr; unfold RTreeModel.recalcBoundary, RTreeModel.computeBoundary,
          RTreeModel.isLeaf in Hr; rewrite Hch2, Hno2 in Hr; cbn in Hr; discriminate.
      - destruct (nchildren n') as [|q l] eqn:Eq.
        + exfalso. destruct ctx'; cbn in Hr; unfold RTreeModel.recalcBoundary, RTreeModel.computeBoundary,
            RTreeModel.isLeaf in Hr; rewrite Eq, Hno2 in Hr; cbn in Hr; discriminate.
        + cbn. rewrite Eq. split; [discriminate|]. auto. }
    eapply (updateB_ok (Todo s2)) with (k := k') in Hr; auto.
    2: { intros _ Hne. destruct Hfan as [|]; [congruence|lia]. }
    destruct Hr as (Sr & Or & Lr).
    assert (Hwr : wfids (c_fresh s2) r).
    { rewrite Hroot2 in Hw2. eapply wfids_perm; [|exact Hw2]. symmetry. eapply lv_perm_ids; eauto. }
    assert (HRr : R (objs (c_root s)) (objs r)).
    { eapply R_trans with (b := objs (c_root s1) ++ nobjects n).
      - apply R_perm. rewrite <- Hpl. cbn [RTreeModel.c_root s1].
        rewrite !objs_plug. rewrite (objs_node n), (objs_node (set_objects n [])).
        destruct n as [a b c o]; cbn. perm_app.
      - eapply R_trans; [exact HR|]. rewrite app_nil_r. apply R_perm. rewrite Hroot2.
        symmetry; auto. }
    set (r' := match nchildren r with [c] => c | _ => r end) in *.
    assert (Hr' : exists K', sub (Todo s2) true K' r' /\ wfids (c_fresh s2) r' /\ objs r' = objs r).
    { subst r'. destruct (nchildren r) as [|c [|c' l]] eqn:Ec.
      - eexists; split; [exact Sr|auto].
      - rewrite sub_unfold in Sr. destruct Sr as (_ & _ & _ & Sc).
        destruct (k' + length ctx') as [|kk]; cbn in Sc.
        + destruct Sc as [Sc _]. congruence.
        + destruct Sc as (_ & Son & Sc). rewrite Ec in Sc. inversion Sc; subst.
          exists kk. split; [eapply sub_root; eauto|]. split.
          * destruct r as [a b ch o]. cbn in Ec. subst ch. destruct Hwr as [W1 W2]. cbn in W1, W2.
            rewrite app_nil_r in *. apply NoDup_cons_iff in W1 as [_ W1]. split; auto.
          * rewrite (objs_node r), Son, Ec. cbn. rewrite app_nil_r. auto.
      - eexists; split; [exact Sr|auto]. }
    destruct Hr' as (K' & Sr' & Wr' & Or').
    eapply IH in H; [|exact Sr'|exact Wr'].
    destruct H as (K'' & A & B & C). exists K''. split; [auto|]. split; auto.
    eapply R_trans; [exact HRr|]. cbn [RTreeModel.c_root] in C. rewrite <- Or'. exact C.
Qed.

Definition good (fresh : nat) (r : option node) : Prop :=
  match r with
  | None => True
  | Some r => (exists K, sub (fun _ => False) true K r) /\ wfids fresh r
  end.
Definition oobjs (r : option node) : list T := match r with None => [] | Some r => objs r end.

(** adjustTree on a leaf whose objects have been changed. *)
Lemma adjust_ok : forall cfuel n ctx fresh r fresh',
  adjustTree cfuel (plug n ctx) fresh (nid n) = Ok (r, fresh') ->
  content (fun _ => False) 0 n -> okb (nbd n) ->
  (maxE < fanOut n -> forall a b, a + b = fanOut n -> minE <= a -> minE <= b -> up a /\ up b) ->
  ctxOK (fun _ => False) 0 ctx (nbd n) -> wfids fresh (plug n ctx) ->
  good fresh' r /\ R (objs (plug n ctx)) (oobjs r).
Proof.
  intros cfuel n ctx fresh r fresh' H Hc Hb Hbig Hctx Hw.
  unfold RTreeModel.adjustTree in H.
  assert (Hloc : locate (nid n) (plug n ctx) [] = Some (n, ctx)).
  { rewrite locate_plug by apply Hw. rewrite app_nil_r; auto. }
  rewrite Hloc in H. cbn [of_option bind] in H.
  assert (Hsplit : forall r0 fr, maxE < fanOut n ->
     splitNodeAndPropagate fresh n ctx = Ok (r0, fr) ->
     good fr (Some r0) /\ R (objs (plug n ctx)) (objs r0)).
  { intros r0 fr Hlt Hs. eapply (splitNP_ok (fun _ => False)) with (k := 0) in Hs; eauto.
    - destruct Hs as (K' & A & B & C & D & F). split; [split; eauto|].
      apply R_perm. symmetry; auto.
    - intros; lia.
    - eapply ctxOK_x; eauto. }
  assert (Hupd : forall r0, fanOut n <= maxE -> (ctx <> [] -> lo <= fanOut n) ->
     updateBoundaries n ctx = Ok r0 ->
     good fresh (Some r0) /\ R (objs (plug n ctx)) (objs r0)).
  { intros r0 Hle Hlo Hr. eapply (updateB_ok (fun _ => False)) with (k := 0) in Hr; auto.
    - destruct Hr as (A & B & C). split; [split; eauto|].
      + eapply wfids_perm; [|exact Hw]. symmetry. eapply lv_perm_ids; eauto.
      + apply R_perm. symmetry; auto.
    - apply up_le; auto. }
  destruct ctx as [|f ctx].
  - destruct (Nat.eqb_spec (fanOut n) 0) as [He|Hne].
    + injection H as <- <-. split; [exact I|]. cbn [oobjs].
      rewrite (fanOut_content _ _ _ Hc) in He. cbn [RTreeModel.plug].
      rewrite (leaf_objs _ _ Hc). destruct (nobjects n); [apply R_perm; reflexivity|discriminate].
    + destruct (Nat.ltb_spec maxE (fanOut n)) as [Hlt|Hge].
      * apply bind_ok in H as ([r0 fr] & Hs & H). injection H as <- <-. apply Hsplit; auto.
      * apply bind_ok in H as (r0 & Hr & H). injection H as <- <-. apply Hupd; auto. congruence.
  - destruct (Nat.ltb_spec (fanOut n) minE) as [Hlt|Hge].
    + apply bind_ok in H as ([r0 fr] & Hs & H). injection H as <- <-.
      unfold RTreeModel.collapseNodeAndPropagate in Hs. rewrite Hloc in Hs. cbn [of_option bind] in Hs.
      eapply collapseOuter_ok with (K := 0 + length (f :: ctx)) in Hs.
      * destruct Hs as (K' & A & B & C). split; [split; eauto|exact C].
      * cbn [RTreeModel.c_root]. apply plug_sub.
        -- rewrite sub_unfold. split; [auto|]. split; [apply up_le; lia|]. split.
           ++ intros HN. exfalso. apply HN. left. reflexivity.
           ++ exact Hc.
        -- eapply ctxOK_mono; [|exact Hctx]. intros ? ? [].
      * exact Hw.
    + destruct (Nat.ltb_spec maxE (fanOut n)) as [Hlt2|Hge2].
      * apply bind_ok in H as ([r0 fr] & Hs & H). injection H as <- <-. apply Hsplit; auto.
      * apply bind_ok in H as (r0 & Hr & H). injection H as <- <-. apply Hupd; auto. lia.
Qed.

(** The invariant of a tree. *)
Definition rt_ok (t : rtree T) : Prop :=
  good (rt_fresh T t) (rt_root T t)
  /\ (rt_initialized T t = true -> rt_rank T t = rk)
  /\ (rt_initialized T t = false -> rt_root T t = None).
Definition rt_objs (t : rtree T) : list T := oobjs (rt_root T t).

Lemma rt_insert_ok : forall t o t', rt_ok t -> okT o ->
  rt_insert T shape hook minE maxE t o = Ok t' ->
  rt_ok t' /\ R (rt_objs t ++ [o]) (rt_objs t').
Proof.
  intros t o t' (Hg & Hi & Hni) Ho H. unfold rt_insert in H.
  apply bind_ok in H as (u & Ha & H). apply assert_ok_inv, Nat.eqb_eq in Ha.
  assert (Hrk : length (shape o) = rk) by apply Ho.
  destruct (rt_root T t) as [root|] eqn:Er.
  - cbn in Hg. destruct Hg as ((K & Hs) & Hw).
    apply bind_ok in H as ([n ctx] & Hc & H). apply bind_ok in H as ([r fr] & Hadj & H).
    injection H as <-. apply chooseLeaf_spec in Hc as (Hleaf & c1 & -> & Hp).
    rewrite app_nil_r in *. rewrite <- Hp in Hs, Hw.
    destruct (unplug_sub _ _ _ _ Hs) as (k & -> & Hn & Hctx).
    assert (k = 0) by (eapply leaf_level; eauto). subst k.
    rewrite sub_unfold in Hn. destruct Hn as (Hb & Hu & Hx & Hcont).
    set (n' := set_objects n (hook (nobjects n ++ [o]))) in *.
    assert (Hcont' : content (fun _ => False) 0 n').
    { cbn in *. destruct Hcont as [A B]. split; [auto|]. apply hook_ok. apply Forall_app; auto. }
    assert (Fn' : fanOut n' <= S (fanOut n)).
    { rewrite (fanOut_content _ _ _ Hcont'), (fanOut_content _ _ _ Hcont). cbn.
      pose proof (hook_len (nobjects n ++ [o])) as HL. rewrite app_length in HL. cbn in HL. lia. }
    change (nid n) with (nid n') in Hadj.
    eapply adjust_ok in Hadj; auto.
    + destruct Hadj as [A B]. split.
      * split; [auto|]. cbn. split; [intros; congruence|discriminate].
      * unfold rt_objs. rewrite Er. cbn [RTreeModel.rt_root oobjs].
        eapply R_trans; [|exact B]. rewrite <- Hp.
        eapply R_trans with (b := (nobjects n ++ [o]) ++ ctxobjs c1).
        -- apply R_perm. rewrite objs_plug, (leaf_objs _ _ Hcont). perm_app.
        -- eapply R_trans with (b := hook (nobjects n ++ [o]) ++ ctxobjs c1).
           ++ apply R_app, R_hook.
           ++ apply R_perm. rewrite objs_plug, (leaf_objs _ _ Hcont'). reflexivity.
    + intros _ a b Hab Ha' Hb'. split; eapply up_down with (b := fanOut n); auto; lia.
    + apply plug_set_objects_wf; auto.
  - injection H as <-. split.
    + split; [|split; [intros; cbn in *; congruence|discriminate]]. cbn.
      split.
      * exists 0.
        rewrite hook_single. split; [exact Ho|]. split; [apply up_le; cbn; lia|].
        split; [|split; [reflexivity|constructor; auto]]. intros _. split; [reflexivity|discriminate].
      * split; cbn; [constructor; [auto|constructor]|]. intros i [<-|[]]; lia.
    + unfold rt_objs. rewrite Er. cbn. rewrite app_nil_r. apply R_hook.
Qed.


(** Replacing the objects of a leaf. *)
Lemma leaf_update_ok : forall t root i n ctx l' cfuel r fr,
  rt_ok t -> rt_root T t = Some root -> locate i root [] = Some (n, ctx) -> isLeaf n = true ->
  Forall okT l' ->
  (maxE < length l' -> forall a b, a + b = length l' -> minE <= a -> minE <= b -> up a /\ up b) ->
  adjustTree cfuel (plug (set_objects n l') ctx) (rt_fresh T t) i = Ok (r, fr) ->
  rt_ok (mkRT T r fr (rt_initialized T t) (rt_rank T t))
  /\ Permutation (objs root) (nobjects n ++ ctxobjs ctx)
  /\ R (l' ++ ctxobjs ctx) (oobjs r).
Proof.
  intros t root i n ctx l' cfuel r fr (Hg & Hi & Hni) Er Hl Hleaf Hok Hbig H.
  rewrite Er in Hg. cbn in Hg. destruct Hg as ((K & Hs) & Hw).
  apply locate_root in Hl as [Hid Hp]. rewrite <- Hp in Hs, Hw.
  destruct (unplug_sub _ _ _ _ Hs) as (k & -> & Hn & Hctx).
  assert (k = 0) by (eapply leaf_level; eauto). subst k.
  rewrite sub_unfold in Hn. destruct Hn as (Hb & Hu & Hx & Hcont).
  set (n' := set_objects n l') in *.
  assert (Hcont' : content (fun _ => False) 0 n').
  { cbn in *. destruct Hcont as [A B]. split; auto. }
  assert (Fn' : fanOut n' = length l').
  { rewrite (fanOut_content _ _ _ Hcont'). reflexivity. }
  assert (Ei : i = nid n') by (rewrite <- Hid; reflexivity).
  rewrite Ei in H. eapply adjust_ok in H; auto.
  - destruct H as [A B]. split; [|split].
    + split; auto. cbn. split; [auto|]. intros E. rewrite Hni in Er by auto. discriminate.
    + rewrite <- Hp, objs_plug, (leaf_objs _ _ Hcont). reflexivity.
    + eapply R_trans; [|exact B]. apply R_perm. rewrite objs_plug, (leaf_objs _ _ Hcont').
      reflexivity.
  - rewrite Fn'. auto.
  - apply plug_set_objects_wf; auto.
Qed.

(** Bulk loading. *)
Lemma chunk_spec : forall A fuel k (l : list A), 1 <= k -> length l <= fuel * k ->
  concat (chunk fuel k l) = l
  /\ Forall (fun g => g <> [] /\ length g <= k) (chunk fuel k l)
  /\ (length (chunk fuel k l) <= fuel)
  /\ (length l = fuel * k -> length (chunk fuel k l) = fuel
                             /\ Forall (fun g => length g = k) (chunk fuel k l)).
Proof.
  intros A. induction fuel as [|f IH]; intros k l Hk Hl; cbn [chunk].
  - cbn in Hl. destruct l; cbn in *; [|lia]. auto.
  - destruct l as [|x l].
    { cbn. split; auto. split; auto. split; [lia|]. cbn. intros. nia. }
    assert (Hs : length (skipn k (x :: l)) <= f * k) by (rewrite skipn_length; cbn [length] in *; lia).
    specialize (IH k _ Hk Hs). destruct IH as (A1 & B1 & C1 & D1).
    split; [|split; [|split]].
    + cbn [concat]. rewrite A1. apply firstn_skipn.
    + constructor; auto. split; [destruct k; [lia|discriminate]|].
      rewrite firstn_length. lia.
    + cbn. lia.
    + intros HL. destruct D1 as [D1 D2].
      { rewrite skipn_length. cbn [length] in *. lia. }
      split; [cbn; lia|]. constructor; auto. rewrite firstn_length. cbn [length] in *. nia.
Qed.

Lemma distribute_spec : forall A (rest : list A) groups gs' m, distribute groups rest = Some gs' ->
  Permutation (concat groups ++ rest) (concat gs') /\ length gs' = length groups
  /\ (Forall (fun g => length g = m) groups ->
      Forall (fun g => m <= length g /\ length g <= S m) gs').
Proof.
  intros A. induction rest as [|x r IH]; intros groups gs' m H; cbn in H.
  - injection H as <-. rewrite app_nil_r. split; [reflexivity|]. split; auto.
    intros F. eapply Forall_impl; [|exact F]. cbn. lia.
  - destruct groups as [|g gs]; [discriminate|]. destruct (distribute gs r) as [gs2|] eqn:E; [|discriminate].
    injection H as <-. destruct (IH gs gs2 m E) as (P & L & F). split; [|split].
    + cbn. rewrite <- P. perm_app.
    + cbn. lia.
    + intros F'. inversion F'; subst. constructor; auto. rewrite app_length. cbn. lia.
Qed.

Lemma distribute_total : forall A (rest : list A) groups, length rest <= length groups ->
  exists gs', distribute groups rest = Some gs'.
Proof.
  intros A. induction rest as [|x r IH]; intros [|g gs] H; cbn in *; eauto; try lia.
  destruct (IH gs) as [gs' ->]; [lia|]. eauto.
Qed.

Lemma bulkGroups_spec : forall objects gs, objects <> [] ->
  bulkGroups T minE maxE objects = Some gs ->
  Permutation objects (concat gs)
  /\ Forall (fun g => g <> [] /\ length g <= maxE) gs
  /\ gs <> [] /\ (Forall (fun g => minE <= length g) gs \/ exists g, gs = [g]).
Proof.
  intros objects gs Hne H. unfold bulkGroups in H.
  destruct (Nat.ltb_spec maxE (length objects)) as [Hlt|Hge].
  - set (q := length objects / minE) in *.
    assert (Hq : q * minE <= length objects).
    { subst q. rewrite Nat.mul_comm. apply Nat.mul_div_le. lia. }
    assert (Hq1 : 1 <= q) by (subst q; apply Nat.div_le_lower_bound; lia).
    assert (Hl : length (firstn (q * minE) objects) = q * minE)
      by (rewrite firstn_length; lia).
    destruct (chunk_spec T q minE (firstn (q * minE) objects)) as (A & B & _ & D); [lia|lia|].
    destruct (D Hl) as [D1 D2].
    apply (distribute_spec _ _ _ _ minE) in H as (P & L & F). specialize (F D2).
    split; [|split; [|split]].
    + rewrite <- P, A, firstn_skipn. reflexivity.
    + eapply Forall_impl; [|exact F]. cbn. intros g Hg. split; [|lia].
      intros ->. cbn in Hg. lia.
    + intros ->. cbn in L. lia.
    + left. eapply Forall_impl; [|exact F]. cbn. intros g Hg. lia.
  - injection H as <-. split; [cbn; rewrite app_nil_r; reflexivity|].
    split; [constructor; auto|]. split; [discriminate|]. right. eauto.
Qed.

Lemma bulkGroups_total : forall objects, minE * minE <= maxE + minE ->
  exists gs, bulkGroups T minE maxE objects = Some gs.
Proof.
  intros objects Hm. unfold bulkGroups. destruct (Nat.ltb_spec maxE (length objects)) as [Hlt|Hge].
  2: eauto.
  set (q := length objects / minE) in *.
  assert (Hq : q * minE <= length objects).
  { subst q. rewrite Nat.mul_comm. apply Nat.mul_div_le. lia. }
  assert (Hd : length objects = minE * q + length objects mod minE) by (apply Nat.div_mod; lia).
  assert (Hmod : length objects mod minE < minE) by (apply Nat.mod_upper_bound; lia).
  apply distribute_total.
  destruct (chunk_spec T q minE (firstn (q * minE) objects)) as (_ & _ & _ & D);
    [lia|rewrite firstn_length; lia|].
  destruct D as [D _]; [rewrite firstn_length; lia|].
  rewrite D, skipn_length. nia.
Qed.

Lemma mkLeaves_spec : forall groups fresh l,
  RTreeModel.mkLeaves T shape fresh groups = Ok l -> lo = 1 ->
  Forall (fun g => g <> [] /\ length g <= maxE) groups -> Forall okT (concat groups) ->
  Forall (sub (fun _ => False) false 0) l /\ flat_map objs l = concat groups
  /\ flat_map ids l = seq fresh (length groups) /\ length l = length groups.
Proof.
  induction groups as [|g gs IH]; intros fresh l H Hlo Hg Hok; cbn in H.
  - injection H as <-. cbn. auto.
  - apply bind_ok in H as (b & Hb & H). apply of_option_inv in Hb.
    apply bind_ok in H as (l2 & H2 & H). injection H as <-.
    inversion Hg as [|? ? [Hne Hlen] Hg']; subst. cbn in Hok. apply Forall_app in Hok as [Ho1 Ho2].
    destruct (IH _ _ H2 Hlo Hg' Ho2) as (A & B & C & D).
    split; [|split; [|split]].
    + constructor; auto. apply sub_of_content.
      * split; auto.
      * apply up_le. cbn. auto.
      * exact Hb.
      * intros _ _. cbn. destruct g; [congruence|cbn; lia].
    + cbn. rewrite app_nil_r, B. reflexivity.
    + cbn. rewrite C. reflexivity.
    + cbn. lia.
Qed.

Lemma mkLeaves_total : forall groups fresh, Forall (fun g => g <> []) groups ->
  exists l, RTreeModel.mkLeaves T shape fresh groups = Ok l.
Proof.
  induction groups as [|g gs IH]; intros fresh H; cbn; eauto.
  inversion H; subst. destruct (getMBR_some (map shape g)) as [b ->].
  { destruct g; [congruence|discriminate]. }
  cbn. destruct (IH (S fresh)) as [l ->]; auto. cbn. eauto.
Qed.

Lemma mkParents_spec : forall k groups fresh l,
  RTreeModel.mkParents T fresh groups = Ok l -> lo = 1 ->
  Forall (fun g => g <> [] /\ length g <= maxE) groups ->
  Forall (sub (fun _ => False) false k) (concat groups) ->
  Forall (sub (fun _ => False) false (S k)) l
  /\ Permutation (flat_map objs l) (flat_map objs (concat groups))
  /\ Permutation (flat_map ids l) (seq fresh (length groups) ++ flat_map ids (concat groups))
  /\ length l = length groups.
Proof.
  intros k. induction groups as [|g gs IH]; intros fresh l H Hlo Hg Hok; cbn in H.
  - injection H as <-. cbn. auto.
  - apply bind_ok in H as (b & Hb & H). apply of_option_inv in Hb.
    apply bind_ok in H as (l2 & H2 & H). injection H as <-.
    inversion Hg as [|? ? [Hne Hlen] Hg']; subst. cbn in Hok. apply Forall_app in Hok as [Ho1 Ho2].
    destruct (IH _ _ H2 Hlo Hg' Ho2) as (A & B & C & D).
    assert (Hlf : isLeaf (Node fresh b g []) = false).
    { unfold RTreeModel.isLeaf. cbn. destruct g; [congruence|auto]. }
    split; [|split; [|split]].
    + constructor; auto. apply sub_of_content.
      * split; auto.
      * apply up_le. unfold RTreeModel.fanOut. rewrite Hlf. auto.
      * unfold RTreeModel.computeBoundary. rewrite Hlf. exact Hb.
      * intros _ _. unfold RTreeModel.fanOut. rewrite Hlf. destruct g; [congruence|cbn; lia].
    + cbn. rewrite flat_map_app, B. reflexivity.
    + cbn. rewrite flat_map_app, C. perm_app.
    + cbn. lia.
Qed.

Lemma mkParents_total : forall groups fresh, Forall (fun g => g <> []) groups ->
  exists l, RTreeModel.mkParents T fresh groups = Ok l.
Proof.
  induction groups as [|g gs IH]; intros fresh H; cbn; eauto.
  inversion H; subst. destruct (getMBR_some (map nbd g)) as [b ->].
  { destruct g; [congruence|discriminate]. }
  cbn. destruct (IH (S fresh)) as [l ->]; auto. cbn. eauto.
Qed.

Lemma bulkLevels_spec : forall fuel fresh nodes k out fresh',
  RTreeModel.bulkLevels T maxE fuel fresh nodes = Ok (out, fresh') -> lo = 1 ->
  Forall (sub (fun _ => False) false k) nodes -> nodes <> [] ->
  NoDup (flat_map ids nodes) -> (forall i, In i (flat_map ids nodes) -> i < fresh) ->
  exists k', Forall (sub (fun _ => False) false k') out /\ out <> [] /\ length out <= maxE
    /\ Permutation (flat_map objs nodes) (flat_map objs out)
    /\ NoDup (flat_map ids out) /\ (forall i, In i (flat_map ids out) -> i < fresh').
Proof.
  induction fuel as [|f IH]; intros fresh nodes k out fresh' H Hlo Hs Hne Hnd Hfr;
    cbn [RTreeModel.bulkLevels] in H.
  - destruct (Nat.ltb_spec maxE (length nodes)) as [Hlt|Hge]; [discriminate|].
    injection H as <- <-. exists k. auto 7.
  - destruct (Nat.ltb_spec maxE (length nodes)) as [Hlt|Hge].
    2: { injection H as <- <-. exists k. auto 7. }
    apply bind_ok in H as (ps & Hp & H).
    destruct (chunk_spec _ (length nodes) maxE nodes) as (A & B & C & _); [lia|nia|].
    pose proof Hp as Hp'.
    eapply mkParents_spec with (k := k) in Hp; auto; [|rewrite A; auto].
    destruct Hp as (P1 & P2 & P3 & P4). rewrite A in P2, P3.
    eapply IH with (k := S k) in H; auto.
    + destruct H as (k' & Q1 & Q2 & Q3 & Q4 & Q5 & Q6). exists k'.
      repeat split; auto. rewrite <- P2. auto.
    + intros ->. cbn in P4. symmetry in P4. apply length_zero_iff_nil in P4. rewrite P4 in A.
      cbn in A. congruence.
    + eapply Permutation_NoDup; [symmetry; exact P3|]. apply NoDup_app_intro; auto.
      * apply seq_NoDup.
      * intros x Hx Hx'. apply in_seq in Hx. apply Hfr in Hx'. lia.
    + intros i Hi. eapply Permutation_in in Hi; [|exact P3]. apply in_app_or in Hi as [Hi|Hi].
      * apply in_seq in Hi. lia.
      * apply Hfr in Hi. lia.
Qed.

Lemma chunk_length_lt : forall A fuel k (l : list A), 2 <= k -> 2 <= length l ->
  length (chunk fuel k l) < length l.
Proof.
  intros A.
  assert (G : forall fuel k (l : list A), 2 <= k -> length (chunk fuel k l) <= length l).
  { induction fuel as [|f IH]; intros k l Hk; cbn [chunk]; [cbn; lia|].
    destruct l as [|x l]; [cbn; lia|]. cbn [length].
    specialize (IH k (skipn k (x :: l)) Hk). rewrite skipn_length in IH. cbn [length] in IH. lia. }
  intros [|f] k l Hk Hl; cbn [chunk]; [cbn; lia|].
  destruct l as [|x l]; [cbn in *; lia|]. cbn [length] in *.
  specialize (G f k (skipn k (x :: l)) Hk). rewrite skipn_length in G. cbn [length] in G. lia.
Qed.

Lemma bulkLevels_total : forall fuel fresh nodes, length nodes <= fuel ->
  exists out fresh', RTreeModel.bulkLevels T maxE fuel fresh nodes = Ok (out, fresh').
Proof.
  induction fuel as [|f IH]; intros fresh nodes H; cbn [RTreeModel.bulkLevels].
  - destruct (Nat.ltb_spec maxE (length nodes)); [lia|eauto].
  - destruct (Nat.ltb_spec maxE (length nodes)) as [Hlt|]; [|eauto].
    destruct (chunk_spec _ (length nodes) maxE nodes) as (A & B & C & _); [lia|nia|].
    destruct (mkParents_total (chunk (length nodes) maxE nodes) fresh) as [ps Hps].
    { eapply Forall_impl; [|exact B]. intros ? [HH _]; exact HH. }
    rewrite Hps. cbn [bind]. apply IH.
    assert (E : length ps = length (chunk (length nodes) maxE nodes)).
    { clear - Hps. revert fresh ps Hps. generalize (chunk (length nodes) maxE nodes) as gs.
      induction gs as [|g gs IH]; intros fresh ps H; cbn in H; [injection H as <-; auto|].
      apply bind_ok in H as (b & _ & H). apply bind_ok in H as (l & Hl & H). injection H as <-.
      cbn. f_equal. eauto. }
    pose proof (chunk_length_lt _ (length nodes) maxE nodes). lia.
Qed.

Lemma setFromObjects_ok : forall t objects t',
  setFromObjects T shape minE maxE t objects = Ok t' -> lo = 1 -> Forall okT objects ->
  objects <> [] -> rt_ok t' /\ Permutation objects (rt_objs t').
Proof.
  intros t objects t' H Hlo Hok Hne. unfold setFromObjects in H.
  destruct objects as [|o objects]; [congruence|].
  set (obs := o :: objects) in *. cbv zeta in H.
  assert (Hrk : length (shape o) = rk) by (inversion Hok; subst; apply H2).
  clearbody obs.
  apply bind_ok in H as (gs & Hg & H). apply of_option_inv in Hg.
  apply bulkGroups_spec in Hg as (P & F & Hgn & _); auto.
  apply bind_ok in H as (leaves & Hl & H).
  eapply mkLeaves_spec in Hl; auto.
  2: { eapply Permutation_Forall; eauto. }
  destruct Hl as (L1 & L2 & L3 & L4).
  apply bind_ok in H as ([nodes fresh] & Hb & H).
  eapply bulkLevels_spec with (k := 0) in Hb; auto.
  2: { intros ->. destruct gs; [congruence|discriminate]. }
  2: { rewrite L3. apply seq_NoDup. }
  2: { intros i Hi. rewrite L3 in Hi. apply in_seq in Hi. lia. }
  destruct Hb as (k & B1 & B2 & B3 & B4 & B5 & B6).
  assert (PO : Permutation obs (flat_map objs nodes)).
  { rewrite <- B4, L2. auto. }
  destruct nodes as [|r [|r2 nodes]]; [congruence| |].
  - injection H as <-. cbn in PO, B5, B6. rewrite app_nil_r in *. inversion B1; subst.
    split; [|exact PO]. split; [|split; [auto|discriminate]]. cbn.
    split; [exists k; eapply sub_root; eauto|]. split; auto.
  - apply bind_ok in H as (b & Hb & H). apply of_option_inv in Hb. injection H as <-.
    set (ns := r :: r2 :: nodes) in *.
    split; [split; [|split; [auto|discriminate]]|].
    + split.
      * exists (S k). apply sub_of_content.
        -- split; [discriminate|]. split; auto.
        -- apply up_le. exact B3.
        -- exact Hb.
        -- discriminate.
      * split.
        -- change (ids (Node fresh b ns [])) with (fresh :: flat_map ids ns). constructor; auto.
           intros Hi. apply B6 in Hi. lia.
        -- change (ids (Node fresh b ns [])) with (fresh :: flat_map ids ns).
           intros i [<-|Hi]; [cbn; lia|]. apply B6 in Hi. cbn. lia.
    + exact PO.
Qed.

Lemma setFromObjects_total : forall t objects, minE * minE <= maxE + minE ->
  exists t', setFromObjects T shape minE maxE t objects = Ok t'.
Proof.
  intros t objects Hm. unfold setFromObjects.
  destruct objects as [|o objects]; [eauto|].
  set (obs := o :: objects). assert (Hne : obs <> []) by discriminate. clearbody obs.
  destruct (bulkGroups_total obs Hm) as [gs Hg]. rewrite Hg. cbn [of_option bind].
  apply bulkGroups_spec in Hg as (P & F & Hgn & _); auto.
  destruct (mkLeaves_total gs 0) as [leaves Hl].
  { eapply Forall_impl; [|exact F]. intros ? [HH _]; exact HH. }
  rewrite Hl. cbn [bind].
  destruct (bulkLevels_total (length leaves) (length gs) leaves (le_n _)) as (nodes & fresh & Hb).
  rewrite Hb. cbn [bind].
  destruct nodes as [|r [|r2 nodes]]; eauto.
  - exfalso. assert (E : length leaves = length gs).
    { clear - Hl. revert leaves Hl. generalize 0 as fr. induction gs as [|g gs IH]; intros fr l H; cbn in H.
      - injection H as <-; auto.
      - apply bind_ok in H as (b & _ & H). apply bind_ok in H as (l2 & Hl & H). injection H as <-.
        cbn. f_equal. eauto. }
    assert (G : forall fuel fresh0 ns, ns <> [] ->
      RTreeModel.bulkLevels T maxE fuel fresh0 ns <> Ok ([], fresh)).
    { induction fuel as [|f IH]; intros fr ns Hn H; cbn [RTreeModel.bulkLevels] in H.
      - destruct (Nat.ltb maxE (length ns)); congruence.
      - destruct (Nat.ltb maxE (length ns)); [|congruence].
        apply bind_ok in H as (ps & Hp & H). eapply IH; [|exact H].
        intros ->. destruct (chunk (length ns) maxE ns) as [|g gs0] eqn:Eg.
        + destruct (chunk_spec _ (length ns) maxE ns) as (A & _); [lia|nia|].
          rewrite Eg in A. cbn in A. congruence.
        + cbn in Hp. apply bind_ok in Hp as (b & _ & Hp). apply bind_ok in Hp as (l & _ & Hp).
          discriminate. }
    eapply G; [|exact Hb]. intros ->. destruct gs; [congruence|discriminate].
  - destruct (getMBR_some (map nbd (r :: r2 :: nodes))) as [b Hb2]; [discriminate|].
    rewrite Hb2. cbn [of_option bind]. eauto.
Qed.


(** What the searches need. *)
Lemma sub_qok : forall k r n, sub (fun _ => False) r k n -> qok T shape rk n.
Proof.
  induction k as [|k IH]; intros r n H; rewrite sub_unfold in H; destruct H as (Hb & _ & Hx & Hc);
    destruct (Hx (fun x => x)) as [Hm _]; apply qok_unfold; split; auto;
    unfold RTreeModel.computeBoundary in Hm; rewrite (isLeaf_content _ _ _ Hc) in Hm; cbn in Hc.
  - destruct Hc as [Hch Ho].
    assert (Ho' : Forall okb (map shape (nobjects n))) by (apply Forall_map; exact Ho).
    apply getMBR_props with (rk := rk) in Hm as [_ [Hm _]]; [|exact Ho'].
    split; [|split].
    + apply Forall_forall. intros x Hx'. rewrite Forall_forall in Ho. split; [apply Ho; auto|].
      intros p Hp. eapply Hm; eauto. apply in_map; auto.
    + left. split; auto. intros E. destruct (Hx (fun x => x)) as [Hm' _].
      unfold RTreeModel.computeBoundary, RTreeModel.isLeaf in Hm'. rewrite Hch, E in Hm'. discriminate.
    + rewrite Hch. constructor.
  - destruct Hc as (Hch & Ho & Hs). rewrite Ho. split; [constructor|]. split; [auto|].
    assert (Ho' : Forall okb (map nbd (nchildren n))) by (eapply sub_bds; eauto).
    apply getMBR_props with (rk := rk) in Hm as [_ [Hm _]]; [|exact Ho'].
    apply Forall_forall. intros x Hx'. rewrite Forall_forall in Hs. split.
    + intros p Hp. eapply Hm; eauto. apply in_map; auto.
    + eapply IH. apply Hs; auto.
Qed.

Lemma rt_ok_qtree : forall t, rt_ok t -> qtree T shape rk t.
Proof.
  intros t (Hg & _). unfold qtree, good in *. destruct (rt_root T t); auto.
  destruct Hg as ((K & Hs) & _). eapply sub_qok; eauto.
Qed.

End RTreeProofs.
