(** Index sets: removals, projections and products; sets with few points. *)
From Coq Require Import ZArith List Bool Lia ZifyBool Permutation Sorted.
From Verif Require Import RangeModel MDRangeModel Spec RangeProofs MDRangeProofs
  Result RTreeModel IndexSetModel RTreeSplitProofs RTreeQueryProofs RTreeProofs BoxListProofs
  ListTac IndexSetProofs IndexSetQueryProofs IndexSetBuildProofs IndexSetOpsProofs RTreeTotalProofs.
Import ListNotations.
Local Open Scope nat_scope.

Local Notation objs := (objs mdrange).
Local Notation nbd := (nbd mdrange).
Local Notation nchildren := (nchildren mdrange).
Local Notation nobjects := (nobjects mdrange).
Local Notation isLeaf := (isLeaf mdrange).

Section Remove.
Variable minE maxE : nat.
Hypothesis minE_pos : 1 <= minE.
Hypothesis maxE_min : 2 * minE <= maxE.
Variable rk : nat.
Local Notation box := (box_of rk).

(** The pieces of the ranges of a list outside a box. *)
Definition cut (other : mdrange) (l : list mdrange) : list mdrange :=
  flat_map (fun v => if mdrange_overlaps v other then mdrange_subtract v other else [v]) l.

Lemma cut_spec : forall other l, box other -> Forall box l ->
  Forall box (cut other l)
  /\ (forall p, in_boxes p (cut other l) <-> in_boxes p l /\ ~ in_box p other)
  /\ (disj l -> disj (cut other l)).
Proof.
  intros other l Ho H. induction H as [|v l Hv Hl IH].
  - cbn. split; auto. split; auto. intros p. pose proof (in_boxes_nil p). tauto.
  - destruct IH as (A & B & C).
    assert (P : Forall box (if mdrange_overlaps v other then mdrange_subtract v other else [v])
      /\ (forall p, in_boxes p (if mdrange_overlaps v other then mdrange_subtract v other else [v])
            <-> in_box p v /\ ~ in_box p other)
      /\ disj (if mdrange_overlaps v other then mdrange_subtract v other else [v])).
    { destruct (mdrange_overlaps v other) eqn:E.
      - split; [apply subtract_boxes; auto|]. split; [|eapply subtract_disj; eauto].
        intros p. eapply subtract_in; eauto.
      - split; auto. split; [|repeat constructor]. intros p. rewrite in_boxes_single.
        apply (overlaps_false rk) in E; auto. specialize (E p). tauto. }
    destruct P as (P1 & P2 & P3).
    change (cut other (v :: l)) with
      ((if mdrange_overlaps v other then mdrange_subtract v other else [v]) ++ cut other l).
    split; [apply Forall_app; auto|]. split.
    + intros p. rewrite in_boxes_app, in_boxes_cons, P2, B. tauto.
    + intros D. apply FOP_inv in D as [D1 D2]. apply disj_app. split; auto. split; auto.
      intros p Q1 Q2. apply P2 in Q1. apply B in Q2 as [(w & Hw & Q2) _].
      rewrite Forall_forall in D1. apply (D1 w Hw p). tauto.
Qed.

Lemma plug_set_same : forall n ctx, plug mdrange (set_objects mdrange n (nobjects n)) ctx = plug mdrange n ctx.
Proof. intros [i b c o] ctx. reflexivity. Qed.

(** Processing one leaf: the removed box is taken out of the ranges of that
    leaf only. *)
Lemma remove_leaf_ok : forall other t i t', wset rk t -> box other ->
  is_remove_leaf minE maxE other t i = Ok t' ->
  wset rk t' /\ exists L C, Permutation (is_ranges t) (L ++ C)
    /\ same rk (cut other L ++ C) (is_ranges t')
    /\ exists n ctx root, rt_root mdrange t = Some root /\ locate mdrange i root [] = Some (n, ctx)
         /\ L = nobjects n /\ C = ctxobjs mdrange ctx.
Proof.
  intros other t i t' Ht Ho H. unfold is_remove_leaf in H.
  destruct (rt_root mdrange t) as [root|] eqn:Er; [|discriminate].
  apply bind_ok in H as ([n ctx] & Hl & H). apply of_option_inv in Hl.
  apply bind_ok in H as (u & Ha & H). apply assert_ok_inv in Ha.
  destruct (existsb _ (nobjects n)) eqn:Em.
  - apply bind_ok in H as ([r fr] & Hadj & H). injection H as <-.
    pose proof Ht as (Hg & _ & _).
    assert (Hb : Forall box (nobjects n)).
    { pose proof (wset_boxes rk t Ht) as Hb. unfold is_ranges in Hb. rewrite Er in Hb.
      apply locate_root in Hl as [_ Hp]. rewrite <- Hp in Hb.
      rewrite objs_plug in Hb. apply Forall_app in Hb as [Hb _].
      destruct n as [ni nb nc no]. cbn in Hb |- *. apply Forall_app in Hb. tauto. }
    destruct (cut_spec other (nobjects n) Ho Hb) as (C1 & C2 & C3).
    eapply (leaf_update_ok mdrange box_shape box_eq is_hook minE maxE rk 1 (fun _ => True)) with
      (R := same rk) in Hadj;
      eauto using same_perm, same_trans, same_app, hook_same, hook_boxes, hook_length, hook_ne, hook_one.
    destruct Hadj as (A & B & C). split; [exact A|].
    exists (nobjects n), (ctxobjs mdrange ctx). split; [unfold is_ranges; rewrite Er; exact B|].
    split; [exact C|]. exists n, ctx, root. auto.
  - injection H as <-.
    assert (Hcut : cut other (nobjects n) = nobjects n).
    { unfold cut. clear -Em. induction (nobjects n) as [|v l IH]; cbn in *; auto.
      apply orb_false_iff in Em as [E1 E2]. rewrite E1, IH by auto. reflexivity. }
    change (flat_map _ (nobjects n)) with (cut other (nobjects n)). rewrite Hcut, plug_set_same.
    apply locate_root in Hl as HH. destruct HH as [_ Hp]. rewrite Hp.
    assert (Et : mkRT mdrange (Some root) (rt_fresh mdrange t) (rt_initialized mdrange t)
                   (rt_rank mdrange t) = t).
    { destruct t; cbn in *; congruence. }
    rewrite Et. split; auto.
    exists (nobjects n), (ctxobjs mdrange ctx).
    assert (P : Permutation (is_ranges t) (nobjects n ++ ctxobjs mdrange ctx)).
    { unfold is_ranges. rewrite Er, <- Hp, objs_plug. unfold RTreeModel.isLeaf in Ha.
      destruct n as [ni nb nc no]; cbn in *. destruct nc; [|discriminate]. cbn. rewrite app_nil_r. auto. }
    split; auto. split; [|exists n, ctx, root; auto]. rewrite Hcut. apply same_perm. symmetry; auto.
Qed.

(** What one removal step guarantees. *)
Definition shrinks (other : mdrange) (l l' : list mdrange) : Prop :=
  (forall p, in_boxes p l' -> in_boxes p l)
  /\ (forall p, in_boxes p l -> ~ in_box p other -> in_boxes p l')
  /\ (disj l -> disj l').

Lemma remove_leaf_shrinks : forall other t i t', wset rk t -> box other ->
  is_remove_leaf minE maxE other t i = Ok t' ->
  wset rk t' /\ shrinks other (is_ranges t) (is_ranges t').
Proof.
  intros other t i t' Ht Ho H. apply remove_leaf_ok in H as (A & L & C & P & S & _); auto.
  split; auto. pose proof (wset_boxes rk t Ht) as Hb. rewrite P in Hb.
  apply Forall_app in Hb as [HL HC]. destruct (cut_spec other L Ho HL) as (C1 & C2 & C3).
  destruct S as (S1 & S2 & S3); [apply Forall_app; auto|].
  assert (Q : forall p, in_boxes p (is_ranges t) <-> in_boxes p L \/ in_boxes p C).
  { intros p. rewrite <- in_boxes_app. split; apply in_boxes_perm; auto. symmetry; auto. }
  split; [|split].
  - intros p Hp. apply S2 in Hp. apply in_boxes_app in Hp. apply Q. rewrite C2 in Hp. tauto.
  - intros p Hp Hn. apply S2. apply in_boxes_app. rewrite C2. apply Q in Hp. tauto.
  - intros D. apply S3. apply (disj_perm _ _ P) in D. apply disj_app in D as (D1 & D2 & D3).
    apply disj_app. split; auto. split; auto. intros p X Y. apply C2 in X. apply (D3 p); tauto.
Qed.

Lemma shrinks_refl : forall o l, shrinks o l l.
Proof. split; auto. Qed.
Lemma shrinks_trans : forall o a b c, shrinks o a b -> shrinks o b c -> shrinks o a c.
Proof. intros o a b c (A & B & C) (A' & B' & C'). split; auto. Qed.

Lemma remove_ok : forall t b t', wset rk t -> box b -> is_remove minE maxE t b = Ok t' ->
  wset rk t' /\ shrinks b (is_ranges t) (is_ranges t').
Proof.
  intros t b t' Ht Hb H. unfold is_remove in H.
  apply bind_ok in H as (u & _ & H). apply bind_ok in H as (leaves & _ & H).
  revert t Ht H. induction (map (nid mdrange) leaves) as [|i l IH]; intros t Ht H; cbn in H.
  - injection H as <-. split; auto using shrinks_refl.
  - apply bind_ok in H as (t1 & H1 & H). apply remove_leaf_shrinks in H1 as [A B]; auto.
    apply IH in H as [C D]; auto. split; auto. eapply shrinks_trans; eauto.
Qed.

(** Removing the points of another set. *)
Lemma remove_set_ok : forall t u t', wset rk t -> wset rk u -> is_remove_set minE maxE t u = Ok t' ->
  wset rk t'
  /\ (forall p, in_boxes p (is_ranges t') -> in_boxes p (is_ranges t))
  /\ (forall p, in_boxes p (is_ranges t) -> ~ in_boxes p (is_ranges u) -> in_boxes p (is_ranges t'))
  /\ (disj (is_ranges t) -> disj (is_ranges t')).
Proof.
  intros t u t' Ht Hu H. unfold is_remove_set in H. apply bind_ok in H as (pairs & Hp & H).
  destruct (pairLeaves_spec rk t u Ht Hu) as (L & HL & HS).
  rewrite HL in Hp. injection Hp as <-.
  assert (HF : Forall (fun b => In b (is_ranges u)) (map snd (flat_map overlappingObjects L))).
  { apply Forall_forall. intros b Hb. apply in_map_iff in Hb as ([x y] & <- & Hb).
    apply HS in Hb. cbn. tauto. }
  pose proof (wset_boxes rk u Hu) as Hbu. rewrite Forall_forall in Hbu.
  clear HS HL. revert t Ht H. induction HF as [|b l Hb HF IH]; intros t Ht H; cbn in H.
  - injection H as <-. auto.
  - apply bind_ok in H as (t1 & H1 & H). apply remove_ok in H1 as (A & B & C & D); auto.
    apply IH in H as (E & F & G & I); auto. split; auto. split; auto. split; auto.
    intros p P1 P2. apply G; auto. apply C; auto. intros P3. apply P2. exists b; auto.
Qed.

(** ** Sets whose points all belong to a region of at most [maxE] points *)

Definition small (t : iset) : Prop :=
  match rt_root mdrange t with None => True | Some r => isLeaf r = true end.
Definition covered (L : list point) (l : list mdrange) : Prop :=
  disj l /\ forall p, in_boxes p l -> In p L.

Lemma covered_length : forall L l, Forall box l -> covered L l -> length l <= length L.
Proof.
  intros L l Hb [D C]. apply Nat.le_trans with (length (flat_map pts l)).
  - clear -Hb. induction Hb as [|b l Hb Hl IH]; cbn; auto. rewrite app_length.
    pose proof (pts_size rk b Hb) as S. pose proof (size_pos rk b Hb). lia.
  - apply NoDup_incl_length; [eapply allpts_nodup; eauto|].
    intros p Hp. apply (allpts_in rk) in Hp; auto.
Qed.

Lemma wset_root_ids : forall t r, wset rk t -> rt_root mdrange t = Some r -> NoDup (ids mdrange r).
Proof. intros t r (Hg & _) E. rewrite E in Hg. apply Hg. Qed.

Lemma set_ids : forall r o, ids mdrange (set_objects mdrange r o) = ids mdrange r.
Proof. intros [i b c o0] o. reflexivity. Qed.

Lemma update_leaf : forall r r', isLeaf r = true -> updateBoundaries mdrange box_shape r [] = Ok r' ->
  isLeaf r' = true.
Proof.
  intros r r' H E. cbn in E. apply bind_ok in E as ([n c] & Hr & E).
  unfold RTreeModel.recalcBoundary in Hr. apply bind_ok in Hr as (b & _ & Hr). injection Hr as <- <-.
  destruct (negb _); injection E as <-; destruct r; exact H.
Qed.

Lemma adjust_small : forall r fresh cf, isLeaf r = true -> NoDup (ids mdrange r) ->
  length (nobjects r) <= maxE ->
  exists r' fr, adjustTree mdrange box_shape is_hook minE maxE cf r fresh (nid mdrange r) = Ok (r', fr)
    /\ match r' with None => True | Some x => isLeaf x = true end.
Proof.
  intros r fresh cf Hl Hnd Hle. unfold RTreeModel.adjustTree.
  change (locate mdrange (nid mdrange r) r []) with (locate mdrange (nid mdrange r) (plug mdrange r []) []).
  rewrite (locate_plug mdrange minE maxE minE) by auto. cbn [app of_option bind].
  assert (Hf : fanOut mdrange r = length (nobjects r)) by (unfold RTreeModel.fanOut; rewrite Hl; auto).
  rewrite Hf. destruct (Nat.eqb_spec (length (nobjects r)) 0).
  { do 2 eexists. split; [reflexivity|exact I]. }
  destruct (Nat.ltb_spec maxE (length (nobjects r))); [lia|].
  destruct (updateBoundaries_total mdrange box_shape minE maxE minE_pos maxE_min [] r) as [r' E]; [lia|].
  rewrite E. cbn [bind]. do 2 eexists. split; [reflexivity|]. eapply update_leaf; eauto.
Qed.

Lemma tree_insert_small : forall t b, wset rk t -> small t -> box b ->
  length (is_ranges t) < maxE ->
  exists t', is_tree_insert minE maxE t b = Ok t' /\ small t'
    /\ length (is_ranges t') <= S (length (is_ranges t)).
Proof.
  intros t b Ht Hs Hb Hlen.
  assert (G : exists t', is_tree_insert minE maxE t b = Ok t' /\ small t').
  { unfold is_tree_insert, rt_insert.
    assert (Ha : Nat.eqb (length (box_shape b))
             (if rt_initialized mdrange t then rt_rank mdrange t else length (box_shape b)) = true).
    { apply Nat.eqb_eq. destruct (rt_initialized mdrange t) eqn:Ei; auto.
      destruct Ht as (_ & Hi & _). rewrite Hi; auto. apply Hb. }
    rewrite Ha. cbn [assert_ok bind]. unfold small in *.
    destruct (rt_root mdrange t) as [r|] eqn:Er.
    2: { eexists. split; [reflexivity|]. reflexivity. }
    assert (Hc : chooseLeaf mdrange (depth mdrange r) (box_shape b) r [] = Ok (r, [])).
    { destruct (depth mdrange r); cbn [RTreeModel.chooseLeaf]; rewrite Hs; reflexivity. }
    rewrite Hc. cbn [bind plug].
    set (r2 := set_objects mdrange r (is_hook (nobjects r ++ [b]))).
    destruct (adjust_small r2 (rt_fresh mdrange t) (collapse_fuel mdrange r2)) as (r' & fr & E & L).
    - destruct r; exact Hs.
    - subst r2. rewrite set_ids. eapply wset_root_ids; eauto.
    - subst r2. cbn. pose proof (hook_length (nobjects r ++ [b])) as HL. rewrite app_length in HL.
      unfold is_ranges in Hlen. rewrite Er in Hlen. destruct r as [i bd c o]. unfold RTreeModel.isLeaf in Hs.
      cbn in *. destruct c; [|discriminate]. cbn in Hlen. rewrite app_nil_r in Hlen. lia.
    - change (nid mdrange r) with (nid mdrange r2). rewrite E. cbn [bind].
      eexists. split; [reflexivity|]. exact L. }
  destruct G as (t' & E & S). exists t'. split; auto. split; auto.
  pose proof Ht as Ht0.
  unfold is_tree_insert in E.
  assert (HE := E).
  unfold rt_insert in HE. apply bind_ok in HE as (u & _ & HE).
  unfold small in Hs. destruct (rt_root mdrange t) as [r|] eqn:Er.
  2: { injection HE as <-. cbn. lia. }
  assert (Hc : chooseLeaf mdrange (depth mdrange r) (box_shape b) r [] = Ok (r, [])).
  { destruct (depth mdrange r); cbn [RTreeModel.chooseLeaf]; rewrite Hs; reflexivity. }
  rewrite Hc in HE. cbn [bind plug] in HE. apply bind_ok in HE as ([r' fr] & HA & HE).
  injection HE as <-.
  set (r2 := set_objects mdrange r (is_hook (nobjects r ++ [b]))) in *.
  unfold RTreeModel.adjustTree in HA.
  assert (Hnd : NoDup (ids mdrange r2)).
  { subst r2. rewrite set_ids. eapply wset_root_ids; eauto. }
  change (locate mdrange (nid mdrange r) r2 []) with
    (locate mdrange (nid mdrange r2) (plug mdrange r2 []) []) in HA.
  rewrite (locate_plug mdrange minE maxE minE) in HA by auto. cbn [app of_option bind] in HA.
  assert (Hlr : nchildren r = []) by (unfold RTreeModel.isLeaf in Hs; destruct (nchildren r); congruence).
  assert (Ho : objs r = nobjects r) by (destruct r; cbn in *; subst; cbn; apply app_nil_r).
  assert (Ho2 : objs r2 = is_hook (nobjects r ++ [b])).
  { subst r2. destruct r; cbn in *. subst. cbn. apply app_nil_r. }
  pose proof (hook_length (nobjects r ++ [b])) as HL. rewrite app_length in HL. cbn [length] in HL.
  unfold is_ranges in *. rewrite Er in *. rewrite Ho in *.
  destruct (Nat.eqb _ 0); [injection HA as <- <-; cbn; lia|].
  destruct (Nat.ltb_spec maxE (fanOut mdrange r2)) as [Hlt|_].
  { exfalso. unfold RTreeModel.fanOut in Hlt. subst r2. unfold RTreeModel.isLeaf in Hlt.
    cbn in Hlt. rewrite Hlr in Hlt. lia. }
  apply bind_ok in HA as (r3 & HU & HA). injection HA as <- <-.
  cbn [rt_root]. cbn in HU. apply bind_ok in HU as ([n c] & Hr & HU).
  unfold RTreeModel.recalcBoundary in Hr. apply bind_ok in Hr as (bd & _ & Hr). injection Hr as <- <-.
  assert (r3 = set_bd mdrange r2 bd) as -> by (destruct (negb _); congruence).
  replace (objs (set_bd mdrange r2 bd)) with (objs r2) by (destruct r2; reflexivity).
  rewrite Ho2. lia.
Qed.

Lemma tree_inserts_small : forall l t, wset rk t -> small t -> Forall box l ->
  length (is_ranges t) + length l <= maxE ->
  exists t', fold_res (is_tree_insert minE maxE) l t = Ok t' /\ small t'.
Proof.
  induction l as [|b l IH]; intros t Ht Hs Hb Hl; cbn [fold_res]; [eauto|].
  cbn in Hl. inversion Hb; subst.
  destruct (tree_insert_small t b) as (t1 & E & S1 & L1); auto; [lia|].
  rewrite E. cbn [bind]. apply IH; auto; [|lia].
  eapply (tree_insert_ok minE maxE minE_pos maxE_min rk 1 (fun _ => True)) in E; auto. apply E.
Qed.

Lemma insert_small : forall L t b, wset rk t -> small t -> covered L (is_ranges t) -> box b ->
  (forall p, in_box p b -> In p L) -> length L <= maxE ->
  exists t', is_insert minE maxE t b = Ok t' /\ small t'.
Proof.
  intros L t b Ht Hs [Hd Hc] Hb HbL HL. unfold is_insert.
  assert (Ha : negb (rt_initialized mdrange t) || Nat.eqb (length b) (is_rank t) = true).
  { destruct (rt_initialized mdrange t) eqn:E; auto. cbn. apply Nat.eqb_eq.
    destruct Ht as (_ & Hi & _). unfold is_rank. rewrite Hi; auto. apply Hb. }
  rewrite Ha. cbn [assert_ok bind].
  assert (P : exists pieces, (match rt_root mdrange t with
             | None => Ok [b]
             | Some r => peel t (objs r) [b] []
             end) = Ok pieces /\ Forall box pieces
    /\ (forall p, in_boxes p pieces <-> in_box p b /\ ~ in_boxes p (is_ranges t)) /\ disj pieces).
  { unfold is_ranges. destruct (rt_root mdrange t) as [r|] eqn:Er.
    - destruct (peel_spec minE maxE minE_pos maxE_min rk 1 (fun _ => True) (le_n 1) minE_pos t Ht (objs r) [] [b] []) as (out & O1 & O2 & O3 & O4); auto.
      + unfold is_ranges. rewrite Er. reflexivity.
      + left. pose proof (wf_nonempty rk 1 (fun _ => True) t r Ht Er) as N. unfold is_ranges in N. rewrite Er in N. auto.
      + intros p _ HH. destruct (in_boxes_nil _ HH).
      + intros p HH. destruct (in_boxes_nil _ HH).
      + exists out. split; auto. split; auto.
        split; [|apply O4; cbn; repeat constructor]. intros p. rewrite O3. unfold is_ranges. rewrite Er.
        rewrite in_boxes_single. pose proof (in_boxes_nil p). tauto.
    - exists [b]. split; auto. split; auto. split; [|repeat constructor]. intros p.
      rewrite in_boxes_single. pose proof (in_boxes_nil p). tauto. }
  destruct P as (pieces & -> & P1 & P2 & P3). cbn [bind].
  apply tree_inserts_small; auto. rewrite <- app_length.
  apply Nat.le_trans with (length L); auto. apply covered_length.
  - apply Forall_app. split; auto. eapply wset_boxes; eauto.
  - split.
    + apply disj_app. split; auto. split; auto. intros p A B. apply P2 in B. tauto.
    + intros p Hp. apply in_boxes_app in Hp as [Hp|Hp]; auto. apply HbL. apply P2 in Hp. tauto.
Qed.

Lemma preorder_leaf : forall r, isLeaf r = true -> preorder mdrange r = [r].
Proof.
  intros [i b c o] H. unfold RTreeModel.isLeaf in H. cbn in *. destruct c; [reflexivity|discriminate].
Qed.

(** A removal from a set stored in one leaf is exact and cannot fail. *)
Lemma remove_small : forall L t b, wset rk t -> small t -> covered L (is_ranges t) -> box b ->
  length L <= maxE ->
  exists t', is_remove minE maxE t b = Ok t' /\ small t'
    /\ (forall p, in_boxes p (is_ranges t') <-> in_boxes p (is_ranges t) /\ ~ in_box p b).
Proof.
  intros L t b Ht Hs Hc Hb HL. pose proof (wset_boxes rk t Ht) as Hbx.
  unfold is_remove.
  assert (Ha : negb (rt_initialized mdrange t) || Nat.eqb (length b) (is_rank t) = true).
  { destruct (rt_initialized mdrange t) eqn:E; auto. cbn. apply Nat.eqb_eq.
    destruct Ht as (_ & Hi & _). unfold is_rank. rewrite Hi; auto. apply Hb. }
  rewrite Ha. cbn [assert_ok bind].
  rewrite (walkLeaves_spec mdrange box_shape rk).
  2: { eapply wf_q; eauto. }
  cbn [bind]. destruct (rt_root mdrange t) as [r|] eqn:Er.
  2: { cbn. exists t. split; auto. split; auto. intros p. unfold is_ranges. rewrite Er.
       pose proof (in_boxes_nil p). tauto. }
  unfold small in Hs. rewrite Er in Hs. rewrite preorder_leaf by auto.
  assert (Hlr : nchildren r = []) by (unfold RTreeModel.isLeaf in Hs; destruct (nchildren r); congruence).
  assert (Ho : objs r = nobjects r) by (destruct r; cbn in *; subst; cbn; apply app_nil_r).
  assert (Hir : is_ranges t = nobjects r) by (unfold is_ranges; rewrite Er; auto).
  destruct (wset_root rk t r Ht Er) as (Hq & Htight & _).
  cbn [filter]. destruct (mdrange_overlaps (nbd r) b) eqn:Eo.
  - cbn [filter]. rewrite Hs. cbn [map fold_res].
    assert (Hx : exists t', is_remove_leaf minE maxE b t (nid mdrange r) = Ok t' /\ small t').
    { unfold is_remove_leaf. rewrite Er.
      change (locate mdrange (nid mdrange r) r []) with
        (locate mdrange (nid mdrange r) (plug mdrange r []) []).
      rewrite (locate_plug mdrange minE maxE minE) by (cbn; eauto using wset_root_ids).
      cbn [app of_option bind]. rewrite Hs. cbn [assert_ok bind].
      change (flat_map _ (nobjects r)) with (cut b (nobjects r)).
      set (r2 := set_objects mdrange r (cut b (nobjects r))). cbn [plug].
      destruct (existsb _ (nobjects r)).
      - destruct (cut_spec b (nobjects r) Hb) as (C1 & C2 & C3); [rewrite <- Hir; auto|].
        rewrite Hir in Hc. destruct Hc as [D1 D2].
        destruct (adjust_small r2 (rt_fresh mdrange t) (collapse_fuel mdrange r2)) as (r' & fr & E & L').
        + destruct r; exact Hs.
        + subst r2. rewrite set_ids. eapply wset_root_ids; eauto.
        + subst r2. cbn. apply Nat.le_trans with (length L); auto. apply covered_length; auto.
          split; auto. intros p Hp. apply D2. apply C2 in Hp. tauto.
        + change (nid mdrange r) with (nid mdrange r2). rewrite E. cbn [bind].
          eexists. split; [reflexivity|]. exact L'.
      - eexists. split; [reflexivity|]. subst r2. destruct r; exact Hs. }
    destruct Hx as (t' & E & S). rewrite E. cbn [bind]. exists t'. split; auto. split; auto.
    apply remove_leaf_ok in E as (A & L0 & C0 & P & Sm & n & ctx & root & E1 & E2 & -> & ->); auto.
    rewrite Er in E1. injection E1 as <-.
    change (locate mdrange (nid mdrange r) r []) with
        (locate mdrange (nid mdrange r) (plug mdrange r []) []) in E2.
    rewrite (locate_plug mdrange minE maxE minE) in E2 by (cbn; eauto using wset_root_ids).
    injection E2 as <- <-. cbn in Sm. rewrite app_nil_r in Sm. rewrite Hir in *.
    destruct (cut_spec b (nobjects r) Hb Hbx) as (C1 & C2 & C3).
    destruct (Sm C1) as (_ & S2 & _). intros p. rewrite <- S2. apply C2.
  - cbn. exists t. split; auto. split; [unfold small; rewrite Er; auto|].
    intros p. split; [|tauto]. intros Hp. split; auto. intros Hpb.
    destruct Hp as (x & Hx & Hp).
    assert (Hxb : box x) by (rewrite Forall_forall in Hbx; auto).
    assert (mdrange_overlaps (nbd r) b = true); [|congruence].
    eapply root_overlaps with (x := x); eauto.
    + rewrite Ho, <- Hir. auto.
    + apply (overlaps_box rk); eauto.
Qed.
End Remove.
