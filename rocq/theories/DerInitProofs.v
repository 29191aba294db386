(** Proofs about the start values and equations of the derivatives. *)

From Coq Require Import ZArith List Bool Lia.
From Verif Require Import RangeModel MDRangeModel Spec Result RTreeModel IndexSetModel IndexSetIterModel
  IndexSetSpec BoxListProofs IndexSetQueryProofs IndexSetHistProofs PropertiesIndexSet DerInitModel DerInitSpec.
Import ListNotations.
Local Open Scope nat_scope.

Lemma shape_box : forall dims, dims <> [] -> Forall (fun d => 0 < d)%Z dims ->
  box_of (length dims) (map (fun d => mkRange 0 d) dims).
Proof.
  intros dims N H. split; [|apply map_length]. split.
  - destruct dims; [congruence|discriminate].
  - apply Forall_map. eapply Forall_impl; [|exact H]. intros d Hd. unfold range_ok. cbn in *. lia.
Qed.
Lemma in_shape_box : forall p dims, in_box p (map (fun d => mkRange 0 d) dims) <-> in_shape p dims.
Proof.
  intros p dims. unfold in_box, in_shape. revert p. induction dims as [|d dims IH]; intros p; split; intros H; inversion H; subst; cbn in *; constructor; auto.
  - apply IH. auto.
  - apply IH. auto.
Qed.
Lemma in_shape_length : forall p dims, in_shape p dims -> length p = length dims.
Proof. induction 1; cbn; auto. Qed.
Lemma empty_not : forall t p, is_empty t = true -> holds t p -> False.
Proof.
  intros t p E H. unfold is_empty in E. unfold holds, is_contains_point in H.
  destruct (rt_root mdrange t) eqn:R; [discriminate|]. unfold is_contains_box in H. rewrite R in H. cbn in H. discriminate.
Qed.

Lemma entry_ok : forall e qs, valid_entry e -> processEntry e = Ok qs ->
  (forall q, In q qs -> dq_variable q = de_derivative e /\ de_dims e <> []
     /\ forall p, length p = length (de_dims e) -> holds (dq_indices q) p -> in_shape p (de_dims e))
  /\ length qs <= 1
  /\ forall p, de_dims e <> [] -> in_shape p (de_dims e) -> ~ derived e p ->
     exists q, qs = [q] /\ holds (dq_indices q) p.
Proof.
  intros e qs [V D] H. unfold processEntry in H. destruct (de_dims e) as [|d0 ds] eqn:Ed.
  { injection H as <-. split; [intros q []|]. split; [cbn; lia|]. intros p N. congruence. }
  rewrite <- Ed in *. assert (N : de_dims e <> []) by congruence. clear d0 ds Ed.
  pose proof (shape_box _ N V) as Bx.
  destruct (shapeToIndexSet (de_dims e)) as [whole| |] eqn:Ew; cbn in H; try discriminate.
  unfold shapeToIndexSet in Ew.
  assert (L1 : 1 <= length (de_dims e)) by (destruct (de_dims e); [congruence|cbn; lia]).
  pose proof (built_insert true _ _ _ _ (built_empty _) Bx Ew) as Bw.
  assert (Hw : forall p, length p = length (de_dims e) -> (holds whole p <-> in_shape p (de_dims e))).
  { intros p Lp. rewrite (C08_insert_partial _ _ _ _ _ (built_empty _) Bx Ew p Lp), in_shape_box.
    split; [intros [K|K]; auto|auto]. exfalso. eapply empty_not; eauto. reflexivity. }
  destruct (match de_indices e with Some derived => is_remove_set isMin isMax whole derived | None => Ok whole end) as [rest| |] eqn:Er;
    cbn in H; try discriminate.
  assert (R : built true (length (de_dims e)) rest /\ forall p, length p = length (de_dims e) ->
    (holds rest p -> in_shape p (de_dims e)) /\ (in_shape p (de_dims e) -> ~ derived e p -> holds rest p)).
  { destruct (de_indices e) as [s|] eqn:Es.
    - destruct (D s eq_refl) as [c Bs]. split; [exact (built_remove_set _ _ _ _ _ _ Bw Bs Er)|].
      intros p Lp. destruct (C09_remove_set_partial _ _ _ _ _ _ L1 Bw Bs Er p Lp) as [K1 K2]. split.
      + intros K. apply Hw; auto.
      + intros K Nd. apply K2. split; [now apply Hw|]. intros K3. apply Nd. exists s. auto.
    - injection Er as <-. split; auto. intros p Lp. split; intros; now apply Hw. }
  destruct R as [Br Hr]. destruct (is_empty rest) eqn:Ee.
  { injection H as <-. split; [intros q []|]. split; [cbn; lia|]. intros p _ K Nd. exfalso.
    eapply empty_not; eauto. apply (Hr p); auto. now apply in_shape_length. }
  destruct (C17_compact_partial _ _ _ L1 Br) as (bs & Eb & Fb & Hb & _). rewrite Eb in H. cbn in H.
  unfold createMainEquations in H.
  destruct (C10_of_boxes _ _ L1 Fb) as (t & Et & _ & Ht & _). rewrite Et in H. cbn in H. injection H as <-.
  split; [|split; [cbn; lia|]].
  - intros q [<-|[]]. split; auto. split; auto. cbn. intros p Lp K. apply (Hr p Lp). apply Hb; auto. apply Ht; auto.
  - intros p _ K Nd. eexists. split; [reflexivity|]. cbn. pose proof (in_shape_length _ _ K) as Lp.
    apply Ht; auto. apply Hb; auto. now apply (Hr p Lp).
Qed.

Lemma model_ok : forall l ss qs, Forall valid_entry l -> processModel l = Ok (ss, qs) ->
  ss = map (fun e => mkDstart (de_derivative e) 0%Z false) l
  /\ (forall q, In q qs -> exists e, In e l /\ dq_variable q = de_derivative e /\ de_dims e <> []
     /\ forall p, length p = length (de_dims e) -> holds (dq_indices q) p -> in_shape p (de_dims e))
  /\ (NoDup (map de_derivative l) -> NoDup (map dq_variable qs))
  /\ forall e p, In e l -> de_dims e <> [] -> in_shape p (de_dims e) -> ~ derived e p ->
     exists q, In q qs /\ dq_variable q = de_derivative e /\ holds (dq_indices q) p.
Proof.
  induction l as [|e l IH]; intros ss qs V H; cbn [processModel] in H.
  - injection H as <- <-. split; [reflexivity|]. split; [intros q []|]. split; [constructor|]. intros e p [].
  - inversion V as [|? ? Ve Vl]; subst. destruct (processEntry e) as [q0| |] eqn:E0; cbn in H; try discriminate.
    destruct (processModel l) as [[ss' qs']| |] eqn:E1; cbn in H; try discriminate. injection H as <- <-.
    destruct (entry_ok e q0 Ve E0) as (A & B & C). destruct (IH _ _ Vl eq_refl) as (A' & B' & C' & D').
    split; [cbn; now rewrite A'|]. split; [|split].
    + intros q Hq. apply in_app_or in Hq as [Hq|Hq].
      * exists e. split; [now left|]. now apply A.
      * destruct (B' q Hq) as (e' & K & K'). exists e'. split; auto. now right.
    + intros ND. cbn in ND. inversion ND as [|? ? Nin ND']; subst. specialize (C' ND').
      rewrite map_app. destruct q0 as [|q1 [|q2 q0]]; cbn in *; auto; [|lia].
      constructor; auto. intros K. apply in_map_iff in K as (q & Eq & Hq).
      destruct (B' q Hq) as (e' & He' & Ev & _). destruct (A q1 (or_introl eq_refl)) as (A1 & _).
      apply Nin. apply in_map_iff. exists e'. split; auto. congruence.
    + intros e' p [<-|K] N S' Nd.
      * destruct (C p N S' Nd) as (q & -> & Hh). exists q. split; [now left|]. split; auto. now apply A; left.
      * destruct (D' e' p K N S' Nd) as (q & Hq & Q). exists q. split; auto. apply in_or_app. now right.
Qed.

Lemma insert_empty : forall b, exists t, is_insert isMin isMax is_empty_set b = Ok t /\ is_empty t = false.
Proof.
  intros b. unfold is_insert, is_empty_set, rt_empty. cbn -[Nat.eqb is_hook].
  unfold is_tree_insert, rt_insert, box_shape. cbn -[Nat.eqb is_hook].
  rewrite Nat.eqb_refl.
  eexists. split; reflexivity.
Qed.
Lemma none_derived : forall v d dims, dims <> [] -> Forall (fun n => 0 < n)%Z dims ->
  exists ss q, processModel [mkDentry v d dims None] = Ok (ss, [q]) /\ dq_variable q = d /\
    forall p, length p = length dims -> (holds (dq_indices q) p <-> in_shape p dims).
Proof.
  intros v d dims N V. pose proof (shape_box _ N V) as Bx.
  assert (L1 : 1 <= length dims) by (destruct dims; [congruence|cbn; lia]).
  destruct (insert_empty (map (fun d => mkRange 0 d) dims)) as (t & Et & Ee).
  pose proof (built_insert true _ _ _ _ (built_empty _) Bx Et) as Bw.
  destruct (C17_compact_partial _ _ _ L1 Bw) as (bs & Eb & Fb & Hb & _).
  destruct (C10_of_boxes _ _ L1 Fb) as (s & Es & _ & Hs & _).
  exists [mkDstart d 0 false], (mkDequation d s).
  split; [|split; [reflexivity|]].
  - cbn [processModel]. unfold processEntry. cbn [de_dims de_indices de_derivative].
    destruct dims as [|d0 dims]; [congruence|]. unfold shapeToIndexSet. rewrite Et. cbn [bind].
    rewrite Ee, Eb. cbn [bind]. unfold createMainEquations. rewrite Es. reflexivity.
  - intros p Lp. cbn. rewrite (Hs p Lp), <- (Hb p Lp), <- in_shape_box.
    rewrite (C08_insert_partial _ _ _ _ _ (built_empty _) Bx Et p Lp).
    split; [intros [K|K]; auto|auto]. exfalso. eapply empty_not; [|exact K]. reflexivity.
Qed.

(** ** Arrays of at most as many elements as a node of an index set has room for *)
Lemma after_removes : forall b l p, after (Add b :: map Remove l) p <-> in_box p b /\ forall x, In x l -> ~ in_box p x.
Proof.
  intros b l p. induction l as [|x l IH] using rev_ind.
  - unfold after. cbn. split; [intros [[]|H]; split; auto|intros [H _]; auto].
  - rewrite map_app. cbn [map]. rewrite app_comm_cons, after_snoc, IH. split.
    + intros [[H1 H2] H3]. split; auto. intros y Hy. apply in_app_or in Hy as [Hy|[<-|[]]]; auto.
    + intros [H1 H2]. split; [split; auto|].
      * intros y Hy. apply H2, in_or_app. now left.
      * apply H2, in_or_app. right. now left.
Qed.
Lemma run_removes : forall l t, fold_res apply_edit (map Remove l) t = fold_res (is_remove isMin isMax) l t.
Proof. induction l as [|x l IH]; intros t; cbn; auto. destruct (is_remove isMin isMax t x); cbn; auto. Qed.

Lemma remove_small : forall c rk b u t, box_of rk b -> built c rk u -> (mdrange_size b <= 16)%Z ->
  is_insert isMin isMax is_empty_set b = Ok t ->
  exists t', is_remove_set isMin isMax t u = Ok t' /\
    forall p, length p = rk -> (holds t' p <-> in_box p b /\ ~ holds u p).
Proof.
  intros c rk b u t Hb Bu Sz Et. pose proof (box_rank rk b Hb) as H1.
  pose proof (built_insert true _ _ _ _ (built_empty _) Hb Et) as Bt.
  pose proof (built_wset _ _ _ Bt) as Wt. pose proof (built_wset _ _ _ Bu) as Wu.
  destruct (pairLeaves_spec rk t u Wt Wu) as (L & HL & HS). unfold is_remove_set. rewrite HL. cbn [bind].
  set (bs := map snd (flat_map overlappingObjects L)).
  pose proof (wset_boxes rk u Wu) as Fu. pose proof (wset_boxes rk t Wt) as Ft. rewrite Forall_forall in Fu, Ft.
  assert (HI : forall y, In y bs -> In y (is_ranges u)).
  { intros y Hy. apply in_map_iff in Hy as ([x z] & <- & K). apply HS in K. cbn. tauto. }
  destruct (small_history_holds rk (pts b) (Add b :: map Remove bs) H1) as (t' & Er & Ht').
  - pose proof (pts_size rk b Hb). unfold isMax. lia.
  - constructor; auto. apply Forall_map, Forall_forall. intros y Hy. cbn. apply Fu. auto.
  - intros b' p [K|K] Hp; [injection K as <-; now apply (pts_in rk)|].
    apply in_map_iff in K as (z & K & _). discriminate.
  - exists t'. split.
    + rewrite <- run_removes. unfold run in Er. cbn [fold_res apply_edit] in Er. rewrite Et in Er. exact Er.
    + intros p Lp. rewrite (Ht' p Lp), after_removes, (holds_in rk u p Wu H1 Lp). split; intros [A B]; split; auto.
      * intros (y & Hy & Py).
        assert (K : in_boxes p (is_ranges t)).
        { apply (holds_in rk t p Wt H1 Lp). apply (C08_insert_partial _ _ _ _ _ (built_empty _) Hb Et p Lp). auto. }
        destruct K as (x & Hx & Px). apply (B y); auto. apply in_map_iff. exists (x, y). split; auto.
        apply HS. split; auto. split; auto. apply (overlaps_box rk); auto. exists p. auto.
      * intros y Hy Py. apply B. exists y. auto.
Qed.

Lemma size_shape : forall dims, mdrange_size (map (fun d => mkRange 0 d) dims) = fold_left Z.mul dims 1%Z.
Proof.
  intros dims. unfold mdrange_size. generalize 1%Z. induction dims as [|d dims IH]; intros a; cbn; auto.
  rewrite IH. now rewrite Z.sub_0_r.
Qed.

Lemma entry_small : forall e, valid_entry e -> (fold_left Z.mul (de_dims e) 1 <= 16)%Z ->
  exists qs, processEntry e = Ok qs /\ forall q p, In q qs -> in_shape p (de_dims e) ->
    holds (dq_indices q) p -> ~ derived e p.
Proof.
  intros e [V D] Sz. unfold processEntry. destruct (de_dims e) as [|d0 ds] eqn:Ed.
  { exists []. split; [reflexivity|intros q p []]. }
  rewrite <- Ed in *. assert (N : de_dims e <> []) by congruence. clear d0 ds Ed.
  pose proof (shape_box _ N V) as Bx.
  assert (L1 : 1 <= length (de_dims e)) by (destruct (de_dims e); [congruence|cbn; lia]).
  destruct (insert_empty (map (fun d => mkRange 0 d) (de_dims e))) as (whole & Ew & _).
  unfold shapeToIndexSet. rewrite Ew. cbn [bind].
  pose proof (built_insert true _ _ _ _ (built_empty _) Bx Ew) as Bw.
  assert (R : exists rest, match de_indices e with Some derived => is_remove_set isMin isMax whole derived | None => Ok whole end = Ok rest
    /\ built true (length (de_dims e)) rest
    /\ forall p, length p = length (de_dims e) -> holds rest p -> ~ derived e p).
  { destruct (de_indices e) as [s|] eqn:Es.
    - destruct (D s eq_refl) as [c Bs].
      destruct (remove_small c _ _ s whole Bx Bs) as (rest & Er & Hr); auto.
      { now rewrite size_shape. }
      exists rest. split; auto. split; [exact (built_remove_set _ _ _ _ _ _ Bw Bs Er)|].
      intros p Lp K (s' & E' & K'). rewrite Es in E'. injection E' as <-. apply (Hr p Lp) in K. tauto.
    - exists whole. split; auto. split; auto. intros p _ _ (s & E & _). congruence. }
  destruct R as (rest & -> & Br & Hr). cbn [bind]. destruct (is_empty rest).
  { exists []. split; [reflexivity|intros q p []]. }
  destruct (C17_compact_partial _ _ _ L1 Br) as (bs & Eb & Fb & Hb & _). rewrite Eb. cbn [bind].
  unfold createMainEquations. destruct (C10_of_boxes _ _ L1 Fb) as (t & Et & _ & Ht & _). rewrite Et. cbn [bind].
  eexists. split; [reflexivity|]. intros q p [<-|[]] Sh K. cbn in K. pose proof (in_shape_length _ _ Sh) as Lp.
  apply (Hr p Lp), Hb, Ht; auto.
Qed.

Lemma model_small : forall l, Forall valid_entry l -> Forall (fun e => fold_left Z.mul (de_dims e) 1 <= 16)%Z l ->
  NoDup (map de_derivative l) ->
  exists ss qs, processModel l = Ok (ss, qs) /\
    forall e q p, In e l -> In q qs -> dq_variable q = de_derivative e -> in_shape p (de_dims e) ->
      holds (dq_indices q) p -> ~ derived e p.
Proof.
  induction l as [|e l IH]; intros V Z0 ND.
  - exists [], []. split; [reflexivity|intros e q p []].
  - inversion V as [|? ? Ve Vl]; subst. inversion Z0 as [|? ? Ze Zl]; subst. cbn in ND. inversion ND as [|? ? Nin ND']; subst.
    destruct (entry_small e Ve Ze) as (q0 & E0 & H0). destruct (IH Vl Zl ND') as (ss & qs & E1 & H1).
    cbn [processModel]. rewrite E0, E1. cbn [bind fst snd]. do 2 eexists. split; [reflexivity|].
    destruct (entry_ok e q0 Ve E0) as (A & _). destruct (model_ok l ss qs Vl E1) as (_ & B & _).
    intros e' q p [<-|He] Hq Ev Sh K; apply in_app_or in Hq as [Hq|Hq].
    + eapply H0; eauto.
    + destruct (B q Hq) as (e2 & He2 & Ev2 & _). exfalso. apply Nin. apply in_map_iff. exists e2. split; auto. congruence.
    + destruct (A q Hq) as (Ev2 & _). exfalso. apply Nin. apply in_map_iff. exists e'. split; auto. congruence.
    + eapply H1; eauto.
Qed.
