(** The forced matches of the leaf nodes. *)
From Coq Require Import ZArith List Bool Permutation Lia.
From Verif Require Import RangeModel Result MatchModel MatchSpec MatchSetProofs MatchApplyProofs
  MatchSearchProofs MatchPathProofs MatchHKProofs.
Import ListNotations.
Local Open Scope nat_scope.

(** Only the visibilities differ, and nothing becomes visible. *)
Definition hides (g g' : mgraph) : Prop :=
  g_nodes g' = g_nodes g /\ g_edges g' = g_edges g /\ g_vx g' = g_vx g /\ g_ed g' = g_ed g /\
  (forall n, g_vis g' n = true -> g_vis g n = true) /\
  (forall e, g_evis g' e = true -> g_evis g e = true).

Lemma hides_refl : forall g, hides g g.
Proof. intros g. repeat split; auto. Qed.
Lemma hides_trans : forall a b c, hides a b -> hides b c -> hides a c.
Proof.
  intros a b c (A1 & A2 & A3 & A4 & A5 & A6) (B1 & B2 & B3 & B4 & B5 & B6).
  repeat split; try congruence; auto.
Qed.
Lemma hides_node : forall g n, hides g (g_hide g n).
Proof.
  intros g n. repeat split; auto. intros m. cbn. unfold nupd. destruct (node_eqb m n); [discriminate|auto].
Qed.
Lemma hides_edge : forall g e, hides g (g_hideEdge g e).
Proof.
  intros g n. repeat split; auto. intros m. cbn. unfold eupd. destruct (medid_eqb m n); [discriminate|auto].
Qed.

Lemma opposite_hides : forall v2 es g pushed, hides g (fst (leaf_opposite g v2 es pushed)).
Proof.
  induction es as [|e es IH]; intros g pushed; cbn [leaf_opposite].
  - apply hides_node.
  - pose proof (hides_edge g e) as H.
    assert (X : forall g1 pu, hides g g1 -> hides g (fst (leaf_opposite g1 v2 es pu)))
      by (intros; eapply hides_trans; eauto).
    destruct (negb (g_vis (g_hideEdge g e) (n_other v2 e))); [auto|].
    destruct (g_degree (g_hideEdge g e) (n_other v2 e)) as [|[|k]]; auto.
    apply X. eapply hides_trans; [exact H|apply hides_node].
Qed.
Lemma opposite_hidden : forall v2 es g pushed, g_vis (fst (leaf_opposite g v2 es pushed)) v2 = false.
Proof.
  induction es as [|e es IH]; intros g pushed; cbn [leaf_opposite].
  - cbn. apply nupd_same.
  - destruct (negb (g_vis (g_hideEdge g e) (n_other v2 e))); [auto|].
    destruct (g_degree (g_hideEdge g e) (n_other v2 e)) as [|[|k]]; auto.
Qed.
(** The edges that it hides leave the node. *)
Lemma opposite_edges : forall v2 es g pushed e, g_evis g e = true ->
  g_evis (fst (leaf_opposite g v2 es pushed)) e = false -> In e es.
Proof.
  induction es as [|d es IH]; intros g pushed e Hv Hh; cbn [leaf_opposite] in Hh.
  - cbn in Hh. congruence.
  - destruct (medid_eq_dec e d) as [->|Hne]; [now left|]. right.
    assert (Hv' : g_evis (g_hideEdge g d) e = true) by (cbn; now rewrite eupd_other).
    destruct (negb (g_vis (g_hideEdge g d) (n_other v2 d))); [exact (IH _ _ _ Hv' Hh)|].
    destruct (g_degree (g_hideEdge g d) (n_other v2 d)) as [|[|k]]; [|exact (IH _ _ _ Hv' Hh)..].
    exact (IH _ _ _ (Hv' : g_evis (g_hide (g_hideEdge g d) (n_other v2 d)) e = true) Hh).
Qed.

Lemma filter_length_le : forall A (f h : A -> bool) l, (forall x, In x l -> h x = true -> f x = true) ->
  length (filter h l) <= length (filter f l).
Proof.
  induction l as [|x l IH]; intros H; cbn; [lia|]. specialize (IH (fun y Hy => H y (or_intror Hy))).
  pose proof (H x (or_introl eq_refl)). destruct (h x), (f x); cbn; lia.
Qed.
Lemma hides_degree : forall g g' n, hides g g' -> g_degree g' n <= g_degree g n.
Proof.
  intros g g' n (A1 & A2 & A3 & A4 & A5 & A6). unfold g_degree, g_visible, g_out. rewrite A2.
  apply filter_length_le. auto.
Qed.
Lemma opposite_pushed : forall v2 es g pushed n,
  In n (snd (leaf_opposite g v2 es pushed)) ->
  In n pushed \/ g_degree (fst (leaf_opposite g v2 es pushed)) n <= 1.
Proof.
  induction es as [|e es IH]; intros g pushed n Hin; cbn [leaf_opposite] in *.
  - auto.
  - destruct (negb (g_vis (g_hideEdge g e) (n_other v2 e))) eqn:Ev; [auto|].
    destruct (g_degree (g_hideEdge g e) (n_other v2 e)) as [|[|k]] eqn:Ed; auto.
    destruct (IH _ _ _ Hin) as [H|H]; auto. apply in_app_iff in H as [H|[<-|[]]]; auto.
    right. rewrite <- Ed. apply hides_degree. apply opposite_hides.
Qed.
Lemma opposite_nodes : forall v2 es g pushed n,
  In n (snd (leaf_opposite g v2 es pushed)) -> In n pushed \/ exists e, In e es /\ n = n_other v2 e.
Proof.
  induction es as [|e es IH]; intros g pushed n Hin; cbn [leaf_opposite] in *; [auto|].
  assert (X : forall g1 pu, In n (snd (leaf_opposite g1 v2 es pu)) -> (In n pu -> In n pushed \/ n = n_other v2 e) ->
            In n pushed \/ exists e', In e' (e :: es) /\ n = n_other v2 e').
  { intros g1 pu H1 H2. destruct (IH _ _ _ H1) as [H|[e' [H H']]].
    - destruct (H2 H) as [H3|H3]; auto. right. exists e. split; auto. now left.
    - right. exists e'. split; auto. now right. }
  destruct (negb (g_vis (g_hideEdge g e) (n_other v2 e))); [eauto|].
  destruct (g_degree (g_hideEdge g e) (n_other v2 e)) as [|[|k]]; eauto.
  eapply X; eauto. intros H. apply in_app_iff in H as [H|[<-|[]]]; auto.
Qed.
Lemma opposite_length : forall v2 es g pushed,
  length (snd (leaf_opposite g v2 es pushed)) <= length pushed + length es.
Proof.
  induction es as [|e es IH]; intros g pushed; cbn [leaf_opposite snd length]; [lia|].
  destruct (negb (g_vis (g_hideEdge g e) (n_other v2 e))).
  - specialize (IH (g_hideEdge g e) pushed). lia.
  - destruct (g_degree (g_hideEdge g e) (n_other v2 e)) as [|[|k]].
    + specialize (IH (g_hide (g_hideEdge g e) (n_other v2 e)) pushed). lia.
    + specialize (IH (g_hideEdge g e) (pushed ++ [n_other v2 e])). rewrite app_length in IH. cbn in IH. lia.
    + specialize (IH (g_hideEdge g e) pushed). lia.
Qed.

(** * The invariant *)

Definition unm_eq (g : mgraph) (x : scalar) : Prop := In (snd x) (mt_unmatched (g_vx g (NE (fst x)))).
Definition unm_var (g : mgraph) (y : scalar) : Prop := In (snd y) (mt_unmatched (g_vx g (NV (fst y)))).

Record leaf_inv (g0 g : mgraph) : Prop := {
  li_valid : valid g;
  li_same : same_graph g0 g;
  li_hidden : forall x y, g_free g x y -> g_evis g (fst x, fst y) = false -> unm_eq g x -> unm_var g y -> False;
  li_forced : forall P, gperfect g0 P -> forall x y, g_pairs g x y -> P x y;
  li_full : forall n, In n (g_nodes g) -> mt_allMatched (g_vx g n) = true -> g_vis g n = false }.

Lemma hides_valid : forall g g', hides g g' -> valid g -> valid g'.
Proof.
  intros g g' (A1 & A2 & A3 & A4 & _ & _) [V1 V2 V3 V4 V5 V6 V7 V8].
  assert (I : forall x y, g_incident g' x y <-> g_incident g x y)
    by (intros; unfold g_incident; now rewrite A2, A4).
  assert (Q : forall x y, g_pairs g' x y <-> g_pairs g x y)
    by (intros; unfold g_pairs; now rewrite A2, A4).
  assert (F : forall x y, g_free g' x y <-> g_free g x y)
    by (intros; unfold g_free; now rewrite A2, A4).
  constructor.
  - rewrite A1, A2. auto.
  - intros x y H. apply I, V2 in H. unfold g_eq, g_var in *. now rewrite A1, A3.
  - intros. rewrite I, Q, F. auto.
  - intros x y. rewrite Q, F. apply V4.
  - destruct V5 as [W1 W2]. split; intros x y z; rewrite !Q; eauto.
  - rewrite A1, A3. auto.
  - rewrite A1, A3. intros e i Hn. rewrite V7 by auto. split; intros [y H]; exists y; now apply Q.
  - rewrite A1, A3. intros e i Hn. rewrite V8 by auto. split; intros [y H]; exists y; now apply Q.
Qed.
Lemma hides_same : forall g0 g g', hides g g' -> same_graph g0 g -> same_graph g0 g'.
Proof.
  intros g0 g g' (A1 & A2 & A3 & A4 & _ & _) (S1 & S2 & S3 & S4).
  repeat split; try congruence.
Qed.

(** The other end of what a perfect matching pairs with an unmatched scalar is
    unmatched, and the pair is free. *)
Lemma forced_free : forall g0 g, leaf_inv g0 g -> forall P, gperfect g0 P -> forall x y, P x y ->
  (unm_eq g x \/ unm_var g y) ->
  g_free g x y /\ unm_eq g x /\ unm_var g y /\ g_evis g (fst x, fst y) = true.
Proof.
  intros g0 g L P GP x y Hp Hu. pose proof (li_valid _ _ L) as V.
  pose proof (gp_inc _ _ GP _ _ Hp) as Hi. apply (same_incident _ _ (li_same _ _ L)) in Hi.
  destruct (va_inc g V x y Hi) as [[Hx1 Hx2] [Hy1 Hy2]].
  destruct (va_part g V _ Hx1 (snd x)) as [Px Px']. destruct (va_part g V _ Hy1 (snd y)) as [Py Py'].
  assert (NP : ~ g_pairs g x y).
  { intros Hq. destruct Hu as [Hu|Hu].
    - apply Px'. split; [|exact Hu]. apply (va_eq g V _ _ Hx1). exists y. now destruct x.
    - apply Py'. split; [|exact Hu]. apply (va_var g V _ _ Hy1). exists x. now destruct y. }
  assert (Ux : unm_eq g x).
  { destruct (proj1 Px Hx2) as [Hm|Hm]; auto. exfalso. apply NP.
    apply (va_eq g V _ _ Hx1) in Hm as [y' Hy']. assert (Hp' : P x y') by (apply (li_forced _ _ L P GP); now destruct x).
    assert (y = y') by (eapply (proj1 (gp_one _ _ GP)); eauto). subst. now destruct x. }
  assert (Uy : unm_var g y).
  { destruct (proj1 Py Hy2) as [Hm|Hm]; auto. exfalso. apply NP.
    apply (va_var g V _ _ Hy1) in Hm as [x' Hx']. assert (Hp' : P x' y) by (apply (li_forced _ _ L P GP); now destruct y).
    assert (x = x') by (eapply (proj2 (gp_one _ _ GP)); eauto). subst. now destruct y. }
  assert (Fr : g_free g x y) by (apply (va_split g V) in Hi; tauto).
  split; auto. split; auto. split; auto. destruct (g_evis g (fst x, fst y)) eqn:E; auto.
  exfalso. eapply (li_hidden _ _ L); eauto.
Qed.

Section Leaf.
  Variable solve : mmat -> list mmat.
  Hypothesis Hsolve : local_solver solve.

  (** The visible edges of a candidate. *)
  Lemma visible_spec : forall g n e, In e (g_visible g n) <->
    In e (g_edges g) /\ g_evis g e = true /\ match n with NV v => v = snd e | NE x => x = fst e end.
  Proof.
    intros. unfold g_visible. rewrite filter_In, g_out_spec. tauto.
  Qed.

  (** The match of the entries of [m] along the edge [e]. *)
  Lemma leaf_match : forall g e v m, valid g -> In (e, v) (g_edges g) ->
    (forall i j, In (i, j) (ents m) -> In (i, j) (ents (ed_unm (g_ed g (e, v)))) /\
       In i (mt_unmatched (g_vx g (NE e))) /\ In j (mt_unmatched (g_vx g (NV v)))) ->
    one_one (fun i j => In (i, j) (ents m)) ->
    forall mv me, mt_addMatch (g_vx g (NV v)) (m_vars m) = Ok mv ->
    mt_addMatch (g_vx g (NE e)) (m_eqs m) = Ok me ->
    let g3 := g_setVx (g_setVx (g_setEd g (e, v) (ed_addMatch (g_ed g (e, v)) m)) (NV v) mv) (NE e) me in
    valid g3 /\ same_graph g g3 /\
    (forall x y, g_pairs g3 x y <-> g_pairs g x y \/ (fst x = e /\ fst y = v /\ In (snd x, snd y) (ents m))) /\
    (forall x y, g_free g3 x y <-> g_free g x y /\ ~ (fst x = e /\ fst y = v /\ In (snd x, snd y) (ents m))) /\
    (forall n p, In n (g_nodes g) -> (In p (mt_unmatched (g_vx g3 n)) <->
       In p (mt_unmatched (g_vx g n)) /\ ~ (n = NE e /\ In p (m_eqs m)) /\ ~ (n = NV v /\ In p (m_vars m)))).
  Proof.
    intros g e v m V He Hm H1 mv me Ev Ee g3.
    destruct (va_ends g V e v He) as [Ne Nv].
    pose proof (addMatch_ok _ _ _ Ev (va_part g V _ Nv)) as (V1 & V2 & V3 & V4 & V5).
    pose proof (addMatch_ok _ _ _ Ee (va_part g V _ Ne)) as (E1 & E2 & E3 & E4 & E5).
    assert (Xe : g_vx g3 (NE e) = me) by (cbn; now rewrite nupd_same).
    assert (Xv : g_vx g3 (NV v) = mv) by (cbn [g3 g_setVx g_setEd g_vx]; rewrite nupd_other by (intros Z; discriminate Z); now rewrite nupd_same).
    assert (Xo : forall n, n <> NE e -> n <> NV v -> g_vx g3 n = g_vx g n).
    { intros n A B. cbn. rewrite !nupd_other; auto. }
    assert (Hall : forall n, mt_all (g_vx g3 n) = mt_all (g_vx g n)).
    { intros n. destruct (node_eq_dec n (NE e)) as [->|A]; [now rewrite Xe, E1|].
      destruct (node_eq_dec n (NV v)) as [->|B]; [now rewrite Xv, V1|]. now rewrite Xo. }
    assert (Hinc : forall d, ed_inc (g_ed g3 d) = ed_inc (g_ed g d)).
    { intros d. cbn. unfold eupd. destruct (medid_eqb d (e, v)) eqn:E; auto. apply medid_eqb_spec in E. now subst d. }
    assert (Hp : forall x y, g_pairs g3 x y <-> g_pairs g x y \/ (fst x = e /\ fst y = v /\ In (snd x, snd y) (ents m))).
    { intros [x i] [y j]. unfold g_pairs. cbn [g3 g_setVx g_setEd g_edges g_ed fst snd].
      destruct (medid_eq_dec (x, y) (e, v)) as [E|E].
      - inversion E; subst x y. rewrite eupd_same. cbn [ed_addMatch ed_match]. rewrite m_union_spec. tauto.
      - rewrite eupd_other by auto. assert (~ (x = e /\ y = v)) by (intros [-> ->]; auto). tauto. }
    assert (Hf : forall x y, g_free g3 x y <-> g_free g x y /\ ~ (fst x = e /\ fst y = v /\ In (snd x, snd y) (ents m))).
    { intros [x i] [y j]. unfold g_free. cbn [g3 g_setVx g_setEd g_edges g_ed fst snd].
      destruct (medid_eq_dec (x, y) (e, v)) as [E|E].
      - inversion E; subst x y. rewrite eupd_same. cbn [ed_addMatch ed_unm]. rewrite m_diff_spec. tauto.
      - rewrite eupd_other by auto. assert (~ (x = e /\ y = v)) by (intros [-> ->]; auto). tauto. }
    assert (Hu : forall n p, In n (g_nodes g) -> (In p (mt_unmatched (g_vx g3 n)) <->
       In p (mt_unmatched (g_vx g n)) /\ ~ (n = NE e /\ In p (m_eqs m)) /\ ~ (n = NV v /\ In p (m_vars m)))).
    { intros n p Hn. destruct (node_eq_dec n (NE e)) as [->|A].
      - rewrite Xe, E3. split; [intros [Q1 Q2]; split; auto; split; [tauto|intros [Q _]; discriminate]|tauto].
      - destruct (node_eq_dec n (NV v)) as [->|B].
        + rewrite Xv, V3. split; [intros [Q1 Q2]; split; auto; split; [intros [Q _]; discriminate|tauto]|tauto].
        + rewrite Xo by auto. tauto. }
    assert (Hmt : forall n p, In n (g_nodes g) -> (In p (mt_matched (g_vx g3 n)) <->
       In p (mt_matched (g_vx g n)) \/ (n = NE e /\ In p (m_eqs m)) \/ (n = NV v /\ In p (m_vars m)))).
    { intros n p Hn. destruct (node_eq_dec n (NE e)) as [->|A].
      - rewrite Xe, E2. split; [tauto|]. intros [Q|[[_ Q]|[Q _]]]; auto. discriminate.
      - destruct (node_eq_dec n (NV v)) as [->|B].
        + rewrite Xv, V2. split; [tauto|]. intros [Q|[[Q _]|[_ Q]]]; auto. discriminate.
        + rewrite Xo by auto. tauto. }
    assert (Hg : forall x y, g_incident g3 x y <-> g_incident g x y).
    { intros x y. unfold g_incident. now rewrite Hinc. }
    split; [|split; [repeat split; auto|auto]].
    constructor.
    - apply (va_ends g V).
    - intros x y H. apply Hg, (va_inc g V) in H. unfold g_eq, g_var in *. now rewrite !Hall.
    - intros x y. rewrite Hg, (va_split g V), Hp, Hf.
      assert (D : (fst x = e /\ fst y = v /\ In (snd x, snd y) (ents m)) \/
                  ~ (fst x = e /\ fst y = v /\ In (snd x, snd y) (ents m))).
      { destruct (mid_eq_dec (fst x) e); [|tauto]. destruct (mid_eq_dec (fst y) v); [|tauto].
        destruct (ents_dec m (snd x, snd y)); tauto. }
      split; [tauto|]. intros [[H|(Q1 & Q2 & Q3)]|[H _]]; auto. right. apply Hm in Q3 as [Q3 _].
      unfold g_free. rewrite Q1, Q2. auto.
    - intros x y A B. apply Hp in A. apply Hf in B. destruct A as [A|A]; [|tauto]. eapply (va_disj g V); eauto. tauto.
    - destruct H1 as [H1 H2]. split.
      + intros x y y' A B. apply Hp in A. apply Hp in B.
        destruct A as [A|(A1 & A2 & A3)], B as [B|(B1 & B2 & B3)].
        * eapply (proj1 (va_one g V)); eauto.
        * exfalso. apply Hm in B3 as [_ [B3 _]]. destruct x as [x i]. cbn in *. subst x.
          eapply unmatched_no_pair; eauto.
        * exfalso. apply Hm in A3 as [_ [A3 _]]. destruct x as [x i]. cbn in *. subst x.
          eapply unmatched_no_pair; eauto.
        * destruct y as [y j], y' as [y' j']. cbn in *. f_equal; [congruence|eauto].
      + intros x x' y A B. apply Hp in A. apply Hp in B.
        destruct A as [A|(A1 & A2 & A3)], B as [B|(B1 & B2 & B3)].
        * eapply (proj2 (va_one g V)); eauto.
        * exfalso. apply Hm in B3 as [_ [_ B3]]. destruct y as [y j]. cbn in *. subst y.
          eapply unmatched_no_pair_v; eauto.
        * exfalso. apply Hm in A3 as [_ [_ A3]]. destruct y as [y j]. cbn in *. subst y.
          eapply unmatched_no_pair_v; eauto.
        * destruct x as [x i], x' as [x' i']. cbn in *. f_equal; [congruence|eauto].
    - intros n Hn. destruct (node_eq_dec n (NE e)) as [->|A]; [now rewrite Xe|].
      destruct (node_eq_dec n (NV v)) as [->|B]; [now rewrite Xv|]. rewrite Xo by auto. now apply (va_part g V).
    - intros x i Hn. rewrite (Hmt _ _ Hn), (va_eq g V x i Hn). split.
      + intros [[y H]|[[E H]|[E _]]]; [exists y; apply Hp; auto| |discriminate].
        inversion E; subst x. apply m_eqs_spec in H as [j Hj]. exists (v, j). apply Hp. right. auto.
      + intros [y H]. apply Hp in H as [H|(A & B & C)]; [eauto|]. right. left. cbn in A, C. subst x. split; auto.
        apply m_eqs_spec. eauto.
    - intros x i Hn. rewrite (Hmt _ _ Hn), (va_var g V x i Hn). split.
      + intros [[y H]|[[E _]|[E H]]]; [exists y; apply Hp; auto|discriminate|].
        inversion E; subst x. apply m_vars_spec in H as [j Hj]. exists (e, j). apply Hp. right. auto.
      + intros [y H]. apply Hp in H as [H|(A & B & C)]; [eauto|]. right. right. cbn in B, C. subst x. split; auto.
        apply m_vars_spec. eauto.
  Qed.

  Definition vis_edges (g : mgraph) : nat := length (filter (g_evis g) (g_edges g)).

  Lemma hides_vis_edges : forall g g', hides g g' -> vis_edges g' <= vis_edges g.
  Proof.
    intros g g' (A1 & A2 & A3 & A4 & A5 & A6). unfold vis_edges. rewrite A2. apply filter_length_le. auto.
  Qed.
  Lemma hide_edge_less : forall g e, In e (g_edges g) -> g_evis g e = true ->
    vis_edges (g_hideEdge g e) < vis_edges g.
  Proof.
    intros g e He Hv. unfold vis_edges. cbn [g_hideEdge g_edges g_evis].
    induction (g_edges g) as [|d l IH]; [destruct He|]. cbn [filter].
    destruct (medid_eq_dec d e) as [->|Hne].
    - rewrite eupd_same, Hv. cbn. apply Nat.lt_succ_r. apply filter_length_le. intros x _.
      unfold eupd. destruct (medid_eqb x e); [discriminate|auto].
    - rewrite eupd_other by auto. destruct He as [->|He]; [congruence|]. specialize (IH He).
      destruct (g_evis g d); cbn; lia.
  Qed.

  (** The step keeps the invariant, keeps the candidates of degree at most one,
      and makes progress. *)
  Lemma leaf_step_spec : forall g0 g v1 r, leaf_inv g0 g -> In v1 (g_nodes g) -> g_degree g v1 <= 1 ->
    leaf_step solve g v1 = Ok r ->
    leaf_inv g0 (fst r) /\
    (forall n, g_degree (fst r) n <= g_degree g n) /\
    (forall n, In n (snd r) -> In n (g_nodes g) /\ g_degree (fst r) n <= 1) /\
    (fst r = g /\ snd r = [] \/
     vis_edges (fst r) < vis_edges g /\ length (snd r) <= length (g_edges g)).
  Proof.
    intros g0 g v1 r L Hn1 Hd E. unfold leaf_step in E.
    destruct (negb (g_vis g v1)) eqn:Evis.
    { inversion E; subst. cbn. split; auto. split; [auto|]. split; [intros n []|auto]. }
    destruct (g_visible g v1) as [|[e v] rest] eqn:Evs; [discriminate|].
    assert (rest = []). { unfold g_degree in Hd. rewrite Evs in Hd. destruct rest; [auto|cbn in Hd; lia]. }
    subst rest.
    assert (Hev : In (e, v) (g_visible g v1)) by (rewrite Evs; now left).
    apply visible_spec in Hev as [He [Hvis Hend]]. cbn [fst snd] in *.
    set (fm := m_filterVars (m_filterEqs (ed_unm (g_ed g (e, v))) (mt_unmatched (g_vx g (NE e))))
                 (mt_unmatched (g_vx g (NV v)))) in *.
    destruct (solve fm) as [|m [|m2 os]] eqn:Es;
      [inversion E; subst; cbn; split; auto; split; [auto|]; split; [intros n []|auto]| |
       inversion E; subst; cbn; split; auto; split; [auto|]; split; [intros n []|auto]].
    pose proof (li_valid _ _ L) as V.
    destruct (Hsolve fm) as [So Sc]. destruct (So m) as [Sin S1]; [rewrite Es; now left|].
    assert (Scov : forall x, In x (ents fm) -> In x (ents m)).
    { intros x Hx. destruct (Sc x Hx) as [o [Ho Hox]]. rewrite Es in Ho. destruct Ho as [<-|[]]. auto. }
    assert (Hfm : forall i j, In (i, j) (ents fm) <-> In (i, j) (ents (ed_unm (g_ed g (e, v)))) /\
       In i (mt_unmatched (g_vx g (NE e))) /\ In j (mt_unmatched (g_vx g (NV v)))).
    { intros i j. unfold fm. rewrite m_filterVars_spec, m_filterEqs_spec. tauto. }
    assert (Hm : forall i j, In (i, j) (ents m) -> In (i, j) (ents (ed_unm (g_ed g (e, v)))) /\
       In i (mt_unmatched (g_vx g (NE e))) /\ In j (mt_unmatched (g_vx g (NV v)))).
    { intros i j Hij. apply Hfm. auto. }
    apply bind_ok in E as [mv [Ev E]]. apply bind_ok in E as [me [Ee E]].
    cbn [g_setEd g_vx] in Ev. cbn [g_setVx g_setEd g_vx] in Ee. rewrite nupd_other in Ee by (intros Z; discriminate Z).
    destruct (leaf_match g e v m V He Hm S1 mv me Ev Ee) as (V3 & S3 & P3 & F3 & U3).
    set (g3 := g_setVx (g_setVx (g_setEd g (e, v) (ed_addMatch (g_ed g (e, v)) m)) (NV v) mv) (NE e) me) in *.
    set (g4 := g_hide (g_hideEdge g3 (e, v)) v1) in *.
    set (v2 := n_other v1 (e, v)) in *.
    assert (H34 : hides g3 g4) by (eapply hides_trans; [apply hides_edge|apply hides_node]).
    assert (Hvx4 : g_vx g4 = g_vx g3) by reflexivity.
    assert (Hends : (v1 = NE e /\ v2 = NV v) \/ (v1 = NV v /\ v2 = NE e)).
    { unfold v2. destruct v1; cbn in *; subst; auto. }
    (* the graph after the match, with the edge and the node hidden *)
    assert (Hhid : forall x y, g_free g4 x y -> g_evis g4 (fst x, fst y) = false -> unm_eq g4 x -> unm_var g4 y -> False).
    { intros [x i] [y j] Hf Hh Hx Hy. unfold unm_eq, unm_var in *. rewrite Hvx4 in *. cbn [fst snd] in *.
      assert (Hf3 : g_free g3 (x, i) (y, j)) by exact Hf. apply F3 in Hf3 as [Hfg Hnm]. cbn [fst snd] in *.
      destruct (edge_nodes g _ _ V (or_intror Hfg)) as (A & B & _ & _). cbn [fst snd] in *.
      apply (U3 _ _ A) in Hx as [Hx _]. apply (U3 _ _ B) in Hy as [Hy _].
      destruct (medid_eq_dec (x, y) (e, v)) as [Exy|Exy].
      - inversion Exy; subst. apply Hnm. split; auto. split; auto. apply Scov. apply Hfm.
        split; [apply Hfg|auto].
      - assert (Hh' : g_evis g (x, y) = false).
        { cbn [g4 g_hide g_hideEdge g3 g_setVx g_setEd g_evis] in Hh. now rewrite eupd_other in Hh by auto. }
        eapply (li_hidden _ _ L (x, i) (y, j)); eauto. }
    assert (Hforce : forall P, gperfect g0 P -> forall x y, g_pairs g3 x y -> P x y).
    { intros P GP [x i] [y j] Hp. apply P3 in Hp as [Hp|(A & B & C)]; [now apply (li_forced _ _ L P GP)|].
      cbn [fst snd] in *. subst x y. pose proof (Hm i j C) as (C1 & C2 & C3).
      assert (Hsame := li_same _ _ L).
      destruct (edge_nodes g (e, i) (v, j) V) as (N1 & N2 & N3 & N4); [right; split; auto|]. cbn [fst snd] in *.
      destruct Hends as [[E1 E2]|[E1 E2]].
      - destruct (gp_eqs _ _ GP (e, i)) as [[y' j'] Hp']; [apply (same_eq _ _ Hsame); split; auto|].
        destruct (forced_free g0 g L P GP (e, i) (y', j') Hp' (or_introl C2)) as (Q1 & Q2 & Q3 & Q4). cbn [fst snd] in *.
        assert (Hin : In (e, y') (g_visible g v1)) by (apply visible_spec; rewrite E1; destruct Q1; auto).
        rewrite Evs in Hin. destruct Hin as [Eq|[]]. inversion Eq; subst y'.
        assert (In (i, j') (ents m)) by (apply Scov; apply Hfm; split; [apply Q1|auto]).
        assert (j = j') by (eapply (proj1 S1); eauto). now subst.
      - destruct (gp_vars _ _ GP (v, j)) as [[x' i'] Hp']; [apply (same_var _ _ Hsame); split; auto|].
        destruct (forced_free g0 g L P GP (x', i') (v, j) Hp' (or_intror C3)) as (Q1 & Q2 & Q3 & Q4). cbn [fst snd] in *.
        assert (Hin : In (x', v) (g_visible g v1)) by (apply visible_spec; rewrite E1; destruct Q1; auto).
        rewrite Evs in Hin. destruct Hin as [Eq|[]]. inversion Eq; subst x'.
        assert (In (i', j) (ents m)) by (apply Scov; apply Hfm; split; [apply Q1|auto]).
        assert (i = i') by (eapply (proj2 S1); eauto). now subst. }
    assert (Hfull : forall n, In n (g_nodes g4) -> n <> v2 -> mt_allMatched (g_vx g4 n) = true -> g_vis g4 n = false).
    { intros n Hn Hne Ha. destruct (node_eq_dec n v1) as [->|Hne1]; [cbn; apply nupd_same|].
      cbn [g4 g_hide g_hideEdge g_vis]. rewrite nupd_other by auto.
      apply (li_full _ _ L n Hn). rewrite Hvx4 in Ha. unfold mt_allMatched in *. apply ps_empty_spec in Ha.
      apply ps_empty_spec. destruct (mt_unmatched (g_vx g n)) as [|p l] eqn:Eu; auto. exfalso.
      assert (X : In p (mt_unmatched (g_vx g3 n))).
      { apply (U3 n p Hn). rewrite Eu. split; [now left|]. split; intros [-> _];
          destruct Hends as [[-> E2]|[-> E2]]; congruence. }
      rewrite Ha in X. destruct X. }
    assert (Hless : vis_edges g4 < vis_edges g).
    { apply Nat.le_lt_trans with (vis_edges (g_hideEdge g3 (e, v))); [apply hides_vis_edges, hides_node|].
      apply (hide_edge_less g3); auto. }
    assert (Hdeg4 : forall n, g_degree g4 n <= g_degree g n).
    { intros n. apply (hides_degree g3 g4 n H34). }
    assert (Hpos : 1 <= length (g_edges g)) by (destruct (g_edges g); [destruct He|cbn; lia]).
    assert (Hin2 : In v2 (g_nodes g)).
    { destruct (va_ends g V e v He). destruct Hends as [[_ ->]|[_ ->]]; auto. }
    destruct (mt_allMatched (g_vx g3 v2)) eqn:Ea.
    - inversion E; subst r. clear E.
      pose proof (opposite_hides v2 (g_out g4 v2) g4 []) as H45.
      set (r := leaf_opposite g4 v2 (g_out g4 v2) []) in *.
      assert (H35 : hides g3 (fst r)) by (eapply hides_trans; eauto).
      pose proof H45 as (B1 & B2 & B3 & B4 & B5 & B6).
      split; [constructor|split; [|split]].
      + eapply hides_valid; eauto.
      + eapply hides_same; [exact H35|]. eapply same_graph_trans; [apply (li_same _ _ L)|exact S3].
      + intros x y Hf Hh Hx Hy. unfold unm_eq, unm_var in *. rewrite B3 in *.
        assert (Hf4 : g_free g4 x y) by (unfold g_free in *; now rewrite B2, B4 in Hf).
        destruct (g_evis g4 (fst x, fst y)) eqn:Ev4; [|eapply Hhid; eauto].
        pose proof (opposite_edges v2 (g_out g4 v2) g4 [] _ Ev4 Hh) as Ho. apply g_out_spec in Ho as [_ Ho].
        cbn [fst snd] in Ho. rewrite Hvx4 in *. unfold mt_allMatched in Ea. apply ps_empty_spec in Ea.
        destruct Hends as [[_ E2]|[_ E2]]; rewrite E2 in *; subst.
        * rewrite Ea in Hy. destruct Hy.
        * rewrite Ea in Hx. destruct Hx.
      + intros P GP x y Hp. apply (Hforce P GP). unfold g_pairs in *. now rewrite B2, B4 in Hp.
      + intros n Hn Ha. rewrite B1 in Hn. rewrite B3 in Ha. destruct (node_eq_dec n v2) as [->|Hne].
        * apply opposite_hidden.
        * specialize (Hfull n Hn Hne Ha). destruct (g_vis (fst r) n) eqn:X; auto.
          apply B5 in X. congruence.
      + intros n. eapply Nat.le_trans; [apply (hides_degree g4 _ n H45)|apply Hdeg4].
      + intros n Hn. destruct (opposite_pushed _ _ _ _ _ Hn) as [[]|Hd2]. split; auto.
        destruct (opposite_nodes _ _ _ _ _ Hn) as [[]|[[e' w'] [Ho ->]]].
        apply g_out_spec in Ho as [Ho _]. change (In (e', w') (g_edges g)) in Ho.
        destruct (va_ends g V e' w' Ho). unfold n_other. destruct v2; auto.
      + right. split.
        * eapply Nat.le_lt_trans; [apply (hides_vis_edges g4 _ H45)|exact Hless].
        * eapply Nat.le_trans; [apply opposite_length|]. cbn. unfold g_out.
          change (g_edges g4) with (g_edges g). clear. induction (g_edges g) as [|d l IH]; cbn; [lia|].
          destruct (n_touches v2 d); cbn; lia.
    - inversion E; subst r. clear E. cbn [fst snd].
      split; [constructor|split; [|split]]; auto.
      + eapply hides_valid; eauto.
      + eapply hides_same; [exact H34|]. eapply same_graph_trans; [apply (li_same _ _ L)|exact S3].
      + intros n Hn Ha. destruct (node_eq_dec n v2) as [->|Hne]; [|auto]. rewrite Hvx4 in Ha. congruence.
      + intros n Hn. destruct (g_degree g4 v2) as [|[|k]] eqn:Ed; try destruct Hn as [<-|[]]; try destruct Hn.
        split; auto. lia.
      + right. split; auto. destruct (g_degree g4 v2) as [|[|k]]; cbn; lia.
  Qed.

  (** On a graph with a perfect matching the step never fails. *)
  Lemma leaf_step_ok : forall g0 g v1, leaf_inv g0 g -> In v1 (g_nodes g) -> g_degree g v1 <= 1 ->
    (exists P, gperfect g0 P) -> exists r, leaf_step solve g v1 = Ok r.
  Proof.
    intros g0 g v1 L Hn Hd [P GP]. unfold leaf_step.
    pose proof (li_valid _ _ L) as V.
    destruct (g_vis g v1) eqn:Ev; cbn [negb]; [|eauto].
    destruct (g_visible g v1) as [|[e v] rest] eqn:Evs.
    - exfalso. assert (Hu : exists p, In p (mt_unmatched (g_vx g v1))).
      { destruct (mt_unmatched (g_vx g v1)) as [|p l] eqn:Eu; [|exists p; now left].
        pose proof (li_full _ _ L v1 Hn) as X. unfold mt_allMatched in X. rewrite Eu in X. cbn in X.
        specialize (X eq_refl). congruence. }
      destruct Hu as [p Hp].
      assert (Hall : In p (mt_all (g_vx g v1))) by (apply (va_part g V _ Hn p); auto).
      destruct v1 as [v|e].
      + destruct (gp_vars _ _ GP (v, p)) as [x Hx].
        { apply (same_var _ _ (li_same _ _ L)). split; auto. }
        destruct (forced_free g0 g L P GP x (v, p) Hx (or_intror Hp)) as (Q1 & Q2 & Q3 & Q4).
        assert (In (fst x, v) (g_visible g (NV v))) by (apply visible_spec; destruct Q1; auto).
        rewrite Evs in H. destruct H.
      + destruct (gp_eqs _ _ GP (e, p)) as [y Hy].
        { apply (same_eq _ _ (li_same _ _ L)). split; auto. }
        destruct (forced_free g0 g L P GP (e, p) y Hy (or_introl Hp)) as (Q1 & Q2 & Q3 & Q4).
        assert (In (e, fst y) (g_visible g (NE e))) by (apply visible_spec; destruct Q1; auto).
        rewrite Evs in H. destruct H.
    - cbn [fst snd].
      set (fm := m_filterVars (m_filterEqs (ed_unm (g_ed g (e, v))) (mt_unmatched (g_vx g (NE e))))
                 (mt_unmatched (g_vx g (NV v)))).
      destruct (solve fm) as [|m [|m2 os]] eqn:Es; [eauto| |eauto].
      destruct (Hsolve fm) as [So Sc]. destruct (So m) as [Sin S1]; [rewrite Es; now left|].
      assert (Hev : In (e, v) (g_visible g v1)) by (rewrite Evs; now left).
      apply visible_spec in Hev as [He _]. destruct (va_ends g V e v He) as [Ne Nv].
      assert (Hm : forall i j, In (i, j) (ents m) ->
        In i (mt_unmatched (g_vx g (NE e))) /\ In j (mt_unmatched (g_vx g (NV v)))).
      { intros i j Hij. apply Sin in Hij. unfold fm in Hij. rewrite m_filterVars_spec, m_filterEqs_spec in Hij. tauto. }
      cbn [g_setEd g_vx].
      destruct (addMatch_total (g_vx g (NV v)) (m_vars m) (va_part g V _ Nv)) as [mv Emv].
      { intros j Hj. apply m_vars_spec in Hj as [i Hij]. apply (va_part g V _ Nv j). right. now apply (Hm i j). }
      rewrite Emv. cbn [bind g_setVx g_setEd g_vx]. rewrite nupd_other by (intros Z; discriminate Z).
      destruct (addMatch_total (g_vx g (NE e)) (m_eqs m) (va_part g V _ Ne)) as [me Eme].
      { intros j Hj. apply m_eqs_spec in Hj as [i Hij]. apply (va_part g V _ Ne j). right. now apply (Hm j i). }
      rewrite Eme. cbn [bind]. match goal with |- context [if ?b then _ else _] => destruct b end; eauto.
  Qed.

  Lemma leaf_loop_spec : forall fuel g0 g cand g', leaf_inv g0 g ->
    (forall n, In n cand -> In n (g_nodes g) /\ g_degree g n <= 1) ->
    leaf_loop solve fuel g cand = Ok g' -> leaf_inv g0 g'.
  Proof.
    induction fuel as [|fuel IH]; intros g0 g cand g' L Hc E; destruct cand as [|v1 cand]; cbn [leaf_loop] in E;
      try (inversion E; subst; auto; fail).
    apply bind_ok in E as [[g1 new] [E1 E2]].
    destruct (Hc v1 (or_introl eq_refl)) as [Hn Hd].
    destruct (leaf_step_spec g0 g v1 (g1, new) L Hn Hd E1) as (L1 & D1 & N1 & _). cbn [fst snd] in *.
    eapply IH; eauto.
    assert (En : g_nodes g1 = g_nodes g).
    { destruct (li_same _ _ L1) as (X & _). destruct (li_same _ _ L) as (Y & _). congruence. }
    intros n Hin. rewrite En. apply in_app_iff in Hin as [Hin|Hin]; [|now apply N1].
    destruct (Hc n (or_intror Hin)) as [A B]. split; auto. eapply Nat.le_trans; [apply D1|exact B].
  Qed.

  Lemma leaf_loop_total : forall fuel g0 g cand, leaf_inv g0 g ->
    (forall n, In n cand -> In n (g_nodes g) /\ g_degree g n <= 1) ->
    (exists P, gperfect g0 P) ->
    length cand + vis_edges g * S (length (g_edges g)) <= fuel ->
    exists g', leaf_loop solve fuel g cand = Ok g'.
  Proof.
    induction fuel as [|fuel IH]; intros g0 g cand L Hc GP Hf; destruct cand as [|v1 cand]; cbn [leaf_loop]; eauto.
    - cbn in Hf. lia.
    - destruct (Hc v1 (or_introl eq_refl)) as [Hn Hd].
      destruct (leaf_step_ok g0 g v1 L Hn Hd GP) as [[g1 new] E1]. rewrite E1. cbn [bind].
      destruct (leaf_step_spec g0 g v1 (g1, new) L Hn Hd E1) as (L1 & D1 & N1 & Pr). cbn [fst snd] in *.
      assert (En : g_nodes g1 = g_nodes g /\ g_edges g1 = g_edges g).
      { destruct (li_same _ _ L1) as (X & X' & _). destruct (li_same _ _ L) as (Y & Y' & _). split; congruence. }
      destruct En as [En Ee].
      apply (IH g0); auto.
      + intros n Hin. rewrite En. apply in_app_iff in Hin as [Hin|Hin]; [|now apply N1].
        destruct (Hc n (or_intror Hin)) as [A B]. split; auto. eapply Nat.le_trans; [apply D1|exact B].
      + rewrite app_length, Ee. cbn [length] in Hf. destruct Pr as [[-> ->]|[Pr1 Pr2]]; cbn [length].
        * lia.
        * assert (vis_edges g1 * S (length (g_edges g)) + S (length (g_edges g)) <= vis_edges g * S (length (g_edges g))).
          { replace (vis_edges g1 * S (length (g_edges g)) + S (length (g_edges g)))
              with (S (vis_edges g1) * S (length (g_edges g))) by lia.
            apply Nat.mul_le_mono_r. lia. }
          lia.
  Qed.

  Lemma candidates_spec : forall g n, In n (leaf_candidates g) -> In n (g_nodes g) /\ g_degree g n <= 1.
  Proof.
    intros g n H. unfold leaf_candidates in H. apply filter_In in H as [H1 H2]. apply Nat.eqb_eq in H2.
    split; auto. lia.
  Qed.

  Lemma leaf_run_spec : forall fuel ord g g', (forall l, Permutation (ord l) l) -> leaf_inv g g ->
    leaf_run solve fuel ord g = Ok g' -> leaf_inv g g'.
  Proof.
    intros fuel ord g g' Ho L E. unfold leaf_run in E. eapply leaf_loop_spec; eauto.
    intros n Hn. apply candidates_spec. apply (Permutation_in _ (Ho _)). auto.
  Qed.
  Lemma leaf_run_total : forall fuel ord g, (forall l, Permutation (ord l) l) -> leaf_inv g g ->
    (exists P, gperfect g P) ->
    length (g_nodes g) + length (g_edges g) * S (length (g_edges g)) <= fuel ->
    exists g', leaf_run solve fuel ord g = Ok g'.
  Proof.
    intros fuel ord g Ho L GP Hf. unfold leaf_run. apply leaf_loop_total with g; auto.
    - intros n Hn. apply candidates_spec. apply (Permutation_in _ (Ho _)). auto.
    - rewrite (Permutation_length (Ho _)).
      assert (A : length (leaf_candidates g) <= length (g_nodes g)).
      { unfold leaf_candidates. clear. induction (g_nodes g) as [|x l IH]; cbn; [lia|].
        destruct (Nat.eqb (g_degree g x) 1); cbn; lia. }
      assert (B : vis_edges g <= length (g_edges g)).
      { unfold vis_edges. clear. induction (g_edges g) as [|x l IH]; cbn; [lia|].
        destruct (g_evis g x); cbn; lia. }
      apply Nat.le_trans with (2 := Hf). apply Nat.add_le_mono; auto. now apply Nat.mul_le_mono_r.
  Qed.
End Leaf.
