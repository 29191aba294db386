(** The graph that is built from a system. *)
From Coq Require Import ZArith List Bool Permutation Lia.
From Verif Require Import RangeModel Result ListTac MatchModel MatchSpec MatchSetProofs MatchApplyProofs
  MatchSearchProofs MatchPathProofs MatchHKProofs.
Import ListNotations.
Local Open Scope nat_scope.

Lemma ids_distinct_spec : forall l, ids_distinct l = true <-> NoDup l.
Proof.
  induction l as [|x l IH]; cbn; [split; [constructor|auto]|].
  rewrite andb_true_iff, negb_true_iff, IH. split.
  - intros [H1 H2]. constructor; auto. intros Hin.
    assert (existsb (mid_eqb x) l = true); [|congruence]. apply existsb_exists. exists x. split; auto.
    apply mid_eqb_refl.
  - intros H. inversion H; subst. split; auto. destruct (existsb (mid_eqb x) l) eqn:E; auto.
    apply existsb_exists in E as [y [H1 H4]]. apply mid_eqb_spec in H4. subst. tauto.
Qed.

Lemma find_id : forall A (f : A -> mid) l v x, NoDup (map f l) ->
  (find (fun x => mid_eqb (f x) v) l = Some x <-> In x l /\ f x = v).
Proof.
  intros A f l v x. induction l as [|y l IH]; intros Hn; cbn.
  - split; [discriminate|tauto].
  - inversion Hn as [|? ? H1 H2]; subst. destruct (mid_eqb (f y) v) eqn:E.
    + apply mid_eqb_spec in E. split.
      * intros H. inversion H; subst. auto.
      * intros [[->|H] H3]; auto. exfalso. apply H1. rewrite E, <- H3. now apply in_map.
    + apply mid_eqb_false in E. rewrite IH by auto. split; [tauto|]. intros [[->|H] H3]; [congruence|auto].
Qed.
Lemma find_id_none : forall A (f : A -> mid) l v,
  find (fun x => mid_eqb (f x) v) l = None <-> ~ exists x, In x l /\ f x = v.
Proof.
  intros. split.
  - intros H [x [H1 H2]]. pose proof (find_none _ _ H x H1) as X. cbn in X.
    apply mid_eqb_false in X. auto.
  - intros H. destruct (find _ l) as [x|] eqn:E; auto. exfalso. apply find_some in E as [H1 H2].
    apply H. exists x. split; auto. now apply mid_eqb_spec.
Qed.

Lemma acc_targets_spec : forall s acc seen v, In v (acc_targets s acc seen) <->
  ~ In v seen /\ (exists a, In (v, a) acc) /\ exists w, find_var s v = Some w.
Proof.
  induction acc as [|[w a] acc IH]; intros seen v; cbn.
  - split; [tauto|]. intros [_ [[b []] _]].
  - destruct (existsb (mid_eqb w) seen) eqn:E.
    + rewrite IH. assert (Hw : In w seen).
      { apply existsb_exists in E as [y [H1 H2]]. apply mid_eqb_spec in H2. now subst. }
      split.
      * intros [H1 [[b H2] H3]]. eauto.
      * intros [H1 [[b [H2|H2]] H3]]; [inversion H2; subst; tauto|eauto].
    + destruct (find_var s w) as [y|] eqn:Ef.
      * cbn. rewrite IH. cbn. assert (Hw : ~ In w seen).
        { intros H. assert (existsb (mid_eqb w) seen = true); [|congruence]. apply existsb_exists.
          exists w. split; auto. apply mid_eqb_refl. }
        split.
        -- intros [->|[H1 [[b H2] H3]]]; [split; auto; split; eauto|]. split; [tauto|]. eauto.
        -- intros [H1 [[b [H2|H2]] H3]]; [inversion H2; auto|].
           destruct (mid_eq_dec w v); auto. right. split; [intros [H|H]; tauto|]. eauto.
      * rewrite IH. split.
        -- intros [H1 [[b H2] H3]]. eauto.
        -- intros [H1 [[b [H2|H2]] H3]]; [inversion H2; subst; destruct H3; congruence|eauto].
Qed.
Lemma acc_targets_nodup : forall s acc seen, NoDup (acc_targets s acc seen).
Proof.
  induction acc as [|[w a] acc IH]; intros seen; cbn; [constructor|].
  destruct (existsb (mid_eqb w) seen); auto. destruct (find_var s w); auto.
  constructor; auto. intros H. apply acc_targets_spec in H as [H _]. apply H. now left.
Qed.

Lemma acc_edge_spec : forall es vs v acc k d, ed_match d = [] ->
  (forall x, In x (ents (ed_unm d)) <-> In x (ents (ed_inc d))) ->
  let r := acc_edge es vs v k acc d in
  ed_match r = [] /\ (forall x, In x (ents (ed_unm r)) <-> In x (ents (ed_inc r))) /\
  (forall i j, In (i, j) (ents (ed_inc r)) <->
     In (i, j) (ents (ed_inc d)) \/
     (In i es /\ In j vs /\ exists a, In (v, a) acc /\ In j (macc_map a i))).
Proof.
  intros es vs v. induction acc as [|[w a] acc IH]; intros k d Hm Hu; cbn.
  - split; auto. split; auto. intros i j. split; auto. intros [H|[_ [_ [a [[] _]]]]]. auto.
  - destruct (mid_eqb w v) eqn:E.
    + apply mid_eqb_spec in E. subst w.
      destruct (IH (S k) (ed_addAccess es vs k a d)) as (A & B & C).
      * cbn. auto.
      * intros x. cbn. rewrite m_diff_spec, Hm. cbn. tauto.
      * split; auto. split; auto. intros i j. rewrite C. cbn [ed_addAccess ed_inc].
        rewrite m_union_spec.
        assert (X : In (i, j) (ents (flat_map (fun i => map (fun j => (k, (i, j))) (ps_inter (macc_map a i) vs)) es)) <->
                    In i es /\ In j vs /\ In j (macc_map a i)).
        { unfold ents. rewrite in_map_iff. split.
          - intros [x [E1 H]]. apply in_flat_map in H as [i' [H1 H2]]. apply in_map_iff in H2 as [j' [E2 H2]].
            subst x. cbn in E1. inversion E1; subst. apply ps_inter_spec in H2. tauto.
          - intros [H1 [H2 H3]]. exists (k, (i, j)). split; auto. apply in_flat_map. exists i. split; auto.
            apply in_map_iff. exists j. split; auto. apply ps_inter_spec. auto. }
        rewrite X. split.
        -- intros [[H|H]|(H1 & H2 & b & H3 & H4)]; auto; right; split; try tauto; split; try tauto.
           ++ exists a. split; [now left|tauto].
           ++ exists b. auto.
        -- intros [H|(H1 & H2 & b & [H3|H3] & H4)]; auto; [inversion H3; subst; auto|].
           right. split; auto. split; auto. eauto.
    + apply mid_eqb_false in E. destruct (IH (S k) d Hm Hu) as (A & B & C). split; auto. split; auto.
      intros i j. rewrite C. split.
      * intros [H|(H1 & H2 & b & H3 & H4)]; auto. right. split; auto. split; auto. exists b. auto.
      * intros [H|(H1 & H2 & b & [H3|H3] & H4)]; auto; [congruence|]. right. split; auto. split; auto. eauto.
Qed.

Record built (s : msys) (g : mgraph) : Prop := {
  bu_sys : system s;
  bu_nv : forall v, In (NV v) (g_nodes g) <-> exists w, In w (ms_vars s) /\ mv_id w = v;
  bu_ne : forall e, In (NE e) (g_nodes g) <-> exists q, In q (ms_eqs s) /\ me_id q = e;
  bu_vv : forall w, In w (ms_vars s) -> g_vx g (NV (mv_id w)) = mt_new (mv_ind w);
  bu_ve : forall q, In q (ms_eqs s) -> g_vx g (NE (me_id q)) = mt_new (me_ind q);
  bu_edges : forall e v, In (e, v) (g_edges g) <->
    (exists q a, In q (ms_eqs s) /\ me_id q = e /\ In (v, a) (me_acc q)) /\
    (exists w, In w (ms_vars s) /\ mv_id w = v);
  bu_match : forall e, ed_match (g_ed g e) = [];
  bu_unm : forall e x, In x (ents (ed_unm (g_ed g e))) <-> In x (ents (ed_inc (g_ed g e)));
  bu_inc : forall x y, g_incident g x y <-> incident s x y;
  bu_nodup : NoDup (g_edges g);
  bu_nnodup : NoDup (g_nodes g);
  bu_evis : forall e, g_evis g e = true;
  bu_nvis : forall w, In w (ms_vars s) -> g_vis g (NV (mv_id w)) = mv_vis w;
  bu_evis' : forall q, In q (ms_eqs s) -> g_vis g (NE (me_id q)) = me_vis q }.

Lemma build_built : forall s g, m_build s = Ok g -> built s g.
Proof.
  intros s g E. unfold m_build in E. apply bind_ok in E as [u [E1 E2]]. apply assert_ok_inv in E1.
  apply andb_true_iff in E1 as [E1 D2]. apply andb_true_iff in E1 as [E1 D1].
  apply andb_true_iff in E1 as [D3 D4]. apply ids_distinct_spec in D1. apply ids_distinct_spec in D2.
  rewrite forallb_forall in D3, D4.
  assert (Hs : system s).
  { constructor; auto.
    - intros w Hw X. specialize (D3 w Hw). rewrite X in D3. discriminate.
    - intros q Hq X. specialize (D4 q Hq). rewrite X in D4. discriminate. }
  assert (FV : forall w, In w (ms_vars s) -> find_var s (mv_id w) = Some w)
    by (intros w Hw; apply (find_id _ mv_id); auto).
  assert (FE : forall q, In q (ms_eqs s) -> find_eqn s (me_id q) = Some q)
    by (intros q Hq; apply (find_id _ me_id); auto).
  injection E2 as <-.
  assert (Hedges : forall e v, In (e, v)
            (flat_map (fun x => map (pair (me_id x)) (acc_targets s (me_acc x) [])) (ms_eqs s)) <->
    (exists q a, In q (ms_eqs s) /\ me_id q = e /\ In (v, a) (me_acc q)) /\
    (exists w, In w (ms_vars s) /\ mv_id w = v)).
  { intros e v. rewrite in_flat_map. split.
    - intros [q [H1 H2]]. apply in_map_iff in H2 as [v' [E H2]]. inversion E; subst.
      apply acc_targets_spec in H2 as [_ [[a H2] [w H3]]]. split; [exists q, a; auto|].
      exists w. apply (find_id _ mv_id) in H3; auto.
    - intros [[q [a [H1 [H2 H3]]]] [w [H4 H5]]]. exists q. split; auto. apply in_map_iff. exists v.
      split; [now rewrite H2|]. apply acc_targets_spec. split; auto. split; [eauto|].
      exists w. rewrite <- H5. auto. }
  assert (Hed : forall e v, let d := match find_eqn s e, find_var s v with
                   | Some x, Some y => acc_edge (me_ind x) (mv_ind y) v 0 (me_acc x) ed_new
                   | _, _ => ed_new
                   end in
     ed_match d = [] /\ (forall x, In x (ents (ed_unm d)) <-> In x (ents (ed_inc d))) /\
     (forall i j, In (i, j) (ents (ed_inc d)) <->
        exists q w a, In q (ms_eqs s) /\ me_id q = e /\ In w (ms_vars s) /\ mv_id w = v /\
          In i (me_ind q) /\ In j (mv_ind w) /\ In (v, a) (me_acc q) /\ In j (macc_map a i))).
  { intros e v. destruct (find_eqn s e) as [q|] eqn:Eq.
    - apply (find_id _ me_id) in Eq as [Q1 Q2]; auto. destruct (find_var s v) as [w|] eqn:Ev.
      + apply (find_id _ mv_id) in Ev as [V1 V2]; auto.
        destruct (acc_edge_spec (me_ind q) (mv_ind w) v (me_acc q) 0 ed_new) as (A & B & C).
        { reflexivity. } { intros x. cbn. tauto. }
        cbv zeta. split; auto. split; auto. intros i j. rewrite C. split.
        * intros [[]|(H1 & H2 & a & H3 & H4)]. exists q, w, a. auto 10.
        * intros (q' & w' & a & H1 & H2 & H3 & H4 & H5 & H6 & H7 & H8). right.
          assert (q' = q). { pose proof (FE q' H1) as X. pose proof (FE q Q1) as Y. congruence. }
          assert (w' = w). { pose proof (FV w' H3) as X. pose proof (FV w V1) as Y. congruence. }
          subst. eauto.
      + apply find_id_none in Ev. cbn. split; auto. split; [tauto|]. intros i j. split; [tauto|].
        intros (q' & w' & a & H1 & H2 & H3 & H4 & _). apply Ev. eauto.
    - apply find_id_none in Eq. cbn. split; auto. split; [tauto|]. intros i j. split; [tauto|].
      intros (q' & w' & a & H1 & H2 & _). apply Eq. eauto. }
  constructor; auto.
  - intros v. cbn. rewrite in_app_iff, !in_map_iff. split.
    + intros [[w [H1 H2]]|[q [H1 _]]]; [inversion H1; subst; eauto|discriminate].
    + intros [w [H1 H2]]. left. exists w. subst. auto.
  - intros e. cbn. rewrite in_app_iff, !in_map_iff. split.
    + intros [[w [H1 H2]]|[q [H1 H2]]]; [discriminate|inversion H1; subst; eauto].
    + intros [w [H1 H2]]. right. exists w. subst. auto.
  - intros w Hw. cbn. now rewrite (FV w Hw).
  - intros q Hq. cbn. now rewrite (FE q Hq).
  - intros [e v]. apply (Hed e v).
  - intros [e v]. apply (Hed e v).
  - intros [e i] [v j]. unfold g_incident, incident, scalar_var. cbn [g_edges g_ed fst snd].
    destruct (Hed e v) as (_ & _ & C). rewrite C. rewrite Hedges. split.
    + intros [_ (q & w & a & H1 & H2 & H3 & H4 & H5 & H6 & H7 & H8)]. split.
      * exists q, a. auto.
      * exists w. auto.
    + intros [(q & a & H1 & H2 & H3 & H4 & H5) (w & H6 & H7 & H8)]. split.
      * split; eauto.
      * exists q, w, a. auto 10.
  - cbn. clear Hedges Hed FV FE D3 D4 D1.
    assert (X : forall l, NoDup (map me_id l) ->
              NoDup (flat_map (fun x => map (pair (me_id x)) (acc_targets s (me_acc x) [])) l)).
    { induction l as [|q l IH]; intros Hn; cbn; [constructor|]. inversion Hn as [|? ? H1 H2]; subst.
      apply NoDup_app_intro; auto.
      - apply FinFun.Injective_map_NoDup; [intros x y H; congruence|apply acc_targets_nodup].
      - intros [e v] Ha Hb. apply in_map_iff in Ha as [v' [Ea _]]. inversion Ea; subst.
        apply in_flat_map in Hb as [q' [Hq' Hb]]. apply in_map_iff in Hb as [v' [Eb _]]. inversion Eb.
        apply H1. rewrite <- H0. now apply in_map. }
    apply X. auto.
  - cbn. apply NoDup_app_intro.
    + rewrite <- (map_map mv_id NV). apply FinFun.Injective_map_NoDup; auto. intros x y H. congruence.
    + rewrite <- (map_map me_id NE). apply FinFun.Injective_map_NoDup; auto. intros x y H. congruence.
    + intros x Ha Hb. apply in_map_iff in Ha as [a [Ha _]]. apply in_map_iff in Hb as [b [Hb _]]. congruence.
  - intros w Hw. cbn. now rewrite (FV w Hw).
  - intros q Hq. cbn. now rewrite (FE q Hq).
Qed.

Lemma build_total : forall s, system s -> exists g, m_build s = Ok g.
Proof.
  intros s [H1 H2 H3 H4]. unfold m_build.
  assert (E : forallb (fun x => negb (ps_empty (mv_ind x))) (ms_vars s) &&
    forallb (fun x => negb (ps_empty (me_ind x))) (ms_eqs s) && ids_distinct (map mv_id (ms_vars s)) &&
    ids_distinct (map me_id (ms_eqs s)) = true).
  { rewrite !andb_true_iff, !ids_distinct_spec, !forallb_forall. split; [split; [split|]|]; auto.
    - intros w Hw. apply H3 in Hw. destruct (mv_ind w); [congruence|auto].
    - intros w Hw. apply H4 in Hw. destruct (me_ind w); [congruence|auto]. }
  rewrite E. cbn. eauto.
Qed.

Lemma built_eq : forall s g, built s g -> forall x, g_eq g x <-> scalar_eq s x.
Proof.
  intros s g B [e i]. unfold g_eq, scalar_eq. cbn. rewrite (bu_ne s g B). split.
  - intros [[q [H1 H2]] H3]. exists q. split; auto. split; auto. rewrite <- H2, (bu_ve s g B q H1) in H3. exact H3.
  - intros [q [H1 [H2 H3]]]. split; [eauto|]. rewrite <- H2, (bu_ve s g B q H1). exact H3.
Qed.
Lemma built_var : forall s g, built s g -> forall x, g_var g x <-> scalar_var s x.
Proof.
  intros s g B [e i]. unfold g_var, scalar_var. cbn. rewrite (bu_nv s g B). split.
  - intros [[q [H1 H2]] H3]. exists q. split; auto. split; auto. rewrite <- H2, (bu_vv s g B q H1) in H3. exact H3.
  - intros [q [H1 [H2 H3]]]. split; [eauto|]. rewrite <- H2, (bu_vv s g B q H1). exact H3.
Qed.
Lemma incident_eq : forall s x y, incident s x y -> scalar_eq s x /\ scalar_var s y.
Proof. intros s x y [(q & a & H1 & H2 & H3 & _) H]. split; auto. exists q. auto. Qed.

Lemma built_nopair : forall s g, built s g -> forall x y, ~ g_pairs g x y.
Proof. intros s g B x y [_ H]. rewrite (bu_match s g B) in H. destruct H. Qed.

Lemma built_valid : forall s g, built s g -> valid g.
Proof.
  intros s g B. constructor.
  - intros e v H. apply (bu_edges s g B) in H as [[q [a [H1 [H2 _]]]] H3]. split.
    + apply (bu_ne s g B). eauto.
    + now apply (bu_nv s g B).
  - intros x y H. apply (bu_inc s g B) in H. apply incident_eq in H as [H1 H2].
    split; [now apply (built_eq s g B)|now apply (built_var s g B)].
  - intros x y. unfold g_incident, g_pairs, g_free. rewrite (bu_match s g B), (bu_unm s g B). cbn. tauto.
  - intros x y H. now apply (built_nopair s g B) in H.
  - split; intros x y z H; now apply (built_nopair s g B) in H.
  - intros [v|e] Hn.
    + apply (bu_nv s g B) in Hn as [w [H1 <-]]. rewrite (bu_vv s g B w H1). apply new_partitioned.
    + apply (bu_ne s g B) in Hn as [w [H1 <-]]. rewrite (bu_ve s g B w H1). apply new_partitioned.
  - intros e i Hn. apply (bu_ne s g B) in Hn as [w [H1 <-]]. rewrite (bu_ve s g B w H1). cbn.
    split; [tauto|]. intros [y H]. now apply (built_nopair s g B) in H.
  - intros v i Hn. apply (bu_nv s g B) in Hn as [w [H1 <-]]. rewrite (bu_vv s g B w H1). cbn.
    split; [tauto|]. intros [y H]. now apply (built_nopair s g B) in H.
Qed.

Lemma built_perfect : forall s g, built s g -> forall P, gperfect g P <-> perfect s P.
Proof.
  intros s g B P. split; intros [H1 H2 H3 H4]; constructor; auto.
  - intros x y H. apply (bu_inc s g B). auto.
  - intros x H. apply H3. now apply (built_eq s g B).
  - intros x H. apply H4. now apply (built_var s g B).
  - intros x y H. apply (bu_inc s g B). auto.
  - intros x H. apply H3. now apply (built_eq s g B).
  - intros x H. apply H4. now apply (built_var s g B).
Qed.

Lemma built_scalar : forall s g, built s g -> scalar_vars g <->
  forall w p q, In w (ms_vars s) -> In p (mv_ind w) -> In q (mv_ind w) -> p = q.
Proof.
  intros s g B. unfold scalar_vars. split.
  - intros H w p q Hw Hp Hq. apply (H (mv_id w)).
    + apply (bu_nv s g B). eauto.
    + rewrite (bu_vv s g B w Hw). exact Hp.
    + rewrite (bu_vv s g B w Hw). exact Hq.
  - intros H v p q Hn Hp Hq. apply (bu_nv s g B) in Hn as [w [Hw <-]].
    rewrite (bu_vv s g B w Hw) in Hp, Hq. eauto.
Qed.
