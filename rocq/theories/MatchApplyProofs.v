(** The application of an augmenting path. *)
From Coq Require Import ZArith List Bool Permutation Lia.
From Verif Require Import RangeModel Result MatchModel MatchSpec MatchSetProofs.
Import ListNotations.

(** * What the flows add and remove *)

Definition fl_adds (fl : list mflow) (x y : scalar) : Prop :=
  exists n d, In (NE n, ((fst x, fst y), d)) fl /\ In (snd x, snd y) (ents d).
Definition fl_rems (fl : list mflow) (x y : scalar) : Prop :=
  exists n d, In (NV n, ((fst x, fst y), d)) fl /\ In (snd x, snd y) (ents d).

Lemma adds_nil : forall x y, ~ fl_adds [] x y.
Proof. intros x y [n [d [[] _]]]. Qed.
Lemma rems_nil : forall x y, ~ fl_rems [] x y.
Proof. intros x y [n [d [[] _]]]. Qed.
Lemma adds_fwd : forall n e v d fl x y, fl_adds ((NE n, ((e, v), d)) :: fl) x y <->
  (fst x = e /\ fst y = v /\ In (snd x, snd y) (ents d)) \/ fl_adds fl x y.
Proof.
  intros. unfold fl_adds. split.
  - intros [n' [d' [[H|H] Hd]]]; [inversion H; subst; auto|right; eauto].
  - intros [[<- [<- H]]|[n' [d' [H Hd]]]].
    + exists n, d. split; auto. now left.
    + exists n', d'. split; auto. now right.
Qed.
Lemma adds_bwd : forall n e d fl x y, fl_adds ((NV n, (e, d)) :: fl) x y <-> fl_adds fl x y.
Proof.
  intros. unfold fl_adds. split.
  - intros [n' [d' [[H|H] Hd]]]; [discriminate|eauto].
  - intros [n' [d' [H Hd]]]. exists n', d'. split; auto. now right.
Qed.
Lemma rems_bwd : forall n e v d fl x y, fl_rems ((NV n, ((e, v), d)) :: fl) x y <->
  (fst x = e /\ fst y = v /\ In (snd x, snd y) (ents d)) \/ fl_rems fl x y.
Proof.
  intros. unfold fl_rems. split.
  - intros [n' [d' [[H|H] Hd]]]; [inversion H; subst; auto|right; eauto].
  - intros [[<- [<- H]]|[n' [d' [H Hd]]]].
    + exists n, d. split; auto. now left.
    + exists n', d'. split; auto. now right.
Qed.
Lemma rems_fwd : forall n e d fl x y, fl_rems ((NE n, (e, d)) :: fl) x y <-> fl_rems fl x y.
Proof.
  intros. unfold fl_rems. split.
  - intros [n' [d' [[H|H] Hd]]]; [discriminate|eauto].
  - intros [n' [d' [H Hd]]]. exists n', d'. split; auto. now right.
Qed.

(** * The edges after the flows *)

Definition flow_rem (f : mflow) : list (node * pset) :=
  match f with
  | (NV v, (e, d)) => [(NV v, m_vars d); (NE (fst e), m_eqs d)]
  | _ => []
  end.
Definition flow_add (f : mflow) : list (node * pset) :=
  match f with
  | (NE x, (e, d)) => [(NE x, m_eqs d); (NV (snd e), m_vars d)]
  | _ => []
  end.

(** Only matrices of edges differ. *)
Definition edges_only (g g' : mgraph) : Prop :=
  g_nodes g' = g_nodes g /\ g_edges g' = g_edges g /\ g_vx g' = g_vx g /\ g_vis g' = g_vis g /\
  g_evis g' = g_evis g /\ forall e, ed_inc (g_ed g' e) = ed_inc (g_ed g e).

Lemma fold_flow : forall fl g rm ad,
  (forall x y, fl_adds fl x y -> fl_rems fl x y -> False) ->
  exists g', fold_left apply_flow fl (g, rm, ad) =
             (g', rm ++ flat_map flow_rem fl, ad ++ flat_map flow_add fl) /\
  edges_only g g' /\
  (forall e v i j, In (i, j) (ents (ed_match (g_ed g' (e, v)))) <->
     fl_adds fl (e, i) (v, j) \/ (In (i, j) (ents (ed_match (g_ed g (e, v)))) /\ ~ fl_rems fl (e, i) (v, j))) /\
  (forall e v i j, In (i, j) (ents (ed_unm (g_ed g' (e, v)))) <->
     fl_rems fl (e, i) (v, j) \/ (In (i, j) (ents (ed_unm (g_ed g (e, v)))) /\ ~ fl_adds fl (e, i) (v, j))).
Proof.
  induction fl as [|[[n|n] [[e0 v0] d]] fl IH]; intros g rm ad Hd.
  - exists g. cbn. rewrite !app_nil_r. split; auto. split; [unfold edges_only; tauto|].
    split; intros; pose proof (adds_nil (e, i) (v, j)); pose proof (rems_nil (e, i) (v, j)); tauto.
  - (* removal *)
    cbn [fold_left apply_flow n_other fst].
    destruct (IH (g_setEd g (e0, v0) (ed_removeMatch (g_ed g (e0, v0)) d))
                 (rm ++ [(NV n, m_vars d); (NE e0, m_eqs d)]) ad)
      as [g' [E [Heo [Hm Hu]]]].
    { intros x y H1 H2. apply (Hd x y); [now apply adds_bwd|apply rems_bwd; auto]. }
    exists g'. rewrite E. split; [now rewrite <- app_assoc|]. split.
    { destruct Heo as (A1 & A2 & A3 & A4 & A5 & A6). repeat split; auto.
      intros e. rewrite A6. cbn. unfold eupd. destruct (medid_eqb e (e0, v0)) eqn:Ee; auto.
      apply medid_eqb_spec in Ee. now subst. }
    split; intros e v i j.
    + rewrite Hm, adds_bwd, rems_bwd. cbn [fst snd g_ed g_setEd].
      destruct (medid_eq_dec (e, v) (e0, v0)) as [Ee|Ee].
      * inversion Ee; subst. rewrite eupd_same. cbn [ed_removeMatch ed_match]. rewrite m_diff_spec. tauto.
      * rewrite eupd_other by auto. assert (~ (e = e0 /\ v = v0)) by (intros [-> ->]; auto). tauto.
    + rewrite Hu, adds_bwd, rems_bwd. cbn [fst snd g_ed g_setEd].
      destruct (medid_eq_dec (e, v) (e0, v0)) as [Ee|Ee].
      * inversion Ee; subst. rewrite eupd_same. cbn [ed_removeMatch ed_unm]. rewrite m_union_spec.
        assert (Hx : In (i, j) (ents d) -> ~ fl_adds fl (e0, i) (v0, j)).
        { intros H1 H2. apply (Hd (e0, i) (v0, j)); [now apply adds_bwd|apply rems_bwd; cbn; auto]. }
        tauto.
      * rewrite eupd_other by auto. assert (~ (e = e0 /\ v = v0)) by (intros [-> ->]; auto). tauto.
  - (* addition *)
    cbn [fold_left apply_flow n_other snd].
    destruct (IH (g_setEd g (e0, v0) (ed_addMatch (g_ed g (e0, v0)) d)) rm
                 (ad ++ [(NE n, m_eqs d); (NV v0, m_vars d)]))
      as [g' [E [Heo [Hm Hu]]]].
    { intros x y H1 H2. apply (Hd x y); [apply adds_fwd; auto|now apply rems_fwd]. }
    exists g'. rewrite E. split; [now rewrite <- app_assoc|]. split.
    { destruct Heo as (A1 & A2 & A3 & A4 & A5 & A6). repeat split; auto.
      intros e. rewrite A6. cbn. unfold eupd. destruct (medid_eqb e (e0, v0)) eqn:Ee; auto.
      apply medid_eqb_spec in Ee. now subst. }
    split; intros e v i j.
    + rewrite Hm, adds_fwd, rems_fwd. cbn [fst snd g_ed g_setEd].
      destruct (medid_eq_dec (e, v) (e0, v0)) as [Ee|Ee].
      * inversion Ee; subst. rewrite eupd_same. cbn [ed_addMatch ed_match]. rewrite m_union_spec.
        assert (Hx : In (i, j) (ents d) -> ~ fl_rems fl (e0, i) (v0, j)).
        { intros H1 H2. apply (Hd (e0, i) (v0, j)); [apply adds_fwd; cbn; auto|now apply rems_fwd]. }
        tauto.
      * rewrite eupd_other by auto. assert (~ (e = e0 /\ v = v0)) by (intros [-> ->]; auto). tauto.
    + rewrite Hu, adds_fwd, rems_fwd. cbn [fst snd g_ed g_setEd].
      destruct (medid_eq_dec (e, v) (e0, v0)) as [Ee|Ee].
      * inversion Ee; subst. rewrite eupd_same. cbn [ed_addMatch ed_unm]. rewrite m_diff_spec. tauto.
      * rewrite eupd_other by auto. assert (~ (e = e0 /\ v = v0)) by (intros [-> ->]; auto). tauto.
Qed.

(** * The vertices after the updates *)

Lemma nm_get_spec : forall l n p, In p (nm_get l n) <-> exists s, In (n, s) l /\ In p s.
Proof.
  intros. unfold nm_get. rewrite in_flat_map. split.
  - intros [[m s] [H1 H2]]. cbn in H2. destruct (node_eqb m n) eqn:E; [|destruct H2].
    apply node_eqb_spec in E. subst. eauto.
  - intros [s [H1 H2]]. exists (n, s). split; auto. cbn. now rewrite node_eqb_refl.
Qed.
Lemma nm_keys_spec : forall l n, In n (nm_keys l) <-> exists s, In (n, s) l.
Proof.
  induction l as [|[m s] l IH]; intros n; cbn.
  - split; [tauto|]. intros [s []].
  - fold (nm_keys l). destruct (existsb (node_eqb m) (nm_keys l)) eqn:E.
    + rewrite IH. split.
      * intros [t H]. eauto.
      * intros [t [H|H]]; [|eauto]. inversion H; subst.
        apply existsb_exists in E as [k [H1 H2]]. apply node_eqb_spec in H2. subst. now apply IH.
    + cbn. rewrite IH. split.
      * intros [->|[t H]]; eauto.
      * intros [t [H|H]]; [inversion H; auto|eauto].
Qed.
Lemma nm_keys_nodup : forall l, NoDup (nm_keys l).
Proof.
  induction l as [|[m s] l IH]; cbn; [constructor|]. fold (nm_keys l).
  destruct (existsb (node_eqb m) (nm_keys l)) eqn:E; auto.
  constructor; auto. intros H. assert (existsb (node_eqb m) (nm_keys l) = true); [|congruence].
  apply existsb_exists. exists m. split; auto. apply node_eqb_refl.
Qed.

(** Only the matchable states of vertices differ. *)
Definition verts_only (g g' : mgraph) : Prop :=
  g_nodes g' = g_nodes g /\ g_edges g' = g_edges g /\ g_ed g' = g_ed g /\ g_vis g' = g_vis g /\
  g_evis g' = g_evis g.

Lemma fold_vert : forall (op : matchable -> pset -> res matchable) (S : node -> pset) ks g,
  NoDup ks -> (forall n, In n ks -> exists m, op (g_vx g n) (S n) = Ok m) ->
  exists g', fold_res (fun g n => m <- op (g_vx g n) (S n) ;; Ok (g_setVx g n m)) ks g = Ok g' /\
  verts_only g g' /\
  (forall n, ~ In n ks -> g_vx g' n = g_vx g n) /\
  (forall n, In n ks -> op (g_vx g n) (S n) = Ok (g_vx g' n)).
Proof.
  intros op S. induction ks as [|k ks IH]; intros g Hn Hop.
  - exists g. cbn. split; auto. split; [unfold verts_only; tauto|]. split; auto. intros n [].
  - inversion Hn as [|? ? Hk Hks]; subst. destruct (Hop k (or_introl eq_refl)) as [m Hm].
    cbn [fold_res]. rewrite Hm. cbn [bind].
    destruct (IH (g_setVx g k m) Hks) as [g' [E [Hv [Ho Hs]]]].
    { intros n Hin. cbn. rewrite nupd_other by (intros ->; auto). apply Hop. now right. }
    exists g'. split; auto. split.
    { destruct Hv as (A1 & A2 & A3 & A4 & A5). repeat split; auto. }
    split.
    + intros n Hin. rewrite Ho by (intros H; apply Hin; now right). cbn. apply nupd_other.
      intros ->. apply Hin. now left.
    + intros n [->|Hin].
      * rewrite Ho by auto. cbn. rewrite nupd_same. auto.
      * specialize (Hs n Hin). cbn in Hs. rewrite nupd_other in Hs by (intros ->; auto). auto.
Qed.

(** * The application in terms of additions and removals *)

Lemma apply_path_effect : forall g fl,
  (forall n, In n (g_nodes g) -> partitioned (g_vx g n)) ->
  (forall x y, fl_adds fl x y -> fl_rems fl x y -> False) ->
  (forall n s p, In (n, s) (flat_map flow_rem fl) -> In n (g_nodes g) /\ (In p s -> In p (mt_all (g_vx g n)))) ->
  (forall n s p, In (n, s) (flat_map flow_add fl) -> In n (g_nodes g) /\ (In p s -> In p (mt_all (g_vx g n)))) ->
  exists g', apply_path g fl = Ok g' /\
  same_graph g g' /\ g_vis g' = g_vis g /\ g_evis g' = g_evis g /\
  (forall e v i j, In (i, j) (ents (ed_match (g_ed g' (e, v)))) <->
     fl_adds fl (e, i) (v, j) \/ (In (i, j) (ents (ed_match (g_ed g (e, v)))) /\ ~ fl_rems fl (e, i) (v, j))) /\
  (forall e v i j, In (i, j) (ents (ed_unm (g_ed g' (e, v)))) <->
     fl_rems fl (e, i) (v, j) \/ (In (i, j) (ents (ed_unm (g_ed g (e, v)))) /\ ~ fl_adds fl (e, i) (v, j))) /\
  (forall n, In n (g_nodes g) -> partitioned (g_vx g' n)) /\
  (forall n p, In n (g_nodes g) ->
     (In p (mt_matched (g_vx g' n)) <->
      (In p (mt_matched (g_vx g n)) /\ ~ In p (nm_get (flat_map flow_rem fl) n)) \/
      In p (nm_get (flat_map flow_add fl) n))).
Proof.
  intros g fl Hpart Hd Hrem Hadd. unfold apply_path.
  destruct (fold_flow fl g [] [] Hd) as [g1 [E1 [He [Hm Hu]]]]. rewrite E1. cbn [app].
  set (rm := flat_map flow_rem fl) in *. set (ad := flat_map flow_add fl) in *.
  destruct He as (A1 & A2 & A3 & A4 & A5 & A6).
  destruct (fold_vert mt_removeMatch (nm_get rm) (nm_keys rm) g1 (nm_keys_nodup rm))
    as [g2 [E2 [Hv2 [Ho2 Hs2]]]].
  { intros n Hn. apply nm_keys_spec in Hn as [s Hs]. rewrite A3. apply removeMatch_total.
    - apply Hpart. eapply (Hrem n s []); eauto.
    - intros p Hp. apply nm_get_spec in Hp as [t [Ht Hp]]. eapply Hrem; eauto. }
  rewrite E2. cbn [bind]. destruct Hv2 as (B1 & B2 & B3 & B4 & B5).
  assert (P2 : forall n, In n (g_nodes g) ->
            partitioned (g_vx g2 n) /\ mt_all (g_vx g2 n) = mt_all (g_vx g n) /\
            forall p, In p (mt_matched (g_vx g2 n)) <->
                      In p (mt_matched (g_vx g n)) /\ ~ In p (nm_get rm n)).
  { intros n Hn. destruct (in_dec node_eq_dec n (nm_keys rm)) as [Hk|Hk].
    - specialize (Hs2 n Hk). rewrite A3 in Hs2. apply removeMatch_ok in Hs2; [|apply Hpart; auto].
      destruct Hs2 as (? & ? & ? & ? & ?). auto.
    - rewrite (Ho2 n Hk), A3. split; [apply Hpart; auto|]. split; auto.
      intros p. assert (~ In p (nm_get rm n)); [|tauto]. intros H. apply nm_get_spec in H as [s [H _]].
      apply Hk. apply nm_keys_spec. eauto. }
  destruct (fold_vert mt_addMatch (nm_get ad) (nm_keys ad) g2 (nm_keys_nodup ad))
    as [g3 [E3 [Hv3 [Ho3 Hs3]]]].
  { intros n Hn. apply nm_keys_spec in Hn as [s Hs]. destruct (Hadd n s [] Hs) as [Hin _].
    destruct (P2 n Hin) as (Q1 & Q2 & _). apply addMatch_total; auto.
    intros p Hp. rewrite Q2. apply nm_get_spec in Hp as [t [Ht Hp]]. eapply Hadd; eauto. }
  destruct Hv3 as (C1 & C2 & C3 & C4 & C5).
  exists g3. split; [exact E3|].
  assert (P3 : forall n, In n (g_nodes g) ->
            partitioned (g_vx g3 n) /\ mt_all (g_vx g3 n) = mt_all (g_vx g n) /\
            forall p, In p (mt_matched (g_vx g3 n)) <->
                      (In p (mt_matched (g_vx g n)) /\ ~ In p (nm_get rm n)) \/ In p (nm_get ad n)).
  { intros n Hn. destruct (P2 n Hn) as (Q1 & Q2 & Q3).
    destruct (in_dec node_eq_dec n (nm_keys ad)) as [Hk|Hk].
    - specialize (Hs3 n Hk). apply addMatch_ok in Hs3; auto.
      destruct Hs3 as (R1 & R2 & _ & _ & R5). split; auto. split; [congruence|].
      intros p. rewrite R2, Q3. reflexivity.
    - rewrite (Ho3 n Hk). split; auto. split; auto.
      intros p. rewrite Q3. assert (~ In p (nm_get ad n)); [|tauto]. intros H. apply nm_get_spec in H as [s [H _]].
      apply Hk. apply nm_keys_spec. eauto. }
  assert (Hall : forall n, mt_all (g_vx g3 n) = mt_all (g_vx g n)).
  { intros n. destruct (in_dec node_eq_dec n (g_nodes g)) as [Hn|Hn]; [now apply P3|].
    assert (~ In n (nm_keys ad)).
    { intros H. apply nm_keys_spec in H as [s Hs]. apply Hn. eapply (Hadd n s []); eauto. }
    assert (~ In n (nm_keys rm)).
    { intros H'. apply nm_keys_spec in H' as [s Hs]. apply Hn. eapply (Hrem n s []); eauto. }
    rewrite Ho3, Ho2, A3; auto. }
  split. { split; [congruence|]. split; [congruence|]. split; auto. intros e. rewrite C3, B3. apply A6. }
  split; [congruence|]. split; [congruence|].
  rewrite C3, B3. split; auto. split; auto. split; intros; now apply P3.
Qed.

(** * Facts on augmenting paths *)

Definition trest (fl : list mflow) : list (node * pset) :=
  match fl with
  | [] => []
  | (NE _, (e, d)) :: fl' => touched (NV (snd e)) (m_vars d) fl'
  | (NV _, (e, d)) :: fl' => touched (NE (fst e)) (m_eqs d) fl'
  end.
Lemma touched_cons : forall n T fl, touched n T fl = (n, T) :: trest fl.
Proof. intros n T [|[[x|x] [e d]] fl]; reflexivity. Qed.

Lemma path_touched : forall g k n T fl, apath g k n T fl ->
  (forall x y, fl_adds fl x y ->
     (exists T', In (NE (fst x), T') (touched n T fl) /\ In (snd x) T') /\
     (exists T', In (NV (fst y), T') (trest fl) /\ In (snd y) T')) /\
  (forall x y, fl_rems fl x y ->
     (exists T', In (NE (fst x), T') (trest fl) /\ In (snd x) T') /\
     (exists T', In (NV (fst y), T') (touched n T fl) /\ In (snd y) T')).
Proof.
  induction 1 as [v T Hn Hne Hu|k e v T d fl He Hsub H1 HT Hp [IHa IHr]|k e v T d fl He Hsub H1 HT Hp [IHa IHr]].
  - split; intros x y H; [now apply adds_nil in H|now apply rems_nil in H].
  - rewrite touched_cons in *. cbn [trest snd]. split; intros x y H.
    + apply adds_fwd in H as [[Hx [Hy Hd]]|H].
      * split.
        -- exists T. split; [left; now rewrite Hx|]. apply HT. apply m_eqs_spec. eauto.
        -- exists (m_vars d). split; [rewrite touched_cons; left; now rewrite Hy|].
           apply m_vars_spec. eauto.
      * destruct (IHa x y H) as [[T1 [Q1 Q2]] [T2 [Q3 Q4]]]. split.
        -- exists T1. split; auto. right. rewrite touched_cons. auto.
        -- exists T2. split; auto. rewrite touched_cons. now right.
    + rewrite rems_fwd in H. destruct (IHr x y H) as [[T1 [Q1 Q2]] [T2 [Q3 Q4]]]. split.
      * exists T1. split; auto. rewrite touched_cons. now right.
      * exists T2. split; auto. right. rewrite touched_cons. auto.
  - rewrite touched_cons in *. cbn [trest fst]. split; intros x y H.
    + rewrite adds_bwd in H. destruct (IHa x y H) as [[T1 [Q1 Q2]] [T2 [Q3 Q4]]]. split.
      * exists T1. split; auto. right. rewrite touched_cons. auto.
      * exists T2. split; auto. rewrite touched_cons. now right.
    + apply rems_bwd in H as [[Hx [Hy Hd]]|H].
      * split.
        -- exists (m_eqs d). split; [rewrite touched_cons; left; now rewrite Hx|].
           apply m_eqs_spec. eauto.
        -- exists T. split; [left; now rewrite Hy|]. apply HT. apply m_vars_spec. eauto.
      * destruct (IHr x y H) as [[T1 [Q1 Q2]] [T2 [Q3 Q4]]]. split.
        -- exists T1. split; auto. rewrite touched_cons. now right.
        -- exists T2. split; auto. right. rewrite touched_cons. auto.
Qed.

Lemma path_one : forall g k n T fl, apath g k n T fl -> scalars_once (touched n T fl) ->
  one_one (fl_adds fl).
Proof.
  induction 1 as [v T Hn Hne Hu|k e v T d fl He Hsub H1 HT Hp IH|k e v T d fl He Hsub H1 HT Hp IH];
    intros Ho.
  - split; intros x y y' H; now apply adds_nil in H.
  - rewrite touched_cons in Ho. cbn [trest snd] in Ho. destruct Ho as [Ho1 Ho2].
    destruct (IH Ho2) as [Hf1 Hf2]. destruct (path_touched _ _ _ _ _ Hp) as [Hta _].
    rewrite touched_cons in Ho1, Ho2. destruct Ho2 as [Ho2 _].
    destruct H1 as [Hd1 Hd2].
    assert (Xx : forall x y y' : scalar, fst x = e -> In (snd x, snd y) (ents d) -> fl_adds fl x y' -> False).
    { intros x y y' Hx Hd Ha. destruct (Hta x y' Ha) as [[T' [Q1 Q2]] _].
      rewrite touched_cons in Q1. rewrite Hx in Q1. apply (Ho1 T' (snd x)); auto.
      apply HT. apply m_eqs_spec. eauto. }
    assert (Xy : forall x x' y : scalar, fst y = v -> In (snd x, snd y) (ents d) -> fl_adds fl x' y -> False).
    { intros x x' y Hy Hd Ha. destruct (Hta x' y Ha) as [_ [T' [Q1 Q2]]].
      rewrite Hy in Q1. apply (Ho2 T' (snd y)); auto. apply m_vars_spec. eauto. }
    split.
    + intros [x i] [y j] [y' j'] Ha Hb. apply adds_fwd in Ha. apply adds_fwd in Hb. cbn in *.
      destruct Ha as [[E1 [E2 E3]]|Ha], Hb as [[E4 [E5 E6]]|Hb].
      * f_equal; [congruence|eauto].
      * exfalso. eapply (Xx (x, i) (y, j)); eauto.
      * exfalso. eapply (Xx (x, i) (y', j')); eauto.
      * eauto.
    + intros [x i] [x' i'] [y j] Ha Hb. apply adds_fwd in Ha. apply adds_fwd in Hb. cbn in *.
      destruct Ha as [[E1 [E2 E3]]|Ha], Hb as [[E4 [E5 E6]]|Hb].
      * f_equal; [congruence|eauto].
      * exfalso. eapply (Xy (x, i) (x', i') (y, j)); eauto.
      * exfalso. eapply (Xy (x', i') (x, i) (y, j)); eauto.
      * eauto.
  - rewrite touched_cons in Ho. cbn [trest fst] in Ho. destruct Ho as [_ Ho2].
    destruct (IH Ho2) as [Hf1 Hf2].
    split; intros x y y' Ha Hb; rewrite adds_bwd in Ha, Hb; eauto.
Qed.

Lemma path_edges : forall g k n T fl, apath g k n T fl ->
  (forall x y, fl_adds fl x y -> g_free g x y) /\ (forall x y, fl_rems fl x y -> g_pairs g x y).
Proof.
  induction 1 as [v T Hn Hne Hu|k e v T d fl He Hsub H1 HT Hp [IHa IHr]|k e v T d fl He Hsub H1 HT Hp [IHa IHr]].
  - split; intros x y H; [now apply adds_nil in H|now apply rems_nil in H].
  - split; intros x y H.
    + apply adds_fwd in H as [[<- [<- Hd]]|H]; auto. split; auto.
    + rewrite rems_fwd in H. auto.
  - split; intros x y H.
    + rewrite adds_bwd in H. auto.
    + apply rems_bwd in H as [[<- [<- Hd]]|H]; auto. split; auto.
Qed.

Lemma path_links : forall g k n T fl, apath g k n T fl ->
  (forall x y, fl_adds fl x y -> (n = NE (fst x) /\ In (snd x) T) \/ exists y', fl_rems fl x y') /\
  (forall v j, n = NV v -> In j T -> In j (mt_unmatched (g_vx g (NV v))) \/ exists x', fl_rems fl x' (v, j)) /\
  (forall x y, fl_adds fl x y -> In (snd y) (mt_unmatched (g_vx g (NV (fst y)))) \/ exists x', fl_rems fl x' y) /\
  (forall e i, n = NE e -> In i T -> exists y, fl_adds fl (e, i) y) /\
  (forall x y, fl_rems fl x y -> exists y', fl_adds fl x y') /\
  (forall x y, fl_rems fl x y -> (n = NV (fst y) /\ In (snd y) T) \/ exists x', fl_adds fl x' y).
Proof.
  induction 1 as [v T Hn Hne Hu|k e v T d fl He Hsub H1 HT Hp IH|k e v T d fl He Hsub H1 HT Hp IH].
  - split; [intros x y H; now apply adds_nil in H|].
    split; [intros w j E Hj; inversion E; subst; auto|].
    split; [intros x y H; now apply adds_nil in H|].
    split; [discriminate|].
    split; intros x y H; now apply rems_nil in H.
  - destruct IH as (I1 & I2 & I3 & I4 & I5 & I6).
    assert (Hr : forall x y, fl_rems ((NE e, ((e, v), d)) :: fl) x y <-> fl_rems fl x y)
      by (intros; apply rems_fwd).
    split.
    { intros x y H. apply adds_fwd in H as [[Hx [Hy Hd]]|H].
      - left. split; [congruence|]. apply HT. apply m_eqs_spec. eauto.
      - destruct (I1 x y H) as [[E _]|[y' H']]; [discriminate|]. right. exists y'. now apply Hr. }
    split; [discriminate|].
    split.
    { intros x y H. apply adds_fwd in H as [[Hx [Hy Hd]]|H].
      - destruct (I2 v (snd y) eq_refl) as [H|[x' H]].
        + apply m_vars_spec. eauto.
        + left. now rewrite Hy.
        + right. exists x'. apply Hr. subst v. now destruct y.
      - destruct (I3 x y H) as [H'|[x' H']]; auto. right. exists x'. now apply Hr. }
    split.
    { intros e' i E Hi. inversion E; subst. apply HT in Hi. apply m_eqs_spec in Hi as [j Hj].
      exists (v, j). apply adds_fwd. left. cbn. auto. }
    split.
    { intros x y H. apply Hr in H. destruct (I5 x y H) as [y' H']. exists y'. apply adds_fwd. auto. }
    intros x y H. apply Hr in H. right. destruct (I6 x y H) as [[E Hy]|[x' H']].
    + inversion E; subst. apply m_vars_spec in Hy as [i Hi]. exists (e, i). apply adds_fwd. left. cbn. auto.
    + exists x'. apply adds_fwd. auto.
  - destruct IH as (I1 & I2 & I3 & I4 & I5 & I6).
    assert (Ha : forall x y, fl_adds ((NV v, ((e, v), d)) :: fl) x y <-> fl_adds fl x y)
      by (intros; apply adds_bwd).
    split.
    { intros x y H. apply Ha in H. right. destruct (I1 x y H) as [[E Hx]|[y' H']].
      - inversion E; subst. apply m_eqs_spec in Hx as [j Hj]. exists (v, j). apply rems_bwd. left. cbn. auto.
      - exists y'. apply rems_bwd. auto. }
    split.
    { intros v' j E Hj. inversion E; subst. right. apply HT in Hj. apply m_vars_spec in Hj as [i Hi].
      exists (e, i). apply rems_bwd. left. cbn. auto. }
    split.
    { intros x y H. apply Ha in H. destruct (I3 x y H) as [H'|[x' H']]; auto.
      right. exists x'. apply rems_bwd. auto. }
    split; [discriminate|].
    split.
    { intros x y H. apply rems_bwd in H as [[Hx [Hy Hd]]|H].
      - destruct (I4 e (snd x) eq_refl) as [y' H'].
        + apply m_eqs_spec. eauto.
        + exists y'. apply Ha. subst e. now destruct x.
      - destruct (I5 x y H) as [y' H']. exists y'. now apply Ha. }
    intros x y H. apply rems_bwd in H as [[Hx [Hy Hd]]|H].
    + left. split; [congruence|]. apply HT. apply m_vars_spec. eauto.
    + right. destruct (I6 x y H) as [[E _]|[x' H']]; [discriminate|]. exists x'. now apply Ha.
Qed.

Lemma path_flows : forall g k n T fl, apath g k n T fl ->
  (forall m i, In i (nm_get (flat_map flow_rem fl) m) <->
     match m with NE e => exists y, fl_rems fl (e, i) y | NV v => exists x, fl_rems fl x (v, i) end) /\
  (forall m i, In i (nm_get (flat_map flow_add fl) m) <->
     match m with NE e => exists y, fl_adds fl (e, i) y | NV v => exists x, fl_adds fl x (v, i) end) /\
  (forall m s, In (m, s) (flat_map flow_rem fl) \/ In (m, s) (flat_map flow_add fl) ->
     exists e, In e (g_edges g) /\ (m = NE (fst e) \/ m = NV (snd e))).
Proof.
  induction 1 as [v T Hn Hne Hu|k e v T d fl He Hsub H1 HT Hp [I1 [I2 I3]]|k e v T d fl He Hsub H1 HT Hp [I1 [I2 I3]]].
  - cbn. split; [|split].
    + intros [v'|e'] i; split; try tauto; intros [z H]; now apply rems_nil in H.
    + intros [v'|e'] i; split; try tauto; intros [z H]; now apply adds_nil in H.
    + tauto.
  - split; [|split].
    + intros m i. cbn [flat_map flow_rem]. cbn [app]. rewrite I1.
      destruct m as [w|w]; split; intros [z H]; exists z; now rewrite rems_fwd in H || apply rems_fwd.
    + intros m i. cbn [flat_map flow_add app snd].
      change (nm_get ((NE e, m_eqs d) :: (NV v, m_vars d) :: flat_map flow_add fl) m)
        with ((if node_eqb (NE e) m then m_eqs d else []) ++ (if node_eqb (NV v) m then m_vars d else [])
              ++ nm_get (flat_map flow_add fl) m).
      rewrite !in_app_iff, I2. destruct m as [w|w]; cbn [node_eqb].
      * destruct (mid_eqb v w) eqn:Ew.
        -- apply mid_eqb_spec in Ew. subst w. rewrite m_vars_spec. split.
           ++ intros [[]|[[i' H]|[x H]]]; [exists (e, i')|exists x]; apply adds_fwd; cbn; auto.
           ++ intros [x H]. apply adds_fwd in H as [[Hx [_ Hd]]|H]; eauto.
        -- apply mid_eqb_false in Ew. split.
           ++ intros [[]|[[]|[x H]]]. exists x. apply adds_fwd. auto.
           ++ intros [x H]. apply adds_fwd in H as [[Hx [Hy Hd]]|H]; eauto. cbn in Hy. congruence.
      * destruct (mid_eqb e w) eqn:Ew.
        -- apply mid_eqb_spec in Ew. subst w. rewrite m_eqs_spec. split.
           ++ intros [[j H]|[[]|[y H]]]; [exists (v, j)|exists y]; apply adds_fwd; cbn; auto.
           ++ intros [y H]. apply adds_fwd in H as [[_ [Hy Hd]]|H]; eauto.
        -- apply mid_eqb_false in Ew. split.
           ++ intros [[]|[[]|[x H]]]. exists x. apply adds_fwd. auto.
           ++ intros [y H]. apply adds_fwd in H as [[Hx [Hy Hd]]|H]; eauto. cbn in Hx. congruence.
    + intros m s [H|H].
      * apply (I3 m s). left. exact H.
      * cbn [flat_map flow_add app snd] in H. destruct H as [H|[H|H]].
        -- inversion H; subst. exists (e, v). auto.
        -- inversion H; subst. exists (e, v). auto.
        -- apply (I3 m s). auto.
  - split; [|split].
    + intros m i. cbn [flat_map flow_rem app fst].
      change (nm_get ((NV v, m_vars d) :: (NE e, m_eqs d) :: flat_map flow_rem fl) m)
        with ((if node_eqb (NV v) m then m_vars d else []) ++ (if node_eqb (NE e) m then m_eqs d else [])
              ++ nm_get (flat_map flow_rem fl) m).
      rewrite !in_app_iff, I1. destruct m as [w|w]; cbn [node_eqb].
      * destruct (mid_eqb v w) eqn:Ew.
        -- apply mid_eqb_spec in Ew. subst w. rewrite m_vars_spec. split.
           ++ intros [[i' H]|[[]|[x H]]]; [exists (e, i')|exists x]; apply rems_bwd; cbn; auto.
           ++ intros [x H]. apply rems_bwd in H as [[Hx [_ Hd]]|H]; eauto.
        -- apply mid_eqb_false in Ew. split.
           ++ intros [[]|[[]|[x H]]]. exists x. apply rems_bwd. auto.
           ++ intros [x H]. apply rems_bwd in H as [[Hx [Hy Hd]]|H]; eauto. cbn in Hy. congruence.
      * destruct (mid_eqb e w) eqn:Ew.
        -- apply mid_eqb_spec in Ew. subst w. rewrite m_eqs_spec. split.
           ++ intros [[]|[[j H]|[y H]]]; [exists (v, j)|exists y]; apply rems_bwd; cbn; auto.
           ++ intros [y H]. apply rems_bwd in H as [[_ [Hy Hd]]|H]; eauto.
        -- apply mid_eqb_false in Ew. split.
           ++ intros [[]|[[]|[x H]]]. exists x. apply rems_bwd. auto.
           ++ intros [y H]. apply rems_bwd in H as [[Hx [Hy Hd]]|H]; eauto. cbn in Hx. congruence.
    + intros m i. cbn [flat_map flow_add app]. rewrite I2.
      destruct m as [w|w]; split; intros [z H]; exists z; now rewrite adds_bwd in H || apply adds_bwd.
    + intros m s [H|H].
      * cbn [flat_map flow_rem app fst] in H. destruct H as [H|[H|H]].
        -- inversion H; subst. exists (e, v). auto.
        -- inversion H; subst. exists (e, v). auto.
        -- apply (I3 m s). auto.
      * apply (I3 m s). right. exact H.
Qed.

(** * Applying an augmenting path *)

Lemma apath_ne : forall g k n T fl, apath g k n T fl -> T <> [].
Proof.
  induction 1 as [v T Hn Hne Hu|k e v T d fl He Hsub H1 HT Hp IH|k e v T d fl He Hsub H1 HT Hp IH]; auto.
  - apply list_ne in IH as [j Hj]. apply m_vars_spec in Hj as [i Hi]. apply list_ne. exists i.
    apply HT. apply m_eqs_spec. eauto.
  - apply list_ne in IH as [i Hi]. apply m_eqs_spec in Hi as [j Hj]. apply list_ne. exists j.
    apply HT. apply m_vars_spec. eauto.
Qed.

(** What a path does to a valid graph, all at once. *)
Record applied (g : mgraph) (fl : list mflow) (g' : mgraph) : Prop := {
  al_same : same_graph g g';
  al_valid : valid g';
  al_pairs : forall x y, g_pairs g' x y <-> fl_adds fl x y \/ (g_pairs g x y /\ ~ fl_rems fl x y);
  al_free : forall x y, g_free g' x y <-> fl_rems fl x y \/ (g_free g x y /\ ~ fl_adds fl x y);
  al_keep : forall n p, In n (g_nodes g) -> In p (mt_matched (g_vx g n)) -> In p (mt_matched (g_vx g' n));
  al_eq : forall e i, In (NE e) (g_nodes g) ->
    (In i (mt_matched (g_vx g' (NE e))) <->
     In i (mt_matched (g_vx g (NE e))) \/ exists y, fl_adds fl (e, i) y);
  al_var : forall v j, In (NV v) (g_nodes g) ->
    (In j (mt_matched (g_vx g' (NV v))) <->
     In j (mt_matched (g_vx g (NV v))) \/ exists x, fl_adds fl x (v, j)) }.

Lemma unmatched_no_pair : forall g, valid g -> forall e i y, In (NE e) (g_nodes g) ->
  In i (mt_unmatched (g_vx g (NE e))) -> g_pairs g (e, i) y -> False.
Proof.
  intros g V e i y Hn Hu Hp. destruct (va_part g V _ Hn i) as [_ Hd]. apply Hd. split; auto.
  apply (va_eq g V e i Hn). eauto.
Qed.
Lemma unmatched_no_pair_v : forall g, valid g -> forall v j x, In (NV v) (g_nodes g) ->
  In j (mt_unmatched (g_vx g (NV v))) -> g_pairs g x (v, j) -> False.
Proof.
  intros g V v j x Hn Hu Hp. destruct (va_part g V _ Hn j) as [_ Hd]. apply Hd. split; auto.
  apply (va_var g V v j Hn). eauto.
Qed.

Lemma edge_nodes : forall g x y, valid g -> (g_pairs g x y \/ g_free g x y) ->
  In (NE (fst x)) (g_nodes g) /\ In (NV (fst y)) (g_nodes g) /\
  In (snd x) (mt_all (g_vx g (NE (fst x)))) /\ In (snd y) (mt_all (g_vx g (NV (fst y)))).
Proof.
  intros g x y V H. apply (va_split g V) in H. apply (va_inc g V) in H as [[H1 H2] [H3 H4]]. auto.
Qed.

Lemma apply_augmenting : forall g fl, valid g -> augmenting g fl ->
  exists g', apply_path g fl = Ok g' /\ applied g fl g' /\
  (exists e i, In (NE e) (g_nodes g) /\ In i (mt_unmatched (g_vx g (NE e))) /\
               In i (mt_matched (g_vx g' (NE e)))).
Proof.
  intros g fl V (k & e0 & T & Hp & Hn0 & HT & Ho).
  destruct (path_edges _ _ _ _ _ Hp) as [Fa Fr].
  pose proof (path_one _ _ _ _ _ Hp Ho) as [One1 One2].
  destruct (path_links _ _ _ _ _ Hp) as (L1 & _ & L3 & L4 & L5 & L6).
  destruct (path_flows _ _ _ _ _ Hp) as (N1 & N2 & N3).
  assert (Hdisj : forall x y, fl_adds fl x y -> fl_rems fl x y -> False).
  { intros x y H1 H2. eapply (va_disj g V); eauto. }
  assert (Hnode : forall m s, In (m, s) (flat_map flow_rem fl) \/ In (m, s) (flat_map flow_add fl) ->
                              In m (g_nodes g)).
  { intros m s H. destruct (N3 m s H) as [[e v] [He [->| ->]]]; apply (va_ends g V) in He; tauto. }
  destruct (apply_path_effect g fl (va_part g V) Hdisj) as [g' (E & Hs & _ & _ & Hm & Hu & Hpart & Hmt)].
  { intros n s p H. split; [eauto|]. intros Hps.
    assert (In p (nm_get (flat_map flow_rem fl) n)) by (apply nm_get_spec; eauto).
    apply N1 in H0. destruct n as [v|e]; destruct H0 as [z Hz]; apply Fr in Hz;
      destruct (edge_nodes g _ _ V (or_introl Hz)) as (? & ? & ? & ?); auto. }
  { intros n s p H. split; [eauto|]. intros Hps.
    assert (In p (nm_get (flat_map flow_add fl) n)) by (apply nm_get_spec; eauto).
    apply N2 in H0. destruct n as [v|e]; destruct H0 as [z Hz]; apply Fa in Hz;
      destruct (edge_nodes g _ _ V (or_intror Hz)) as (? & ? & ? & ?); auto. }
  exists g'. split; auto.
  destruct Hs as (S1 & S2 & S3 & S4).
  assert (Hpairs : forall x y, g_pairs g' x y <-> fl_adds fl x y \/ (g_pairs g x y /\ ~ fl_rems fl x y)).
  { intros [e i] [v j]. unfold g_pairs; cbn [fst snd]. rewrite S2, Hm. split; [tauto|].
    intros [H|[[H1 H2] H3]]; [|tauto]. split; [|tauto]. apply Fa in H. apply H. }
  assert (Hfree : forall x y, g_free g' x y <-> fl_rems fl x y \/ (g_free g x y /\ ~ fl_adds fl x y)).
  { intros [e i] [v j]. unfold g_free; cbn [fst snd]. rewrite S2, Hu. split; [tauto|].
    intros [H|[[H1 H2] H3]]; [|tauto]. split; [|tauto]. apply Fr in H. apply H. }
  assert (Hinc : forall x y, g_incident g' x y <-> g_incident g x y).
  { intros. unfold g_incident. rewrite S2, S4. reflexivity. }
  assert (HE : forall e i, In (NE e) (g_nodes g) ->
    (In i (mt_matched (g_vx g' (NE e))) <->
     In i (mt_matched (g_vx g (NE e))) \/ exists y, fl_adds fl (e, i) y)).
  { intros e i Hn. rewrite Hmt, N1, N2 by auto. split; [tauto|].
    intros [H|H]; auto. destruct (ps_dec (nm_get (flat_map flow_rem fl) (NE e)) i) as [Hr|Hr].
    - apply N1 in Hr as [y Hy]. right. apply L5 in Hy. auto.
    - left. split; auto. intros Hr'. apply Hr. now apply N1. }
  assert (HV : forall v j, In (NV v) (g_nodes g) ->
    (In j (mt_matched (g_vx g' (NV v))) <->
     In j (mt_matched (g_vx g (NV v))) \/ exists x, fl_adds fl x (v, j))).
  { intros v j Hn. rewrite Hmt, N1, N2 by auto. split; [tauto|].
    intros [H|H]; auto. destruct (ps_dec (nm_get (flat_map flow_rem fl) (NV v)) j) as [Hr|Hr].
    - apply N1 in Hr as [x Hx]. right. destruct (L6 _ _ Hx) as [[Ex _]|Hx']; [discriminate|auto].
    - left. split; auto. intros Hr'. apply Hr. now apply N1. }
  split.
  - assert (Hval : valid g').
    { constructor.
      - rewrite S1, S2. apply (va_ends g V).
      - intros x y H. apply Hinc, (va_inc g V) in H. unfold g_eq, g_var in *. now rewrite S1, !S3.
      - intros x y. rewrite Hinc, (va_split g V). split.
        + intros [H|H].
          * destruct (ents_dec (ed_unm (g_ed g' (fst x, fst y))) (snd x, snd y)) as [Hd|Hd].
            -- right. split; auto. rewrite S2. apply H.
            -- left. apply Hpairs. right. split; auto. intros Hr. apply Hd.
               apply (proj2 (Hfree x y)). auto.
          * destruct (ents_dec (ed_match (g_ed g' (fst x, fst y))) (snd x, snd y)) as [Hd|Hd].
            -- left. split; auto. rewrite S2. apply H.
            -- right. apply Hfree. right. split; auto. intros Hr. apply Hd.
               apply (proj2 (Hpairs x y)). auto.
        + intros [H|H]; [apply Hpairs in H as [H|[H _]]|apply Hfree in H as [H|[H _]]]; auto.
      - intros x y H1 H2. apply Hpairs in H1. apply Hfree in H2. pose proof (va_disj g V x y).
        pose proof (Fa x y). pose proof (Fr x y). pose proof (Hdisj x y). tauto.
      - assert (X1 : forall x y y', fl_adds fl x y -> g_pairs g x y' -> ~ fl_rems fl x y' -> False).
        { intros x y y' Ha Hq Hr. destruct (L1 x y Ha) as [[En Ht]|[y'' Hy'']].
          - inversion En; subst. destruct x as [xe xi]. eapply unmatched_no_pair; eauto.
          - assert (y'' = y') by (eapply (proj1 (va_one g V)); eauto). subst. auto. }
        assert (X2 : forall x x' y, fl_adds fl x y -> g_pairs g x' y -> ~ fl_rems fl x' y -> False).
        { intros x x' [v j] Ha Hq Hr. destruct (L3 x (v, j) Ha) as [Ht|[x'' Hx'']].
          - cbn in Ht. eapply unmatched_no_pair_v; eauto. apply Fa in Ha.
            apply (edge_nodes g x (v, j) V). auto.
          - assert (x'' = x') by (eapply (proj2 (va_one g V)); eauto). subst. auto. }
        split.
        + intros x y y' H1 H2. apply Hpairs in H1. apply Hpairs in H2.
          destruct H1 as [H1|[H1 H1']], H2 as [H2|[H2 H2']]; eauto; try (exfalso; eauto; fail).
          eapply (proj1 (va_one g V)); eauto.
        + intros x x' y H1 H2. apply Hpairs in H1. apply Hpairs in H2.
          destruct H1 as [H1|[H1 H1']], H2 as [H2|[H2 H2']]; eauto; try (exfalso; eauto; fail).
          eapply (proj2 (va_one g V)); eauto.
      - rewrite S1. auto.
      - intros e i Hn. rewrite S1 in Hn. rewrite HE by auto. split.
        + intros [H|[y Hy]].
          * apply (va_eq g V e i Hn) in H as [y Hy].
            destruct (ents_dec (ed_match (g_ed g' (e, fst y))) (i, snd y)) as [Hd|Hd].
            -- exists y. split; auto. rewrite S2. apply Hy.
            -- destruct (ents_dec (ed_unm (g_ed g' (e, fst y))) (i, snd y)) as [Hd'|Hd'].
               ++ assert (Hf : g_free g' (e, i) y) by (split; auto; rewrite S2; apply Hy).
                  apply Hfree in Hf as [Hf|[Hf _]].
                  ** apply L5 in Hf as [y' Hy']. exists y'. apply Hpairs. auto.
                  ** exfalso. eapply (va_disj g V); eauto.
               ++ exfalso. apply Hd. apply (proj2 (Hpairs (e, i) y)). right. split; auto.
                  intros Hr. apply Hd'. apply (proj2 (Hfree (e, i) y)). auto.
          * exists y. apply Hpairs. auto.
        + intros [y Hy]. apply Hpairs in Hy as [Hy|[Hy _]]; [eauto|]. left. apply (va_eq g V e i Hn). eauto.
      - intros v j Hn. rewrite S1 in Hn. rewrite HV by auto. split.
        + intros [H|[x Hx]].
          * apply (va_var g V v j Hn) in H as [x Hx].
            destruct (ents_dec (ed_match (g_ed g' (fst x, v))) (snd x, j)) as [Hd|Hd].
            -- exists x. split; auto. rewrite S2. apply Hx.
            -- destruct (ents_dec (ed_unm (g_ed g' (fst x, v))) (snd x, j)) as [Hd'|Hd'].
               ++ assert (Hf : g_free g' x (v, j)) by (split; auto; rewrite S2; apply Hx).
                  apply Hfree in Hf as [Hf|[Hf _]].
                  ** destruct (L6 _ _ Hf) as [[Ex _]|[x' Hx']]; [discriminate|]. exists x'. apply Hpairs. auto.
                  ** exfalso. eapply (va_disj g V); eauto.
               ++ exfalso. apply Hd. apply (proj2 (Hpairs x (v, j))). right. split; auto.
                  intros Hr. apply Hd'. apply (proj2 (Hfree x (v, j))). auto.
          * exists x. apply Hpairs. auto.
        + intros [x Hx]. apply Hpairs in Hx as [Hx|[Hx _]]; [eauto|]. left. apply (va_var g V v j Hn). eauto. }
    constructor; auto.
    + unfold same_graph. auto.
    + intros [v|e] p Hn Hm0; [apply HV|apply HE]; auto.
  - pose proof (apath_ne _ _ _ _ _ Hp) as Hne. apply list_ne in Hne as [i Hi].
    exists e0, i. split; auto. split; [apply HT; exact Hi|]. apply HE; auto.
Qed.
