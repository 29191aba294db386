(** The sets and matrices of the matching, and the vertices. *)
From Coq Require Import ZArith List Bool Permutation Lia.
From Verif Require Import RangeModel Result MatchModel MatchSpec.
Import ListNotations.

(** * Index sets *)

Lemma pt_eqb_spec : forall p q, pt_eqb p q = true <-> p = q.
Proof. intros. unfold pt_eqb. destruct (list_eq_dec Z.eq_dec p q); split; congruence. Qed.
Lemma ps_mem_spec : forall s p, ps_mem s p = true <-> In p s.
Proof.
  intros. unfold ps_mem. rewrite existsb_exists. split.
  - intros [q [H1 H2]]. apply pt_eqb_spec in H2. now subst.
  - intros H. exists p. split; auto. now apply pt_eqb_spec.
Qed.
Lemma ps_mem_false : forall s p, ps_mem s p = false <-> ~ In p s.
Proof. intros. rewrite <- ps_mem_spec. destruct (ps_mem s p); split; congruence. Qed.
Lemma ps_dec : forall (s : pset) p, In p s \/ ~ In p s.
Proof. intros. destruct (ps_mem s p) eqn:E; [left; now apply ps_mem_spec|right; now apply ps_mem_false]. Qed.
Lemma ps_union_spec : forall a b p, In p (ps_union a b) <-> In p a \/ In p b.
Proof. intros. apply in_app_iff. Qed.
Lemma ps_diff_spec : forall a b p, In p (ps_diff a b) <-> In p a /\ ~ In p b.
Proof. intros. unfold ps_diff. rewrite filter_In, negb_true_iff, ps_mem_false. reflexivity. Qed.
Lemma ps_inter_spec : forall a b p, In p (ps_inter a b) <-> In p a /\ In p b.
Proof. intros. unfold ps_inter. now rewrite filter_In, ps_mem_spec. Qed.
Lemma ps_empty_spec : forall a, ps_empty a = true <-> a = [].
Proof. intros [|]; cbn; split; congruence. Qed.
Lemma ps_contains_spec : forall a b, ps_contains a b = true <-> (forall p, In p b -> In p a).
Proof.
  intros. unfold ps_contains. rewrite forallb_forall. split; intros H p Hp; specialize (H p Hp);
    now apply ps_mem_spec in H || apply ps_mem_spec.
Qed.
Lemma ps_overlaps_spec : forall a b, ps_overlaps a b = true <-> exists p, In p a /\ In p b.
Proof.
  intros. unfold ps_overlaps. rewrite existsb_exists. split; intros [p [H1 H2]]; exists p; split; auto;
    now apply ps_mem_spec in H2 || apply ps_mem_spec.
Qed.
Lemma ps_eq_spec : forall a b, ps_eq a b = true <-> (forall p, In p a <-> In p b).
Proof.
  intros. unfold ps_eq. rewrite andb_true_iff, !ps_contains_spec. split.
  - intros [H1 H2] p. split; auto.
  - intros H. split; intros p Hp; now apply H.
Qed.

(** * Ids *)

Lemma mid_eqb_spec : forall a b, mid_eqb a b = true <-> a = b.
Proof.
  intros [a x] [b y]. unfold mid_eqb; cbn. rewrite andb_true_iff, Nat.eqb_eq.
  destruct x, y; rewrite ?pt_eqb_spec; split; intros H; try (destruct H; congruence); inversion H; auto.
Qed.
Lemma mid_eqb_refl : forall a, mid_eqb a a = true.
Proof. intros. now apply mid_eqb_spec. Qed.
Lemma mid_eq_dec : forall a b : mid, {a = b} + {a <> b}.
Proof.
  intros. destruct (mid_eqb a b) eqn:E.
  - left. now apply mid_eqb_spec.
  - right. intros ->. rewrite mid_eqb_refl in E. discriminate.
Qed.
Lemma mid_eqb_false : forall a b, mid_eqb a b = false <-> a <> b.
Proof. intros. rewrite <- mid_eqb_spec. destruct (mid_eqb a b); split; congruence. Qed.
Lemma node_eqb_spec : forall a b, node_eqb a b = true <-> a = b.
Proof. intros [a|a] [b|b]; cbn; rewrite ?mid_eqb_spec; split; congruence. Qed.
Lemma node_eqb_refl : forall a, node_eqb a a = true.
Proof. intros. now apply node_eqb_spec. Qed.
Lemma node_eq_dec : forall a b : node, {a = b} + {a <> b}.
Proof.
  intros. destruct (node_eqb a b) eqn:E.
  - left. now apply node_eqb_spec.
  - right. intros ->. rewrite node_eqb_refl in E. discriminate.
Qed.
Lemma node_eqb_false : forall a b, node_eqb a b = false <-> a <> b.
Proof. intros. rewrite <- node_eqb_spec. destruct (node_eqb a b); split; congruence. Qed.
Lemma medid_eqb_spec : forall a b, medid_eqb a b = true <-> a = b.
Proof.
  intros [a x] [b y]. unfold medid_eqb; cbn. rewrite andb_true_iff, !mid_eqb_spec.
  split; [intros [-> ->]; auto|intros H; inversion H; auto].
Qed.
Lemma medid_eq_dec : forall a b : medid, {a = b} + {a <> b}.
Proof.
  intros. destruct (medid_eqb a b) eqn:E.
  - left. now apply medid_eqb_spec.
  - right. intros ->. rewrite (proj2 (medid_eqb_spec b b) eq_refl) in E. discriminate.
Qed.
Lemma nupd_same : forall A (f : node -> A) n a, nupd f n a n = a.
Proof. intros. unfold nupd. now rewrite node_eqb_refl. Qed.
Lemma nupd_other : forall A (f : node -> A) n a m, m <> n -> nupd f n a m = f m.
Proof. intros. unfold nupd. apply node_eqb_false in H. now rewrite H. Qed.
Lemma eupd_same : forall A (f : medid -> A) n a, eupd f n a n = a.
Proof. intros. unfold eupd. now rewrite (proj2 (medid_eqb_spec n n) eq_refl). Qed.
Lemma eupd_other : forall A (f : medid -> A) n a m, m <> n -> eupd f n a m = f m.
Proof.
  intros. unfold eupd. destruct (medid_eqb m n) eqn:E; auto. apply medid_eqb_spec in E. congruence.
Qed.

(** * Matrices *)

Lemma ent_eqb_spec : forall a b, ent_eqb a b = true <-> a = b.
Proof.
  intros [a x] [b y]. unfold ent_eqb; cbn. rewrite andb_true_iff, !pt_eqb_spec.
  split; [intros [-> ->]; auto|intros H; inversion H; auto].
Qed.
Lemma m_has_spec : forall m x, m_has m x = true <-> In x (ents m).
Proof.
  intros. unfold m_has, ents. rewrite existsb_exists, in_map_iff. split.
  - intros [y [H1 H2]]. apply ent_eqb_spec in H2. eauto.
  - intros [y [H1 H2]]. exists y. split; auto. now apply ent_eqb_spec.
Qed.
Lemma ents_dec : forall m x, In x (ents m) \/ ~ In x (ents m).
Proof.
  intros. destruct (m_has m x) eqn:E; [left; now apply m_has_spec|].
  right. intros H. apply m_has_spec in H. congruence.
Qed.
Lemma m_diff_spec : forall a b x, In x (ents (m_diff a b)) <-> In x (ents a) /\ ~ In x (ents b).
Proof.
  intros. unfold m_diff, ents. rewrite !in_map_iff. split.
  - intros [y [<- H]]. apply filter_In in H as [H1 H2]. apply negb_true_iff in H2. split; eauto.
    intros [z [H3 H4]]. rewrite <- H3 in H2.
    assert (E : m_has b (snd z) = true) by (apply m_has_spec; now apply in_map). congruence.
  - intros [[y [<- H]] Hn]. exists y. split; auto. apply filter_In. split; auto.
    apply negb_true_iff. destruct (m_has b (snd y)) eqn:E; auto. apply m_has_spec in E.
    elim Hn. apply in_map_iff in E as [z [? ?]]. eauto.
Qed.
Lemma ents_app : forall a b, ents (a ++ b) = ents a ++ ents b.
Proof. intros. apply map_app. Qed.
Lemma m_union_spec : forall a b x, In x (ents (m_union a b)) <-> In x (ents a) \/ In x (ents b).
Proof.
  intros. unfold m_union. rewrite ents_app, in_app_iff, m_diff_spec.
  destruct (ents_dec a x); tauto.
Qed.
Lemma m_filterEqs_spec : forall m s i j,
  In (i, j) (ents (m_filterEqs m s)) <-> In (i, j) (ents m) /\ In i s.
Proof.
  intros. unfold m_filterEqs, ents. rewrite !in_map_iff. split.
  - intros [y [Hy H]]. apply filter_In in H as [H1 H2]. rewrite Hy in H2. apply ps_mem_spec in H2. eauto.
  - intros [[y [Hy H]] Hs]. exists y. split; auto. apply filter_In. split; auto. rewrite Hy.
    now apply ps_mem_spec.
Qed.
Lemma m_filterVars_spec : forall m s i j,
  In (i, j) (ents (m_filterVars m s)) <-> In (i, j) (ents m) /\ In j s.
Proof.
  intros. unfold m_filterVars, ents. rewrite !in_map_iff. split.
  - intros [y [Hy H]]. apply filter_In in H as [H1 H2]. rewrite Hy in H2. apply ps_mem_spec in H2. eauto.
  - intros [[y [Hy H]] Hs]. exists y. split; auto. apply filter_In. split; auto. rewrite Hy.
    now apply ps_mem_spec.
Qed.
Lemma m_eqs_spec : forall m i, In i (m_eqs m) <-> exists j, In (i, j) (ents m).
Proof.
  intros. unfold m_eqs, ents. rewrite in_map_iff. split.
  - intros [[k [a b]] [<- H]]. exists b. apply in_map_iff. exists (k, (a, b)). auto.
  - intros [j H]. apply in_map_iff in H as [y [Hy H]]. exists y. rewrite Hy. auto.
Qed.
Lemma m_vars_spec : forall m j, In j (m_vars m) <-> exists i, In (i, j) (ents m).
Proof.
  intros. unfold m_vars, ents. rewrite in_map_iff. split.
  - intros [[k [a b]] [<- H]]. exists a. apply in_map_iff. exists (k, (a, b)). auto.
  - intros [i H]. apply in_map_iff in H as [y [Hy H]]. exists y. rewrite Hy. auto.
Qed.
Lemma m_empty_spec : forall m, m_empty m = true <-> m = [].
Proof. intros [|]; cbn; split; congruence. Qed.
Lemma ents_nil : forall m, ents m = [] -> m = [].
Proof. intros [|]; cbn; congruence. Qed.
Lemma m_vars_ne : forall m, m <> [] -> m_vars m <> [].
Proof. intros [|]; cbn; congruence. Qed.
Lemma m_eqs_ne : forall m, m <> [] -> m_eqs m <> [].
Proof. intros [|]; cbn; congruence. Qed.
Lemma ents_ne : forall m, ents m <> [] -> m <> [].
Proof. intros [|]; cbn; congruence. Qed.
Lemma list_ne : forall A (l : list A), l <> [] <-> exists x, In x l.
Proof.
  intros A [|a l]; split; intros H; try congruence.
  - destruct H as [? []].
  - exists a. now left.
Qed.

(** * Vertices *)

Lemma new_partitioned : forall s, partitioned (mt_new s).
Proof. intros s p. cbn. tauto. Qed.

Lemma setMatch_ok : forall m s m', mt_setMatch m s = Ok m' ->
  mt_all m' = mt_all m /\ mt_matched m' = s /\ (forall p, In p s -> In p (mt_all m)) /\ partitioned m'.
Proof.
  intros m s m' H. unfold mt_setMatch in H. apply bind_ok in H as [u [H1 H2]].
  apply assert_ok_inv in H1. rewrite ps_contains_spec in H1.
  apply bind_ok in H2 as [u' [H2 H3]]. inversion H3; subst; cbn.
  split; [auto|]. split; [auto|]. split; [auto|].
  intros p; cbn. rewrite ps_diff_spec. specialize (H1 p). destruct (ps_dec s p); tauto.
Qed.

Lemma addMatch_ok : forall m s m', mt_addMatch m s = Ok m' -> partitioned m ->
  mt_all m' = mt_all m /\ (forall p, In p (mt_matched m') <-> In p (mt_matched m) \/ In p s) /\
  (forall p, In p (mt_unmatched m') <-> In p (mt_unmatched m) /\ ~ In p s) /\
  (forall p, In p s -> In p (mt_all m)) /\ partitioned m'.
Proof.
  intros m s m' H Hp. unfold mt_addMatch in H. apply bind_ok in H as [u [H1 H2]].
  apply assert_ok_inv in H1. rewrite ps_contains_spec in H1.
  apply bind_ok in H2 as [u' [H2 H3]]. inversion H3; subst; cbn.
  split; [auto|]. split; [intros; apply ps_union_spec|]. split; [intros; apply ps_diff_spec|].
  split; [auto|]. intros p. cbn. rewrite ps_union_spec, ps_diff_spec.
  destruct (Hp p) as [Ha Hd]. specialize (H1 p). destruct (ps_dec s p); tauto.
Qed.

Lemma addMatch_total : forall m s, partitioned m -> (forall p, In p s -> In p (mt_all m)) ->
  exists m', mt_addMatch m s = Ok m'.
Proof.
  intros m s Hp Hs. unfold mt_addMatch.
  rewrite (proj2 (ps_contains_spec _ _) Hs). cbn [assert_ok bind mt_matched mt_unmatched].
  match goal with |- context [ps_eq ?a ?b] => assert (E : ps_eq a b = true) end.
  { apply ps_eq_spec. intros p. rewrite !ps_union_spec, ps_diff_spec. destruct (Hp p) as [Ha _].
    specialize (Hs p). destruct (ps_dec s p); tauto. }
  rewrite E. cbn. eauto.
Qed.

Lemma removeMatch_ok : forall m s m', mt_removeMatch m s = Ok m' -> partitioned m ->
  mt_all m' = mt_all m /\ (forall p, In p (mt_matched m') <-> In p (mt_matched m) /\ ~ In p s) /\
  (forall p, In p (mt_unmatched m') <-> In p (mt_unmatched m) \/ In p s) /\
  (forall p, In p s -> In p (mt_all m)) /\ partitioned m'.
Proof.
  intros m s m' H Hp. unfold mt_removeMatch in H.
  apply bind_ok in H as [u' [H2 H3]]. inversion H3; subst; cbn.
  apply assert_ok_inv in H2. rewrite ps_eq_spec in H2. cbn in H2.
  assert (Hs : forall p, In p s -> In p (mt_all m)).
  { intros p Hin. apply H2. rewrite !ps_union_spec. tauto. }
  split; [auto|]. split; [intros; apply ps_diff_spec|]. split; [intros; apply ps_union_spec|].
  split; [auto|]. intros p. cbn. rewrite ps_union_spec, ps_diff_spec.
  destruct (Hp p) as [Ha Hd]. specialize (Hs p). destruct (ps_dec s p); tauto.
Qed.

Lemma removeMatch_total : forall m s, partitioned m -> (forall p, In p s -> In p (mt_all m)) ->
  exists m', mt_removeMatch m s = Ok m'.
Proof.
  intros m s Hp Hs. unfold mt_removeMatch. cbn [mt_matched mt_unmatched].
  match goal with |- context [ps_eq ?a ?b] => assert (E : ps_eq a b = true) end.
  { apply ps_eq_spec. intros p. rewrite !ps_union_spec, ps_diff_spec. destruct (Hp p) as [Ha _].
    specialize (Hs p). destruct (ps_dec s p); tauto. }
  rewrite E. cbn. eauto.
Qed.

Lemma removeIndices_ok : forall m s m' b, vv_removeIndices m s = Ok (m', b) -> partitioned m ->
  partitioned m' /\
  (b = false <-> forall p, In p (mt_all m) -> In p s) /\
  (forall p, In p (mt_all m') <-> In p (mt_all m) /\ (~ In p s \/ forall q, In q (mt_all m) -> In q s)) /\
  (forall p, In p (mt_matched m') <-> In p (mt_matched m) /\ (~ In p s \/ forall q, In q (mt_all m) -> In q s)).
Proof.
  intros m s m' b H Hp. unfold vv_removeIndices in H.
  destruct (ps_empty (ps_diff (mt_all m) s)) eqn:E.
  - inversion H; subst. apply ps_empty_spec in E.
    assert (Hall : forall q, In q (mt_all m') -> In q s).
    { intros q Hq. destruct (ps_dec s q); auto.
      assert (In q (ps_diff (mt_all m') s)) by (apply ps_diff_spec; auto). rewrite E in H1. destruct H1. }
    split; [auto|]. split; [tauto|]. split; intros p; tauto.
  - unfold vv_setIndices in H. rewrite E in H. cbn in H. inversion H; subst. clear H.
    assert (Hne : exists q, In q (mt_all m) /\ ~ In q s).
    { destruct (ps_diff (mt_all m) s) as [|q l] eqn:El; [discriminate|].
      exists q. apply ps_diff_spec. rewrite El. now left. }
    destruct Hne as [q [Hq Hqs]].
    split.
    + intros p. cbn. rewrite !ps_inter_spec, !ps_diff_spec. destruct (Hp p). tauto.
    + split.
      { split; [discriminate|]. intros Hall. elim Hqs. auto. }
      split; intros p; cbn.
      * rewrite ps_diff_spec. split; [tauto|]. intros [H1 [H2|H2]]; auto.
      * rewrite ps_inter_spec, ps_diff_spec. split; [tauto|].
        intros [H1 [H2|H2]]; [|elim Hqs; auto]. pose proof (proj1 (Hp p)). tauto.
Qed.
