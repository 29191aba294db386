(** Concrete systems: checks of incidences and of perfect matchings, and the
    instances of the parameters. *)
From Coq Require Import ZArith List Bool Permutation Lia.
From Verif Require Import RangeModel Result ListTac MatchModel MatchSpec MatchSetProofs MatchApplyProofs
  MatchSearchProofs MatchPathProofs MatchHKProofs MatchBuildProofs MatchLeafProofs MatchRunProofs.
Import ListNotations.
Local Open Scope nat_scope.

(** * Parameters *)

Lemma one_to_one_spec : forall m, one_to_one m = true -> one_one (fun i j => In (i, j) (ents m)).
Proof.
  induction m as [|[k [i j]] m IH]; cbn; intros H; [split; intros x y z []|].
  apply andb_true_iff in H as [H H3]. apply andb_true_iff in H as [H1 H2]. cbn in H1, H2.
  apply negb_true_iff in H1. apply negb_true_iff in H2. destruct (IH H3) as [O1 O2].
  assert (N1 : forall j', ~ In (i, j') (ents m)).
  { intros j' X. assert (Y : ps_mem (m_eqs m) i = true) by (apply ps_mem_spec, m_eqs_spec; eauto). congruence. }
  assert (N2 : forall i', ~ In (i', j) (ents m)).
  { intros i' X. assert (Y : ps_mem (m_vars m) j = true) by (apply ps_mem_spec, m_vars_spec; eauto). congruence. }
  split.
  - intros x y z [X|X] [Y|Y]; try (inversion X; subst); try (inversion Y; subst); auto; try (exfalso; eapply N1; eauto; fail).
    eauto.
  - intros x y z [X|X] [Y|Y]; try (inversion X; subst); try (inversion Y; subst); auto; try (exfalso; eapply N2; eauto; fail).
    eauto.
Qed.

Lemma solve_access_local : local_solver solve_access.
Proof.
  intros m. unfold solve_access. split.
  - intros o Ho. apply in_flat_map in Ho as (k & Hk & Ho). cbn zeta in Ho.
    set (f := filter (fun x => Nat.eqb (fst x) k) m) in *.
    assert (Hf : forall x, In x (ents f) -> In x (ents m)).
    { intros x Hx. unfold ents in *. apply in_map_iff in Hx as (y & <- & Hy). apply filter_In in Hy as [Hy _].
      now apply in_map. }
    destruct (one_to_one f) eqn:E.
    + destruct Ho as [<-|[]]. split; auto. now apply one_to_one_spec.
    + apply in_map_iff in Ho as (y & <- & Hy). split.
      * intros x [<-|[]]. apply Hf. now apply in_map.
      * split; intros a b c [X|[]] [Y|[]]; congruence.
  - intros x Hx. unfold ents in Hx. apply in_map_iff in Hx as (y & <- & Hy).
    set (f := filter (fun z => Nat.eqb (fst z) (fst y)) m).
    assert (Hyf : In y f) by (apply filter_In; split; auto; apply Nat.eqb_refl).
    assert (Hk : In (fst y) (nodup Nat.eq_dec (map fst m))) by (apply nodup_In; now apply in_map).
    destruct (one_to_one f) eqn:E.
    + exists f. split; [|now apply in_map]. apply in_flat_map. exists (fst y). split; auto.
      fold f. rewrite E. now left.
    + exists [y]. split; [|now left]. apply in_flat_map. exists (fst y). split; auto.
      fold f. rewrite E. apply in_map_iff. eauto.
Qed.

Lemma sort_paths_perm : forall l, Permutation (sort_paths l) l.
Proof.
  assert (I : forall s l, Permutation (sort_insert s l) (s :: l)).
  { induction l as [|t l IH]; cbn [sort_insert]; auto. destruct (Nat.ltb (ps_size (s_cand s)) (ps_size (s_cand t))); auto.
    eapply perm_trans; [apply perm_skip, IH|apply perm_swap]. }
  induction l as [|s l IH]; cbn; auto. eapply perm_trans; [apply I|now constructor].
Qed.
Lemma sched_seq_ok : schedule sched_seq.
Proof. split; cbn; intros; auto. apply sort_paths_perm. Qed.

(** * Checks *)

Definition eq_scalars (s : msys) : list scalar :=
  flat_map (fun q => map (pair (me_id q)) (me_ind q)) (ms_eqs s).
Definition var_scalars (s : msys) : list scalar :=
  flat_map (fun q => map (pair (mv_id q)) (mv_ind q)) (ms_vars s).
Definition scalar_eqb (x y : scalar) : bool := mid_eqb (fst x) (fst y) && pt_eqb (snd x) (snd y).
Definition incidentb (s : msys) (x y : scalar) : bool :=
  existsb (fun q => mid_eqb (me_id q) (fst x) && ps_mem (me_ind q) (snd x) &&
             existsb (fun a => mid_eqb (fst a) (fst y) && ps_mem (macc_map (snd a) (snd x)) (snd y)) (me_acc q))
    (ms_eqs s) &&
  existsb (scalar_eqb y) (var_scalars s).
Definition perfectb (s : msys) (l : list (scalar * scalar)) : bool :=
  forallb (fun p => incidentb s (fst p) (snd p)) l &&
  forallb (fun p => forallb (fun q => implb (scalar_eqb (fst p) (fst q)) (scalar_eqb (snd p) (snd q)) &&
                                      implb (scalar_eqb (snd p) (snd q)) (scalar_eqb (fst p) (fst q))) l) l &&
  forallb (fun x => existsb (fun p => scalar_eqb x (fst p)) l) (eq_scalars s) &&
  forallb (fun y => existsb (fun p => scalar_eqb y (snd p)) l) (var_scalars s).

Lemma scalar_eqb_spec : forall x y, scalar_eqb x y = true <-> x = y.
Proof.
  intros [a i] [b j]. unfold scalar_eqb. cbn. rewrite andb_true_iff, mid_eqb_spec.
  unfold pt_eqb. destruct (list_eq_dec Z.eq_dec i j); split; intros H; [|split; congruence|destruct H; discriminate|congruence].
  destruct H. congruence.
Qed.
Lemma eq_scalars_spec : forall s x, In x (eq_scalars s) <-> scalar_eq s x.
Proof.
  intros s [e i]. unfold eq_scalars, scalar_eq. rewrite in_flat_map. cbn. split.
  - intros (q & Hq & H). apply in_map_iff in H as (j & E & Hj). inversion E; subst. eauto.
  - intros (q & Hq & <- & Hi). exists q. split; auto. now apply in_map.
Qed.
Lemma var_scalars_spec : forall s x, In x (var_scalars s) <-> scalar_var s x.
Proof.
  intros s [e i]. unfold var_scalars, scalar_var. rewrite in_flat_map. cbn. split.
  - intros (q & Hq & H). apply in_map_iff in H as (j & E & Hj). inversion E; subst. eauto.
  - intros (q & Hq & <- & Hi). exists q. split; auto. now apply in_map.
Qed.
Lemma incidentb_spec : forall s x y, incidentb s x y = true <-> incident s x y.
Proof.
  intros s x y. unfold incidentb, incident. rewrite andb_true_iff, !existsb_exists. split.
  - intros [(q & Hq & H) (y' & Hy & Ey)]. apply scalar_eqb_spec in Ey. subst y'. split; [|now apply var_scalars_spec].
    apply andb_true_iff in H as [H H3]. apply andb_true_iff in H as [H1 H2]. apply mid_eqb_spec in H1.
    apply ps_mem_spec in H2. apply existsb_exists in H3 as ([v a] & Ha & H3). apply andb_true_iff in H3 as [H3 H4].
    apply mid_eqb_spec in H3. apply ps_mem_spec in H4. cbn in H3, H4. subst v. exists q, a. auto.
  - intros [(q & a & Hq & E & Hi & Ha & Hm) Hv]. split.
    + exists q. split; auto. rewrite !andb_true_iff. split; [split; [now apply mid_eqb_spec|now apply ps_mem_spec]|].
      apply existsb_exists. exists (fst y, a). split; auto. rewrite andb_true_iff. cbn. split; [now apply mid_eqb_spec|].
      now apply ps_mem_spec.
    + exists y. split; [now apply var_scalars_spec|now apply scalar_eqb_spec].
Qed.
Lemma perfectb_spec : forall s l, perfectb s l = true -> perfect s (fun x y => In (x, y) l).
Proof.
  intros s l H. unfold perfectb in H. apply andb_true_iff in H as [H H4]. apply andb_true_iff in H as [H H3].
  apply andb_true_iff in H as [H1 H2]. rewrite forallb_forall in H1, H2, H3, H4.
  assert (O : forall p q, In p l -> In q l -> (fst p = fst q <-> snd p = snd q)).
  { intros p q Hp Hq. specialize (H2 p Hp). rewrite forallb_forall in H2. specialize (H2 q Hq).
    apply andb_true_iff in H2 as [A B]. split; intros E.
    - apply scalar_eqb_spec. apply scalar_eqb_spec in E. now rewrite E in A.
    - apply scalar_eqb_spec. apply scalar_eqb_spec in E. now rewrite E in B. }
  constructor.
  - intros x y H. apply incidentb_spec. exact (H1 _ H).
  - split.
    + intros x y y' A B. exact (proj1 (O _ _ A B) eq_refl).
    + intros x x' y A B. exact (proj2 (O _ _ A B) eq_refl).
  - intros x Hx. apply eq_scalars_spec, H3, existsb_exists in Hx as ([x' y] & Hp & E). apply scalar_eqb_spec in E.
    cbn in E. subst. eauto.
  - intros x Hx. apply var_scalars_spec, H4, existsb_exists in Hx as ([y x'] & Hp & E). apply scalar_eqb_spec in E.
    cbn in E. subst. eauto.
Qed.
(** Two variables that are in the same equation only. *)
Lemma starved : forall s x y y', y <> y' -> scalar_var s y -> scalar_var s y' ->
  forallb (fun z => implb (incidentb s z y || incidentb s z y') (scalar_eqb z x)) (eq_scalars s) = true ->
  ~ solvable s.
Proof.
  intros s x y y' Hne Hy Hy' H [P HP]. rewrite forallb_forall in H.
  destruct (pf_vars _ _ HP y Hy) as [z Hz]. destruct (pf_vars _ _ HP y' Hy') as [z' Hz'].
  assert (X : forall w t, P w t -> t = y \/ t = y' -> w = x).
  { intros w t Hw Ht. pose proof (pf_incident _ _ HP _ _ Hw) as Hi.
    assert (Hs : In w (eq_scalars s)) by (apply eq_scalars_spec; now apply (incident_eq _ _ _ Hi)).
    specialize (H w Hs). apply incidentb_spec in Hi. apply scalar_eqb_spec.
    destruct Ht; subst t; rewrite Hi in H; [exact H|]. now rewrite orb_true_r in H. }
  assert (z = x) by eauto. assert (z' = x) by eauto. subst. apply Hne. eapply (proj1 (pf_one _ _ HP)); eauto.
Qed.

(** * Histories *)

Lemma ops_all_ext : forall h A B, (forall p, A p <-> B p) -> forall p, ops_all h A p <-> ops_all h B p.
Proof.
  induction h as [|o h IH]; intros A B H p; cbn; [auto|]. apply IH. intros q. destruct o; cbn; auto.
  rewrite H. split; intros [H1 H2]; split; auto; destruct H2 as [H2|H2]; auto; right; intros r Hr; apply H2, H; auto.
Qed.
Lemma ops_matched_ext : forall h A B M N, (forall p, A p <-> B p) -> (forall p, M p <-> N p) ->
  forall p, ops_matched h A M p <-> ops_matched h B N p.
Proof.
  induction h as [|o h IH]; intros A B M N H H' p; cbn; [auto|]. apply IH.
  - intros q. destruct o; cbn; auto.
    rewrite H. split; intros [H1 H2]; split; auto; destruct H2 as [H2|H2]; auto; right; intros r Hr; apply H2, H; auto.
  - intros q. destruct o; cbn; rewrite ?H'; try tauto.
    split; intros [H1 H2]; split; auto; destruct H2 as [H2|H2]; auto; right; intros r Hr; apply H2, H; auto.
Qed.

Lemma history_run : forall h m m' A M, mt_run m h = Ok m' -> partitioned m ->
  (forall p, In p (mt_all m) <-> A p) -> (forall p, In p (mt_matched m) <-> M p) ->
  partitioned m' /\ (forall p, In p (mt_all m') <-> ops_all h A p) /\
  (forall p, In p (mt_matched m') <-> ops_matched h A M p).
Proof.
  induction h as [|o h IH]; intros m m' A M E Hp HA HM; unfold mt_run in E; cbn [fold_res] in E.
  - inversion E; subst. auto.
  - apply bind_ok in E as [m1 [E1 E]]. cbn [ops_all ops_matched].
    destruct o as [s|s|s|s]; cbn [mt_step] in E1.
    + destruct (setMatch_ok _ _ _ E1) as (H1 & H2 & H3 & H4). eapply IH; eauto; cbn.
      * intros p. now rewrite H1.
      * intros p. now rewrite H2.
    + destruct (addMatch_ok _ _ _ E1 Hp) as (H1 & H2 & _ & H3 & H4). eapply IH; eauto; cbn.
      * intros p. now rewrite H1.
      * intros p. now rewrite H2, HM.
    + destruct (removeMatch_ok _ _ _ E1 Hp) as (H1 & H2 & _ & H3 & H4). eapply IH; eauto; cbn.
      * intros p. now rewrite H1.
      * intros p. now rewrite H2, HM.
    + apply bind_ok in E1 as [[m2 b] [E1 E2]]. inversion E2; subst m2.
      destruct (removeIndices_ok _ _ _ _ E1 Hp) as (H1 & _ & H2 & H3). eapply IH; eauto; cbn.
      * intros p. rewrite H2, HA. split; intros [X Y]; split; auto; (destruct Y as [Y|Y]; [now left|right]);
          intros q Hq; apply Y, HA, Hq.
      * intros p. rewrite H3, HM. split; intros [X Y]; split; auto; (destruct Y as [Y|Y]; [now left|right]);
          intros q Hq; apply Y, HA, Hq.
Qed.
Lemma history_new : forall s h m, mt_run (mt_new s) h = Ok m ->
  partitioned m /\ (forall p, In p (mt_all m) <-> ops_all h (fun p => In p s) p) /\
  (forall p, In p (mt_matched m) <-> ops_matched h (fun p => In p s) (fun _ => False) p).
Proof.
  intros s h m E. eapply history_run; eauto; cbn; try tauto. apply new_partitioned.
Qed.
Lemma setMatch_total : forall m s, (forall p, In p s -> In p (mt_all m)) -> exists m', mt_setMatch m s = Ok m'.
Proof.
  intros m s Hs. unfold mt_setMatch.
  rewrite (proj2 (ps_contains_spec _ _) Hs). cbn [assert_ok bind mt_matched mt_unmatched].
  match goal with |- context [ps_eq ?a ?b] => assert (E : ps_eq a b = true) end.
  { apply ps_eq_spec. intros p. rewrite ps_union_spec, ps_diff_spec. specialize (Hs p).
    destruct (ps_dec s p); tauto. }
  rewrite E. cbn. eauto.
Qed.
Lemma history_total : forall s h,
  (forall o, In o h -> match o with OpSet t | OpAdd t | OpRemove t => incl t s | OpShrink _ => False end) ->
  exists m, mt_run (mt_new s) h = Ok m.
Proof.
  intros s h H.
  assert (X : forall m, partitioned m -> mt_all m = s -> exists m', mt_run m h = Ok m').
  { induction h as [|o h IH]; intros m Hp Ha; [unfold mt_run; cbn; eauto|]. unfold mt_run. cbn [fold_res].
    assert (X : exists m1, mt_step m o = Ok m1 /\ partitioned m1 /\ mt_all m1 = s).
    { specialize (H o (or_introl eq_refl)). destruct o as [t|t|t|t]; cbn [mt_step]; [| | |destruct H].
      - destruct (setMatch_total m t) as [m1 E]; [intros p; rewrite Ha; apply H|].
        exists m1. destruct (setMatch_ok _ _ _ E) as (? & ? & ? & ?). split; auto. split; auto. congruence.
      - destruct (addMatch_total m t Hp) as [m1 E]; [intros p; rewrite Ha; apply H|].
        exists m1. destruct (addMatch_ok _ _ _ E Hp) as (? & ? & ? & ? & ?). split; auto. split; auto. congruence.
      - destruct (removeMatch_total m t Hp) as [m1 E]; [intros p; rewrite Ha; apply H|].
        exists m1. destruct (removeMatch_ok _ _ _ E Hp) as (? & ? & ? & ? & ?). split; auto. split; auto. congruence. }
    destruct X as (m1 & E & P1 & A1). rewrite E. cbn [bind]. apply IH; auto. intros o' Ho. apply H. now right. }
  apply X; [apply new_partitioned|reflexivity].
Qed.
Lemma edge_history : forall h d, e_partitioned d -> ed_legal d h -> e_partitioned (fold_left ed_step h d).
Proof.
  induction h as [|o h IH]; intros d H L; cbn [fold_left]; auto. destruct L as [L1 L2]. apply IH; auto.
  assert (F : forall m : mmat, map snd m = ents m) by reflexivity.
  intros x. destruct (H x) as [A B]. rewrite !F in *.
  destruct o as [es vs k a|m|m]; cbn [ed_step ed_addAccess ed_addMatch ed_removeMatch ed_inc ed_match ed_unm];
    cbn zeta; rewrite ?F, ?m_diff_spec, ?m_union_spec.
  - destruct (ents_dec (ed_match d) x); tauto.
  - specialize (L1 x). rewrite !F in L1. destruct (ents_dec m x); tauto.
  - specialize (L1 x). rewrite !F in L1. destruct (ents_dec m x); tauto.
Qed.

(** * Shapes used by the properties *)

Lemma source_unmasked : forall s, source s -> unmasked s.
Proof.
  intros s [A B]. split.
  - intros w Hw. now apply A.
  - intros q Hq. destruct (B q Hq) as (? & ? & ?). auto.
Qed.
Lemma iteration_applies : forall solve, local_solver solve -> forall sc, schedule sc -> forall g fuel it R,
  valid g -> scalar_vars g -> augmenting_paths solve fuel sc it g = Ok R ->
  exists g', fold_res apply_path R g = Ok g' /\ valid g' /\ same_graph g g'.
Proof.
  intros solve Hs sc Hsc g fuel it R V SV E.
  destruct (iteration solve Hs sc Hsc g fuel it R V E) as [[-> _]|(_ & Ha & Hap)].
  - exists g. split; [reflexivity|]. split; auto. apply same_graph_refl.
  - destruct (apply_all R g V Ha (Hap SV)) as (g' & E' & V' & S' & _). eauto.
Qed.
Lemma leaf_solvable : forall solve, local_solver solve -> forall ord, (forall l, Permutation (ord l) l) ->
  forall s, system s -> solvable s ->
  exists g N g1, m_build s = Ok g /\ (forall fuel, N <= fuel -> leaf_run solve fuel ord g = Ok g1) /\
    valid g1 /\ (forall P, perfect s P -> forall x y, g_pairs g1 x y -> P x y) /\
    solvable (sys_unmatched s g1) /\
    (forall Q, perfect (sys_unmatched s g1) Q -> perfect s (fun x y => g_pairs g1 x y \/ Q x y)).
Proof.
  intros solve Hs ord Ho s Sy [P HP]. destruct (build_total s Sy) as [g Eg]. pose proof (build_built _ _ Eg) as B.
  pose proof (built_leaf _ _ B) as L0.
  set (N := length (g_nodes g) + length (g_edges g) * S (length (g_edges g))).
  destruct (leaf_run_total solve Hs N ord g Ho L0) as [g1 E1].
  { exists P. now apply (built_perfect _ _ B). }
  { unfold N. lia. }
  pose proof (leaf_run_spec solve Hs N ord g g1 Ho L0 E1) as L.
  exists g, N, g1. split; auto. split; [|split; [apply L|split; [|split]]].
  - intros fuel Hf. unfold leaf_run in *. replace fuel with (N + (fuel - N)) by lia. now apply leaf_loop_mono.
  - intros P' HP'. apply (li_forced _ _ L). now apply (built_perfect _ _ B).
  - eexists. exact (rest_restrict s g g1 B L P HP).
  - intros Q HQ. exact (rest_extend s g g1 B L Q HQ).
Qed.
