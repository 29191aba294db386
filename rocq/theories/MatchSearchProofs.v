(** The breadth-first search of augmenting paths. *)
From Coq Require Import ZArith List Bool Permutation Lia.
From Verif Require Import RangeModel Result MatchModel MatchSpec MatchSetProofs MatchApplyProofs.
Import ListNotations.
Local Open Scope nat_scope.

(** * Alternating walks of scalars *)

(** One step of a walk. *)
Inductive astep (g : mgraph) : node -> point -> node -> point -> Prop :=
| as_fwd : forall e i v j, g_free g (e, i) (v, j) -> astep g (NE e) i (NV v) j
| as_bwd : forall e i v j, g_pairs g (e, i) (v, j) -> astep g (NV v) j (NE e) i.
(** The scalars reached in [k] steps from an unmatched scalar equation. *)
Inductive swalk (g : mgraph) : nat -> node -> point -> Prop :=
| sw_0 : forall e i, In (NE e) (g_nodes g) -> In i (mt_unmatched (g_vx g (NE e))) -> swalk g 0 (NE e) i
| sw_S : forall k n p m q, swalk g k n p -> astep g n p m q -> swalk g (S k) m q.
(** The scalars from which [k] steps reach an unmatched scalar variable. *)
Inductive stail (g : mgraph) : nat -> node -> point -> Prop :=
| st_0 : forall v j, In j (mt_unmatched (g_vx g (NV v))) -> stail g 0 (NV v) j
| st_S : forall k n p m q, astep g n p m q -> stail g k m q -> stail g (S k) n p.
(** No walk of [k] steps reaches an unmatched scalar variable. *)
Definition no_end (g : mgraph) (k : nat) : Prop :=
  forall v j, swalk g k (NV v) j -> In j (mt_unmatched (g_vx g (NV v))) -> False.

Lemma walk_join : forall g b n p, stail g b n p -> forall a, swalk g a n p ->
  exists v j, swalk g (a + b) (NV v) j /\ In j (mt_unmatched (g_vx g (NV v))).
Proof.
  induction 1 as [v j Hu|k n p m q Hs Ht IH]; intros a Hw.
  - exists v, j. now rewrite Nat.add_0_r.
  - replace (a + S k) with (S a + k) by lia. apply IH. econstructor; eauto.
Qed.

Lemma apath_astep : forall g k n T fl, apath g k n T fl ->
  forall p, In p T -> stail g k n p.
Proof.
  induction 1 as [v T Hn Hne Hu|k e v T d fl He Hsub H1 HT Hp IH|k e v T d fl He Hsub H1 HT Hp IH];
    intros p HpT.
  - constructor; auto.
  - apply HT, m_eqs_spec in HpT as [j Hj]. apply st_S with (NV v) j.
    + constructor. split; auto.
    + apply IH. apply m_vars_spec. eauto.
  - apply HT, m_vars_spec in HpT as [i Hi]. apply st_S with (NE e) i.
    + constructor. split; auto.
    + apply IH. apply m_eqs_spec. eauto.
Qed.

Lemma trest_tail : forall g k n T fl, apath g k n T fl ->
  forall m T' p, In (m, T') (trest fl) -> In p T' -> exists b, b < k /\ stail g b m p.
Proof.
  induction 1 as [v T Hn Hne Hu|k e v T d fl He Hsub H1 HT Hp IH|k e v T d fl He Hsub H1 HT Hp IH];
    intros m T' p Hm HpT.
  - destruct Hm.
  - cbn [trest snd] in Hm. rewrite touched_cons in Hm. destruct Hm as [E|Hm].
    + inversion E; subst. exists k. split; [lia|]. eapply apath_astep; eauto.
    + destruct (IH m T' p Hm HpT) as [b [Hb Hs]]. exists b. split; [lia|auto].
  - cbn [trest fst] in Hm. rewrite touched_cons in Hm. destruct Hm as [E|Hm].
    + inversion E; subst. exists k. split; [lia|]. eapply apath_astep; eauto.
    + destruct (IH m T' p Hm HpT) as [b [Hb Hs]]. exists b. split; [lia|auto].
Qed.

(** A path no longer than the shortest walks passes through nothing twice. *)
Lemma path_short : forall g l n T fl, apath g l n T fl ->
  forall a, (forall p, In p T -> swalk g a n p) -> (forall k, k < a + l -> no_end g k) ->
  scalars_once (touched n T fl).
Proof.
  induction 1 as [v T Hn Hne Hu|k e v T d fl He Hsub H1 HT Hp IH|k e v T d fl He Hsub H1 HT Hp IH];
    intros a Hw Hno.
  - cbn. tauto.
  - assert (A : apath g (S k) (NE e) T ((NE e, ((e, v), d)) :: fl)) by (constructor; auto).
    rewrite touched_cons. split.
    + intros T' p Hin HpT HpT'. destruct (trest_tail _ _ _ _ _ A _ _ _ Hin HpT') as [b [Hb Ht]].
      destruct (walk_join _ _ _ _ Ht a (Hw p HpT)) as [v' [j' [W U]]].
      apply (Hno (a + b)) with v' j'; auto. lia.
    + cbn [trest snd]. apply (IH (S a)).
      * intros p HpT. apply m_vars_spec in HpT as [i Hi]. apply sw_S with (NE e) i.
        -- apply Hw. apply HT. apply m_eqs_spec. eauto.
        -- constructor. split; auto.
      * intros k' Hk'. apply Hno. lia.
  - assert (A : apath g (S k) (NV v) T ((NV v, ((e, v), d)) :: fl)) by (constructor; auto).
    rewrite touched_cons. split.
    + intros T' p Hin HpT HpT'. destruct (trest_tail _ _ _ _ _ A _ _ _ Hin HpT') as [b [Hb Ht]].
      destruct (walk_join _ _ _ _ Ht a (Hw p HpT)) as [v' [j' [W U]]].
      apply (Hno (a + b)) with v' j'; auto. lia.
    + cbn [trest fst]. apply (IH (S a)).
      * intros p HpT. apply m_eqs_spec in HpT as [j Hj]. apply sw_S with (NV v) j.
        -- apply Hw. apply HT. apply m_vars_spec. eauto.
        -- constructor. split; auto.
      * intros k' Hk'. apply Hno. lia.
Qed.

Lemma apath_ext : forall g k n T fl, apath g k n T fl ->
  forall T', (forall p, In p T <-> In p T') -> apath g k n T' fl.
Proof.
  destruct 1 as [v T Hn Hne Hu|k e v T d fl He Hsub H1 HT Hp|k e v T d fl He Hsub H1 HT Hp]; intros T' E.
  - constructor; auto.
    + apply list_ne. apply list_ne in Hne as [p Hp]. exists p. now apply E.
    + intros j Hj. apply Hu, E, Hj.
  - constructor; auto. intros i. now rewrite <- E.
  - constructor; auto. intros i. now rewrite <- E.
Qed.

(** * Steps of the search *)

Inductive bwf (g : mgraph) : nat -> bstep -> Prop :=
| bw_start : forall e, In (NE e) (g_nodes g) ->
    bwf g 0 (SStart (NE e) (mt_unmatched (g_vx g (NE e))))
| bw_fwd : forall k p e v sol, bwf g k p -> s_node p = NE e -> In (e, v) (g_edges g) ->
    (forall i j, In (i, j) (ents sol) -> In (i, j) (ents (ed_unm (g_ed g (e, v)))) /\ In i (s_cand p)) ->
    one_one (fun i j => In (i, j) (ents sol)) ->
    (forall j, In j (m_vars sol) -> ~ In j (mt_unmatched (g_vx g (NV v)))) ->
    bwf g (S k) (SNext p (e, v) (NV v) (m_vars sol) sol)
| bw_bwd : forall k p e v sol, bwf g k p -> s_node p = NV v -> In (e, v) (g_edges g) ->
    (forall i j, In (i, j) (ents sol) -> In (i, j) (ents (ed_match (g_ed g (e, v)))) /\ In j (s_cand p)) ->
    one_one (fun i j => In (i, j) (ents sol)) ->
    bwf g (S k) (SNext p (e, v) (NE e) (m_eqs sol) sol).

(** The end of a candidate path, after a step of depth [k]. *)
Inductive bend (g : mgraph) : nat -> bstep -> Prop :=
| be_end : forall k p e v cand flow, bwf g k p -> s_node p = NE e -> In (e, v) (g_edges g) ->
    (forall i j, In (i, j) (ents flow) -> In (i, j) (ents (ed_unm (g_ed g (e, v)))) /\ In i (s_cand p)) ->
    one_one (fun i j => In (i, j) (ents flow)) -> flow <> [] ->
    (forall j, In j (m_vars flow) -> In j (mt_unmatched (g_vx g (NV v)))) ->
    bend g k (SNext p (e, v) (NV v) cand flow).

Inductive anc : bstep -> bstep -> Prop :=
| an_refl : forall s, anc s s
| an_next : forall t p e n c f, anc t p -> anc t (SNext p e n c f).

Lemma s_contains_anc : forall s n c, s_contains s n c = true ->
  exists t, anc t s /\ s_node t = n /\ forall p, In p (s_cand t) <-> In p c.
Proof.
  induction s as [m d|p IH e m d f]; intros n c H; cbn in H; apply orb_true_iff in H as [H|H].
  - apply andb_true_iff in H as [H1 H2]. apply node_eqb_spec in H1. cbn in H1, H2.
    exists (SStart m d). split; [constructor|]. split; auto. cbn. now apply ps_eq_spec.
  - discriminate.
  - apply andb_true_iff in H as [H1 H2]. apply node_eqb_spec in H1. cbn in H1, H2.
    exists (SNext p e m d f). split; [constructor|]. split; auto. cbn. now apply ps_eq_spec.
  - destruct (IH n c H) as [t [H1 H2]]. exists t. split; auto. now constructor.
Qed.

(** * The levels of the search *)

Definition covered (H : list bstep) (n : node) (p : point) : Prop :=
  exists t, In t H /\ s_node t = n /\ In p (s_cand t).

Lemma covered_app_l : forall H F n p, covered H n p -> covered (H ++ F) n p.
Proof. intros H F n p [t [A B]]. exists t. split; auto. apply in_or_app. auto. Qed.

Record inv (g : mgraph) (level : nat) (H F : list bstep) : Prop := {
  i_wf : forall t, In t H -> exists k, bwf g k t;
  i_wfF : forall t, In t F -> bwf g level t;
  i_anc : forall t t', In t (H ++ F) -> anc t' t -> In t' (H ++ F);
  i_close : forall n p m q, covered H n p -> astep g n p m q -> covered (H ++ F) m q;
  i_start : forall e i, In (NE e) (g_nodes g) -> In i (mt_unmatched (g_vx g (NE e))) ->
    covered (H ++ F) (NE e) i;
  i_walk : forall k n p, k <= level -> swalk g k n p -> covered (H ++ F) n p }.

Lemma bwf_var : forall g k t, bwf g k t -> forall v, s_node t = NV v ->
  forall j, In j (s_cand t) -> ~ In j (mt_unmatched (g_vx g (NV v))).
Proof.
  destruct 1 as [e He|k p e v sol Hw Hn He Hs H1 Hu|k p e v sol Hw Hn He Hs H1]; intros w E j Hj; cbn in *;
    try discriminate. inversion E; subst. auto.
Qed.

Lemma inv_no_end : forall g level H F, inv g level H F -> forall k, k <= level -> no_end g k.
Proof.
  intros g level H F I k Hk v j Hw Hu.
  destruct (i_walk _ _ _ _ I k _ _ Hk Hw) as [t [Hin [Hn Hc]]].
  apply in_app_iff in Hin as [Hin|Hin].
  - destruct (i_wf _ _ _ _ I t Hin) as [k' Hb]. eapply bwf_var; eauto.
  - pose proof (i_wfF _ _ _ _ I t Hin) as Hb. eapply bwf_var; eauto.
Qed.

Section Search.
  Variable solve : mmat -> list mmat.
  Hypothesis Hsolve : local_solver solve.

  Lemma g_out_spec : forall g n e, In e (g_out g n) <->
    In e (g_edges g) /\ match n with NV v => v = snd e | NE x => x = fst e end.
  Proof.
    intros. unfold g_out. rewrite filter_In. destruct n; cbn; now rewrite mid_eqb_spec.
  Qed.

  (** What one expansion gives. *)
  Lemma expand_wf : forall g k s r, bwf g k s -> In r (expand solve g s) ->
    (forall t, In t (fst r) -> bwf g (S k) t /\ exists e n c f, t = SNext s e n c f /\ s_contains s n c = false) /\
    (forall t, In t (snd r) -> bend g k t).
  Proof.
    intros g k s r Hw Hr. unfold expand in Hr. apply in_flat_map in Hr as [[e v] [He Hr]].
    apply g_out_spec in He as [He Hn]. unfold expand_edge in Hr. apply in_map_iff in Hr as [sol [<- Hsol]].
    unfold expand_solution. destruct (s_node s) as [v'|e'] eqn:En; cbn [fst snd] in *; subst.
    - destruct (Hsolve (m_filterVars (ed_match (g_ed g (e, v))) (s_cand s))) as [Ho _].
      destruct (Ho sol Hsol) as [Hin H1].
      destruct (s_contains s (NE e) (m_eqs sol)) eqn:Ec; cbn [fst snd]; (split; [|intros t []]).
      + intros t [].
      + intros t [<-|[]]. split; [|eauto 8]. constructor; auto. intros i j Hij. apply Hin in Hij.
        now apply m_filterVars_spec in Hij.
    - destruct (Hsolve (m_filterEqs (ed_unm (g_ed g (e, v))) (s_cand s))) as [Ho _].
      destruct (Ho sol Hsol) as [Hin H1].
      assert (Hs : forall i j, In (i, j) (ents sol) -> In (i, j) (ents (ed_unm (g_ed g (e, v)))) /\ In i (s_cand s)).
      { intros i j Hij. apply Hin in Hij. now apply m_filterEqs_spec in Hij. }
      destruct (s_contains s (NV v) (m_vars sol)) eqn:Ec; [split; intros t []|].
      destruct (m_empty (m_filterVars sol (mt_unmatched (g_vx g (NV v))))) eqn:Em; cbn [negb fst snd].
      + split; [|intros t []]. intros t [<-|[]]. split; [|eauto 8]. constructor; auto.
        intros j Hj Hu. apply m_vars_spec in Hj as [i Hij]. apply m_empty_spec in Em.
        assert (X : In (i, j) (ents (m_filterVars sol (mt_unmatched (g_vx g (NV v))))))
          by (apply m_filterVars_spec; auto).
        rewrite Em in X. destruct X.
      + split; [intros t []|]. intros t [<-|[]]. constructor; auto.
        * intros i j Hij. apply m_filterVars_spec in Hij as [Hij _]. auto.
        * destruct H1 as [Ha Hb]. split; intros x y y' P Q; apply m_filterVars_spec in P as [P _];
            apply m_filterVars_spec in Q as [Q _]; eauto.
        * intros E. apply m_empty_spec in E. congruence.
        * intros j Hj. apply m_vars_spec in Hj as [i Hij]. now apply m_filterVars_spec in Hij.
  Qed.

  Lemma expand_cover : forall g k s, bwf g k s ->
    flat_map snd (expand solve g s) = [] ->
    forall p m q, In p (s_cand s) -> astep g (s_node s) p m q ->
    (exists t, anc t s /\ s_node t = m /\ In q (s_cand t)) \/
    (exists t, In t (flat_map fst (expand solve g s)) /\ s_node t = m /\ In q (s_cand t)).
  Proof.
    intros g k s Hw Hno p m q Hp Hst.
    inversion Hst as [e i v j Hf E1 E2 E3 E4|e i v j Hf E1 E2 E3 E4]; subst; destruct Hf as [He Hin]; cbn [fst snd] in *.
    - destruct (Hsolve (m_filterEqs (ed_unm (g_ed g (e, v))) (s_cand s))) as [_ Hc].
      destruct (Hc (p, q)) as [o [Ho Hpo]]. { apply m_filterEqs_spec. auto. }
      assert (Hin' : In (expand_solution g s (e, v) o) (expand solve g s)).
      { unfold expand. apply in_flat_map. exists (e, v). split; [apply g_out_spec; rewrite <- E1; auto|].
        unfold expand_edge. apply in_map. now rewrite <- E1. }
      assert (Hq : In q (m_vars o)) by (apply m_vars_spec; eauto).
      unfold expand_solution in Hin'. rewrite <- E1 in Hin'. cbn [snd] in Hin'.
      destruct (s_contains s (NV v) (m_vars o)) eqn:Ec.
      + left. apply s_contains_anc in Ec as [t [A [B C]]]. exists t. split; auto. split; auto. now apply C.
      + destruct (m_empty (m_filterVars o (mt_unmatched (g_vx g (NV v))))); cbn [negb] in Hin'.
        * right. exists (SNext s (e, v) (NV v) (m_vars o) o). split; [|auto].
          apply in_flat_map. eexists. split; [exact Hin'|]. cbn. auto.
        * exfalso.
          assert (X : In (SNext s (e, v) (NV v) (m_vars o) (m_filterVars o (mt_unmatched (g_vx g (NV v)))))
                    (flat_map snd (expand solve g s))).
          { apply in_flat_map. eexists. split; [exact Hin'|]. cbn. auto. }
          rewrite Hno in X. destruct X.
    - destruct (Hsolve (m_filterVars (ed_match (g_ed g (e, v))) (s_cand s))) as [_ Hc].
      destruct (Hc (q, p)) as [o [Ho Hpo]]. { apply m_filterVars_spec. auto. }
      assert (Hin' : In (expand_solution g s (e, v) o) (expand solve g s)).
      { unfold expand. apply in_flat_map. exists (e, v). split; [apply g_out_spec; rewrite <- E1; auto|].
        unfold expand_edge. apply in_map. now rewrite <- E1. }
      assert (Hq : In q (m_eqs o)) by (apply m_eqs_spec; eauto).
      unfold expand_solution in Hin'. rewrite <- E1 in Hin'. cbn [fst] in Hin'.
      destruct (s_contains s (NE e) (m_eqs o)) eqn:Ec.
      + left. apply s_contains_anc in Ec as [t [A [B C]]]. exists t. split; auto. split; auto. now apply C.
      + right. exists (SNext s (e, v) (NE e) (m_eqs o) o). split; [|auto].
        apply in_flat_map. eexists. split; [exact Hin'|]. cbn. auto.
  Qed.

  Lemma inv_step : forall g level H F F', inv g level H F ->
    (forall t, In t F' <-> In t F) ->
    flat_map snd (flat_map (expand solve g) F') = [] ->
    inv g (S level) (H ++ F) (flat_map fst (flat_map (expand solve g) F')).
  Proof.
    intros g level H F F' I HF Hno.
    assert (Hno' : forall s, In s F -> flat_map snd (expand solve g s) = []).
    { intros s Hs. destruct (flat_map snd (expand solve g s)) as [|t l] eqn:E; auto. exfalso.
      assert (X : In t (flat_map snd (expand solve g s))) by (rewrite E; now left).
      apply in_flat_map in X as [r [X1 X2]].
      assert (Y : In t (flat_map snd (flat_map (expand solve g) F'))).
      { apply in_flat_map. exists r. split; auto. apply in_flat_map. exists s. split; auto. now apply HF. }
      rewrite Hno in Y. destruct Y. }
    assert (Hnew : forall t, In t (flat_map fst (flat_map (expand solve g) F')) <->
              exists s, In s F /\ In t (flat_map fst (expand solve g s))).
    { intros t. rewrite in_flat_map. split.
      - intros [r [X1 X2]]. apply in_flat_map in X1 as [s [X3 X4]]. exists s. split; [now apply HF|].
        apply in_flat_map. eauto.
      - intros [s [X1 X2]]. apply in_flat_map in X2 as [r [X3 X4]]. exists r. split; auto.
        apply in_flat_map. exists s. split; auto. now apply HF. }
    assert (Hcl : forall n p m q, covered (H ++ F) n p -> astep g n p m q ->
              covered ((H ++ F) ++ flat_map fst (flat_map (expand solve g) F')) m q).
    { intros n p m q [t [Ht [<- Hp]]] Hst. apply in_app_iff in Ht as [Ht|Ht].
      - apply covered_app_l. eapply (i_close _ _ _ _ I); eauto. exists t. auto.
      - destruct (expand_cover g level t (i_wfF _ _ _ _ I t Ht) (Hno' t Ht) p m q Hp Hst)
          as [[t' [A [B C]]]|[t' [A [B C]]]].
        + apply covered_app_l. exists t'. split; auto. eapply (i_anc _ _ _ _ I); eauto.
          apply in_or_app. auto.
        + exists t'. split; auto. apply in_or_app. right. apply Hnew. eauto. }
    constructor.
    - intros t Ht. apply in_app_iff in Ht as [Ht|Ht]; [now apply (i_wf _ _ _ _ I)|].
      exists level. now apply (i_wfF _ _ _ _ I).
    - intros t Ht. apply Hnew in Ht as [s [Hs Ht]]. apply in_flat_map in Ht as [r [Hr Ht]].
      eapply expand_wf; eauto. now apply (i_wfF _ _ _ _ I).
    - intros t t' Ht Ha. apply in_app_iff in Ht as [Ht|Ht].
      + apply in_or_app. left. eapply (i_anc _ _ _ _ I); eauto.
      + inversion Ha; subst.
        * apply in_or_app. now right.
        * apply Hnew in Ht as [s [Hs Ht]]. apply in_flat_map in Ht as [r [Hr Ht]].
          destruct (expand_wf g level s r (i_wfF _ _ _ _ I s Hs) Hr) as [X _].
          destruct (X _ Ht) as [_ [e' [n' [c' [f' [E _]]]]]]. inversion E; subst.
          apply in_or_app. left. eapply (i_anc _ _ _ _ I); [|eassumption]. apply in_or_app. auto.
    - auto.
    - intros e i He Hi. apply covered_app_l. eapply (i_start _ _ _ _ I); eauto.
    - intros k n p Hk Hw. destruct (Nat.eq_dec k (S level)) as [->|Hne].
      + inversion Hw as [|? n0 p0 ? ? Hw0 Hs0]; subst. eapply Hcl; eauto.
        eapply (i_walk _ _ _ _ I); eauto.
      + apply covered_app_l. apply (i_walk _ _ _ _ I k); auto. lia.
  Qed.

  Lemma initial_spec : forall g t, In t (initial_frontier g) <->
    exists e, In (NE e) (g_nodes g) /\ mt_unmatched (g_vx g (NE e)) <> [] /\
              t = SStart (NE e) (mt_unmatched (g_vx g (NE e))).
  Proof.
    intros. unfold initial_frontier. rewrite in_flat_map. split.
    - intros [[v|e] [H1 H2]]; [destruct H2|]. destruct (mt_unmatched (g_vx g (NE e))) eqn:E; cbn in H2; [tauto|].
      destruct H2 as [<-|[]]. exists e. rewrite E. split; auto. split; auto. discriminate.
    - intros [e [H1 [H2 ->]]]. exists (NE e). split; auto.
      destruct (mt_unmatched (g_vx g (NE e))); cbn; [congruence|auto].
  Qed.

  Lemma inv_init : forall g, inv g 0 [] (initial_frontier g).
  Proof.
    intros g. assert (St : forall e i, In (NE e) (g_nodes g) -> In i (mt_unmatched (g_vx g (NE e))) ->
      covered ([] ++ initial_frontier g) (NE e) i).
    { intros e i He Hi. exists (SStart (NE e) (mt_unmatched (g_vx g (NE e)))). split; auto.
      apply initial_spec. exists e. split; auto. split; auto. intros E. rewrite E in Hi. destruct Hi. }
    constructor; auto.
    - intros t [].
    - intros t Ht. apply initial_spec in Ht as [e [H1 [H2 ->]]]. now constructor.
    - intros t t' Ht Ha. cbn [app] in *. apply initial_spec in Ht as [e [H1 [H2 ->]]].
      inversion Ha; subst. apply initial_spec. eauto.
    - intros n p m q [t [[] _]].
    - intros k n p Hk Hw. destruct Hw as [e i He Hi|]; [auto|lia].
  Qed.

  (** The search either reaches all that can be reached and finds nothing, or
      finds paths than which no augmenting walk is shorter. *)
  Lemma bfs_spec : forall g ord, (forall lv w l, Permutation (ord lv w l) l) ->
    forall fuel level H F r, inv g level H F ->
    bfs solve fuel ord level g F = Ok r ->
    (r = [] /\ exists H' level', inv g level' H' []) \/
    (r <> [] /\ exists L, (forall k, k <= L -> no_end g k) /\ forall s, In s r -> bend g L s).
  Proof.
    intros g ord Hord. induction fuel as [|fuel IH]; intros level H F r I Hb.
    - destruct F; [|discriminate]. inversion Hb. left. split; auto. eauto.
    - destruct F as [|f F0]. { inversion Hb. left. split; auto. eauto. }
      set (F := f :: F0) in *. cbn [bfs] in Hb.
      change (match F with [] => Ok [] | _ => _ end) with
        (match flat_map snd (flat_map (expand solve g) (ord level 0 F)) with
         | [] => bfs solve fuel ord (S level) g (flat_map fst (flat_map (expand solve g) (ord level 0 F)))
         | paths => Ok (ord level 1 paths)
         end) in Hb.
      assert (HF : forall t, In t (ord level 0 F) <-> In t F).
      { intros t. split; apply Permutation_in; [|apply Permutation_sym]; apply Hord. }
      destruct (flat_map snd (flat_map (expand solve g) (ord level 0 F))) as [|t l] eqn:E.
      + eapply IH; [|exact Hb]. apply inv_step with (1 := I); auto.
      + right. inversion Hb as [Hr]. split.
        * intros X. pose proof (Hord level 1 (t :: l)) as P. rewrite X in P.
          apply Permutation_nil in P. discriminate.
        * exists level. split; [now apply inv_no_end with (1 := I)|].
          intros s Hs. apply (Permutation_in _ (Hord level 1 (t :: l))) in Hs. rewrite <- E in Hs.
          apply in_flat_map in Hs as [x [Hx Hs]]. apply in_flat_map in Hx as [s0 [Hs0 Hx]].
          apply HF in Hs0. eapply expand_wf; eauto. now apply (i_wfF _ _ _ _ I).
  Qed.
End Search.
