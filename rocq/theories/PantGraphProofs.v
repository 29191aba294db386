(** The graph of the index reduction keeps the descriptors and the indices in range,
    so that the loop of [run] trips no assertion. *)
From Coq Require Import ZArith List Bool Arith Lia Permutation.
From Verif Require Import RangeModel Result ListTac MatchModel MatchSpec MatchSetProofs
  MatchBuildProofs PantModel PantSpec PantProofs.
Import ListNotations.
Local Open Scope nat_scope.

(** * Graphs *)

Record gcore (P : node -> Prop) (g : mgraph) : Prop := {
  gc_ends : forall e, In e (g_edges g) -> P (NE (fst e)) /\ P (NV (snd e));
  gc_inc : forall e i j, In e (g_edges g) -> In (i, j) (ents (ed_inc (g_ed g e))) ->
    In i (mt_all (g_vx g (NE (fst e)))) /\ In j (mt_all (g_vx g (NV (snd e))));
  gc_sub : forall e x, In e (g_edges g) ->
    In x (ents (ed_match (g_ed g e))) \/ In x (ents (ed_unm (g_ed g e))) ->
    In x (ents (ed_inc (g_ed g e)));
  gc_union : forall n p, P n ->
    (In p (mt_all (g_vx g n)) <-> In p (mt_matched (g_vx g n)) \/ In p (mt_unmatched (g_vx g n))) }.

(** The two graphs have the same edges, incidence and indices. *)
Record gsame (g g' : mgraph) : Prop := {
  gs_edges : g_edges g' = g_edges g;
  gs_inc : forall e, ed_inc (g_ed g' e) = ed_inc (g_ed g e);
  gs_all : forall n, mt_all (g_vx g' n) = mt_all (g_vx g n) }.

Lemma gsame_refl : forall g, gsame g g.
Proof. intro g; constructor; auto. Qed.
Lemma gsame_trans : forall a b c, gsame a b -> gsame b c -> gsame a c.
Proof. intros a b c [A1 A2 A3] [B1 B2 B3]; constructor; intros; congruence. Qed.

Definition uni (m : matchable) : Prop :=
  forall p, In p (mt_all m) <-> In p (mt_matched m) \/ In p (mt_unmatched m).

Lemma addMatch_uni : forall m s, uni m -> (forall p, In p s -> In p (mt_all m)) ->
  exists m', mt_addMatch m s = Ok m' /\ mt_all m' = mt_all m /\ uni m'.
Proof.
  intros m s H S. unfold mt_addMatch.
  replace (ps_contains (mt_all m) s) with true by (symmetry; now apply ps_contains_spec).
  cbn [bind assert_ok].
  set (m' := MT _ _ _).
  assert (Hu : uni m').
  { intro p. cbn. rewrite ps_union_spec, ps_diff_spec, (H p). destruct (ps_dec s p); [|tauto].
    split; auto. intros _. apply H. auto. }
  replace (ps_eq _ _) with true.
  - cbn. eauto.
  - symmetry. apply ps_eq_spec. intro p. rewrite ps_union_spec. symmetry. apply Hu.
Qed.

Lemma removeMatch_uni : forall m s, uni m -> (forall p, In p s -> In p (mt_all m)) ->
  exists m', mt_removeMatch m s = Ok m' /\ mt_all m' = mt_all m /\ uni m'.
Proof.
  intros m s H S. unfold mt_removeMatch.
  set (m' := MT _ _ _).
  assert (Hu : uni m').
  { intro p. cbn. rewrite ps_union_spec, ps_diff_spec, (H p). destruct (ps_dec s p); [|tauto].
    split; auto. intros _. apply H. auto. }
  replace (ps_eq _ _) with true.
  - cbn. eauto.
  - symmetry. apply ps_eq_spec. intro p. rewrite ps_union_spec. symmetry. apply Hu.
Qed.

Section Graph.
  Variable P : node -> Prop.

  Lemma setVx_ok : forall g n m, gcore P g -> mt_all m = mt_all (g_vx g n) -> uni m ->
    gcore P (g_setVx g n m) /\ gsame g (g_setVx g n m).
  Proof.
    intros g n m G A Hu.
    assert (S : gsame g (g_setVx g n m)).
    { constructor; auto. intro k. cbn. unfold nupd. destruct (node_eqb k n) eqn:E; auto.
      apply node_eqb_spec in E. now subst. }
    split; auto. constructor.
    - apply G.
    - intros e i j He Hi. rewrite !(gs_all _ _ S). exact (gc_inc _ _ G e i j He Hi).
    - apply G.
    - intros k p Hk. cbn. unfold nupd. destruct (node_eqb k n) eqn:E.
      + apply Hu.
      + now apply (gc_union _ _ G).
  Qed.

  Lemma setEd_ok : forall g e d, gcore P g -> ed_inc d = ed_inc (g_ed g e) ->
    (forall x, In x (ents (ed_match d)) \/ In x (ents (ed_unm d)) -> In x (ents (ed_inc d))) ->
    gcore P (g_setEd g e d) /\ gsame g (g_setEd g e d).
  Proof.
    intros g e d G A Hs.
    assert (S : gsame g (g_setEd g e d)).
    { constructor; auto. intro k. cbn. unfold eupd. destruct (medid_eqb k e) eqn:E; auto.
      apply medid_eqb_spec in E. now subst. }
    split; auto. constructor.
    - apply G.
    - intros k i j He Hi. rewrite (gs_inc _ _ S) in Hi. exact (gc_inc _ _ G k i j He Hi).
    - intros k x He. cbn. unfold eupd. destruct (medid_eqb k e) eqn:E.
      + apply Hs.
      + now apply (gc_sub _ _ G).
    - apply G.
  Qed.

  Lemma hide_ok : forall g n, gcore P g -> gcore P (g_hide g n) /\ gsame g (g_hide g n).
  Proof. intros g n G. split; constructor; auto; apply G. Qed.
  Lemma hideEdge_ok : forall g e, gcore P g -> gcore P (g_hideEdge g e) /\ gsame g (g_hideEdge g e).
  Proof. intros g n G. split; constructor; auto; apply G. Qed.

  Lemma addMatch_sub : forall g e m, gcore P g -> In e (g_edges g) ->
    (forall x, In x (ents m) -> In x (ents (ed_inc (g_ed g e)))) ->
    gcore P (g_setEd g e (ed_addMatch (g_ed g e) m)) /\
    gsame g (g_setEd g e (ed_addMatch (g_ed g e) m)).
  Proof.
    intros g e m G He Hm. apply setEd_ok; auto. cbn. intros x H.
    rewrite m_union_spec, m_diff_spec in H.
    destruct H as [[H|H]|[H _]]; auto; eapply gc_sub; eauto.
  Qed.
  Lemma removeMatch_sub : forall g e m, gcore P g -> In e (g_edges g) ->
    (forall x, In x (ents m) -> In x (ents (ed_inc (g_ed g e)))) ->
    gcore P (g_setEd g e (ed_removeMatch (g_ed g e) m)) /\
    gsame g (g_setEd g e (ed_removeMatch (g_ed g e) m)).
  Proof.
    intros g e m G He Hm. apply setEd_ok; auto. cbn. intros x H.
    rewrite m_union_spec, m_diff_spec in H.
    destruct H as [[H _]|[H|H]]; auto; eapply gc_sub; eauto.
  Qed.

  (** What an entry set inside the incidence says of the two vertices. *)
  Lemma eqs_in : forall g e m, gcore P g -> In e (g_edges g) ->
    (forall x, In x (ents m) -> In x (ents (ed_inc (g_ed g e)))) ->
    forall p, In p (m_eqs m) -> In p (mt_all (g_vx g (NE (fst e)))).
  Proof.
    intros g e m G He Hm p Hp. apply m_eqs_spec in Hp. destruct Hp as (j & Hj).
    apply Hm in Hj. eapply gc_inc; eauto.
  Qed.
  Lemma vars_in : forall g e m, gcore P g -> In e (g_edges g) ->
    (forall x, In x (ents m) -> In x (ents (ed_inc (g_ed g e)))) ->
    forall p, In p (m_vars m) -> In p (mt_all (g_vx g (NV (snd e)))).
  Proof.
    intros g e m G He Hm p Hp. apply m_vars_spec in Hp. destruct Hp as (j & Hj).
    apply Hm in Hj. eapply gc_inc; eauto.
  Qed.
  Lemma filterEqs_sub : forall m s x, In x (ents (m_filterEqs m s)) -> In x (ents m).
  Proof. intros m s [i j] H. apply m_filterEqs_spec in H. tauto. Qed.
  Lemma filterVars_sub : forall m s x, In x (ents (m_filterVars m s)) -> In x (ents m).
  Proof. intros m s [i j] H. apply m_filterVars_spec in H. tauto. Qed.

  (** ** Paths *)

  Definition flow_ok (g : mgraph) (f : mflow) : Prop :=
    let e := fst (snd f) in
    In e (g_edges g) /\ (fst f = NE (fst e) \/ fst f = NV (snd e)) /\
    forall x, In x (ents (fl_delta f)) -> In x (ents (ed_inc (g_ed g e))).

  Definition touch_ok (g : mgraph) (x : node * pset) : Prop :=
    P (fst x) /\ forall p, In p (snd x) -> In p (mt_all (g_vx g (fst x))).

  Lemma flow_ok_same : forall g g' f, gsame g g' -> flow_ok g f -> flow_ok g' f.
  Proof.
    intros g g' f S (A & B & C). split; [|split]; auto.
    - now rewrite (gs_edges _ _ S).
    - intros x Hx. rewrite (gs_inc _ _ S). auto.
  Qed.
  Lemma touch_ok_same : forall g g' f, gsame g g' -> touch_ok g f -> touch_ok g' f.
  Proof. intros g g' f S (A & B). split; auto. intros p Hp. rewrite (gs_all _ _ S). auto. Qed.

  Lemma apply_flows : forall fl g rm ad, gcore P g -> Forall (flow_ok g) fl ->
    Forall (touch_ok g) rm -> Forall (touch_ok g) ad ->
    exists g' rm' ad', fold_left apply_flow fl (g, rm, ad) = (g', rm', ad') /\
      gcore P g' /\ gsame g g' /\ Forall (touch_ok g') rm' /\ Forall (touch_ok g') ad'.
  Proof.
    induction fl as [|f fl IH]; intros g rm ad G F R A; cbn [fold_left].
    - exists g, rm, ad. auto using gsame_refl.
    - inversion F as [|? ? Ff Ffl]; subst. destruct f as (from & e & delta).
      destruct Ff as (He & Hf & Hd). cbn in He, Hf, Hd. unfold fl_delta in Hd; cbn in Hd.
      pose proof (eqs_in _ _ _ G He Hd) as Ie. pose proof (vars_in _ _ _ G He Hd) as Iv.
      destruct (gc_ends _ _ G e He) as [Pe Pv].
      assert (K : exists g1 rm1 ad1, apply_flow (g, rm, ad) (from, (e, delta)) = (g1, rm1, ad1) /\
                  gcore P g1 /\ gsame g g1 /\ Forall (touch_ok g) rm1 /\ Forall (touch_ok g) ad1).
      { destruct Hf as [->| ->]; cbn.
        - destruct (addMatch_sub g e delta G He Hd) as [G1 S1]. eexists _, _, _.
          split; [reflexivity|]. split; auto. split; auto. split; auto.
          apply Forall_app. split; auto. constructor; [split; auto|]. constructor; [split; auto|auto].
        - destruct (removeMatch_sub g e delta G He Hd) as [G1 S1]. eexists _, _, _.
          split; [reflexivity|]. split; auto. split; auto. split; auto.
          apply Forall_app. split; auto. constructor; [split; auto|]. constructor; [split; auto|auto]. }
      destruct K as (g1 & rm1 & ad1 & -> & G1 & S1 & R1 & A1).
      destruct (IH g1 rm1 ad1 G1) as (g2 & rm2 & ad2 & E & G2 & S2 & R2 & A2).
      + eapply Forall_impl; [|eassumption]. intros; eapply flow_ok_same; eauto.
      + eapply Forall_impl; [|eassumption]. intros; eapply touch_ok_same; eauto.
      + eapply Forall_impl; [|eassumption]. intros; eapply touch_ok_same; eauto.
      + exists g2, rm2, ad2. split; auto. split; auto. split; [eapply gsame_trans; eauto|auto].
  Qed.

  Lemma nm_keys_in : forall l n, In n (nm_keys l) -> exists s, In (n, s) l.
  Proof.
    induction l as [|[m s] l IH]; intros n H; cbn in H; [contradiction|].
    destruct (existsb _ _).
    - destruct (IH n H) as (t & Ht). exists t. cbn; auto.
    - cbn in H. destruct H as [<-|H]; [exists s; cbn; auto|].
      destruct (IH n H) as (t & Ht). exists t. cbn; auto.
  Qed.
  Lemma nm_get_in : forall l n p, In p (nm_get l n) -> exists s, In (n, s) l /\ In p s.
  Proof.
    intros l n p H. unfold nm_get in H. apply in_flat_map in H. destruct H as ([m s] & I & H).
    cbn in H. destruct (node_eqb m n) eqn:E; [|contradiction].
    apply node_eqb_spec in E. subst. eauto.
  Qed.

  Lemma fold_touch : forall (f : matchable -> pset -> res matchable) l,
    (forall m s, uni m -> (forall p, In p s -> In p (mt_all m)) ->
       exists m', f m s = Ok m' /\ mt_all m' = mt_all m /\ uni m') ->
    forall ks g, gcore P g -> Forall (touch_ok g) l -> (forall n, In n ks -> In n (nm_keys l)) ->
    exists g', fold_res (fun g n => m <- f (g_vx g n) (nm_get l n) ;; Ok (g_setVx g n m)) ks g = Ok g' /\
      gcore P g' /\ gsame g g'.
  Proof.
    intros f l Hf. induction ks as [|n ks IH]; intros g G T K; cbn.
    - exists g. auto using gsame_refl.
    - rewrite Forall_forall in T.
      destruct (nm_keys_in l n) as (s0 & Hs0); [apply K; cbn; auto|].
      destruct (T _ Hs0) as [Pn _]. cbn in Pn.
      destruct (Hf (g_vx g n) (nm_get l n)) as (m' & -> & A & Hu).
      + intro p. apply (gc_union _ _ G); auto.
      + intros p Hp. destruct (nm_get_in _ _ _ Hp) as (s & Is & Ip).
        destruct (T _ Is) as [_ Q]. auto.
      + cbn. destruct (setVx_ok g n m' G A Hu) as [G1 S1].
        destruct (IH (g_setVx g n m')) as (g2 & E & G2 & S2); auto.
        * apply Forall_forall. intros x Hx. eapply touch_ok_same; eauto.
        * intros k Hk. apply K. cbn; auto.
        * exists g2. split; auto. split; auto. eapply gsame_trans; eauto.
  Qed.

  Lemma apply_path_ok : forall fl g, gcore P g -> Forall (flow_ok g) fl ->
    exists g', apply_path g fl = Ok g' /\ gcore P g' /\ gsame g g'.
  Proof.
    intros fl g G F. unfold apply_path.
    destruct (apply_flows fl g [] [] G F) as (g1 & rm & ad & -> & G1 & S1 & R1 & A1); auto.
    destruct (fold_touch mt_removeMatch rm removeMatch_uni (nm_keys rm) g1 G1 R1) as (g2 & -> & G2 & S2); auto.
    cbn.
    destruct (fold_touch mt_addMatch ad addMatch_uni (nm_keys ad) g2 G2) as (g3 & -> & G3 & S3); auto.
    - eapply Forall_impl; [|eassumption]. intros; eapply touch_ok_same; eauto.
    - exists g3. split; auto. split; auto. eapply gsame_trans; [|eauto]. eapply gsame_trans; eauto.
  Qed.

  Lemma apply_paths_ok : forall R g, gcore P g -> Forall (Forall (flow_ok g)) R ->
    exists g', fold_res apply_path R g = Ok g' /\ gcore P g' /\ gsame g g'.
  Proof.
    induction R as [|fl R IH]; intros g G F; cbn.
    - exists g. auto using gsame_refl.
    - inversion F; subst. destruct (apply_path_ok fl g G) as (g1 & -> & G1 & S1); auto. cbn.
      destruct (IH g1 G1) as (g2 & E & G2 & S2).
      + eapply Forall_impl; [|eassumption]. intros a Ha. eapply Forall_impl; [|eassumption].
        intros; eapply flow_ok_same; eauto.
      + exists g2. split; auto. split; auto. eapply gsame_trans; eauto.
  Qed.

  (** ** The search *)

  Fixpoint sok (g : mgraph) (s : bstep) : Prop :=
    match s with
    | SStart n c => touch_ok g (n, c)
    | SNext p e n c f =>
        sok g p /\ touch_ok g (n, c) /\ In e (g_edges g) /\
        (s_node p = NE (fst e) \/ s_node p = NV (snd e)) /\
        forall x, In x (ents f) -> In x (ents (ed_inc (g_ed g e)))
    end.
  Lemma sok_touch : forall g s, sok g s -> touch_ok g (s_node s, s_cand s).
  Proof. intros g [n c|p e n c f] H; [exact H|apply H]. Qed.

  Variable solve : mmat -> list mmat.
  Hypothesis Hsolve : forall m o x, In o (solve m) -> In x (ents o) -> In x (ents m).

  Lemma out_spec : forall g n e, In e (g_out g n) -> In e (g_edges g) /\
    match n with NV v => v = snd e | NE q => q = fst e end.
  Proof.
    unfold g_out; intros g n e H. apply filter_In in H. destruct H as [H T]. split; auto.
    destruct n; cbn in T; now apply mid_eqb_spec.
  Qed.

  Lemma expand_ok : forall g s r, gcore P g -> sok g s -> In r (expand solve g s) ->
    Forall (sok g) (fst r) /\ Forall (sok g) (snd r).
  Proof.
    intros g s r G Hs Hr. unfold expand in Hr. apply in_flat_map in Hr. destruct Hr as (e & He & Hr).
    apply out_spec in He. destruct He as [He Hn].
    unfold expand_edge in Hr. apply in_map_iff in Hr. destruct Hr as (sol & <- & Hsol).
    destruct (gc_ends _ _ G e He) as [Pe Pv].
    unfold expand_solution. destruct (s_node s) as [v|q] eqn:En; subst.
    - assert (Hi : forall x, In x (ents sol) -> In x (ents (ed_inc (g_ed g e)))).
      { intros x Hx. apply (Hsolve _ _ _ Hsol) in Hx. apply filterVars_sub in Hx. eapply gc_sub; eauto. }
      pose proof (eqs_in _ _ _ G He Hi) as Ie.
      destruct (s_contains _ _ _); cbn; split; auto.
      constructor; auto. cbn. rewrite En. repeat split; auto.
    - assert (Hi : forall x, In x (ents sol) -> In x (ents (ed_inc (g_ed g e)))).
      { intros x Hx. apply (Hsolve _ _ _ Hsol) in Hx. apply filterEqs_sub in Hx. eapply gc_sub; eauto. }
      pose proof (vars_in _ _ _ G He Hi) as Iv.
      destruct (s_contains _ _ _); cbn; [split; auto|].
      destruct (m_empty _); cbn; split; auto; constructor; auto; cbn; rewrite En; repeat split; auto.
      intros x Hx. apply Hi. eapply filterVars_sub; eauto.
  Qed.

  Lemma step_visits_ok : forall g s, gcore P g -> sok g s -> Forall (touch_ok g) (step_visits g s).
  Proof.
    intros g s G Hs. unfold step_visits. constructor; [now apply sok_touch|].
    destruct (s_node s) as [v|q] eqn:En; auto.
    apply Forall_forall. intros x Hx. apply in_flat_map in Hx. destruct Hx as (e & He & Hx).
    apply out_spec in He. destruct He as [He _].
    destruct (m_empty _); [contradiction|]. destruct Hx as [<-|[]].
    destruct (gc_ends _ _ G e He) as [Pe Pv]. split; auto. cbn. intros p Hp.
    eapply vars_in; eauto.
  Qed.

  Lemma p_bfs_ok : forall g ord, (forall lv w l s, In s (ord lv w l) -> In s l) -> gcore P g ->
    forall fuel level F paths v, Forall (sok g) F ->
    p_bfs solve fuel ord level g F = Ok (paths, v) ->
    Forall (sok g) paths /\ Forall (touch_ok g) v.
  Proof.
    intros g ord Ho G. induction fuel as [|f IH]; intros level F paths v HF H; destruct F as [|s F];
      cbn [p_bfs] in H; try discriminate; try (inversion H; subst; auto).
    set (fr := ord level 0 (s :: F)) in *.
    assert (Hfr : forall x, In x fr -> sok g x).
    { intros x Hx. apply Ho in Hx. eapply Forall_forall in HF; eauto. }
    assert (Hv : Forall (touch_ok g) (flat_map (step_visits g) fr)).
    { apply Forall_forall. intros x Hx. apply in_flat_map in Hx. destruct Hx as (y & Hy & Hx).
      pose proof (step_visits_ok g y G (Hfr y Hy)) as K. eapply Forall_forall in K; eauto. }
    assert (Hr : forall r, In r (flat_map (expand solve g) fr) ->
                 Forall (sok g) (fst r) /\ Forall (sok g) (snd r)).
    { intros r Hr. apply in_flat_map in Hr. destruct Hr as (y & Hy & Hr). eapply expand_ok; eauto. }
    destruct (flat_map snd (flat_map (expand solve g) fr)) as [|t ts] eqn:Ep.
    - apply bind_ok in H. destruct H as ([paths' v'] & E & H). inversion H; subst.
      apply IH in E.
      + destruct E. split; auto. apply Forall_app; auto.
      + apply Forall_forall. intros x Hx. apply in_flat_map in Hx. destruct Hx as (r & Ir & Hx).
        destruct (Hr r Ir) as [K _]. eapply Forall_forall in K; eauto.
    - inversion H; subst. split; auto. apply Forall_forall. intros x Hx. apply Ho in Hx.
      rewrite <- Ep in Hx. apply in_flat_map in Hx. destruct Hx as (r & Ir & Hx).
      destruct (Hr r Ir) as [_ K]. eapply Forall_forall in K; eauto.
  Qed.

  Lemma walk_back_ok : forall g s seen d m flows new fl new', sok g s ->
    (forall p e n c f, s = SNext p e n c f ->
       forall x, In x (ents m) -> In x (ents (ed_inc (g_ed g e))) \/ flows <> []) ->
    Forall (flow_ok g) flows ->
    walk_back seen d s m flows new = Some (fl, new') -> Forall (flow_ok g) fl.
  Proof.
    intros g. induction s as [n c|p IH e n c f]; intros seen d m flows new fl new' Hs Hm Hf H; cbn in H.
    - match type of H with match ?x with _ => _ end = _ => destruct x end; [|discriminate].
      inversion H; now subst.
    - destruct Hs as (Hp & Ht & He & Hn & Hfl).
      match type of H with match ?x with _ => _ end = _ => destruct x as [nw|] end; [|discriminate].
      eapply IH in H; auto.
      + intros p' e' n' c' f' _ x _. right. discriminate.
      + constructor; auto. split; [|split]; auto. cbn. intros x Hx.
        destruct flows as [|h flows].
        * destruct (Hm _ _ _ _ _ eq_refl x Hx); auto. congruence.
        * destruct n; apply Hfl; [eapply filterVars_sub | eapply filterEqs_sub]; eauto.
  Qed.

  Lemma filter_paths_ok : forall g snap paths k hist, Forall (sok g) paths ->
    Forall (Forall (flow_ok g)) (filter_paths snap k hist paths).
  Proof.
    intros g snap. induction paths as [|s paths IH]; intros k hist H; cbn [filter_paths]; auto.
    inversion H; subst.
    match goal with |- context [walk_back ?a ?b ?c ?d ?e ?f] =>
      destruct (walk_back a b c d e f) as [[fl new]|] eqn:W end; auto.
    match goal with |- context [if ?b then _ else _] => destruct b end; auto.
    constructor; auto. eapply walk_back_ok in W; eauto.
    intros p e n c f -> x Hx. cbn in Hx. left. now apply H2.
  Qed.

  (** ** The leaf nodes *)

  Lemma opposite_ok : forall es g v2 pushed, gcore P g ->
    gcore P (fst (leaf_opposite g v2 es pushed)).
  Proof.
    induction es as [|e es IH]; intros g v2 pushed G; cbn [leaf_opposite fst].
    - now apply hide_ok.
    - assert (G1 : gcore P (g_hideEdge g e)) by now apply hideEdge_ok.
      destruct (negb _); auto. destruct (g_degree _ _) as [|[|k]]; auto.
      apply IH. now apply hide_ok.
  Qed.

  Lemma leaf_step_ok : forall g v1 g' new, gcore P g -> leaf_step solve g v1 = Ok (g', new) ->
    gcore P g'.
  Proof.
    intros g v1 g' new G H. unfold leaf_step in H.
    destruct (negb _); [inversion H; now subst|].
    destruct (g_visible g v1) as [|e es] eqn:Ev; [discriminate|].
    assert (He : In e (g_edges g)).
    { assert (K : In e (g_visible g v1)) by (rewrite Ev; cbn; auto).
      unfold g_visible in K. apply filter_In in K. destruct K as [K _]. now apply out_spec in K. }
    match type of H with match ?x with _ => _ end = _ => destruct x as [|m [|m' ms]] eqn:Es end;
      try (inversion H; now subst).
    assert (Hi : forall x, In x (ents m) -> In x (ents (ed_inc (g_ed g e)))).
    { intros x Hx. eapply Hsolve in Hx; [|rewrite Es; cbn; auto].
      apply filterVars_sub, filterEqs_sub in Hx. eapply gc_sub; eauto. }
    destruct (addMatch_sub g e m G He Hi) as [G1 S1].
    apply bind_ok in H. destruct H as (mv & Emv & H).
    assert (Gv : gcore P (g_setVx (g_setEd g e (ed_addMatch (g_ed g e) m)) (NV (snd e)) mv) /\
                 gsame (g_setEd g e (ed_addMatch (g_ed g e) m))
                       (g_setVx (g_setEd g e (ed_addMatch (g_ed g e) m)) (NV (snd e)) mv)).
    { destruct (addMatch_uni (g_vx (g_setEd g e (ed_addMatch (g_ed g e) m)) (NV (snd e))) (m_vars m))
        as (m2 & E2 & A2 & U2).
      - intro p. apply (gc_union _ _ G1). now apply (gc_ends _ _ G).
      - intros p Hp. rewrite (gs_all _ _ S1). eapply vars_in; eauto.
      - rewrite E2 in Emv. inversion Emv; subst. now apply setVx_ok. }
    destruct Gv as [G2 S2].
    apply bind_ok in H. destruct H as (me & Eme & H).
    match type of H with context [g_setVx ?a (NE (fst e)) me] => set (g2 := a) in * end.
    assert (Ge : gcore P (g_setVx g2 (NE (fst e)) me)).
    { destruct (addMatch_uni (g_vx g2 (NE (fst e))) (m_eqs m)) as (m2 & E2 & A2 & U2).
      - intro p. apply (gc_union _ _ G2). now apply (gc_ends _ _ G).
      - intros p Hp. rewrite (gs_all _ _ S2), (gs_all _ _ S1). eapply eqs_in; eauto.
      - rewrite E2 in Eme. inversion Eme; subst. now apply setVx_ok. }
    assert (G4 : gcore P (g_hide (g_hideEdge (g_setVx g2 (NE (fst e)) me) e) v1)).
    { apply hide_ok. now apply hideEdge_ok. }
    destruct (mt_allMatched _).
    - injection H as E. change g' with (fst (g', new)). rewrite <- E. now apply opposite_ok.
    - inversion H; subst; auto.
  Qed.

  Lemma leaf_loop_ok : forall fuel g cand g', gcore P g -> leaf_loop solve fuel g cand = Ok g' ->
    gcore P g'.
  Proof.
    induction fuel as [|f IH]; intros g cand g' G H; destruct cand as [|v cand]; cbn in H;
      try discriminate; try (inversion H; now subst).
    apply bind_ok in H. destruct H as ([g1 new] & E & H).
    eapply IH in H; eauto. eapply leaf_step_ok; eauto.
  Qed.
End Graph.
