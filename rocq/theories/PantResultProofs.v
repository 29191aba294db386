(** When the worklist of the index reduction is empty, each equation is matched or
    replaced by a derivative that is. *)
From Coq Require Import ZArith List Bool Arith Lia Permutation.
From Verif Require Import RangeModel Result ListTac MatchModel MatchSpec MatchSetProofs
  MatchBuildProofs PantModel PantSpec PantProofs PantGraphProofs PantSafeProofs.
Import ListNotations.
Local Open Scope nat_scope.

(** * A path leaves no equation with more unmatched indices *)

Definition shrinks (g g' : mgraph) : Prop :=
  forall q p, In p (mt_unmatched (g_vx g' (NE q))) -> In p (mt_unmatched (g_vx g (NE q))).
Lemma shrinks_refl : forall g, shrinks g g.
Proof. intros g q p H; exact H. Qed.
Lemma shrinks_trans : forall a b c, shrinks a b -> shrinks b c -> shrinks a c.
Proof. intros a b c H K q p Hp. apply H. now apply K. Qed.

Definition covered (fl : list mflow) (f : mflow) : Prop :=
  match fst f with
  | NE _ => True
  | NV _ => exists f', In f' fl /\ fst f' = NE (fst (fst (snd f))) /\
                       incl (m_eqs (fl_delta f)) (m_eqs (fl_delta f'))
  end.

Lemma flows_lists : forall fl g rm ad g' rm' ad', fold_left apply_flow fl (g, rm, ad) = (g', rm', ad') ->
  g_vx g' = g_vx g /\
  (forall q s, In (NE q, s) rm' -> In (NE q, s) rm \/
     exists f, In f fl /\ (exists v, fst f = NV v) /\ q = fst (fst (snd f)) /\ s = m_eqs (fl_delta f)) /\
  (forall x, In x ad -> In x ad') /\
  (forall f, In f fl -> (exists q, fst f = NE q) -> In (fst f, m_eqs (fl_delta f)) ad').
Proof.
  induction fl as [|f fl IH]; intros g rm ad g' rm' ad' H; cbn [fold_left] in H.
  - inversion H; subst. split; auto. split; auto. split; auto. intros f [].
  - destruct f as (from & e & delta). destruct from as [v|q0]; cbn in H.
    + apply IH in H. destruct H as (A & B & C & D). split; auto. split; [|split; auto].
      * intros q s Hq. destruct (B q s Hq) as [K|(f & K & L)].
        -- rewrite in_app_iff in K. destruct K as [K|[K|[K|[]]]]; auto; [discriminate|].
           inversion K; subst. right. exists (NV v, (e, delta)). cbn. eauto 8.
        -- right. exists f. cbn; auto.
      * intros f [<-|K] Q; [destruct Q as (q & Q); discriminate|auto].
    + apply IH in H. destruct H as (A & B & C & D). split; auto. split; [|split].
      * intros q s Hq. destruct (B q s Hq) as [K|(f & K & L)]; auto. right. exists f. cbn; auto.
      * intros x Hx. apply C. rewrite in_app_iff; auto.
      * intros f [<-|K] Q; auto. apply C. cbn. rewrite in_app_iff; cbn; auto.
Qed.

Lemma fold_remove : forall l ks g g',
  fold_res (fun g n => m <- mt_removeMatch (g_vx g n) (nm_get l n) ;; Ok (g_setVx g n m)) ks g = Ok g' ->
  forall n p, In p (mt_unmatched (g_vx g' n)) -> In p (mt_unmatched (g_vx g n)) \/ In p (nm_get l n).
Proof.
  intros l. induction ks as [|k ks IH]; intros g g' H n p Hp; cbn in H.
  - inversion H; subst; auto.
  - apply bind_ok in H. destruct H as (g1 & E & H). apply bind_ok in E. destruct E as (m & E & Q).
    inversion Q; subst g1. destruct (IH _ _ H n p Hp) as [K|K]; auto. cbn in K. unfold nupd in K.
    destruct (node_eqb n k) eqn:N; auto. apply node_eqb_spec in N. subst k.
    unfold mt_removeMatch in E. apply bind_ok in E. destruct E as (u & _ & E). inversion E; subst m.
    cbn in K. rewrite ps_union_spec in K. tauto.
Qed.

Lemma fold_add : forall l ks g g',
  fold_res (fun g n => m <- mt_addMatch (g_vx g n) (nm_get l n) ;; Ok (g_setVx g n m)) ks g = Ok g' ->
  forall n p, In p (mt_unmatched (g_vx g' n)) ->
    In p (mt_unmatched (g_vx g n)) /\ (In n ks -> ~ In p (nm_get l n)).
Proof.
  intros l. induction ks as [|k ks IH]; intros g g' H n p Hp; cbn in H.
  - inversion H; subst; auto.
  - apply bind_ok in H. destruct H as (g1 & E & H). apply bind_ok in E. destruct E as (m & E & Q).
    inversion Q; subst g1. destruct (IH _ _ H n p Hp) as [K1 K2]. cbn in K1. unfold nupd in K1.
    destruct (node_eqb n k) eqn:N.
    + apply node_eqb_spec in N. subst k.
      unfold mt_addMatch in E. apply bind_ok in E. destruct E as (u0 & _ & E).
      apply bind_ok in E. destruct E as (u & _ & E). inversion E; subst m.
      cbn in K1. rewrite ps_diff_spec in K1. tauto.
    + apply node_eqb_false in N. split; auto. intros [->|I]; [congruence|auto].
Qed.

Lemma nm_keys_has : forall l n s, In (n, s) l -> In n (nm_keys l).
Proof.
  induction l as [|[m t] l IH]; intros n s H; [destruct H|]. cbn.
  destruct (existsb (node_eqb m) _) eqn:E.
  - destruct H as [H|H]; [|eauto]. inversion H; subst. apply existsb_exists in E.
    destruct E as (k & Ik & Ek). apply node_eqb_spec in Ek. now subst.
  - destruct H as [H|H]; [inversion H; cbn; auto|right; eauto].
Qed.
Lemma nm_get_has : forall l n s p, In (n, s) l -> In p s -> In p (nm_get l n).
Proof.
  intros l n s p H Hp. unfold nm_get. apply in_flat_map. exists (n, s). split; auto. cbn.
  now rewrite node_eqb_refl.
Qed.

Lemma apply_path_shrinks : forall fl g g', (forall f, In f fl -> covered fl f) ->
  apply_path g fl = Ok g' -> shrinks g g'.
Proof.
  intros fl g g' C H q p Hp. unfold apply_path in H.
  destruct (fold_left apply_flow fl (g, [], [])) as [[g1 rm] ad] eqn:F.
  apply flows_lists in F. destruct F as (A & B & _ & D).
  apply bind_ok in H. destruct H as (g2 & R & H).
  destruct (fold_add _ _ _ _ H _ _ Hp) as [K1 K2].
  destruct (fold_remove _ _ _ _ R _ _ K1) as [K|K]; [now rewrite A in K|].
  exfalso. apply nm_get_in in K. destruct K as (s & Is & Ip).
  destruct (B q s Is) as [[]|(f & If & (v & Fv) & Eq & Es)].
  pose proof (C f If) as Cf. unfold covered in Cf. rewrite Fv in Cf.
  destruct Cf as (f' & If' & Ff' & Inc).
  pose proof (D f' If' (ex_intro _ _ Ff')) as Ad. rewrite Ff', <- Eq in Ad.
  apply K2.
  - eapply nm_keys_has; eauto.
  - eapply nm_get_has; eauto. apply Inc. now rewrite <- Es.
Qed.

(** ** The paths of the search alternate *)

Fixpoint alternates (s : bstep) : Prop :=
  match s with
  | SStart _ _ => True
  | SNext p e n _ _ => alternates p /\
      ((s_node p = NE (fst e) /\ n = NV (snd e)) \/ (s_node p = NV (snd e) /\ n = NE (fst e)))
  end.

Lemma filterEqs_eqs : forall m s, incl (m_eqs (m_filterEqs m s)) s.
Proof.
  intros m s p H. apply m_eqs_spec in H. destruct H as (j & H). apply m_filterEqs_spec in H. tauto.
Qed.

Lemma covered_cons : forall h fl f, covered fl f -> covered (h :: fl) f.
Proof.
  unfold covered. intros h fl f. destruct (fst f); auto. intros (f' & A & B). exists f'. cbn; auto.
Qed.

Lemma walk_covered : forall s seen d m flows new fl new', alternates s ->
  match flows with [] => exists v, s_node s = NV v | f :: _ => fst f = s_node s end ->
  (forall f, In f flows -> covered flows f) ->
  walk_back seen d s m flows new = Some (fl, new') -> forall f, In f fl -> covered fl f.
Proof.
  induction s as [n c|p IH e n c fw]; intros seen d m flows new fl new' Al Hd Hc H; cbn in H.
  - match type of H with match ?x with _ => _ end = _ => destruct x end; [|discriminate].
    inversion H; now subst.
  - destruct Al as [Al Hn].
    match type of H with match ?x with _ => _ end = _ => destruct x as [nw|] end; [|discriminate].
    refine (IH _ _ _ _ _ _ _ Al _ _ H); [reflexivity|]. clear IH H.
    intros f Hf. destruct Hf as [Hf|Hf]; [|now apply covered_cons, Hc].
    subst f. unfold covered. cbn [fst snd]. destruct Hn as [[Hp ->]|[Hp ->]]; rewrite Hp; auto.
    destruct flows as [|f flows].
    + destruct Hd as (v & Hd). discriminate.
    + exists f. split; [cbn; auto|]. cbn in Hd. split; auto. cbn. apply filterEqs_eqs.
Qed.

Lemma expand_alternates : forall solve g s r, alternates s -> In r (expand solve g s) ->
  Forall alternates (fst r) /\ Forall (fun t => alternates t /\ exists v, s_node t = NV v) (snd r).
Proof.
  intros solve g s r Al Hr. unfold expand in Hr. apply in_flat_map in Hr. destruct Hr as (e & He & Hr).
  apply out_spec in He. destruct He as [He Hn].
  unfold expand_edge in Hr. apply in_map_iff in Hr. destruct Hr as (sol & <- & Hsol).
  unfold expand_solution. destruct (s_node s) as [v|q] eqn:En; subst.
  - destruct (s_contains _ _ _); cbn; split; auto. constructor; auto. cbn. auto.
  - destruct (s_contains _ _ _); cbn; [split; auto|].
    destruct (m_empty _); cbn; split; auto; constructor; auto; cbn; auto. split; eauto.
Qed.

Lemma bfs_alternates : forall solve g ord, (forall lv w l s, In s (ord lv w l) -> In s l) ->
  forall fuel level F paths v, Forall alternates F ->
  p_bfs solve fuel ord level g F = Ok (paths, v) ->
  Forall (fun t => alternates t /\ exists v, s_node t = NV v) paths.
Proof.
  intros solve g ord Ho. induction fuel as [|f IH]; intros level F paths v HF H; destruct F as [|s F];
    cbn [p_bfs] in H; try discriminate; try (inversion H; subst; auto).
  set (fr := ord level 0 (s :: F)) in *.
  assert (Hr : forall r, In r (flat_map (expand solve g) fr) ->
    Forall alternates (fst r) /\ Forall (fun t => alternates t /\ exists v, s_node t = NV v) (snd r)).
  { intros r Hr. apply in_flat_map in Hr. destruct Hr as (y & Hy & Hr).
    eapply expand_alternates; eauto. apply Ho in Hy. eapply Forall_forall in HF; eauto. }
  destruct (flat_map snd (flat_map (expand solve g) fr)) as [|t ts] eqn:Ep.
  - apply bind_ok in H. destruct H as ([paths' v'] & E & H). inversion H; subst.
    refine (IH _ _ _ _ _ E). apply Forall_forall. intros x Hx. apply in_flat_map in Hx.
    destruct Hx as (r & Ir & Hx). destruct (Hr r Ir) as [K _]. eapply Forall_forall in K; eauto.
  - inversion H; subst. apply Forall_forall. intros x Hx. apply Ho in Hx.
    rewrite <- Ep in Hx. apply in_flat_map in Hx. destruct Hx as (r & Ir & Hx).
    destruct (Hr r Ir) as [_ K]. eapply Forall_forall in K; eauto.
Qed.

Lemma filter_covered : forall snap paths k hist,
  Forall (fun t => alternates t /\ exists v, s_node t = NV v) paths ->
  Forall (fun fl => forall f, In f fl -> covered fl f) (filter_paths snap k hist paths).
Proof.
  intros snap. induction paths as [|s paths IH]; intros k hist H; cbn [filter_paths]; auto.
  pose proof (Forall_inv H) as Hs. apply Forall_inv_tail in H. cbv beta in Hs. destruct Hs as [Al Nv].
  match goal with |- context [walk_back ?a ?b ?c ?d ?e ?f] =>
    destruct (walk_back a b c d e f) as [[fl new]|] eqn:W end; auto.
  match goal with |- context [if ?b then _ else _] => destruct b end; auto.
  constructor; auto. refine (walk_covered _ _ _ _ [] _ _ _ Al Nv _ W). intros f Hf. destruct Hf.
Qed.

Lemma apply_paths_shrinks : forall R g g', Forall (fun fl => forall f, In f fl -> covered fl f) R ->
  fold_res apply_path R g = Ok g' -> shrinks g g'.
Proof.
  induction R as [|fl R IH]; intros g g' F H; cbn in H.
  - inversion H; subst. apply shrinks_refl.
  - inversion F; subst. apply bind_ok in H. destruct H as (g1 & E & H).
    eapply shrinks_trans; [eapply apply_path_shrinks; eauto|eauto].
Qed.

(** * States *)

Section Result.
  Variable solve : mmat -> list mmat.
  Variable U : Type.
  Variable vdiff : U -> nat -> pset -> U * (nat * pset).
  Variable ediff : U -> nat -> pset -> U * (nat * (pset * list (nat * macc))).

  (** The equations, the calls and the matched indices of the equations stay. *)
  Record grows (st st' : pstate U) : Prop := Grows {
    w_eid : incl (p_eid st) (p_eid st');
    w_log : incl (p_log st) (p_log st');
    w_unm : forall d id, In (d, id) (p_eid st) -> forall p,
      In p (mt_unmatched (g_vx (p_g st') (ne d))) -> In p (mt_unmatched (g_vx (p_g st) (ne d))) }.
  Lemma grows_refl : forall st, grows st st.
  Proof. intro st. constructor; auto using incl_refl. Qed.
  Lemma grows_trans : forall a b c, grows a b -> grows b c -> grows a c.
  Proof.
    intros a b c [A1 A2 A3] [B1 B2 B3]. constructor; eauto using incl_tran.
  Qed.

  (** The record of the derivatives of the equations comes from the calls. *)
  Definition dlog (st : pstate U) : Prop := forall d x, pm_get (p_eder st) d = Some x ->
    exists a, In a (p_log st) /\ pe_var a = false /\ In (d, pe_id a) (p_eid st) /\
              In (fst x, pe_ans a) (p_eid st).

  Lemma addDerivative_ext : forall st d der s st', p_addVariableDerivative U st d der s = Ok st' ->
    forall q, g_vx (p_g st') (NE q) = g_vx (p_g st) (NE q).
  Proof.
    unfold p_addVariableDerivative; intros st d der s st' H q.
    apply bind_ok in H. destruct H as ([m ok] & _ & H). destruct ok; inversion H; subst; cbn [p_g].
    - match goal with |- context [fold_left _ ?es ?g] =>
        destruct (cut_core (fun _ => True) (d, None) (mt_all m) es g) as (_ & B & _) end.
      + intros e He. apply out_spec in He. destruct He as [_ He]. cbn in He. auto.
      + cbn zeta in B. rewrite B. cbn. unfold nupd, nv. cbn. reflexivity.
    - reflexivity.
  Qed.

  Lemma diffVariable_ext : forall st d s st', p_diffVariable U vdiff st d s = Ok st' ->
    grows st st' /\ (dlog st -> dlog st').
  Proof.
    unfold p_diffVariable; intros st d s st' H.
    destruct (id_of (p_vid st) d) as [id|] eqn:Id; [|discriminate].
    destruct (ps_empty _) eqn:Em; [inversion H; subst; auto using grows_refl|].
    destruct (vdiff _ _ _) as [u [ans ind]].
    apply bind_ok in H. destruct H as ([st2 d'] & A & H).
    pose proof (addDerivative_ext _ _ _ _ _ H) as X.
    apply add_derivative_inv in H. destruct H as (E1 & E2 & E3 & E4 & E5).
    assert (K : p_eid st2 = p_eid st /\ p_eder st2 = p_eder st /\ incl (p_log st) (p_log st2) /\
      forall q, g_vx (p_g st2) (NE q) = g_vx (p_g st) (NE q)).
    { match type of A with match ?b with _ => _ end = _ => destruct b as [x|] eqn:B end.
      - inversion A; subst. cbn. split; auto. split; auto. split; auto. apply incl_appl, incl_refl.
      - apply add_variable_inv in A. destruct A as (F & -> & _ & ->). cbn.
        split; auto. split; auto. split; [apply incl_appl, incl_refl|]. intro q. unfold nupd, nv. reflexivity. }
    destruct K as (K1 & K2 & K3 & K4). split.
    - constructor.
      + rewrite E2, K1. apply incl_refl.
      + now rewrite E4.
      + intros k i _ p Hp. unfold ne in *. now rewrite X, K4 in Hp.
    - intros D k x Hx. rewrite E3, K2 in Hx. destruct (D k x Hx) as (a & A1 & A2).
      exists a. rewrite E2, K1, E4. auto.
  Qed.

  Lemma diffEquation_ext : forall st d s st', p_diffEquation U ediff st d s = Ok st' -> sinv st ->
    grows st st' /\ (dlog st -> dlog st').
  Proof.
    unfold p_diffEquation; intros st d s st' H I.
    destruct (id_of (p_eid st) d) as [id|] eqn:Id; [|discriminate]. apply id_of_some in Id.
    destruct (ps_empty _) eqn:Em; [inversion H; subst; auto using grows_refl|].
    destruct (ediff _ _ _) as [u [ans [ind acc]]].
    apply bind_ok in H. destruct H as ([st2 d'] & A & H). inversion H; subst st'; clear H.
    set (s' := ps_diff s _) in *. set (ev := PEv false d id _ s' ans ind) in *.
    assert (K : incl (p_eid st) (p_eid st2) /\ p_eder st2 = p_eder st /\
      p_log st2 = p_log st ++ [ev] /\ In (d', ans) (p_eid st2) /\
      forall k i, In (k, i) (p_eid st) -> g_vx (p_g st2) (ne k) = g_vx (p_g st) (ne k)).
    { match type of A with match ?b with _ => _ end = _ => destruct b as [x|] eqn:B end.
      - inversion A; subst. cbn. apply by_id_some in B. cbn in B.
        split; [apply incl_refl|]. auto.
      - assert (G : forall k i, In (k, i) (p_eid st) -> g_vx (p_g st2) (ne k) = g_vx (p_g st) (ne k)).
        { intros k i Hk. apply (i_elt _ _ _ _ _ _ I) in Hk.
          unfold p_addEquation in A. apply bind_ok in A. destruct A as (u1 & _ & A).
          apply bind_ok in A. destruct A as (u2 & _ & A). inversion A; subst st2 d'. cbn.
          change (NE (p_next st, None)) with (ne (p_next st)). apply nupd_other.
          intro E. inversion E. lia. }
        apply add_equation_inv in A. cbn in A. destruct A as (F & -> & _ & E1 & E2 & E3 & E4 & E5 & E6).
        rewrite E3, E5, E6. split; [apply incl_appl, incl_refl|]. split; auto. split; auto.
        split; auto. rewrite in_app_iff; cbn; auto. }
    destruct K as (K1 & K2 & K3 & K4 & K5). split.
    - constructor; cbn; auto.
      + rewrite K3. apply incl_appl, incl_refl.
      + intros k i Hk p Hp. now rewrite (K5 k i Hk) in Hp.
    - intros D k x. cbn. rewrite pm_add_get. destruct (Nat.eqb k d) eqn:E.
      + intro Hx. inversion Hx; subst x. apply Nat.eqb_eq in E. subst k. rewrite K2, K3.
        destruct (pm_get (p_eder st) d) as [y|] eqn:Y.
        * cbn. destruct (D _ _ Y) as (a & A1 & A2 & A3 & A4). exists a. rewrite in_app_iff. auto 8.
        * exists ev. rewrite in_app_iff. cbn. auto 8.
      + rewrite K2, K3. intro Hx. destruct (D _ _ Hx) as (a & A1 & A2 & A3 & A4).
        exists a. rewrite in_app_iff. auto 8.
  Qed.

  Lemma diffVisited_ext : forall st v st', p_diffVisited U vdiff ediff st v = Ok st' -> sinv st ->
    grows st st' /\ (dlog st -> dlog st').
  Proof.
    intros st v st' H I. unfold p_diffVisited in H. apply bind_ok in H. destruct H as (st1 & A & H).
    assert (G : forall (f : pstate U -> node * pset -> res (pstate U)) l,
      (forall st x st', f st x = Ok st' -> sinv st -> sinv st' /\ grows st st' /\ (dlog st -> dlog st')) ->
      forall st st', fold_res f l st = Ok st' -> sinv st ->
        sinv st' /\ grows st st' /\ (dlog st -> dlog st')).
    { clear. intros f l F. induction l as [|x l IH]; intros st st' H I; cbn in H.
      - inversion H; subst. auto using grows_refl.
      - apply bind_ok in H. destruct H as (st1 & E & H). destruct (F _ _ _ E I) as (I1 & G1 & D1).
        destruct (IH _ _ H I1) as (I2 & G2 & D2). split; auto. split; [eapply grows_trans; eauto|auto]. }
    apply G in A; auto.
    - destruct A as (I1 & G1 & D1). apply G in H; auto.
      + destruct H as (I2 & G2 & D2). split; [eapply grows_trans; eauto|auto].
      + intros st0 [[n|n] s] st2 E J; cbn in E.
        * inversion E; subst. auto using grows_refl.
        * split; [eapply diffEquation_inv; eauto|eapply diffEquation_ext; eauto].
    - intros st0 [[n|n] s] st2 E J; cbn in E.
      + split; [eapply diffVariable_inv; eauto|eapply diffVariable_ext; eauto].
      + inversion E; subst. auto using grows_refl.
  Qed.

  (** ** The loop *)

  Definition waiting (st : pstate U) (work : list nat) (d : nat) : Prop :=
    In d work \/ mt_unmatched (g_vx (p_g st) (ne d)) = [].

  Lemma leads_mono : forall (st st' : pstate U) (B B' : nat -> Prop), incl (p_eid st) (p_eid st') ->
    incl (p_log st) (p_log st') ->
    (forall d id, In (d, id) (p_eid st) -> B d -> leads (p_eid st') (p_log st') B' id) ->
    forall id, leads (p_eid st) (p_log st) B id -> leads (p_eid st') (p_log st') B' id.
  Proof.
    intros st st' B B' E L H id K. induction K as [d id Hd Hb|a Ha Va K IH]; eauto.
    apply leads_next; auto.
  Qed.

  Lemma waiting_grows : forall st st' work, grows st st' -> forall d id, In (d, id) (p_eid st) ->
    waiting st work d -> waiting st' work d.
  Proof.
    intros st st' work G d id Hd [H|H]; [left; auto|right].
    destruct (mt_unmatched (g_vx (p_g st') (ne d))) as [|p l] eqn:E; auto.
    assert (K : In p (mt_unmatched (g_vx (p_g st) (ne d)))).
    { eapply w_unm; eauto. rewrite E. cbn; auto. }
    rewrite H in K. contradiction.
  Qed.

  Lemma work_leads : forall sc, fair sc -> forall fuel bfuel round st work st' w,
    p_work solve U vdiff ediff fuel bfuel sc round st work = Ok (st', w) ->
    sinv st -> dlog st ->
    (forall e, In e work -> exists id, In (e, id) (p_eid st)) ->
    grows st st' /\
    forall id, leads (p_eid st) (p_log st) (waiting st work) id ->
      leads (p_eid st') (p_log st') (waiting st' w) id.
  Proof.
    intros sc [F1 F2]. induction fuel as [|f IH]; intros bfuel round st work st' w H I D W;
      destruct work as [|e work]; cbn [p_work] in H;
      try (inversion H; subst; split; [apply grows_refl|auto]; fail).
    set (u := mt_unmatched _) in *.
    destruct (ps_empty u) eqn:Em.
    { apply IH in H; auto; [|intros; apply W; cbn; auto]. destruct H as [G K]. split; auto.
      intros id L. apply K. apply (leads_mono st st (waiting st (e :: work))); auto using incl_refl.
      intros d i Hd [[<-|Hw]|Hw]; apply (leads_here _ _ _ _ _ Hd).
      - right. now apply ps_empty_spec.
      - left; auto.
      - right; auto. }
    apply bind_ok in H. destruct H as ([cand v] & B & H).
    assert (C : Forall (fun t => alternates t /\ exists v, s_node t = NV v) cand).
    { eapply bfs_alternates in B; eauto. { intros lv w0 l s Hs. now apply F1 in Hs. } repeat constructor. }
    destruct (filter_paths _ _ _ cand) as [|p ps] eqn:Fp.
    - apply bind_ok in H. destruct H as (st1 & Dv & H).
      pose proof (diffVisited_inv _ _ _ _ _ _ Dv I) as I1.
      destruct (diffVisited_ext _ _ _ Dv I) as [G1 D1].
      destruct (pm_get (p_eder st1) e) as [x|] eqn:Ex; [|discriminate].
      destruct (D1 D e x Ex) as (a & A1 & A2 & A3 & A4).
      apply IH in H; auto.
      + destruct H as [G K]. split; [eapply grows_trans; eauto|]. intros id L. apply K.
        apply (leads_mono st st1 (waiting st (e :: work))); auto; [apply G1|apply G1|].
        intros d i Hd Hw.
        destruct (Nat.eq_dec d e) as [->|Ne].
        * assert (i = pe_id a).
          { eapply (i_efun _ _ _ _ _ _ I1); eauto. now apply (w_eid _ _ G1). }
          subst i. apply leads_next; auto. apply (leads_here _ _ _ _ _ A4). left; cbn; auto.
        * apply (leads_here _ _ _ d i); [now apply (w_eid _ _ G1)|].
          apply (waiting_grows st st1) with (id := i); auto.
          destruct Hw as [[->|Hw]|Hw]; [congruence|left; cbn; auto|right; auto].
      + intros k [<-|Hk]; eauto. destruct (W k) as (i & Hi); [cbn; auto|].
        exists i. now apply (w_eid _ _ G1).
    - rewrite <- Fp in H. 
      pose proof (filter_covered (pc_snap sc round) cand 0 (fun _ => None, []) C) as Cv.
      rewrite Fp in H, Cv. apply bind_ok in H. destruct H as (g & E & H).
      pose proof (apply_paths_shrinks _ _ _ Cv E) as S.
      assert (G1 : grows st (p_set st g)).
      { constructor; try apply incl_refl. intros d i _ q Hq. now apply S. }
      apply IH in H; auto. destruct H as [G K]. split; [eapply grows_trans; eauto|].
      intros id L. apply K. apply (leads_mono st (p_set st g) (waiting st (e :: work))); auto using incl_refl.
      intros d i Hd Hw. apply (leads_here _ _ _ d i); auto.
      apply (waiting_grows st (p_set st g)) with (id := i); auto.
  Qed.
  Lemma op_result : forall st o st', p_op U st o = Ok st' ->
    p_eder st' = p_eder st /\ incl (p_eid st) (p_eid st') /\
    forall id s acc, o = PEqn id s acc -> exists d, In (d, id) (p_eid st').
  Proof.
    intros st [id s|v der s|id s acc] st' H; cbn in H.
    - apply bind_ok in H. destruct H as ([st1 d] & A & H). inversion H; subst st'.
      apply add_variable_inv in A. destruct A as (F & -> & _ & ->). cbn.
      split; auto. split; [apply incl_refl|discriminate].
    - unfold p_addDerivative in H.
      assert (K : p_eder st' = p_eder st /\ p_eid st' = p_eid st).
      { destruct (by_id (p_vid st) v); [|inversion H; auto].
        destruct (by_id (p_vid st) der); [|inversion H; auto].
        apply add_derivative_inv in H. tauto. }
      destruct K as [-> ->]. split; auto. split; [apply incl_refl|discriminate].
    - apply bind_ok in H. destruct H as ([st1 d] & A & H). inversion H; subst st'.
      apply add_equation_inv in A. destruct A as (F & -> & _ & E1 & E2 & E3 & E4 & E5 & E6).
      rewrite E3. split; auto. split; [apply incl_appl, incl_refl|].
      intros id0 s0 acc0 E. inversion E; subst. exists (p_next st). rewrite in_app_iff. cbn. auto.
  Qed.
  Lemma build_result : forall u ops st, p_build U u ops = Ok st ->
    p_eder st = [] /\ forall id, declared_equation ops id -> exists d, In (d, id) (p_eid st).
  Proof.
    unfold p_build. intros u ops.
    assert (G : forall st0 st, p_eder st0 = [] -> fold_res (p_op U) ops st0 = Ok st ->
      p_eder st = [] /\ incl (p_eid st0) (p_eid st) /\
      forall id, declared_equation ops id -> exists d, In (d, id) (p_eid st)).
    { induction ops as [|o ops IH]; intros st0 st E H; cbn in H.
      - inversion H; subst. split; auto. split; [apply incl_refl|]. intros id (s & a & []).
      - apply bind_ok in H. destruct H as (st1 & A & H).
        destruct (op_result _ _ _ A) as (E1 & I1 & D1).
        destruct (IH st1 st) as (E2 & I2 & D2); auto. { congruence. }
        split; auto. split; [eapply incl_tran; eauto|]. intros id (s & a & [->|Hin]).
        + destruct (D1 _ _ _ eq_refl) as (d & Hd). exists d. auto.
        + apply D2. red. eauto. }
    intros st H. destruct (G (p_new U u) st eq_refl H) as (A & _ & B). auto.
  Qed.

  Lemma run_settled : forall fu sc pick fuel bfuel psc u ops st st1 st' w, fair psc ->
    p_build U u ops = Ok st -> p_match solve U fu sc pick st = Ok (st1, None) ->
    p_run solve U vdiff ediff fu sc pick fuel bfuel psc st = Ok (st', w) ->
    forall id, declared_equation ops id -> leads (p_eid st') (p_log st') (waiting st' w) id.
  Proof.
    intros fu sc pick fuel bfuel psc u ops st st1 st' w F B M R id D.
    pose proof (build_inv _ _ _ _ B) as [I L]. destruct (build_result _ _ _ B) as [E Dc].
    unfold p_run in R. rewrite M in R. cbn [bind] in R.
    apply match_state in M. destruct M as (g & _ & ->).
    apply (work_leads _ F) in R; auto.
    - destruct R as [_ K]. apply K. destruct (Dc id D) as (d & Hd).
      apply (leads_here _ _ _ d id); auto. left. rewrite <- in_rev. apply in_map_iff. exists (d, id). auto.
    - intros d x Hx. cbn in Hx. rewrite E in Hx. discriminate.
    - intros e He. apply in_rev, in_map_iff in He. destruct He as ([d i] & <- & Hd). exists i. auto.
  Qed.
End Result.
