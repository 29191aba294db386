(** The loop of the index reduction trips no assertion, and what its callbacks get. *)
From Coq Require Import ZArith List Bool Arith Lia Permutation.
From Verif Require Import RangeModel Result ListTac MatchModel MatchSpec MatchSetProofs
  MatchBuildProofs PantModel PantSpec PantProofs PantGraphProofs.
Import ListNotations.
Local Open Scope nat_scope.

Definition live (vid eid : list (nat * nat)) (n : node) : Prop :=
  match n with
  | NV (d, None) => exists id, In (d, id) vid
  | NE (d, None) => exists id, In (d, id) eid
  | _ => False
  end.

Lemma gcore_ext : forall (P Q : node -> Prop) g, (forall n, P n <-> Q n) -> gcore P g -> gcore Q g.
Proof.
  intros P Q g E G. constructor.
  - intros e He. rewrite <- !E. now apply (gc_ends _ _ G).
  - apply G.
  - apply G.
  - intros n p H. apply (gc_union _ _ G). now apply E.
Qed.

Lemma uni_new : forall s, uni (mt_new s).
Proof. intros s p. cbn. tauto. Qed.

Lemma addNode_core : forall P g n s, gcore P g -> ~ P n ->
  gcore (fun k => P k \/ k = n) (g_addNode g n s) /\
  forall k, k <> n -> g_vx (g_addNode g n s) k = g_vx g k.
Proof.
  intros P g n s G F.
  assert (S : forall k, k <> n -> g_vx (g_addNode g n s) k = g_vx g k).
  { intros k Hk. cbn. now apply nupd_other. }
  split; auto. constructor.
  - intros e He. cbn in He. destruct (gc_ends _ _ G e He). auto.
  - intros e i j He Hi. destruct (gc_ends _ _ G e He) as [A B].
    rewrite !S; [exact (gc_inc _ _ G e i j He Hi)| |]; intro E; rewrite <- E in F; auto.
  - intros e x He. exact (gc_sub _ _ G e x He).
  - intros k p [H|H].
    + rewrite S; [now apply (gc_union _ _ G)|]. intros ->; auto.
    + subst. cbn. rewrite nupd_same. apply uni_new.
Qed.

Lemma firsts_in : forall l seen x, In x (firsts l seen) -> In x l.
Proof.
  induction l as [|y l IH]; intros seen x H; cbn in H; [contradiction|].
  destruct (existsb _ _); [right; eauto|]. destruct H as [->|H]; [left|right]; eauto.
Qed.

Lemma setMatchable_uni : forall m s, uni m -> (forall p, In p s -> In p (mt_all m)) ->
  uni (mt_setMatchable m s).
Proof.
  intros m s H S p. cbn. rewrite !ps_inter_spec. specialize (H p). specialize (S p). tauto.
Qed.

(** The edges of a variable are cut down to its indices. *)
Lemma cut_core : forall (P : node -> Prop) v s es g, (forall e, In e es -> snd e = v) ->
  let g' := fold_left (fun g e => g_setEd g e (ed_setVariables (g_ed g e) s)) es g in
  g_edges g' = g_edges g /\ g_vx g' = g_vx g /\
  (forall e x, In x (ents (ed_inc (g_ed g' e))) -> In x (ents (ed_inc (g_ed g e)))) /\
  (forall e i j, In e es -> In (i, j) (ents (ed_inc (g_ed g' e))) -> In j s) /\
  (forall e, ~ In e es -> g_ed g' e = g_ed g e) /\
  ((forall e x, In e (g_edges g) -> In x (ents (ed_match (g_ed g e))) \/ In x (ents (ed_unm (g_ed g e))) ->
      In x (ents (ed_inc (g_ed g e)))) ->
   forall e x, In e (g_edges g') -> In x (ents (ed_match (g_ed g' e))) \/ In x (ents (ed_unm (g_ed g' e))) ->
      In x (ents (ed_inc (g_ed g' e)))).
Proof.
  intros P v s. induction es as [|e es IH]; intros g Hv; cbn zeta in *; cbn [fold_left].
  - split; [|split; [|split; [|split; [|split]]]]; auto. intros e i j [].
  - set (g1 := g_setEd g e (ed_setVariables (g_ed g e) s)).
    destruct (IH g1) as (A & B & C & D & E & F). { intros; apply Hv; cbn; auto. }
    assert (Same : g_ed g1 e = ed_setVariables (g_ed g e) s).
    { cbn. unfold eupd. destruct (medid_eqb e e) eqn:X; auto.
      assert (medid_eqb e e = true) by now apply medid_eqb_spec. congruence. }
    assert (Other : forall k, k <> e -> g_ed g1 k = g_ed g k).
    { intros k Hk. cbn. unfold eupd. destruct (medid_eqb k e) eqn:X; auto.
      apply medid_eqb_spec in X. contradiction. }
    assert (Down : forall k x, In x (ents (ed_inc (g_ed g1 k))) -> In x (ents (ed_inc (g_ed g k)))).
    { intros k x H. destruct (medid_eq_dec k e) as [->|N].
      - rewrite Same in H. cbn in H. eapply filterVars_sub; eauto.
      - now rewrite Other in H. }
    split; [|split; [|split; [|split; [|split]]]]; auto.
    + intros k i j H Hi. destruct H as [<-|H]; [|eauto].
      destruct (in_dec medid_eq_dec e es) as [I|I]; [eauto|].
      rewrite (E e I), Same in Hi. cbn in Hi. apply m_filterVars_spec in Hi. tauto.
    + intros k Hk. cbn in Hk. rewrite E; [|tauto]. apply Other. intros ->; tauto.
    + intros Hs. apply F. intros k [i j] Hk H. change (In k (g_edges g)) in Hk.
      destruct (medid_eq_dec k e) as [->|N].
      * rewrite Same in *. cbn in *. rewrite !m_filterVars_spec in *.
        specialize (Hs e (i, j) Hk). tauto.
      * rewrite Other in * by auto. eauto.
Qed.

Section Safe.
  Variable solve : mmat -> list mmat.
  Hypothesis Hsolve : forall m o x, In o (solve m) -> In x (ents o) -> In x (ents m).
  Variable U : Type.
  Variable vdiff : U -> nat -> pset -> U * (nat * pset).
  Variable ediff : U -> nat -> pset -> U * (nat * (pset * list (nat * macc))).
  Hypothesis Hv : forall u id s, s <> [] -> snd (snd (vdiff u id s)) <> [].
  Hypothesis He : forall u id s, s <> [] -> fst (snd (snd (ediff u id s))) <> [].
  (** The ids that the user has declared. *)
  Variables Dv De : nat -> Prop.

  Definition lv (st : pstate U) : node -> Prop := live (p_vid st) (p_eid st).

  Record good (st : pstate U) : Prop := Good {
    o_inv : sinv st;
    o_core : gcore (lv st) (p_g st);
    o_der : forall d x, pm_get (p_eder st) d = Some x -> exists id, In (fst x, id) (p_eid st);
    o_vknown : forall d id, In (d, id) (p_vid st) ->
      Dv id \/ exists e, In e (p_log st) /\ pe_var e = true /\ pe_ans e = id;
    o_eknown : forall d id, In (d, id) (p_eid st) ->
      De id \/ exists e, In e (p_log st) /\ pe_var e = false /\ pe_ans e = id;
    o_known : known_calls Dv De (p_log st);
    o_inside : forall e, In e (p_log st) -> pe_ind e <> [] /\ incl (pe_ind e) (pe_all e);
    o_got : forall l1 a l2, p_log st = l1 ++ a :: l2 -> pe_var a = false -> ~ De (pe_ans a) ->
      (forall b, In b l1 -> pe_var b = false -> pe_ans b <> pe_ans a) ->
      exists d, In (d, pe_ans a) (p_eid st) /\ mt_all (g_vx (p_g st) (ne d)) = pe_got a }.

  Lemma fresh_nv : forall st, sinv st -> ~ lv st (nv (p_next st)).
  Proof. intros st I (id & H). apply (i_vlt _ _ _ _ _ _ I) in H. lia. Qed.
  Lemma fresh_ne : forall st, sinv st -> ~ lv st (ne (p_next st)).
  Proof. intros st I (id & H). apply (i_elt _ _ _ _ _ _ I) in H. lia. Qed.

  Lemma new_good : forall u, good (p_new U u).
  Proof.
    intro u. constructor; cbn; try contradiction; try discriminate.
    - apply sinv_new.
    - constructor; cbn; try contradiction. intros [[d [o|]]|[d [o|]]] p H; cbn in H; try contradiction;
        destruct H as (id & []).
    - intros l1 e l2 H. destruct l1; discriminate.
    - intros l1 e l2 H. destruct l1; discriminate.
  Qed.

  (** The graph of the new variable, and of the new equation. *)
  Lemma addVariable_core : forall st id s, sinv st -> gcore (lv st) (p_g st) ->
    let d := p_next st in
    let g := g_addNode (p_g st) (nv d) s in
    gcore (live (p_vid st ++ [(d, id)]) (p_eid st)) g /\
    (forall n, lv st n -> g_vx g n = g_vx (p_g st) n).
  Proof.
    intros st id s I G d g. pose proof (fresh_nv st I) as F.
    destruct (addNode_core _ _ (nv d) s G F) as [G1 S]. split.
    - eapply gcore_ext; [|exact G1]. intros [[k [o|]]|[k [o|]]]; cbn.
      + split; [intros [[]|H]; discriminate|tauto].
      + split.
        * intros [(i & H)|H]; [exists i; rewrite in_app_iff; auto|].
          inversion H; subst. exists id. rewrite in_app_iff; cbn; auto.
        * intros (i & H). rewrite in_app_iff in H. destruct H as [H|[H|[]]]; [left; eauto|right].
          inversion H; now subst.
      + split; [intros [[]|H]; discriminate|tauto].
      + split; [intros [H|H]; [auto|discriminate]|auto].
    - intros n Hn. apply S. intros ->; auto.
  Qed.

  Lemma known_in : forall st acc v a, In (v, a) (known_accs U st acc) -> lv st (NV v).
  Proof.
    intros st acc v a H. unfold known_accs in H. apply in_flat_map in H. destruct H as ([k b] & _ & H).
    cbn in H. destruct (by_id (p_vid st) k) as [w|] eqn:B; [|contradiction].
    destruct H as [H|[]]. inversion H; subst. apply by_id_some in B. cbn. eauto.
  Qed.

  Lemma addEquation_core : forall st id s acc st' d, sinv st -> gcore (lv st) (p_g st) ->
    p_addEquation U st id s acc = Ok (st', d) ->
    gcore (lv st') (p_g st') /\ (forall n, lv st n -> lv st' n /\ g_vx (p_g st') n = g_vx (p_g st) n).
  Proof.
    intros st id s acc st' d I G H. unfold p_addEquation in H.
    apply bind_ok in H. destruct H as (u1 & _ & H). apply bind_ok in H. destruct H as (u2 & _ & H).
    inversion H; subst d st'; clear H.
    set (d := p_next st) in *. pose proof (fresh_ne st I) as F. fold d in F.
    destruct (addNode_core _ _ (ne d) s G F) as [G1 S].
    set (g := g_addNode (p_g st) (ne d) s) in *.
    assert (L : forall n, live (p_vid st) (p_eid st ++ [(d, id)]) n <-> lv st n \/ n = ne d).
    { intros [[k [o|]]|[k [o|]]]; cbn.
      - split; [tauto|intros [[]|H]; discriminate].
      - split; [auto|intros [H|H]; [auto|discriminate]].
      - split; [tauto|intros [[]|H]; discriminate].
      - split.
        + intros (i & H). rewrite in_app_iff in H. destruct H as [H|[H|[]]]; [left; eauto|right].
          inversion H; now subst.
        + intros [(i & H)|H]; [exists i; rewrite in_app_iff; auto|].
          inversion H; subst. exists id. rewrite in_app_iff; cbn; auto. }
    assert (Old : forall e, In e (g_edges (p_g st)) -> mid_eqb (fst e) (d, None) = false).
    { intros e Hin. apply mid_eqb_false. intro E. apply F. destruct (gc_ends _ _ G e Hin) as [A _].
      unfold ne. now rewrite <- E. }
    assert (New : forall e, In e (map (pair (d, None) : mid -> medid) (firsts (map fst (known_accs U st acc)) [])) ->
              fst e = (d, None) /\ lv st (NV (snd e))).
    { intros e Hin. apply in_map_iff in Hin. destruct Hin as (v & <- & Hin). split; auto. cbn.
      apply firsts_in in Hin. apply in_map_iff in Hin. destruct Hin as ([w a] & <- & Hin).
      eapply known_in; eauto. }
    split.
    - cbn [p_g]. unfold lv; cbn [p_vid p_eid]. apply gcore_ext with (P := fun n => lv st n \/ n = ne d).
      { intro n. symmetry. apply L. }
      constructor; cbn [g_edges g_vx g_ed].
      + intros e Hin. rewrite in_app_iff in Hin. destruct Hin as [Hin|Hin].
        * now apply (gc_ends _ _ G1).
        * destruct (New e Hin) as [E V]. rewrite E. auto.
      + intros e i j Hin Hi. rewrite in_app_iff in Hin. destruct Hin as [Hin|Hin].
        * rewrite (Old e Hin) in Hi. exact (gc_inc _ _ G1 e i j Hin Hi).
        * destruct (New e Hin) as [E V]. rewrite E, mid_eqb_refl in Hi. rewrite E.
          match type of Hi with context [acc_edge ?a ?b ?c ?k ?d ?e] =>
            destruct (acc_edge_spec a b c d k e) as (A & B & C); auto; [intro; cbn; tauto|] end.
          apply C in Hi. destruct Hi as [[]|(Hi & Hj & _)]. split; auto.
          unfold g; cbn. change (NE (d, None)) with (ne d). now rewrite nupd_same.
      + intros e x Hin Hx. rewrite in_app_iff in Hin. destruct Hin as [Hin|Hin].
        * rewrite (Old e Hin) in *. exact (gc_sub _ _ G1 e x Hin Hx).
        * destruct (New e Hin) as [E V]. rewrite E, mid_eqb_refl in *.
          match type of Hx with context [acc_edge ?a ?b ?c ?k ?d ?e] =>
            destruct (acc_edge_spec a b c d k e) as (A & B & C); auto; [intro; cbn; tauto|] end.
          rewrite A in Hx. destruct Hx as [[]|Hx]. now apply B.
      + intros n p Hn. now apply (gc_union _ _ G1).
    - intros n Hn. split; [apply L; auto|]. cbn. apply S. intros ->; auto.
  Qed.

  (** A derivative is recorded: the variable loses indices, or goes. *)
  Lemma addDerivative_core : forall st d der s, lv st (nv d) -> gcore (lv st) (p_g st) ->
    exists st', p_addVariableDerivative U st d der s = Ok st' /\ gcore (lv st') (p_g st') /\
      p_user st' = p_user st /\
      forall n, n <> nv d -> lv st n -> lv st' n /\ g_vx (p_g st') n = g_vx (p_g st) n.
  Proof.
    intros st d der s Ld G. unfold p_addVariableDerivative, vv_removeIndices.
    set (m := g_vx (p_g st) (nv d)) in *.
    assert (Hu : uni m) by (intro p; now apply (gc_union _ _ G)).
    destruct (ps_empty (ps_diff (mt_all m) s)) eqn:Em.
    - cbn [bind]. eexists. split; [reflexivity|]. unfold lv at 1 3, p_removeVariable, g_remove.
      cbn [p_vid p_eid p_g p_user g_vx].
      assert (L : forall n, n <> nv d -> lv st n ->
        live (filter (fun x => negb (Nat.eqb (fst x) d)) (p_vid st)) (p_eid st) n).
      { intros [[k [o|]]|[k [o|]]] N H; cbn in *; auto. destruct H as (id & H). exists id.
        apply filter_In. split; auto. cbn. apply negb_true_iff, Nat.eqb_neq. intros ->. now apply N. }
      assert (L' : forall n, live (filter (fun x => negb (Nat.eqb (fst x) d)) (p_vid st)) (p_eid st) n -> lv st n).
      { intros [[k [o|]]|[k [o|]]] H; cbn in *; auto. destruct H as (id & H). exists id.
        apply filter_In in H. tauto. }
      split; [|split; auto].
      constructor; cbn [g_edges g_vx g_ed].
      + intros e Hin. apply filter_In in Hin. destruct Hin as [Hin T].
        destruct (gc_ends _ _ G e Hin). cbn [n_touches nv] in T. split; apply L; auto; [discriminate|].
        intro E. apply negb_true_iff in T. inversion E as [E']. rewrite E', mid_eqb_refl in T. discriminate.
      + intros e i j Hin. apply filter_In in Hin. apply (gc_inc _ _ G). tauto.
      + intros e x Hin. apply filter_In in Hin. apply (gc_sub _ _ G). tauto.
      + intros n p H. apply (gc_union _ _ G). auto.
    - unfold vv_setIndices. rewrite Em. cbn [negb assert_ok bind].
      set (m' := mt_setMatchable m (ps_diff (mt_all m) s)).
      assert (Hu' : uni m').
      { apply setMatchable_uni; auto. intros p Hp. apply ps_diff_spec in Hp. tauto. }
      eexists. split; [reflexivity|]. cbn [p_g p_vid p_eid p_user]. unfold lv; cbn [p_vid p_eid].
      set (g := g_setVx (p_g st) (nv d) m').
      assert (Hes : forall e, In e (g_out g (nv d)) -> snd e = (d, None)).
      { intros e Hin. unfold g_out in Hin. apply filter_In in Hin. destruct Hin as [_ T]. cbn in T.
        symmetry. now apply mid_eqb_spec. }
      destruct (cut_core (lv st) (d, None) (mt_all m') (g_out g (nv d)) g Hes) as (A & B & C & D & E & F).
      set (g' := fold_left _ _ _) in *.
      assert (Oth : forall n, n <> nv d -> g_vx g' n = g_vx (p_g st) n).
      { intros n N. rewrite B. cbn. now apply nupd_other. }
      assert (Sm : g_vx g' (nv d) = m') by (rewrite B; cbn; apply nupd_same).
      split; [|split; auto].
      constructor.
      + intros e Hin. rewrite A in Hin. now apply (gc_ends _ _ G).
      + intros e i j Hin Hi. rewrite A in Hin. change (In e (g_edges (p_g st))) in Hin.
        pose proof (C _ _ Hi) as Hi'. change (g_ed g e) with (g_ed (p_g st) e) in Hi'.
        destruct (gc_inc _ _ G e i j Hin Hi') as [X Y].
        rewrite (Oth (NE (fst e))) by discriminate. split; auto.
        destruct (node_eq_dec (NV (snd e)) (nv d)) as [Q|Q]; [|now rewrite Oth].
        rewrite Q, Sm. apply (D e i j); auto. unfold g_out. apply filter_In. split; auto.
        inversion Q as [Q']. cbn. rewrite Q'. apply mid_eqb_refl.
      + intros e x Hin Hx. apply F; auto. intros k y Hk. exact (gc_sub _ _ G k y Hk).
      + intros n p H. destruct (node_eq_dec n (nv d)) as [->|N].
        * rewrite Sm. apply Hu'.
        * rewrite Oth by auto. now apply (gc_union _ _ G).
  Qed.

  Definition same_all (st st' : pstate U) (n : node) : Prop :=
    lv st' n /\ mt_all (g_vx (p_g st') n) = mt_all (g_vx (p_g st) n).

  (** ** Building *)

  Lemma op_good : forall o st st',
    (forall id s, o = PVar id s -> Dv id) -> (forall id s a, o = PEqn id s a -> De id) ->
    p_op U st o = Ok st' -> p_log st = [] -> good st -> good st'.
  Proof.
    intros o st st' Hdv Hde H L O. pose proof O as [I G D Kv Ke Kl In_ Go].
    destruct (op_inv U o st st' H L I) as [I' L'].
    destruct o as [id s|v der s|id s acc]; cbn in H.
    - apply bind_ok in H. destruct H as ([st1 d] & A & H). inversion H; subst st1; clear H.
      apply add_variable_inv in A. destruct A as (F & -> & _ & ->).
      destruct (addVariable_core st id s I G) as [G1 _].
      constructor; auto.
      + cbn. intros d i Hi. rewrite in_app_iff in Hi.
        destruct Hi as [Hi|[Hi|[]]]; [eauto|]. inversion Hi; subst. left; eauto.
    - unfold p_addDerivative in H. destruct (by_id (p_vid st) v) as [d|] eqn:B; [|now inversion H; subst].
      destruct (by_id (p_vid st) der) as [d'|]; [|now inversion H; subst].
      apply by_id_some in B.
      destruct (addDerivative_core st d d' s) as (st2 & E & G1 & _ & _); auto. { cbn; eauto. }
      rewrite E in H. inversion H; subst st2; clear H.
      apply add_derivative_inv in E. destruct E as (E1 & E2 & E3 & E4 & E5).
      constructor; auto; rewrite ?E2, ?E3, ?E4; auto.
      + intros x i Hi. apply (Kv x i). destruct E5 as [[E5 _]|[E5 _]]; rewrite E5 in Hi; auto.
        apply filter_In in Hi. tauto.
      + rewrite L. intros l1 a l2 Q. destruct l1; discriminate.
    - apply bind_ok in H. destruct H as ([st1 d] & A & H). inversion H; subst st1; clear H.
      destruct (addEquation_core _ _ _ _ _ _ I G A) as [G1 _].
      apply add_equation_inv in A. destruct A as (F & -> & _ & E1 & E2 & E3 & E4 & E5 & E6).
      constructor; auto; rewrite ?E2, ?E3, ?E5, ?E6; auto.
      + intros d x Hx. apply D in Hx. destruct Hx as (i & Hx). exists i. rewrite in_app_iff; auto.
      + intros d i Hi. rewrite in_app_iff in Hi.
        destruct Hi as [Hi|[Hi|[]]]; [eauto|]. inversion Hi; subst. left; eauto.
      + rewrite L. intros l1 a l2 Q. destruct l1; discriminate.
  Qed.

  Lemma build_good : forall u ops st,
    (forall id s, In (PVar id s) ops -> Dv id) -> (forall id s a, In (PEqn id s a) ops -> De id) ->
    p_build U u ops = Ok st -> good st.
  Proof.
    unfold p_build. intros u ops.
    assert (G : forall st0 st, (forall id s, In (PVar id s) ops -> Dv id) ->
      (forall id s a, In (PEqn id s a) ops -> De id) -> good st0 -> p_log st0 = [] ->
      fold_res (p_op U) ops st0 = Ok st -> good st).
    { induction ops as [|o ops IH]; intros st0 st A B I L H; cbn in H.
      - inversion H; subst; auto.
      - apply bind_ok in H. destruct H as (st1 & E & H).
        destruct (op_inv _ _ _ _ E L (o_inv _ I)). apply (IH st1); auto.
        + intros; eapply A; cbn; eauto.
        + intros; eapply B; cbn; eauto.
        + eapply op_good; eauto; intros; subst; [eapply A|eapply B]; cbn; eauto. }
    intros st A B H. eapply G; eauto; [apply new_good|reflexivity].
  Qed.

  (** ** Differentiating *)

  Lemma known_snoc : forall log e, known_calls Dv De log ->
    ((if pe_var e then Dv else De) (pe_id e) \/
     exists a, In a log /\ pe_var a = pe_var e /\ pe_ans a = pe_id e) ->
    known_calls Dv De (log ++ [e]).
  Proof.
    intros log e K H l1 x l2 E. apply snoc_split in E.
    destruct E as [(-> & -> & ->)|(l & -> & ->)]; auto. eapply K; eauto.
  Qed.

  Lemma id_of_live : forall l d id, In (d, id) l -> exists id', id_of l d = Some id'.
  Proof.
    intros l d id H. unfold id_of. destruct (find _ l) as [x|] eqn:E; [eauto|].
    eapply find_none in E; eauto. cbn in E. now rewrite Nat.eqb_refl in E.
  Qed.

  Lemma diffVariable_good : forall st d s, good st -> touch_ok (lv st) (p_g st) (nv d, s) ->
    exists st', p_diffVariable U vdiff st d s = Ok st' /\ good st' /\
      p_eder st' = p_eder st /\ (forall n, n <> nv d -> lv st n -> same_all st st' n).
  Proof.
    intros st d s O [L T]. cbn in T. pose proof O as [I G D Kv Ke Kl Ins Go].
    assert (E0 : exists st', p_diffVariable U vdiff st d s = Ok st' /\
      (sinv st' -> good st' /\
      p_eder st' = p_eder st /\ (forall n, n <> nv d -> lv st n -> same_all st st' n))).
    2:{ destruct E0 as (st' & E & K). exists st'. split; auto. apply K. eapply diffVariable_inv; eauto. }
    unfold p_diffVariable. destruct L as (id0 & L0). destruct (id_of_live _ _ _ L0) as (id & Id).
    rewrite Id. apply id_of_some in Id.
    set (s' := ps_diff s _).
    destruct (ps_empty s') eqn:Em.
    { exists st. split; auto. intro. split; auto. split; auto. intros; split; auto. }
    assert (Ns : s' <> []). { intro E. rewrite E in Em. discriminate. }
    pose proof (Hv (p_user st) id s' Ns) as Hne.
    destruct (vdiff (p_user st) id s') as [u [ans ind]]. cbn in Hne.
    set (ev := PEv true d id _ s' ans ind). set (st1 := p_call U st u ev).
    assert (K : exists st2 d', (match by_id (p_vid st1) ans with
                     | Some d' => Ok (st1, d')
                     | None => p_addVariable U st1 ans ind end) = Ok (st2, d') /\
       gcore (lv st2) (p_g st2) /\ p_log st2 = p_log st ++ [ev] /\ p_eid st2 = p_eid st /\
       p_eder st2 = p_eder st /\
       (forall k i, In (k, i) (p_vid st2) -> In (k, i) (p_vid st) \/ i = ans) /\
       (forall n, lv st n -> lv st2 n /\ g_vx (p_g st2) n = g_vx (p_g st) n)).
    { destruct (by_id (p_vid st1) ans) as [x|] eqn:B.
      - exists st1, x. do 8 (split; auto).
      - destruct (addVariable_core st ans ind I G) as [G1 S1].
        exists (PS U (S (p_next st)) (g_addNode (p_g st) (nv (p_next st)) ind)
                 (p_vid st ++ [(p_next st, ans)]) (p_eid st) (p_acc st)
                 (p_vder st) (p_eder st) u (p_log st ++ [ev])), (p_next st).
        split.
        { unfold p_addVariable. replace (ps_empty ind) with false; [|now destruct ind].
          rewrite B. reflexivity. }
        split; auto. split; auto. split; auto. split; auto. split.
        + cbn. intros k i H. rewrite in_app_iff in H. destruct H as [H|[H|[]]]; auto. inversion H; auto.
        + intros n Hn. split; auto. destruct n as [[k [o|]]|[k [o|]]]; cbn in *; auto.
          destruct Hn as (i & Hn). exists i. rewrite in_app_iff; auto. }
    destruct K as (st2 & d' & -> & G2 & L2 & Ei2 & Ed2 & V2 & S2). cbn [bind].
    destruct (addDerivative_core st2 d d' s') as (st3 & E3 & G3 & _ & S3); auto.
    { apply S2. cbn; eauto. }
    exists st3. split; auto. intro I3.
    apply add_derivative_inv in E3. destruct E3 as (E31 & E32 & E33 & E34 & E35).
    split; [|split].
    - constructor; auto.
      + rewrite E33, E32, Ed2, Ei2. auto.
      + intros k i Hi. rewrite E34, L2.
        assert (Hk : In (k, i) (p_vid st2)).
        { destruct E35 as [[Q _]|[Q _]]; rewrite Q in Hi; auto. apply filter_In in Hi; tauto. }
        apply V2 in Hk. destruct Hk as [Hk| ->].
        * destruct (Kv _ _ Hk) as [|(e & A & B)]; auto. right. exists e. rewrite in_app_iff; auto.
        * right. exists ev. rewrite in_app_iff; cbn; auto.
      + intros k i Hi. rewrite E32, Ei2 in Hi. rewrite E34, L2.
        destruct (Ke _ _ Hi) as [|(e & A & B)]; auto. right. exists e. rewrite in_app_iff; auto.
      + rewrite E34, L2. apply known_snoc; auto. cbn. apply (Kv d id Id).
      + rewrite E34, L2. intros e H. rewrite in_app_iff in H. destruct H as [H|[<-|[]]]; auto.
        cbn. split; auto. intros p Hp. apply ps_diff_spec in Hp. apply T. tauto.
      + rewrite E34, L2, E32, Ei2. intros l1 a l2 Q Va Na Fa. apply snoc_split in Q.
        destruct Q as [(-> & -> & ->)|(l & -> & Q)]; [discriminate|].
        destruct (Go _ _ _ Q Va Na Fa) as (k & Hk & Ek). exists k. split; auto.
        assert (Lk : lv st (ne k)) by (cbn; eauto).
        destruct (S2 _ Lk) as [A B]. destruct (S3 (ne k)) as [A' B']; auto; [discriminate|]. congruence.
    - congruence.
    - intros n N Hn. destruct (S2 n Hn) as [A B]. destruct (S3 n N A) as [A' B'].
      split; auto. congruence.
  Qed.

  Lemma pm_add_get : forall m d der s k,
    pm_get (pm_add m d der s) k =
    if Nat.eqb k d then Some (match pm_get m d with Some x => (fst x, ps_union (snd x) s) | None => (der, s) end)
    else pm_get m k.
  Proof.
    unfold pm_get. induction m as [|[a b] m IH]; intros d der s k; cbn.
    - rewrite (Nat.eqb_sym d k). destruct (Nat.eqb k d); reflexivity.
    - destruct (Nat.eqb a d) eqn:E; cbn.
      + apply Nat.eqb_eq in E. subst. rewrite (Nat.eqb_sym d k). destruct (Nat.eqb k d); reflexivity.
      + destruct (Nat.eqb a k) eqn:E2; cbn.
        * apply Nat.eqb_eq in E2. subst. now rewrite E.
        * apply IH.
  Qed.

  Lemma diffEquation_good : forall st d s, good st -> touch_ok (lv st) (p_g st) (ne d, s) ->
    exists st', p_diffEquation U ediff st d s = Ok st' /\ good st' /\
      (s <> [] -> pm_get (p_eder st') d <> None) /\
      (forall k, pm_get (p_eder st) k <> None -> pm_get (p_eder st') k <> None) /\
      (forall n, lv st n -> same_all st st' n).
  Proof.
    intros st d s O [L T]. cbn in T. pose proof O as [I G D Kv Ke Kl Ins Go].
    assert (E0 : exists st', p_diffEquation U ediff st d s = Ok st' /\
      (sinv st' -> good st' /\ (s <> [] -> pm_get (p_eder st') d <> None) /\
      (forall k, pm_get (p_eder st) k <> None -> pm_get (p_eder st') k <> None) /\
      (forall n, lv st n -> same_all st st' n))).
    2:{ destruct E0 as (st' & E & K). exists st'. split; auto. apply K. eapply diffEquation_inv; eauto. }
    unfold p_diffEquation. destruct L as (id0 & L0). destruct (id_of_live _ _ _ L0) as (id & Id).
    rewrite Id. apply id_of_some in Id.
    set (s' := ps_diff s _).
    destruct (ps_empty s') eqn:Em.
    { exists st. split; auto. intro. split; auto. split; [|split; auto; intros; split; auto].
      intros Hs Hn. apply ps_empty_spec in Em. apply list_ne in Hs. destruct Hs as (p & Hp).
      assert (In p s'). { apply ps_diff_spec. split; auto. unfold pm_recorded. rewrite Hn. auto. }
      rewrite Em in *. contradiction. }
    assert (Ns : s' <> []). { intro E. rewrite E in Em. discriminate. }
    pose proof (He (p_user st) id s' Ns) as Hne.
    destruct (ediff (p_user st) id s') as [u [ans [ind acc]]]. cbn in Hne.
    set (ev := PEv false d id _ s' ans ind). set (st1 := p_call U st u ev).
    assert (I1 : gcore (lv st1) (p_g st1)) by exact G.
    assert (K : exists st2 d', (match by_id (p_eid st1) ans with
                     | Some d' => Ok (st1, d')
                     | None => p_addEquation U st1 ans ind acc end) = Ok (st2, d') /\
       gcore (lv st2) (p_g st2) /\ p_log st2 = p_log st ++ [ev] /\ p_vid st2 = p_vid st /\
       p_eder st2 = p_eder st /\ (exists i, In (d', i) (p_eid st2)) /\
       (forall k i, In (k, i) (p_eid st2) -> In (k, i) (p_eid st) \/ i = ans) /\
       (forall k i, In (k, i) (p_eid st) -> In (k, i) (p_eid st2)) /\
       ((forall k, ~ In (k, ans) (p_eid st)) ->
        In (d', ans) (p_eid st2) /\ mt_all (g_vx (p_g st2) (ne d')) = ind) /\
       (forall n, lv st n -> lv st2 n /\ g_vx (p_g st2) n = g_vx (p_g st) n)).
    { destruct (by_id (p_eid st1) ans) as [x|] eqn:B.
      - exists st1, x. apply by_id_some in B. do 5 (split; auto). split; [eauto|]. split; auto. split; auto.
        split; auto. intro Q. exfalso. exact (Q x B).
      - assert (Q : exists st2 d', p_addEquation U st1 ans ind acc = Ok (st2, d')).
        { unfold p_addEquation. replace (ps_empty ind) with false; [|now destruct ind].
          rewrite B. cbn [negb assert_ok bind]. eauto. }
        destruct Q as (st2 & d' & Q). exists st2, d'. split; auto.
        (* the freshness facts only look at the descriptors *)
        assert (C : gcore (lv st2) (p_g st2) /\
                    forall n, lv st n -> lv st2 n /\ g_vx (p_g st2) n = g_vx (p_g st) n).
        { set (st0 := PS U (p_next st) (p_g st) (p_vid st) (p_eid st) (p_acc st) (p_vder st) (p_eder st) u (p_log st)).
          assert (Q0 : exists st2', p_addEquation U st0 ans ind acc = Ok (st2', d') /\
                    p_g st2' = p_g st2 /\ p_vid st2' = p_vid st2 /\ p_eid st2' = p_eid st2).
          { unfold p_addEquation in *. apply bind_ok in Q. destruct Q as (u1 & A1 & Q).
            rewrite A1. cbn [bind]. apply bind_ok in Q. destruct Q as (u2 & A2 & Q).
            change (p_eid st0) with (p_eid st1). rewrite A2. cbn [bind].
            inversion Q; subst st2 d'. eexists. split; [reflexivity|]. auto. }
          destruct Q0 as (st2' & Q0 & Eg & Ev & Ee).
          destruct (addEquation_core st0 ans ind acc st2' d') as [C1 C2]; auto.
          unfold lv in *. rewrite <- Eg, <- Ev, <- Ee. split; auto. }
        destruct C as [C1 C2].
        assert (Fr : mt_all (g_vx (p_g st2) (ne d')) = ind).
        { unfold p_addEquation in Q. apply bind_ok in Q. destruct Q as (u1 & _ & Q).
          apply bind_ok in Q. destruct Q as (u2 & _ & Q). inversion Q; subst st2 d'. cbn.
          change (NE (p_next st, None)) with (ne (p_next st)). rewrite nupd_same. reflexivity. }
        apply add_equation_inv in Q. destruct Q as (_ & Q1 & _ & Q2 & Q3 & Q4 & Q5 & Q6 & Q7).
        split; auto. split; auto. split; auto. split; auto. rewrite Q4. split; [|split; [|split; [|split]]]; auto.
        + exists ans. rewrite in_app_iff; cbn; auto.
        + intros k i H. rewrite in_app_iff in H. destruct H as [H|[H|[]]]; auto. inversion H; auto.
        + intros k i H. rewrite in_app_iff; auto.
        + intros _. split; auto. rewrite in_app_iff; cbn; auto. }
    destruct K as (st2 & d' & -> & G2 & L2 & Ev2 & Ed2 & D2 & N2 & M2 & W2 & S2). cbn [bind].
    eexists. split; [reflexivity|]. intro I3. split; [|split; [|split]].
    - constructor; auto; cbn.
      + intros k x. rewrite pm_add_get. destruct (Nat.eqb k d).
        * intro H. inversion H; subst x. rewrite Ed2. destruct (pm_get (p_eder st) d) as [y|] eqn:Y.
          -- cbn. destruct (D _ _ Y) as (i & Hi). eauto.
          -- apply D2.
        * rewrite Ed2. intro H. destruct (D _ _ H) as (i & Hi). eauto.
      + rewrite Ev2, L2. intros k i Hi.
        destruct (Kv _ _ Hi) as [|(e & A & B)]; auto. right. exists e. rewrite in_app_iff; auto.
      + rewrite L2. intros k i Hi. apply N2 in Hi. destruct Hi as [Hi| ->].
        * destruct (Ke _ _ Hi) as [|(e & A & B)]; auto. right. exists e. rewrite in_app_iff; auto.
        * right. exists ev. rewrite in_app_iff; cbn; auto.
      + rewrite L2. apply known_snoc; auto. cbn. apply (Ke d id Id).
      + rewrite L2. intros e H. rewrite in_app_iff in H. destruct H as [H|[<-|[]]]; auto.
        cbn. split; auto. intros p Hp. apply ps_diff_spec in Hp. apply T. tauto.
      + rewrite L2. intros l1 a l2 Q Va Na Fa. apply snoc_split in Q.
        destruct Q as [(-> & -> & ->)|(l & -> & Q)].
        * exists d'. apply W2. intros k Hk. apply Ke in Hk.
          destruct Hk as [Hk|(e & A & B & C)]; [now apply Na|]. exact (Fa e A B C).
        * destruct (Go _ _ _ Q Va Na Fa) as (k & Hk & Ek). exists k. split; auto.
          assert (Lk : lv st (ne k)) by (cbn; eauto).
          destruct (S2 _ Lk) as [A B]. congruence.
    - cbn. intros _. rewrite pm_add_get, Nat.eqb_refl. discriminate.
    - cbn. intros k. rewrite pm_add_get, Ed2. destruct (Nat.eqb k d); auto. discriminate.
    - intros n Hn. destruct (S2 n Hn) as [A B]. split; auto. cbn. congruence.
  Qed.

  (** ** Visits *)

  Lemma visit_add_keys : forall l n s, NoDup (map fst l) ->
    NoDup (map fst (visit_add l n s)) /\
    forall k, In k (map fst (visit_add l n s)) <-> In k (map fst l) \/ k = n.
  Proof.
    induction l as [|[m t] l IH]; intros n s H; cbn.
    - split; [constructor; auto; constructor|]. intuition.
    - cbn in H. inversion H; subst. destruct (node_eqb m n) eqn:E; cbn.
      + apply node_eqb_spec in E. subst. split; auto. intuition.
      + apply node_eqb_false in E. destruct (IH n s H3) as [A B]. split.
        * constructor; auto. rewrite B. intros [|]; congruence.
        * intro k. rewrite B. tauto.
  Qed.
  Lemma visits_keys : forall l, NoDup (map fst (visits_of l)).
  Proof.
    intro l. unfold visits_of. assert (G : forall l m, NoDup (map fst m) ->
      NoDup (map fst (fold_left (fun m x => visit_add m (fst x) (snd x)) l m))).
    { clear l. induction l as [|x l IH]; intros m H; cbn; auto. apply IH. now apply visit_add_keys. }
    apply G. constructor.
  Qed.
  Lemma visit_add_in : forall l n s k t, In (k, t) (visit_add l n s) ->
    (forall p, In p t -> (k = n /\ In p s) \/ exists t', In (k, t') l /\ In p t') /\
    ((k = n) \/ exists t', In (k, t') l).
  Proof.
    induction l as [|[m u] l IH]; intros n s k t H; cbn in H.
    - destruct H as [H|[]]. inversion H; subst. auto.
    - destruct (node_eqb m n) eqn:E.
      + apply node_eqb_spec in E. subst. destruct H as [H|H].
        * inversion H; subst. split; auto. intros p Hp. rewrite ps_union_spec in Hp. cbn in Hp.
          destruct Hp; [right; exists u; cbn|left]; auto.
        * split; [|right; exists t; cbn; auto]. intros p Hp. right. exists t. cbn; auto.
      + destruct H as [H|H].
        * inversion H; subst. split; [|right; exists t; cbn; auto]. intros p Hp. right. exists t; cbn; auto.
        * destruct (IH _ _ _ _ H) as [A B]. split.
          -- intros p Hp. destruct (A p Hp) as [|(t' & X & Y)]; auto. right; exists t'; cbn; auto.
          -- destruct B as [|(t' & X)]; auto. right; exists t'; cbn; auto.
  Qed.
  Lemma visits_touch : forall P g l, Forall (touch_ok P g) l -> Forall (touch_ok P g) (visits_of l).
  Proof.
    intros P g l. unfold visits_of. assert (G : forall l m, Forall (touch_ok P g) l -> Forall (touch_ok P g) m ->
      Forall (touch_ok P g) (fold_left (fun m x => visit_add m (fst x) (snd x)) l m)).
    { clear l. induction l as [|[n s] l IH]; intros m H M; cbn; auto. inversion H; subst.
      apply IH; auto. rewrite Forall_forall in M. apply Forall_forall. intros [k t] Hk.
      destruct (visit_add_in _ _ _ _ _ Hk) as [A B]. destruct H2 as [Pn Q]. split.
      - cbn. destruct B as [->|(t' & B)]; [exact Pn|]. exact (proj1 (M _ B)).
      - cbn. intros p Hp. destruct (A p Hp) as [[-> Hs]|(t' & X & Y)]; [now apply Q|].
        destruct (M _ X) as [_ Z]. now apply Z. }
    intro H. apply G; auto.
  Qed.
  Lemma visit_add_mono : forall l n s k t p, In (k, t) l -> In p t ->
    exists t', In (k, t') (visit_add l n s) /\ In p t'.
  Proof.
    induction l as [|[m u] l IH]; intros n s k t p H Hp; cbn in H; [contradiction|]. cbn.
    destruct (node_eqb m n) eqn:E.
    - destruct H as [H|H].
      + inversion H; subst. apply node_eqb_spec in E. subst. exists (ps_union t s). cbn.
        rewrite ps_union_spec; auto.
      + exists t. cbn; auto.
    - destruct H as [H|H].
      + inversion H; subst. exists t. cbn; auto.
      + destruct (IH n s _ _ _ H Hp) as (t' & A & B). exists t'. cbn; auto.
  Qed.
  Lemma visit_add_own : forall l n s p, In p s -> exists t', In (n, t') (visit_add l n s) /\ In p t'.
  Proof.
    induction l as [|[m u] l IH]; intros n s p Hp; cbn.
    - exists s; auto.
    - destruct (node_eqb m n) eqn:E.
      + exists (ps_union u s). cbn. rewrite ps_union_spec; auto.
      + destruct (IH n s p Hp) as (t' & A & B). exists t'; cbn; auto.
  Qed.
  Lemma visits_have : forall l k t p, In (k, t) l -> In p t ->
    exists t', In (k, t') (visits_of l) /\ In p t'.
  Proof.
    intros l. unfold visits_of.
    assert (G1 : forall l m k t p, In (k, t) m -> In p t ->
      exists t', In (k, t') (fold_left (fun m x => visit_add m (fst x) (snd x)) l m) /\ In p t').
    { clear l. induction l as [|x l IH]; intros m k t p H Hp; cbn; [eauto|].
      destruct (visit_add_mono m (fst x) (snd x) _ _ _ H Hp) as (t' & A & B). eauto. }
    assert (G : forall l m k t p, In (k, t) l -> In p t ->
      exists t', In (k, t') (fold_left (fun m x => visit_add m (fst x) (snd x)) l m) /\ In p t').
    { clear l. induction l as [|x l IH]; intros m k t p H Hp; cbn in *; [contradiction|].
      destruct H as [->|H]; [|eauto]. cbn.
      destruct (visit_add_own m k t p Hp) as (t' & A & B). eauto. }
    eauto.
  Qed.

  Lemma touch_same : forall st st' x, touch_ok (lv st) (p_g st) x -> same_all st st' (fst x) ->
    touch_ok (lv st') (p_g st') x.
  Proof. intros st st' x [A B] [C D]. split; auto. intros p Hp. rewrite D. auto. Qed.

  Lemma diffVisited_good : forall st v e u, good st -> NoDup (map fst v) ->
    Forall (touch_ok (lv st) (p_g st)) v -> In (ne e, u) v -> u <> [] ->
    exists st', p_diffVisited U vdiff ediff st v = Ok st' /\ good st' /\
      pm_get (p_eder st') e <> None /\
      (forall d, lv st (ne d) -> same_all st st' (ne d)).
  Proof.
    intros st v e u O N T Hin Hu. unfold p_diffVisited.
    assert (A : forall l st, good st -> NoDup (map fst l) -> Forall (touch_ok (lv st) (p_g st)) l ->
      exists st', fold_res (fun st x => match fst x with
                                 | NV d => p_diffVariable U vdiff st (fst d) (snd x)
                                 | NE _ => Ok st end) l st = Ok st' /\ good st' /\
        forall n, (~ In n (map fst l) \/ exists d, n = NE d) -> lv st n -> same_all st st' n).
    { clear st v e u O N T Hin Hu. intros l. induction l as [|[n s] l IH]; intros st O N T; cbn.
      - exists st. split; auto. split; auto. intros; split; auto.
      - inversion N as [|? ? Nn Nl]; inversion T as [|? ? Tn Tl]; subst. destruct n as [[d o]|d].
        + destruct o as [o|]; [destruct Tn as [[] _]|]. cbn.
          destruct (diffVariable_good st d s O Tn) as (st1 & -> & O1 & _ & S1). cbn.
          destruct (IH st1 O1 Nl) as (st2 & E2 & O2 & S2).
          * apply Forall_forall. intros y Hy. rewrite Forall_forall in Tl. pose proof (Tl y Hy) as Ty.
            apply (touch_same st st1); auto. apply S1; [|apply Ty]. intro E. apply Nn. cbn.
            change (NV (d, None)) with (nv d). rewrite <- E. now apply in_map.
          * exists st2. split; auto. split; auto. intros n Hn Ln.
            assert (Q : n <> nv d). { intros ->. destruct Hn as [Hn|(x & Hx)]; [apply Hn; cbn; auto|discriminate]. }
            destruct (S1 n Q Ln) as [X1 X2].
            destruct (S2 n) as [Y1 Y2]; auto. { destruct Hn as [Hn|Hn]; [left; tauto|right; exact Hn]. }
            split; auto. congruence.
        + cbn. destruct (IH st O Nl Tl) as (st2 & E2 & O2 & S2). exists st2. split; auto. split; auto.
          intros n Hn Ln. apply S2; auto. destruct Hn as [Hn|Hn]; [left; tauto|right; exact Hn]. }
    destruct (A v st O N T) as (st1 & -> & O1 & S1). cbn [bind].
    assert (T1 : Forall (fun x => match fst x with NE _ => touch_ok (lv st1) (p_g st1) x | _ => True end) v).
    { apply Forall_forall. intros [[d|d] s] Hx; cbn; auto. rewrite Forall_forall in T.
      pose proof (T _ Hx) as Tx. apply (touch_same st st1); auto. apply S1; [right; exists d; reflexivity|apply Tx]. }
    assert (B : forall l st, good st ->
      Forall (fun x => match fst x with NE _ => touch_ok (lv st) (p_g st) x | _ => True end) l ->
      exists st', fold_res (fun st x => match fst x with
                          | NE d => p_diffEquation U ediff st (fst d) (snd x)
                          | NV _ => Ok st end) l st = Ok st' /\ good st' /\
        (forall k, pm_get (p_eder st) k <> None \/ (exists s, In (ne k, s) l /\ s <> []) ->
                   pm_get (p_eder st') k <> None) /\
        forall n, lv st n -> same_all st st' n).
    { clear A st v e u O N T Hin Hu st1 O1 S1 T1. intros l. induction l as [|[n s] l IH]; intros st O T; cbn.
      - exists st. split; auto. split; auto. split; [|intros; split; auto].
        intros k [H|(s & [] & _)]; auto.
      - inversion T as [|? ? Tn Tl]; subst. destruct n as [d|[d o]].
        + cbn. destruct (IH st O Tl) as (st2 & E2 & O2 & P2 & S2). exists st2. split; auto. split; auto.
          split; auto. intros k [H|(t & [H|H] & Nt)]; auto; [discriminate|]. apply P2. right; eauto.
        + cbn in Tn. destruct o as [o|]; [destruct Tn as [[] _]|]. cbn.
          destruct (diffEquation_good st d s O Tn) as (st1 & -> & O1 & Q1 & P1 & S1). cbn.
          destruct (IH st1 O1) as (st2 & E2 & O2 & P2 & S2).
          * apply Forall_forall. intros y Hy. rewrite Forall_forall in Tl. pose proof (Tl y Hy) as Ty.
            destruct (fst y) eqn:Fy; auto. apply (touch_same st st1); auto. apply S1. apply Ty.
          * exists st2. split; auto. split; auto. split.
            -- intros k [H|(t & [H|H] & Nt)]; apply P2; auto; [|right; eauto].
               inversion H; subst. left. auto.
            -- intros n Ln. destruct (S1 n Ln) as [X1 X2]. destruct (S2 n X1) as [Y1 Y2].
               split; auto. congruence. }
    destruct (B v st1 O1 T1) as (st2 & -> & O2 & P2 & S2).
    exists st2. split; auto. split; auto. split; [apply P2; right; eauto|].
    intros d Ld. destruct (S1 (ne d)) as [X1 X2]; [right; unfold ne; eauto|auto|].
    destruct (S2 _ X1) as [Y1 Y2]. split; auto. congruence.
  Qed.

  (** ** The loop *)

  Definition fair (sc : psched) : Prop :=
    (forall r lv w l s, In s (pc_ord sc r lv w l) <-> In s l) /\
    (forall r l x, In x (pc_vis sc r l) <-> In x l).

  Lemma p_bfs_bad : forall g ord fuel level F, p_bfs solve fuel ord level g F <> Bad.
  Proof.
    intros g ord. induction fuel as [|f IH]; intros level F H; destruct F as [|s F]; cbn [p_bfs] in H;
      try discriminate.
    destruct (flat_map snd _); [|discriminate].
    destruct (p_bfs solve f ord (S level) g _) as [[a b]| |] eqn:E; try discriminate.
    now apply IH in E.
  Qed.

  Lemma p_bfs_start : forall g ord fuel level n c paths v,
    (forall lv w l s, In s (ord lv w l) <-> In s l) ->
    p_bfs solve fuel ord level g [SStart n c] = Ok (paths, v) -> In (n, c) v.
  Proof.
    intros g ord fuel level n c paths v Ho H. destruct fuel as [|f]; cbn [p_bfs] in H; [discriminate|].
    set (fr := ord level 0 _) in *.
    assert (K : In (n, c) (flat_map (step_visits g) fr)).
    { apply in_flat_map. exists (SStart n c). split; [apply Ho; cbn; auto|]. unfold step_visits. cbn; auto. }
    destruct (flat_map snd _).
    - apply bind_ok in H. destruct H as ([p' v'] & _ & H). inversion H; subst. rewrite in_app_iff; auto.
    - inversion H; now subst.
  Qed.

  Lemma good_set : forall st g, good st -> gcore (lv st) g ->
    gsame (p_g st) g \/ p_log st = [] -> good (p_set st g).
  Proof.
    intros st g [] G [S|L]; constructor; auto; cbn.
    - intros l1 a l2 Q Va Na Fa. destruct (o_got0 _ _ _ Q Va Na Fa) as (k & Hk & Ek).
      exists k. split; auto. now rewrite (gs_all _ _ S).
    - intros l1 a l2 Q. rewrite L in Q. destruct l1; discriminate.
  Qed.

  Lemma work_good : forall sc, fair sc -> forall fuel bfuel round st work,
    good st -> (forall e, In e work -> lv st (ne e)) ->
    match p_work solve U vdiff ediff fuel bfuel sc round st work with
    | Ok (st', _) => good st' | Bad => False | NoFuel => True end.
  Proof.
    intros sc [F1 F2]. induction fuel as [|f IH]; intros bfuel round st work O W;
      destruct work as [|e work]; cbn [p_work]; auto.
    set (u := mt_unmatched _).
    destruct (ps_empty u) eqn:Em.
    { apply IH; auto. intros; apply W; cbn; auto. }
    assert (Nu : u <> []). { intro E. rewrite E in Em. discriminate. }
    assert (Le : lv st (ne e)) by (apply W; cbn; auto).
    pose proof (o_core _ O) as G.
    assert (T0 : touch_ok (lv st) (p_g st) (ne e, u)).
    { split; auto. cbn. intros p Hp. apply (gc_union _ _ G); auto. }
    destruct (p_bfs solve bfuel (pc_ord sc round) 0 (p_g st) [SStart (ne e) u]) as [[cand v]| |] eqn:B; cbn [bind]; auto.
    2:{ now apply p_bfs_bad in B. }
    pose proof (p_bfs_start _ _ _ _ _ _ _ _ (F1 round) B) as V0.
    assert (CV : Forall (sok (lv st) (p_g st)) cand /\ Forall (touch_ok (lv st) (p_g st)) v).
    { eapply (p_bfs_ok (lv st) solve Hsolve (p_g st)); [|exact G| |exact B].
      - intros lev w l s H. now apply F1 in H.
      - constructor; auto. }
    destruct CV as [C V].
    destruct (filter_paths (pc_snap sc round) 0 (fun _ => None, []) cand) as [|p ps] eqn:Fp.
    - set (vs := visits_of (pc_vis sc round v)).
      assert (Tv : Forall (touch_ok (lv st) (p_g st)) vs).
      { apply visits_touch. rewrite Forall_forall in *. intros x Hx. apply F2 in Hx. auto. }
      apply list_ne in Nu. destruct Nu as (p & Hp).
      destruct (visits_have (pc_vis sc round v) (ne e) u p) as (u' & Hu' & Hp').
      { now apply F2. } { auto. }
      destruct (diffVisited_good st vs e u' O (visits_keys _) Tv Hu') as (st' & -> & O' & Gt & S').
      { intro E. rewrite E in Hp'. contradiction. }
      cbn [bind]. destruct (pm_get (p_eder st') e) as [x|] eqn:Ex; [|congruence].
      apply IH; auto. intros k [<-|Hk].
      + destruct (o_der _ O' _ _ Ex) as (i & Hi). cbn. eauto.
      + apply S'. apply W; cbn; auto.
    - rewrite <- Fp.
      pose proof (filter_paths_ok (lv st) (p_g st) (pc_snap sc round) cand 0 (fun _ => None, []) C) as Fl.
      destruct (apply_paths_ok (lv st) _ (p_g st) G Fl) as (g' & E & G' & S').
      rewrite Fp in E. rewrite Fp. rewrite E. cbn [bind]. apply IH; auto. apply good_set; auto.
  Qed.

  Lemma match_good : forall fu sc pick st st' ok,
    p_match solve U fu sc pick st = Ok (st', ok) -> good st -> p_log st = [] -> good st'.
  Proof.
    intros fu sc pick st st' ok H O Lg. apply match_state in H. destruct H as (g & L & ->).
    apply good_set; auto. unfold leaf_run in L. eapply leaf_loop_ok; eauto. apply (o_core _ O).
  Qed.

  Lemma run_good : forall fu sc pick fuel bfuel psc st, fair psc -> good st -> p_log st = [] ->
    match p_run solve U vdiff ediff fu sc pick fuel bfuel psc st with
    | Ok (st', _) => good st'
    | Bad => p_match solve U fu sc pick st = Bad
    | NoFuel => True end.
  Proof.
    intros fu sc pick fuel bfuel psc st F O Lg. unfold p_run.
    destruct (p_match solve U fu sc pick st) as [[st1 ok]| |] eqn:M; cbn [bind]; auto.
    pose proof M as M'. apply match_state in M'. destruct M' as (g & _ & E).
    apply match_good in M; auto. destruct ok as [x|]; auto.
    pose proof (work_good psc F fuel bfuel 0 st1 (rev (map fst (p_eid st))) M) as W.
    destruct (p_work _ _ _ _ _ _ _ _ _ _) as [[st2 w]| |]; auto.
    - apply W. intros e He0. apply in_rev, in_map_iff in He0. destruct He0 as ([k i] & <- & Hi).
      subst st1. cbn. eauto.
    - exfalso. apply W. intros e He0. apply in_rev, in_map_iff in He0. destruct He0 as ([k i] & <- & Hi).
      subst st1. cbn. eauto.
  Qed.
End Safe.
