(** The whole matching: leaf nodes, scalarization and augmenting paths. *)
From Coq Require Import ZArith List Bool Permutation Lia.
From Verif Require Import RangeModel Result ListTac MatchModel MatchSpec MatchSetProofs MatchApplyProofs
  MatchSearchProofs MatchPathProofs MatchHKProofs MatchBuildProofs MatchLeafProofs.
Import ListNotations.
Local Open Scope nat_scope.

(** * The solution *)

(** A scalar without its mask. *)
Definition flat (x : scalar) : nat * point := (fst (fst x), snd x).
Definition flatten (P : scalar -> scalar -> Prop) (a b : nat * point) : Prop :=
  exists x y, P x y /\ flat x = a /\ flat y = b.

Lemma reports_ext : forall r (Q Q' : nat * point -> nat * point -> Prop),
  (forall a b, Q a b <-> Q' a b) -> reports r Q -> reports r Q'.
Proof.
  intros r Q Q' H (A & B & C). split; [auto|]. split.
  - intros e i v j Hq. apply H in Hq. eauto.
  - intros e v es vs Hin. destruct (C _ _ _ _ Hin) as [C1 C2]. split; intros i.
    + rewrite C1. split; intros [j Hj]; exists j; now apply H.
    + rewrite C2. split; intros [j Hj]; exists j; now apply H.
Qed.

Lemma sol_add_spec : forall r k E V, NoDup (map fst r) ->
  NoDup (map fst (sol_add r k E V)) /\
  (forall k', In k' (map fst (sol_add r k E V)) <-> k' = k \/ In k' (map fst r)) /\
  (forall k' a b, In (k', (a, b)) (sol_add r k E V) <->
     (k' <> k /\ In (k', (a, b)) r) \/
     (k' = k /\ ((exists a' b', In (k, (a', b')) r /\ a = ps_union a' E /\ b = ps_union b' V) \/
                 (~ In k (map fst r) /\ a = E /\ b = V)))).
Proof.
  induction r as [|[k0 [a0 b0]] r IH]; intros k E V Hnd; cbn [sol_add map fst].
  - split; [repeat constructor; auto|]. split.
    + intros k'. cbn. intuition.
    + intros k' a b. cbn. split.
      * intros [H|[]]. inversion H; subst. right. split; auto.
      * intros [[_ []]|[-> [(a' & b' & [] & _)|(_ & -> & ->)]]]. auto.
  - cbn in Hnd. inversion Hnd as [|? ? Hk Hnd']; subst.
    destruct (Nat.eqb (fst k) (fst k0) && Nat.eqb (snd k) (snd k0)) eqn:Ek.
    + assert (k = k0).
      { apply andb_true_iff in Ek as [A B]. apply Nat.eqb_eq in A. apply Nat.eqb_eq in B.
        destruct k, k0. cbn in *. congruence. }
      subst k0. cbn [map fst]. split; [constructor; auto|]. split; [intros; cbn; intuition|].
      intros k' a b. cbn [In]. split.
      * intros [H|H].
        -- inversion H; subst. right. split; auto. left. exists a0, b0. split; auto.
        -- left. split; [|auto]. intros ->. apply Hk. apply in_map_iff. exists (k, (a, b)). auto.
      * intros [[Hne [H|H]]|[-> [(a' & b' & [H|H] & -> & ->)|(H & _)]]].
        -- inversion H; subst. congruence.
        -- auto.
        -- inversion H; subst. auto.
        -- exfalso. apply Hk. apply in_map_iff. exists (k, (a', b')). auto.
        -- exfalso. apply H. now left.
    + assert (Hne : k <> k0). { intros ->. rewrite !Nat.eqb_refl in Ek. discriminate. }
      destruct (IH k E V Hnd') as (I1 & I2 & I3). cbn [map fst]. split.
      { constructor; auto. rewrite I2. intros [H|H]; auto. }
      split; [intros k'; cbn; rewrite I2; intuition|].
      intros k' a b. cbn [In]. rewrite I3. split.
      * intros [H|[[H1 H2]|[-> [(a' & b' & H & Ha & Hb)|(H & Ha & Hb)]]]].
        -- inversion H; subst. left. split; auto.
        -- left. auto.
        -- right. split; auto. left. exists a', b'. auto.
        -- right. split; auto. right. split; [|auto]. intros [X|X]; auto.
      * intros [[H1 [H|H]]|[-> [(a' & b' & [H|H] & Ha & Hb)|(H & Ha & Hb)]]].
        -- auto.
        -- right. left. auto.
        -- inversion H; subst. congruence.
        -- right. right. split; auto. left. exists a', b'. auto.
        -- right. right. split; auto. right. split; auto.
Qed.

Lemma sol_add_reports : forall r Q e v m, reports r Q -> m <> [] ->
  reports (sol_add r (e, v) (m_eqs m) (m_vars m))
    (fun a b => Q a b \/ (fst a = e /\ fst b = v /\ In (snd a, snd b) (ents m))).
Proof.
  intros r Q e v m (A & B & C) Hm.
  destruct (sol_add_spec r (e, v) (m_eqs m) (m_vars m) A) as (I1 & I2 & I3).
  split; [auto|]. split.
  - intros e' i v' j Hq.
    assert (Hk : In (e', v') (map fst (sol_add r (e, v) (m_eqs m) (m_vars m)))).
    { apply I2. destruct Hq as [Hq|(X & Y & _)]; [|left; cbn in *; congruence].
      right. destruct (B _ _ _ _ Hq) as (es & vs & H). apply in_map_iff. exists ((e', v'), (es, vs)). auto. }
    apply in_map_iff in Hk as [[k [es vs]] [Hk Hin]]. cbn in Hk. subst k. eauto.
  - intros e' v' es vs Hin. apply I3 in Hin.
    destruct Hin as [[Hne Hin]|[Hk [(a' & b' & Hin & -> & ->)|(Hn & -> & ->)]]].
    + destruct (C _ _ _ _ Hin) as [C1 C2]. cbn [fst snd].
      assert (X : ~ (e' = e /\ v' = v)) by (intros [-> ->]; auto).
      split; intros i; [rewrite C1|rewrite C2]; (split; [intros [j Hj]; eauto|]);
        intros [j [Hj|(Y1 & Y2 & _)]]; eauto; exfalso; auto.
    + inversion Hk; subst e' v'. destruct (C _ _ _ _ Hin) as [C1 C2]. cbn [fst snd]. split; intros i.
      * rewrite ps_union_spec, C1, m_eqs_spec. split.
        -- intros [[j Hj]|[j Hj]]; exists j; auto.
        -- intros [j [Hj|(_ & _ & Hj)]]; eauto.
      * rewrite ps_union_spec, C2, m_vars_spec. split.
        -- intros [[j Hj]|[j Hj]]; exists j; auto.
        -- intros [j [Hj|(_ & _ & Hj)]]; eauto.
    + inversion Hk; subst e' v'. cbn [fst snd].
      assert (X : forall i j, ~ Q (e, i) (v, j)).
      { intros i j Hq. destruct (B _ _ _ _ Hq) as (es & vs & H). apply Hn. apply in_map_iff. exists ((e, v), (es, vs)). auto. }
      split; intros i.
      * rewrite m_eqs_spec. split.
        -- intros [j Hj]. exists j. auto.
        -- intros [j [Hj|(_ & _ & Hj)]]; eauto. exfalso. eapply X; eauto.
      * rewrite m_vars_spec. split.
        -- intros [j Hj]. exists j. auto.
        -- intros [j [Hj|(_ & _ & Hj)]]; eauto. exfalso. eapply X; eauto.
Qed.

Lemma collect_list : forall g l r Q, reports r Q ->
  reports (fold_left (fun r e => let m := ed_match (g_ed g e) in
                          if m_empty m then r
                          else sol_add r (fst (fst e), fst (snd e)) (m_eqs m) (m_vars m)) l r)
    (fun a b => Q a b \/ exists e v, In (e, v) l /\ fst a = fst e /\ fst b = fst v /\
                          In (snd a, snd b) (ents (ed_match (g_ed g (e, v))))).
Proof.
  induction l as [|[e v] l IH]; intros r Q H; cbn [fold_left].
  - eapply reports_ext; [|exact H]. intros a b. split; [auto|]. intros [X|(e & v & [] & _)]; auto.
  - cbn zeta. cbn [fst snd]. destruct (ed_match (g_ed g (e, v))) as [|x m] eqn:Em; cbn [m_empty].
    + eapply reports_ext; [|apply IH, H]. intros a b. cbn beta. split.
      * intros [X|(e' & v' & X & Y)]; [auto|right; exists e', v'; split; [now right|auto]].
      * intros [X|(e' & v' & [X|X] & Y)]; [auto| |right; exists e', v'; auto].
        inversion X; subst. rewrite Em in Y. destruct Y as (_ & _ & []).
    + rewrite <- Em.
      assert (Hne : ed_match (g_ed g (e, v)) <> []) by (rewrite Em; discriminate).
      eapply reports_ext; [|apply IH, (sol_add_reports r Q (fst e) (fst v) _ H Hne)].
      intros a b. cbn beta. split.
      * intros [[X|X]|(e' & v' & X & Y)]; [auto|right; exists e, v; split; [now left|auto]|].
        right; exists e', v'; split; [now right|auto].
      * intros [X|(e' & v' & [X|X] & Y)]; [auto| |right; exists e', v'; auto].
        inversion X; subst. left. right. auto.
Qed.
Lemma collect_reports : forall g r Q, reports r Q ->
  reports (collect g r) (fun a b => Q a b \/ flatten (g_pairs g) a b).
Proof.
  intros g r Q H. eapply reports_ext; [|exact (collect_list g (g_edges g) r Q H)]. cbn beta.
  intros [a i] [b j]. cbn [fst snd]. split; (intros [X|X]; [auto|right]).
  - destruct X as (e & v & He & -> & -> & X). exists (e, i), (v, j). split; [split; auto|auto].
  - destruct X as ([e i'] & [v j'] & [He X] & F1 & F2). cbn [fst snd flat] in *.
    inversion F1; inversion F2; subst. exists e, v. auto.
Qed.

(** * The systems of unmatched scalars *)

Lemma built_leaf : forall s g, built s g -> leaf_inv g g.
Proof.
  intros s g B. constructor.
  - eapply built_valid; eauto.
  - apply same_graph_refl.
  - intros x y _ H. rewrite (bu_evis _ _ B) in H. discriminate.
  - intros P _ x y Hp. exfalso. eapply built_nopair; eauto.
  - intros n Hn H. exfalso. unfold mt_allMatched in H. apply ps_empty_spec in H. destruct n as [v|e].
    + apply (bu_nv _ _ B) in Hn as [w [Hw <-]]. rewrite (bu_vv _ _ B _ Hw) in H. cbn in H.
      eapply (sy_vne _ (bu_sys _ _ B)); eauto.
    + apply (bu_ne _ _ B) in Hn as [w [Hw <-]]. rewrite (bu_ve _ _ B _ Hw) in H. cbn in H.
      eapply (sy_ene _ (bu_sys _ _ B)); eauto.
Qed.

Section Rest.
  Variables (s : msys) (g g1 : mgraph).
  Hypothesis B : built s g.
  Hypothesis L : leaf_inv g g1.
  Let u := sys_unmatched s g1.

  Lemma rest_var_in : forall w, In w (ms_vars u) <->
    exists w0, In w0 (ms_vars s) /\ mt_unmatched (g_vx g1 (NV (mv_id w0))) <> [] /\
      w = MVar (mv_id w0) (mt_unmatched (g_vx g1 (NV (mv_id w0)))) (g_vis g1 (NV (mv_id w0))).
  Proof.
    intros w. cbn [u sys_unmatched ms_vars]. rewrite in_flat_map. split.
    - intros [w0 [H0 H]]. exists w0. split; auto. cbn zeta in H.
      destruct (mt_unmatched (g_vx g1 (NV (mv_id w0)))); cbn in H; [destruct H|].
      destruct H as [<-|[]]. split; [discriminate|auto].
    - intros [w0 [H0 [H1 ->]]]. exists w0. split; auto. cbn zeta.
      destruct (mt_unmatched (g_vx g1 (NV (mv_id w0)))); [congruence|]. now left.
  Qed.
  Lemma rest_eq_in : forall w, In w (ms_eqs u) <->
    exists w0, In w0 (ms_eqs s) /\ mt_unmatched (g_vx g1 (NE (me_id w0))) <> [] /\
      w = MEqn (me_id w0) (mt_unmatched (g_vx g1 (NE (me_id w0)))) (g_vis g1 (NE (me_id w0))) (me_acc w0).
  Proof.
    intros w. cbn [u sys_unmatched ms_eqs]. rewrite in_flat_map. split.
    - intros [w0 [H0 H]]. exists w0. split; auto. cbn zeta in H.
      destruct (mt_unmatched (g_vx g1 (NE (me_id w0)))); cbn in H; [destruct H|].
      destruct H as [<-|[]]. split; [discriminate|auto].
    - intros [w0 [H0 [H1 ->]]]. exists w0. split; auto. cbn zeta.
      destruct (mt_unmatched (g_vx g1 (NE (me_id w0)))); [congruence|]. now left.
  Qed.

  Lemma rest_system : system u.
  Proof.
    pose proof (bu_sys _ _ B) as S. constructor.
    - cbn [u sys_unmatched ms_vars]. pose proof (sy_vars _ S) as H. revert H.
      generalize (ms_vars s). induction l as [|w l IH]; cbn; intros H; [constructor|].
      inversion H as [|? ? H1 H2]; subst. specialize (IH H2).
      destruct (ps_empty (mt_unmatched (g_vx g1 (NV (mv_id w))))); [exact IH|]. cbn. constructor; auto.
      intros X. apply H1. apply in_map_iff in X as [w' [E X]]. apply in_flat_map in X as [w0 [X0 X]].
      destruct (ps_empty (mt_unmatched (g_vx g1 (NV (mv_id w0))))); [destruct X|]. destruct X as [<-|[]]. cbn in E.
      rewrite <- E. now apply in_map.
    - cbn [u sys_unmatched ms_eqs]. pose proof (sy_eqs _ S) as H. revert H.
      generalize (ms_eqs s). induction l as [|w l IH]; cbn; intros H; [constructor|].
      inversion H as [|? ? H1 H2]; subst. specialize (IH H2).
      destruct (ps_empty (mt_unmatched (g_vx g1 (NE (me_id w))))); [exact IH|]. cbn. constructor; auto.
      intros X. apply H1. apply in_map_iff in X as [w' [E X]]. apply in_flat_map in X as [w0 [X0 X]].
      destruct (ps_empty (mt_unmatched (g_vx g1 (NE (me_id w0))))); [destruct X|]. destruct X as [<-|[]]. cbn in E.
      rewrite <- E. now apply in_map.
    - intros w Hw. apply rest_var_in in Hw as (w0 & _ & H & ->). auto.
    - intros w Hw. apply rest_eq_in in Hw as (w0 & _ & H & ->). auto.
  Qed.

  Lemma rest_all_var : forall w p, In w (ms_vars s) -> In p (mt_unmatched (g_vx g1 (NV (mv_id w)))) -> In p (mv_ind w).
  Proof.
    intros w p Hw Hp. destruct (li_same _ _ L) as (S1 & S2 & S3 & S4).
    assert (Hn : In (NV (mv_id w)) (g_nodes g1)) by (rewrite S1; apply (bu_nv _ _ B); eauto).
    assert (H : In p (mt_all (g_vx g1 (NV (mv_id w))))) by (apply (va_part _ (li_valid _ _ L) _ Hn p); auto).
    rewrite S3, (bu_vv _ _ B _ Hw) in H. exact H.
  Qed.
  Lemma rest_all_eq : forall w p, In w (ms_eqs s) -> In p (mt_unmatched (g_vx g1 (NE (me_id w)))) -> In p (me_ind w).
  Proof.
    intros w p Hw Hp. destruct (li_same _ _ L) as (S1 & S2 & S3 & S4).
    assert (Hn : In (NE (me_id w)) (g_nodes g1)) by (rewrite S1; apply (bu_ne _ _ B); eauto).
    assert (H : In p (mt_all (g_vx g1 (NE (me_id w))))) by (apply (va_part _ (li_valid _ _ L) _ Hn p); auto).
    rewrite S3, (bu_ve _ _ B _ Hw) in H. exact H.
  Qed.

  Lemma rest_var : forall y, scalar_var u y <-> scalar_var s y /\ unm_var g1 y.
  Proof.
    intros [v j]. unfold scalar_var, unm_var. cbn [fst snd]. split.
    - intros (w & Hw & Hi & Hj). apply rest_var_in in Hw as (w0 & H0 & _ & ->). cbn in Hi, Hj. subst v.
      split; auto. exists w0. split; auto. split; auto. now apply rest_all_var.
    - intros [(w & Hw & Hi & Hj) Hu]. subst v.
      exists (MVar (mv_id w) (mt_unmatched (g_vx g1 (NV (mv_id w)))) (g_vis g1 (NV (mv_id w)))).
      split; [|auto]. apply rest_var_in. exists w. split; auto. split; auto. intros E. rewrite E in Hu. destruct Hu.
  Qed.
  Lemma rest_eq : forall y, scalar_eq u y <-> scalar_eq s y /\ unm_eq g1 y.
  Proof.
    intros [v j]. unfold scalar_eq, unm_eq. cbn [fst snd]. split.
    - intros (w & Hw & Hi & Hj). apply rest_eq_in in Hw as (w0 & H0 & _ & ->). cbn in Hi, Hj. subst v.
      split; auto. exists w0. split; auto. split; auto. now apply rest_all_eq.
    - intros [(w & Hw & Hi & Hj) Hu]. subst v.
      exists (MEqn (me_id w) (mt_unmatched (g_vx g1 (NE (me_id w)))) (g_vis g1 (NE (me_id w))) (me_acc w)).
      split; [|auto]. apply rest_eq_in. exists w. split; auto. split; auto. intros E. rewrite E in Hu. destruct Hu.
  Qed.
  Lemma rest_incident : forall x y, incident u x y <-> incident s x y /\ unm_eq g1 x /\ unm_var g1 y.
  Proof.
    intros [e i] [v j]. unfold incident. rewrite rest_var. unfold unm_eq. cbn [fst snd]. split.
    - intros [(q & a & Hq & Hi & Hj & Ha & Hm) [Hv Hu]]. apply rest_eq_in in Hq as (q0 & H0 & _ & ->). cbn in Hi, Hj, Ha.
      subst e. split; [split; auto|auto]. exists q0, a. split; auto. split; auto. split; auto. now apply rest_all_eq.
    - intros [[(q & a & Hq & Hi & Hj & Ha & Hm) Hv] [Hu Hu']]. subst e. split; [|auto].
      exists (MEqn (me_id q) (mt_unmatched (g_vx g1 (NE (me_id q)))) (g_vis g1 (NE (me_id q))) (me_acc q)), a.
      split; [|cbn; auto]. apply rest_eq_in. exists q. split; auto. split; auto. intros E. rewrite E in Hu. destruct Hu.
  Qed.

  Lemma rest_pairs : forall x y, g_pairs g1 x y -> incident s x y /\ ~ unm_eq g1 x /\ ~ unm_var g1 y.
  Proof.
    intros [e i] [v j] H. pose proof (li_valid _ _ L) as V.
    assert (Hi : g_incident g1 (e, i) (v, j)) by (apply (va_split _ V); auto).
    split.
    - apply (bu_inc _ _ B). apply (same_incident _ _ (li_same _ _ L)). exact Hi.
    - destruct (va_inc _ V _ _ Hi) as [[N1 _] [N2 _]]. cbn in N1, N2. split; intros Hu.
      + apply (va_part _ V _ N1 i). split; [|exact Hu]. apply (va_eq _ V _ _ N1). eauto.
      + apply (va_part _ V _ N2 j). split; [|exact Hu]. apply (va_var _ V _ _ N2). eauto.
  Qed.

  (** A perfect matching of the rest and the matches so far give one of the system. *)
  Lemma rest_extend : forall Q, perfect u Q -> perfect s (fun x y => g_pairs g1 x y \/ Q x y).
  Proof.
    intros Q [Q1 [Q2 Q2'] Q3 Q4]. pose proof (li_valid _ _ L) as V. destruct (li_same _ _ L) as (S1 & S2 & S3 & S4).
    constructor.
    - intros x y [H|H]; [now apply rest_pairs|]. apply Q1, rest_incident in H. tauto.
    - split.
      + intros x y y' [H|H] [H'|H']; [now apply (proj1 (va_one _ V) x)| | |now apply (Q2 x)].
        * apply rest_pairs in H. apply Q1, rest_incident in H'. tauto.
        * apply rest_pairs in H'. apply Q1, rest_incident in H. tauto.
      + intros x x' y [H|H] [H'|H']; [now apply (proj2 (va_one _ V) x x' y)| | |now apply (Q2' x x' y)].
        * apply rest_pairs in H. apply Q1, rest_incident in H'. tauto.
        * apply rest_pairs in H'. apply Q1, rest_incident in H. tauto.
    - intros x Hx. assert (Hg : g_eq g x) by now apply (built_eq _ _ B).
      destruct Hg as [N I]. rewrite <- S1 in N. rewrite <- S3 in I.
      apply (va_part _ V _ N (snd x)) in I as [I|I].
      + apply (va_eq _ V _ _ N) in I as [y Hy]. exists y. left. now destruct x.
      + destruct (Q3 x) as [y Hy]; [apply rest_eq; split; auto|]. eauto.
    - intros x Hx. assert (Hg : g_var g x) by now apply (built_var _ _ B).
      destruct Hg as [N I]. rewrite <- S1 in N. rewrite <- S3 in I.
      apply (va_part _ V _ N (snd x)) in I as [I|I].
      + apply (va_var _ V _ _ N) in I as [y Hy]. exists y. left. now destruct x.
      + destruct (Q4 x) as [y Hy]; [apply rest_var; split; auto|]. eauto.
  Qed.
  (** A perfect matching of the system gives one of the rest. *)
  Lemma rest_restrict : forall P, perfect s P -> perfect u (fun x y => P x y /\ unm_eq g1 x).
  Proof.
    intros P HP. assert (GP : gperfect g P) by now apply (built_perfect _ _ B).
    constructor.
    - intros x y [Hp Hu]. apply rest_incident. split; [now apply (pf_incident _ _ HP)|].
      destruct (forced_free g g1 L P GP x y Hp (or_introl Hu)) as (_ & ? & ? & _). auto.
    - destruct (pf_one _ _ HP) as [O1 O2]. split.
      + intros x y y' [H _] [H' _]. eauto.
      + intros x x' y [H _] [H' _]. eauto.
    - intros x Hx. apply rest_eq in Hx as [Hx Hu]. destruct (pf_eqs _ _ HP x Hx) as [y Hy]. eauto.
    - intros y Hy. apply rest_var in Hy as [Hy Hu]. destruct (pf_vars _ _ HP y Hy) as [x Hx].
      exists x. split; auto. destruct (forced_free g g1 L P GP x y Hx (or_intror Hu)) as (_ & ? & ? & _). auto.
  Qed.
End Rest.

(** * Scalarization *)

(** The masks of the scalars do not tell two of them apart. *)
Definition flat_sys (s : msys) : Prop :=
  (forall x x', scalar_eq s x -> scalar_eq s x' -> flat x = flat x' -> x = x') /\
  (forall y y', scalar_var s y -> scalar_var s y' -> flat y = flat y' -> y = y').
(** The scalars and incidences of [s] are in [t]. *)
Definition fsim (s t : msys) : Prop :=
  (forall x, scalar_eq s x -> exists x', scalar_eq t x' /\ flat x' = flat x) /\
  (forall y, scalar_var s y -> exists y', scalar_var t y' /\ flat y' = flat y) /\
  (forall x y, incident s x y -> exists x' y', incident t x' y' /\ flat x' = flat x /\ flat y' = flat y).

Definition carry (t : msys) (P : scalar -> scalar -> Prop) (x y : scalar) : Prop :=
  scalar_eq t x /\ scalar_var t y /\ flatten P (flat x) (flat y).

Lemma carry_perfect : forall s t P, flat_sys s -> flat_sys t -> fsim s t -> fsim t s ->
  perfect s P -> perfect t (carry t P).
Proof.
  intros s t P [Fs Fs'] [Ft Ft'] (A1 & A2 & A3) (B1 & B2 & B3) HP.
  assert (Hin : forall x y, P x y -> scalar_eq s x /\ scalar_var s y)
    by (intros x y H; apply incident_eq; now apply (pf_incident _ _ HP)).
  destruct (pf_one _ _ HP) as [O1 O2]. constructor.
  - intros x y (Hx & Hy & x0 & y0 & H & Ex & Ey).
    destruct (A3 x0 y0 (pf_incident _ _ HP _ _ H)) as (x' & y' & H' & Ex' & Ey').
    destruct (incident_eq _ _ _ H') as [Hx' Hy'].
    assert (x' = x) by (apply Ft; congruence). assert (y' = y) by (apply Ft'; congruence). now subst.
  - split.
    + intros x y y' (Hx & Hy & x0 & y0 & H & Ex & Ey) (_ & Hy' & x1 & y1 & H1 & Ex1 & Ey1).
      destruct (Hin _ _ H), (Hin _ _ H1). assert (x0 = x1) by (apply Fs; congruence). subst x1.
      assert (y0 = y1) by eauto. subst. apply Ft'; congruence.
    + intros x x' y (Hx & Hy & x0 & y0 & H & Ex & Ey) (Hx' & _ & x1 & y1 & H1 & Ex1 & Ey1).
      destruct (Hin _ _ H), (Hin _ _ H1). assert (y0 = y1) by (apply Fs'; congruence). subst y1.
      assert (x0 = x1) by eauto. subst. apply Ft; congruence.
  - intros x Hx. destruct (B1 x Hx) as (x0 & H0 & E0). destruct (pf_eqs _ _ HP x0 H0) as [y0 H].
    destruct (A2 y0) as (y & Hy & Ey); [now apply (Hin x0)|]. exists y. split; auto. split; auto.
    exists x0, y0. auto.
  - intros y Hy. destruct (B2 y Hy) as (y0 & H0 & E0). destruct (pf_vars _ _ HP y0 H0) as [x0 H].
    destruct (A1 x0) as (x & Hx & Ex); [now apply (Hin x0 y0)|]. exists x. split; auto. split; auto.
    exists x0, y0. auto.
Qed.
Lemma carry_flatten : forall s t P, fsim s t -> perfect s P ->
  forall a b, flatten (carry t P) a b <-> flatten P a b.
Proof.
  intros s t P (A1 & A2 & A3) HP a b. split.
  - intros (x & y & (_ & _ & H) & <- & <-). exact H.
  - intros (x & y & H & <- & <-).
    destruct (A3 x y (pf_incident _ _ HP _ _ H)) as (x' & y' & H' & Ex & Ey).
    destruct (incident_eq _ _ _ H') as [Hx' Hy'].
    exists x', y'. split; [|auto]. split; auto. split; auto. exists x, y. auto.
Qed.

Definition unmasked (s : msys) : Prop :=
  (forall w, In w (ms_vars s) -> snd (mv_id w) = None) /\
  (forall q, In q (ms_eqs s) -> snd (me_id q) = None /\ forall a, In a (me_acc q) -> snd (fst a) = None).

Lemma unmasked_flat : forall s, unmasked s -> flat_sys s.
Proof.
  intros s [Uv Ue]. split.
  - intros [[e m] i] [[e' m'] i'] (q & Hq & E & _) (q' & Hq' & E' & _) F. cbn in *.
    destruct (Ue q Hq) as [X _]. destruct (Ue q' Hq') as [Y _]. rewrite E in X. rewrite E' in Y. cbn in X, Y.
    unfold flat in F. cbn in F. congruence.
  - intros [[e m] i] [[e' m'] i'] (q & Hq & E & _) (q' & Hq' & E' & _) F. cbn in *.
    pose proof (Uv q Hq) as X. pose proof (Uv q' Hq') as Y. rewrite E in X. rewrite E' in Y. cbn in X, Y.
    unfold flat in F. cbn in F. congruence.
Qed.
Lemma unmasked_rest : forall s g, unmasked s -> unmasked (sys_unmatched s g).
Proof.
  intros s g [Uv Ue]. split.
  - intros w Hw. apply rest_var_in in Hw as (w0 & H0 & _ & ->). cbn. auto.
  - intros q Hq. apply rest_eq_in in Hq as (w0 & H0 & _ & ->). cbn. auto.
Qed.
Lemma unmasked_bare : forall s P, unmasked s -> perfect s P -> forall a b, flatten P a b <-> bare P a b.
Proof.
  intros s P U HP [a i] [b j]. unfold bare. cbn [fst snd]. split.
  - intros ([[e m] i'] & [[v m'] j'] & H & E1 & E2). unfold flat in *. cbn in E1, E2. inversion E1; inversion E2; subst.
    destruct (incident_eq _ _ _ (pf_incident _ _ HP _ _ H)) as [(q & Hq & Eq & _) (w & Hw & Ew & _)]. cbn in Eq, Ew.
    destruct U as [Uv Ue]. destruct (Ue q Hq) as [X _]. pose proof (Uv w Hw) as Y. rewrite Eq in X. rewrite Ew in Y.
    cbn in X, Y. now subst.
  - intros H. eexists; eexists. split; [exact H|]. auto.
Qed.

Lemma scalar_accesses_spec : forall scal ind acc l, scalar_accesses scal ind acc = Ok l ->
  (forall a, In a acc -> exists k, scalar_access scal ind a = Ok k /\ forall b, In b k -> In b l) /\
  (forall b, In b l -> exists a k, In a acc /\ scalar_access scal ind a = Ok k /\ In b k).
Proof.
  induction acc as [|a acc IH]; intros l E; cbn in E.
  - inversion E; subst. split; [intros a []|intros b []].
  - apply bind_ok in E as [k [Ek E]]. apply bind_ok in E as [l' [El E]]. inversion E; subst.
    destruct (IH _ El) as [I1 I2]. split.
    + intros a' [<-|H]; [exists k; split; auto; intros; apply in_app_iff; auto|].
      destruct (I1 a' H) as (k' & Hk & Hb). exists k'. split; auto. intros b X. apply in_app_iff. auto.
    + intros b H. apply in_app_iff in H as [H|H].
      * exists a, k. split; [now left|auto].
      * destruct (I2 b H) as (a' & k' & Ha & X). exists a', k'. split; [now right|auto].
Qed.

Definition should (scal : nat -> option pset) (q : meqn) : bool :=
  existsb (fun a => match scal (fst (fst a)) with
                    | Some _ => negb (is_const (snd a)) | None => false end) (me_acc q).
Definition made (scal : nat -> option pset) (q q' : meqn) : Prop :=
  scalar_accesses scal (me_ind q') (me_acc q) = Ok (me_acc q') /\
  ((should scal q = false /\ me_id q' = me_id q /\ me_ind q' = me_ind q) \/
   (should scal q = true /\ exists p, In p (me_ind q) /\ me_id q' = (fst (me_id q), Some p) /\ me_ind q' = [p])).

Lemma made_base : forall scal q q', made scal q q' -> fst (me_id q') = fst (me_id q).
Proof. intros scal q q' [_ [(_ & -> & _)|(_ & p & _ & -> & _)]]; auto. Qed.

Lemma scalar_points : forall scal q ps l0 l,
  fold_res (fun l p => acc <- scalar_accesses scal [p] (me_acc q) ;;
                       Ok (l ++ [MEqn (fst (me_id q), Some p) [p] true acc])) ps l0 = Ok l ->
  (forall q', In q' l <-> In q' l0 \/ exists p acc, In p ps /\ scalar_accesses scal [p] (me_acc q) = Ok acc /\
                 q' = MEqn (fst (me_id q), Some p) [p] true acc) /\
  map me_id l = map me_id l0 ++ map (fun p => (fst (me_id q), Some p)) ps /\
  (forall p, In p ps -> exists acc, scalar_accesses scal [p] (me_acc q) = Ok acc).
Proof.
  induction ps as [|p ps IH]; intros l0 l E; cbn in E.
  - inversion E; subst. split; [|split].
    + intros q'. split; [auto|]. intros [H|(p & acc & [] & _)]; auto.
    + cbn. now rewrite app_nil_r.
    + intros p [].
  - apply bind_ok in E as [l1 [E1 E]]. apply bind_ok in E1 as [acc [Ea E1]]. inversion E1; subst l1.
    destruct (IH _ _ E) as (I1 & I2 & I3). split; [|split].
    + intros q'. rewrite I1, in_app_iff. cbn [In]. split.
      * intros [[H|[<-|[]]]|(p' & acc' & H & X)]; [auto| |].
        -- right. exists p, acc. auto.
        -- right. exists p', acc'. auto.
      * intros [H|(p' & acc' & [<-|H] & X & ->)]; [auto| |].
        -- left. right. left. rewrite Ea in X. inversion X; subst. auto.
        -- right. exists p', acc'. auto.
    + rewrite I2, map_app, <- app_assoc. reflexivity.
    + intros p' [<-|H]; eauto.
Qed.

Lemma scalar_eqns_spec : forall scal es l, scalar_eqns scal es = Ok l ->
  NoDup (map (fun q => fst (me_id q)) es) ->
  (forall q', In q' l -> exists q, In q es /\ made scal q q') /\
  (forall q p, In q es -> In p (me_ind q) -> exists q', In q' l /\ made scal q q' /\ In p (me_ind q')) /\
  NoDup (map me_id l).
Proof.
  induction es as [|q es IH]; intros l E Hnd; cbn [scalar_eqns] in E.
  - inversion E; subst. split; [intros q' []|]. split; [intros q' p []|constructor].
  - inversion Hnd as [|? ? Hq Hnd']; subst. cbn zeta in E.
    apply bind_ok in E as [l1 [E1 E]]. apply bind_ok in E as [l2 [E2 E]]. inversion E; subst l. clear E.
    destruct (IH _ E2 Hnd') as (I1 & I2 & I3).
    assert (H1 : (forall q', In q' l1 -> made scal q q') /\
                 (forall p, In p (me_ind q) -> exists q', In q' l1 /\ made scal q q' /\ In p (me_ind q')) /\
                 NoDup (map me_id l1)).
    { change (existsb _ (me_acc q)) with (should scal q) in E1. destruct (should scal q) eqn:Esh.
      - destruct (scalar_points _ _ _ _ _ E1) as (J1 & J2 & J3). split; [|split].
        + intros q' H. apply J1 in H as [[]|(p & acc & Hp & Ha & ->)]. apply nodup_In in Hp.
          split; [exact Ha|]. right. split; [auto|]. exists p. auto.
        + intros p Hp. apply (nodup_In (list_eq_dec Z.eq_dec)) in Hp. destruct (J3 p Hp) as [acc Ha].
          exists (MEqn (fst (me_id q), Some p) [p] true acc). split; [apply J1; right; exists p, acc; auto|].
          split; [|now left]. split; [exact Ha|]. right. split; [auto|]. exists p. split; [now apply nodup_In in Hp|auto].
        + rewrite J2. cbn [map app]. apply FinFun.Injective_map_NoDup; [|apply NoDup_nodup].
          intros p p' X. now inversion X.
      - apply bind_ok in E1 as [acc [Ea E1]]. inversion E1; subst l1.
        assert (M : made scal q (MEqn (me_id q) (me_ind q) (me_vis q) acc)) by (split; [exact Ea|left; auto]).
        split; [intros q' [<-|[]]; auto|]. split; [|repeat constructor; auto].
        intros p Hp. eexists. split; [now left|]. auto. }
    destruct H1 as (K1 & K2 & K3). split; [|split].
    + intros q' H. apply in_app_iff in H as [H|H].
      * exists q. split; [now left|auto].
      * destruct (I1 _ H) as (q0 & H0 & M). exists q0. split; [now right|auto].
    + intros q0 p [<-|H0] Hp.
      * destruct (K2 p Hp) as (q' & X & Y). exists q'. split; [apply in_app_iff; auto|auto].
      * destruct (I2 q0 p H0 Hp) as (q' & X & Y). exists q'. split; [apply in_app_iff; auto|auto].
    + rewrite map_app. apply NoDup_app_intro; auto.
      intros k H H'. apply in_map_iff in H as (x & <- & Hx). apply in_map_iff in H' as (y & Ey & Hy).
      destruct (I1 _ Hy) as (q0 & H0 & M). apply Hq.
      apply K1, made_base in Hx. apply made_base in M. rewrite <- Hx, <- Ey, M.
      apply (in_map (fun q => fst (me_id q))). exact H0.
Qed.

Section Scalar.
  Variables (pk : msys -> mid -> bool) (u t : msys).
  Hypothesis Hsys : system u.
  Hypothesis Hun : unmasked u.
  Hypothesis Et : scalar_sys pk u = Ok t.

  Lemma base_var : forall w w', In w (ms_vars u) -> In w' (ms_vars u) -> fst (mv_id w) = fst (mv_id w') -> w = w'.
  Proof.
    intros w w' H H' E. pose proof (sy_vars _ Hsys) as Hnd.
    assert (Ei : mv_id w = mv_id w').
    { pose proof (proj1 Hun w H). pose proof (proj1 Hun w' H'). destruct (mv_id w), (mv_id w'). cbn in *. congruence. }
    clear E Et Hun Hsys. revert Hnd H H'. generalize (ms_vars u). induction l as [|x l IH]; cbn; [tauto|].
    intros Hnd. inversion Hnd; subst. intros [->|H] [->|H']; auto.
    - exfalso. apply H1. rewrite Ei. now apply in_map.
    - exfalso. apply H1. rewrite <- Ei. now apply in_map.
  Qed.
  Lemma map_bases : NoDup (map (fun q => fst (me_id q)) (ms_eqs u)) /\ NoDup (map (fun w => fst (mv_id w)) (ms_vars u)).
  Proof.
    split.
    - pose proof (sy_eqs _ Hsys) as Hnd. assert (X : forall q, In q (ms_eqs u) -> snd (me_id q) = None) by (intros q Hq; now apply (proj2 Hun)).
      revert Hnd X. generalize (ms_eqs u). induction l as [|x l IH]; cbn; intros Hnd X; [constructor|].
      inversion Hnd; subst. constructor; auto. intros Hin. apply H1. apply in_map_iff in Hin as (y & E & Hy).
      apply in_map_iff. exists y. split; auto. pose proof (X x (or_introl eq_refl)). pose proof (X y (or_intror Hy)).
      destruct (me_id x), (me_id y). cbn in *. congruence.
    - pose proof (sy_vars _ Hsys) as Hnd. assert (X : forall q, In q (ms_vars u) -> snd (mv_id q) = None) by (intros q Hq; now apply (proj1 Hun)).
      revert Hnd X. generalize (ms_vars u). induction l as [|x l IH]; cbn; intros Hnd X; [constructor|].
      inversion Hnd; subst. constructor; auto. intros Hin. apply H1. apply in_map_iff in Hin as (y & E & Hy).
      apply in_map_iff. exists y. split; auto. pose proof (X x (or_introl eq_refl)). pose proof (X y (or_intror Hy)).
      destruct (mv_id x), (mv_id y). cbn in *. congruence.
  Qed.

  Lemma scalar_map_none : forall b, scalar_map pk u b = None <->
    forall w, In w (ms_vars u) -> fst (mv_id w) = b -> scalarized pk u w = false.
  Proof.
    intros b. unfold scalar_map.
    destruct (filter (fun x => Nat.eqb (fst (mv_id x)) b && scalarized pk u x) (ms_vars u)) as [|w l] eqn:E.
    - split; [|auto]. intros _ w Hw Hb. destruct (scalarized pk u w) eqn:Es; auto.
      assert (X : In w []). { rewrite <- E. apply filter_In. rewrite Hb, Nat.eqb_refl, Es. auto. } destruct X.
    - split; [discriminate|]. intros H. exfalso.
      assert (X : In w (w :: l)) by now left. rewrite <- E in X. apply filter_In in X as [X Y].
      apply andb_true_iff in Y as [Y Z]. apply Nat.eqb_eq in Y. rewrite (H w X Y) in Z. discriminate.
  Qed.
  Lemma scalar_map_some : forall b pts, scalar_map pk u b = Some pts ->
    exists w, In w (ms_vars u) /\ fst (mv_id w) = b /\ scalarized pk u w = true /\
              forall p, In p pts <-> In p (mv_ind w).
  Proof.
    intros b pts E. unfold scalar_map in E.
    destruct (filter (fun x => Nat.eqb (fst (mv_id x)) b && scalarized pk u x) (ms_vars u)) as [|w l] eqn:El; [discriminate|].
    inversion E; subst pts. clear E.
    assert (H : forall x, In x (w :: l) -> In x (ms_vars u) /\ fst (mv_id x) = b /\ scalarized pk u x = true).
    { intros x X. rewrite <- El in X. apply filter_In in X as [X Y]. apply andb_true_iff in Y as [Y Z].
      apply Nat.eqb_eq in Y. auto. }
    destruct (H w (or_introl eq_refl)) as (A & B & C). exists w. split; auto. split; auto. split; auto.
    intros p. change (mv_ind w ++ flat_map mv_ind l) with (flat_map mv_ind (w :: l)); rewrite in_flat_map. split.
    - intros [x [X Y]]. destruct (H x X) as (A' & B' & _). assert (x = w) by (apply base_var; congruence). now subst.
    - intros Y. exists w. split; auto. now left.
  Qed.

  Lemma t_parts : scalar_eqns (scalar_map pk u) (ms_eqs u) = Ok (ms_eqs t) /\
    forall w', In w' (ms_vars t) <-> exists w, In w (ms_vars u) /\
      ((scalarized pk u w = false /\ w' = w) \/
       (scalarized pk u w = true /\ exists p, In p (mv_ind w) /\ w' = MVar (fst (mv_id w), Some p) [p] (mv_vis w))).
  Proof.
    unfold scalar_sys in Et. apply bind_ok in Et as [es [Ee E]]. inversion E; subst t. cbn [ms_eqs ms_vars].
    split; [auto|]. intros w'. rewrite in_flat_map. split; intros (w & Hw & H); exists w; (split; [auto|]);
      destruct (scalarized pk u w) eqn:Es.
    - right. split; auto. apply in_map_iff in H as (p & <- & Hp). apply nodup_In in Hp. exists p. auto.
    - left. destruct H as [<-|[]]. auto.
    - destruct H as [[X _]|(_ & p & Hp & ->)]; [discriminate|]. apply in_map_iff. exists p. split; auto. now apply nodup_In.
    - destruct H as [[_ ->]|[X _]]; [now left|discriminate].
  Qed.

  Lemma t_system : system t.
  Proof.
    destruct t_parts as [Ee Hv]. destruct (scalar_eqns_spec _ _ _ Ee (proj1 map_bases)) as (I1 & I2 & I3).
    constructor; auto.
    - unfold scalar_sys in Et. apply bind_ok in Et as [es [_ E]]. inversion E; subst t. cbn [ms_vars].
      pose proof (proj2 map_bases) as Hnd. revert Hnd. clear. generalize (ms_vars u).
      induction l as [|w l IH]; cbn; intros Hnd; [constructor|]. inversion Hnd as [|? ? Hw Hnd']; subst.
      rewrite map_app. apply NoDup_app_intro; auto.
      + destruct (scalarized pk u w); [|repeat constructor; auto]. rewrite map_map. cbn.
        apply FinFun.Injective_map_NoDup; [|apply NoDup_nodup]. intros p p' X. now inversion X.
      + intros k H H'. apply Hw.
        assert (Hk : fst k = fst (mv_id w)).
        { destruct (scalarized pk u w); [|destruct H as [<-|[]]; auto].
          apply in_map_iff in H as (x & <- & H). apply in_map_iff in H as (p & <- & _). auto. }
        apply in_map_iff in H' as (x & <- & H'). apply in_flat_map in H' as (w0 & H0 & H').
        assert (Hk' : fst (mv_id x) = fst (mv_id w0)).
        { destruct (scalarized pk u w0); [|destruct H' as [<-|[]]; auto].
          apply in_map_iff in H' as (p & <- & _). auto. }
        rewrite <- Hk, Hk'. apply (in_map (fun w => fst (mv_id w))). exact H0.
    - intros w Hw. apply Hv in Hw as (w0 & H0 & [[_ ->]|(_ & p & _ & ->)]); [|discriminate].
      now apply (sy_vne _ Hsys).
    - intros q Hq. apply I1 in Hq as (q0 & H0 & _ & [(_ & _ & ->)|(_ & p & _ & _ & ->)]); [|discriminate].
      now apply (sy_ene _ Hsys).
  Qed.

  Lemma unmasked_id : forall A (f : A -> mid) (x : A), snd (f x) = None -> f x = (fst (f x), None).
  Proof. intros A f x H. destruct (f x). cbn in *. now subst. Qed.

  Lemma t_flat : flat_sys t.
  Proof.
    destruct t_parts as [Ee Hv]. destruct (scalar_eqns_spec _ _ _ Ee (proj1 map_bases)) as (I1 & I2 & I3).
    destruct Hun as [Uv Ue]. split.
    - intros [x i] [x' i'] (q & Hq & Eq & Hi) (q' & Hq' & Eq' & Hi') F. unfold flat in F. cbn [fst snd] in *.
      inversion F as [[Fb Fi]]. subst i'. f_equal. subst x x'.
      destruct (I1 _ Hq) as (q0 & H0 & M0). destruct (I1 _ Hq') as (q1 & H1 & M1).
      assert (q0 = q1).
      { pose proof (made_base _ _ _ M0). pose proof (made_base _ _ _ M1).
        pose proof (proj1 map_bases) as Hnd. assert (E : fst (me_id q0) = fst (me_id q1)) by congruence.
        revert Hnd H0 H1 E. generalize (ms_eqs u). clear. induction l as [|z l IH]; cbn; [tauto|].
        intros Hnd. inversion Hnd; subst. intros [->|H] [->|H'] E; auto.
        - exfalso. apply H1. rewrite E. now apply (in_map (fun q => fst (me_id q))).
        - exfalso. apply H1. rewrite <- E. now apply (in_map (fun q => fst (me_id q))). }
      subst q1. 
      destruct M0 as [_ [(S0 & E0 & _)|(S0 & p & _ & E0 & P0)]], M1 as [_ [(S1 & E1 & _)|(S1 & p' & _ & E1 & P1)]];
        try congruence.
      rewrite P0 in Hi. rewrite P1 in Hi'. destruct Hi as [<-|[]], Hi' as [<-|[]]. congruence.
    - intros [y j] [y' j'] (w & Hw & Ew & Hj) (w' & Hw' & Ew' & Hj') F. unfold flat in F. cbn [fst snd] in *.
      inversion F as [[Fb Fi]]. subst j'. f_equal. subst y y'.
      apply Hv in Hw as (w0 & H0 & C0). apply Hv in Hw' as (w1 & H1 & C1).
      assert (w0 = w1).
      { apply base_var; auto.
        assert (fst (mv_id w) = fst (mv_id w0)) by (destruct C0 as [[_ ->]|(_ & p & _ & ->)]; auto).
        assert (fst (mv_id w') = fst (mv_id w1)) by (destruct C1 as [[_ ->]|(_ & p & _ & ->)]; auto). congruence. }
      subst w1. destruct C0 as [[S0 ->]|(S0 & p & Hp & ->)], C1 as [[S1 ->]|(S1 & p' & Hp' & ->)]; try congruence.
      cbn in *. destruct Hj as [<-|[]], Hj' as [<-|[]]. auto.
  Qed.

  Lemma t_var_of : forall w p, In w (ms_vars u) -> In p (mv_ind w) ->
    (scalarized pk u w = false /\ scalar_var t (mv_id w, p)) \/
    (scalarized pk u w = true /\ scalar_var t ((fst (mv_id w), Some p), p)).
  Proof.
    intros w p Hw Hp. destruct t_parts as [_ Hv]. destruct (scalarized pk u w) eqn:Es.
    - right. split; auto. exists (MVar (fst (mv_id w), Some p) [p] (mv_vis w)).
      split; [apply Hv; exists w; split; auto; right; split; auto; exists p; auto|]. cbn. auto.
    - left. split; auto. exists w. split; [apply Hv; exists w; auto|]. auto.
  Qed.
  Lemma t_var_from : forall y, scalar_var t y -> exists w, In w (ms_vars u) /\ In (snd y) (mv_ind w) /\
    ((scalarized pk u w = false /\ fst y = mv_id w) \/
     (scalarized pk u w = true /\ fst y = (fst (mv_id w), Some (snd y)))).
  Proof.
    intros [v j] (w' & Hw' & Ei & Hj). cbn [fst snd] in *. destruct t_parts as [_ Hv].
    apply Hv in Hw' as (w & Hw & [[Es ->]|(Es & p & Hp & ->)]); exists w; split; auto.
    cbn in *. destruct Hj as [<-|[]]. split; auto.
  Qed.

  Lemma t_sim : fsim u t.
  Proof.
    destruct t_parts as [Ee Hv]. destruct (scalar_eqns_spec _ _ _ Ee (proj1 map_bases)) as (I1 & I2 & I3).
    destruct Hun as [Uv Ue]. split; [|split].
    - intros [x i] (q & Hq & Ei & Hi). cbn [fst snd] in *. destruct (I2 q i Hq Hi) as (q' & Hq' & M & Hi').
      exists (me_id q', i). split; [exists q'; auto|]. unfold flat. cbn. rewrite (made_base _ _ _ M). congruence.
    - intros [y j] (w & Hw & Ei & Hj). cbn [fst snd] in *. subst y.
      destruct (t_var_of w j Hw Hj) as [[_ H]|[_ H]]; eexists; (split; [exact H|]); reflexivity.
    - intros [x i] [y j] [(q & a & Hq & Ei & Hi & Ha & Hm) (w & Hw & Ew & Hj)]. cbn [fst snd] in *.
      destruct (I2 q i Hq Hi) as (q' & Hq' & M & Hi'). pose proof (made_base _ _ _ M) as Mb. destruct M as [Macc _].
      destruct (scalar_accesses_spec _ _ _ _ Macc) as [A1 _]. destruct (A1 _ Ha) as (k & Hk & Hin).
      unfold scalar_access in Hk. cbn [fst snd] in Hk. subst x y.
      destruct (scalar_map pk u (fst (mv_id w))) as [pts|] eqn:Em.
      + destruct (scalar_map_some _ _ Em) as (w' & Hw' & Eb & Es & Hp).
        assert (w' = w) by (apply base_var; auto). subst w'.
        destruct (nodup (list_eq_dec Z.eq_dec) (flat_map (macc_map a) (me_ind q'))) as [|p [|p2 ps]] eqn:En;
          try discriminate.
        assert (Hjp : In j [p]). { rewrite <- En. apply nodup_In. apply in_flat_map. eauto. }
        destruct Hjp as [->|[]].
        assert (Hmem : ps_mem pts j = true) by (apply ps_mem_spec; apply Hp; auto).
        rewrite Hmem in Hk. inversion Hk; subst k.
        exists (me_id q', i), ((fst (mv_id w), Some j), j). split; [|split; [unfold flat; cbn; congruence|reflexivity]].
        split.
        * exists q', a. cbn. split; auto. split; auto. split; auto. split; auto. apply Hin. now left.
        * destruct (t_var_of w j Hw Hj) as [[X _]|[_ H]]; [congruence|exact H].
      + pose proof (proj1 (scalar_map_none _) Em w Hw eq_refl) as Es. inversion Hk; subst k.
        exists (me_id q', i), (mv_id w, j). split; [|split; [unfold flat; cbn; congruence|reflexivity]]. split.
        * exists q', a. cbn. split; auto. split; auto. split; auto. split; auto. apply Hin. now left.
        * destruct (t_var_of w j Hw Hj) as [[_ H]|[X _]]; [exact H|congruence].
  Qed.

  Lemma made_ind : forall q q' i, made (scalar_map pk u) q q' -> In i (me_ind q') -> In i (me_ind q).
  Proof.
    intros q q' i [_ [(_ & _ & E)|(_ & p & Hp & _ & E)]] Hi; rewrite E in Hi; auto. destruct Hi as [<-|[]]. auto.
  Qed.

  Lemma t_sim' : fsim t u.
  Proof.
    destruct t_parts as [Ee Hv]. destruct (scalar_eqns_spec _ _ _ Ee (proj1 map_bases)) as (I1 & I2 & I3).
    split; [|split].
    - intros [x i] (q' & Hq' & Ei & Hi). cbn [fst snd] in *. destruct (I1 _ Hq') as (q & Hq & M).
      exists (me_id q, i). split; [exists q; split; auto; split; auto; eapply made_ind; eauto|].
      unfold flat. cbn. rewrite <- (made_base _ _ _ M). congruence.
    - intros y Hy. destruct (t_var_from y Hy) as (w & Hw & Hj & C).
      exists (mv_id w, snd y). split; [exists w; auto|]. unfold flat. cbn.
      destruct C as [[_ ->]|[_ ->]]; reflexivity.
    - intros [x i] y [(q' & a & Hq' & Ei & Hi & Ha & Hm) Hy]. cbn [fst snd] in *.
      destruct (I1 _ Hq') as (q & Hq & M). pose proof (made_base _ _ _ M) as Mb.
      pose proof (made_ind _ _ _ M Hi) as Hi'. destruct M as [Macc _].
      destruct (scalar_accesses_spec _ _ _ _ Macc) as [_ A2]. destruct (A2 _ Ha) as ([v b] & k & Hb & Hk & Hin).
      destruct (t_var_from y Hy) as (w & Hw & Hj & C).
      pose proof (proj2 (proj2 Hun q Hq) _ Hb) as Un. cbn in Un.
      assert (X : v = mv_id w /\ b = a).
      { unfold scalar_access in Hk. cbn [fst snd] in Hk. destruct (scalar_map pk u (fst v)) as [pts|] eqn:Em.
        - destruct (nodup (list_eq_dec Z.eq_dec) (flat_map (macc_map b) (me_ind q'))) as [|p [|p2 ps]]; try discriminate.
          inversion Hk; subst k. destruct (ps_mem pts p); [|destruct Hin]. destruct Hin as [E|[]]. inversion E; subst b.
          split; auto. pose proof (proj1 Hun w Hw) as Uw.
          destruct C as [[_ Ey]|[_ Ey]].
          + rewrite Ey in H0. rewrite <- H0 in Uw. discriminate.
          + rewrite Ey in H0. inversion H0. destruct v as [v0 v1], (mv_id w) as [w0 w1]. cbn in *. congruence.
        - inversion Hk; subst k. destruct Hin as [E|[]]. inversion E; subst. split; auto.
          destruct C as [[_ Ey]|[_ Ey]]; auto. rewrite Ey in Un. discriminate. }
      destruct X as [-> ->].
      exists (me_id q, i), (mv_id w, snd y). split; [|split].
      + split; [exists q, a; auto|exists w; auto].
      + unfold flat. cbn. rewrite <- Ei, Mb. reflexivity.
      + unfold flat. cbn. destruct C as [[_ ->]|[_ ->]]; reflexivity.
  Qed.

  (** All variables are scalars if every array of more than one element is
      picked. *)
  Lemma t_single : (forall w, In w (ms_vars u) -> (forall p q, In p (mv_ind w) -> In q (mv_ind w) -> p = q) \/
                                                 pk u (mv_id w) = true) ->
    forall w p q, In w (ms_vars t) -> In p (mv_ind w) -> In q (mv_ind w) -> p = q.
  Proof.
    intros H w p q Hw Hp Hq. destruct t_parts as [_ Hv]. apply Hv in Hw as (w0 & H0 & [[Es ->]|(Es & r & Hr & ->)]).
    - destruct (H w0 H0) as [X|X]; [auto|]. unfold scalarized in Es. rewrite X, andb_true_r in Es.
      apply Nat.ltb_ge in Es. unfold ps_size in Es.
      apply (nodup_In (list_eq_dec Z.eq_dec)) in Hp. apply (nodup_In (list_eq_dec Z.eq_dec)) in Hq.
      destruct (nodup (list_eq_dec Z.eq_dec) (mv_ind w0)) as [|z [|z' l]]; [destruct Hp| |cbn in Es; lia].
      destruct Hp as [<-|[]], Hq as [<-|[]]. auto.
    - cbn in Hp, Hq. destruct Hp as [<-|[]], Hq as [<-|[]]. auto.
  Qed.
End Scalar.

(** * The runs *)

Section Run.
  Variable solve : mmat -> list mmat.
  Hypothesis Hsolve : local_solver solve.
  Variable sc : sched.
  Hypothesis Hsched : schedule sc.

  Definition single (s : msys) : Prop :=
    forall w p q, In w (ms_vars s) -> In p (mv_ind w) -> In q (mv_ind w) -> p = q.

  Lemma rest_single : forall s g g1, built s g -> leaf_inv g g1 -> single s -> single (sys_unmatched s g1).
  Proof.
    intros s g g1 B L H w p q Hw Hp Hq. apply rest_var_in in Hw as (w0 & H0 & _ & ->). cbn in Hp, Hq.
    apply (H w0); auto; eapply rest_all_var; eauto.
  Qed.

  Lemma match_leaf_spec : forall fu depth leaf s r u r' Q, match_leaf solve fu sc depth leaf s r = Ok (u, r') ->
    reports r Q -> exists g g1, built s g /\ leaf_inv g g1 /\ u = sys_unmatched s g1 /\
      reports r' (fun a b => Q a b \/ flatten (g_pairs g1) a b).
  Proof.
    intros fu depth leaf s r u r' Q E Hr. unfold match_leaf in E. apply bind_ok in E as [g [Eg E]].
    pose proof (build_built _ _ Eg) as B. exists g. destruct leaf.
    - apply bind_ok in E as [g1 [E1 E]]. inversion E; subst. exists g1. split; auto. split.
      + eapply leaf_run_spec; eauto; [apply (proj2 Hsched)|eapply built_leaf; eauto].
      + split; auto. now apply collect_reports.
    - inversion E; subst. exists g. split; auto. split; [eapply built_leaf; eauto|]. split; auto.
      eapply reports_ext; [|exact Hr]. intros a b. split; auto. intros [X|(x & y & X & _)]; auto.
      exfalso. eapply built_nopair; eauto.
  Qed.

  Lemma match_generic_spec : forall fu u r o Q, match_generic solve fu sc u r = Ok o -> single u -> reports r Q ->
    match o with
    | Some r' => exists P, perfect u P /\ reports r' (fun a b => Q a b \/ flatten P a b)
    | None => ~ solvable u
    end.
  Proof.
    intros fu u r o Q E Hs Hr. unfold match_generic in E. apply bind_ok in E as [g [Eg E]].
    pose proof (build_built _ _ Eg) as B. apply bind_ok in E as [[ok g'] [Eh E]]. inversion E; subst o.
    destruct (hk_run_spec solve Hsolve sc Hsched _ _ g ok g' (built_valid _ _ B) (proj2 (built_scalar _ _ B) Hs) Eh)
      as (V & S & Ht & Hf).
    destruct ok.
    - exists (g_pairs g'). split; [apply (built_perfect _ _ B); auto|]. now apply collect_reports.
    - intros [P HP]. apply (Hf eq_refl P). now apply (built_perfect _ _ B).
  Qed.

  (** A stage of the matching: what is left of the system [s] is [u], [M] is
      what has been matched. *)
  Record stage (s u : msys) (M : nat * point -> nat * point -> Prop) : Prop := {
    st_back : solvable s -> solvable u;
    st_forth : forall Q, perfect u Q -> exists P, perfect s P /\
      forall a b, flatten P a b <-> M a b \/ flatten Q a b }.

  Lemma stage_leaf : forall s g g1, built s g -> leaf_inv g g1 -> stage s (sys_unmatched s g1) (flatten (g_pairs g1)).
  Proof.
    intros s g g1 B L. constructor.
    - intros [P HP]. eexists. eapply rest_restrict; eauto.
    - intros Q HQ. exists (fun x y => g_pairs g1 x y \/ Q x y). split; [eapply rest_extend; eauto|].
      intros a b. split.
      + intros (x & y & [H|H] & X); [left|right]; exists x, y; auto.
      + intros [(x & y & H & X)|(x & y & H & X)]; exists x, y; auto.
  Qed.
  Lemma stage_scalar : forall pk u t, system u -> unmasked u -> scalar_sys pk u = Ok t ->
    stage u t (fun _ _ => False).
  Proof.
    intros pk u t S U E. pose proof (t_sim pk u t S U E) as F. pose proof (t_sim' pk u t S U E) as F'.
    pose proof (unmasked_flat u U) as Fu. pose proof (t_flat pk u t S U E) as Ft. constructor.
    - intros [P HP]. exists (carry t P). exact (carry_perfect u t P Fu Ft F F' HP).
    - intros Q HQ. exists (carry u Q). split; [exact (carry_perfect t u Q Ft Fu F' F HQ)|].
      intros a b. rewrite (carry_flatten t u Q F' HQ). tauto.
  Qed.
  Lemma stage_trans : forall s u t M N, stage s u M -> stage u t N -> stage s t (fun a b => M a b \/ N a b).
  Proof.
    intros s u t M N [A1 A2] [B1 B2]. constructor; auto. intros Q HQ. destruct (B2 Q HQ) as (P & HP & E).
    destruct (A2 P HP) as (P' & HP' & E'). exists P'. split; auto. intros a b. rewrite E', E. tauto.
  Qed.

  Lemma stage_end : forall fu s u M r o, stage s u M -> reports r M -> single u ->
    match_generic solve fu sc u r = Ok o ->
    match o with
    | Some r' => exists P, perfect s P /\ reports r' (flatten P)
    | None => ~ solvable s
    end.
  Proof.
    intros fu s u M r o [S1 S2] Hr Hs E. pose proof (match_generic_spec fu u r o M E Hs Hr) as H. destruct o as [r'|].
    - destruct H as (Q & HQ & HR). destruct (S2 Q HQ) as (P & HP & EP). exists P. split; auto.
      eapply reports_ext; [|exact HR]. intros a b. now rewrite EP.
    - auto.
  Qed.

  Lemma empty_reports : reports [] (fun _ _ => False).
  Proof. split; [constructor|]. split; [intros e i v j []|intros e v es vs []]. Qed.

  Lemma match_run_spec : forall fu leaf pick s o, match_run solve fu sc leaf pick s = Ok o ->
    unmasked s -> scalarizes pick s ->
    match o with
    | Some r' => exists P, perfect s P /\ reports r' (flatten P)
    | None => ~ solvable s
    end.
  Proof.
    intros fu leaf pick s o E U H. unfold match_run in E. apply bind_ok in E as [[u r] [E1 E]].
    destruct (match_leaf_spec _ _ _ _ _ _ _ _ E1 empty_reports) as (g & g1 & B & L & -> & R1).
    assert (R1' : reports r (flatten (g_pairs g1))) by (eapply reports_ext; [|exact R1]; intros; tauto).
    pose proof (stage_leaf _ _ _ B L) as St. set (u := sys_unmatched s g1) in *.
    pose proof (rest_system _ _ g1 B) as Su. fold u in Su.
    pose proof (unmasked_rest s g1 U) as Uu. fold u in Uu.
    assert (Hu : forall pk, pick = Some pk -> forall w, In w (ms_vars u) ->
              (forall p q, In p (mv_ind w) -> In q (mv_ind w) -> p = q) \/ pk u (mv_id w) = true).
    { intros pk Ep w Hw. apply rest_var_in in Hw as (w0 & H0 & _ & ->). cbn [mv_id mv_ind].
      destruct (H w0 H0) as [X|(pk' & Ep' & X)].
      - left. intros p q Hp Hq. apply X; eapply rest_all_var; eauto.
      - right. assert (pk' = pk) by congruence. subst. apply X. }
    assert (Hs : forall pk, pick = Some pk -> existsb (scalarized pk u) (ms_vars u) = false -> single u).
    { intros pk Ep Ex w p q Hw Hp Hq. destruct (Hu pk Ep w Hw) as [X|X]; [auto|].
      assert (Es : scalarized pk u w = false).
      { destruct (scalarized pk u w) eqn:Es; auto. rewrite <- Ex. symmetry. apply existsb_exists. eauto. }
      unfold scalarized in Es. rewrite X, andb_true_r in Es. apply Nat.ltb_ge in Es. unfold ps_size in Es.
      apply (nodup_In (list_eq_dec Z.eq_dec)) in Hp. apply (nodup_In (list_eq_dec Z.eq_dec)) in Hq.
      destruct (nodup (list_eq_dec Z.eq_dec) (mv_ind w)) as [|z [|z' l]]; [destruct Hp| |cbn in Es; lia].
      destruct Hp as [<-|[]], Hq as [<-|[]]. auto. }
    destruct pick as [pk|].
    - destruct (existsb (scalarized pk u) (ms_vars u)) eqn:Ex.
      + apply bind_ok in E as [t [Et E]]. apply bind_ok in E as [[u' r'] [E2 E]].
        destruct (match_leaf_spec _ _ _ _ _ _ _ _ E2 R1') as (h & h1 & B' & L' & -> & R2).
        eapply stage_end; [|exact R2| |exact E].
        * assert (X : stage s (sys_unmatched t h1)
                        (fun a b => (flatten (g_pairs g1) a b \/ False) \/ flatten (g_pairs h1) a b)).
          { apply (stage_trans s t); [|apply (stage_leaf t h h1 B' L')].
            apply (stage_trans s u t _ (fun _ _ => False)); auto. eapply stage_scalar; eauto. }
          destruct X as [X1 X2]. constructor; auto. intros Q HQ. destruct (X2 Q HQ) as (P & HP & EP).
          exists P. split; auto. intros a b. rewrite EP. tauto.
        * eapply rest_single; eauto. intros w p q. eapply t_single; eauto.
      + eapply stage_end; eauto.
    - eapply stage_end; eauto. eapply rest_single; eauto. intros w p q Hw.
      destruct (H w Hw) as [X|(pk' & Ep' & _)]; [apply X|discriminate].
  Qed.

  Lemma leaf_loop_mono : forall f k g cand g', leaf_loop solve f g cand = Ok g' -> leaf_loop solve (f + k) g cand = Ok g'.
  Proof.
    induction f as [|f IH]; intros k g cand g' E; destruct cand as [|v1 cand]; cbn [leaf_loop Nat.add] in *;
      try discriminate; auto.
    - destruct k; exact E.
    - apply bind_ok in E as [[g1 new] [E1 E]]. rewrite E1. cbn [bind]. auto.
  Qed.

  Lemma match_leaf_total : forall depth leaf s r, system s -> (leaf = true -> solvable s) ->
    exists N u r', forall fu, N <= fu_leaf fu -> match_leaf solve fu sc depth leaf s r = Ok (u, r').
  Proof.
    intros depth leaf s r Sy Hs. destruct (build_total s Sy) as [g Eg]. pose proof (build_built _ _ Eg) as B.
    unfold match_leaf. rewrite Eg. cbn [bind]. destruct leaf.
    - destruct (Hs eq_refl) as [P HP].
      set (N := length (g_nodes g) + length (g_edges g) * S (length (g_edges g))).
      destruct (leaf_run_total solve Hsolve N (sc_leaf sc depth) g) as [g1 E1].
      + apply (proj2 Hsched).
      + eapply built_leaf; eauto.
      + exists P. now apply (built_perfect _ _ B).
      + unfold N. lia.
      + exists N, (sys_unmatched s g1), (collect g1 r). intros fu Hf.
        assert (E : leaf_run solve (fu_leaf fu) (sc_leaf sc depth) g = Ok g1).
        { unfold leaf_run in *. replace (fu_leaf fu) with (N + (fu_leaf fu - N)) by lia. now apply leaf_loop_mono. }
        rewrite E. reflexivity.
    - exists 0, (sys_unmatched s g), r. auto.
  Qed.

  Lemma match_generic_total : forall u r, system u -> single u ->
    exists N, forall fu, N <= fu_hk fu -> N <= fu_bfs fu -> exists o, match_generic solve fu sc u r = Ok o.
  Proof.
    intros u r Sy Hs. destruct (build_total u Sy) as [g Eg]. pose proof (build_built _ _ Eg) as B.
    exists (S (length (free_eqs g)) + length (universe g)). intros fu H1 H2. unfold match_generic. rewrite Eg. cbn [bind].
    destruct (hk_run_total solve Hsolve sc Hsched (fu_hk fu) (fu_bfs fu) g) as (b & g' & E).
    - eapply built_valid; eauto.
    - apply (built_scalar _ _ B). exact Hs.
    - lia.
    - lia.
    - rewrite E. cbn [bind]. eauto.
  Qed.

  Lemma nodup_one : forall (l : list point) j, l <> [] -> (forall k, In k l -> k = j) ->
    nodup (list_eq_dec Z.eq_dec) l = [j].
  Proof.
    intros l j Hne H. assert (Hnd := NoDup_nodup (list_eq_dec Z.eq_dec) l).
    assert (Hin : forall k, In k (nodup (list_eq_dec Z.eq_dec) l) <-> In k l) by (intros; apply nodup_In).
    destruct (nodup (list_eq_dec Z.eq_dec) l) as [|x [|y m]].
    - destruct l as [|z l]; [congruence|]. exfalso. apply (Hin z). now left.
    - f_equal. apply H, Hin. now left.
    - exfalso. assert (x = j) by (apply H, Hin; now left). assert (y = j) by (apply H, Hin; right; now left).
      subst. inversion Hnd; subst. apply H2. now left.
  Qed.

  Lemma scalar_accesses_total : forall scal ind acc,
    (forall a pts, In a acc -> scal (fst (fst a)) = Some pts ->
       exists j, nodup (list_eq_dec Z.eq_dec) (flat_map (macc_map (snd a)) ind) = [j]) ->
    exists l, scalar_accesses scal ind acc = Ok l.
  Proof.
    induction acc as [|a acc IH]; intros H; cbn; [eauto|].
    assert (X : exists k, scalar_access scal ind a = Ok k).
    { unfold scalar_access. pose proof (fun pts => H a pts (or_introl eq_refl)) as Ha. unfold mid, point in *.
      destruct (scal (fst (fst a))) as [pts|]; [|eauto].
      destruct (Ha pts eq_refl) as [j Hj]. rewrite Hj. eauto. }
    destruct X as [k ->]. cbn [bind]. destruct IH as [l ->]; [intros; eapply H; eauto; now right|]. cbn. eauto.
  Qed.

  Lemma scalar_points_total : forall scal q ps l0,
    (forall p, In p ps -> exists acc, scalar_accesses scal [p] (me_acc q) = Ok acc) ->
    exists l, fold_res (fun l p => acc <- scalar_accesses scal [p] (me_acc q) ;;
                       Ok (l ++ [MEqn (fst (me_id q), Some p) [p] true acc])) ps l0 = Ok l.
  Proof.
    induction ps as [|p ps IH]; intros l0 Hp; cbn [fold_res]; [eauto|].
    destruct (Hp p (or_introl eq_refl)) as [acc Ea]. unfold mid, point in *. rewrite Ea. cbn [bind].
    apply IH. intros; apply Hp; now right.
  Qed.
  Lemma scalar_eqns_total : forall scal es,
    (forall q, In q es -> me_ind q <> []) ->
    (forall q v a i, In q es -> In (v, a) (me_acc q) -> In i (me_ind q) ->
       exists j, forall k, In k (macc_map a i) <-> k = j) ->
    exists l, scalar_eqns scal es = Ok l.
  Proof.
    induction es as [|q es IH]; intros Hne H; cbn [scalar_eqns]; [eauto|]. cbn zeta.
    destruct IH as [l2 E2]; [intros; apply Hne; now right|intros; eapply H; eauto; now right|].
    change (existsb _ (me_acc q)) with (should scal q).
    assert (X : exists l1, (if should scal q
              then fold_res (fun l p => acc <- scalar_accesses scal [p] (me_acc q) ;;
                                     Ok (l ++ [MEqn (fst (me_id q), Some p) [p] true acc]))
                  (nodup (list_eq_dec Z.eq_dec) (me_ind q)) []
              else acc <- scalar_accesses scal (me_ind q) (me_acc q) ;;
                   Ok [MEqn (me_id q) (me_ind q) (me_vis q) acc]) = Ok l1).
    { destruct (should scal q) eqn:Es.
      - assert (Hp : forall p, In p (nodup (list_eq_dec Z.eq_dec) (me_ind q)) ->
                  exists acc, scalar_accesses scal [p] (me_acc q) = Ok acc).
        { intros p Hp. apply nodup_In in Hp. apply scalar_accesses_total. intros [v a] pts Ha _. cbn [snd].
          destruct (H q v a p (or_introl eq_refl) Ha Hp) as [j Hj]. exists j. apply nodup_one.
          - cbn. rewrite app_nil_r. intros E. specialize (proj2 (Hj j) eq_refl). rewrite E. intros [].
          - intros k Hk. cbn in Hk. rewrite app_nil_r in Hk. now apply Hj. }
        apply scalar_points_total; exact Hp.
      - destruct (scalar_accesses_total scal (me_ind q) (me_acc q)) as [acc Ea]; [|unfold mid, point in *; rewrite Ea; cbn; eauto].
        intros [v a] pts Ha Hs. cbn [fst snd] in *.
        assert (Hc : is_const a = true).
        { destruct (is_const a) eqn:Ec; auto. exfalso. assert (X : should scal q = true); [|congruence].
          apply existsb_exists. exists (v, a). split; auto. cbn [fst snd]. now rewrite Hs, Ec. }
        destruct a as [p|f]; [|discriminate]. exists p. apply nodup_one.
        + intros E. pose proof (Hne q (or_introl eq_refl)) as Hq. destruct (me_ind q); [congruence|discriminate].
        + intros k Hk. apply in_flat_map in Hk as (i & _ & [<-|[]]). auto. }
    destruct X as [l1 ->]. cbn [bind]. rewrite E2. cbn. eauto.
  Qed.

  Lemma match_run_total : forall leaf pick s, system s -> unmasked s -> scalarizes pick s ->
    (pick <> None -> one_target s) -> solvable s ->
    exists N, forall fu, N <= fu_leaf fu -> N <= fu_hk fu -> N <= fu_bfs fu ->
      exists r, match_run solve fu sc leaf pick s = Ok (Some r).
  Proof.
    intros leaf pick s Sy U H Ho Hsol.
    assert (X : exists N, forall fu, N <= fu_leaf fu -> N <= fu_hk fu -> N <= fu_bfs fu ->
      exists o, match_run solve fu sc leaf pick s = Ok o).
    { destruct (match_leaf_total 0 leaf s [] Sy (fun _ => Hsol)) as (N1 & u & r & E1).
      destruct (match_leaf_spec (Fuels N1 0 0) _ _ _ _ _ _ _ (E1 (Fuels N1 0 0) (le_n _)) empty_reports)
        as (g & g1 & B & L & -> & R1).
      pose proof (stage_leaf _ _ _ B L) as St. set (u := sys_unmatched s g1) in *.
      pose proof (rest_system _ _ g1 B) as Su. fold u in Su.
      pose proof (unmasked_rest s g1 U) as Uu. fold u in Uu.
      assert (Hu : forall pk, pick = Some pk -> forall w, In w (ms_vars u) ->
              (forall p q, In p (mv_ind w) -> In q (mv_ind w) -> p = q) \/ pk u (mv_id w) = true).
      { intros pk Ep w Hw. apply rest_var_in in Hw as (w0 & H0 & _ & ->). cbn [mv_id mv_ind].
        destruct (H w0 H0) as [X|(pk' & Ep' & X)].
        - left. intros p q Hp Hq. apply X; eapply rest_all_var; eauto.
        - right. assert (pk' = pk) by congruence. subst. apply X. }
      assert (Hs : match pick with Some pk => existsb (scalarized pk u) (ms_vars u) = false | None => True end -> single u).
      { destruct pick as [pk|].
        - intros Ex w p q Hw Hp Hq. destruct (Hu pk eq_refl w Hw) as [X|X]; [auto|].
          assert (Es : scalarized pk u w = false).
          { destruct (scalarized pk u w) eqn:Es; auto. rewrite <- Ex. symmetry. apply existsb_exists. eauto. }
          unfold scalarized in Es. rewrite X, andb_true_r in Es. apply Nat.ltb_ge in Es. unfold ps_size in Es.
          apply (nodup_In (list_eq_dec Z.eq_dec)) in Hp. apply (nodup_In (list_eq_dec Z.eq_dec)) in Hq.
          destruct (nodup (list_eq_dec Z.eq_dec) (mv_ind w)) as [|z [|z' l]]; [destruct Hp| |cbn in Es; lia].
          destruct Hp as [<-|[]], Hq as [<-|[]]. auto.
        - intros _. eapply rest_single; eauto. intros w p q Hw.
          destruct (H w Hw) as [X|(pk' & Ep' & _)]; [apply X|discriminate]. }
      assert (Hgen : single u -> exists N, forall fu, N <= fu_leaf fu -> N <= fu_hk fu -> N <= fu_bfs fu ->
        exists o, match_generic solve fu sc u r = Ok o).
      { intros Hsing. destruct (match_generic_total u r Su Hsing) as [N2 E2]. exists N2. auto. }
      assert (Hbase : single u -> match pick with Some pk => existsb (scalarized pk u) (ms_vars u) = false | None => True end ->
        exists N, forall fu, N <= fu_leaf fu -> N <= fu_hk fu -> N <= fu_bfs fu ->
          exists o, match_run solve fu sc leaf pick s = Ok o).
      { intros Hsing Hp. destruct (Hgen Hsing) as [N2 E2]. exists (N1 + N2). intros fu F1 F2 F3.
        unfold match_run. rewrite E1 by lia. cbn [bind].
        destruct pick as [pk|]; [rewrite Hp|]; apply E2; lia. }
      destruct pick as [pk|].
      - destruct (existsb (scalarized pk u) (ms_vars u)) eqn:Ex.
        + assert (Hot : one_target s) by (apply Ho; discriminate).
          destruct (scalar_eqns_total (scalar_map pk u) (ms_eqs u)) as [es Ees].
          { apply (sy_ene _ Su). }
          { intros q v a i Hq Ha Hi. apply rest_eq_in in Hq as (q0 & H0 & _ & ->). cbn in Ha, Hi.
            eapply Hot; eauto. eapply rest_all_eq; eauto. }
          assert (Et : exists t, scalar_sys pk u = Ok t) by (unfold scalar_sys; rewrite Ees; cbn; eauto).
          destruct Et as [t Et].
          pose proof (t_system pk u t Su Uu Et) as Syt.
          assert (Hsu : solvable u) by (apply (st_back _ _ _ St Hsol)).
          assert (Hst : solvable t) by (apply (st_back _ _ _ (stage_scalar pk u t Su Uu Et) Hsu)).
          destruct (match_leaf_total 1 leaf t r Syt (fun _ => Hst)) as (N2 & u' & r' & E2).
          destruct (match_leaf_spec (Fuels N2 0 0) _ _ _ _ _ _ _ (E2 (Fuels N2 0 0) (le_n _)) R1)
            as (h & h1 & B' & L' & Eu' & _).
          subst u'.
          destruct (match_generic_total (sys_unmatched t h1) r') as [N3 E3].
          { eapply rest_system; eauto. }
          { eapply rest_single; eauto. intros w p q. eapply t_single; eauto. }
          exists (N1 + N2 + N3). intros fu F1 F2 F3. unfold match_run. rewrite E1 by lia. cbn [bind].
          rewrite Ex, Et. cbn [bind]. rewrite E2 by lia. cbn [bind]. apply E3; lia.
        + apply Hbase; auto.
      - apply Hbase; auto. }
    destruct X as [N X]. exists N. intros fu F1 F2 F3. destruct (X fu F1 F2 F3) as [[r|] E]; [eauto|].
    exfalso. exact (match_run_spec _ _ _ _ _ E U H Hsol).
  Qed.
End Run.
