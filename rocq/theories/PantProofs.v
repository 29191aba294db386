From Coq Require Import ZArith List Bool Arith Lia.
From Verif Require Import RangeModel Result ListTac MatchModel MatchSetProofs PantModel PantSpec.
Import ListNotations.
Local Open Scope nat_scope.

(** * Lists *)

Lemma after_snoc : forall log e a m b, after (log ++ [e]) a m b ->
  after log a m b \/ (b = e /\ exists l1, log = l1 ++ a :: m).
Proof.
  intros log e a m b (l1 & l3 & E).
  destruct (exists_last (l := b :: l3)) as (l' & x & Ex); [discriminate|].
  destruct l3 as [|y l3].
  - right. rewrite app_comm_cons, app_assoc in E. apply app_inj_tail in E.
    destruct E as [E ->]. split; eauto.
  - left. destruct (exists_last (l := y :: l3)) as (l4 & z & E4); [discriminate|].
    rewrite E4 in E. exists l1, l4.
    replace (l1 ++ a :: m ++ b :: l4 ++ [z]) with ((l1 ++ a :: m ++ b :: l4) ++ [z]) in E
      by (rewrite <- app_assoc; cbn; rewrite <- app_assoc; auto).
    apply app_inj_tail in E. tauto.
Qed.

Lemma snoc_split : forall A (log : list A) e l1 a l2, log ++ [e] = l1 ++ a :: l2 ->
  (l1 = log /\ a = e /\ l2 = []) \/ (exists l, l2 = l ++ [e] /\ log = l1 ++ a :: l).
Proof.
  intros A log e l1 a l2 E. destruct l2 as [|y l2].
  - left. apply app_inj_tail in E. intuition.
  - right. destruct (exists_last (l := y :: l2)) as (l4 & z & E4); [discriminate|].
    rewrite E4 in *. rewrite app_comm_cons, app_assoc in E. apply app_inj_tail in E.
    destruct E as [E ->]. eauto.
Qed.

Lemma by_id_some : forall l id d, by_id l id = Some d -> In (d, id) l.
Proof.
  unfold by_id; intros l id d H. destruct (find _ l) as [x|] eqn:E; [|discriminate].
  apply find_some in E. destruct E as [I E]. apply Nat.eqb_eq in E. destruct x; cbn in *.
  inversion H; subst; auto.
Qed.

Lemma by_id_none : forall l id d, by_id l id = None -> ~ In (d, id) l.
Proof.
  unfold by_id; intros l id d H I. destruct (find _ l) as [x|] eqn:E; [discriminate|].
  eapply find_none in E; eauto. cbn in E. rewrite Nat.eqb_refl in E. discriminate.
Qed.

Lemma id_of_some : forall l id d, id_of l d = Some id -> In (d, id) l.
Proof.
  unfold id_of; intros l id d H. destruct (find _ l) as [x|] eqn:E; [|discriminate].
  apply find_some in E. destruct E as [I E]. apply Nat.eqb_eq in E. destruct x; cbn in *.
  inversion H; subst; auto.
Qed.

Lemma pm_add_same : forall m d der s p,
  In p (pm_recorded (pm_add m d der s) d) <-> In p (pm_recorded m d) \/ In p s.
Proof.
  unfold pm_recorded, pm_get. induction m as [|[k [x t]] m IH]; intros d der s p; cbn.
  - rewrite Nat.eqb_refl. cbn. tauto.
  - destruct (Nat.eqb_spec k d) as [->|N]; cbn.
    + rewrite Nat.eqb_refl. cbn. rewrite ps_union_spec. tauto.
    + destruct (Nat.eqb_spec k d); [contradiction|]. apply IH.
Qed.

Lemma pm_add_other : forall m d der s d', d' <> d ->
  pm_recorded (pm_add m d der s) d' = pm_recorded m d'.
Proof.
  unfold pm_recorded, pm_get. induction m as [|[k [x t]] m IH]; intros d der s d' N; cbn.
  - destruct (Nat.eqb_spec d d'); [congruence|auto].
  - destruct (Nat.eqb_spec k d) as [->|Nk]; cbn.
    + destruct (Nat.eqb_spec d d'); [congruence|auto].
    + destruct (Nat.eqb_spec k d'); auto.
Qed.

(** * The invariant *)

Record pinv (next : nat) (vid eid : list (nat * nat)) (vder eder : pmap) (log : list pevent)
  : Prop := PInv {
  i_vlt : forall d id, In (d, id) vid -> d < next;
  i_vfun : forall d id id', In (d, id) vid -> In (d, id') vid -> id = id';
  i_vinj : forall d d' id, In (d, id) vid -> In (d', id) vid -> d = d';
  i_elt : forall d id, In (d, id) eid -> d < next;
  i_efun : forall d id id', In (d, id) eid -> In (d, id') eid -> id = id';
  i_einj : forall d d' id, In (d, id) eid -> In (d', id) eid -> d = d';
  i_elog : forall a, In a log -> pe_var a = false ->
    In (pe_desc a, pe_id a) eid /\ incl (pe_ind a) (pm_recorded eder (pe_desc a));
  i_vlog : forall a, In a log -> pe_var a = true -> pe_desc a < next /\
    (forall id, In (pe_desc a, id) vid ->
       id = pe_id a /\ incl (pe_ind a) (pm_recorded vder (pe_desc a)));
  i_same : forall l1 a l2, log = l1 ++ a :: l2 -> pe_var a = true ->
    forall d, In (d, pe_id a) vid ->
      d = pe_desc a \/ exists c, In c l2 /\ pe_var c = true /\ pe_ans c = pe_id a;
  i_eonce : equations_once log;
  i_vonce : forall a m b p, after log a m b -> pe_var a = true -> pe_var b = true ->
    pe_id a = pe_id b -> In p (pe_ind a) -> In p (pe_ind b) ->
    exists c, In c m /\ pe_var c = true /\ pe_ans c = pe_id a }.

(** A variable is added: by the user, when the log is empty, or as the answer to the
    last call. *)
Lemma pinv_add_var : forall next vid eid vder eder log id,
  pinv next vid eid vder eder log -> (forall d, ~ In (d, id) vid) ->
  log = [] ->
  pinv (S next) (vid ++ [(next, id)]) eid vder eder log.
Proof.
  intros next vid eid vder eder log id I F ->. destruct I.
  constructor; auto; try (intros; cbn in *; contradiction).
  - intros d i H. rewrite in_app_iff in H. cbn in H. destruct H as [H|[H|[]]].
    + apply i_vlt0 in H. lia.
    + inversion H; lia.
  - intros d i i' H H'. rewrite in_app_iff in H, H'. cbn in H, H'.
    destruct H as [H|[H|[]]]; destruct H' as [H'|[H'|[]]]; eauto;
      try inversion H; try inversion H'; subst; auto.
    + apply i_vlt0 in H. lia.
    + apply i_vlt0 in H'. lia.
  - intros d d' i H H'. rewrite in_app_iff in H, H'. cbn in H, H'.
    destruct H as [H|[H|[]]]; destruct H' as [H'|[H'|[]]]; eauto;
      try inversion H; try inversion H'; subst; auto.
    + exfalso; eapply F; eauto.
    + exfalso; eapply F; eauto.
  - intros d i H. apply i_elt0 in H. lia.
  - intros l1 a l2 E. destruct l1; discriminate.
Qed.

Lemma pinv_add_eqn : forall next vid eid vder eder log id,
  pinv next vid eid vder eder log -> (forall d, ~ In (d, id) eid) ->
  pinv (S next) vid (eid ++ [(next, id)]) vder eder log.
Proof.
  intros next vid eid vder eder log id I F. destruct I.
  constructor; auto.
  - intros d i H. apply i_vlt0 in H. lia.
  - intros d i H. rewrite in_app_iff in H. cbn in H. destruct H as [H|[H|[]]].
    + apply i_elt0 in H. lia.
    + inversion H; lia.
  - intros d i i' H H'. rewrite in_app_iff in H, H'. cbn in H, H'.
    destruct H as [H|[H|[]]]; destruct H' as [H'|[H'|[]]]; eauto;
      try inversion H; try inversion H'; subst; auto.
    + apply i_elt0 in H. lia.
    + apply i_elt0 in H'. lia.
  - intros d d' i H H'. rewrite in_app_iff in H, H'. cbn in H, H'.
    destruct H as [H|[H|[]]]; destruct H' as [H'|[H'|[]]]; eauto;
      try inversion H; try inversion H'; subst; auto.
    + exfalso; eapply F; eauto.
    + exfalso; eapply F; eauto.
  - intros a Ia Va. destruct (i_elog0 a Ia Va). rewrite in_app_iff. auto.
  - intros a Ia Va. destruct (i_vlog0 a Ia Va). split; [lia|auto].
Qed.

(** A variable loses indices: they are recorded, or it is removed. *)
Lemma pinv_lose : forall next vid eid vder eder log d der s,
  pinv next vid eid vder eder log ->
  pinv next vid eid (pm_add vder d der s) eder log /\
  pinv next (filter (fun x => negb (Nat.eqb (fst x) d)) vid) eid vder eder log.
Proof.
  intros next vid eid vder eder log d der s I. destruct I. split; constructor; auto.
  - intros a Ia Va. destruct (i_vlog0 a Ia Va) as [L R]. split; auto. intros i Hi.
    destruct (R i Hi) as [-> Inc]. split; auto. intros p Hp. destruct (Nat.eq_dec (pe_desc a) d) as [E|N].
    + rewrite E. rewrite pm_add_same. left. rewrite <- E. auto.
    + rewrite pm_add_other; auto.
  - intros d0 i H. apply filter_In in H. eapply i_vlt0. apply H.
  - intros d0 i i' H H'. apply filter_In in H, H'. eapply i_vfun0; [apply H | apply H'].
  - intros d0 d1 i H H'. apply filter_In in H, H'. eapply i_vinj0; [apply H | apply H'].
  - intros a Ia Va. destruct (i_vlog0 a Ia Va) as [L R]. split; auto. intros i Hi.
    apply filter_In in Hi. apply R; tauto.
  - intros l1 a l2 E Va d0 H. apply filter_In in H. eapply i_same0; eauto. tauto.
Qed.

(** A call of the callback of the variables. *)
Lemma pinv_var_call : forall next vid eid vder eder log d id al s ans got der next' vid' vder',
  pinv next vid eid vder eder log ->
  In (d, id) vid ->
  (forall p, In p s -> ~ In p (pm_recorded vder d)) ->
  ((exists x, In (x, ans) vid) /\ next' = next /\ vid' = vid) \/
  ((forall x, ~ In (x, ans) vid) /\ next' = S next /\ vid' = vid ++ [(next, ans)]) ->
  vder' = pm_add vder d der s ->
  pinv next' vid' eid vder' eder (log ++ [PEv true d id al s ans got]) /\
  pinv next' (filter (fun x => negb (Nat.eqb (fst x) d)) vid') eid vder eder
    (log ++ [PEv true d id al s ans got]).
Proof.
  intros next vid eid vder eder log d id al s ans got der next' vid' vder' I Id Dis Add ->.
  assert (Ld : d < next) by (eapply i_vlt; eauto).
  assert (Nx : next <= next') by (destruct Add as [(_ & -> & _)|(_ & -> & _)]; lia).
  assert (Sub : forall x i, In (x, i) vid' -> In (x, i) vid \/ (x = next /\ i = ans /\
            next' = S next /\ forall y, ~ In (y, ans) vid)).
  { intros x i H. destruct Add as [(_ & -> & ->)|(F & -> & ->)]; auto.
    rewrite in_app_iff in H. cbn in H. destruct H as [H|[H|[]]]; auto.
    inversion H; subst. auto. }
  assert (Lt : forall x i, In (x, i) vid' -> x < next').
  { intros x i H. destruct (Sub x i H) as [H'|(-> & -> & -> & _)]; [|lia].
    apply (i_vlt _ _ _ _ _ _ I) in H'. lia. }
  assert (Fun : forall x i i', In (x, i) vid' -> In (x, i') vid' -> i = i').
  { intros x i i' H H'.
    destruct (Sub x i H) as [K|(-> & -> & _ & _)]; destruct (Sub _ i' H') as [K'|(E' & -> & _ & _)].
    - eapply i_vfun; eauto.
    - subst x. apply (i_vlt _ _ _ _ _ _ I) in K. lia.
    - apply (i_vlt _ _ _ _ _ _ I) in K'. lia.
    - auto. }
  assert (Inj : forall x x' i, In (x, i) vid' -> In (x', i) vid' -> x = x').
  { intros x x' i H H'.
    destruct (Sub x i H) as [K|(-> & -> & _ & F)]; destruct (Sub x' _ H') as [K'|(-> & E' & _ & F')].
    - eapply i_vinj; eauto.
    - subst i. exfalso. eapply F'; eauto.
    - exfalso. eapply F; eauto.
    - auto. }
  assert (Elt : forall x i, In (x, i) eid -> x < next').
  { intros x i H. apply (i_elt _ _ _ _ _ _ I) in H. lia. }
  assert (Elog : forall a, In a (log ++ [PEv true d id al s ans got]) -> pe_var a = false ->
    In (pe_desc a, pe_id a) eid /\ incl (pe_ind a) (pm_recorded eder (pe_desc a))).
  { intros a Ia Va. rewrite in_app_iff in Ia. cbn in Ia. destruct Ia as [Ia|[<-|[]]]; [|discriminate].
    eapply i_elog; eauto. }
  assert (Eonce : equations_once (log ++ [PEv true d id al s ans got])).
  { intros a m b p A Va Vb. apply after_snoc in A. destruct A as [A|(-> & _)]; [|discriminate].
    eapply i_eonce; eauto. }
  assert (Vonce : forall a m b p, after (log ++ [PEv true d id al s ans got]) a m b ->
    pe_var a = true -> pe_var b = true -> pe_id a = pe_id b -> In p (pe_ind a) -> In p (pe_ind b) ->
    exists c, In c m /\ pe_var c = true /\ pe_ans c = pe_id a).
  { intros a m b p A Va Vb E Pa Pb. apply after_snoc in A. destruct A as [A|(-> & l1 & L)].
    - eapply i_vonce; eauto.
    - cbn in E, Pb. assert (Ia : In a log) by (rewrite L, in_app_iff; cbn; auto).
      destruct (i_same _ _ _ _ _ _ I l1 a m L Va d) as [Ed|Ex]; auto.
      + now rewrite E.
      + exfalso. destruct (i_vlog _ _ _ _ _ _ I a Ia Va) as [_ R]. rewrite <- Ed in R.
        destruct (R id Id) as [_ Inc]. apply (Dis p Pb). auto. }
  assert (Same : forall l1 a l2, log ++ [PEv true d id al s ans got] = l1 ++ a :: l2 -> pe_var a = true ->
    forall x, In (x, pe_id a) vid' ->
      x = pe_desc a \/ exists c, In c l2 /\ pe_var c = true /\ pe_ans c = pe_id a).
  { intros l1 a l2 E Va x H. apply snoc_split in E.
    destruct E as [(-> & -> & ->)|(l & -> & L)].
    - cbn in *. left. destruct (Sub x id H) as [K|(-> & -> & _ & F)].
      + eapply i_vinj; eauto.
      + exfalso. eapply F; eauto.
    - destruct (Sub x _ H) as [K|(-> & Ea & _ & _)].
      + destruct (i_same _ _ _ _ _ _ I l1 a l L Va x K) as [|(c & Ic & Vc & Ac)]; auto.
        right. exists c. rewrite in_app_iff. auto.
      + right. exists (PEv true d id al s ans got). rewrite in_app_iff; cbn; auto. }
  assert (V : forall a, In a log -> pe_var a = true -> pe_desc a < next' /\
    (forall i, In (pe_desc a, i) vid' ->
       i = pe_id a /\ incl (pe_ind a) (pm_recorded vder (pe_desc a)))).
  { intros a Ia Va. destruct (i_vlog _ _ _ _ _ _ I a Ia Va) as [L R]. split; [lia|].
    intros i Hi. destruct (Sub _ _ Hi) as [K|(K & _)]; auto. lia. }
  assert (In (d, id) vid').
  { destruct Add as [(_ & _ & ->)|(_ & _ & ->)]; auto. rewrite in_app_iff; auto. }
  split; constructor; auto; try apply I.
  - intros a Ia Va. rewrite in_app_iff in Ia. cbn in Ia. destruct Ia as [Ia|[<-|[]]].
    + destruct (V a Ia Va) as [L R]. split; auto. intros i Hi. destruct (R i Hi) as [-> Inc].
      split; auto. intros p Hp. destruct (Nat.eq_dec (pe_desc a) d) as [E|N].
      * rewrite E. rewrite pm_add_same. left. rewrite <- E. auto.
      * rewrite pm_add_other; auto.
    + cbn. split; [lia|]. intros i Hi. split; [eapply Fun; eauto|].
      intros p Hp. rewrite pm_add_same. auto.
  - intros x i Hx. apply filter_In in Hx. eapply Lt. apply Hx.
  - intros x i i' Hx Hx'. apply filter_In in Hx, Hx'. eapply Fun; [apply Hx | apply Hx'].
  - intros x x' i Hx Hx'. apply filter_In in Hx, Hx'. eapply Inj; [apply Hx | apply Hx'].
  - intros a Ia Va. rewrite in_app_iff in Ia. cbn in Ia. destruct Ia as [Ia|[<-|[]]].
    + destruct (V a Ia Va) as [L R]. split; auto. intros i Hi. apply filter_In in Hi. apply R; tauto.
    + cbn. split; [lia|]. intros i Hi. apply filter_In in Hi. cbn in Hi.
      rewrite Nat.eqb_refl in Hi. destruct Hi; discriminate.
  - intros l1 a l2 E Va x Hx. apply filter_In in Hx. eapply Same; eauto. tauto.
Qed.

(** A call of the callback of the equations. *)
Lemma pinv_eqn_call : forall next vid eid vder eder log d id al s ans got der,
  pinv next vid eid vder eder log ->
  In (d, id) eid ->
  (forall p, In p s -> ~ In p (pm_recorded eder d)) ->
  pinv next vid eid vder (pm_add eder d der s) (log ++ [PEv false d id al s ans got]).
Proof.
  intros next vid eid vder eder log d id al s ans got der I Id Dis. constructor; try apply I.
  - intros a Ia Va. rewrite in_app_iff in Ia. cbn in Ia. destruct Ia as [Ia|[<-|[]]].
    + destruct (i_elog _ _ _ _ _ _ I a Ia Va) as [Ie Inc]. split; auto. intros p Hp.
      destruct (Nat.eq_dec (pe_desc a) d) as [E|N].
      * rewrite E. rewrite pm_add_same. left. rewrite <- E. auto.
      * rewrite pm_add_other; auto.
    + cbn. split; auto. intros p Hp. rewrite pm_add_same. auto.
  - intros a Ia Va. rewrite in_app_iff in Ia. cbn in Ia. destruct Ia as [Ia|[<-|[]]]; [|discriminate].
    eapply i_vlog; eauto.
  - intros l1 a l2 E Va x Hx. apply snoc_split in E. destruct E as [(-> & -> & ->)|(l & -> & L)].
    + discriminate.
    + destruct (i_same _ _ _ _ _ _ I l1 a l L Va x Hx) as [|(c & Ic & Vc & Ac)]; auto.
      right. exists c. rewrite in_app_iff. auto.
  - intros a m b p A Va Vb E Pa Pb. apply after_snoc in A. destruct A as [A|(-> & l1 & L)].
    + eapply i_eonce; eauto.
    + cbn in E, Pb. assert (Ia : In a log) by (rewrite L, in_app_iff; cbn; auto).
      destruct (i_elog _ _ _ _ _ _ I a Ia Va) as [Ie Inc]. rewrite E in Ie.
      rewrite (i_einj _ _ _ _ _ _ I _ _ _ Ie Id) in Inc. apply (Dis p Pb). auto.
  - intros a m b p A Va Vb E Pa Pb. apply after_snoc in A. destruct A as [A|(-> & _)]; [|discriminate].
    eapply i_vonce; eauto.
Qed.

(** * The operations *)

Definition sinv {U} (st : pstate U) : Prop :=
  pinv (p_next st) (p_vid st) (p_eid st) (p_vder st) (p_eder st) (p_log st).

Section Proofs.
  Variable solve : mmat -> list mmat.
  Variable U : Type.
  Variable vdiff : U -> nat -> pset -> U * (nat * pset).
  Variable ediff : U -> nat -> pset -> U * (nat * (pset * list (nat * macc))).
  Implicit Types st : pstate U.

  Lemma sinv_new : forall u, sinv (p_new U u).
  Proof.
    intro u. constructor; cbn; try (intros; contradiction).
    - intros a m b p (l1 & l3 & E). destruct l1; discriminate.
    - intros a m b p (l1 & l3 & E). destruct l1; discriminate.
  Qed.

  Lemma sinv_set : forall st g, sinv st -> sinv (p_set st g).
  Proof. intros st g H. apply H. Qed.

  Lemma add_variable_inv : forall st id s st' d, p_addVariable U st id s = Ok (st', d) ->
    (forall x, ~ In (x, id) (p_vid st)) /\ d = p_next st /\ s <> [] /\
    st' = PS U (S d) (g_addNode (p_g st) (nv d) s) (p_vid st ++ [(d, id)]) (p_eid st) (p_acc st)
             (p_vder st) (p_eder st) (p_user st) (p_log st).
  Proof.
    unfold p_addVariable; intros st id s st' d H.
    apply bind_ok in H. destruct H as (u1 & A1 & H). apply assert_ok_inv in A1.
    apply bind_ok in H. destruct H as (u2 & A2 & H). apply assert_ok_inv in A2.
    destruct (by_id (p_vid st) id) eqn:E; [discriminate|]. inversion H; subst d st'.
    repeat split; auto.
    - intro x. now apply by_id_none.
    - intros ->; discriminate.
  Qed.

  Lemma add_equation_inv : forall st id s acc st' d, p_addEquation U st id s acc = Ok (st', d) ->
    (forall x, ~ In (x, id) (p_eid st)) /\ d = p_next st /\ s <> [] /\
    p_next st' = S d /\ p_vid st' = p_vid st /\ p_eid st' = p_eid st ++ [(d, id)] /\
    p_vder st' = p_vder st /\ p_eder st' = p_eder st /\ p_log st' = p_log st.
  Proof.
    unfold p_addEquation; intros st id s acc st' d H.
    apply bind_ok in H. destruct H as (u1 & A1 & H). apply assert_ok_inv in A1.
    apply bind_ok in H. destruct H as (u2 & A2 & H). apply assert_ok_inv in A2.
    destruct (by_id (p_eid st) id) eqn:E; [discriminate|]. inversion H; subst d st'. cbn.
    repeat split; auto.
    - intro x. now apply by_id_none.
    - intros ->; discriminate.
  Qed.

  Lemma add_derivative_inv : forall st d der s st',
    p_addVariableDerivative U st d der s = Ok st' ->
    p_next st' = p_next st /\ p_eid st' = p_eid st /\ p_eder st' = p_eder st /\
    p_log st' = p_log st /\
    ((p_vid st' = p_vid st /\ p_vder st' = pm_add (p_vder st) d der s) \/
     (p_vid st' = filter (fun x => negb (Nat.eqb (fst x) d)) (p_vid st) /\
      p_vder st' = p_vder st)).
  Proof.
    unfold p_addVariableDerivative; intros st d der s st' H.
    apply bind_ok in H. destruct H as ([m ok] & _ & H). destruct ok; inversion H; subst; cbn; auto 10.
  Qed.

  Lemma op_inv : forall o st st', p_op U st o = Ok st' -> p_log st = [] ->
    sinv st -> sinv st' /\ p_log st' = [].
  Proof.
    intros [id s|v der s|id s acc] st st' H L I; cbn in H.
    - apply bind_ok in H. destruct H as ([st1 d] & A & H). inversion H; subst.
      apply add_variable_inv in A. destruct A as (F & -> & _ & ->). split; auto.
      apply pinv_add_var; auto.
    - unfold p_addDerivative in H. destruct (by_id (p_vid st) v) as [d|]; [|now inversion H; subst].
      destruct (by_id (p_vid st) der) as [d'|]; [|now inversion H; subst].
      apply add_derivative_inv in H. destruct H as (E1 & E2 & E3 & E4 & E5).
      split; [|now rewrite E4].
      unfold sinv. rewrite E1, E2, E3, E4.
      destruct (pinv_lose _ _ _ _ _ _ d d' s I).
      destruct E5 as [(-> & ->)|(-> & ->)]; auto.
    - apply bind_ok in H. destruct H as ([st1 d] & A & H). inversion H; subst.
      apply add_equation_inv in A. destruct A as (F & -> & _ & E1 & E2 & E3 & E4 & E5 & E6).
      split; [|now rewrite E6].
      unfold sinv. rewrite E1, E2, E3, E4, E5, E6. apply pinv_add_eqn; auto.
  Qed.

  Lemma build_inv : forall u ops st, p_build U u ops = Ok st -> sinv st /\ p_log st = [].
  Proof.
    unfold p_build. intros u ops.
    assert (G : forall st0 st, sinv st0 -> p_log st0 = [] -> fold_res (p_op U) ops st0 = Ok st ->
              sinv st /\ p_log st = []).
    { induction ops as [|o ops IH]; intros st0 st I L H; cbn in H.
      - inversion H; subst; auto.
      - apply bind_ok in H. destruct H as (st1 & A & H).
        destruct (op_inv _ _ _ A L I). eauto. }
    intros st H. eapply G; eauto; [apply sinv_new|reflexivity].
  Qed.

  Lemma diffVariable_inv : forall st d s st', p_diffVariable U vdiff st d s = Ok st' ->
    sinv st -> sinv st'.
  Proof.
    unfold p_diffVariable; intros st d s st' H I.
    destruct (id_of (p_vid st) d) as [id|] eqn:Id; [|discriminate]. apply id_of_some in Id.
    destruct (ps_empty _) eqn:Em; [inversion H; now subst|].
    destruct (vdiff _ _ _) as [u [ans ind]].
    set (s' := ps_diff s _) in *.
    assert (Dis : forall p, In p s' -> ~ In p (pm_recorded (p_vder st) d)).
    { intros p Hp. apply ps_diff_spec in Hp. tauto. }
    apply bind_ok in H. destruct H as ([st2 d'] & A & H).
    apply add_derivative_inv in H. destruct H as (E1 & E2 & E3 & E4 & E5).
    assert (K : p_eid st2 = p_eid st /\ p_eder st2 = p_eder st /\ p_vder st2 = p_vder st /\
      p_log st2 = p_log st ++ [PEv true d id (mt_all (g_vx (p_g st) (nv d))) s' ans ind] /\
      (((exists x, In (x, ans) (p_vid st)) /\ p_next st2 = p_next st /\ p_vid st2 = p_vid st) \/
       ((forall x, ~ In (x, ans) (p_vid st)) /\ p_next st2 = S (p_next st) /\
        p_vid st2 = p_vid st ++ [(p_next st, ans)]))).
    { destruct (by_id (p_vid (p_call U st u (PEv true d id (mt_all (g_vx (p_g st) (nv d))) s' ans ind))) ans) as [x|] eqn:B.
      - inversion A; subst. cbn. apply by_id_some in B. cbn in B. repeat split; auto.
        left. eauto.
      - apply add_variable_inv in A. destruct A as (F & -> & _ & ->). cbn.
        repeat split; auto. }
    destruct K as (K1 & K2 & K3 & K4 & K5).
    destruct (pinv_var_call _ _ _ _ _ _ d id (mt_all (g_vx (p_g st) (nv d))) s' ans ind d' _ _ _ I Id Dis K5 eq_refl) as [P1 P2].
    unfold sinv. rewrite E1, E2, E3, E4, K1, K2, K4.
    destruct E5 as [(-> & ->)|(-> & ->)]; rewrite K3; auto.
  Qed.

  Lemma diffEquation_inv : forall st d s st', p_diffEquation U ediff st d s = Ok st' ->
    sinv st -> sinv st'.
  Proof.
    unfold p_diffEquation; intros st d s st' H I.
    destruct (id_of (p_eid st) d) as [id|] eqn:Id; [|discriminate]. apply id_of_some in Id.
    destruct (ps_empty _) eqn:Em; [inversion H; now subst|].
    destruct (ediff _ _ _) as [u [ans [ind acc]]].
    set (s' := ps_diff s _) in *.
    assert (Dis : forall p, In p s' -> ~ In p (pm_recorded (p_eder st) d)).
    { intros p Hp. apply ps_diff_spec in Hp. tauto. }
    apply bind_ok in H. destruct H as ([st2 d'] & A & H). inversion H; subst. unfold sinv; cbn.
    assert (K : pinv (p_next st2) (p_vid st2) (p_eid st2) (p_vder st2) (p_eder st2) (p_log st) /\
                In (d, id) (p_eid st2) /\ p_eder st2 = p_eder st /\
                p_log st2 = p_log st ++ [PEv false d id (mt_all (g_vx (p_g st) (ne d))) s' ans ind]).
    { destruct (by_id (p_eid (p_call U st u (PEv false d id (mt_all (g_vx (p_g st) (ne d))) s' ans ind))) ans) as [x|] eqn:B.
      - inversion A; subst. cbn. auto.
      - apply add_equation_inv in A. cbn in A. destruct A as (F & -> & _ & E1 & E2 & E3 & E4 & E5 & E6).
        rewrite E1, E2, E3, E4, E5, E6. split; [|split; [rewrite in_app_iff; auto|auto]].
        apply pinv_add_eqn; auto. }
    destruct K as (K1 & K2 & K3 & K4). rewrite K4. apply pinv_eqn_call; auto. now rewrite K3.
  Qed.

  Lemma fold_inv : forall A (f : pstate U -> A -> res (pstate U)) l,
    (forall st x st', f st x = Ok st' -> sinv st -> sinv st') ->
    forall st st', fold_res f l st = Ok st' -> sinv st -> sinv st'.
  Proof.
    intros A f l F. induction l as [|x l IH]; intros st st' H I; cbn in H.
    - inversion H; now subst.
    - apply bind_ok in H. destruct H as (st1 & E & H). eauto.
  Qed.

  Lemma diffVisited_inv : forall st v st', p_diffVisited U vdiff ediff st v = Ok st' ->
    sinv st -> sinv st'.
  Proof.
    unfold p_diffVisited; intros st v st' H I. apply bind_ok in H. destruct H as (st1 & A & H).
    eapply fold_inv in A; eauto.
    - eapply fold_inv in H; eauto. intros st0 [[n|n] s] st2 E; cbn in E.
      + inversion E; now subst.
      + intro. eapply diffEquation_inv; eauto.
    - intros st0 [[n|n] s] st2 E; cbn in E.
      + intro. eapply diffVariable_inv; eauto.
      + inversion E; now subst.
  Qed.

  Lemma work_inv : forall fuel bfuel sc round st work st' w',
    p_work solve U vdiff ediff fuel bfuel sc round st work = Ok (st', w') -> sinv st -> sinv st'.
  Proof.
    induction fuel as [|f IH]; intros bfuel sc round st work st' w' H I;
      destruct work as [|e work]; cbn in H; try (inversion H; now subst).
    destruct (ps_empty _).
    - eauto.
    - apply bind_ok in H. destruct H as ([cand v] & _ & H).
      destruct (filter_paths _ _ _ cand) as [|p ps].
      + apply bind_ok in H. destruct H as (st1 & D & H).
        destruct (pm_get _ _); [|discriminate].
        eapply IH; eauto. eapply diffVisited_inv; eauto.
      + apply bind_ok in H. destruct H as (g & _ & H). eapply IH; eauto.
  Qed.

  Lemma match_state : forall fu sc pick st st' ok, p_match solve U fu sc pick st = Ok (st', ok) ->
    exists g, leaf_run solve (fu_leaf fu) (sc_leaf sc 0) (p_g st) = Ok g /\ st' = p_set st g.
  Proof.
    unfold p_match; intros fu sc pick st st' ok H.
    apply bind_ok in H. destruct H as (g & L & H).
    apply bind_ok in H. destruct H as (o & _ & H). inversion H; subst. eauto.
  Qed.

  Lemma run_inv : forall fu sc pick fuel bfuel psc st st' w',
    p_run solve U vdiff ediff fu sc pick fuel bfuel psc st = Ok (st', w') -> sinv st -> sinv st'.
  Proof.
    unfold p_run; intros fu sc pick fuel bfuel psc st st' w' H I.
    apply bind_ok in H. destruct H as ([st1 ok] & M & H).
    apply match_state in M. destruct M as (g & _ & ->).
    destruct ok.
    - inversion H; subst. now apply sinv_set.
    - eapply work_inv; eauto.
  Qed.

  Lemma forward_once : forall st, sinv st -> forward (p_log st) -> variables_once (p_log st).
  Proof.
    intros st I F a m b p A Va Vb E Pa Pb.
    destruct (i_vonce _ _ _ _ _ _ I a m b p A Va Vb E Pa Pb) as (c & Ic & Vc & Ac).
    destruct A as (l1 & l3 & L). apply in_split in Ic. destruct Ic as (m1 & m2 & ->).
    apply (F a m1 c); auto. exists l1, (m2 ++ b :: l3). rewrite L.
    rewrite <- app_assoc. reflexivity.
  Qed.
End Proofs.
