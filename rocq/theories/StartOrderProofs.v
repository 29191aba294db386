(** Proofs about the places of the start equations. *)

From Coq Require Import List Arith Bool Lia FinFun.
Import ListNotations.
From Verif Require Import StartOrderModel StartOrderSpec.

Lemma cell_eqb_spec : forall a b, cell_eqb a b = true <-> a = b.
Proof.
  intros (a1, a2) (b1, b2). unfold cell_eqb. cbn [fst snd].
  rewrite andb_true_iff, !Nat.eqb_eq. split; [intros (-> & ->); reflexivity |].
  intros E. injection E; auto.
Qed.

Lemma existsb_cell : forall c l, existsb (cell_eqb c) l = true <-> In c l.
Proof.
  intros c l. rewrite existsb_exists. split.
  - intros (x & Hx & E). apply cell_eqb_spec in E as ->. exact Hx.
  - intros H. exists c. split; [exact H | apply cell_eqb_spec; reflexivity].
Qed.

(** ** Who writes *)

Lemma writers_from_in : forall sccs p q c,
  In q (writers_from p sccs c) <-> p <= q /\ scc_writes sccs (q - p) c.
Proof.
  unfold scc_writes. induction sccs as [| s sccs IH]; intros p q c; cbn [writers_from].
  - split; [intros [] |]. intros (_ & s & E & _). destruct (q - p); discriminate.
  - rewrite in_app_iff, IH. split.
    + intros [H | (L & s' & E & H)].
      * destruct (existsb (cell_eqb c) (s_writes s)) eqn:Ex; [| destruct H].
        destruct H as [<- | []]. split; [lia |]. rewrite Nat.sub_diag. exists s.
        split; [reflexivity | apply existsb_cell; exact Ex].
      * split; [lia |]. exists s'. split; [| exact H].
        replace (q - p) with (S (q - S p)) by lia. exact E.
    + intros (L & s' & E & H). destruct (q - p) as [| n] eqn:Eq; cbn [nth_error] in E.
      * left. injection E as ->. apply existsb_cell in H. rewrite H. left. lia.
      * right. split; [lia |]. exists s'. split; [| exact H].
        replace (q - S p) with n by lia. exact E.
Qed.

Lemma writers_in : forall sccs q c, In q (writers sccs c) <-> scc_writes sccs q c.
Proof.
  intros sccs q c. unfold writers. rewrite writers_from_in, Nat.sub_0_r. intuition lia.
Qed.

Lemma var_writers_from_in : forall sccs p q v,
  In q (var_writers_from p sccs v) <-> p <= q /\ exists i, scc_writes sccs (q - p) (v, i).
Proof.
  unfold scc_writes. induction sccs as [| s sccs IH]; intros p q v; cbn [var_writers_from].
  - split; [intros [] |]. intros (_ & i & s & E & _). destruct (q - p); discriminate.
  - rewrite in_app_iff, IH. split.
    + intros [H | (L & i & s' & E & H)].
      * destruct (existsb (fun c => fst c =? v) (s_writes s)) eqn:Ex; [| destruct H].
        destruct H as [<- | []]. split; [lia |]. rewrite Nat.sub_diag.
        apply existsb_exists in Ex as ((w, i) & Hi & Ew). apply Nat.eqb_eq in Ew.
        cbn [fst] in Ew. subst. exists i, s. auto.
      * split; [lia |]. exists i, s'. split; [| exact H].
        replace (q - p) with (S (q - S p)) by lia. exact E.
    + intros (L & i & s' & E & H). destruct (q - p) as [| n] eqn:Eq; cbn [nth_error] in E.
      * left. injection E as ->.
        replace (existsb _ (s_writes s')) with true; [left; lia |].
        symmetry. apply existsb_exists. exists (v, i). split; [exact H |].
        apply Nat.eqb_refl.
      * right. split; [lia |]. exists i, s'. split; [| exact H].
        replace (q - S p) with n by lia. exact E.
Qed.

(** ** The last and the first *)

Lemma keep_last_fold : forall l acc r, fold_left keep_last l acc = Some r ->
  (forall q, In q l -> q <= r) /\ (forall q, acc = Some q -> q <= r) /\
  (In r l \/ acc = Some r).
Proof.
  induction l as [| p l IH]; intros acc r E; cbn [fold_left] in E.
  - split; [intros q [] |]. split; [intros q Hq; rewrite E in Hq; injection Hq as <-; lia |].
    right; exact E.
  - destruct (IH _ r E) as (A & B & C). destruct acc as [q |]; cbn [keep_last] in *.
    + destruct (q <? p) eqn:L.
      * apply Nat.ltb_lt in L. specialize (B p eq_refl).
        split; [intros x [<- | Hx]; [exact B | auto] |]. split.
        -- intros x Hx. injection Hx as <-. lia.
        -- destruct C as [C | C]; [left; right; exact C | left; left; congruence].
      * apply Nat.ltb_ge in L. specialize (B q eq_refl).
        split; [intros x [<- | Hx]; [lia | auto] |]. split.
        -- intros x Hx. injection Hx as <-. lia.
        -- destruct C as [C | C]; [left; right; exact C | right; exact C].
    + specialize (B p eq_refl). split; [intros x [<- | Hx]; [exact B | auto] |].
      split; [discriminate |]. left.
      destruct C as [C | C]; [right; exact C | left; congruence].
Qed.

Lemma keep_last_none : forall l acc, fold_left keep_last l acc = None -> l = [] /\ acc = None.
Proof.
  induction l as [| p l IH]; intros acc E; cbn [fold_left] in E; [auto |].
  apply IH in E as (_ & E). destruct acc as [q |]; cbn [keep_last] in E;
    [destruct (q <? p)|]; discriminate.
Qed.

Lemma keep_first_fold : forall l acc r, fold_left keep_first l acc = Some r ->
  (forall q, In q l -> r <= q) /\ (forall q, acc = Some q -> r <= q) /\
  (In r l \/ acc = Some r).
Proof.
  induction l as [| p l IH]; intros acc r E; cbn [fold_left] in E.
  - split; [intros q [] |]. split; [intros q Hq; rewrite E in Hq; injection Hq as <-; lia |].
    right; exact E.
  - destruct (IH _ r E) as (A & B & C). destruct acc as [q |]; cbn [keep_first] in *.
    + destruct (p <? q) eqn:L.
      * apply Nat.ltb_lt in L. specialize (B p eq_refl).
        split; [intros x [<- | Hx]; [exact B | auto] |]. split.
        -- intros x Hx. injection Hx as <-. lia.
        -- destruct C as [C | C]; [left; right; exact C | left; left; congruence].
      * apply Nat.ltb_ge in L. specialize (B q eq_refl).
        split; [intros x [<- | Hx]; [lia | auto] |]. split.
        -- intros x Hx. injection Hx as <-. lia.
        -- destruct C as [C | C]; [left; right; exact C | right; exact C].
    + specialize (B p eq_refl). split; [intros x [<- | Hx]; [exact B | auto] |].
      split; [discriminate |]. left.
      destruct C as [C | C]; [right; exact C | left; congruence].
Qed.

Lemma keep_first_none : forall l acc, fold_left keep_first l acc = None -> l = [] /\ acc = None.
Proof.
  induction l as [| p l IH]; intros acc E; cbn [fold_left] in E; [auto |].
  apply IH in E as (_ & E). destruct acc as [q |]; cbn [keep_first] in E;
    [destruct (p <? q)|]; discriminate.
Qed.

Lemma last_dependency_ge : forall sccs e p r q, last_dependency sccs e = Some p ->
  In r (st_reads e) -> scc_writes sccs q r -> q <= p.
Proof.
  intros sccs e p r q E Hr Hw. unfold last_dependency in E.
  destruct (keep_last_fold _ _ _ E) as (A & _). apply A. apply in_flat_map.
  exists r. split; [exact Hr | apply writers_in; exact Hw].
Qed.

Lemma last_dependency_none : forall sccs e r q, last_dependency sccs e = None ->
  In r (st_reads e) -> ~ scc_writes sccs q r.
Proof.
  intros sccs e r q E Hr Hw. unfold last_dependency in E. apply keep_last_none in E as (E & _).
  apply writers_in in Hw.
  assert (H : In q (flat_map (writers sccs) (st_reads e))) by (apply in_flat_map; eauto).
  rewrite E in H. destruct H.
Qed.

Lemma last_dependency_lt : forall sccs e p, last_dependency sccs e = Some p -> p < length sccs.
Proof.
  intros sccs e p E. unfold last_dependency in E.
  destruct (keep_last_fold _ _ _ E) as (_ & _ & [H | H]); [| discriminate].
  apply in_flat_map in H as (r & _ & H). apply writers_in in H as (s & H & _).
  apply nth_error_Some. congruence.
Qed.

Lemma not_warned_lt : forall sccs e p q i, warned sccs e = false ->
  last_dependency sccs e = Some p -> scc_writes sccs q (st_var e, i) -> p < q.
Proof.
  intros sccs e p q i Hw El Hq. unfold warned in Hw. rewrite El in Hw.
  assert (Hin : In q (var_writers_from 0 sccs (st_var e))).
  { apply var_writers_from_in. split; [lia |]. rewrite Nat.sub_0_r. eauto. }
  unfold first_writing in Hw.
  destruct (fold_left keep_first (var_writers_from 0 sccs (st_var e)) None) as [f |] eqn:Ef.
  - apply negb_false_iff, Nat.ltb_lt in Hw.
    destruct (keep_first_fold _ _ _ Ef) as (A & _). specialize (A q Hin). lia.
  - apply keep_first_none in Ef as (E & _). rewrite E in Hin. destruct Hin.
Qed.

Lemma warned_conflict : forall sccs e, warned sccs e = true <-> conflict sccs e.
Proof.
  intros sccs e. split.
  - intros Hw. unfold warned in Hw.
    destruct (last_dependency sccs e) as [p |] eqn:El; [| discriminate].
    destruct (first_writing sccs (st_var e)) as [q |] eqn:Ef; [| discriminate].
    apply negb_true_iff, Nat.ltb_ge in Hw. unfold last_dependency in El.
    destruct (keep_last_fold _ _ _ El) as (_ & _ & [H | H]); [| discriminate].
    apply in_flat_map in H as (r & Hr & H). apply writers_in in H.
    unfold first_writing in Ef. destruct (keep_first_fold _ _ _ Ef) as (_ & _ & [H1 | H1]);
      [| discriminate].
    apply var_writers_from_in in H1 as (_ & i & H1). rewrite Nat.sub_0_r in H1.
    exists p, q, r, i. auto.
  - intros (p & q & r & i & Hr & Hp & Hq & L). apply not_false_is_true. intros Hw.
    destruct (last_dependency sccs e) as [p' |] eqn:El.
    + pose proof (not_warned_lt sccs e p' q i Hw El Hq).
      pose proof (last_dependency_ge sccs e p' r p El Hr Hp). lia.
    + exact (last_dependency_none sccs e r p El Hr Hp).
Qed.

Lemma not_conflict_warned : forall sccs e, ~ conflict sccs e -> warned sccs e = false.
Proof.
  intros sccs e H. apply not_true_is_false. intros Hw. apply H, warned_conflict, Hw.
Qed.

(** ** Order *)

Lemma before_app : forall A (a b : A) u v x, before a b (u ++ v) -> before a b (u ++ x :: v).
Proof.
  intros A a b u v x (l1 & l2 & E & Ha & Hb).
  apply app_eq_app in E as (m & [(-> & ->) | (-> & ->)]).
  - exists l1, (m ++ x :: v). rewrite <- app_assoc. split; [reflexivity |]. split; [exact Ha |].
    apply in_app_iff in Hb as [Hb | Hb]; apply in_app_iff; [left; exact Hb | right; right; exact Hb].
  - exists (u ++ x :: m), l2. rewrite <- app_assoc. split; [reflexivity |]. split; [| exact Hb].
    apply in_app_iff in Ha as [Ha | Ha]; apply in_app_iff; [left; exact Ha | right; right; exact Ha].
Qed.

Lemma insert_after_split : forall p x l, In (ISCC p) l ->
  exists u v, l = u ++ ISCC p :: v /\ ~ In (ISCC p) u /\
    insert_after p x l = u ++ ISCC p :: x :: v.
Proof.
  induction l as [| y l IH]; intros H; [destruct H |].
  cbn [insert_after]. destruct y as [q | k].
  - destruct (q =? p) eqn:E.
    + apply Nat.eqb_eq in E as ->. exists [], l. auto.
    + apply Nat.eqb_neq in E. destruct H as [H | H]; [congruence |].
      destruct (IH H) as (u & v & -> & N & Ei). exists (ISCC q :: u), v. rewrite Ei.
      split; [reflexivity |]. split; [| reflexivity].
      intros [Hq | Hq]; [congruence | contradiction].
  - destruct H as [H | H]; [discriminate |].
    destruct (IH H) as (u & v & -> & N & Ei). exists (IStart k :: u), v. rewrite Ei.
    split; [reflexivity |]. split; [| reflexivity].
    intros [Hq | Hq]; [discriminate | contradiction].
Qed.

(** What holds of the block all along. *)
Record wf (n k : nat) (block : list item) : Prop := {
  wf_scc : forall p, In (ISCC p) block <-> p < n;
  wf_start : forall j, In (IStart j) block <-> j < k;
  wf_nodup : NoDup block;
  wf_order : forall p q, p < q -> q < n -> before (ISCC p) (ISCC q) block }.

Lemma seq_before : forall n s p q, s <= p -> p < q -> q < s + n ->
  before (ISCC p) (ISCC q) (map ISCC (seq s n)).
Proof.
  intros n s p q H1 H2 H3.
  exists (map ISCC (seq s (S p - s))), (map ISCC (seq (S p) (s + n - S p))).
  rewrite <- map_app. split; [| split].
  - f_equal.
    replace n with ((S p - s) + (s + n - S p)) at 1 by lia. rewrite seq_app.
    replace (s + (S p - s)) with (S p) by lia. reflexivity.
  - apply in_map, in_seq. lia.
  - apply in_map, in_seq. lia.
Qed.

Lemma wf_base : forall n, wf n 0 (map ISCC (seq 0 n)).
Proof.
  intros n. constructor.
  - intros p. rewrite in_map_iff. split.
    + intros (q & E & H). injection E as <-. apply in_seq in H. lia.
    + intros H. exists p. split; [reflexivity | apply in_seq; lia].
  - intros j. rewrite in_map_iff. split; [intros (q & E & _); discriminate | lia].
  - apply Injective_map_NoDup; [intros a b E; injection E; auto | apply seq_NoDup].
  - intros p q H1 H2. apply seq_before; lia.
Qed.

Lemma place_split : forall sccs k e block, wf (length sccs) k block ->
  exists u v, block = u ++ v /\ place sccs k e block = u ++ IStart k :: v /\
    (forall p, last_dependency sccs e = Some p -> exists u', u = u' ++ [ISCC p]) /\
    (last_dependency sccs e = None -> u = []).
Proof.
  intros sccs k e block W. unfold place.
  destruct (last_dependency sccs e) as [p |] eqn:E.
  - destruct (insert_after_split p (IStart k) block) as (u & v & -> & _ & Ei).
    { apply (wf_scc _ _ _ W). exact (last_dependency_lt sccs e p E). }
    exists (u ++ [ISCC p]), v. rewrite <- !app_assoc. cbn [app]. rewrite Ei.
    split; [reflexivity |]. split; [reflexivity |]. split; [| discriminate].
    intros q Hq. injection Hq as <-. eauto.
  - exists [], block. cbn [app]. split; [reflexivity |]. split; [reflexivity |].
    split; [discriminate | reflexivity].
Qed.

Lemma place_wf : forall sccs k e block, wf (length sccs) k block ->
  wf (length sccs) (S k) (place sccs k e block).
Proof.
  intros sccs k e block W. destruct (place_split sccs k e block W) as (u & v & E & -> & _).
  constructor.
  - intros p. rewrite <- (wf_scc _ _ _ W), E, !in_app_iff. cbn [In].
    split; [intros [H | [H | H]]; auto; discriminate | tauto].
  - intros j. pose proof (wf_start _ _ _ W j) as H. rewrite E in H.
    rewrite in_app_iff in *. cbn [In]. split.
    + intros [H1 | [H1 | H1]]; [| injection H1; lia |]; (assert (j < k) by tauto; lia).
    + intros H1. destruct (Nat.eq_dec j k) as [-> | N]; [auto |].
      assert (j < k) by lia. tauto.
  - pose proof (wf_nodup _ _ _ W) as N. rewrite E in N. apply NoDup_Add with (a := IStart k) (l := u ++ v).
    + apply Add_app.
    + split; [exact N |]. rewrite <- E. rewrite (wf_start _ _ _ W). lia.
  - intros p q H1 H2. apply before_app. rewrite <- E. apply (wf_order _ _ _ W); assumption.
Qed.

Lemma place_before : forall sccs k e block a b, wf (length sccs) k block ->
  before a b block -> before a b (place sccs k e block).
Proof.
  intros sccs k e block a b W H. destruct (place_split sccs k e block W) as (u & v & E & -> & _).
  apply before_app. rewrite <- E. exact H.
Qed.

Lemma place_all_wf : forall sccs es k block, wf (length sccs) k block ->
  wf (length sccs) (k + length es) (place_all sccs k es block).
Proof.
  intros sccs. induction es as [| e es IH]; intros k block W; cbn [place_all length].
  - rewrite Nat.add_0_r. exact W.
  - rewrite <- Nat.add_succ_comm. apply IH. apply place_wf; exact W.
Qed.

Lemma place_all_before : forall sccs es k block a b, wf (length sccs) k block ->
  before a b block -> before a b (place_all sccs k es block).
Proof.
  intros sccs. induction es as [| e es IH]; intros k block a b W H; cbn [place_all]; [exact H |].
  apply IH; [apply place_wf; exact W | apply place_before; assumption].
Qed.

(** A start equation is after all it depends on. *)
Lemma place_after : forall sccs k e block p q, wf (length sccs) k block ->
  last_dependency sccs e = Some p -> q <= p -> before (ISCC q) (IStart k) (place sccs k e block).
Proof.
  intros sccs k e block p q W E L.
  destruct (place_split sccs k e block W) as (u & v & Eb & -> & Hp & _).
  destruct (Hp p E) as (u' & ->).
  exists (u' ++ [ISCC p]), (IStart k :: v). split; [reflexivity |]. split; [| left; reflexivity].
  destruct (Nat.eq_dec q p) as [-> | N]; [apply in_app_iff; right; left; reflexivity |].
  pose proof (last_dependency_lt sccs e p E) as Lp.
  destruct (wf_order _ _ _ W q p ltac:(lia) Lp) as (l1 & l2 & E2 & Hq & Hp2).
  pose proof (wf_nodup _ _ _ W) as Nd. rewrite Eb in E2, Nd.
  rewrite <- app_assoc in E2, Nd. cbn [app] in E2, Nd.
  (* [ISCC p] occurs once, so [l1] ends before it *)
  apply app_eq_app in E2 as (m & [(-> & E3) | (-> & E3)]).
  - (* u' = l1 ++ m *)
    apply in_app_iff. left. apply in_app_iff. left. exact Hq.
  - (* l1 = u' ++ m *)
    destruct m as [| y m].
    + rewrite app_nil_r in Hq. apply in_app_iff. left. exact Hq.
    + cbn [app] in E3. injection E3 as <- E3. exfalso.
      apply NoDup_remove_2 in Nd. apply Nd. apply in_app_iff. right.
      rewrite E3. apply in_app_iff. right. exact Hp2.
Qed.

(** And before a later SCC. *)
Lemma place_ahead : forall sccs k e block q, wf (length sccs) k block -> q < length sccs ->
  (forall p, last_dependency sccs e = Some p -> p < q) ->
  before (IStart k) (ISCC q) (place sccs k e block).
Proof.
  intros sccs k e block q W Lq Hl.
  destruct (place_split sccs k e block W) as (u & v & Eb & -> & Hp & Hn).
  exists (u ++ [IStart k]), v. rewrite <- app_assoc. split; [reflexivity |].
  split; [apply in_app_iff; right; left; reflexivity |].
  assert (Hin : In (ISCC q) block) by (apply (wf_scc _ _ _ W); exact Lq).
  destruct (last_dependency sccs e) as [p |].
  - specialize (Hl p eq_refl). destruct (Hp p eq_refl) as (u' & ->).
    destruct (wf_order _ _ _ W p q Hl Lq) as (l1 & l2 & E2 & Hp1 & Hq).
    pose proof (wf_nodup _ _ _ W) as Nd. rewrite Eb in E2, Nd.
    rewrite <- app_assoc in E2, Nd. cbn [app] in E2, Nd.
    apply app_eq_app in E2 as (m & [(-> & E3) | (-> & E3)]).
    + exfalso. apply NoDup_remove_2 in Nd. apply Nd. rewrite <- app_assoc.
      apply in_app_iff. left. exact Hp1.
    + destruct m as [| y m].
      * exfalso. rewrite app_nil_r in Hp1. apply NoDup_remove_2 in Nd. apply Nd.
        apply in_app_iff. left. exact Hp1.
      * cbn [app] in E3. injection E3 as <- E3. rewrite E3. apply in_app_iff. right. exact Hq.
  - specialize (Hn eq_refl). subst u. cbn [app] in Eb. congruence.
Qed.

Lemma place_all_at : forall sccs es k block j e, wf (length sccs) k block ->
  nth_error es j = Some e ->
  exists block', wf (length sccs) (k + j) block' /\
    forall a b, before a b (place sccs (k + j) e block') -> before a b (place_all sccs k es block).
Proof.
  intros sccs. induction es as [| x es IH]; intros k block j e W E; [destruct j; discriminate |].
  destruct j as [| j]; cbn [nth_error] in E.
  - injection E as ->. exists block. rewrite Nat.add_0_r. split; [exact W |].
    intros a b H. cbn [place_all]. apply place_all_before; [apply place_wf; exact W | exact H].
  - cbn [place_all]. destruct (IH (S k) (place sccs k x block) j e (place_wf sccs k x block W) E)
      as (block' & W' & H).
    rewrite Nat.add_succ_comm in W', H. exists block'. auto.
Qed.

Lemma place_all_mid : forall sccs es k block j e, wf (length sccs) k block ->
  nth_error es j = Some e ->
  exists block', wf (length sccs) (k + j) block' /\
    (forall a b, before a b (place sccs (k + j) e block') -> before a b (place_all sccs k es block)) /\
    (forall a b, before a b block -> before a b block').
Proof.
  intros sccs. induction es as [| x es IH]; intros k block j e W E; [destruct j; discriminate |].
  destruct j as [| j]; cbn [nth_error] in E.
  - injection E as ->. exists block. rewrite Nat.add_0_r. split; [exact W |]. split; [| auto].
    intros a b H. cbn [place_all]. apply place_all_before; [apply place_wf; exact W | exact H].
  - cbn [place_all]. destruct (IH (S k) (place sccs k x block) j e (place_wf sccs k x block W) E)
      as (block' & W' & H & H').
    rewrite Nat.add_succ_comm in W', H. exists block'. split; [exact W' |]. split; [exact H |].
    intros a b B. apply H'. apply place_before; assumption.
Qed.

Lemma place_all_at2 : forall sccs es k0 block j k ej ek, wf (length sccs) k0 block ->
  nth_error es j = Some ej -> nth_error es k = Some ek -> j < k ->
  exists b1 b2, wf (length sccs) (k0 + j) b1 /\ wf (length sccs) (k0 + k) b2 /\
    (forall a b, before a b (place sccs (k0 + k) ek b2) -> before a b (place_all sccs k0 es block)) /\
    (forall a b, before a b (place sccs (k0 + j) ej b1) -> before a b b2).
Proof.
  intros sccs. induction es as [| x es IH]; intros k0 block j k ej ek W Ej Ek L;
    [destruct j; discriminate |].
  destruct k as [| k]; [lia |]. cbn [nth_error] in Ek. cbn [place_all].
  destruct j as [| j]; cbn [nth_error] in Ej.
  - injection Ej as ->.
    destruct (place_all_mid sccs es (S k0) (place sccs k0 ej block) k ek
                (place_wf sccs k0 ej block W) Ek) as (b2 & W2 & H & H').
    rewrite Nat.add_succ_comm in W2, H. rewrite Nat.add_0_r.
    exists block, b2. auto.
  - destruct (IH (S k0) (place sccs k0 x block) j k ej ek (place_wf sccs k0 x block W) Ej Ek
                ltac:(lia)) as (b1 & b2 & W1 & W2 & H1 & H2).
    rewrite Nat.add_succ_comm in W1, W2, H1, H2. exists b1, b2. auto.
Qed.

Lemma after_dependencies : forall sccs es k e r q, nth_error es k = Some e ->
  In r (st_reads e) -> scc_writes sccs q r ->
  before (ISCC q) (IStart k) (initial_block sccs es).
Proof.
  intros sccs es k e r q E Hr Hw. unfold initial_block.
  destruct (place_all_at sccs es 0 _ k e (wf_base (length sccs)) E) as (b & W & H).
  apply H. destruct (last_dependency sccs e) as [p |] eqn:El.
  - apply (place_after sccs k e b p q W El). exact (last_dependency_ge sccs e p r q El Hr Hw).
  - exfalso. exact (last_dependency_none sccs e r q El Hr Hw).
Qed.

Lemma before_writers : forall sccs es k e i q, nth_error es k = Some e ->
  warned sccs e = false -> scc_writes sccs q (st_var e, i) ->
  before (IStart k) (ISCC q) (initial_block sccs es).
Proof.
  intros sccs es k e i q E Hw Hq. unfold initial_block.
  destruct (place_all_at sccs es 0 _ k e (wf_base (length sccs)) E) as (b & W & H).
  apply H. apply place_ahead; [exact W | |].
  - destruct Hq as (s & Hs & _). apply nth_error_Some. congruence.
  - intros p El. exact (not_warned_lt sccs e p q i Hw El Hq).
Qed.

Lemma placed_reversed : forall sccs es j k ej ek, nth_error es j = Some ej ->
  nth_error es k = Some ek -> j < k ->
  last_dependency sccs ej = last_dependency sccs ek ->
  before (IStart k) (IStart j) (initial_block sccs es).
Proof.
  intros sccs es j k ej ek Ej Ek L El. unfold initial_block.
  destruct (place_all_at2 sccs es 0 _ j k ej ek (wf_base (length sccs)) Ej Ek L)
    as (b1 & b2 & W1 & W2 & Hk & H12).
  cbn [Nat.add] in W1, W2, Hk, H12.
  apply Hk. destruct (place_split sccs k ek b2 W2) as (u & v & Eb & -> & Hp & Hn).
  exists (u ++ [IStart k]), v. rewrite <- app_assoc. split; [reflexivity |].
  split; [apply in_app_iff; right; left; reflexivity |].
  assert (Hin : In (IStart j) b2).
  { apply (wf_start _ _ _ W2). lia. }
  destruct (last_dependency sccs ek) as [p |] eqn:Elk.
  - destruct (Hp p eq_refl) as (u' & ->).
    assert (B : before (ISCC p) (IStart j) b2).
    { apply H12. exact (place_after sccs j ej b1 p p W1 El (le_n p)). }
    destruct B as (l1 & l2 & E2 & Hp1 & Hj).
    pose proof (wf_nodup _ _ _ W2) as Nd. rewrite Eb in E2, Nd.
    rewrite <- app_assoc in E2, Nd. cbn [app] in E2, Nd.
    apply app_eq_app in E2 as (m & [(-> & E3) | (-> & E3)]).
    + exfalso. apply NoDup_remove_2 in Nd. apply Nd. rewrite <- app_assoc.
      apply in_app_iff. left. exact Hp1.
    + destruct m as [| y m].
      * exfalso. rewrite app_nil_r in Hp1. apply NoDup_remove_2 in Nd. apply Nd.
        apply in_app_iff. left. exact Hp1.
      * cbn [app] in E3. injection E3 as <- E3. rewrite E3. apply in_app_iff. right. exact Hj.
  - specialize (Hn eq_refl). subst u. cbn [app] in Eb. congruence.
Qed.

Lemma no_dependency : forall sccs e,
  (forall r q, In r (st_reads e) -> ~ scc_writes sccs q r) -> last_dependency sccs e = None.
Proof.
  intros sccs e H. destruct (last_dependency sccs e) as [p |] eqn:E; [| reflexivity].
  exfalso. unfold last_dependency in E.
  destruct (keep_last_fold _ _ _ E) as (_ & _ & [Hp | Hp]); [| discriminate].
  apply in_flat_map in Hp as (r & Hr & Hp). apply writers_in in Hp. exact (H r p Hr Hp).
Qed.

Lemma block_wf : forall sccs es, wf (length sccs) (length es) (initial_block sccs es).
Proof. intros sccs es. apply (place_all_wf sccs es 0). apply wf_base. Qed.

(** ** Values *)

Lemma before_in : forall A (a b : A) u v, NoDup (u ++ b :: v) -> before a b (u ++ b :: v) -> In a u.
Proof.
  intros A a b u v N (l1 & l2 & E & Ha & Hb).
  apply app_eq_app in E as (m & [(-> & E2) | (-> & E2)]).
  - apply in_app_iff. left. exact Ha.
  - destruct m as [| y m].
    + rewrite app_nil_r in Ha. exact Ha.
    + exfalso. cbn [app] in E2. injection E2 as <- E2. apply NoDup_remove_2 in N. apply N.
      apply in_app_iff. right. rewrite E2. apply in_app_iff. right. exact Hb.
Qed.

Section Values.
Context {V : Type}.
Variable solve : nat -> values V -> values V.
Variable expr : nat -> cell -> values V -> V.

Lemma run_app : forall es u v s,
  run_block solve expr es (u ++ v) s = run_block solve expr es v (run_block solve expr es u s).
Proof.
  intros es. induction u as [| x u IH]; intros v s; [reflexivity |]. cbn [app run_block].
  apply IH.
Qed.

Lemma run_keeps : forall sccs es l s c, solves_own solve sccs ->
  (forall p, In (ISCC p) l -> ~ scc_writes sccs p c) ->
  (forall k, In (IStart k) l -> ~ start_writes es k c) ->
  run_block solve expr es l s c = s c.
Proof.
  intros sccs es. induction l as [| x l IH]; intros s c Hs Hp Hk; [reflexivity |].
  cbn [run_block]. rewrite IH; [| exact Hs | |].
  - destruct x as [p | k]; cbn [run_item].
    + apply Hs. apply Hp. left; reflexivity.
    + destruct (nth_error es k) as [e |] eqn:E; [| reflexivity].
      destruct (existsb (cell_eqb c) (st_writes e)) eqn:Ex; [| reflexivity].
      exfalso. apply (Hk k (or_introl eq_refl)). exists e. split; [exact E |].
      apply existsb_cell; exact Ex.
  - intros p H. apply Hp. right; exact H.
  - intros k H. apply Hk. right; exact H.
Qed.

Lemma start_value : forall sccs es k e c s,
  solves_own solve sccs -> reads_only expr es ->
  nth_error es k = Some e -> In c (st_writes e) ->
  (forall q, ~ scc_writes sccs q c) ->
  (forall j, j <> k -> ~ start_writes es j c) ->
  (forall r j, In r (st_reads e) -> ~ start_writes es j r) ->
  let final := run_block solve expr es (initial_block sccs es) s in
  final c = expr k c final.
Proof.
  intros sccs es k e c s Hs Hr E Hc Hq Hj Hst final.
  pose proof (block_wf sccs es) as W.
  assert (Lk : k < length es) by (apply nth_error_Some; congruence).
  pose proof (proj2 (wf_start _ _ _ W k) Lk) as Hin.
  apply in_split in Hin as (u & v & Eb).
  pose proof (wf_nodup _ _ _ W) as Nd. rewrite Eb in Nd.
  set (s1 := run_block solve expr es u s).
  set (s2 := run_item solve expr es (IStart k) s1).
  assert (Ef : final = run_block solve expr es v s2).
  { unfold final. rewrite Eb, run_app. reflexivity. }
  assert (H1 : final c = s2 c).
  { rewrite Ef. apply (run_keeps sccs); [exact Hs | auto |].
    intros j Hjv. apply Hj. intros ->. apply NoDup_remove_2 in Nd. apply Nd.
    apply in_app_iff. right; exact Hjv. }
  assert (H2 : forall r, In r (st_reads e) -> final r = s1 r).
  { intros r Hin. rewrite Ef.
    rewrite (run_keeps sccs es v s2 r Hs).
    - unfold s2. cbn [run_item]. rewrite E.
      destruct (existsb (cell_eqb r) (st_writes e)) eqn:Ex; [| reflexivity].
      exfalso. apply (Hst r k Hin). exists e. split; [exact E | apply existsb_cell; exact Ex].
    - intros p Hp Hw. pose proof (after_dependencies sccs es k e r p E Hin Hw) as B.
      rewrite Eb in B. apply before_in in B; [| exact Nd].
      apply NoDup_remove_1 in Nd. apply in_split in B as (b1 & b2 & ->).
      rewrite <- app_assoc in Nd. cbn [app] in Nd. apply NoDup_remove_2 in Nd. apply Nd.
      apply in_app_iff. right. apply in_app_iff. right; exact Hp.
    - intros j _. exact (Hst r j Hin). }
  rewrite H1. unfold s2. cbn [run_item]. rewrite E.
  rewrite (proj2 (existsb_cell c (st_writes e)) Hc).
  apply (Hr k e c s1 final E). intros r Hin. symmetry. exact (H2 r Hin).
Qed.

(** What an SCC computed is not overwritten. *)
Lemma computed_kept : forall sccs es p c s,
  solves_own solve sccs -> scc_writes sccs p c ->
  (forall q, q <> p -> ~ scc_writes sccs q c) ->
  (forall k e, nth_error es k = Some e -> In c (st_writes e) ->
     warned sccs e = false /\ fst c = st_var e) ->
  exists u v, initial_block sccs es = u ++ ISCC p :: v /\
    run_block solve expr es (initial_block sccs es) s c
    = solve p (run_block solve expr es u s) c.
Proof.
  intros sccs es p c s Hs Hw Hq Hk.
  pose proof (block_wf sccs es) as W.
  assert (Lp : p < length sccs).
  { destruct Hw as (x & Hx & _). apply nth_error_Some. congruence. }
  pose proof (proj2 (wf_scc _ _ _ W p) Lp) as Hin.
  apply in_split in Hin as (u & v & Eb).
  pose proof (wf_nodup _ _ _ W) as Nd. rewrite Eb in Nd.
  exists u, v. split; [exact Eb |]. rewrite Eb, run_app. cbn [run_block run_item].
  apply (run_keeps sccs); [exact Hs | |].
  - intros q Hqv. apply Hq. intros ->. apply NoDup_remove_2 in Nd. apply Nd.
    apply in_app_iff. right; exact Hqv.
  - intros k Hkv (e & Ee & Hc). destruct (Hk k e Ee Hc) as (Hn & Hv).
    destruct c as (cv, ci). cbn [fst] in Hv. subst cv.
    pose proof (before_writers sccs es k e ci p Ee Hn Hw) as B. rewrite Eb in B.
    apply before_in in B; [| exact Nd]. apply in_split in B as (b1 & b2 & ->).
    apply NoDup_remove_1 in Nd. rewrite <- app_assoc in Nd. cbn [app] in Nd.
    apply NoDup_remove_2 in Nd. apply Nd. apply in_app_iff. right. apply in_app_iff.
    right; exact Hkv.
Qed.
End Values.
