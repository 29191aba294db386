(** Proofs about the removal of the variables the outputs do not need. *)
From Coq Require Import List Bool Arith Lia Relations.
From Verif Require Import Result AccessModel SchedModel SchedSpec PostOrderProofs PruneModel PruneSpec.
Import ListNotations.
Local Open Scope nat_scope.

Lemma map_res_spec : forall {A B} (f : A -> res B) (g : A -> B) l, (forall a, In a l -> f a = Ok (g a)) -> map_res f l = Ok (map g l).
Proof.
  intros A B f g. induction l as [|a l IH]; intros H; [reflexivity|]. cbn.
  rewrite (H a) by now left. cbn. rewrite IH by (intros x Hx; apply H; now right). reflexivity.
Qed.
Lemma map_res_all : forall {A B} (f : A -> res B) l, (forall a, In a l -> exists b, f a = Ok b) ->
  exists r, map_res f l = Ok r /\ forall b, In b r <-> exists a, In a l /\ f a = Ok b.
Proof.
  intros A B f. induction l as [|a l IH]; intros H; [exists []; split; [reflexivity|]; intros b; split; [intros []|intros (a & [] & _)]|].
  destruct (H a (or_introl eq_refl)) as (b & E). destruct (IH (fun x Hx => H x (or_intror Hx))) as (r & Er & Hr).
  exists (b :: r). cbn. rewrite E. cbn. rewrite Er. split; [reflexivity|]. intros c. split.
  - intros [<-|Hc]; [exists a; auto|]. apply Hr in Hc as (x & Hx & Ex). exists x. auto.
  - intros (x & [<-|Hx] & Ex); [left; congruence|]. right. apply Hr. eauto.
Qed.

Section Prune.
Context {K I : Type}.

Fixpoint psize (e : pexpr K I) : nat :=
  match e with
  | POp _ args => S ((fix sum l := match l with [] => 0 | a :: l' => psize a + sum l' end) args)
  | _ => 1
  end.
Lemma psize_arg : forall o args a, In a args -> psize a < psize (POp o args).
Proof.
  intros o args a H. cbn [psize].
  enough (psize a <= (fix sum l := match l with [] => 0 | a :: l' => psize a + sum l' end) args) by lia.
  induction args as [|b l IH]; [destruct H|]. destruct H as [->|H]; [lia|]. specialize (IH H). lia.
Qed.
Lemma accesses_args : forall o args v, In v (accesses (K := K) (I := I) (POp o args)) <-> exists a, In a args /\ In v (accesses a).
Proof.
  intros o args v. cbn [accesses]. induction args as [|b l IH]; [split; [intros []|intros (a & [] & _)]|].
  rewrite in_app_iff, IH. split.
  - intros [H|(a & H & E)]; [exists b; split; [now left|exact H]|exists a; split; [now right|exact E]].
  - intros (a & [->|H] & E); [now left|right; now exists a].
Qed.
Lemma accesses_reads : forall (e : pexpr K I) v, In v (accesses e) <-> reads e v.
Proof.
  assert (G : forall n (e : pexpr K I) v, psize e < n -> In v (accesses e) <-> reads e v).
  { induction n as [|n IH]; intros e v L; [lia|]. destruct e as [k|w s|o args].
    - split; [intros []|intros H; inversion H].
    - split; [intros [->|[]]; constructor|]. intros H. inversion H. now left.
    - rewrite accesses_args. split.
      + intros (a & Ha & Hv). apply reads_arg with a; [exact Ha|]. apply IH; [|exact Hv]. pose proof (psize_arg o args a Ha). lia.
      + intros H. inversion H as [|o' args' a w Ha Hr]; subst. exists a. split; [exact Ha|]. apply IH; [|exact Hr].
        pose proof (psize_arg o args a Ha). lia. }
  intros e v. exact (G (S (psize e)) e v (Nat.lt_succ_diag_r _)).
Qed.
Lemma eq_accesses_reads : forall (q : peq K I) v, In v (eq_accesses q) <-> eq_reads q v.
Proof. intros q v. unfold eq_accesses, eq_reads. now rewrite in_app_iff, !accesses_reads. Qed.

Variable m : pmodel K I.
Hypothesis W : well_formed m.

(** ** Derivatives *)
Lemma getDerivative_iff : forall v d, getDerivative (pm_ders m) v = Some d <-> In (v, d) (pm_ders m).
Proof.
  intros v d. unfold getDerivative. split.
  - destruct (find _ _) as [[a b]|] eqn:E; [|discriminate]. cbn. intros H. injection H as <-. apply find_some in E as (Hi & E).
    cbn in E. apply Nat.eqb_eq in E. now subst.
  - intros Hi. destruct (find (fun d => Nat.eqb (fst d) v) (pm_ders m)) as [[a b]|] eqn:E.
    + apply find_some in E as (Hi' & E). cbn in E. apply Nat.eqb_eq in E. subst. cbn. f_equal. exact (wf_der_one m W v b d Hi' Hi).
    + apply (find_none _ _ E) in Hi. cbn in Hi. now rewrite Nat.eqb_refl in Hi.
Qed.
Lemma getDerived_iff : forall v d, getDerivedVariable (pm_ders m) d = Some v <-> In (v, d) (pm_ders m).
Proof.
  intros v d. unfold getDerivedVariable. split.
  - destruct (find _ _) as [[a b]|] eqn:E; [|discriminate]. cbn. intros H. injection H as <-. apply find_some in E as (Hi & E).
    cbn in E. apply Nat.eqb_eq in E. now subst.
  - intros Hi. destruct (find (fun x => Nat.eqb (snd x) d) (pm_ders m)) as [[a b]|] eqn:E.
    + apply find_some in E as (Hi' & E). cbn in E. apply Nat.eqb_eq in E. subst. cbn. f_equal. exact (wf_der_of_one m W a v d Hi' Hi).
    + apply (find_none _ _ E) in Hi. cbn in Hi. now rewrite Nat.eqb_refl in Hi.
Qed.

(** A chain does not use up its fuel: the pairs it goes through are distinct. *)
Section Chain.
Variable next : nat -> option nat.
Variable lt' : nat -> nat -> Prop.
Hypothesis lt_trans' : forall a b c, lt' a b -> lt' b c -> lt' a c.
Hypothesis lt_irrefl' : forall a, ~ lt' a a.
Hypothesis next_lt : forall v w, next v = Some w -> lt' v w.
Variable doms : list nat.
Hypothesis next_dom : forall v w, next v = Some w -> In v doms.
Lemma chain_total : forall n v seen, NoDup seen -> incl seen doms -> (forall a, In a seen -> lt' a v) -> length doms < n + length seen ->
  exists l, walk_chain n next v = Ok l.
Proof.
  induction n as [|n IH]; intros v seen N Hi Hl L.
  - pose proof (NoDup_incl_length N Hi). lia.
  - cbn. destruct (next v) as [w|] eqn:E; [|now exists []].
    destruct (IH w (v :: seen)) as (l & El).
    + constructor; [|exact N]. intros H. exact (lt_irrefl' v (Hl v H)).
    + intros x [<-|Hx]; [exact (next_dom v w E)|exact (Hi x Hx)].
    + intros a [<-|Ha]; [exact (next_lt v w E)|exact (lt_trans' a v w (Hl a Ha) (next_lt v w E))].
    + cbn. lia.
    + exists (w :: l). rewrite El. reflexivity.
Qed.
Lemma chain_in : forall n v l, walk_chain n next v = Ok l ->
  (forall w, next v = Some w -> In w l) /\ forall w, In w l -> reaches (fun a b => next a = Some b) v w.
Proof.
  induction n as [|n IH]; intros v l H; [discriminate|]. cbn in H. destruct (next v) as [w|] eqn:E.
  - destruct (walk_chain n next w) as [r| |] eqn:Er; try discriminate. cbn in H. injection H as <-. destruct (IH w r Er) as (_ & R).
    split; [intros x Hx; injection Hx as <-; now left|]. intros x [<-|Hx]; [now apply rt_step|].
    eapply rt_trans; [apply rt_step, E|exact (R x Hx)].
  - injection H as <-. split; [discriminate|intros w []].
Qed.
End Chain.

Lemma walkDerivative_total : forall v, exists l, walkDerivative m v = Ok l.
Proof.
  intros v. unfold walkDerivative.
  apply (chain_total _ lt) with (doms := map fst (pm_ders m)) (seen := []); [lia|lia| | |constructor|intros x []|intros a []|rewrite map_length; cbn; lia].
  - intros a b H. apply getDerivative_iff, (wf_ders m W) in H. tauto.
  - intros a b H. apply getDerivative_iff in H. apply (in_map fst) in H. exact H.
Qed.
Lemma walkDerived_total : forall v, exists l, walkDerived m v = Ok l.
Proof.
  intros v. unfold walkDerived.
  apply (chain_total _ (fun a b => b < a)) with (doms := map snd (pm_ders m)) (seen := []); [lia|lia| | |constructor|intros x []|intros a []|rewrite map_length; cbn; lia].
  - intros a b H. apply getDerived_iff, (wf_ders m W) in H. tauto.
  - intros a b H. apply getDerived_iff in H. apply (in_map snd) in H. exact H.
Qed.
Lemma needed_chain : forall v w, reaches (fun a b => getDerivative (pm_ders m) a = Some b) v w -> needed m v <-> needed m w.
Proof.
  intros v w H. induction H as [a b H| |a b c _ A _ B]; [|tauto|tauto]. apply getDerivative_iff in H.
  split; intros N; [exact (needed_derivative m a b H N)|exact (needed_derived m a b H N)].
Qed.
Lemma needed_chain' : forall v w, reaches (fun a b => getDerivedVariable (pm_ders m) a = Some b) v w -> needed m v <-> needed m w.
Proof.
  intros v w H. induction H as [a b H| |a b c _ A _ B]; [|tauto|tauto]. apply getDerived_iff in H.
  split; intros N; [exact (needed_derived m b a H N)|exact (needed_derivative m b a H N)].
Qed.
Lemma chain_vars : forall v w, reaches (fun a b => getDerivative (pm_ders m) a = Some b) v w -> In v (pm_vars m) -> In w (pm_vars m).
Proof.
  intros v w H. induction H as [a b H| |a b c _ A _ B]; [|tauto|tauto]. apply getDerivative_iff, (wf_ders m W) in H. tauto.
Qed.
Lemma chain_vars' : forall v w, reaches (fun a b => getDerivedVariable (pm_ders m) a = Some b) v w -> In v (pm_vars m) -> In w (pm_vars m).
Proof.
  intros v w H. induction H as [a b H| |a b c _ A _ B]; [|tauto|tauto]. apply getDerived_iff, (wf_ders m W) in H. tauto.
Qed.

(** ** Edges *)
Lemma equation_links_iff : forall q a b, equation_of m q ->
  In (a, b) (equation_links q) <-> a = pe_match q /\ b <> pe_match q /\ eq_reads q b.
Proof.
  intros q a b Hq. unfold equation_links.
  replace (existsb (Nat.eqb (pe_match q)) (eq_accesses q)) with true by (symmetry; apply memb_in, eq_accesses_reads, (wf_match m W q Hq)).
  rewrite in_map_iff. split.
  - intros (r & E & Hr). injection E as <- <-. apply filter_In in Hr as (Hr & N). apply negb_true_iff, Nat.eqb_neq in N.
    now rewrite eq_accesses_reads in Hr.
  - intros (-> & N & R). exists b. split; [reflexivity|]. apply filter_In. rewrite eq_accesses_reads. split; [exact R|].
    now apply negb_true_iff, Nat.eqb_neq.
Qed.
Lemma both_ways_iff : forall v l a b, In (a, b) (both_ways v l) <-> (a = v /\ In b l) \/ (b = v /\ In a l).
Proof.
  intros v l a b. unfold both_ways. rewrite in_flat_map. split.
  - intros (w & Hw & [E|[E|[]]]); injection E as <- <-; auto.
  - intros [(-> & H)|(-> & H)]; [exists b|exists a]; cbn; auto.
Qed.

Lemma graph_links_ok : exists links, graph_links m = Ok links /\
  (forall q b, equation_of m q -> eq_reads q b -> b = pe_match q \/ In (pe_match q, b) links) /\
  (forall v d, In (v, d) (pm_ders m) -> In (v, d) links /\ In (d, v) links) /\
  (forall a b, In (a, b) links -> In b (pm_vars m) /\ (needed m a -> needed m b)).
Proof.
  unfold graph_links. destruct (map_res_all (derivative_links m) (pm_vars m)) as (r & E & Hr).
  { intros v _. unfold derivative_links. destruct (walkDerived_total v) as (a & ->). destruct (walkDerivative_total v) as (b & ->). cbn. eauto. }
  rewrite E. cbn [bind]. eexists. split; [reflexivity|].
  assert (Heq : forall q, In q (pm_initial m ++ pm_main m) <-> equation_of m q) by (intros q; unfold equation_of; apply in_app_iff).
  split; [|split].
  - intros q b Hq Hb. destruct (Nat.eq_dec b (pe_match q)) as [->|N]; [now left|right]. apply in_or_app. left.
    apply in_flat_map. exists q. split; [now apply Heq|]. now apply equation_links_iff.
  - intros v d H. destruct (wf_ders m W v d H) as (Hv & Hd & _).
    assert (G : exists l, In l r /\ In (v, d) l /\ In (d, v) l).
    { destruct (walkDerived_total v) as (a & Ea). destruct (walkDerivative_total v) as (b & Eb).
      exists (both_ways v a ++ both_ways v b). split; [apply Hr; exists v; split; [exact Hv|]; unfold derivative_links; now rewrite Ea, Eb|].
      destruct (chain_in _ _ _ _ Eb) as (Hn & _). apply getDerivative_iff in H. specialize (Hn d H).
      split; apply in_or_app; right; apply both_ways_iff; auto. }
    destruct G as (l & Hl & H1 & H2). split; apply in_or_app; right; apply in_concat; eauto.
  - intros a b H. apply in_app_or in H as [H|H].
    + apply in_flat_map in H as (q & Hq & H). apply Heq in Hq. apply (equation_links_iff q a b Hq) in H as (-> & N & R).
      split; [exact (wf_reads m W q b Hq R)|]. intros Na. exact (needed_read m q b Hq Na R).
    + apply in_concat in H as (l & Hl & H). apply Hr in Hl as (v & Hv & El). unfold derivative_links in El.
      destruct (walkDerived m v) as [x| |] eqn:Ex; try discriminate. destruct (walkDerivative m v) as [y| |] eqn:Ey; try discriminate.
      cbn in El. injection El as <-. destruct (chain_in _ _ _ _ Ex) as (_ & Rx). destruct (chain_in _ _ _ _ Ey) as (_ & Ry).
      apply in_app_or in H as [H|H]; apply both_ways_iff in H as [(-> & H)|(-> & H)].
      * split; [exact (chain_vars' v b (Rx b H) Hv)|]. now apply (needed_chain' v b (Rx b H)).
      * split; [exact Hv|]. now apply (needed_chain' v a (Rx a H)).
      * split; [exact (chain_vars v b (Ry b H) Hv)|]. now apply (needed_chain v b (Ry b H)).
      * split; [exact Hv|]. now apply (needed_chain v a (Ry a H)).
Qed.

(** ** The visit *)
Lemma linked_in : forall links v w, In w (linked links v) <-> In (v, w) links.
Proof.
  intros links v w. unfold linked. rewrite in_map_iff. split.
  - intros ([a b] & E & H). cbn in E. subst. apply filter_In in H as (H & E). cbn in E. apply Nat.eqb_eq in E. now subst.
  - intros H. exists (v, w). split; [reflexivity|]. apply filter_In. split; [exact H|]. apply Nat.eqb_refl.
Qed.

Lemma reached_ok : forall links, (forall a b, In (a, b) links -> In b (pm_vars m)) ->
  exists vs, reached m links = Ok vs /\
    (forall v, In v (pm_outputs m) -> In v vs) /\ (forall a b, In a vs -> In (a, b) links -> In b vs) /\
    forall v, In v vs -> exists o, In o (pm_outputs m) /\ reaches (fun a b => In (a, b) links) o v.
Proof.
  intros links A. set (adj := from_entry (pm_outputs m) links). set (nodes := 0 :: map S (pm_vars m)).
  assert (N : NoDup nodes).
  { constructor; [intros H; apply in_map_iff in H as (x & E & _); discriminate|]. apply FinFun.Injective_map_NoDup; [|exact (wf_vars m W)].
    intros x y E. now injection E. }
  assert (Hc : forall v c, In v nodes -> In c (adj v) -> In c nodes).
  { intros [|v] c Hv Hx; cbn in Hx; apply in_map_iff in Hx as (w & <- & Hw); right; apply in_map.
    - exact (wf_outputs m W w Hw).
    - apply linked_in in Hw. exact (A v w Hw). }
  unfold reached. fold adj.
  destruct (po_run_total adj nodes N Hc (visit_fuel m links) [(0, adj 0)] [0] []) as (r & Hr).
  { unfold po_measure, to_visit, nodes. cbn [filter existsb Nat.eqb orb negb map snd].
    assert (F : forall l, filter (fun v => negb (Nat.eqb v 0 || false)) (map S l) = map S l).
    { induction l as [|x l IH]; [reflexivity|]. cbn. now rewrite IH. }
    rewrite F, map_map. unfold visit_fuel.
    assert (Q : forall l, list_sum (map (fun x => weight adj (S x)) l) = length l + list_sum (map (fun v => length (linked links v)) l)).
    { unfold list_sum. induction l as [|x l IH]; [reflexivity|]. cbn [map fold_right length]. rewrite IH. unfold weight. cbn [adj from_entry]. rewrite map_length. lia. }
    rewrite Q. cbn [adj from_entry list_sum fold_right]. rewrite map_length. lia. }
  { intros v cs [E|[]]. injection E as <- <-. split; [now left|]. intros x Hx. apply (Hc 0 x); [now left|assumption]. }
  rewrite Hr. cbn [bind]. eexists. split; [reflexivity|].
  assert (V0 : visit_ok adj 0 [(0, adj 0)] [0] []).
  { constructor.
    - cbn. repeat constructor. intros [].
    - intros x. cbn. tauto.
    - intros v cs [E|[]]. injection E as <- <-. exists []. split; [reflexivity|intros x []].
    - reflexivity.
    - intros l1 u l2 E. now destruct l1.
    - intros x [<-|[]]. apply rt_refl.
    - intros u [].
    - now left. }
  destruct (po_run_ok adj 0 _ _ _ _ _ V0 Hr) as (vis & [_ J _ _ _ R D Rt]). cbn [map app] in J.
  assert (Hin : forall x, In x r <-> In x vis) by (intros x; rewrite J, <- in_rev; tauto).
  assert (Hd : forall x, In x (flat_map (fun x => match x with 0 => [] | S v => [v] end) r) <-> In (S x) r) by exact (drop_entry_in r).
  split; [|split].
  - intros v Hv. apply Hd, Hin, (D 0); [rewrite <- in_rev; now apply Hin|]. cbn. now apply in_map.
  - intros a b Ha Hb. apply Hd in Ha. apply Hd, Hin, (D (S a)); [rewrite <- in_rev; exact Ha|]. cbn. apply in_map. now apply linked_in.
  - intros v Hv. apply Hd, Hin, R in Hv. apply clos_rt_rtn1 in Hv. remember (S v) as y eqn:Ey. revert v Ey.
    induction Hv as [|y z Hyz _ IH]; intros v E; [discriminate|]. subst z. destruct y as [|u]; unfold edge in Hyz; cbn in Hyz; apply in_map_iff in Hyz as (w & Ew & Hw); injection Ew as ->.
    + exists v. split; [exact Hw|apply rt_refl].
    + destruct (IH u eq_refl) as (o & Ho & Hou). exists o. split; [exact Ho|]. eapply rt_trans; [exact Hou|]. apply rt_step. now apply linked_in.
Qed.

Lemma needed_vars : forall v, needed m v -> In v (pm_vars m).
Proof.
  induction 1 as [v H|q w Hq _ _ R|v d H _ _|v d H _ _].
  - exact (wf_outputs m W v H).
  - exact (wf_reads m W q w Hq R).
  - apply (wf_ders m W v d H).
  - apply (wf_ders m W v d H).
Qed.

(** The used variables are the needed ones. *)
Lemma used_ok : exists used, collectUsedVariables m = Ok used /\ forall v, In v used <-> needed m v.
Proof.
  unfold collectUsedVariables. destruct graph_links_ok as (links & -> & Gq & Gd & Gn). cbn [bind].
  destruct (reached_ok links (fun a b H => proj1 (Gn a b H))) as (vs & -> & Ro & Rc & Rr). cbn [bind].
  assert (Hvs : forall v, In v vs <-> needed m v).
  { intros v. split.
    - intros H. destruct (Rr v H) as (o & Ho & R). apply needed_output in Ho. clear H. revert Ho.
      induction R as [a b H| |a b c _ A _ B]; [exact (proj2 (Gn a b H))|tauto|tauto].
    - induction 1 as [v H|q w Hq _ IH R|v d H _ IH|v d H _ IH].
      + exact (Ro v H).
      + destruct (Gq q w Hq R) as [->|H]; [exact IH|exact (Rc _ _ IH H)].
      + exact (Rc v d IH (proj1 (Gd v d H))).
      + exact (Rc d v IH (proj2 (Gd v d H))). }
  destruct (map_res_all (fun v => a <- walkDerived m v ;; b <- walkDerivative m v ;; Ok (v :: a ++ b)) vs) as (r & -> & Hr).
  { intros v _. destruct (walkDerived_total v) as (a & ->). destruct (walkDerivative_total v) as (b & ->). cbn. eauto. }
  cbn [bind]. eexists. split; [reflexivity|]. intros v. rewrite in_concat. split.
  - intros (l & Hl & Hv). apply Hr in Hl as (u & Hu & El). apply Hvs in Hu.
    destruct (walkDerived m u) as [x| |] eqn:Ex; try discriminate. cbn [bind] in El. destruct (walkDerivative m u) as [y| |] eqn:Ey; try discriminate.
    cbn [bind] in El. injection El as <-. destruct (chain_in _ _ _ _ Ex) as (_ & Rx). destruct (chain_in _ _ _ _ Ey) as (_ & Ry).
    destruct Hv as [<-|Hv]; [exact Hu|]. apply in_app_or in Hv as [H|H].
    + now apply (needed_chain' u v (Rx v H)).
    + now apply (needed_chain u v (Ry v H)).
  - intros H. apply Hvs in H. destruct (walkDerived_total v) as (a & Ea). destruct (walkDerivative_total v) as (b & Eb).
    exists (v :: a ++ b). split; [|now left]. apply Hr. exists v. split; [exact H|]. now rewrite Ea, Eb.
Qed.

End Prune.
