(** Proofs about the order of the components and about the schedule. *)
From Coq Require Import ZArith List Bool Arith Lia Permutation Relations.
From Verif Require Import RangeModel MDRangeModel Spec MDRangeProofs Result BoxSetModel BoxSetProofs ListTac AccessModel AccessSpec AccessProofs
  AccessImageProofs AccessInverseProofs AccessPreimageProofs AccessCombineProofs WritesMapModel WritesMapProofs LoopModel SchedModel SchedSpec
  PostOrderProofs SchedProofs DirectionProofs.
Import ListNotations.
Local Open Scope nat_scope.

(** * The component of an equation *)

Lemma parent_inner : forall i scc pm x,
  map_find x (fold_left (fun pm e => map_update e 0 (fun _ => i) pm) scc pm) = if existsb (Nat.eqb x) scc then Some i else map_find x pm.
Proof.
  intros i. induction scc as [|e scc IH]; intros pm x; cbn; [reflexivity|]. rewrite IH, find_update.
  destruct (Nat.eqb x e), (existsb (Nat.eqb x) scc); reflexivity.
Qed.
Lemma parent_outer : forall sccs k pm x i, NoDup (concat sccs) ->
  (map_find x (fold_left (fun pm x => fold_left (fun pm e => map_update e 0 (fun _ => fst x) pm) (snd x) pm) (combine (seq k (length sccs)) sccs) pm) = Some i <->
   (exists j scc, i = k + j /\ nth_error sccs j = Some scc /\ In x scc) \/ (~ In x (concat sccs) /\ map_find x pm = Some i)).
Proof.
  induction sccs as [|scc sccs IH]; intros k pm x i N; cbn.
  - split; [intros H; right; split; [intros []|assumption]|]. intros [(j & s & _ & H & _)|(_ & H)]; [destruct j; discriminate|assumption].
  - cbn in N. rewrite (IH (S k) _ x i (ListTac.NoDup_app_r _ _ _ N)). rewrite parent_inner. split.
    + intros [(j & s & -> & Hj & Hx)|(Hn & H)].
      * left. exists (S j), s. split; [lia|]. auto.
      * destruct (existsb (Nat.eqb x) scc) eqn:Ex.
        -- apply memb_in in Ex. injection H as <-. left. exists 0, scc. split; [lia|]. auto.
        -- right. split; [|assumption]. rewrite in_app_iff. intros [Hx|Hx]; [|auto]. apply memb_out in Ex. auto.
    + intros [(j & s & -> & Hj & Hx)|(Hn & H)].
      * destruct j as [|j]; cbn in Hj.
        -- injection Hj as <-. right. split; [intros Hc; exact (ListTac.NoDup_app_disj _ _ _ x N Hx Hc)|]. apply memb_in in Hx. rewrite Hx. f_equal. lia.
        -- left. exists j, s. split; [lia|]. auto.
      * right. rewrite in_app_iff in Hn. split; [tauto|]. destruct (existsb (Nat.eqb x) scc) eqn:Ex; [apply memb_in in Ex; tauto|assumption].
Qed.
Lemma parent_map_ok : forall sccs x i, NoDup (concat sccs) ->
  (map_find x (parent_map sccs) = Some i <-> exists scc, nth_error sccs i = Some scc /\ In x scc).
Proof.
  intros sccs x i N. unfold parent_map. rewrite (parent_outer sccs 0 [] x i N). split.
  - intros [(j & s & -> & H)|(_ & H)]; [eauto|discriminate].
  - intros (s & H). left. exists i, s. auto.
Qed.

Lemma scc_links_ok : forall deps pm scc, (forall x y, In x scc -> In y (deps x) -> exists p, map_find y pm = Some p) ->
  exists l, scc_links deps pm scc = Ok l /\ forall p, In p l <-> exists x y, In x scc /\ In y (deps x) /\ map_find y pm = Some p.
Proof.
  intros deps pm scc T. unfold scc_links.
  assert (X : forall l acc, (forall y, In y l -> exists p, map_find y pm = Some p) ->
    exists r, fold_res (fun acc dst => p <- of_option (map_find dst pm) ;; Ok (if existsb (Nat.eqb p) acc then acc else acc ++ [p])) l acc = Ok r /\
      forall p, In p r <-> In p acc \/ exists y, In y l /\ map_find y pm = Some p).
  { induction l as [|y l IH]; intros acc H; cbn.
    - exists acc. split; [reflexivity|]. intros p. split; [auto|]. intros [Hp|(y & [] & _)]. assumption.
    - destruct (H y) as (p0 & Hp0); [now left|]. rewrite Hp0. cbn.
      destruct (IH (if existsb (Nat.eqb p0) acc then acc else acc ++ [p0])) as (r & Hr & R); [intros z Hz; apply H; now right|].
      exists r. split; [assumption|]. intros p. rewrite R.
      assert (Y : In p (if existsb (Nat.eqb p0) acc then acc else acc ++ [p0]) <-> In p acc \/ p = p0).
      { destruct (existsb (Nat.eqb p0) acc) eqn:Ex; [apply memb_in in Ex; split; [auto|intros [Hp|Hp]; [assumption|subst; assumption]]|].
        rewrite in_app_iff. cbn. split; intros [Hp|Hp]; auto; destruct Hp; auto. contradiction. }
      rewrite Y. split.
      + intros [[Hp|Hp]|(z & Hz & Hp)]; [auto| |right; exists z; auto]. right. exists y. split; [now left|]. congruence.
      + intros [Hp|(z & [<-|Hz] & Hp)]; [auto| |right; exists z; auto]. left. right. congruence. }
  destruct (X (flat_map deps scc) []) as (l & Hl & L).
  { intros y Hy. apply in_flat_map in Hy as (x & Hx & Hy). now apply (T x). }
  exists l. split; [assumption|]. intros p. rewrite L. split.
  - intros [[]|(y & Hy & Hp)]. apply in_flat_map in Hy as (x & Hx & Hy). eauto.
  - intros (x & y & Hx & Hy & Hp). right. exists y. split; [|assumption]. apply in_flat_map. eauto.
Qed.

Lemma reaches_impl : forall A (R S : A -> A -> Prop) a b, (forall x y, R x y -> S x y) -> reaches R a b -> reaches S a b.
Proof. intros A R S a b I H. induction H; [now apply rt_step, I|apply rt_refl|eapply rt_trans; eassumption]. Qed.

Lemma scc_order_ok : forall sccs deps, NoDup (concat sccs) ->
  (forall x y, In x (concat sccs) -> In y (deps x) -> In y (concat sccs)) ->
  exists r, scc_order sccs deps = Ok r /\ Permutation r (seq 0 (length sccs)) /\
    forall a b, component_depends sccs deps a b -> precedes r b a \/ reaches (component_depends sccs deps) b a.
Proof.
  intros sccs deps N D. unfold scc_order. cbv zeta.
  assert (Par : forall y, In y (concat sccs) -> exists p, map_find y (parent_map sccs) = Some p).
  { intros y Hy. apply in_concat in Hy as (scc & Hs & Hy). apply In_nth_error in Hs as (i & Hi). exists i. apply (parent_map_ok sccs y i N). eauto. }
  destruct (map_res_total _ _ (scc_links deps (parent_map sccs)) sccs) as (links & Hl).
  { intros scc Hs. destruct (scc_links_ok deps (parent_map sccs) scc) as (l & Hl & _); [|eauto]. intros x y Hx Hy. apply Par, (D x); [|assumption].
    apply in_concat. eauto. }
  rewrite Hl. cbn [bind]. pose proof (map_res_length _ _ _ _ _ Hl) as Ll. apply map_res_ok in Hl.
  assert (Adj : forall a b, In b (nth a links []) <-> component_depends sccs deps a b).
  { intros a b. unfold component_depends. destruct (nth_error sccs a) as [scc|] eqn:Ea.
    - assert (La : exists la, nth_error links a = Some la /\ scc_links deps (parent_map sccs) scc = Ok la).
      { clear - Hl Ea. revert Hl. generalize (parent_map sccs). intros pm Hl. revert a Ea. induction Hl as [|u w us ws H Hl IH]; intros [|a] E; cbn [nth_error] in *; try discriminate.
        - injection E as <-. exists w. auto.
        - exact (IH a E). }
      destruct La as (la & Hla & Hsl). rewrite (nth_error_nth _ _ _ Hla).
      destruct (scc_links_ok deps (parent_map sccs) scc) as (l & Hl' & L).
      { intros x y Hx Hy. apply Par, (D x); [|assumption]. apply in_concat. exists scc. split; [eapply nth_error_In; eassumption|assumption]. }
      rewrite Hsl in Hl'. injection Hl' as <-. rewrite L. split.
      + intros (x & y & Hx & Hy & Hp). apply (parent_map_ok sccs y b N) in Hp as (t & Ht & Hyt). exists x, y, scc, t. auto.
      + intros (x & y & s & t & Hs & Ht & Hx & Hy & Hyd). injection Hs as <-. exists x, y. split; [assumption|]. split; [assumption|].
        apply (parent_map_ok sccs y b N). eauto.
    - rewrite nth_overflow by (apply nth_error_None in Ea; lia). split; [intros []|]. intros (x & y & s & t & Hs & _). discriminate. }
  destruct (post_order_ok (length sccs) (fun i => nth i links [])) as (r & Hr & P & O).
  { intros i _ b Hb. apply Adj in Hb as (x & y & s & t & _ & Ht & _). apply in_seq. assert (b < length sccs) by (apply nth_error_Some; congruence). lia. }
  exists r. split; [assumption|]. split; [assumption|]. intros a b Hab.
  assert (Ha : a < length sccs) by (destruct Hab as (x & y & s & t & Hs & _); apply nth_error_Some; congruence).
  destruct (O a b Ha (proj2 (Adj a b) Hab)) as [H|H]; [now left|]. right. eapply reaches_impl; [|exact H]. intros u w Hw. now apply Adj.
Qed.

(** * The scalar indices of an equation *)

Section Schedules.
Variable m : mlir.
Hypothesis M : mlir_ok m.
Variable vrank : nat -> nat.

Lemma map_res_map : forall A B (f : A -> res B) (g : A -> B) l, (forall x, In x l -> f x = Ok (g x)) -> map_res f l = Ok (map g l).
Proof.
  intros A B f g. induction l as [|x l IH]; intros H; cbn; [reflexivity|]. rewrite (H x) by now left. cbn. rewrite IH; [reflexivity|]. intros y Hy. apply H. now right.
Qed.

Lemma linked_in : forall g u v, In v (linked g u) <-> In (u, v) g.
Proof.
  intros g u v. unfold linked. rewrite in_map_iff. split.
  - intros ([a b] & <- & H). apply filter_In in H as (H & E). cbn in *. apply Nat.eqb_eq in E. now subst.
  - intros H. exists (u, v). split; [reflexivity|]. apply filter_In. split; [assumption|]. cbn. apply Nat.eqb_refl.
Qed.

Lemma precedes_positions : forall A (l : list A) a b, precedes l a b -> NoDup l -> forall i j, nth_error l i = Some a -> nth_error l j = Some b -> i < j.
Proof.
  intros A l a b (l1 & l2 & l3 & ->) N i j Hi Hj.
  assert (i = length l1).
  { apply (proj1 (NoDup_nth_error _) N i (length l1)); [apply nth_error_Some; congruence|]. rewrite Hi, nth_error_app2, Nat.sub_diag by lia. reflexivity. }
  assert (j = length l1 + S (length l2)).
  { apply (proj1 (NoDup_nth_error _) N j (length l1 + S (length l2))); [apply nth_error_Some; congruence|]. rewrite Hj, nth_error_app2 by lia.
    replace (length l1 + S (length l2) - length l1) with (S (length l2)) by lia. cbn. rewrite nth_error_app2, Nat.sub_diag by lia. reflexivity. }
  lia.
Qed.

Lemma schedule_scalars_ok : forall x e, equation_ok m vrank e -> same_writes e -> single_valued e -> eq_writes e <> [] ->
  exists l, schedule_scalars x e = Ok l /\
    Permutation (instances l) (map (pair x) (bs_points (eq_space e))) /\
    (forall k y p ds, executes l k y p ds -> y = x) /\
    (forall k y s ds, nth_error (concat l) k = Some (y, s, ds) -> y = x) /\
    forall i j k k' ds ds', iteration_depends e i j -> executes l k x i ds -> executes l k' x j ds' ->
      k' < k \/ reaches (iteration_depends e) j i.
Proof.
  intros x e E SW SV Ne. unfold schedule_scalars. cbv zeta.
  assert (Ev : scalar_vertices [e] = map (fun p => (0, p)) (bs_points (eq_space e))).
  { unfold scalar_vertices. cbn. destruct (eq_writes e) as [|w ws]; [congruence|]. now rewrite app_nil_r. }
  rewrite Ev. set (P := bs_points (eq_space e)). set (vs := map (fun p => (0, p)) P).
  assert (V : Forall (scalar_vertex [e]) vs).
  { apply Forall_forall. intros y Hy. apply in_map_iff in Hy as (p & <- & Hp). exists e. cbn. split; [reflexivity|]. split; [assumption|]. now apply in_bs_points. }
  destruct (scalar_graph_ok m vrank [e] vs (seq 0 (length vs))) as (g & Hg & G); auto. rewrite Hg. cbn [bind].
  assert (Gin : forall a b, In (a, b) g -> exists pa pb v q, nth_error P a = Some pa /\ nth_error P b = Some pb /\ reads_element e pa v q /\ writes_element e pb v q).
  { intros a b Hab. apply G in Hab as (xa & xb & ea & eb & v & q & Ha & Hb & Hea & Heb & Hr & Hw). unfold vs in Ha, Hb. rewrite nth_error_map in Ha, Hb.
    destruct (nth_error P a) as [pa|]; [|discriminate]. destruct (nth_error P b) as [pb|]; [|discriminate]. injection Ha as <-. injection Hb as <-. cbn in *.
    injection Hea as <-. injection Heb as <-. exists pa, pb, v, q. auto. }
  assert (LP : length vs = length P) by apply map_length. rewrite LP.
  destruct (post_order_ok (length P) (linked g)) as (r & Hr & Pr & Or).
  { intros i _ b Hb. apply linked_in in Hb. destruct (Gin i b Hb) as (pa & pb & v & q & _ & Hpb & _). apply in_seq. assert (b < length P) by (apply nth_error_Some; congruence). lia. }
  rewrite Hr. cbn [bind].
  assert (Rn : NoDup r) by (eapply Permutation_NoDup; [apply Permutation_sym; exact Pr|apply seq_NoDup]).
  rewrite (map_res_map _ _ _ (fun i => [(x, [mdrange_of_point (nth i P [])], repeat DirAny (eq_rank e))])).
  2:{ intros i Hi. apply (Permutation_in _ Pr) in Hi. apply in_seq in Hi. unfold vs. rewrite nth_error_map. rewrite (nth_error_nth' P [] ) by lia. reflexivity. }
  eexists. split; [reflexivity|].
  pose (ent := fun i : nat => @pair (nat * bset) (list direction) (@pair nat bset x [mdrange_of_point (nth i P [])]) (repeat DirAny (eq_rank e))).
  assert (Cc : @concat (nat * bset * list direction) (map (fun i => [ent i]) r) = map ent r).
  { clear. induction r as [|i r IH]; cbn; [reflexivity|]. now rewrite IH. }
  change (map (fun i : nat => [(x, [mdrange_of_point (nth i P [])], repeat DirAny (eq_rank e))]) r) with (@map nat (list (nat * bset * list direction)) (fun i => [ent i]) r).
  split; [|split; [|split]].
  - unfold instances. rewrite Cc. assert (X : flat_map (fun y : nat * bset * list direction => map (pair (fst (fst y))) (bs_points (snd (fst y)))) (map ent r) = map (fun i => (x, nth i P [])) r).
    { clear. induction r as [|i r IH]; cbn; [reflexivity|]. rewrite IH. unfold bs_points. cbn. rewrite points_of_point. reflexivity. }
    rewrite X. rewrite Pr. clear. apply Permutation_refl'. transitivity (map (pair x) (map (fun i => nth i P []) (seq 0 (length P)))); [now rewrite map_map|]. apply f_equal.
    apply nth_ext with (d := []) (d' := []); rewrite map_length, seq_length; [reflexivity|]. intros n Hn.
    rewrite (nth_indep _ _ (nth 0 P [])) by now rewrite map_length, seq_length. rewrite (map_nth (fun i => nth i P [])), seq_nth by assumption. reflexivity.
  - intros k y p ds (s & Hk & _). rewrite Cc, nth_error_map in Hk. destruct (nth_error r k); [|discriminate]. now injection Hk as <-.
  - intros k y s ds Hk. rewrite Cc, nth_error_map in Hk. destruct (nth_error r k); [|discriminate]. now injection Hk as <-.
  - intros i j k k' ds ds' Hd (s & Hk & Hi) (s' & Hk' & Hj). rewrite Cc, nth_error_map in Hk, Hk'.
    destruct (nth_error r k) as [u|] eqn:Eu; [|discriminate]. destruct (nth_error r k') as [u'|] eqn:Eu'; [|discriminate].
    injection Hk as <- _. injection Hk' as <- _. apply in_boxes_point in Hi, Hj.
    assert (Hu : u < length P) by (apply nth_error_In, (Permutation_in _ Pr), in_seq in Eu; lia).
    assert (Hu' : u' < length P) by (apply nth_error_In, (Permutation_in _ Pr), in_seq in Eu'; lia).
    pose proof (nth_error_nth' P [] Hu) as Nu. pose proof (nth_error_nth' P [] Hu') as Nu'. rewrite <- Hi in Nu. rewrite <- Hj in Nu'.
    assert (Huu : In u' (linked g u)).
    { apply linked_in, G. destruct Hd as (_ & _ & _ & v & q & Hr' & Hw'). exists (0, i), (0, j), e, e, v, q. unfold vs. rewrite !nth_error_map, Nu, Nu'. cbn. auto 6. }
    destruct (Or u u' Hu Huu) as [Hp|Hp].
    + left. exact (precedes_positions _ r u' u Hp Rn k' k Eu' Eu).
    + right. clear - Hp Nu Nu' Gin Ev. revert i j Nu Nu'. apply clos_rt_rt1n in Hp. induction Hp as [a|a b c Hab Hbc IH]; intros i j Hi Hj.
      * rewrite Hi in Hj. injection Hj as <-. apply rt_refl.
      * apply linked_in in Hab. destruct (Gin a b Hab) as (pa & pb & v & q & Hpa & Hpb & Hr & Hw). rewrite Hj in Hpa. injection Hpa as <-.
        specialize (IH i pb Hi Hpb). destruct (list_eq_dec Z.eq_dec j pb) as [->|D]; [exact IH|]. eapply rt_trans; [apply rt_step|exact IH].
        split; [assumption|]. split; [apply in_bs_points; eapply nth_error_In; eassumption|]. split; [apply in_bs_points; eapply nth_error_In; eassumption|]. eauto.
Qed.

(** * One component *)

Lemma schedule_scc_ok : forall eqs scc, scc <> [] -> (forall x, scc = [x] -> schedulable m vrank (eqs x)) ->
  exists l, schedule_scc m eqs scc = Ok l /\ Permutation (instances l) (all_instances eqs scc) /\
    (forall k y s ds, nth_error (concat l) k = Some (y, s, ds) -> In y scc) /\
    (2 <= length scc -> exists blk, l = [blk] /\ map (fun y => fst (fst y)) blk = scc) /\
    forall x i j k k' ds ds', scc = [x] -> iteration_depends (eqs x) i j -> executes l k x i ds -> executes l k' x j ds' ->
      k' < k \/ (k' = k /\ ds' = ds /\ forall any, executed_before any 0 ds j i) \/ reaches (iteration_depends (eqs x)) j i.
Proof.
  intros eqs scc Ns Sc. destruct scc as [|x [|x2 scc]]; [congruence| |].
  - specialize (Sc x eq_refl). destruct Sc as [E SW SV AS]. cbn [schedule_scc].
    destruct (directions_ok m M vrank (eqs x) E SW AS) as (ds & Hds & Lds & A). rewrite Hds. cbn [bind]. unfold assert_ok. rewrite Lds, Nat.eqb_refl. cbn [bind].
    destruct (existsb is_scalar ds) eqn:Es.
    + assert (Ne : eq_writes (eqs x) <> []).
      { intros En. unfold getSchedulingDirections in Hds. rewrite En in Hds. injection Hds as <-. apply existsb_exists in Es as (k & Hk & Ek). apply repeat_spec in Hk. subst k. discriminate. }
      destruct (schedule_scalars_ok x (eqs x) E SW SV Ne) as (l & Hl & P & _ & I & O). exists l. split; [assumption|]. split; [|split; [|split]].
      * rewrite P. unfold all_instances. cbn. rewrite app_nil_r. reflexivity.
      * intros k y s d Hk. left. symmetry. exact (I k y s d Hk).
      * cbn. lia.
      * intros x' i j k k' d d' Ex Hd Hi Hj. injection Ex as <-. destruct (O i j k k' d d' Hd Hi Hj); auto.
    + eexists. split; [reflexivity|]. split; [|split; [|split]].
      * unfold instances, all_instances. cbn. rewrite !app_nil_r. reflexivity.
      * intros [|[|k]] y s d Hk; cbn in Hk; try discriminate. injection Hk as <- _ _. now left.
      * cbn. lia.
      * intros x' i j k k' d d' Ex Hd (s & Hk & Hi) (s' & Hk' & Hj). injection Ex as <-. right. left.
        destruct k as [|[|k]]; cbn in Hk; try discriminate. destruct k' as [|[|k']]; cbn in Hk'; try discriminate.
        injection Hk as _ <-. injection Hk' as _ <-. split; [reflexivity|]. split; [reflexivity|]. intros any.
        pose proof (space_boxes m vrank (eqs x) E) as Sp. pose proof Hd as (Nij & Hi' & Hj' & _).
        apply allowed_before; auto.
        -- rewrite Lds. exact (bs_of_length _ _ i Sp Hi').
        -- rewrite Lds. exact (bs_of_length _ _ j Sp Hj').
        -- apply Forall_forall. intros p Hp ->. assert (existsb is_scalar ds = true) by (apply existsb_exists; exists PScalar; auto). congruence.
  - cbn [schedule_scc]. eexists. split; [reflexivity|]. split; [|split; [|split]].
    + unfold instances, all_instances. cbn [concat]. rewrite app_nil_r.
      assert (G : forall l, flat_map (fun y : nat * bset * list direction => map (pair (fst (fst y))) (bs_points (snd (fst y))))
        (map (fun y => (y, eq_space (eqs y), repeat DirUnknown (eq_rank (eqs y)))) l) = flat_map (fun y => map (pair y) (bs_points (eq_space (eqs y)))) l).
      { clear. induction l as [|y l IH]; [reflexivity|]. cbn [map flat_map fst snd]. now rewrite IH. }
      rewrite G. reflexivity.
    + intros k y s ds Hk. cbn [concat] in Hk. rewrite app_nil_r, nth_error_map in Hk. destruct (nth_error (x :: x2 :: scc) k) as [z|] eqn:Ez; [|discriminate].
      injection Hk as <- _ _. eapply nth_error_In; eassumption.
    + intros _. eexists. split; [reflexivity|]. rewrite map_map. cbn [fst]. apply map_id.
    + intros x' i j k k' ds ds' Ex. discriminate.
Qed.

(** * The whole schedule *)

Lemma concat_blocks : forall A (ls : list (list (list A))), concat (concat ls) = concat (map (@concat A) ls).
Proof. intros A. induction ls as [|l ls IH]; cbn; [reflexivity|]. now rewrite concat_app, IH. Qed.

(** The position of an element of a concatenation. *)
Lemma concat_position : forall A (ls : list (list A)) k x, nth_error (concat ls) k = Some x ->
  exists i j l, nth_error ls i = Some l /\ nth_error l j = Some x /\ k = length (concat (firstn i ls)) + j.
Proof.
  intros A. induction ls as [|l ls IH]; intros k x H; cbn in H; [destruct k; discriminate|]. destruct (Nat.lt_ge_cases k (length l)) as [L|L].
  - rewrite nth_error_app1 in H by assumption. exists 0, k, l. cbn. auto.
  - rewrite nth_error_app2 in H by assumption. destruct (IH _ _ H) as (i & j & l' & Hi & Hj & E). exists (S i), j, l'. cbn. rewrite app_length. split; [assumption|]. split; [assumption|]. lia.
Qed.
Lemma concat_firstn_lt : forall A (ls : list (list A)) i i' l, i < i' -> nth_error ls i = Some l -> length (concat (firstn i ls)) + length l <= length (concat (firstn i' ls)).
Proof.
  intros A. induction ls as [|l0 ls IH]; intros i i' l H E; [destruct i; discriminate|]. destruct i' as [|i']; [lia|]. destruct i as [|i]; cbn in *.
  - injection E as <-. rewrite app_length. lia.
  - rewrite !app_length. specialize (IH i i' l ltac:(lia) E). lia.
Qed.

Lemma schedule_ok : forall eqs sccs deps, NoDup (concat sccs) -> Forall (fun s => s <> []) sccs ->
  (forall x y, In x (concat sccs) -> In y (deps x) -> In y (concat sccs)) ->
  (forall x, In [x] sccs -> schedulable m vrank (eqs x)) ->
  exists l, schedule m eqs sccs deps = Ok l /\
    Permutation (instances l) (all_instances eqs (concat sccs)) /\
    (forall scc, In scc sccs -> 2 <= length scc -> exists blk, In blk l /\ map (fun y => fst (fst y)) blk = scc) /\
    (forall a b s t x y p q k k' ds ds', component_depends sccs deps a b -> ~ reaches (component_depends sccs deps) b a ->
       nth_error sccs a = Some s -> nth_error sccs b = Some t -> In x s -> In y t ->
       executes l k x p ds -> executes l k' y q ds' -> k' < k) /\
    (forall x i j k k' ds ds', In [x] sccs -> iteration_depends (eqs x) i j -> executes l k x i ds -> executes l k' x j ds' ->
      k' < k \/ (k' = k /\ ds' = ds /\ forall any, executed_before any 0 ds j i) \/ reaches (iteration_depends (eqs x)) j i).
Proof.
  intros eqs sccs deps N Ne D Sc. unfold schedule. destruct (scc_order_ok sccs deps N D) as (r & Hr & Pr & Or). rewrite Hr. cbn [bind].
  rewrite Forall_forall in Ne.
  assert (C : forall scc, In scc sccs -> exists l, schedule_scc m eqs scc = Ok l).
  { intros scc Hs. destruct (schedule_scc_ok eqs scc (Ne scc Hs)) as (l & Hl & _); [|eauto]. intros x ->. now apply Sc. }
  assert (Rn : NoDup r) by (eapply Permutation_NoDup; [apply Permutation_sym; exact Pr|apply seq_NoDup]).
  assert (Rl : forall i, In i r <-> i < length sccs).
  { intros i. split; intros H; [apply (Permutation_in _ Pr), in_seq in H; lia|apply (Permutation_in _ (Permutation_sym Pr)), in_seq; lia]. }
  destruct (map_res_total _ _ (fun i => scc <- of_option (nth_error sccs i) ;; schedule_scc m eqs scc) r) as (ls & Hls).
  { intros i Hi. apply Rl in Hi. destruct (nth_error sccs i) as [scc|] eqn:Es; [|apply nth_error_None in Es; lia]. cbn. apply C. eapply nth_error_In; eassumption. }
  rewrite Hls. cbn [bind]. exists (concat ls). split; [reflexivity|]. apply map_res_ok in Hls.
  (* The part of each component. *)
  assert (Part : forall k l0, nth_error ls k = Some l0 -> exists a scc, nth_error r k = Some a /\ nth_error sccs a = Some scc /\ schedule_scc m eqs scc = Ok l0).
  { intros k l0 Hk. clear - Hls Hk. revert k Hk. induction Hls as [|a l1 r ls H Hls IH]; intros [|k] Hk; cbn [nth_error] in *; try discriminate.
    - injection Hk as <-. apply bind_ok in H as (scc & H1 & H2). exists a, scc. split; [reflexivity|]. split; [|assumption]. destruct (nth_error sccs a); cbn in H1; congruence.
    - exact (IH k Hk). }
  assert (Whole : forall a scc, nth_error sccs a = Some scc -> exists k l0, nth_error r k = Some a /\ nth_error ls k = Some l0 /\ schedule_scc m eqs scc = Ok l0).
  { intros a scc Ha. assert (Hin : In a r) by (apply Rl, nth_error_Some; congruence). clear - Hls Ha Hin.
    induction Hls as [|a' l1 r ls H Hls IH]; [destruct Hin|]. destruct Hin as [->|Hin].
    - exists 0, l1. cbn. rewrite Ha in H. cbn in H. auto.
    - destruct (IH Hin) as (k & l0 & H1 & H2 & H3). exists (S k), l0. auto. }
  assert (Same : forall a b s t x, nth_error sccs a = Some s -> nth_error sccs b = Some t -> In x s -> In x t -> a = b).
  { intros a b s t x Ha Hb Hx Hy. assert (X : Some a = Some b); [|congruence].
    rewrite <- (proj2 (parent_map_ok sccs x a N)); [|eauto]. rewrite <- (proj2 (parent_map_ok sccs x b N)); eauto. }
  assert (Spec : forall scc l0, In scc sccs -> schedule_scc m eqs scc = Ok l0 -> Permutation (instances l0) (all_instances eqs scc) /\
    (forall k y s ds, nth_error (concat l0) k = Some (y, s, ds) -> In y scc) /\
    (2 <= length scc -> exists blk, l0 = [blk] /\ map (fun y => fst (fst y)) blk = scc) /\
    forall x i j k k' ds ds', scc = [x] -> iteration_depends (eqs x) i j -> executes l0 k x i ds -> executes l0 k' x j ds' ->
      k' < k \/ (k' = k /\ ds' = ds /\ forall any, executed_before any 0 ds j i) \/ reaches (iteration_depends (eqs x)) j i).
  { intros scc l0 Hs Hl. destruct (schedule_scc_ok eqs scc (Ne scc Hs)) as (l & Hl' & X); [intros x ->; now apply Sc|]. rewrite Hl in Hl'. injection Hl' as <-. exact X. }
  (* The position of the entries of an equation. *)
  assert (Pos : forall a scc x k s ds, nth_error sccs a = Some scc -> In x scc -> nth_error (concat (concat ls)) k = Some (x, s, ds) ->
    exists i j l0, nth_error r i = Some a /\ nth_error ls i = Some l0 /\ schedule_scc m eqs scc = Ok l0 /\ nth_error (concat l0) j = Some (x, s, ds) /\
      k = length (concat (firstn i (map (@concat _) ls))) + j).
  { intros a scc x k s ds Ha Hx Hk. rewrite concat_blocks in Hk. destruct (concat_position _ _ _ _ Hk) as (i & j & c & Hi & Hj & Ek).
    rewrite nth_error_map in Hi. destruct (nth_error ls i) as [l0|] eqn:El; [|discriminate]. injection Hi as <-.
    destruct (Part i l0 El) as (a' & scc' & Hr' & Ha' & Hs'). destruct (Spec scc' l0 (nth_error_In _ _ Ha') Hs') as (_ & In' & _).
    pose proof (In' j x s ds Hj) as Hx'. assert (a' = a) by (eapply Same; eassumption). subst a'. rewrite Ha in Ha'. injection Ha' as <-.
    exists i, j, l0. auto. }
  split; [|split; [|split]].
  - (* The instances. *)
    assert (X : Permutation (instances (concat ls)) (all_instances eqs (concat (map (fun i => nth i sccs []) r)))).
    { unfold instances, all_instances. clear - Hls Spec. revert Hls. generalize r. induction ls as [|l0 ls0 IH]; intros r0 H; inversion H as [|a ? r1 ? Ha Hr]; subst; cbn; [reflexivity|].
      rewrite concat_app, !flat_map_app. apply bind_ok in Ha as (scc & Ha1 & Ha2). assert (Es : nth_error sccs a = Some scc) by (destruct (nth_error sccs a); cbn in Ha1; congruence).
      rewrite (nth_error_nth _ _ [] Es). apply Permutation_app; [exact (proj1 (Spec scc l0 (nth_error_In _ _ Es) Ha2))|exact (IH r1 Hr)]. }
    rewrite X. unfold all_instances. apply Permutation_flat_map.
    transitivity (concat (map (fun i => nth i sccs []) (seq 0 (length sccs)))).
    + rewrite <- !flat_map_concat_map. apply Permutation_flat_map. exact Pr.
    + apply Permutation_refl'. f_equal. apply nth_ext with (d := []) (d' := []); rewrite map_length, seq_length; [reflexivity|]. intros n Hn.
      rewrite (nth_indep _ _ (nth 0 sccs [])) by now rewrite map_length, seq_length. rewrite (map_nth (fun i => nth i sccs [])), seq_nth by assumption. reflexivity.
  - intros scc Hs L2. apply In_nth_error in Hs as (a & Ha). destruct (Whole a scc Ha) as (k & l0 & _ & Hk & Hl0).
    destruct (Spec scc l0 (nth_error_In _ _ Ha) Hl0) as (_ & _ & X & _). destruct (X L2) as (blk & -> & Hb). exists blk. split; [|assumption].
    apply in_concat. exists [blk]. split; [eapply nth_error_In; eassumption|now left].
  - intros a b s t x y p q k k' ds ds' Hab Nr Ha Hb Hx Hy (sx & Hk & _) (sy & Hk' & _).
    destruct (Pos a s x k sx ds Ha Hx Hk) as (i & j & l0 & Hi & Hl0 & Hs0 & Hj & Ek). destruct (Pos b t y k' sy ds' Hb Hy Hk') as (i' & j' & l0' & Hi' & Hl0' & Hs0' & Hj' & Ek').
    destruct (Or a b Hab) as [Hp|Hp]; [|contradiction]. assert (Hlt : i' < i) by exact (precedes_positions _ r b a Hp Rn i' i Hi' Hi).
    pose proof (concat_firstn_lt _ (map (@concat _) ls) i' i (concat l0') Hlt) as Q. rewrite nth_error_map, Hl0' in Q. specialize (Q eq_refl).
    assert (j' < length (concat l0')) by (apply nth_error_Some; congruence). lia.
  - intros x i j k k' ds ds' Hx Hd (sx & Hk & Hi) (sy & Hk' & Hj). apply In_nth_error in Hx as (a & Ha).
    destruct (Pos a [x] x k sx ds Ha (or_introl eq_refl) Hk) as (u & w & l0 & Hu & Hl0 & Hs0 & Hw & Ek).
    destruct (Pos a [x] x k' sy ds' Ha (or_introl eq_refl) Hk') as (u' & w' & l0' & Hu' & Hl0' & Hs0' & Hw' & Ek').
    assert (u' = u). { apply (proj1 (NoDup_nth_error _) Rn u' u); [apply nth_error_Some; congruence|congruence]. } subst u'.
    rewrite Hl0 in Hl0'. injection Hl0' as <-. destruct (Spec [x] l0 (nth_error_In _ _ Ha) Hs0) as (_ & _ & _ & X).
    destruct (X x i j w w' ds ds' eq_refl Hd) as [H|[(H1 & H2 & H3)|H]]; [exists sx; auto|exists sy; auto|left; lia|right; left; split; [lia|auto]|auto].
Qed.

End Schedules.
