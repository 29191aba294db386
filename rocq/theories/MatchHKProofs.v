(** The loop on augmenting paths. *)
From Coq Require Import ZArith List Bool Permutation Lia.
From Verif Require Import RangeModel Result MatchModel MatchSpec MatchSetProofs MatchApplyProofs
  MatchSearchProofs MatchPathProofs.
Import ListNotations.
Local Open Scope nat_scope.

(** * Counting *)

Lemma inj_len : forall A B (R : A -> B -> Prop) (la : list A) (lb : list B),
  NoDup la -> (forall x, In x la -> exists y, In y lb /\ R x y) ->
  (forall x x' y, R x y -> R x' y -> x = x') -> length la <= length lb.
Proof.
  intros A B R la. induction la as [|x la IH]; intros lb Hn Ht Hi; cbn; [lia|].
  inversion Hn as [|? ? Hx Hn']; subst.
  destruct (Ht x (or_introl eq_refl)) as [y [Hy Rxy]].
  apply in_split in Hy as [l1 [l2 ->]].
  assert (H : length la <= length (l1 ++ l2)).
  { apply IH; auto. intros x' Hx'. destruct (Ht x' (or_intror Hx')) as [y' [Hy' Rxy']].
    exists y'. split; auto. apply in_app_iff in Hy' as [H|[H|H]]; apply in_or_app; auto.
    subst y'. assert (x = x') by eauto. subst. tauto. }
  rewrite app_length in *. cbn. lia.
Qed.

Definition scalar_dec : forall a b : scalar, {a = b} + {a <> b}.
Proof. decide equality; [apply (list_eq_dec Z.eq_dec)|apply mid_eq_dec]. Defined.

(** * Perfect matchings of a graph *)

Record gperfect (g : mgraph) (P : scalar -> scalar -> Prop) : Prop := {
  gp_inc : forall x y, P x y -> g_incident g x y;
  gp_one : one_one P;
  gp_eqs : forall x, g_eq g x -> exists y, P x y;
  gp_vars : forall y, g_var g y -> exists x, P x y }.

Lemma same_incident : forall g g', same_graph g g' -> forall x y, g_incident g' x y <-> g_incident g x y.
Proof. intros g g' (S1 & S2 & S3 & S4) x y. unfold g_incident. now rewrite S2, S4. Qed.
Lemma same_eq : forall g g', same_graph g g' -> forall x, g_eq g' x <-> g_eq g x.
Proof. intros g g' (S1 & S2 & S3 & S4) x. unfold g_eq. now rewrite S1, S3. Qed.
Lemma same_var : forall g g', same_graph g g' -> forall x, g_var g' x <-> g_var g x.
Proof. intros g g' (S1 & S2 & S3 & S4) x. unfold g_var. now rewrite S1, S3. Qed.
Lemma same_gperfect : forall g g' P, same_graph g g' -> gperfect g P -> gperfect g' P.
Proof.
  intros g g' P S [A B C D]. constructor; auto.
  - intros. apply (same_incident _ _ S). auto.
  - intros. apply C. now apply (same_eq _ _ S).
  - intros. apply D. now apply (same_var _ _ S).
Qed.

Definition eqs_of (H : list bstep) : list scalar :=
  flat_map (fun t => match s_node t with NE e => map (pair e) (s_cand t) | NV _ => [] end) H.
Definition vars_of (H : list bstep) : list scalar :=
  flat_map (fun t => match s_node t with NV v => map (pair v) (s_cand t) | NE _ => [] end) H.
Lemma eqs_of_spec : forall H e i, In (e, i) (eqs_of H) <-> covered H (NE e) i.
Proof.
  intros. unfold eqs_of, covered. rewrite in_flat_map. split.
  - intros [t [H1 H2]]. exists t. split; auto. destruct (s_node t); [destruct H2|].
    apply in_map_iff in H2 as [i' [E H2]]. inversion E; subst. auto.
  - intros [t [H1 [H2 H3]]]. exists t. split; auto. rewrite H2. apply in_map_iff. eauto.
Qed.
Lemma vars_of_spec : forall H v j, In (v, j) (vars_of H) <-> covered H (NV v) j.
Proof.
  intros. unfold vars_of, covered. rewrite in_flat_map. split.
  - intros [t [H1 H2]]. exists t. split; auto. destruct (s_node t); [|destruct H2].
    apply in_map_iff in H2 as [i' [E H2]]. inversion E; subst. auto.
  - intros [t [H1 [H2 H3]]]. exists t. split; auto. rewrite H2. apply in_map_iff. eauto.
Qed.

Lemma bwf_in : forall g, valid g -> forall k t, bwf g k t ->
  In (s_node t) (g_nodes g) /\ forall p, In p (s_cand t) -> In p (mt_all (g_vx g (s_node t))).
Proof.
  intros g V k t H. destruct H as [e He|k p e v sol Hw Hn He Hs H1 Hu|k p e v sol Hw Hn He Hs H1]; cbn.
  - split; auto. intros p Hp. apply (va_part g V _ He p). auto.
  - split; [apply (va_ends g V e v He)|]. intros j Hj. apply m_vars_spec in Hj as [i Hi].
    apply Hs in Hi as [Hi _]. destruct (edge_nodes g (e, i) (v, j) V) as (A & B & C & D); auto.
    right. split; auto.
  - split; [apply (va_ends g V e v He)|]. intros i Hi. apply m_eqs_spec in Hi as [j Hj].
    apply Hs in Hj as [Hi _]. destruct (edge_nodes g (e, i) (v, j) V) as (A & B & C & D); auto.
    left. split; auto.
Qed.

(** When the search ends without a path, an unmatched scalar equation shows that
    there is no perfect matching. *)
Lemma closed_no_perfect : forall g, valid g -> forall lv H, inv g lv H [] ->
  forall e0 i0, In (NE e0) (g_nodes g) -> In i0 (mt_unmatched (g_vx g (NE e0))) ->
  forall P, ~ gperfect g P.
Proof.
  intros g V lv H I e0 i0 Hn0 Hu0 P GP.
  assert (Hcl : forall n p m q, covered H n p -> astep g n p m q -> covered H m q).
  { intros n p m q Hc Hs. pose proof (i_close _ _ _ _ I n p m q Hc Hs) as X. now rewrite app_nil_r in X. }
  set (A := nodup scalar_dec (eqs_of H)). set (B := nodup scalar_dec (vars_of H)).
  assert (L1 : length A <= length B).
  { apply (inj_len _ _ P A B); [apply NoDup_nodup| |apply (proj2 (gp_one g P GP))].
    intros [e i] Hin. apply nodup_In in Hin. apply eqs_of_spec in Hin.
    pose proof Hin as [t [Ht [Hn Hc]]]. destruct (i_wf _ _ _ _ I t Ht) as [k Hk].
    destruct (bwf_in g V k t Hk) as [Hx Hy]. rewrite Hn in Hx, Hy.
    destruct (gp_eqs g P GP (e, i)) as [[v j] Hp]; [split; cbn; auto|]. exists (v, j). split; auto.
    apply nodup_In. apply vars_of_spec. apply (gp_inc g P GP) in Hp. apply (va_split g V) in Hp as [Hp|Hp].
    - destruct Hk as [e' He'|k p e' v' sol Hw Hn' He' Hs H1 Hu'|k p e' v' sol Hw Hn' He' Hs H1]; cbn in Hn, Hc; inversion Hn; subst.
      + exfalso. eapply unmatched_no_pair; eauto.
      + apply m_eqs_spec in Hc as [j' Hj']. apply Hs in Hj' as [Hj1 Hj2].
        assert (E : (v', j') = (v, j)).
        { apply (proj1 (va_one g V) (e, i)); auto. split; auto. }
        inversion E; subst. exists p. split.
        * assert (X : In p (H ++ [])).
          { eapply (i_anc _ _ _ _ I); [apply in_or_app; left; exact Ht|]. constructor. constructor. }
          now rewrite app_nil_r in X.
        * auto.
    - apply (Hcl (NE e) i); auto. now constructor. }
  assert (L2 : length B <= length (remove scalar_dec (e0, i0) A)).
  { apply (inj_len _ _ (fun y x => g_pairs g x y) B); [apply NoDup_nodup| |].
    - intros [v j] Hin. apply nodup_In in Hin. apply vars_of_spec in Hin.
      pose proof Hin as [t [Ht [Hn Hc]]]. destruct (i_wf _ _ _ _ I t Ht) as [k Hk].
      destruct (bwf_in g V k t Hk) as [Hx Hy]. rewrite Hn in Hx, Hy.
      pose proof (bwf_var g k t Hk v Hn j Hc) as Hnu.
      assert (Hm : In j (mt_matched (g_vx g (NV v)))).
      { destruct (va_part g V _ Hx j) as [Hall _]. specialize (Hy j Hc). tauto. }
      apply (va_var g V v j Hx) in Hm as [[e i] Hp]. exists (e, i). split; auto.
      apply in_in_remove.
      + intros E. inversion E; subst. eapply unmatched_no_pair; eauto.
      + apply nodup_In. apply eqs_of_spec. apply (Hcl (NV v) j); auto. now constructor.
    - intros y y' x Ha Hb. eapply (proj1 (va_one g V)); eauto. }
  assert (L3 : length (remove scalar_dec (e0, i0) A) < length A).
  { apply remove_length_lt. apply nodup_In. apply eqs_of_spec.
    pose proof (i_start _ _ _ _ I e0 i0 Hn0 Hu0) as X. now rewrite app_nil_r in X. }
  lia.
Qed.

Definition all_eqs (g : mgraph) : list scalar :=
  flat_map (fun n => match n with NE e => map (pair e) (mt_all (g_vx g n)) | NV _ => [] end) (g_nodes g).
Definition all_vars (g : mgraph) : list scalar :=
  flat_map (fun n => match n with NV v => map (pair v) (mt_all (g_vx g n)) | NE _ => [] end) (g_nodes g).
Lemma all_eqs_spec : forall g x, In x (all_eqs g) <-> g_eq g x.
Proof.
  intros g [e i]. unfold all_eqs, g_eq. rewrite in_flat_map. cbn [fst snd]. split.
  - intros [[v|e'] [H1 H2]]; [destruct H2|]. apply in_map_iff in H2 as [i' [E H2]]. inversion E; subst. auto.
  - intros [H1 H2]. exists (NE e). split; auto. apply in_map_iff. eauto.
Qed.
Lemma all_vars_spec : forall g x, In x (all_vars g) <-> g_var g x.
Proof.
  intros g [e i]. unfold all_vars, g_var. rewrite in_flat_map. cbn [fst snd]. split.
  - intros [[v|e'] [H1 H2]]; [|destruct H2]. apply in_map_iff in H2 as [i' [E H2]]. inversion E; subst. auto.
  - intros [H1 H2]. exists (NV e). split; auto. apply in_map_iff. eauto.
Qed.

Lemma var_left_no_perfect : forall g, valid g ->
  (forall e i, In (NE e) (g_nodes g) -> ~ In i (mt_unmatched (g_vx g (NE e)))) ->
  forall v0 j0, In (NV v0) (g_nodes g) -> In j0 (mt_unmatched (g_vx g (NV v0))) ->
  forall P, ~ gperfect g P.
Proof.
  intros g V He v0 j0 Hn0 Hu0 P GP.
  set (E := nodup scalar_dec (all_eqs g)). set (W := nodup scalar_dec (all_vars g)).
  assert (L1 : length W <= length E).
  { apply (inj_len _ _ (fun y x => P x y) W E); [apply NoDup_nodup| |].
    - intros y Hin. apply nodup_In in Hin. apply all_vars_spec in Hin.
      destruct (gp_vars g P GP y Hin) as [x Hx]. exists x. split; auto. apply nodup_In. apply all_eqs_spec.
      apply (gp_inc g P GP) in Hx. now apply (va_inc g V) in Hx.
    - intros y y' x Ha Hb. eapply (proj1 (gp_one g P GP)); eauto. }
  assert (L2 : length E <= length (remove scalar_dec (v0, j0) W)).
  { apply (inj_len _ _ (g_pairs g) E); [apply NoDup_nodup| |].
    - intros [e i] Hin. apply nodup_In in Hin. apply all_eqs_spec in Hin as [H1 H2]. cbn in H1, H2.
      assert (Hm : In i (mt_matched (g_vx g (NE e)))).
      { destruct (va_part g V _ H1 i) as [Hall _]. specialize (He e i H1). tauto. }
      apply (va_eq g V e i H1) in Hm as [y Hy]. exists y. split; auto. apply in_in_remove.
      + intros ->. eapply unmatched_no_pair_v; eauto.
      + apply nodup_In. apply all_vars_spec. destruct (edge_nodes g _ _ V (or_introl Hy)) as (A & B & C & D).
        split; auto.
    - intros x x' y Ha Hb. eapply (proj2 (va_one g V)); eauto. }
  assert (L3 : length (remove scalar_dec (v0, j0) W) < length W).
  { apply remove_length_lt. apply nodup_In. apply all_vars_spec. split; auto. cbn.
    apply (va_part g V _ Hn0 j0). auto. }
  lia.
Qed.

(** * One iteration *)

Lemma found_augmenting : forall g L fl, found g (S L) fl -> (forall k, k <= L -> no_end g k) ->
  augmenting g fl.
Proof.
  intros g L fl (e & T & Hp & Hn & HT) Hno. exists (S L), e, T. split; auto. split; auto. split; auto.
  apply path_short with (1 := Hp) (a := 0).
  - intros p Hp'. constructor; auto.
  - intros k Hk. apply Hno. lia.
Qed.

Lemma fop_apart : forall g, valid g -> forall L R,
  ForallOrdPairs (fun a b => forall n p, pkey a n p -> pkey b n p -> False) R ->
  (forall fl, In fl R -> found g (S L) fl) -> ForallOrdPairs apart R.
Proof.
  intros g V L. induction 1 as [|a R Ha F3 IH]; intros F1; constructor.
  - rewrite Forall_forall in *. intros b Hbin. apply keys_apart with g (S L) (S L); auto.
    + apply F1. now left.
    + apply F1. now right.
    + now apply Ha.
  - apply IH. intros fl Hin. apply F1. now right.
Qed.

Section HK.
  Variable solve : mmat -> list mmat.
  Hypothesis Hsolve : local_solver solve.
  Variable sc : sched.
  Hypothesis Hsched : schedule sc.

  Lemma iteration : forall g fuel it R, valid g ->
    augmenting_paths solve fuel sc it g = Ok R ->
    (R = [] /\ exists H lv, inv g lv H []) \/
    (R <> [] /\ (forall fl, In fl R -> augmenting g fl) /\ (scalar_vars g -> ForallOrdPairs apart R)).
  Proof.
    intros g fuel it R V E. unfold augmenting_paths in E.
    apply bind_ok in E as [paths [E1 E2]]. injection E2 as <-.
    destruct (bfs_spec solve Hsolve g (sc_ord sc it) (proj1 Hsched it) fuel 0 [] (initial_frontier g) paths
                (inv_init g) E1) as [[-> X]|[Hne [L [Hno Hb]]]].
    - left. split; auto.
    - right. split; [destruct paths; [congruence|apply filter_first]|].
      destruct (filter_spec g V L (sc_snap sc it) paths 0 (fun _ => None) [] Hb) as [F1 F2].
      split.
      + intros fl Hin. apply found_augmenting with L; auto.
      + intros SV. destruct (F2 SV) as [_ F3].
        eapply fop_apart; eauto.
  Qed.

  Lemma allMatched_spec : forall g, valid g -> g_allMatched g = true <->
    forall n p, In n (g_nodes g) -> ~ In p (mt_unmatched (g_vx g n)).
  Proof.
    intros g V. unfold g_allMatched. rewrite forallb_forall. split.
    - intros H n p Hn Hp. specialize (H n Hn). unfold mt_allMatched in H.
      apply ps_empty_spec in H. rewrite H in Hp. destruct Hp.
    - intros H n Hn. unfold mt_allMatched. apply ps_empty_spec.
      destruct (mt_unmatched (g_vx g n)) as [|p l] eqn:E; auto. exfalso.
      apply (H n p Hn). rewrite E. now left.
  Qed.

  Lemma not_allMatched : forall g, valid g -> g_allMatched g = false ->
    exists n p, In n (g_nodes g) /\ In p (mt_unmatched (g_vx g n)).
  Proof.
    intros g V H.
    assert (X : existsb (fun n => negb (mt_allMatched (g_vx g n))) (g_nodes g) = true).
    { unfold g_allMatched in H. clear V. induction (g_nodes g) as [|n l IH]; cbn in *; [discriminate|].
      destruct (mt_allMatched (g_vx g n)); cbn in *; auto. }
    apply existsb_exists in X as [n [Hn Hb]]. unfold mt_allMatched in Hb.
    destruct (mt_unmatched (g_vx g n)) as [|p l] eqn:E; [discriminate|].
    exists n, p. split; auto. rewrite E. now left.
  Qed.

  (** * The loop *)

  Lemma hk_loop_spec : forall fuel bfuel it g b g', valid g -> scalar_vars g ->
    hk_loop solve fuel bfuel sc it g = Ok (b, g') ->
    valid g' /\ same_graph g g' /\ b = g_allMatched g' /\
    (b = false -> forall P, ~ gperfect g P).
  Proof.
    induction fuel as [|fuel IH]; intros bfuel it g b g' V SV E; [discriminate|].
    cbn [hk_loop] in E. apply bind_ok in E as [R [E1 E2]]. apply bind_ok in E2 as [g1 [E2 E3]].
    destruct (iteration g bfuel it R V E1) as [[-> [H [lv I]]]|[Hne [Ha Hap]]].
    - cbn in E2. inversion E2; subst g1. cbn [andb] in E3. inversion E3; subst. split; auto.
      split; [apply same_graph_refl|]. split; auto. intros Hf P.
      destruct (not_allMatched g' V Hf) as [[v|e] [p [Hn Hp]]].
      + destruct (existsb (fun n => match n with NE e => negb (ps_empty (mt_unmatched (g_vx g' n))) | NV _ => false end)
                    (g_nodes g')) eqn:Ex.
        * apply existsb_exists in Ex as [[v'|e] [Hn' Hb]]; [discriminate|].
          destruct (mt_unmatched (g_vx g' (NE e))) as [|i l] eqn:Eu; [discriminate|].
          apply (closed_no_perfect g' V lv H I e i Hn'). rewrite Eu. now left.
        * apply (var_left_no_perfect g' V) with (v0 := v) (j0 := p); auto.
          intros e i He Hi.
          assert (X : existsb (fun n => match n with NE e => negb (ps_empty (mt_unmatched (g_vx g' n))) | NV _ => false end)
                    (g_nodes g') = true); [|congruence].
          apply existsb_exists. exists (NE e). split; auto.
          destruct (mt_unmatched (g_vx g' (NE e))); [destruct Hi|reflexivity].
      + apply (closed_no_perfect g' V lv H I e p Hn Hp).
    - destruct (apply_all R g V Ha (Hap SV)) as [g1' (F1 & V1 & S1 & K1 & _)].
      assert (g1' = g1) by congruence. subst g1'.
      assert (SV1 : scalar_vars g1).
      { intros v p q. destruct S1 as (T1 & _ & T3 & _). rewrite T1, T3. apply SV. }
      destruct (match R with [] => false | _ :: _ => true end && negb (g_allMatched g1)) eqn:Ec.
      + destruct (IH bfuel (S it) g1 b g' V1 SV1 E3) as (V' & S' & B' & N'). split; auto.
        split; [eapply same_graph_trans; eauto|]. split; auto.
        intros Hf P GP. apply (N' Hf P). eapply same_gperfect; eauto.
      + inversion E3; subst. split; auto. split; auto. split; auto.
        destruct R; [congruence|]. cbn in Ec. apply negb_false_iff in Ec. congruence.
  Qed.

  Lemma all_matched_perfect : forall g, valid g -> g_allMatched g = true -> gperfect g (g_pairs g).
  Proof.
    intros g V H. rewrite (allMatched_spec g V) in H. constructor.
    - intros x y Hp. apply (va_split g V). auto.
    - apply (va_one g V).
    - intros [e i] [Hn Hi]. cbn in *. apply (va_eq g V e i Hn). destruct (va_part g V _ Hn i) as [P1 _].
      specialize (H _ i Hn). tauto.
    - intros [v j] [Hn Hj]. cbn in *. apply (va_var g V v j Hn). destruct (va_part g V _ Hn j) as [P1 _].
      specialize (H _ j Hn). tauto.
  Qed.

  Lemma hk_run_spec : forall fuel bfuel g b g', valid g -> scalar_vars g ->
    hk_run solve fuel bfuel sc g = Ok (b, g') ->
    valid g' /\ same_graph g g' /\
    (b = true -> gperfect g (g_pairs g')) /\ (b = false -> forall P, ~ gperfect g P).
  Proof.
    intros fuel bfuel g b g' V SV E. unfold hk_run in E. destruct (g_allMatched g) eqn:Em.
    - inversion E; subst. split; auto. split; [apply same_graph_refl|]. split; [|discriminate].
      intros _. now apply all_matched_perfect.
    - destruct (hk_loop_spec fuel bfuel 0 g b g' V SV E) as (V' & S' & B' & N'). split; auto. split; auto.
      split; auto. intros ->. symmetry in B'.
      destruct (all_matched_perfect g' V' B') as [G1 G2 G3 G4].
      constructor; auto.
      + intros x y Hp. apply (same_incident _ _ S'). auto.
      + intros x Hx. apply G3. now apply (same_eq _ _ S').
      + intros y Hy. apply G4. now apply (same_var _ _ S').
  Qed.

  (** * Termination *)

  Fixpoint sublists {A} (l : list A) : list (list A) :=
    match l with [] => [[]] | x :: l' => map (cons x) (sublists l') ++ sublists l' end.
  Lemma filter_sublist : forall A (f : A -> bool) l, In (filter f l) (sublists l).
  Proof.
    induction l as [|x l IH]; cbn; [auto|]. apply in_or_app. destruct (f x); [left; now apply in_map|auto].
  Qed.
  Definition canon (g : mgraph) (n : node) (c : pset) : pset := filter (ps_mem c) (mt_all (g_vx g n)).
  Definition universe (g : mgraph) : list (node * pset) :=
    flat_map (fun n => map (pair n) (sublists (mt_all (g_vx g n)))) (g_nodes g).
  Fixpoint chain (g : mgraph) (s : bstep) : list (node * pset) :=
    match s with
    | SStart n c => [(n, canon g n c)]
    | SNext p _ n c _ => (n, canon g n c) :: chain g p
    end.
  Fixpoint chok (s : bstep) : Prop :=
    match s with SStart _ _ => True | SNext p _ n c _ => s_contains p n c = false /\ chok p end.

  Lemma chain_contains : forall g, valid g -> forall k s, bwf g k s -> forall n c,
    (forall p, In p c -> In p (mt_all (g_vx g n))) ->
    In (n, canon g n c) (chain g s) -> s_contains s n c = true.
  Proof.
    intros g V. assert (X : forall k s, bwf g k s -> forall n c, (forall p, In p c -> In p (mt_all (g_vx g n))) ->
      (n, canon g n c) = (s_node s, canon g (s_node s) (s_cand s)) ->
      node_eqb (s_node s) n && ps_eq (s_cand s) c = true).
    { intros k s Hw n c Hc E. destruct (bwf_in g V k s Hw) as [_ Hin].
      injection E as En Ec. subst n. apply andb_true_iff. split; [apply node_eqb_refl|].
      apply ps_eq_spec. intros p. unfold canon in Ec.
      assert (Y : forall d, In p (filter (ps_mem d) (mt_all (g_vx g (s_node s)))) <->
                In p (mt_all (g_vx g (s_node s))) /\ In p d).
      { intros d. rewrite filter_In, ps_mem_spec. reflexivity. }
      pose proof (Y c) as Y1. rewrite Ec in Y1. pose proof (Y (s_cand s)) as Y2.
      specialize (Hc p). specialize (Hin p). tauto. }
    induction 1 as [e He|k p e v sol Hw IH Hn He Hs H1 Hu|k p e v sol Hw IH Hn He Hs H1];
      intros n c Hc Hin.
    - destruct Hin as [E|[]]. cbn [s_contains]. apply orb_true_iff. left.
      apply (X 0 (SStart (NE e) (mt_unmatched (g_vx g (NE e))))); auto. now constructor.
    - cbn [s_contains]. apply orb_true_iff. destruct Hin as [E|Hin]; [left|right; auto].
      apply (X (S k) (SNext p (e, v) (NV v) (m_vars sol) sol)); auto. now constructor.
    - cbn [s_contains]. apply orb_true_iff. destruct Hin as [E|Hin]; [left|right; auto].
      apply (X (S k) (SNext p (e, v) (NE e) (m_eqs sol) sol)); auto. now constructor.
  Qed.
  Lemma chain_length : forall g k s, bwf g k s -> length (chain g s) = S k.
  Proof. induction 1; cbn; auto. Qed.
  Lemma chain_head : forall g s, In (s_node s, canon g (s_node s) (s_cand s)) (chain g s).
  Proof. destruct s; cbn; auto. Qed.
  Lemma chain_incl : forall g, valid g -> forall k s, bwf g k s -> incl (chain g s) (universe g).
  Proof.
    intros g V.
    assert (X : forall n c, In n (g_nodes g) -> In (n, canon g n c) (universe g)).
    { intros n c Hn. unfold universe. apply in_flat_map. exists n. split; auto. apply in_map. apply filter_sublist. }
    induction 1 as [e He|k p e v sol Hw IH Hn He Hs H1 Hu|k p e v sol Hw IH Hn He Hs H1]; intros x Hx; cbn in Hx.
    - destruct Hx as [<-|[]]. auto.
    - destruct Hx as [<-|Hx]; auto. apply X. apply (va_ends g V e v He).
    - destruct Hx as [<-|Hx]; auto. apply X. apply (va_ends g V e v He).
  Qed.
  Lemma chain_nodup : forall g, valid g -> forall k s, bwf g k s -> chok s -> NoDup (chain g s).
  Proof.
    intros g V. induction 1 as [e He|k p e v sol Hw IH Hn He Hs H1 Hu|k p e v sol Hw IH Hn He Hs H1];
      intros Hc; cbn in *.
    - constructor; auto. constructor.
    - destruct Hc as [Hc1 Hc2]. constructor; auto. intros Hin.
      apply (chain_contains g V k p Hw) in Hin; [congruence|].
      apply (bwf_in g V (S k) (SNext p (e, v) (NV v) (m_vars sol) sol)). now constructor.
    - destruct Hc as [Hc1 Hc2]. constructor; auto. intros Hin.
      apply (chain_contains g V k p Hw) in Hin; [congruence|].
      apply (bwf_in g V (S k) (SNext p (e, v) (NE e) (m_eqs sol) sol)). now constructor.
  Qed.

  Lemma bfs_total : forall g, valid g -> forall it fuel level F,
    (forall t, In t F -> bwf g level t /\ chok t) -> length (universe g) <= level + fuel ->
    exists r, bfs solve fuel (sc_ord sc it) level g F = Ok r.
  Proof.
    intros g V it. induction fuel as [|fuel IH]; intros level F HF Hf.
    - destruct F as [|t F]; [cbn; eauto|]. exfalso. destruct (HF t (or_introl eq_refl)) as [Hw Hc].
      pose proof (NoDup_incl_length (chain_nodup g V _ _ Hw Hc) (chain_incl g V _ _ Hw)) as X.
      rewrite (chain_length g _ _ Hw) in X. lia.
    - destruct F as [|t F]; [cbn; eauto|]. set (F0 := t :: F) in *. cbn [bfs].
      change (match F0 with [] => Ok [] | _ => _ end) with
        (match flat_map snd (flat_map (expand solve g) (sc_ord sc it level 0 F0)) with
         | [] => bfs solve fuel (sc_ord sc it) (S level) g (flat_map fst (flat_map (expand solve g) (sc_ord sc it level 0 F0)))
         | paths => Ok (sc_ord sc it level 1 paths)
         end).
      destruct (flat_map snd _) eqn:E; eauto. apply IH; [|lia].
      intros t' Ht'. apply in_flat_map in Ht' as [r [Hr Ht']]. apply in_flat_map in Hr as [s [Hs Hr]].
      apply (Permutation_in _ (proj1 Hsched it level 0 F0)) in Hs. destruct (HF s Hs) as [Hw Hc].
      destruct (expand_wf solve Hsolve g level s r Hw Hr) as [X _].
      destruct (X t' Ht') as [A [e [n [c [f [-> B]]]]]]. split; auto. cbn. auto.
  Qed.

  Definition free_eqs (g : mgraph) : list scalar :=
    nodup scalar_dec (flat_map (fun n => match n with NE e => map (pair e) (mt_unmatched (g_vx g n)) | NV _ => [] end)
                        (g_nodes g)).
  Lemma free_eqs_spec : forall g e i, In (e, i) (free_eqs g) <->
    In (NE e) (g_nodes g) /\ In i (mt_unmatched (g_vx g (NE e))).
  Proof.
    intros. unfold free_eqs. rewrite nodup_In, in_flat_map. split.
    - intros [[v|e'] [H1 H2]]; [destruct H2|]. apply in_map_iff in H2 as [i' [E H2]]. inversion E; subst. auto.
    - intros [H1 H2]. exists (NE e). split; auto. apply in_map_iff. eauto.
  Qed.

  Lemma same_universe : forall g g', same_graph g g' -> universe g' = universe g.
  Proof.
    intros g g' (S1 & S2 & S3 & S4). unfold universe. rewrite S1. apply flat_map_ext. intros n. now rewrite S3.
  Qed.

  Lemma grow_less : forall g g', valid g -> valid g' -> same_graph g g' ->
    (forall n p, In n (g_nodes g) -> In p (mt_matched (g_vx g n)) -> In p (mt_matched (g_vx g' n))) ->
    (exists e i, In (NE e) (g_nodes g) /\ In i (mt_unmatched (g_vx g (NE e))) /\
                 In i (mt_matched (g_vx g' (NE e)))) ->
    length (free_eqs g') < length (free_eqs g).
  Proof.
    intros g g' V V' S K (e & i & He & Hi & Hm).
    apply Nat.le_lt_trans with (length (remove scalar_dec (e, i) (free_eqs g))).
    - apply NoDup_incl_length; [apply NoDup_nodup|]. intros [e' i'] Hin. apply free_eqs_spec in Hin as [H1 H2].
      assert (H1' : In (NE e') (g_nodes g)) by (destruct S as (S1 & _); now rewrite <- S1).
      destruct (va_part g' V' _ H1 i') as [P1 P2]. destruct (va_part g V _ H1' i') as [P3 P4].
      apply in_in_remove.
      + intros E. inversion E; subst. tauto.
      + apply free_eqs_spec. split; auto. destruct S as (S1 & S2 & S3 & S4). rewrite S3 in P1.
        specialize (K _ i' H1'). tauto.
    - apply remove_length_lt. apply free_eqs_spec. auto.
  Qed.

  Lemma iteration_total : forall g it bfuel, valid g -> length (universe g) <= bfuel ->
    exists R, augmenting_paths solve bfuel sc it g = Ok R.
  Proof.
    intros g it bfuel V Hb. unfold augmenting_paths.
    destruct (bfs_total g V it bfuel 0 (initial_frontier g)) as [r Er]; auto.
    - intros t Ht. split; [now apply (i_wfF _ _ _ _ (inv_init g))|].
      apply initial_spec in Ht as [e [_ [_ ->]]]. exact I.
    - rewrite Er. cbn. eauto.
  Qed.

  Lemma hk_total : forall fuel bfuel it g, valid g -> scalar_vars g ->
    length (free_eqs g) < fuel -> length (universe g) <= bfuel ->
    exists r, hk_loop solve fuel bfuel sc it g = Ok r.
  Proof.
    induction fuel as [|fuel IH]; intros bfuel it g V SV Hf Hb; [lia|].
    cbn [hk_loop]. destruct (iteration_total g it bfuel V Hb) as [R ER]. rewrite ER. cbn [bind].
    destruct (iteration g bfuel it R V ER) as [[-> _]|[Hne [Ha Hap]]].
    - cbn. eauto.
    - destruct (apply_all R g V Ha (Hap SV)) as [g1 (F1 & V1 & S1 & K1 & G1)]. rewrite F1. cbn [bind].
      destruct (match R with [] => false | _ :: _ => true end && negb (g_allMatched g1)); [|eauto].
      apply IH; auto.
      + intros v p q. destruct S1 as (T1 & _ & T3 & _). rewrite T1, T3. apply SV.
      + pose proof (grow_less g g1 V V1 S1 K1 (G1 Hne)). lia.
      + now rewrite (same_universe _ _ S1).
  Qed.
  Lemma hk_run_total : forall fuel bfuel g, valid g -> scalar_vars g ->
    length (free_eqs g) < fuel -> length (universe g) <= bfuel ->
    exists b g', hk_run solve fuel bfuel sc g = Ok (b, g').
  Proof.
    intros. unfold hk_run. destruct (g_allMatched g); [eauto|].
    destruct (hk_total fuel bfuel 0 g) as [[b g'] E]; auto. eauto.
  Qed.
End HK.
