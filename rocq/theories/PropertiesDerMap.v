(** C47, C59, C60: the map between variables and their derivatives. *)
From Coq Require Import ZArith List Bool Arith Lia Permutation.
From Verif Require Import RangeModel MDRangeModel Spec BoxSetModel BoxSetProofs Result
  WritesMapModel WritesMapProofs DerMapModel DerMapSpec DerMapProofs.
Import ListNotations.
Local Open Scope nat_scope.

Definition dbox (a b : Z) : bset := [[mkRange a b]].
(** 1 is an array whose derivative is 11, derived again as 21; 2 is a scalar
    whose derivative is 12. *)
Definition dm_example : list dm_op :=
  [AddIndices 1 (dbox 0 3); SetDerivative 1 11; SetIndices 2 []; AddIndices 1 (dbox 5 7); SetDerivative 2 12;
   SetDerivative 11 21; SetIndices 11 (dbox 0 9); SetIndices 11 (dbox 0 2)].

(** After any history of calls in which no derivative is given to two variables,
    the variable of the derivative of [v] is [v]. *)
Theorem C47_inverse : forall h v d,
  derivatives_once h ->
  dm_getDerivative (dm_run dm_new h) v = Some d -> dm_getDerivedVariable (dm_run dm_new h) d = Some v.
Proof. intros h v d N H. apply run_inv_once; [assumption|]. now apply run_ders. Qed.
Print Assumptions C47_inverse.

(** If moreover no variable is given two derivatives, the two lookups are the
    association made and its inverse, nothing else. *)
Theorem C47_lookups : forall h v d,
  derivatives_once h -> variables_once h ->
  (dm_getDerivative (dm_run dm_new h) v = Some d <-> In (v, d) (associations h))
  /\ (dm_getDerivedVariable (dm_run dm_new h) d = Some v <-> In (v, d) (associations h)).
Proof.
  intros h v d N1 N2. split; split.
  - apply run_ders.
  - now apply run_ders_once.
  - apply run_inv.
  - now apply run_inv_once.
Qed.
Print Assumptions C47_lookups.
Example C47_history_case :
  derivatives_once dm_example /\ variables_once dm_example
  /\ dm_getDerivative (dm_run dm_new dm_example) 11 = Some 21
  /\ dm_getDerivedVariable (dm_run dm_new dm_example) 21 = Some 11
  /\ dm_getDerivedVariable (dm_run dm_new dm_example) 1 = None.
Proof.
  repeat split; unfold derivatives_once, variables_once; cbn;
    repeat (constructor; [cbn; intuition discriminate|]); constructor.
Qed.

(** A derivative given to two variables, and a variable given a second
    derivative, break the correspondence. *)
Theorem C47_shared_refuted : exists h v d,
  variables_once h /\ dm_getDerivative (dm_run dm_new h) v = Some d
  /\ dm_getDerivedVariable (dm_run dm_new h) d <> Some v.
Proof.
  exists [SetDerivative 1 11; SetDerivative 2 11], 1, 11. split.
  - unfold variables_once. cbn. repeat (constructor; [cbn; intuition discriminate|]). constructor.
  - split; [reflexivity|]. cbn. discriminate.
Qed.
Print Assumptions C47_shared_refuted.
Theorem C47_replaced_refuted : exists h v d,
  derivatives_once h /\ dm_getDerivedVariable (dm_run dm_new h) d = Some v
  /\ dm_getDerivative (dm_run dm_new h) v <> Some d.
Proof.
  exists [SetDerivative 1 11; SetDerivative 1 12], 1, 11. split.
  - unfold derivatives_once. cbn. repeat (constructor; [cbn; intuition discriminate|]). constructor.
  - split; [reflexivity|]. cbn. discriminate.
Qed.
Print Assumptions C47_replaced_refuted.

(** The derived indices of a variable are those given to it since the last
    replacement; without any, asking for the indices of a variable that has a
    derivative is undefined. *)
Theorem C60_indices : forall h v,
  (gives_indices h v ->
     exists s, dm_getDerivedIndices (dm_run dm_new h) v = Ok (Some s)
       /\ forall p, in_boxes p s <-> derives_index h v p)
  /\ (~ gives_indices h v ->
     dm_getDerivedIndices (dm_run dm_new h) v =
     match dm_getDerivative (dm_run dm_new h) v with Some _ => Bad | None => Ok None end).
Proof. exact derived_indices_ok. Qed.
Print Assumptions C60_indices.
Example C60_indices_case :
  dm_getDerivedIndices (dm_run dm_new dm_example) 1 = Ok (Some [[mkRange 0 3]; [mkRange 5 7]])
  /\ dm_getDerivedIndices (dm_run dm_new dm_example) 11 = Ok (Some [[mkRange 0 2]])
  /\ dm_getDerivedIndices (dm_run dm_new dm_example) 21 = Ok None
  /\ gives_indices dm_example 1 /\ ~ gives_indices dm_example 21.
Proof.
  repeat split. 
  - exists (dbox 0 3). right. left. reflexivity.
  - intros (s & [H|H]); cbn in H; intuition discriminate.
Qed.

(** The derived indices do not depend on the order in which concurrent threads
    add them. *)
Theorem C60_threads : forall (uses uses' : list (nat * bset)) v,
  Permutation uses uses' ->
  (forall s, dm_getDerivedIndices (dm_collect dm_new uses) v = Ok (Some s) ->
     exists s', dm_getDerivedIndices (dm_collect dm_new uses') v = Ok (Some s')
       /\ forall p, in_boxes p s <-> in_boxes p s')
  /\ (dm_getDerivedIndices (dm_collect dm_new uses) v = Ok None ->
      dm_getDerivedIndices (dm_collect dm_new uses') v = Ok None).
Proof.
  intros uses uses' v P.
  pose proof (collect_inds uses dm_new v) as H1. pose proof (collect_inds uses' dm_new v) as H2.
  unfold dm_getDerivedIndices, dm_getDerivative. rewrite !(proj1 (collect_same _ _)).
  cbn [dders dinds dm_new map_find] in *.
  assert (M : In v (map fst uses) <-> In v (map fst uses')).
  { split; apply Permutation_in; [|apply Permutation_sym]; now apply Permutation_map. }
  destruct (map_find v (dinds (dm_collect dm_new uses))) as [s|], (map_find v (dinds (dm_collect dm_new uses'))) as [s'|];
    split; intros; try discriminate; try congruence.
  - injection H as <-. exists s'. split; [reflexivity|]. intros p. rewrite (proj2 H1), (proj2 H2).
    split; (intros [(t & E & _)|(t & Ht & Hp)]; [discriminate|right; exists t; split; [|assumption]]).
    + now apply (Permutation_in _ P).
    + now apply (Permutation_in _ (Permutation_sym P)).
  - destruct H1 as ([H1|H1] & _); [now destruct H1|]. destruct H2 as (_ & H2). apply M in H1. contradiction.
  - destruct H2 as ([H2|H2] & _); [now destruct H2|]. destruct H1 as (_ & H1). apply M in H2. contradiction.
Qed.
Print Assumptions C60_threads.
Example C60_threads_case : Permutation [(1, dbox 0 3); (2, []); (1, dbox 5 7)] [(1, dbox 5 7); (1, dbox 0 3); (2, [])]
  /\ dm_getDerivedIndices (dm_collect dm_new [(1, dbox 5 7); (1, dbox 0 3); (2, [])]) 1
     = Ok (Some [[mkRange 5 7]; [mkRange 0 3]]).
Proof.
  split; [|reflexivity].
  apply (Permutation_cons_app [(1, dbox 5 7)] [(2, [])]). cbn. apply perm_swap.
Qed.

(** The attribute and bytecode forms of a map give back the map, whatever
    follows in the bytecode. *)
Theorem C59_attribute : forall h, let m := dm_run dm_new h in dm_setFromAttr dm_new (dm_asAttribute m) = m.
Proof. intros h m. apply attribute_ok. apply run_keys, new_keys. Qed.
Print Assumptions C59_attribute.
Theorem C59_bytecode : forall h w, let m := dm_run dm_new h in dm_read dm_new (dm_write m ++ w) = Some (m, w).
Proof. intros h w m. apply bytecode_ok. apply run_keys, new_keys. Qed.
Print Assumptions C59_bytecode.
Example C59_attribute_case :
  dm_asAttribute (dm_run dm_new dm_example)
  = {| aders := [(1, 11); (2, 12); (11, 21)];
       ainds := [(1, [[mkRange 0 3]; [mkRange 5 7]]); (2, []); (11, dbox 0 2)];
       ainv := [(11, 1); (12, 2); (21, 11)] |}.
Proof. reflexivity. Qed.
(** Setting a map that is not empty from an attribute keeps its old entries. *)
Theorem C59_attribute_refuted : exists h h',
  dm_eq (dm_setFromAttr (dm_run dm_new h) (dm_asAttribute (dm_run dm_new h'))) (dm_run dm_new h') = false.
Proof. exists [SetDerivative 1 11], []. reflexivity. Qed.
Print Assumptions C59_attribute_refuted.

(** Printing a map and parsing the text gives an equal map, in whatever order
    the entries are printed, when derivatives and variables are associated once
    and exactly the variables that have a derivative have derived indices. *)
Theorem C59_text_partial : forall h vs, let m := dm_run dm_new h in
  derivatives_once h -> variables_once h ->
  (forall v, In v (map fst (associations h)) <-> gives_indices h v) ->
  Permutation vs (dm_getDerivedVariables m) ->
  exists l m', dm_print m vs = Ok l /\ dm_parse dm_new l = Some m' /\ dm_eq m' m = true.
Proof.
  intros h vs m H1 H2 H3 P. destruct (text_round_trip m vs (text_history h H1 H2 H3) P) as (l & m' & A & B & _ & C).
  eauto.
Qed.
Print Assumptions C59_text_partial.
Example C59_text_case : (forall v, In v (map fst (associations dm_example)) <-> gives_indices dm_example v)
  /\ dm_getDerivedVariables (dm_run dm_new dm_example) = [1; 2; 11].
Proof.
  split; [|reflexivity]. intros v. cbn. split.
  - intros [<-|[<-|[<-|[]]]]; [exists (dbox 0 3); right|exists []; left|exists (dbox 0 2); left]; cbn; intuition.
  - intros (s & [H|H]); cbn in H; repeat (destruct H as [H|H]); try discriminate; try injection H as <- _; auto; destruct H.
Qed.
(** Otherwise the text loses the inverse association of a replaced derivative and
    the indices of a variable without derivative, and printing a variable without
    indices is undefined. *)
Theorem C59_text_refuted :
  (exists h l m', derivatives_once h /\ dm_print (dm_run dm_new h) (dm_getDerivedVariables (dm_run dm_new h)) = Ok l
     /\ dm_parse dm_new l = Some m' /\ dm_eq m' (dm_run dm_new h) = false)
  /\ (exists h l m', derivatives_once h /\ variables_once h
     /\ dm_print (dm_run dm_new h) (dm_getDerivedVariables (dm_run dm_new h)) = Ok l
     /\ dm_parse dm_new l = Some m' /\ dm_eq m' (dm_run dm_new h) = false)
  /\ (exists h, derivatives_once h /\ variables_once h
     /\ dm_print (dm_run dm_new h) (dm_getDerivedVariables (dm_run dm_new h)) = Bad).
Proof.
  split; [|split].
  - exists [SetIndices 1 []; SetDerivative 1 11; SetDerivative 1 12]. do 2 eexists.
    split; [|split; [reflexivity|split; reflexivity]].
    unfold derivatives_once. cbn. repeat (constructor; [cbn; intuition discriminate|]). constructor.
  - exists [SetIndices 1 (dbox 0 3)]. do 2 eexists.
    split; [constructor|split; [constructor|split; [reflexivity|split; reflexivity]]].
  - exists [SetDerivative 1 11]. split; [|split; [|reflexivity]];
      (unfold derivatives_once, variables_once; cbn; constructor; [intros []|constructor]).
Qed.
Print Assumptions C59_text_refuted.

(** Two maps are equal exactly when no lookup tells them apart. *)
Theorem C59_equality : forall h1 h2, let m1 := dm_run dm_new h1 in let m2 := dm_run dm_new h2 in
  (forall v, In v (map fst (associations h1)) -> gives_indices h1 v) ->
  (forall v, In v (map fst (associations h2)) -> gives_indices h2 v) ->
  (dm_eq m1 m2 = true <-> same_lookups m1 m2).
Proof.
  intros h1 h2 m1 m2 H1 H2.
  assert (G : forall h, (forall v, In v (map fst (associations h)) -> gives_indices h v) ->
    forall v d, dm_getDerivative (dm_run dm_new h) v = Some d -> map_find v (dinds (dm_run dm_new h)) <> None).
  { intros h H v d E N. pose proof (run_inds h v) as R. unfold inds_of in R. rewrite N in R.
    apply R, H, derivative_known. eauto. }
  apply equality_ok; try (apply run_keys, new_keys); now apply G.
Qed.
Print Assumptions C59_equality.
(** But equal maps may be hashed differently: the hash follows the order of the
    calls, the equality does not. *)
Theorem C59_hash_refuted : exists h1 h2,
  dm_eq (dm_run dm_new h1) (dm_run dm_new h2) = true
  /\ dm_hashed (dm_run dm_new h1) <> dm_hashed (dm_run dm_new h2).
Proof.
  exists [SetDerivative 1 11; SetDerivative 2 12], [SetDerivative 2 12; SetDerivative 1 11].
  split; [reflexivity|discriminate].
Qed.
Print Assumptions C59_hash_refuted.
Example C59_equality_case :
  let h1 := [AddIndices 1 (dbox 0 3); SetDerivative 1 11; AddIndices 1 (dbox 3 7)] in
  let h2 := [SetDerivative 1 11; SetIndices 1 (dbox 0 7)] in
  (forall v, In v (map fst (associations h1)) -> gives_indices h1 v)
  /\ (forall v, In v (map fst (associations h2)) -> gives_indices h2 v)
  /\ dm_eq (dm_run dm_new h1) (dm_run dm_new h2) = true.
Proof.
  cbv zeta. split; [|split].
  - intros v [<-|[]]. exists (dbox 0 3). right. now left.
  - intros v [<-|[]]. exists (dbox 0 7). left. right. now left.
  - vm_compute. reflexivity.
Qed.

(** Every map the passes build, whatever order the threads work in, is consistent:
    the derivative of a variable and the variable of a derivative are inverse, and
    each derived variable has derived indices. *)
Theorem C47_passes : forall unique m table,
  finds_unique unique -> reached unique m table -> consistent m.
Proof. exact reached_consistent. Qed.
Print Assumptions C47_passes.

(** Materializing derivatives keeps the associations there were, gives a new
    derivative variable to each differentiated variable without one, and adds
    exactly the differentiated indices. *)
Theorem C60_materialize : forall unique m table uses order m' table',
  finds_unique unique -> reached unique m table ->
  (forall v, In v order <-> In v (map fst uses)) -> (forall v, In v order -> In v table) ->
  dm_materialize unique m table uses order = (m', table') ->
  (forall v d, dm_getDerivative m v = Some d -> dm_getDerivative m' v = Some d)
  /\ (forall v, In v (map fst uses) -> exists d, dm_getDerivative m' v = Some d)
  /\ (forall v d, dm_getDerivative m' v = Some d -> dm_getDerivative m v = Some d \/
        In v (map fst uses) /\ dm_getDerivative m v = None /\ ~ In d table)
  /\ (forall v, In v (map fst uses) -> exists s, dm_getDerivedIndices m' v = Ok (Some s)
        /\ forall p, in_boxes p s <->
            (exists t, dm_getDerivedIndices m v = Ok (Some t) /\ in_boxes p t)
            \/ exists t, In (v, t) uses /\ in_boxes p t).
Proof.
  intros unique m table uses order m' table' U R Ho Ht E. destruct (reached_inv unique m table U R) as (P & HI).
  destruct (materialize_ok unique U _ _ _ _ _ _ P HI Ho Ht E) as (H1 & H2 & H3 & H4 & H5 & H6 & H7).
  split; [assumption|]. split; [intros v Hv; now apply H4, Ho|]. split.
  - intros v d Hv. destruct (H5 v d Hv) as [?|(? & ? & ?)]; [now left|right]. repeat split; auto. now apply Ho.
  - intros v Hv. destruct (H7 v Hv) as (s & Es & Hs). exists s. split; [now apply indices_get|].
    intros p. rewrite Hs. split; (intros [(t & Et & Hp)|H]; [left; exists t; split; [|assumption]|now right]).
    + now apply indices_get.
    + unfold dm_getDerivedIndices in Et. destruct (map_find v (dinds m)); [|destruct (dm_getDerivative m v); discriminate].
      destruct (dm_getDerivative m v); congruence.
Qed.
Print Assumptions C60_materialize.

(** Following derivatives or derived variables always ends, and the two walks
    see each other's variables. *)
Theorem C60_walks : forall unique m table v w,
  finds_unique unique -> reached unique m table ->
  (exists fuel l1, walkDerivedVariables m fuel v = Some l1 /\ chain (dm_getDerivedVariable m) v l1
    /\ exists l2, walkDerivativeVariables m fuel w = Some l2 /\ chain (dm_getDerivative m) w l2
      /\ (In w l1 <-> In v l2)).
Proof.
  intros unique m table v w U R. destruct (reached_inv unique m table U R) as (P & HI).
  destruct (walks_end m table v P) as ((l1 & E1) & _). destruct (walks_end m table w P) as (_ & (l2 & E2)).
  exists (length table), l1. split; [assumption|]. split; [eapply walk_chain; eassumption|].
  exists l2. split; [assumption|]. split; [eapply walk_chain; eassumption|].
  eapply walks_mirror; [|eassumption|eassumption]. eapply reached_consistent; eassumption.
Qed.
Print Assumptions C60_walks.
(** On other maps the walk may not end. *)
Theorem C60_walks_refuted : exists h v,
  derivatives_once h /\ variables_once h
  /\ forall fuel, walkDerivativeVariables (dm_run dm_new h) fuel v = None.
Proof.
  exists [SetDerivative 1 2; SetDerivative 2 1], 1.
  split; [|split]; try (unfold derivatives_once, variables_once; cbn;
    repeat (constructor; [cbn; intuition discriminate|]); constructor).
  assert (H : forall fuel, walkDerivativeVariables (dm_run dm_new [SetDerivative 1 2; SetDerivative 2 1]) fuel 1 = None
                        /\ walkDerivativeVariables (dm_run dm_new [SetDerivative 1 2; SetDerivative 2 1]) fuel 2 = None).
  { induction fuel as [|f (H1 & H2)]; [split; reflexivity|]. unfold walkDerivativeVariables in *.
    split; cbn [dm_walk]; cbn [dm_getDerivative map_find] in *; unfold dm_getDerivative in *; cbn in *.
    - now rewrite H2.
    - now rewrite H1. }
  intros fuel. apply H.
Qed.
Print Assumptions C60_walks_refuted.

(** A model with the variables 1 to 3: 1 and 2 are differentiated, then 2 and the
    derivative of 1 by the index reduction. *)
Definition max_unique (table : list nat) (_ : nat) : nat := S (fold_right Nat.max 0 table).
Lemma max_unique_ok : finds_unique max_unique.
Proof.
  intros table v. unfold max_unique. intros H.
  assert (L : forall x, In x table -> x <= fold_right Nat.max 0 table).
  { clear. induction table as [|y t IH]; cbn; [tauto|]. intros x [<-|H]; [lia|]. specialize (IH x H). lia. }
  apply L in H. lia.
Qed.
Example C47_passes_case : exists m table,
  reached max_unique m table /\ dders m = [(2, 4); (1, 5); (5, 6)] /\ table = [6; 5; 4; 1; 2; 3]
  /\ dm_getDerivedIndices m 1 = Ok (Some [[mkRange 0 3]; [mkRange 5 7]])
  /\ dm_getDerivedIndices m 2 = Ok (Some []) /\ dm_getDerivedIndices m 5 = Ok (Some (dbox 0 2))
  /\ walkDerivedVariables m 6 6 = Some [5; 1].
Proof.
  pose proof (reached_new max_unique [1; 2; 3]) as R0.
  assert (N : NoDup [1; 2; 3]) by (repeat (constructor; [cbn; intuition discriminate|]); constructor).
  specialize (R0 N).
  apply (reached_materialize max_unique) with (uses := [(1, dbox 0 3); (2, []); (1, dbox 5 7)]) (order := [2; 1]) in R0;
    [|intros v; cbn; tauto|intros v; cbn; tauto].
  apply (reached_differentiate max_unique) with (v := 2) (rank := 0) (s := []) in R0; [|vm_compute; tauto].
  apply (reached_differentiate max_unique) with (v := 5) (rank := 1) (s := dbox 0 2) in R0; [|vm_compute; tauto].
  do 2 eexists. split; [exact R0|]. vm_compute. repeat split.
Qed.
