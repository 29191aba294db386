(** Proofs about the derivatives map. *)
From Coq Require Import ZArith List Bool Arith Lia Permutation.
From Verif Require Import RangeModel MDRangeModel Spec BoxSetModel BoxSetProofs Result ListTac
  WritesMapModel WritesMapProofs DerMapModel DerMapSpec.
Import ListNotations.
Local Open Scope nat_scope.

Local Arguments map_set {A} k a m : simpl never.

Lemma find_set : forall A (k k' : nat) (a : A) m,
  map_find k' (map_set k a m) = if k' =? k then Some a else map_find k' m.
Proof. intros. unfold map_set. rewrite find_update. reflexivity. Qed.
Lemma set_nodup : forall A (k : nat) (a : A) m, NoDup (map fst m) -> NoDup (map fst (map_set k a m)).
Proof. intros. unfold map_set. now apply (proj2 (update_keys A k a (fun _ => a) m)). Qed.

(** ** Histories. *)
Definition keys_ok (m : dmap) : Prop :=
  NoDup (map fst (dders m)) /\ NoDup (map fst (dinds m)) /\ NoDup (map fst (dinv m)).
Lemma new_keys : keys_ok dm_new.
Proof. repeat split; constructor. Qed.
Lemma step_keys : forall m o, keys_ok m -> keys_ok (dm_step m o).
Proof.
  intros m o (H1 & H2 & H3). destruct o; cbn; (split; [|split]); cbn; auto using set_nodup.
  now apply update_keys.
Qed.
Lemma run_keys : forall h m, keys_ok m -> keys_ok (dm_run m h).
Proof. induction h as [|o h IH]; cbn; intros m H; [assumption|]. now apply IH, step_keys. Qed.

Lemma run_app : forall m h o, dm_run m (h ++ [o]) = dm_step (dm_run m h) o.
Proof. intros. unfold dm_run. now rewrite fold_left_app. Qed.
Lemma associations_app : forall h h', associations (h ++ h') = associations h ++ associations h'.
Proof. intros. unfold associations. apply flat_map_app. Qed.

(** The last association made. *)
Lemma run_ders : forall h v d, dm_getDerivative (dm_run dm_new h) v = Some d -> In (v, d) (associations h).
Proof.
  induction h as [|o h IH] using rev_ind; intros v d H; [discriminate|].
  rewrite run_app in H. rewrite associations_app. apply in_or_app.
  destruct o as [v' d'|v' s|v' s]; cbn in H |- *; try (left; now apply IH).
  unfold dm_getDerivative in H. cbn in H. rewrite find_set in H. destruct (Nat.eqb_spec v v').
  - injection H as <-. subst. right. left. reflexivity.
  - left. apply IH. exact H.
Qed.
Lemma run_inv : forall h v d, dm_getDerivedVariable (dm_run dm_new h) d = Some v -> In (v, d) (associations h).
Proof.
  induction h as [|o h IH] using rev_ind; intros v d H; [discriminate|].
  rewrite run_app in H. rewrite associations_app. apply in_or_app.
  destruct o as [v' d'|v' s|v' s]; cbn in H |- *; try (left; now apply IH).
  unfold dm_getDerivedVariable in H. cbn in H. rewrite find_set in H. destruct (Nat.eqb_spec d d').
  - injection H as <-. subst. right. left. reflexivity.
  - left. apply IH. exact H.
Qed.
Lemma run_inv_once : forall h v d, derivatives_once h -> In (v, d) (associations h) ->
  dm_getDerivedVariable (dm_run dm_new h) d = Some v.
Proof.
  unfold derivatives_once.
  induction h as [|o h IH] using rev_ind; intros v d N H; [destruct H|].
  rewrite run_app. rewrite associations_app, map_app in N. rewrite associations_app in H.
  apply in_app_or in H.
  destruct o as [v' d'|v' s|v' s]; cbn in *;
    try (destruct H as [H|[]]; rewrite app_nil_r in N; exact (IH v d N H)).
  unfold dm_getDerivedVariable. cbn. rewrite (find_set _). destruct H as [H|[[= -> ->]|[]]].
  - destruct (Nat.eqb_spec d d').
    + subst. exfalso. apply (NoDup_app_disj _ _ _ d' N); [|left; reflexivity].
      apply in_map_iff. exists (v, d'). auto.
    + apply IH; [now apply NoDup_app_l in N|assumption].
  - now rewrite Nat.eqb_refl.
Qed.
Lemma run_ders_once : forall h v d, variables_once h -> In (v, d) (associations h) ->
  dm_getDerivative (dm_run dm_new h) v = Some d.
Proof.
  unfold variables_once.
  induction h as [|o h IH] using rev_ind; intros v d N H; [destruct H|].
  rewrite run_app. rewrite associations_app, map_app in N. rewrite associations_app in H.
  apply in_app_or in H.
  destruct o as [v' d'|v' s|v' s]; cbn in *;
    try (destruct H as [H|[]]; rewrite app_nil_r in N; exact (IH v d N H)).
  unfold dm_getDerivative. cbn. rewrite (find_set _). destruct H as [H|[[= -> ->]|[]]].
  - destruct (Nat.eqb_spec v v').
    + subst. exfalso. apply (NoDup_app_disj _ _ _ v' N); [|left; reflexivity].
      apply in_map_iff. exists (v', d). auto.
    + apply IH; [now apply NoDup_app_l in N|assumption].
  - now rewrite Nat.eqb_refl.
Qed.
Lemma derivative_known : forall h v,
  (exists d, dm_getDerivative (dm_run dm_new h) v = Some d) <-> In v (map fst (associations h)).
Proof.
  induction h as [|o h IH] using rev_ind; intros v.
  - split; [intros (d & H); discriminate|intros []].
  - rewrite run_app, associations_app, map_app, in_app_iff, <- IH.
    destruct o as [v' d'|v' s|v' s]; cbn; try (intuition; fail).
    unfold dm_getDerivative. cbn. rewrite (find_set _). destruct (Nat.eqb_spec v v').
    + subst. split; [intros _; right; left; reflexivity|]. intros _. eauto.
    + split; [intros H; left; exact H|]. intros [H|[H|[]]]; [exact H|congruence].
Qed.

(** ** Derived indices. *)
Definition inds_of (m : dmap) (v : nat) : option bset := map_find v (dinds m).
Lemma run_inds : forall h v,
  match inds_of (dm_run dm_new h) v with
  | Some s => gives_indices h v /\ forall p, in_boxes p s <-> derives_index h v p
  | None => ~ gives_indices h v
  end.
Proof.
  induction h as [|o h IH] using rev_ind; intros v.
  - cbn. intros (s & [[]|[]]).
  - rewrite run_app. specialize (IH v). unfold inds_of in *.
    assert (Old : forall p, (forall s', o <> SetIndices v s') -> derives_index h v p -> derives_index (h ++ [o]) v p).
    { intros p Ho (h1 & x & h2 & s & E & Hx & Hp & Hn). exists h1, x, (h2 ++ [o]), s.
      subst h. rewrite <- app_assoc. cbn. repeat split; auto. intros s' H. apply in_app_or in H as [H|[H|[]]];
        [now apply (Hn s')|now apply (Ho s')]. }
    assert (Inv : forall p, derives_index (h ++ [o]) v p ->
              (derives_index h v p /\ (forall s', o <> SetIndices v s'))
              \/ exists s, (o = SetIndices v s \/ o = AddIndices v s) /\ in_boxes p s).
    { intros p (h1 & x & h2 & s & E & Hx & Hp & Hn). destruct h2 as [|y h2 _] using rev_ind.
      - apply app_inj_tail in E as (-> & ->). right. exists s. split; assumption.
      - rewrite app_comm_cons, app_assoc in E. apply app_inj_tail in E as (-> & ->). left. split.
        + exists h1, x, h2, s. repeat split; auto. intros s' H. apply (Hn s'). apply in_or_app. now left.
        + intros s' ->. apply (Hn s'). apply in_or_app. right. left. reflexivity. }
    assert (Last : forall p s, (o = SetIndices v s \/ o = AddIndices v s) -> in_boxes p s -> derives_index (h ++ [o]) v p).
    { intros p s Ho Hp. exists h, o, [], s. repeat split; auto. }
    assert (G : gives_indices h v -> gives_indices (h ++ [o]) v).
    { intros (s & [H|H]); exists s; [left|right]; apply in_or_app; now left. }
    assert (GI : gives_indices (h ++ [o]) v -> gives_indices h v \/ exists s, o = SetIndices v s \/ o = AddIndices v s).
    { intros (s & [H|H]); apply in_app_or in H as [H|[H|[]]]; try (left; exists s; auto; fail); right; exists s; auto. }
    destruct o as [v' d'|v' s|v' s]; cbn -[in_boxes].
    + destruct (map_find v (dinds (dm_run dm_new h))) as [t|].
      * destruct IH as (IH1 & IH2). split; [auto|]. intros p. rewrite IH2. split.
        -- intros H. apply Old; [discriminate|assumption].
        -- intros H. apply Inv in H as [(H & _)|(t' & [H|H] & _)]; [assumption|discriminate|discriminate].
      * intros H. apply GI in H as [H|(t' & [H|H])]; [auto|discriminate|discriminate].
    + rewrite (find_set _). destruct (Nat.eqb_spec v v').
      * subst v'. split; [exists s; left; apply in_or_app; right; left; reflexivity|]. intros p. split.
        -- intros H. eapply Last; [left; reflexivity|assumption].
        -- intros H. apply Inv in H as [(_ & H)|(t' & [H|H] & Hp)]; [now destruct (H s)|now injection H as <-|discriminate].
      * destruct (map_find v (dinds (dm_run dm_new h))) as [t|].
        -- destruct IH as (IH1 & IH2). split; [auto|]. intros p. rewrite IH2. split.
           ++ intros H. apply Old; [intros s' [= E _]; congruence|assumption].
           ++ intros H. apply Inv in H as [(H & _)|(t' & [H|H] & _)]; [assumption|injection H as E _; congruence|discriminate].
        -- intros H. apply GI in H as [H|(t' & [H|H])]; [auto|injection H as E _; congruence|discriminate].
    + rewrite (find_update bset). destruct (Nat.eqb_spec v v').
      * subst v'. split; [exists s; right; apply in_or_app; right; left; reflexivity|]. intros p.
        rewrite bs_union_spec. split.
        -- intros [H|H].
           ++ apply Old; [discriminate|]. destruct (map_find v (dinds (dm_run dm_new h))) as [t|].
              ** now apply (proj2 IH).
              ** destruct H as (b & [] & _).
           ++ eapply Last; [right; reflexivity|assumption].
        -- intros H. apply Inv in H as [(H & _)|(t' & [H|H] & Hp)]; [|discriminate|injection H as <-; now right].
           left. destruct (map_find v (dinds (dm_run dm_new h))) as [t|].
           ++ now apply (proj2 IH).
           ++ exfalso. apply IH. destruct H as (h1 & x & h2 & t & E & Hx & _). exists t.
              destruct Hx as [-> | ->]; [left|right]; subst h; apply in_or_app; right; left; reflexivity.
      * destruct (map_find v (dinds (dm_run dm_new h))) as [t|].
        -- destruct IH as (IH1 & IH2). split; [auto|]. intros p. rewrite IH2. split.
           ++ intros H. apply Old; [discriminate|assumption].
           ++ intros H. apply Inv in H as [(H & _)|(t' & [H|H] & _)]; [assumption|discriminate|injection H as E _; congruence].
        -- intros H. apply GI in H as [H|(t' & [H|H])]; [auto|discriminate|injection H as E _; congruence].
Qed.

Lemma derived_indices_ok : forall h v,
  (gives_indices h v ->
     exists s, dm_getDerivedIndices (dm_run dm_new h) v = Ok (Some s)
       /\ forall p, in_boxes p s <-> derives_index h v p)
  /\ (~ gives_indices h v ->
     dm_getDerivedIndices (dm_run dm_new h) v =
     match dm_getDerivative (dm_run dm_new h) v with Some _ => Bad | None => Ok None end).
Proof.
  intros h v. pose proof (run_inds h v) as H. unfold inds_of in H. unfold dm_getDerivedIndices.
  destruct (map_find v (dinds (dm_run dm_new h))) as [s|].
  - destruct H as (H1 & H2). split; [|intros H; contradiction]. intros _. exists s. split; [|assumption].
    destruct (dm_getDerivative (dm_run dm_new h) v); reflexivity.
  - split; [intros G; contradiction|]. intros _. destruct (dm_getDerivative (dm_run dm_new h) v); reflexivity.
Qed.

(** ** Serialization. *)
Lemma set_last : forall A (k : nat) (a : A) m, ~ In k (map fst m) -> map_set k a m = m ++ [(k, a)].
Proof.
  induction m as [|[x b] m IH]; cbn; intros H; [reflexivity|]. unfold map_set in *. cbn.
  destruct (Nat.eqb_spec k x); [subst; tauto|]. f_equal. apply IH. tauto.
Qed.
Lemma set_all_app : forall A (l m : list (nat * A)), NoDup (map fst (m ++ l)) -> set_all l m = m ++ l.
Proof.
  induction l as [|[k a] l IH]; intros m N; cbn [set_all fold_left].
  - now rewrite app_nil_r.
  - change (set_all l (map_set k a m) = m ++ (k, a) :: l). cbn [fst snd].
    assert (E : m ++ (k, a) :: l = (m ++ [(k, a)]) ++ l) by now rewrite <- app_assoc.
    rewrite set_last.
    + rewrite E in N. rewrite IH by assumption. now rewrite E.
    + intros H. rewrite map_app in N. apply (NoDup_app_disj _ _ _ k N); [assumption|left; reflexivity].
Qed.
Lemma set_all_self : forall A (l : list (nat * A)), NoDup (map fst l) -> set_all l [] = l.
Proof. intros. now rewrite set_all_app. Qed.
Lemma map_pair_id : forall A B (l : list (A * B)), map (fun e => (fst e, snd e)) l = l.
Proof. induction l as [|[a b] l IH]; cbn; [reflexivity|now rewrite IH]. Qed.

Lemma attribute_ok : forall m, keys_ok m -> dm_setFromAttr dm_new (dm_asAttribute m) = m.
Proof.
  intros [a b c] (H1 & H2 & H3). unfold dm_setFromAttr, dm_asAttribute.
  cbn [dders dinds dinv aders ainds ainv dm_new] in *.
  rewrite !map_pair_id, !set_all_self by assumption. reflexivity.
Qed.

Lemma read_refs_ok : forall l m w,
  read_refs (length l) (flat_map (fun e => [WRef (fst e); WRef (snd e)]) l ++ w) m = Some (set_all l m, w).
Proof. induction l as [|[a b] l IH]; intros m w; cbn; [reflexivity|]. apply IH. Qed.
Lemma read_sets_ok : forall l m w,
  read_sets (length l) (flat_map (fun e => [WRef (fst e); WSet (snd e)]) l ++ w) m = Some (set_all l m, w).
Proof. induction l as [|[a b] l IH]; intros m w; cbn; [reflexivity|]. apply IH. Qed.
Lemma bytecode_ok : forall m w, keys_ok m -> dm_read dm_new (dm_write m ++ w) = Some (m, w).
Proof.
  intros [a b c] w (H1 & H2 & H3). unfold dm_read, dm_write. cbn [dders dinds dinv dm_new] in *.
  cbn [app]. rewrite <- app_assoc. rewrite read_refs_ok. cbn [app]. rewrite <- app_assoc, read_sets_ok.
  cbn [app]. rewrite read_refs_ok. rewrite !set_all_self by assumption. reflexivity.
Qed.

(** ** Equality. *)
Lemma find_none : forall A (k : nat) (m : list (nat * A)), map_find k m = None <-> ~ In k (map fst m).
Proof.
  intros A k m. rewrite <- find_key. unfold has_key. destruct (map_find k m); split; congruence.
Qed.
Lemma incl_same_length : forall (l l' : list nat), NoDup l -> incl l l' -> length l = length l' -> incl l' l.
Proof. intros l l' N I L. apply NoDup_length_incl; [assumption|lia|assumption]. Qed.

Lemma maps_equal_ok : forall A (eq : A -> A -> bool) (R : A -> A -> Prop) m1 m2,
  (forall a b, eq b a = true <-> R a b) ->
  NoDup (map fst m1) -> NoDup (map fst m2) ->
  (maps_equal eq m1 m2 = true <->
   forall k, match map_find k m1, map_find k m2 with
             | Some a, Some b => R a b
             | None, None => True
             | _, _ => False
             end).
Proof.
  intros A eq R m1 m2 HR N1 N2. unfold maps_equal. rewrite andb_true_iff, Nat.eqb_eq, forallb_forall. split.
  - intros (L & F) k.
    assert (I : incl (map fst m1) (map fst m2)).
    { intros x Hx. apply in_map_iff in Hx as (e & <- & He). specialize (F e He).
      destruct (map_find (fst e) m2) eqn:E; [|discriminate]. apply find_in in E; [|assumption].
      apply in_map_iff. exists (fst e, a). auto. }
    destruct (map_find k m1) as [a|] eqn:E1.
    + apply find_in in E1; [|assumption]. specialize (F _ E1). cbn in F.
      destruct (map_find k m2); [now apply HR|discriminate].
    + apply find_none in E1. destruct (map_find k m2) as [b|] eqn:E2; [|exact Logic.I]. apply E1.
      apply (incl_same_length _ (map fst m2) N1 I); [now rewrite !map_length|].
      apply find_in in E2; [|assumption]. apply in_map_iff. exists (k, b). auto.
  - intros H. split.
    + assert (I : forall x, In x (map fst m1) <-> In x (map fst m2)).
      { intros x. specialize (H x). rewrite <- !find_key. unfold has_key.
        destruct (map_find x m1), (map_find x m2); tauto || (split; congruence). }
      rewrite <- (map_length fst m1), <- (map_length fst m2).
      apply Permutation_length. apply NoDup_Permutation; assumption.
    + intros [k a] He. cbn. specialize (H k). apply find_in in He; [|assumption]. rewrite He in H.
      destruct (map_find k m2); [now apply HR|contradiction].
Qed.

Definition same_find {A} (R : A -> A -> Prop) (m1 m2 : list (nat * A)) : Prop :=
  forall k, match map_find k m1, map_find k m2 with
            | Some a, Some b => R a b
            | None, None => True
            | _, _ => False
            end.
Definition same_points (s s' : bset) : Prop := forall p, in_boxes p s <-> in_boxes p s'.

Lemma dm_eq_find : forall m1 m2, keys_ok m1 -> keys_ok m2 ->
  (dm_eq m1 m2 = true <-> same_find Logic.eq (dders m1) (dders m2)
    /\ same_find same_points (dinds m1) (dinds m2) /\ same_find Logic.eq (dinv m1) (dinv m2)).
Proof.
  intros m1 m2 (A1 & A2 & A3) (B1 & B2 & B3). unfold dm_eq. rewrite !andb_true_iff.
  rewrite (maps_equal_ok _ Nat.eqb Logic.eq) by (auto; intros; rewrite Nat.eqb_eq; intuition).
  rewrite (maps_equal_ok _ Nat.eqb Logic.eq (dinv m1)) by (auto; intros; rewrite Nat.eqb_eq; intuition).
  rewrite (maps_equal_ok _ bs_eq same_points).
  - unfold same_find. tauto.
  - intros a b. rewrite bs_eq_spec. unfold same_points. split; intros H p; specialize (H p); tauto.
  - assumption.
  - assumption.
Qed.

Lemma find_eq : forall A (m1 m2 : list (nat * A)), same_find Logic.eq m1 m2 <-> forall k, map_find k m1 = map_find k m2.
Proof.
  intros A m1 m2. unfold same_find. split; intros H k; specialize (H k).
  - destruct (map_find k m1), (map_find k m2); congruence || contradiction.
  - rewrite H. destruct (map_find k m2); auto.
Qed.

Lemma equality_ok : forall m1 m2, keys_ok m1 -> keys_ok m2 ->
  (forall v d, dm_getDerivative m1 v = Some d -> map_find v (dinds m1) <> None) ->
  (forall v d, dm_getDerivative m2 v = Some d -> map_find v (dinds m2) <> None) ->
  (dm_eq m1 m2 = true <-> same_lookups m1 m2).
Proof.
  intros m1 m2 K1 K2 D1 D2. rewrite dm_eq_find by assumption. rewrite !find_eq. unfold same_lookups.
  unfold dm_getDerivative, dm_getDerivedVariable.
  assert (G : forall m v, (forall v d, dm_getDerivative m v = Some d -> map_find v (dinds m) <> None) ->
            dm_getDerivedIndices m v = Ok (map_find v (dinds m))).
  { intros m v H. unfold dm_getDerivedIndices. destruct (map_find v (dinds m)) eqn:E.
    - destruct (dm_getDerivative m v); reflexivity.
    - destruct (dm_getDerivative m v) eqn:E2; [|reflexivity]. now destruct (H v n E2). }
  split.
  - intros (H1 & H2 & H3). repeat split; auto; intros s Hs; rewrite G in * by assumption; injection Hs as Hs;
      specialize (H2 v); rewrite Hs in H2.
    + destruct (map_find v (dinds m2)) as [s'|]; [|contradiction]. exists s'. auto.
    + destruct (map_find v (dinds m1)) as [s'|]; [|contradiction]. exists s'. split; [auto|].
      intros p. symmetry. apply H2.
  - intros (H1 & H2 & H3). repeat split; auto. intros v. specialize (H3 v) as (H3 & H4).
    rewrite !G in * by assumption.
    destruct (map_find v (dinds m1)) as [s|] eqn:E1.
    + destruct (H3 s eq_refl) as (s' & E & Hp). injection E as ->. exact Hp.
    + destruct (map_find v (dinds m2)) as [s|]; [|exact I]. destruct (H4 s eq_refl) as (s' & E & _). discriminate.
Qed.

(** ** The textual form. *)
Definition text_ok (m : dmap) : Prop :=
  keys_ok m
  /\ (forall v d, map_find v (dders m) = Some d <-> map_find d (dinv m) = Some v)
  /\ (forall v, In v (map fst (dders m)) <-> In v (map fst (dinds m))).

Lemma text_loop : forall m, text_ok m -> forall vs done m0,
  keys_ok m0 -> NoDup (done ++ vs) -> (forall v, In v (done ++ vs) -> In v (map fst (dders m))) ->
  (forall v, map_find v (dders m0) = if in_dec Nat.eq_dec v done then map_find v (dders m) else None) ->
  (forall v, match map_find v (dinds m0), (if in_dec Nat.eq_dec v done then map_find v (dinds m) else None) with
             | Some a, Some b => same_points a b | None, None => True | _, _ => False end) ->
  (forall d, map_find d (dinv m0) =
     match map_find d (dinv m) with
     | Some v => if in_dec Nat.eq_dec v done then Some v else None
     | None => None
     end) ->
  exists l m', dm_print m vs = Ok l /\ dm_parse m0 l = Some m' /\ keys_ok m'
    /\ (forall v, map_find v (dders m') = if in_dec Nat.eq_dec v (done ++ vs) then map_find v (dders m) else None)
    /\ (forall v, match map_find v (dinds m'), (if in_dec Nat.eq_dec v (done ++ vs) then map_find v (dinds m) else None) with
             | Some a, Some b => same_points a b | None, None => True | _, _ => False end)
    /\ (forall d, map_find d (dinv m') =
         match map_find d (dinv m) with
         | Some v => if in_dec Nat.eq_dec v (done ++ vs) then Some v else None
         | None => None
         end).
Proof.
  intros m (K & HI & HD). induction vs as [|v vs IH]; intros done m0 K0 N Sub F1 F2 F3.
  - exists [], m0. rewrite app_nil_r. repeat (split; [reflexivity|]). auto.
  - assert (Hv : In v (map fst (dders m))) by (apply Sub; apply in_or_app; right; left; reflexivity).
    assert (Hi : In v (map fst (dinds m))) by now apply HD.
    destruct (map_find v (dders m)) as [d|] eqn:Ed; [|now apply find_none in Ed].
    destruct (map_find v (dinds m)) as [s|] eqn:Es; [|now apply find_none in Es].
    assert (E : done ++ v :: vs = (done ++ [v]) ++ vs) by now rewrite <- app_assoc.
    assert (Nv : ~ In v done).
    { intros H. apply (NoDup_app_disj _ _ _ v N H). left. reflexivity. }
    set (s1 := if bs_empty s then [] else s).
    assert (Hs1 : same_points s1 s) by (unfold s1; destruct s; cbn; intros p; tauto).
    set (m1 := dm_setDerivedIndices (dm_setDerivative m0 v d) v s1).
    destruct (IH (done ++ [v]) m1) as (l & m' & P1 & P2 & P3 & P4 & P5 & P6).
    + apply (step_keys _ (SetIndices v s1)). now apply (step_keys _ (SetDerivative v d)).
    + now rewrite <- E.
    + intros x Hx. apply Sub. now rewrite E.
    + intros x. unfold m1. cbn. rewrite find_set, F1. destruct (Nat.eqb_spec x v).
      * subst. destruct (in_dec Nat.eq_dec v (done ++ [v])) as [_|Hn]; [now rewrite Ed|].
        exfalso. apply Hn, in_or_app. right. left. reflexivity.
      * destruct (in_dec Nat.eq_dec x done), (in_dec Nat.eq_dec x (done ++ [v])) as [Hi'|Hi']; auto.
        -- exfalso. apply Hi', in_or_app. now left.
        -- apply in_app_or in Hi' as [Hi'|[Hi'|[]]]; [contradiction|congruence].
    + intros x. unfold m1. cbn. rewrite (find_set _). destruct (Nat.eqb_spec x v).
      * subst. destruct (in_dec Nat.eq_dec v (done ++ [v])) as [_|Hn]; [rewrite Es; exact Hs1|].
        exfalso. apply Hn, in_or_app. right. left. reflexivity.
      * specialize (F2 x). destruct (in_dec Nat.eq_dec x done), (in_dec Nat.eq_dec x (done ++ [v])) as [Hi'|Hi']; auto.
        -- exfalso. apply Hi', in_or_app. now left.
        -- apply in_app_or in Hi' as [Hi'|[Hi'|[]]]; [contradiction|congruence].
    + intros x. unfold m1. cbn. rewrite find_set, F3. destruct (Nat.eqb_spec x d).
      * subst. apply HI in Ed. rewrite Ed.
        destruct (in_dec Nat.eq_dec v (done ++ [v])) as [_|Hn]; [reflexivity|].
        exfalso. apply Hn, in_or_app. right. left. reflexivity.
      * destruct (map_find x (dinv m)) as [y|] eqn:Ey; [|reflexivity].
        assert (y <> v). { intros ->. apply HI in Ey. congruence. }
        destruct (in_dec Nat.eq_dec y done), (in_dec Nat.eq_dec y (done ++ [v])) as [Hi'|Hi']; auto.
        -- exfalso. apply Hi', in_or_app. now left.
        -- apply in_app_or in Hi' as [Hi'|[Hi'|[]]]; [contradiction|congruence].
    + exists ((v, Some d, if bs_empty s then None else Some s) :: l), m'. split.
      * cbn [dm_print]. unfold dm_print_entry, dm_getDerivedIndices, dm_getDerivative. rewrite Es, Ed.
        now rewrite P1.
      * split; [|rewrite E; auto]. cbn [dm_parse dm_parse_entry].
        replace (match (if bs_empty s then None else Some s) with Some s0 => s0 | None => [] end) with s1
          by (unfold s1; destruct (bs_empty s); reflexivity). exact P2.
Qed.

Lemma text_round_trip : forall m vs, text_ok m -> Permutation vs (dm_getDerivedVariables m) ->
  exists l m', dm_print m vs = Ok l /\ dm_parse dm_new l = Some m' /\ keys_ok m' /\ dm_eq m' m = true.
Proof.
  intros m vs T P. unfold dm_getDerivedVariables in P.
  assert (T' := T). destruct T' as (K & HI & HD).
  destruct (text_loop m T vs [] dm_new) as (l & m' & P1 & P2 & P3 & P4 & P5 & P6).
  - apply new_keys.
  - cbn. apply (Permutation_NoDup (Permutation_sym P)). apply K.
  - cbn. intros v Hv. now apply (Permutation_in v P).
  - intros v. reflexivity.
  - intros v. exact I.
  - intros d. cbn. destruct (map_find d (dinv m)); reflexivity.
  - exists l, m'. repeat (split; [assumption|]). apply dm_eq_find; [assumption|assumption|].
    cbn [app] in *. assert (D : forall v, In v vs <-> In v (map fst (dders m))).
    { intros v. split; apply Permutation_in; [assumption|now apply Permutation_sym]. }
    split; [|split].
    + apply find_eq. intros v. rewrite P4. destruct (in_dec Nat.eq_dec v vs) as [|n]; [reflexivity|].
      symmetry. apply find_none. now rewrite <- D.
    + intros v. specialize (P5 v). destruct (in_dec Nat.eq_dec v vs) as [|n]; [exact P5|].
      destruct (map_find v (dinds m')); [contradiction|].
      destruct (map_find v (dinds m)) eqn:E; [|exact I]. apply n, D, HD. apply find_in in E; [|apply K].
      apply in_map_iff. exists (v, b). auto.
    + apply find_eq. intros d. rewrite P6. destruct (map_find d (dinv m)) as [v|] eqn:E; [|reflexivity].
      destruct (in_dec Nat.eq_dec v vs) as [|n]; [reflexivity|]. exfalso. apply n, D. apply HI in E.
      apply find_in in E; [|apply K]. apply in_map_iff. exists (v, d). auto.
Qed.

Lemma text_history : forall h, derivatives_once h -> variables_once h ->
  (forall v, In v (map fst (associations h)) <-> gives_indices h v) -> text_ok (dm_run dm_new h).
Proof.
  intros h H1 H2 H3. split; [apply run_keys, new_keys|]. split.
  - intros v d. split; intros H.
    + apply run_inv_once; [assumption|]. now apply run_ders.
    + apply run_ders_once; [assumption|]. now apply run_inv.
  - intros v. rewrite <- !find_key. unfold has_key. rewrite <- derivative_known in H3 || idtac.
    assert (Hd := derivative_known h v). assert (Hi := run_inds h v).
    unfold inds_of, dm_getDerivative in *. specialize (H3 v).
    destruct (map_find v (dders (dm_run dm_new h))) as [d|], (map_find v (dinds (dm_run dm_new h))) as [s|];
      split; try congruence; intros _; exfalso.
    + apply Hi, H3, Hd. eauto.
    + destruct Hi as (Hi & _). apply H3, Hd in Hi as (d & E). discriminate.
Qed.

(** ** The passes. *)
Definition older (table : list nat) (v d : nat) : Prop := exists l1 l2, table = l1 ++ d :: l2 /\ In v l2.
Lemma older_cons : forall x table v d, older table v d -> older (x :: table) v d.
Proof. intros x table v d (l1 & l2 & -> & H). exists (x :: l1), l2. auto. Qed.

Record pass_inv (m : dmap) (table : list nat) : Prop := {
  pi_keys : keys_ok m;
  pi_table : NoDup table;
  pi_inverse : forall v d, map_find v (dders m) = Some d <-> map_find d (dinv m) = Some v;
  pi_older : forall v d, map_find v (dders m) = Some d -> older table v d
}.
Definition has_indices (m : dmap) : Prop := forall v d, map_find v (dders m) = Some d -> map_find v (dinds m) <> None.

Lemma older_in : forall table v d, older table v d -> In v table /\ In d table.
Proof.
  intros table v d (l1 & l2 & -> & H). split; apply in_or_app; right; [now right|now left].
Qed.

Lemma set_inv : forall m table v d, pass_inv m table -> In v table -> ~ In d table ->
  map_find v (dders m) = None -> pass_inv (dm_setDerivative m v d) (d :: table).
Proof.
  intros m table v d [K N I O] Hv Hd Hn. constructor.
  - now apply (step_keys m (SetDerivative v d)).
  - now constructor.
  - intros x y. cbn. rewrite !find_set. destruct (Nat.eqb_spec x v), (Nat.eqb_spec y d); subst.
    + tauto.
    + split; [congruence|]. intros H. apply I in H. congruence.
    + split; [|congruence]. intros H. exfalso. apply Hd. apply O in H. now apply older_in in H.
    + apply I.
  - intros x y. cbn. rewrite (find_set _). destruct (Nat.eqb_spec x v); subst.
    + intros [= ->]. exists [], table. auto.
    + intros H. apply older_cons. now apply O.
Qed.
Lemma inds_inv : forall m m' table, pass_inv m table -> keys_ok m' -> dders m' = dders m -> dinv m' = dinv m ->
  pass_inv m' table.
Proof.
  intros m m' table [K N I O] K' E1 E2. constructor; auto; rewrite ?E1, ?E2; auto.
Qed.

Lemma collect_same : forall uses m, dders (dm_collect m uses) = dders m /\ dinv (dm_collect m uses) = dinv m.
Proof. unfold dm_collect. induction uses as [|u uses IH]; intros m; [auto|].
  destruct (IH (dm_addDerivedIndices m (fst u) (snd u))) as (H1 & H2). cbn in H1, H2 |- *. now rewrite <- H1, <- H2.
Qed.
Lemma collect_keys : forall uses m, keys_ok m -> keys_ok (dm_collect m uses).
Proof. intros. now apply run_keys. Qed.
Lemma collect_inds : forall uses m v,
  match map_find v (dinds (dm_collect m uses)) with
  | Some s => (map_find v (dinds m) <> None \/ In v (map fst uses)) /\ forall p, in_boxes p s <->
      (exists t, map_find v (dinds m) = Some t /\ in_boxes p t) \/ exists t, In (v, t) uses /\ in_boxes p t
  | None => map_find v (dinds m) = None /\ ~ In v (map fst uses)
  end.
Proof.
  unfold dm_collect. induction uses as [|[w t] uses IH]; intros m v.
  - cbn. destruct (map_find v (dinds m)) as [s|] eqn:E; [|tauto]. split; [left; congruence|].
    intros p. split.
    + intros H. left. exists s. auto.
    + intros [(t & [= ->] & H)|(t & [] & _)]. exact H.
  - cbn [map fst snd dm_run fold_left dm_step].
    specialize (IH (dm_addDerivedIndices m w t) v).
    change (fold_left dm_step (map (fun u => AddIndices (fst u) (snd u)) uses) (dm_addDerivedIndices m w t))
      with (dm_run (dm_addDerivedIndices m w t) (map (fun u => AddIndices (fst u) (snd u)) uses)).
    destruct (map_find v (dinds (dm_run (dm_addDerivedIndices m w t) _))) as [s|].
    + destruct IH as (IH1 & IH2). cbn [dm_addDerivedIndices dinds] in *. rewrite (find_update bset) in *. split.
      * destruct (Nat.eqb_spec v w); [subst; right; left; reflexivity|]. destruct IH1; [now left|right; now right].
      * intros p. rewrite IH2. destruct (Nat.eqb_spec v w).
        -- subst w. split.
           ++ intros [(x & [= <-] & H)|(x & H & Hp)].
              ** apply bs_union_spec in H as [H|H].
                 --- destruct (map_find v (dinds m)) as [y|] eqn:Ey; [left; exists y; auto|]. destruct H as (b & [] & _).
                 --- right. exists t. split; [left; reflexivity|assumption].
              ** right. exists x. split; [now right|assumption].
           ++ intros [(x & E & H)|(x & [[= ->]|H] & Hp)].
              ** left. eexists. split; [reflexivity|]. rewrite E. apply bs_union_spec. now left.
              ** left. eexists. split; [reflexivity|]. apply bs_union_spec. now right.
              ** right. exists x. auto.
        -- split; (intros [H|(x & H & Hp)]; [left; exact H|right; exists x]); cbn in *; intuition congruence.
    + destruct IH as (IH1 & IH2). cbn [dm_addDerivedIndices dinds] in *. rewrite (find_update bset) in *.
      destruct (Nat.eqb_spec v w); [discriminate|]. split; [assumption|]. intros [H|H]; [congruence|contradiction].
Qed.

Lemma create_ok : forall unique, finds_unique unique -> forall vs m table m' table',
  pass_inv m table -> (forall v, In v vs -> In v table) -> dm_create unique m table vs = (m', table') ->
  pass_inv m' table' /\ dinds m' = dinds m
  /\ (forall v d, map_find v (dders m) = Some d -> map_find v (dders m') = Some d)
  /\ (forall v, In v vs -> exists d, map_find v (dders m') = Some d)
  /\ (forall v d, map_find v (dders m') = Some d ->
        map_find v (dders m) = Some d \/ In v vs /\ map_find v (dders m) = None /\ ~ In d table)
  /\ incl table table'.
Proof.
  intros unique U. induction vs as [|v vs IH]; intros m table m' table' P Sub E; cbn [dm_create] in E.
  - injection E as <- <-. split; [assumption|split; [reflexivity|split; [auto|split; [intros v []|split; [auto|apply incl_refl]]]]].
  - unfold dm_getDerivative in E. destruct (map_find v (dders m)) as [d|] eqn:Ed.
    + destruct (IH _ _ _ _ P (fun x Hx => Sub x (or_intror Hx)) E) as (H1 & H2 & H3 & H4 & H5 & H6).
      repeat (split; [assumption|]). split; [|split; [|assumption]].
      * intros x [<-|Hx]; [exists d; now apply H3|now apply H4].
      * intros x y Hx. destruct (H5 x y Hx) as [?|(? & ? & ?)]; [now left|right; repeat split; auto; now right].
    + set (d := unique table v) in *. assert (Hd : ~ In d table) by apply U.
      assert (P' : pass_inv (dm_setDerivative m v d) (d :: table)).
      { apply set_inv; auto. apply Sub. now left. }
      destruct (IH _ _ _ _ P' (fun x Hx => or_intror (Sub x (or_intror Hx))) E) as (H1 & H2 & H3 & H4 & H5 & H6).
      cbn [dm_setDerivative dders dinds] in *. split; [assumption|]. split; [assumption|].
      split; [|split; [|split]].
      * intros x y Hx. apply H3. rewrite (find_set _). destruct (Nat.eqb_spec x v); [congruence|assumption].
      * intros x [<-|Hx]; [exists d; apply H3; rewrite find_set, Nat.eqb_refl; reflexivity|now apply H4].
      * intros x y Hx. destruct (H5 x y Hx) as [Hy|(Hx1 & Hx2 & Hx3)].
        -- rewrite find_set in Hy. destruct (Nat.eqb_spec x v); [|now left].
           injection Hy as <-. subst x. right. split; [now left|]. auto.
        -- rewrite find_set in Hx2. destruct (Nat.eqb_spec x v); [discriminate|]. right. split; [now right|].
           split; [assumption|]. intros H. apply Hx3. now right.
      * intros x Hx. apply H6. now right.
Qed.

Lemma materialize_ok : forall unique, finds_unique unique -> forall m table uses order m' table',
  pass_inv m table -> has_indices m ->
  (forall v, In v order <-> In v (map fst uses)) -> (forall v, In v order -> In v table) ->
  dm_materialize unique m table uses order = (m', table') ->
  pass_inv m' table' /\ has_indices m'
  /\ (forall v d, map_find v (dders m) = Some d -> map_find v (dders m') = Some d)
  /\ (forall v, In v order -> exists d, map_find v (dders m') = Some d)
  /\ (forall v d, map_find v (dders m') = Some d ->
        map_find v (dders m) = Some d \/ In v order /\ map_find v (dders m) = None /\ ~ In d table)
  /\ incl table table'
  /\ (forall v, In v (map fst uses) -> exists s, map_find v (dinds m') = Some s /\ forall p, in_boxes p s <->
      (exists t, map_find v (dinds m) = Some t /\ in_boxes p t) \/ exists t, In (v, t) uses /\ in_boxes p t).
Proof.
  intros unique U m table uses order m' table' P HI Ho Ht E. unfold dm_materialize in E.
  destruct (collect_same uses m) as (C1 & C2).
  assert (P0 : pass_inv (dm_collect m uses) table).
  { apply (inds_inv m); auto. apply collect_keys, P. }
  destruct (create_ok unique U order _ _ _ _ P0 Ht E) as (H1 & H2 & H3 & H4 & H5 & H6).
  rewrite C1 in *. split; [assumption|]. split; [|split; [assumption|split; [assumption|split; [assumption|split; [assumption|]]]]].
  - intros v d Hv. rewrite H2. pose proof (collect_inds uses m v) as Hc.
    destruct (map_find v (dinds (dm_collect m uses))) as [s|]; [discriminate|]. destruct Hc as (Hc1 & Hc2).
    destruct (H5 v d Hv) as [Hx|(Hx & _)]; [now apply HI in Hx|]. apply Ho in Hx. contradiction.
  - intros v Hv. rewrite H2. pose proof (collect_inds uses m v) as Hc.
    destruct (map_find v (dinds (dm_collect m uses))) as [s|]; [|tauto]. exists s. split; [reflexivity|]. apply Hc.
Qed.

Lemma differentiate_ok : forall unique, finds_unique unique -> forall m table v rank s m' table',
  pass_inv m table -> has_indices m -> In v table ->
  dm_differentiate unique m table v rank s = (m', table') ->
  pass_inv m' table' /\ has_indices m' /\ incl table table'.
Proof.
  intros unique U m table v rank s m' table' P HI Hv E. unfold dm_differentiate in E.
  unfold dm_getDerivative in E. destruct (map_find v (dders m)) as [d|] eqn:Ed.
  - injection E as <- <-. destruct (rank =? 0); [split; [assumption|split; [assumption|apply incl_refl]]|].
    split; [|split; [|apply incl_refl]].
    + apply (inds_inv m); auto. now apply (step_keys m (AddIndices v s)), P.
    + intros x y Hx. cbn in *. rewrite find_update. destruct (Nat.eqb_spec x v); [discriminate|]. now apply (HI x y).
  - injection E as <- <-. set (d := unique table v). assert (Hd : ~ In d table) by apply U.
    assert (P' : pass_inv (dm_setDerivative m v d) (d :: table)) by now apply set_inv.
    split; [|split].
    + apply (inds_inv (dm_setDerivative m v d)); auto.
      now apply (step_keys (dm_setDerivative m v d) (SetIndices v _)), P'.
    + intros x y Hx. cbn in *. rewrite find_set in *. destruct (Nat.eqb_spec x v); [discriminate|].
      rewrite ?find_set in Hx. now apply (HI x y).
    + intros x Hx. now right.
Qed.

Lemma reached_inv : forall unique m table, finds_unique unique -> reached unique m table ->
  pass_inv m table /\ has_indices m.
Proof.
  intros unique m table U R. induction R.
  - split; [|intros v d E; discriminate]. constructor; auto using new_keys.
    + intros v d. cbn. split; discriminate.
    + intros v d E. discriminate.
  - destruct IHR as (P & HI). destruct (dm_materialize unique m table uses order) as [m' table'] eqn:E. cbn.
    destruct (materialize_ok unique U _ _ _ _ _ _ P HI H H0 E) as (H1 & H2 & _). auto.
  - destruct IHR as (P & HI). destruct (dm_differentiate unique m table v rank s) as [m' table'] eqn:E. cbn.
    destruct (differentiate_ok unique U _ _ _ _ _ _ _ P HI H E) as (H1 & H2 & _). auto.
Qed.

Lemma indices_get : forall m v s, map_find v (dinds m) = Some s -> dm_getDerivedIndices m v = Ok (Some s).
Proof. intros m v s H. unfold dm_getDerivedIndices. rewrite H. destruct (dm_getDerivative m v); reflexivity. Qed.
Lemma inv_consistent : forall m table, pass_inv m table -> has_indices m -> consistent m.
Proof.
  intros m table P H. constructor.
  - apply P.
  - intros v d Hv. destruct (map_find v (dinds m)) as [s|] eqn:E.
    + exists s. now apply indices_get.
    + now destruct (H v d Hv).
Qed.
Lemma reached_consistent : forall unique m table, finds_unique unique -> reached unique m table -> consistent m.
Proof. intros. destruct (reached_inv unique m table H H0). eapply inv_consistent; eassumption. Qed.

(** ** Walks. *)
Lemma walk_chain : forall next fuel v l, dm_walk next fuel v = Some l -> chain next v l.
Proof.
  intros next. induction fuel as [|f IH]; intros v l H; cbn in H; destruct (next v) as [w|] eqn:E.
  - discriminate.
  - injection H as <-. now constructor.
  - destruct (dm_walk next f w) as [l'|] eqn:El; [|discriminate]. injection H as <-. econstructor; eauto.
  - injection H as <-. now constructor.
Qed.
Lemma walk_more : forall next fuel v (rank : nat -> nat),
  (forall x y, next x = Some y -> rank y < rank x) -> rank v <= fuel -> exists l, dm_walk next fuel v = Some l.
Proof.
  intros next. induction fuel as [|f IH]; intros v rank Hr Hv; cbn; destruct (next v) as [w|] eqn:E; eauto.
  - apply Hr in E. lia.
  - apply Hr in E as Hw. destruct (IH w rank Hr) as (l & El); [lia|]. rewrite El. eauto.
Qed.

(** The position of a name, counted from the oldest. *)
Fixpoint age (table : list nat) (v : nat) : nat :=
  match table with
  | [] => 0
  | x :: t => if v =? x then S (length t) else age t v
  end.
Lemma age_le : forall table v, age table v <= length table.
Proof. induction table as [|x t IH]; intros v; cbn; [lia|]. destruct (v =? x); [lia|]. specialize (IH v). lia. Qed.
Lemma older_age : forall table v d, NoDup table -> older table v d -> age table v < age table d.
Proof.
  intros table v d N (l1 & l2 & -> & Hv). induction l1 as [|x l1 IH]; cbn in *.
  - rewrite Nat.eqb_refl. inversion N; subst. destruct (Nat.eqb_spec v d); [congruence|].
    pose proof (age_le l2 v). lia.
  - inversion N; subst. destruct (Nat.eqb_spec v x), (Nat.eqb_spec d x); subst.
    + exfalso. apply H1, in_or_app. right. left. reflexivity.
    + exfalso. apply H1, in_or_app. right. now right.
    + exfalso. apply H1, in_or_app. right. left. reflexivity.
    + now apply IH.
Qed.

Lemma walks_end : forall m table v, pass_inv m table ->
  (exists l, walkDerivedVariables m (length table) v = Some l)
  /\ (exists l, walkDerivativeVariables m (length table) v = Some l).
Proof.
  intros m table v P. split.
  - apply walk_more with (rank := age table).
    + intros x y H. apply (pi_inverse _ _ P) in H. apply older_age; [apply P|]. now apply (pi_older _ _ P).
    + apply age_le.
  - apply walk_more with (rank := fun x => length table - age table x).
    + intros x y H. apply (pi_older _ _ P) in H. apply older_age in H; [|apply P].
      pose proof (age_le table x). pose proof (age_le table y). lia.
    + lia.
Qed.

Inductive steps (next : nat -> option nat) : nat -> nat -> Prop :=
| steps_one : forall v w, next v = Some w -> steps next v w
| steps_more : forall v w x, next v = Some w -> steps next w x -> steps next v x.
Lemma steps_last : forall next v w x, steps next v w -> next w = Some x -> steps next v x.
Proof. induction 1; intros; [eapply steps_more; [eassumption|now apply steps_one]|eapply steps_more; eauto]. Qed.
Lemma chain_steps : forall next v l, chain next v l -> forall x, In x l <-> steps next v x.
Proof.
  intros next v l H. induction H as [v E|v w l E Hc IH]; intros x.
  - split; [intros []|]. intros S. inversion S; congruence.
  - cbn. rewrite IH. split.
    + intros [<-|S]; [now apply steps_one|eapply steps_more; eauto].
    + intros S. inversion S as [a b E'|a b c E' S']; subst; rewrite E in E'; injection E' as <-; auto.
Qed.
Lemma steps_mirror : forall f g, (forall v w, f v = Some w -> g w = Some v) -> forall v w, steps f v w -> steps g w v.
Proof. intros f g H v w S. induction S; [now apply steps_one, H|]. eapply steps_last; [eassumption|now apply H]. Qed.
Lemma walks_mirror : forall m f1 f2 v w l1 l2, consistent m ->
  walkDerivedVariables m f1 v = Some l1 -> walkDerivativeVariables m f2 w = Some l2 -> (In w l1 <-> In v l2).
Proof.
  intros m f1 f2 v w l1 l2 C H1 H2. apply walk_chain in H1, H2.
  rewrite (chain_steps _ _ _ H1), (chain_steps _ _ _ H2).
  split; apply steps_mirror; intros x y H; now apply (con_inverse _ C).
Qed.
