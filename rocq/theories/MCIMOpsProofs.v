(** Filtering, flattening, sums, differences, changes of space and equality of
    incidence matrices. *)
From Coq Require Import ZArith List Bool Lia ZifyBool.
From Verif Require Import RangeModel MDRangeModel Result BoxSetModel AccessModel Spec AccessSpec
  RangeProofs MDRangeProofs BoxListProofs BoxSetProofs AccessProofs AccessImageProofs
  AccessInverseProofs AccessPreimageProofs AccessInverseExactProofs AccessCombineProofs ListTac
  MCIMModel MCIMSpec MCIMProofs MCIMSetProofs.
Import ListNotations.
Open Scope Z_scope.

(** *** Points of a matrix. *)
Lemma Forall_firstn : forall A (P : A -> Prop) n l, Forall P l -> Forall P (firstn n l).
Proof. intros A P n l F. rewrite <- (firstn_skipn n l) in F. now apply Forall_app in F. Qed.
Lemma Forall_skipn : forall A (P : A -> Prop) n l, Forall P l -> Forall P (skipn n l).
Proof. intros A P n l F. rewrite <- (firstn_skipn n l) in F. now apply Forall_app in F. Qed.
Lemma in_box_app : forall (p q : point) (a b : mdrange), length p = length a ->
  (in_box (p ++ q) (a ++ b) <-> in_box p a /\ in_box q b).
Proof.
  induction p as [|x p IH]; intros q [|r a] b L; cbn in L; try discriminate.
  - cbn. split; [intros H; split; [constructor|assumption]|tauto].
  - cbn. split.
    + intros H. inversion H; subst. apply IH in H5 as (H1 & H2); [|lia]. split; [constructor|]; assumption.
    + intros (H1 & H2). inversion H1; subst. constructor; [assumption|]. apply IH; [lia|auto].
Qed.

Lemma takeFirst_set : forall n k s, (1 <= n)%nat -> bs_of (n + k) s ->
  bs_of n (bs_takeFirst s n) /\
  forall e, length e = n -> (in_boxes e (bs_takeFirst s n) <-> exists v, length v = k /\ in_boxes (e ++ v) s).
Proof.
  intros n k s Hn S. unfold bs_of in S. rewrite Forall_forall in S. split.
  - apply Forall_forall. intros b Hb. apply in_map_iff in Hb as (c & <- & Hc). destruct (S c Hc) as ((_ & R) & L).
    unfold mdrange_takeFirst. split; [|rewrite firstn_length; lia]. split.
    + destruct c; [cbn in L; lia|]. destruct n; [lia|]. discriminate.
    + now apply Forall_firstn.
  - intros e Le. split.
    + intros (b & Hb & He). apply in_map_iff in Hb as (c & <- & Hc). unfold mdrange_takeFirst in He.
      destruct (S c Hc) as ((_ & R) & L).
      exists (map rbegin (skipn n c)). split; [rewrite map_length, skipn_length; lia|].
      exists c. split; [assumption|]. rewrite <- (firstn_skipn n c) at 2. apply in_box_app.
      { rewrite firstn_length. lia. }
      split; [assumption|]. assert (R' : Forall range_ok (skipn n c)) by now apply Forall_skipn.
      clear - R'. induction R' as [|r c' Hr R' IH]; cbn; constructor; auto. unfold range_ok, in_range in *. lia.
    + intros (v & Lv & c & Hc & He). exists (firstn n c). split; [apply in_map_iff; exists c; auto|].
      destruct (S c Hc) as (_ & L). rewrite <- (firstn_skipn n c) in He. apply in_box_app in He; [tauto|]. rewrite firstn_length. lia.
Qed.

Lemma takeLast_eq : forall (n k : nat) (c : mdrange), length c = (n + k)%nat -> mdrange_takeLast c k = skipn n c.
Proof. intros n k c L. unfold mdrange_takeLast. rewrite L. f_equal. lia. Qed.

Lemma takeLast_set : forall n k s, (1 <= k)%nat -> bs_of (n + k) s ->
  bs_of k (bs_takeLast s k) /\
  forall v, (in_boxes v (bs_takeLast s k) <-> exists e, length e = n /\ in_boxes (e ++ v) s).
Proof.
  intros n k s Hk S. unfold bs_of in S. rewrite Forall_forall in S. split.
  - apply Forall_forall. intros b Hb. apply in_map_iff in Hb as (c & <- & Hc). destruct (S c Hc) as ((_ & R) & L).
    rewrite (takeLast_eq n k c L). split; [|rewrite skipn_length; lia]. split.
    + intros N. apply (f_equal (@length range)) in N. rewrite skipn_length in N. cbn in N. lia.
    + now apply Forall_skipn.
  - intros v. split.
    + intros (b & Hb & He). apply in_map_iff in Hb as (c & <- & Hc). destruct (S c Hc) as ((_ & R) & L). rewrite (takeLast_eq n k c L) in He.
      exists (map rbegin (firstn n c)). split; [rewrite map_length, firstn_length; lia|].
      exists c. split; [assumption|]. rewrite <- (firstn_skipn n c) at 2. apply in_box_app.
      { rewrite map_length. reflexivity. }
      split; [|assumption]. assert (R' : Forall range_ok (firstn n c)) by now apply Forall_firstn.
      clear - R'. induction R' as [|r c' Hr R' IH]; cbn; constructor; auto. unfold range_ok, in_range in *. lia.
    + intros (e & Le & c & Hc & He). destruct (S c Hc) as (_ & L). exists (mdrange_takeLast c k). split; [apply in_map_iff; exists c; auto|].
      rewrite (takeLast_eq n k c L). rewrite <- (firstn_skipn n c) in He. apply in_box_app in He; [tauto|]. rewrite firstn_length. lia.
Qed.

Lemma bs_append_of : forall n k s o, bs_of n s -> bs_of k o -> bs_of (n + k) (bs_append s o).
Proof.
  intros n k s o S O. unfold bs_of in *. rewrite Forall_forall in *. intros b Hb. unfold bs_append in Hb.
  apply in_flat_map in Hb as (c & Hc & Hb). apply in_map_iff in Hb as (d & <- & Hd).
  destruct (S c Hc) as ((Nc & Rc) & Lc). destruct (O d Hd) as ((Nd & Rd) & Ld). unfold mdrange_append.
  split; [|rewrite app_length; lia]. split; [destruct c; [congruence|discriminate]|]. now apply Forall_app.
Qed.

Lemma bs_append_app : forall n s o e v, bs_of n s -> length e = n ->
  (in_boxes (e ++ v) (bs_append s o) <-> in_boxes e s /\ in_boxes v o).
Proof.
  intros n s o e v S L. rewrite (bs_append_spec n s o S). split.
  - intros (p & q & E & Hp & Hq). apply app_inj_len in E as (-> & ->); [auto|]. rewrite (bs_of_length n s p S Hp). assumption.
  - intros (He & Hv). eauto.
Qed.

Lemma bs_prepend_append : forall s o, forall q, in_boxes q (bs_prepend s o) <-> in_boxes q (bs_append o s).
Proof.
  intros s o q. unfold bs_prepend, bs_append. split.
  - intros (b & Hb & Hq). apply in_flat_map in Hb as (c & Hc & Hb). apply in_map_iff in Hb as (d & <- & Hd).
    exists (mdrange_append d c). split; [|exact Hq]. apply in_flat_map. exists d. split; [assumption|]. apply in_map_iff. eauto.
  - intros (b & Hb & Hq). apply in_flat_map in Hb as (c & Hc & Hb). apply in_map_iff in Hb as (d & <- & Hd).
    exists (mdrange_prepend d c). split; [|exact Hq]. apply in_flat_map. exists d. split; [assumption|]. apply in_map_iff. eauto.
Qed.
Lemma bs_prepend_of : forall n k s o, bs_of k s -> bs_of n o -> bs_of (n + k) (bs_prepend s o).
Proof.
  intros n k s o S O. unfold bs_of in *. rewrite Forall_forall in *. intros b Hb. unfold bs_prepend in Hb.
  apply in_flat_map in Hb as (c & Hc & Hb). apply in_map_iff in Hb as (d & <- & Hd).
  destruct (S c Hc) as ((Nc & Rc) & Lc). destruct (O d Hd) as ((Nd & Rd) & Ld). unfold mdrange_prepend.
  split; [|rewrite app_length; lia]. split; [destruct d; [congruence|discriminate]|]. now apply Forall_app.
Qed.

Lemma bs_rank_of : forall n s, bs_of n s -> s <> [] -> bs_rank s = n.
Proof. intros n [|b s] S N; [congruence|]. inversion S; subst. cbn. apply H1. Qed.

Section M.
Variable m : mlir.
Variable Mok : mlir_ok m.

(** *** The loops that add groups to a matrix. *)
Definition fits (A : mcim) (g : group) : Prop :=
  one_use (gfun g) /\ forall e v, holds g e v -> cell A e v.

Lemma addGroup_spec : forall n k A g, (1 <= n)%nat -> group_ok n k g -> fits A g ->
  mc_addGroup A g = Ok (mc_withGroups A (mgroups A ++ [g])).
Proof.
  intros n k A g Hn OK (O & C). unfold mc_addGroup.
  rewrite (proj2 (bs_contains_spec (meqs A) (gkeys g))).
  2:{ intros e He. destruct (holds_total n k g e OK He) as (v & _ & Hv). apply (C e v Hv). }
  cbn [assert_ok bind]. destruct (values_spec n k g OK Hn) as (t & -> & _ & _ & _ & V). cbn [bind].
  rewrite (proj2 (bs_contains_spec (mvars A) t)); [reflexivity|].
  intros v Hv. destruct (V O v Hv) as (e & He). apply (C e v He).
Qed.

Lemma fold_add : forall n k (F : group -> res group) gs A, (1 <= n)%nat ->
  (forall g, In g gs -> exists g', F g = Ok g' /\ group_ok n k g' /\ fits A g') ->
  exists R, fold_res (fun A g => g' <- F g ;; if bs_empty (gkeys g') then Ok A else mc_addGroup A g') gs A = Ok R /\
    meqs R = meqs A /\ mvars R = mvars A /\ mpoints R = mpoints A /\
    (forall g', In g' (mgroups R) -> In g' (mgroups A) \/ (gkeys g' <> [] /\ exists g, In g gs /\ F g = Ok g')) /\
    (forall e v, any_holds (mgroups R) e v <-> any_holds (mgroups A) e v \/ exists g g', In g gs /\ F g = Ok g' /\ holds g' e v).
Proof.
  intros n k F gs A Hn. revert A. induction gs as [|g gs IH]; intros A H; cbn [fold_res].
  - exists A. split; [reflexivity|]. repeat (split; [reflexivity|]). split; [auto|]. intros e v. split; [auto|].
    intros [H'|(g & g' & [] & _)]. assumption.
  - destruct (H g (or_introl eq_refl)) as (g' & E & OK & Ft). rewrite E. cbn [bind].
    destruct (bs_empty (gkeys g')) eqn:Em.
    + cbn [bind]. destruct (IH A) as (R & E1 & E2 & E3 & E4 & S1 & S2); [intros; apply H; now right|]. exists R.
      split; [assumption|]. repeat (split; [assumption|]). split.
      * intros x Hx. destruct (S1 x Hx) as [D|(D1 & g0 & D2 & D3)]; [now left|]. right. split; [assumption|]. exists g0. split; [now right|assumption].
      * intros e v. rewrite S2. split.
        -- intros [D|(g0 & g1 & D1 & D2)]; [now left|]. right. exists g0, g1. split; [now right|assumption].
        -- intros [D|(g0 & g1 & [<-|D1] & D2 & D3)]; [now left| |].
           ++ rewrite E in D2. injection D2 as <-. destruct D3 as ((b & Hb & _) & _). destruct (gkeys g'); [contradiction|discriminate].
           ++ right. eauto.
    + rewrite (addGroup_spec n k A g' Hn OK Ft). cbn [bind].
      destruct (IH (mc_withGroups A (mgroups A ++ [g']))) as (R & E1 & E2 & E3 & E4 & S1 & S2).
      { intros x Hx. destruct (H x (or_intror Hx)) as (x' & Ex & OKx & Fx). exists x'. auto. }
      exists R. split; [assumption|]. cbn in *. repeat (split; [assumption|]). split.
      * intros x Hx. destruct (S1 x Hx) as [D|(D1 & g0 & D2 & D3)].
        -- apply in_app_iff in D as [D|[<-|[]]]; [now left|]. right. split; [intros N; rewrite N in Em; discriminate|]. exists g. auto.
        -- right. split; [assumption|]. exists g0. auto.
      * intros e v. rewrite S2. split.
        -- intros [(x & D & Hx)|(g0 & g1 & D1 & D2)].
           ++ apply in_app_iff in D as [D|[<-|[]]]; [left; exists x; auto|]. right. exists g, g'. auto.
           ++ right. exists g0, g1. auto.
        -- intros [(x & D & Hx)|(g0 & g1 & [<-|D1] & D2 & D3)].
           ++ left. exists x. split; [apply in_or_app; now left|assumption].
           ++ rewrite E in D2. injection D2 as <-. left. exists g'. split; [apply in_or_app; right; now left|assumption].
           ++ right. eauto.
Qed.

Lemma mx_rebuild : forall n k M R, mx n k M -> meqs R = meqs M -> mvars R = mvars M ->
  (forall g, In g (mgroups R) -> group_ok n k g /\ gkeys g <> [] /\ forall e v, holds g e v -> cell M e v) ->
  bs_of (n + k) (mpoints R) ->
  (forall e v, length e = n -> in_boxes (e ++ v) (mpoints R) -> cell M e v) -> mx n k R.
Proof.
  intros n k M R X E V G P C. assert (CE : forall a b, cell R a b <-> cell M a b) by (intros; unfold cell; now rewrite E, V).
  destruct X as [x1 x2 x3 x4 x5 x6 x7 x8 x9]. constructor; rewrite ?E, ?V; auto.
  - intros g Hg. apply (G g Hg).
  - intros g Hg. apply (G g Hg).
  - intros g e v Hg Hh. apply CE. now apply (G g Hg).
  - intros e v L H. apply CE. auto.
Qed.

(** *** filterRows *)
Lemma filterRows_spec : forall n k M s, mx n k M -> bs_of n s -> (forall g, In g (mgroups M) -> one_use (gfun g)) ->
  exists R, mc_filterRows M s = Ok R /\ mx n k R /\ meqs R = meqs M /\ mvars R = mvars M /\
    (forall g, In g (mgroups R) -> exists g0, In g0 (mgroups M) /\ gfun g = gfun g0) /\
    forall e v, length e = n -> (stored R e v <-> stored M e v /\ in_boxes e s).
Proof.
  intros n k M s X S O. pose proof (x_n _ _ _ X) as Hn. pose proof (x_k _ _ _ X) as Hk. unfold mc_filterRows.
  assert (FK : forall g, In g (mgroups M) -> group_ok n k (g_filterKeys g s) /\ forall e v, holds (g_filterKeys g s) e v <-> holds g e v /\ in_boxes e s).
  { intros g Hg. destruct (x_ok _ _ _ X g Hg) as (G & C & K). destruct (bs_intersect_spec n (gkeys g) s K S) as (Bi & Si). split.
    - apply buildGeneric_ok; assumption.
    - intros e v. unfold holds, g_filterKeys, g_addKeys, g_withKeys, g_buildGeneric. cbn [gkeys gfun]. rewrite bs_union_spec, Si. split.
      + intros ([H|H] & H2); [destruct H as (b & [] & _)|tauto].
      + tauto. }
  destruct (fold_add n k (fun g => Ok (g_filterKeys g s)) (mgroups M) (mc_new (meqs M) (mvars M)) Hn) as (R & E & E1 & E2 & E3 & S1 & S2).
  { intros g Hg. exists (g_filterKeys g s). destruct (FK g Hg) as (F1 & F2). split; [reflexivity|]. split; [assumption|].
    split; [exact (O g Hg)|]. intros e v Hh. apply F2 in Hh as (Hh & _). exact (x_in _ _ _ X g e v Hg Hh). }
  cbn [bind] in E. cbn [mc_new meqs mvars mpoints mgroups] in E1, E2, E3, S1, S2. rewrite E. cbn [bind].
  rewrite (bs_rank_of n (meqs M)) by apply (x_eqs _ _ _ X).
  destruct (takeFirst_set n k (mpoints M) Hn (x_points _ _ _ X)) as (Bf & Sf).
  destruct (bs_intersect_spec n _ s Bf S) as (Bi & Si). set (fl := bs_intersect (bs_takeFirst (mpoints M) n) s) in *.
  destruct (bs_intersect_spec (n + k) (mpoints M) (bs_append fl (mvars M)) (x_points _ _ _ X)) as (Bp & Sp).
  { apply bs_append_of; [assumption|apply (x_vars _ _ _ X)]. }
  set (R' := if bs_empty fl then R else mc_withPoints R (bs_intersect (mpoints M) (bs_append fl (mvars M)))).
  assert (PR : bs_of (n + k) (mpoints R') /\ forall e v, length e = n -> (in_boxes (e ++ v) (mpoints R') <-> in_boxes (e ++ v) (mpoints M) /\ in_boxes e s)).
  { assert (Y : forall e v, length e = n -> in_boxes (e ++ v) (mpoints M) -> in_boxes e s -> in_boxes e fl).
    { intros e v L H1 H2. apply Si. split; [|assumption]. apply Sf; [assumption|]. exists v. split; [|assumption].
      pose proof (bs_of_length _ _ _ (x_points _ _ _ X) H1) as LL. rewrite app_length in LL. lia. }
    unfold R'. destruct (bs_empty fl) eqn:Ef.
    - rewrite E3. split; [constructor|]. intros e v L. split; [intros (b & [] & _)|]. intros (H1 & H2).
      destruct (Y e v L H1 H2) as (b & Hb & _). destruct fl; [contradiction|discriminate].
    - cbn. split; [assumption|]. intros e v L. rewrite Sp, (bs_append_app n fl (mvars M) e v Bi L). split.
      + intros (H1 & H2 & _). split; [assumption|]. now apply Si in H2.
      + intros (H1 & H2). split; [assumption|]. split; [eauto|]. apply (x_pin _ _ _ X e v L H1). }
  assert (ER : meqs R' = meqs M /\ mvars R' = mvars M /\ mgroups R' = mgroups R) by (unfold R'; destruct (bs_empty fl); auto).
  destruct ER as (ER1 & ER2 & ER3). exists R'. split; [reflexivity|].
  assert (GH : forall g', In g' (mgroups R') -> exists g, In g (mgroups M) /\ g' = g_filterKeys g s /\ gkeys g' <> []).
  { intros g' Hg'. rewrite ER3 in Hg'. destruct (S1 g' Hg') as [[]|(N & g & Hg & Eg)]. injection Eg as <-. eauto. }
  split; [|split; [assumption|split; [assumption|split]]].
  - apply (mx_rebuild n k M R' X ER1 ER2).
    + intros g' Hg'. destruct (GH g' Hg') as (g & Hg & -> & N). destruct (FK g Hg) as (F1 & F2). split; [assumption|]. split; [assumption|].
      intros e v Hh. apply F2 in Hh as (Hh & _). exact (x_in _ _ _ X g e v Hg Hh).
    + apply PR.
    + intros e v L H. apply (proj2 PR e v L) in H as (H & _). now apply (x_pin _ _ _ X).
  - intros g' Hg'. destruct (GH g' Hg') as (g & Hg & -> & _). exists g. auto.
  - intros e v L. unfold stored. rewrite (proj2 PR e v L), ER3, S2. split.
    + intros [H|[H|(g & g' & Hg & Eg & Hh)]]; [tauto|destruct H as (g & [] & _)|]. injection Eg as <-. apply (FK g Hg) in Hh as (Hh & Hs).
      split; [|assumption]. right. exists g. auto.
    + intros ([H|(g & Hg & Hh)] & Hs); [tauto|]. right. right. exists g, (g_filterKeys g s). split; [assumption|]. split; [reflexivity|].
      apply (FK g Hg). auto.
Qed.

(** *** filterColumns *)
Lemma filterValues_spec : forall n k g s, group_ok n k g -> gkeys g <> [] -> (1 <= n)%nat -> bs_of k s -> regular (gfun g) (gkeys g) ->
  exists g', g_filterValues m g s = Ok g' /\ group_ok n k g' /\ gfun g' = gfun g /\
    forall e v, holds g' e v <-> holds g e v /\ in_boxes v s.
Proof.
  intros n k g s OK Ne Hn S Reg. pose proof OK as (G & _ & K). unfold g_filterValues.
  assert (GB : forall r, bs_of n r -> (forall e v, in_boxes e r /\ maps_to (gfun g) e v <-> holds g e v /\ in_boxes v s) ->
    group_ok n k (g_addKeys (g_buildGeneric (gfun g)) r) /\ gfun (g_addKeys (g_buildGeneric (gfun g)) r) = gfun g /\
    forall e v, holds (g_addKeys (g_buildGeneric (gfun g)) r) e v <-> holds g e v /\ in_boxes v s).
  { intros r Br Sr. split; [now apply buildGeneric_ok|]. split; [reflexivity|]. intros e v. rewrite <- Sr. reflexivity. }
  destruct (class_cases n k g OK Hn) as [->|(-> & rs & F)].
  - destruct (values_spec n k g OK Hn) as (t & -> & Ht & Bt & V1 & V2). cbn [bind].
    destruct (bs_intersect_spec k t s Bt S) as (Bi & Si).
    destruct (good_inverse m Mok n k (gfun g) (gkeys g) t (bs_intersect t s) G Hn K Ne Reg Ht Bi) as (r & -> & Br & Sr).
    { intros q Hq. now apply Si in Hq. }
    cbn [bind]. eexists. split; [reflexivity|]. apply GB; [assumption|]. intros e v. rewrite Sr. unfold holds. split.
    + intros ((He & q & Hq & Hi) & Hv). rewrite (maps_to_inj _ e q v Hq Hv) in Hi. apply Si in Hi. tauto.
    + intros ((He & Hv) & Hs). split; [|assumption]. split; [assumption|]. exists v. split; [assumption|]. apply Si. split; [|assumption].
      apply (V1 e v). split; assumption.
  - pose proof G as G'. rewrite F in G'. destruct (mapped_spec n k rs G') as (c & Hc & Lc & Hm). rewrite F in GB |- *. rewrite Hc. cbn [bind].
    assert (HC : forall e v, holds g e v -> v = c).
    { intros e v (He & Hv). rewrite F in Hv. apply Hm in Hv; [assumption|]. now apply (bs_of_length n (gkeys g)). }
    eexists. split; [reflexivity|]. rewrite <- F in *. destruct (bs_contains s (bs_point c)) eqn:B.
    + apply GB; [assumption|]. intros e v. change (in_boxes e (gkeys g) /\ maps_to (gfun g) e v) with (holds g e v). split; [|tauto].
      intros H. split; [assumption|]. rewrite (HC e v H). apply (bs_contains_spec s (bs_point c)); [assumption|]. now apply in_boxes_point.
    + split; [|split; [reflexivity|]].
      * apply (buildGeneric_ok n k (gfun g) []); [assumption|constructor].
      * intros e v. split; [intros ((b & [] & _) & _)|]. intros (H & Hs). exfalso. rewrite (HC e v H) in Hs.
        assert (bs_contains s (bs_point c) = true); [|congruence]. apply bs_contains_spec. intros p Hp. apply (in_boxes_point _ c) in Hp as ->. assumption.
Qed.

Lemma filterColumns_spec : forall n k M s, mx n k M -> bs_of k s ->
  (forall g, In g (mgroups M) -> one_use (gfun g) /\ regular (gfun g) (gkeys g)) ->
  exists R, mc_filterColumns m M s = Ok R /\ mx n k R /\ meqs R = meqs M /\ mvars R = mvars M /\
    (forall g, In g (mgroups R) -> exists g0, In g0 (mgroups M) /\ gfun g = gfun g0) /\
    forall e v, length e = n -> (stored R e v <-> stored M e v /\ in_boxes v s).
Proof.
  intros n k M s X S O. pose proof (x_n _ _ _ X) as Hn. pose proof (x_k _ _ _ X) as Hk. unfold mc_filterColumns.
  assert (FK : forall g, In g (mgroups M) -> exists g', g_filterValues m g s = Ok g' /\ group_ok n k g' /\ gfun g' = gfun g /\
    forall e v, holds g' e v <-> holds g e v /\ in_boxes v s).
  { intros g Hg. apply (filterValues_spec n k g s); auto; try apply (O g Hg).
    - now apply (x_ok _ _ _ X).
    - now apply (x_ne _ _ _ X). }
  destruct (fold_add n k (fun g => g_filterValues m g s) (mgroups M) (mc_new (meqs M) (mvars M)) Hn) as (R & E & E1 & E2 & E3 & S1 & S2).
  { intros g Hg. destruct (FK g Hg) as (g' & Eg & F1 & F2 & F3). exists g'. split; [assumption|]. split; [assumption|].
    split; [rewrite F2; apply (O g Hg)|]. intros e v Hh. apply F3 in Hh as (Hh & _). exact (x_in _ _ _ X g e v Hg Hh). }
  cbn [mc_new meqs mvars mpoints mgroups] in E1, E2, E3, S1, S2. rewrite E. cbn [bind].
  rewrite (bs_rank_of k (mvars M)) by apply (x_vars _ _ _ X).
  destruct (takeLast_set n k (mpoints M) Hk (x_points _ _ _ X)) as (Bf & Sf).
  destruct (bs_intersect_spec k _ s Bf S) as (Bi & Si). set (fl := bs_intersect (bs_takeLast (mpoints M) k) s) in *.
  destruct (bs_intersect_spec (n + k) (mpoints M) (bs_prepend fl (meqs M)) (x_points _ _ _ X)) as (Bp & Sp).
  { apply bs_prepend_of; [assumption|apply (x_eqs _ _ _ X)]. }
  set (R' := if bs_empty fl then R else mc_withPoints R (bs_intersect (mpoints M) (bs_prepend fl (meqs M)))).
  assert (PR : bs_of (n + k) (mpoints R') /\ forall e v, length e = n -> (in_boxes (e ++ v) (mpoints R') <-> in_boxes (e ++ v) (mpoints M) /\ in_boxes v s)).
  { assert (Y : forall e v, length e = n -> in_boxes (e ++ v) (mpoints M) -> in_boxes v s -> in_boxes v fl).
    { intros e v L H1 H2. apply Si. split; [|assumption]. apply Sf. exists e. split; assumption. }
    unfold R'. destruct (bs_empty fl) eqn:Ef.
    - rewrite E3. split; [constructor|]. intros e v L. split; [intros (b & [] & _)|]. intros (H1 & H2).
      destruct (Y e v L H1 H2) as (b & Hb & _). destruct fl; [contradiction|discriminate].
    - cbn. split; [assumption|]. intros e v L.
      rewrite Sp, bs_prepend_append, (bs_append_app n (meqs M) fl e v (proj1 (x_eqs _ _ _ X)) L). split.
      + intros (H1 & _ & H2). split; [assumption|]. now apply Si in H2.
      + intros (H1 & H2). split; [assumption|]. split; [|eauto]. apply (x_pin _ _ _ X e v L H1). }
  assert (ER : meqs R' = meqs M /\ mvars R' = mvars M /\ mgroups R' = mgroups R) by (unfold R'; destruct (bs_empty fl); auto).
  destruct ER as (ER1 & ER2 & ER3). exists R'. split; [reflexivity|].
  assert (GH : forall g', In g' (mgroups R') -> exists g, In g (mgroups M) /\ g_filterValues m g s = Ok g' /\ gkeys g' <> []).
  { intros g' Hg'. rewrite ER3 in Hg'. destruct (S1 g' Hg') as [[]|(N & g & Hg & Eg)]. eauto. }
  split; [|split; [assumption|split; [assumption|split]]].
  - apply (mx_rebuild n k M R' X ER1 ER2).
    + intros g' Hg'. destruct (GH g' Hg') as (g & Hg & Eg & N). destruct (FK g Hg) as (g2 & Eg2 & F1 & F2 & F3).
      rewrite Eg in Eg2. injection Eg2 as <-. split; [assumption|]. split; [assumption|].
      intros e v Hh. apply F3 in Hh as (Hh & _). exact (x_in _ _ _ X g e v Hg Hh).
    + apply PR.
    + intros e v L H. apply (proj2 PR e v L) in H as (H & _). now apply (x_pin _ _ _ X).
  - intros g' Hg'. destruct (GH g' Hg') as (g & Hg & Eg & _). destruct (FK g Hg) as (g2 & Eg2 & F1 & F2 & F3).
    rewrite Eg in Eg2. injection Eg2 as <-. exists g. auto.
  - intros e v L. unfold stored. rewrite (proj2 PR e v L), ER3, S2. split.
    + intros [H|[H|(g & g' & Hg & Eg & Hh)]]; [tauto|destruct H as (g & [] & _)|]. destruct (FK g Hg) as (g2 & Eg2 & F1 & F2 & F3).
      rewrite Eg in Eg2. injection Eg2 as <-. apply F3 in Hh as (Hh & Hs). split; [|assumption]. right. exists g. auto.
    + intros ([H|(g & Hg & Hh)] & Hs); [tauto|]. right. right. destruct (FK g Hg) as (g2 & Eg2 & F1 & F2 & F3). exists g, g2. split; [assumption|].
      split; [assumption|]. apply F3. auto.
Qed.

(** *** flattenRows, flattenColumns *)
Lemma flattenColumns_spec : forall n k M, mx n k M -> forall e,
  in_boxes e (mc_flattenColumns M) <-> exists v, entry M e v.
Proof.
  intros n k M X e. pose proof (x_n _ _ _ X) as Hn. unfold mc_flattenColumns.
  rewrite (bs_rank_of n (meqs M)) by apply (x_eqs _ _ _ X). rewrite bs_union_spec.
  destruct (takeFirst_set n k (mpoints M) Hn (x_points _ _ _ X)) as (Bf & Sf). split.
  - intros [(b & Hb & He)|H].
    + apply in_flat_map in Hb as (g & Hg & Hb). pose proof (x_ok _ _ _ X g Hg) as OK.
      destruct (holds_total n k g e OK) as (v & _ & Hv); [exists b; auto|]. exists v. apply (entry_stored n k M e v X).
      split; [exact (x_in _ _ _ X g e v Hg Hv)|]. right. exists g. auto.
    + pose proof (bs_of_length n _ e Bf H) as L. apply Sf in H as (v & Lv & H); [|assumption]. exists v. apply (entry_stored n k M e v X).
      split; [now apply (x_pin _ _ _ X)|now left].
  - intros (v & H). apply (entry_stored n k M e v X) in H as (C & [H|(g & Hg & H)]).
    + destruct (cell_length n k M e v X C) as (Le & Lv). right. apply Sf; eauto.
    + left. destruct H as ((b & Hb & He) & _). exists b. split; [|assumption]. apply in_flat_map. eauto.
Qed.

Lemma flattenRows_spec : forall n k M, mx n k M -> (forall g, In g (mgroups M) -> one_use (gfun g)) ->
  exists r, mc_flattenRows M = Ok r /\ forall v, in_boxes v r <-> exists e, entry M e v.
Proof.
  intros n k M X O. pose proof (x_n _ _ _ X) as Hn. pose proof (x_k _ _ _ X) as Hk. unfold mc_flattenRows.
  rewrite (bs_rank_of k (mvars M)) by apply (x_vars _ _ _ X).
  destruct (takeLast_set n k (mpoints M) Hk (x_points _ _ _ X)) as (Bf & Sf).
  assert (Y : forall gs acc, (forall g, In g gs -> In g (mgroups M)) ->
    exists r, fold_res (fun acc g => v <- g_values g ;; Ok (bs_union acc v)) gs acc = Ok r /\
      forall v, in_boxes v r <-> in_boxes v acc \/ exists g e, In g gs /\ holds g e v).
  { induction gs as [|g gs IH]; intros acc Hgs; cbn [fold_res].
    - exists acc. split; [reflexivity|]. intros v. split; [auto|]. intros [H|(g & e & [] & _)]. assumption.
    - destruct (values_spec n k g (x_ok _ _ _ X g (Hgs g (or_introl eq_refl))) Hn) as (t & -> & _ & _ & V1 & V2). cbn [bind].
      destruct (IH (bs_union acc t)) as (r & Er & Sr); [intros; apply Hgs; now right|]. exists r. split; [assumption|]. intros v.
      rewrite Sr, bs_union_spec. split.
      + intros [[H|H]|(g' & e & Hg' & H)]; [now left| |].
        * right. destruct (V2 (O g (Hgs g (or_introl eq_refl))) v H) as (e & He). exists g, e. split; [now left|assumption].
        * right. exists g', e. split; [now right|assumption].
      + intros [H|(g' & e & [<-|Hg'] & H)]; [auto| |].
        * left. right. now apply (V1 e).
        * right. eauto. }
  destruct (Y (mgroups M) [] (fun g H => H)) as (r & -> & Sr). cbn [bind]. eexists. split; [reflexivity|].
  intros v. rewrite bs_union_spec, Sr, Sf. split.
  - intros [[(b & [] & _)|(g & e & Hg & H)]|(e & Le & H)].
    + exists e. apply (entry_stored n k M e v X). split; [exact (x_in _ _ _ X g e v Hg H)|]. right. exists g. auto.
    + exists e. apply (entry_stored n k M e v X). split; [now apply (x_pin _ _ _ X)|now left].
  - intros (e & H). apply (entry_stored n k M e v X) in H as (C & [H|(g & Hg & H)]).
    + right. exists e. split; [|assumption]. now apply (cell_length n k M e v X).
    + left. right. eauto.
Qed.

(** *** Equality *)
Lemma same_spec : forall n k A B l, mx n k A -> mx n k B ->
  (forall e v, In (e, v) l -> cell A e v /\ cell B e v) ->
  exists b, mc_same A B l = Ok b /\ (b = true <-> forall e v, In (e, v) l -> (entry A e v <-> entry B e v)).
Proof.
  intros n k A B l XA XB. induction l as [|(e & v) l IH]; intros H; cbn [mc_same].
  - exists true. split; [reflexivity|]. split; [|reflexivity]. intros _ e v [].
  - destruct (H e v (or_introl eq_refl)) as (CA & CB).
    destruct (get_spec n k A e v XA CA) as (a & Ea & _). destruct (get_spec n k B e v XB CB) as (b & Eb & _).
    rewrite Ea, Eb. cbn [bind]. unfold entry in *.
    destruct (Bool.eqb a b) eqn:Q.
    + apply Bool.eqb_prop in Q as <-. destruct IH as (b' & E & Hb); [intros; apply H; now right|]. exists b'. split; [assumption|].
      rewrite Hb. split.
      * intros H' e' v' [I|I]; [injection I as <- <-; rewrite Ea, Eb; reflexivity|auto].
      * intros H' e' v' I. apply H'. now right.
    + exists false. split; [reflexivity|]. split; [discriminate|]. intros H'. specialize (H' e v (or_introl eq_refl)). rewrite Ea, Eb in H'.
      destruct a, b; try discriminate; destruct H' as (H1 & H2); [specialize (H1 eq_refl)|specialize (H2 eq_refl)]; discriminate.
Qed.

Lemma in_indices : forall M e v, In (e, v) (mc_indices M) <-> cell M e v.
Proof. intros M e v. unfold mc_indices, cell. rewrite in_prod_iff, !in_bs_points. reflexivity. Qed.

Lemma eq_spec : forall n k A B, mx n k A -> mx n k B ->
  exists b, mc_eq A B = Ok b /\
    (b = true <-> (forall e, in_boxes e (meqs A) <-> in_boxes e (meqs B)) /\ (forall v, in_boxes v (mvars A) <-> in_boxes v (mvars B)) /\
                  forall e v, entry A e v <-> entry B e v).
Proof.
  intros n k A B XA XB. unfold mc_eq.
  destruct (bs_eq (meqs A) (meqs B)) eqn:E1; cbn [negb].
  2:{ exists false. split; [reflexivity|]. split; [discriminate|]. intros (H & _). apply bs_eq_spec in H. congruence. }
  destruct (bs_eq (mvars A) (mvars B)) eqn:E2; cbn [negb].
  2:{ exists false. split; [reflexivity|]. split; [discriminate|]. intros (_ & H & _). apply bs_eq_spec in H. congruence. }
  pose proof (proj1 (bs_eq_spec _ _) E1) as S1. pose proof (proj1 (bs_eq_spec _ _) E2) as S2.
  destruct (same_spec n k A B (mc_indices A) XA XB) as (b & E & Hb).
  { intros e v H. apply in_indices in H. split; [assumption|]. destruct H as (H1 & H2). split; [now apply S1|now apply S2]. }
  exists b. split; [assumption|]. rewrite Hb. split.
  - intros H. split; [assumption|]. split; [assumption|]. intros e v. split; intros I.
    + pose proof (get_cell A e v true I) as C. apply (H e v); [now apply in_indices|assumption].
    + pose proof (get_cell B e v true I) as (C1 & C2). apply (H e v); [|assumption]. apply in_indices. split; [now apply S1|now apply S2].
  - intros (_ & _ & H) e v _. apply H.
Qed.

Lemma differ_same : forall A B l, mc_differ A B l = bind (mc_same A B l) (fun b => Ok (negb b)).
Proof.
  intros A B l. induction l as [|(e & v) l IH]; [reflexivity|]. cbn [mc_differ mc_same].
  destruct (mc_get A e v) as [a| |]; [|reflexivity|reflexivity]. cbn [bind]. destruct (mc_get B e v) as [b| |]; [|reflexivity|reflexivity]. cbn [bind].
  destruct (Bool.eqb a b); cbn [negb]; [exact IH|reflexivity].
Qed.
Lemma ne_eq : forall A B, mc_ne A B = bind (mc_eq A B) (fun b => Ok (negb b)).
Proof.
  intros A B. unfold mc_ne, mc_eq. destruct (bs_eq (meqs A) (meqs B)); cbn [negb]; [|reflexivity].
  destruct (bs_eq (mvars A) (mvars B)); cbn [negb]; [|reflexivity]. apply differ_same.
Qed.

(** *** Sum *)
Lemma checked_spec : forall n k M B b l, mx n k M -> mx n k B ->
  (forall e v, In (e, v) l -> cell M e v /\ cell B e v) ->
  (forall e v, In (e, v) l -> entry B e v -> mc_get M e v = Ok b) ->
  mc_checked M B b l = Ok tt.
Proof.
  intros n k M B b l XM XB. induction l as [|(e & v) l IH]; intros C H; cbn [mc_checked]; [reflexivity|].
  destruct (C e v (or_introl eq_refl)) as (CM & CB). destruct (get_spec n k B e v XB CB) as (r & Er & _). rewrite Er. cbn [bind].
  destruct r.
  - rewrite (H e v (or_introl eq_refl) Er). cbn [bind]. rewrite Bool.eqb_reflx. cbn [assert_ok bind]. apply IH; intros; [apply C|apply H]; auto; now right.
  - apply IH; intros; [apply C|apply H]; auto; now right.
Qed.

Lemma apply_all : forall n k gs M, mx n k M ->
  (forall g, In g gs -> group_ok n k g /\ gkeys g <> [] /\ regular (gfun g) (gkeys g) /\ forall e v, holds g e v -> cell M e v) ->
  exists M', fold_res (fun A g => mc_apply m A (gkeys g) (gfun g)) gs M = Ok M' /\ mx n k M' /\
    meqs M' = meqs M /\ mvars M' = mvars M /\
    (forall g, In g (mgroups M') -> exists g0, In g0 (mgroups M ++ gs) /\ gfun g = gfun g0) /\
    forall e v, stored M' e v <-> stored M e v \/ any_holds gs e v.
Proof.
  intros n k gs. induction gs as [|g gs IH]; intros M X H; cbn [fold_res].
  - exists M. split; [reflexivity|]. split; [assumption|]. repeat (split; [reflexivity|]). split.
    + intros g Hg. exists g. rewrite app_nil_r. auto.
    + intros e v. split; [auto|]. intros [D|(g & [] & _)]. assumption.
  - destruct (H g (or_introl eq_refl)) as (OK & Ne & Reg & In1). destruct OK as (G & C & K).
    destruct (apply_spec m Mok n k M (gkeys g) (gfun g) X G K Ne Reg) as (M1 & E1 & X1 & Q1 & V1 & _ & F1 & S1).
    { intros e He. destruct (holds_total n k g e (conj G (conj C K)) He) as (v & _ & Hv). apply (In1 e v Hv). }
    rewrite E1. cbn [bind]. destruct (IH M1 X1) as (M2 & E2 & X2 & Q2 & V2 & F2 & S2).
    { intros g' Hg'. destruct (H g' (or_intror Hg')) as (A1 & A2 & A3 & A4). split; [assumption|]. split; [assumption|]. split; [assumption|].
      intros e v Hh. unfold cell. rewrite Q1, V1. exact (A4 e v Hh). }
    exists M2. split; [assumption|]. split; [assumption|]. split; [congruence|]. split; [congruence|]. split.
    + intros x Hx. destruct (F2 x Hx) as (g0 & Hg0 & Ef). apply in_app_iff in Hg0 as [Hg0|Hg0].
      * destruct (F1 g0 Hg0) as [Ef0|(g1 & Hg1 & Ef1)].
        -- exists g. split; [apply in_or_app; right; now left|congruence].
        -- exists g1. split; [apply in_or_app; now left|congruence].
      * exists g0. split; [apply in_or_app; right; now right|assumption].
    + intros e v. rewrite S2, S1. unfold any_holds, holds. split.
      * intros [[D|(D1 & D2 & D3)]|(g' & D1 & D2)]; [auto| |].
        -- right. exists g. split; [now left|auto].
        -- right. exists g'. split; [now right|assumption].
      * intros [D|(g' & [<-|D1] & D2 & D3)]; [auto| |].
        -- left. right. split; [assumption|]. split; [assumption|]. apply (In1 e v). split; assumption.
        -- right. exists g'. auto.
Qed.

Lemma set_all : forall n k l M, mx n k M ->
  (forall p, In p l -> exists e v, p = e ++ v /\ cell M e v /\ forall g, In g (mgroups M) -> agrees (gfun g) e v) ->
  exists M', fold_res (fun A p => mc_set m A (firstn n p) (skipn (length p - k) p)) l M = Ok M' /\ mx n k M' /\
    meqs M' = meqs M /\ mvars M' = mvars M /\
    forall e v, length e = n -> (stored M' e v <-> stored M e v \/ In (e ++ v) l).
Proof.
  intros n k l. induction l as [|p l IH]; intros M X H; cbn [fold_res].
  - exists M. split; [reflexivity|]. split; [assumption|]. repeat (split; [reflexivity|]). intros e v _. cbn. tauto.
  - destruct (H p (or_introl eq_refl)) as (e & v & -> & C & A). destruct (cell_length n k M e v X C) as (Le & Lv).
    assert (F : firstn n (e ++ v) = e) by (rewrite firstn_app, <- Le, Nat.sub_diag, firstn_all; cbn; apply app_nil_r).
    assert (K : skipn (length (e ++ v) - k) (e ++ v) = v).
    { rewrite app_length. replace (length e + length v - k)%nat with (length e) by lia. rewrite skipn_app, Nat.sub_diag, skipn_all. reflexivity. }
    rewrite F, K. destruct (set_spec m Mok n k M e v X C A) as (M1 & E1 & X1 & Q1 & V1 & F1 & S1). rewrite E1. cbn [bind].
    destruct (IH M1 X1) as (M2 & E2 & X2 & Q2 & V2 & S2).
    { intros p Hp. destruct (H p (or_intror Hp)) as (e' & v' & -> & C' & A'). exists e', v'. split; [reflexivity|]. split; [unfold cell; now rewrite Q1, V1|].
      intros g Hg. destruct (F1 g Hg) as (g0 & Hg0 & ->). auto. }
    exists M2. split; [assumption|]. split; [assumption|]. split; [congruence|]. split; [congruence|].
    intros e' v' L'. rewrite (S2 e' v' L'), (S1 e' v' L'). cbn [In]. split.
    + intros [[D|(-> & ->)]|D]; auto.
    + intros [D|[D|D]]; auto. left. right. symmetry in D. now apply app_inj_len in D; [|lia].
Qed.

Lemma split_point : forall n k (p : point), length p = (n + k)%nat -> exists e v, p = e ++ v /\ length e = n /\ length v = k.
Proof.
  intros n k p L. exists (firstn n p), (skipn n p). split; [now rewrite firstn_skipn|]. rewrite firstn_length, skipn_length. lia.
Qed.

Lemma plus_spec : forall n k A B, mx n k A -> mx n k B ->
  (forall e, in_boxes e (meqs A) <-> in_boxes e (meqs B)) -> (forall v, in_boxes v (mvars A) <-> in_boxes v (mvars B)) ->
  (forall g, In g (mgroups B) -> regular (gfun g) (gkeys g)) ->
  (forall g e v, In g (mgroups A ++ mgroups B) -> length e = n -> in_boxes (e ++ v) (mpoints B) -> agrees (gfun g) e v) ->
  exists R, mc_plus m A B = Ok R /\ mx n k R /\ meqs R = meqs A /\ mvars R = mvars A /\
    forall e v, entry R e v <-> entry A e v \/ entry B e v.
Proof.
  intros n k A B XA XB EQ EV Reg Ag. unfold mc_plus.
  rewrite (proj2 (bs_eq_spec (meqs A) (meqs B)) EQ), (proj2 (bs_eq_spec (mvars A) (mvars B)) EV). cbn [assert_ok bind].
  assert (CE : forall e v, cell A e v <-> cell B e v) by (intros; unfold cell; rewrite EQ, EV; reflexivity).
  destruct (apply_all n k (mgroups B) A XA) as (M1 & E1 & X1 & Q1 & V1 & F1 & S1).
  { intros g Hg. split; [now apply (x_ok _ _ _ XB)|]. split; [now apply (x_ne _ _ _ XB)|]. split; [auto|].
    intros e v Hh. apply CE. exact (x_in _ _ _ XB g e v Hg Hh). }
  rewrite E1. cbn [bind]. rewrite (bs_rank_of n (meqs A)) by apply (x_eqs _ _ _ XA). rewrite (bs_rank_of k (mvars A)) by apply (x_vars _ _ _ XA).
  destruct (set_all n k (bs_points (mpoints B)) M1 X1) as (M2 & E2 & X2 & Q2 & V2 & S2).
  { intros p Hp. apply in_bs_points in Hp. destruct (split_point n k p) as (e & v & -> & Le & Lv); [now apply (bs_of_length _ _ _ (x_points _ _ _ XB))|].
    exists e, v. split; [reflexivity|]. split.
    - unfold cell. rewrite Q1, V1. apply CE. now apply (x_pin _ _ _ XB).
    - intros g Hg. destruct (F1 g Hg) as (g0 & Hg0 & ->). now apply Ag. }
  rewrite E2. cbn [bind].
  assert (ES : forall e v, entry M2 e v <-> entry A e v \/ entry B e v).
  { intros e v. rewrite (entry_stored n k M2 e v X2), (entry_stored n k A e v XA), (entry_stored n k B e v XB).
    assert (CM : cell M2 e v <-> cell A e v) by (unfold cell; rewrite Q2, V2, Q1, V1; reflexivity). rewrite CM, CE. split.
    - intros (C & H). apply S2 in H; [|now apply (cell_length n k B e v XB C)]. rewrite S1, in_bs_points in H. unfold stored at 2. tauto.
    - intros H. assert (C : cell B e v) by tauto. split; [assumption|]. apply S2; [now apply (cell_length n k B e v XB C)|].
      rewrite S1, in_bs_points. unfold stored at 2 in H. tauto. }
  rewrite (checked_spec n k M2 B true (mc_indices B) X2 XB).
  - cbn [bind]. exists M2. split; [reflexivity|]. split; [assumption|]. split; [congruence|]. split; [congruence|]. exact ES.
  - intros e v H. apply in_indices in H. split; [|assumption]. unfold cell. rewrite Q2, V2, Q1, V1. now apply CE.
  - intros e v _ H. apply ES. now right.
Qed.

(** *** Difference *)
Lemma uses_all_regular : forall f s, uses_all f -> regular f s.
Proof. intros [] s H; cbn in *; auto. Qed.

Lemma removeKeys_ok : forall n k g s, group_ok n k g -> bs_of n s ->
  group_ok n k (g_removeKeys g s) /\ forall e v, holds (g_removeKeys g s) e v <-> holds g e v /\ ~ in_boxes e s.
Proof.
  intros n k g s (G & C & K) S. destruct (bs_diff_spec n s (gkeys g) K S) as (Bd & Sd). split.
  - split; [assumption|]. split; assumption.
  - intros e v. unfold holds, g_removeKeys, g_withKeys. cbn. rewrite Sd. tauto.
Qed.

Lemma minus_group : forall n k g h, (1 <= n)%nat -> group_ok n k g -> group_ok n k h -> gkeys h <> [] -> compatible g h ->
  exists g', g_minus m g h = Ok g' /\ group_ok n k g' /\ gfun g' = gfun g /\
    forall e v, holds g' e v <-> holds g e v /\ ~ holds h e v.
Proof.
  intros n k g h Hn OG OH Nh C. pose proof OG as (G & _ & KG). pose proof OH as (H & _ & KH).
  assert (Lg : forall e v, holds g e v -> length e = n) by (intros e v (He & _); now apply (bs_of_length n (gkeys g))).
  unfold g_minus. destruct (af_eq (gfun g) (gfun h)) eqn:E.
  - destruct (removeKeys_ok n k g (gkeys h) OG KH) as (R1 & R2). eexists. split; [reflexivity|]. split; [assumption|]. split; [reflexivity|].
    intros e v. rewrite R2. split.
    + intros (A & B). split; [assumption|]. intros (D & _). contradiction.
    + intros (A & B). split; [assumption|]. intros D. apply B. split; [assumption|].
      apply (af_eq_maps n k (gfun g) (gfun h) e v); auto; [now apply (Lg e v)|apply A].
  - destruct C as [C|(UG & UH & OnG & OnH & C)]; [congruence|].
    destruct (values_spec n k h OH Hn) as (tv & -> & Hth & Bh & H1 & H2). cbn [bind].
    destruct (values_spec n k g OG Hn) as (tg & -> & Htg & Bg & G1 & G2). cbn [bind].
    destruct (bs_intersect_spec k tv tg Bh Bg) as (Bc & Sc). set (cm := bs_intersect tv tg) in *.
    assert (ID : (forall e v, holds g e v -> ~ holds h e v) -> exists g', Ok g = Ok g' /\ group_ok n k g' /\ gfun g' = gfun g /\
       forall e v, holds g' e v <-> holds g e v /\ ~ holds h e v).
    { intros D. exists g. split; [reflexivity|]. split; [assumption|]. split; [reflexivity|]. intros e v. split; [|tauto]. intros I. split; [assumption|eauto]. }
    assert (BOTH : forall e v, holds g e v -> holds h e v -> in_boxes v cm).
    { intros e v I1 I2. apply Sc. split; [now apply (H1 e)|now apply (G1 e)]. }
    destruct (bs_empty cm) eqn:Ec.
    { apply ID. intros e v I1 I2. destruct (BOTH e v I1 I2) as (b & Hb & _). destruct cm; [contradiction|discriminate]. }
    assert (Ng : gkeys g <> []).
    { destruct (bs_nonempty k cm Bc) as (v & Hv); [intros N; rewrite N in Ec; discriminate|]. apply Sc in Hv as (_ & Hv).
      destruct (G2 OnG v Hv) as (e & (b & Hb & _) & _). intros N. rewrite N in Hb. contradiction. }
    destruct (good_inverse m Mok n k (gfun g) (gkeys g) tg cm G Hn KG Ng (uses_all_regular _ _ UG) Htg Bc) as (lk & -> & Bl & Sl).
    { intros q Hq. now apply Sc in Hq. }
    cbn [bind]. destruct (bs_empty lk) eqn:El.
    { apply ID. intros e v I1 I2. assert (in_boxes e lk) as (b & Hb & _); [|destruct lk; [contradiction|discriminate]].
      apply Sl. split; [apply I1|]. exists v. split; [apply I1|]. eauto. }
    destruct (good_inverse m Mok n k (gfun h) (gkeys h) tv cm H Hn KH Nh (uses_all_regular _ _ UH) Hth Bc) as (rk & -> & Br & Sr).
    { intros q Hq. now apply Sc in Hq. }
    cbn [bind]. destruct (bs_empty rk) eqn:Er.
    { apply ID. intros e v I1 I2. assert (in_boxes e rk) as (b & Hb & _); [|destruct rk; [contradiction|discriminate]].
      apply Sr. split; [apply I2|]. exists v. split; [apply I2|]. eauto. }
    destruct (bs_intersect_spec n lk rk Bl Br) as (Bi & Si). destruct (removeKeys_ok n k g (bs_intersect lk rk) OG Bi) as (R1 & R2).
    eexists. split; [reflexivity|]. split; [assumption|]. split; [reflexivity|]. intros e v. rewrite R2, Si. split.
    + intros (I1 & I2). split; [assumption|]. intros I3. apply I2. split.
      * apply Sl. split; [apply I1|]. exists v. split; [apply I1|]. eauto.
      * apply Sr. split; [apply I3|]. exists v. split; [apply I3|]. eauto.
    + intros (I1 & I2). split; [assumption|]. intros (J1 & J2). apply Sl in J1 as (J1 & q & Q1 & Q2). apply Sr in J2 as (J2 & w & W1 & W2).
      rewrite (maps_to_inj (gfun g) e q v Q1 (proj2 I1)) in Q2. apply Sc in Q2 as (Q2 & _). apply Sc in W2 as (_ & W2).
      destruct (C e v w I1 (conj J2 W1)) as [->|[D|D]].
      * apply I2. split; assumption.
      * destruct (H2 OnH v Q2) as (e' & He'). exact (D e' He').
      * destruct (G2 OnG w W2) as (e' & He'). exact (D e' He').
Qed.

Lemma compatible_less : forall g g' h, gfun g' = gfun g -> (forall e v, holds g' e v -> holds g e v) -> compatible g h -> compatible g' h.
Proof.
  intros g g' h F H [E|(U1 & U2 & O1 & O2 & C)]; [left; now rewrite F|]. right. rewrite F. repeat (split; [assumption|]).
  intros e v w I1 I2. destruct (C e v w (H e v I1) I2) as [D|[D|D]]; auto. right. right. intros e' He'. exact (D e' (H e' w He')).
Qed.

Lemma minus_groups : forall n k hs gs, (1 <= n)%nat -> (forall h, In h hs -> group_ok n k h /\ gkeys h <> []) ->
  (forall g, In g gs -> group_ok n k g) -> (forall g h, In g gs -> In h hs -> compatible g h) ->
  exists gs', fold_res (fun gs h => map_res (fun g => g_minus m g h) gs) hs gs = Ok gs' /\
    (forall g', In g' gs' -> group_ok n k g' /\ exists g, In g gs /\ gfun g' = gfun g /\ forall e v, holds g' e v -> holds g e v) /\
    (forall e v, any_holds gs' e v <-> any_holds gs e v /\ ~ any_holds hs e v).
Proof.
  intros n k hs. induction hs as [|h hs IH]; intros gs Hn OH OG C; cbn [fold_res].
  - exists gs. split; [reflexivity|]. split.
    + intros g Hg. split; [auto|]. exists g. auto.
    + intros e v. split; [|tauto]. intros H. split; [assumption|]. intros (h & [] & _).
  - destruct (OH h (or_introl eq_refl)) as (OKh & Nh).
    assert (M1 : forall g, In g gs -> exists g', g_minus m g h = Ok g' /\ group_ok n k g' /\ gfun g' = gfun g /\
      forall e v, holds g' e v <-> holds g e v /\ ~ holds h e v).
    { intros g Hg. apply minus_group; auto. apply C; [assumption|now left]. }
    destruct (map_res_exists _ _ (fun g => g_minus m g h) gs) as (gs1 & -> & F).
    { intros g Hg. destruct (M1 g Hg) as (g' & E & _). eauto. }
    cbn [bind].
    assert (P : forall g', In g' gs1 -> group_ok n k g' /\ exists g, In g gs /\ gfun g' = gfun g /\ forall e v, holds g' e v <-> holds g e v /\ ~ holds h e v).
    { intros g' Hg'. destruct (Forall2_in _ _ _ _ _ _ F Hg') as (g & Hg & E). destruct (M1 g Hg) as (g2 & E2 & R1 & R2 & R3). rewrite E in E2.
      injection E2 as <-. split; [assumption|]. exists g. auto. }
    destruct (IH gs1 Hn) as (gs2 & E2 & P2 & S2).
    { intros x Hx. apply OH. now right. } { intros g' Hg'. apply (P g' Hg'). }
    { intros g' x Hg' Hx. destruct (P g' Hg') as (_ & g & Hg & Ef & Hh). apply (compatible_less g); auto.
      - intros e v I. apply Hh in I. tauto.
      - apply C; [assumption|now right]. }
    exists gs2. split; [assumption|]. split.
    + intros g2 Hg2. destruct (P2 g2 Hg2) as (O2 & g1 & Hg1 & Ef & Hh). split; [assumption|]. destruct (P g1 Hg1) as (_ & g & Hg & Ef1 & Hh1).
      exists g. split; [assumption|]. split; [congruence|]. intros e v I. apply Hh, Hh1 in I. tauto.
    + intros e v. rewrite S2. unfold any_holds. split.
      * intros ((g1 & Hg1 & I) & N). destruct (P g1 Hg1) as (_ & g & Hg & _ & Hh). apply Hh in I as (I & Nh'). split; [eauto|].
        intros (x & [<-|Hx] & J); [contradiction|]. apply N. eauto.
      * intros ((g & Hg & I) & N). destruct (Forall2_in2 _ _ _ _ _ _ F Hg) as (g1 & Hg1 & E). destruct (M1 g Hg) as (g2 & E3 & _ & _ & R3).
        rewrite E in E3. injection E3 as <-. split.
        -- exists g1. split; [assumption|]. apply R3. split; [assumption|]. intros J. apply N. exists h. split; [now left|assumption].
        -- intros (x & Hx & J). apply N. exists x. split; [now right|assumption].
Qed.

Lemma minus_spec : forall n k A B, mx n k A -> mx n k B ->
  (forall e, in_boxes e (meqs A) <-> in_boxes e (meqs B)) -> (forall v, in_boxes v (mvars A) <-> in_boxes v (mvars B)) ->
  mpoints B = [] -> (forall g, In g (mgroups A) -> one_use (gfun g)) ->
  (forall g h, In g (mgroups A) -> In h (mgroups B) -> compatible g h) ->
  (forall e v, length e = n -> in_boxes (e ++ v) (mpoints A) -> ~ entry B e v) ->
  exists R, mc_minus m A B = Ok R /\ mx n k R /\ meqs R = meqs A /\ mvars R = mvars A /\
    forall e v, entry R e v <-> entry A e v /\ ~ entry B e v.
Proof.
  intros n k A B XA XB EQ EV PB OU CO NP. pose proof (x_n _ _ _ XA) as Hn. unfold mc_minus.
  rewrite (proj2 (bs_eq_spec (meqs A) (meqs B)) EQ), (proj2 (bs_eq_spec (mvars A) (mvars B)) EV). cbn [assert_ok bind].
  assert (CE : forall e v, cell A e v <-> cell B e v) by (intros; unfold cell; rewrite EQ, EV; reflexivity).
  destruct (minus_groups n k (mgroups B) (mgroups A) Hn) as (old & E1 & P1 & S1); auto.
  { intros h Hh. split; [now apply (x_ok _ _ _ XB)|now apply (x_ne _ _ _ XB)]. } { apply (x_ok _ _ _ XA). }
  rewrite E1. cbn [bind]. rewrite PB.
  assert (GM : forall a b g, g_minusPoints m a b g [] = Ok g) by (intros; unfold g_minusPoints; destruct (bs_empty (gkeys g)); reflexivity).
  destruct (fold_add n k (fun g => g_minusPoints m (bs_rank (meqs B)) (bs_rank (mvars B)) g []) old (mc_withGroups A []) Hn) as (R & E & E2 & E3 & E4 & S2 & S3).
  { intros g' Hg'. exists g'. rewrite GM. split; [reflexivity|]. destruct (P1 g' Hg') as (O1 & g & Hg & Ef & Hh). split; [assumption|]. split; [rewrite Ef; auto|].
    intros e v I. exact (x_in _ _ _ XA g e v Hg (Hh e v I)). }
  rewrite E. cbn [bind bs_diff fold_left mc_withGroups meqs mvars mpoints mgroups] in *.
  set (R' := mc_withPoints R (mpoints A)).
  assert (XR : mx n k R').
  { apply (mx_rebuild n k A R' XA E2 E3); cbn.
    - intros g' Hg'. destruct (S2 g' Hg') as [[]|(Ne & g2 & Hg2 & Eg)]. rewrite GM in Eg. injection Eg as ->.
      destruct (P1 g' Hg2) as (O1 & g & Hg & Ef & Hh). split; [assumption|]. split; [assumption|].
      intros e v I. exact (x_in _ _ _ XA g e v Hg (Hh e v I)).
    - apply (x_points _ _ _ XA).
    - apply (x_pin _ _ _ XA). }
  assert (AH : forall e v, any_holds (mgroups R') e v <-> any_holds (mgroups A) e v /\ ~ any_holds (mgroups B) e v).
  { intros e v. cbn. rewrite S3, <- S1. split.
    - intros [(g & [] & _)|(g & g' & Hg & Eg & Hh)]. rewrite GM in Eg. injection Eg as ->. exists g'. auto.
    - intros (g & Hg & Hh). right. exists g, g. rewrite GM. auto. }
  assert (ES : forall e v, entry R' e v <-> entry A e v /\ ~ entry B e v).
  { intros e v. rewrite (entry_stored n k R' e v XR), (entry_stored n k A e v XA).
    assert (CM : cell R' e v <-> cell A e v) by (unfold cell; cbn; rewrite E2, E3; reflexivity). rewrite CM.
    assert (EB : cell A e v -> (entry B e v <-> any_holds (mgroups B) e v)).
    { intros C. rewrite (entry_stored n k B e v XB), <- CE. unfold stored. rewrite PB. split; [|tauto].
      intros (_ & [(b & [] & _)|H]). assumption. }
    unfold stored. rewrite AH. cbn [R' mc_withPoints mpoints]. split.
    - intros (C & [H|(H1 & H2)]).
      + split; [tauto|]. apply NP; [now apply (cell_length n k A e v XA C)|assumption].
      + split; [tauto|]. now rewrite (EB C).
    - intros ((C & [H|H]) & N); [tauto|]. split; [assumption|]. right. split; [assumption|]. now rewrite <- (EB C). }
  rewrite (checked_spec n k R' B false (mc_indices B) XR XB).
  - cbn [bind]. exists R'. split; [reflexivity|]. split; [assumption|]. split; [assumption|]. split; [assumption|]. exact ES.
  - intros e v H. apply in_indices in H. split; [|assumption]. unfold cell. cbn. rewrite E2, E3. now apply CE.
  - intros e v Hi H. apply in_indices in Hi. destruct (get_spec n k R' e v XR) as (b & Eb & _).
    { unfold cell. cbn. rewrite E2, E3. now apply CE. }
    rewrite Eb. destruct b; [|reflexivity]. apply ES in Eb as (_ & Eb). contradiction.
Qed.
End M.
