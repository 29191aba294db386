(** Changing the spaces of incidence matrices. *)
From Coq Require Import ZArith List Bool Lia ZifyBool.
From Verif Require Import RangeModel MDRangeModel Result BoxSetModel AccessModel Spec AccessSpec
  RangeProofs MDRangeProofs BoxListProofs BoxSetProofs AccessProofs AccessImageProofs
  AccessInverseProofs AccessPreimageProofs AccessInverseExactProofs AccessCombineProofs ListTac
  MCIMModel MCIMSpec MCIMProofs MCIMSetProofs MCIMOpsProofs.
Import ListNotations.
Open Scope Z_scope.

Lemma points_in_spec : forall n k s P, (1 <= n)%nat -> (1 <= k)%nat -> bs_of n s -> bs_of (n + k) P ->
  bs_of (n + k) (points_in n s P) /\
  forall e v, length e = n -> (in_boxes (e ++ v) (points_in n s P) <-> in_boxes (e ++ v) P /\ in_boxes e s).
Proof.
  intros n k s P Hn Hk S HP. destruct P as [|b0 P0] eqn:EP.
  { split; [constructor|]. intros e v L. split; [intros (b & [] & _)|intros ((b & [] & _) & _)]. }
  rewrite <- EP in *. assert (RK : bs_rank P = (n + k)%nat) by (apply bs_rank_of; [assumption|now rewrite EP]). clear EP b0 P0.
  unfold points_in. rewrite RK. replace (n + k - n)%nat with k by lia.
  pose proof HP as HP'. unfold bs_of in HP'. rewrite Forall_forall in HP'.
  assert (TF : forall b, In b P -> bs_of n [mdrange_takeFirst b n]).
  { intros b Hb. destruct (takeFirst_set n k P Hn HP) as (B & _). unfold bs_of in B. rewrite Forall_forall in B.
    constructor; [|constructor]. apply B. apply in_map_iff. eauto. }
  split.
  - apply Forall_forall. intros z Hz. apply in_flat_map in Hz as (b & Hb & Hz). apply in_map_iff in Hz as (c & <- & Hc).
    destruct (bs_intersect_spec n s [mdrange_takeFirst b n] S (TF b Hb)) as (Bi & _). unfold bs_of in Bi. rewrite Forall_forall in Bi.
    destruct (Bi c Hc) as ((Nc & Rc) & Lc). destruct (HP' b Hb) as ((_ & Rb) & Lb). rewrite (takeLast_eq n k b Lb).
    unfold mdrange_append. split; [|rewrite app_length, skipn_length; lia]. split; [destruct c; [congruence|discriminate]|].
    apply Forall_app. split; [assumption|now apply Forall_skipn].
  - intros e v L. split.
    + intros (z & Hz & He). apply in_flat_map in Hz as (b & Hb & Hz). apply in_map_iff in Hz as (c & <- & Hc).
      destruct (bs_intersect_spec n s [mdrange_takeFirst b n] S (TF b Hb)) as (Bi & Si). pose proof Bi as Bi'. unfold bs_of in Bi'. rewrite Forall_forall in Bi'.
      destruct (Bi' c Hc) as (_ & Lc). destruct (HP' b Hb) as (_ & Lb). unfold mdrange_append in He. apply in_box_app in He as (He & Hv); [|lia].
      assert (Hi : in_boxes e (bs_intersect s [mdrange_takeFirst b n])) by (exists c; auto). apply Si in Hi as (Hs & (d & [<-|[]] & Hd)).
      split; [|assumption]. exists b. split; [assumption|]. rewrite (takeLast_eq n k b Lb) in Hv. rewrite <- (firstn_skipn n b).
      apply in_box_app; [rewrite firstn_length; lia|]. split; assumption.
    + intros ((b & Hb & H) & Hs). destruct (HP' b Hb) as (_ & Lb). rewrite <- (firstn_skipn n b) in H.
      apply in_box_app in H as (H1 & H2); [|rewrite firstn_length; lia].
      destruct (bs_intersect_spec n s [mdrange_takeFirst b n] S (TF b Hb)) as (Bi & Si).
      assert (Hi : in_boxes e (bs_intersect s [mdrange_takeFirst b n])).
      { apply Si. split; [assumption|]. exists (mdrange_takeFirst b n). split; [now left|assumption]. }
      destruct Hi as (c & Hc & He). unfold bs_of in Bi. rewrite Forall_forall in Bi. destruct (Bi c Hc) as (_ & Lc).
      exists (mdrange_append c (mdrange_takeLast b k)). split.
      * apply in_flat_map. exists b. split; [assumption|]. apply in_map_iff. eauto.
      * rewrite (takeLast_eq n k b Lb). unfold mdrange_append. apply in_box_app; [lia|]. split; assumption.
Qed.

Section M.
Variable m : mlir.
Variable Mok : mlir_ok m.

Lemma setEquationSpace_spec : forall n k M s, mx n k M -> bs_of n s -> s <> [] ->
  exists R, mc_setEquationSpace M s = Ok R /\ mx n k R /\ meqs R = s /\ mvars R = mvars M /\
    (forall g, In g (mgroups R) -> exists g0, In g0 (mgroups M) /\ gfun g = gfun g0) /\
    forall e v, length e = n -> (stored R e v <-> stored M e v /\ in_boxes e s).
Proof.
  intros n k M s X S Ns. pose proof (x_n _ _ _ X) as Hn. pose proof (x_k _ _ _ X) as Hk. unfold mc_setEquationSpace.
  rewrite (bs_rank_of n s S Ns), (bs_rank_of n (meqs M)) by apply (x_eqs _ _ _ X). rewrite Nat.eqb_refl. cbn [assert_ok bind].
  destruct (points_in_spec n k s (mpoints M) Hn Hk S (x_points _ _ _ X)) as (Bp & Sp).
  set (gs := flat_map (fun g => let k0 := bs_intersect (gkeys g) s in if bs_empty k0 then [] else [g_withKeys g k0]) (mgroups M)).
  assert (GI : forall g, In g (mgroups M) -> bs_of n (bs_intersect (gkeys g) s) /\ forall p, in_boxes p (bs_intersect (gkeys g) s) <-> in_boxes p (gkeys g) /\ in_boxes p s).
  { intros g Hg. apply bs_intersect_spec; [apply (x_ok _ _ _ X g Hg)|assumption]. }
  assert (P : forall g', In g' gs -> exists g, In g (mgroups M) /\ g' = g_withKeys g (bs_intersect (gkeys g) s) /\ gkeys g' <> []).
  { intros g' Hg'. apply in_flat_map in Hg' as (g & Hg & H). cbn in H. destruct (bs_empty (bs_intersect (gkeys g) s)) eqn:E; [contradiction|].
    destruct H as [<-|[]]. exists g. split; [assumption|]. split; [reflexivity|]. cbn. intros N. rewrite N in E. discriminate. }
  assert (AH : forall e v, any_holds gs e v <-> any_holds (mgroups M) e v /\ in_boxes e s).
  { intros e v. split.
    - intros (g' & Hg' & (He & Hv)). destruct (P g' Hg') as (g & Hg & -> & _). cbn in He, Hv. apply (GI g Hg) in He as (H1 & H2). split; [|assumption].
      exists g. split; [assumption|]. split; assumption.
    - intros ((g & Hg & (He & Hv)) & Hs). assert (Hi : in_boxes e (bs_intersect (gkeys g) s)) by (apply (GI g Hg); auto).
      exists (g_withKeys g (bs_intersect (gkeys g) s)). split.
      + apply in_flat_map. exists g. split; [assumption|]. cbn. destruct Hi as (b & Hb & _). destruct (bs_intersect (gkeys g) s) eqn:E; [contradiction|]. now left.
      + split; assumption. }
  eexists. split; [reflexivity|]. cbn [meqs mvars mgroups mpoints]. split; [|split; [reflexivity|split; [reflexivity|split]]].
  - destruct X as [x1 x2 x3 x4 x5 x6 x7 x8 x9]. constructor; cbn; auto.
    + intros g' Hg'. destruct (P g' Hg') as (g & Hg & -> & _). destruct (x5 g Hg) as (G & C & _). split; [assumption|]. split; [assumption|]. apply (GI g Hg).
    + intros g' Hg'. now destruct (P g' Hg') as (g & _ & _ & N).
    + intros g' e v Hg' Hh. assert (H : any_holds gs e v) by (exists g'; auto). apply AH in H as ((g & Hg & H) & Hs).
      split; [assumption|]. apply (x7 g e v Hg H).
    + intros e v L H. apply Sp in H as (H & Hs); [|assumption]. split; [assumption|]. apply (x9 e v L H).
  - intros g' Hg'. destruct (P g' Hg') as (g & Hg & -> & _). exists g. auto.
  - intros e v L. unfold stored. cbn [mpoints mgroups]. rewrite (Sp e v L), AH. tauto.
Qed.

Lemma setVariableSpace_spec : forall n k M s, mx n k M -> bs_of k s -> s <> [] -> mpoints M = [] ->
  (forall g, In g (mgroups M) -> regular (gfun g) (gkeys g)) ->
  exists R, mc_setVariableSpace m M s = Ok R /\ mx n k R /\ meqs R = meqs M /\ mvars R = s /\
    (forall g, In g (mgroups R) -> exists g0, In g0 (mgroups M) /\ gfun g = gfun g0) /\
    forall e v, length e = n -> (stored R e v <-> stored M e v /\ in_boxes v s).
Proof.
  intros n k M s X S Ns NP Reg. pose proof (x_n _ _ _ X) as Hn. pose proof (x_k _ _ _ X) as Hk. unfold mc_setVariableSpace.
  rewrite (bs_rank_of k s S Ns), (bs_rank_of k (mvars M)) by apply (x_vars _ _ _ X). rewrite Nat.eqb_refl. cbn [assert_ok bind].
  set (F := fun g => v <- g_values g ;; k0 <- inverse_map m (gfun g) (bs_intersect v s) (gkeys g) ;; Ok (if bs_empty k0 then [] else [g_withKeys g k0])).
  assert (GF : forall g, In g (mgroups M) -> exists r, F g = Ok (if bs_empty r then [] else [g_withKeys g r]) /\ bs_of n r /\
     forall e v, in_boxes e r /\ maps_to (gfun g) e v <-> holds g e v /\ in_boxes v s).
  { intros g Hg. pose proof (x_ok _ _ _ X g Hg) as OK. pose proof OK as (G & _ & K). unfold F.
    destruct (values_spec n k g OK Hn) as (t & -> & Ht & Bt & V1 & V2). cbn [bind].
    destruct (bs_intersect_spec k t s Bt S) as (Bi & Si).
    destruct (good_inverse m Mok n k (gfun g) (gkeys g) t (bs_intersect t s) G Hn K (x_ne _ _ _ X g Hg) (Reg g Hg) Ht Bi) as (r & -> & Br & Sr).
    { intros q Hq. now apply Si in Hq. }
    cbn [bind]. exists r. split; [reflexivity|]. split; [assumption|]. intros e v. rewrite Sr. unfold holds. split.
    + intros ((He & q & Hq & Hi) & Hv). rewrite (maps_to_inj _ e q v Hq Hv) in Hi. apply Si in Hi. tauto.
    + intros ((He & Hv) & Hs). split; [|assumption]. split; [assumption|]. exists v. split; [assumption|]. apply Si. split; [|assumption].
      apply (V1 e v). split; assumption. }
  destruct (map_res_exists _ _ F (mgroups M)) as (gss & E & FF).
  { intros g Hg. destruct (GF g Hg) as (r & -> & _). eauto. }
  rewrite E. cbn [bind].
  assert (P : forall g', In g' (concat gss) -> exists g r, In g (mgroups M) /\ g' = g_withKeys g r /\ r <> [] /\ bs_of n r /\
     forall e v, in_boxes e r /\ maps_to (gfun g) e v <-> holds g e v /\ in_boxes v s).
  { intros g' Hg'. apply in_concat in Hg' as (l & Hl & Hg'). destruct (Forall2_in _ _ _ _ _ _ FF Hl) as (g & Hg & El).
    destruct (GF g Hg) as (r & Er & Br & Sr). rewrite Er in El. injection El as <-. destruct (bs_empty r) eqn:Em; [contradiction|].
    destruct Hg' as [<-|[]]. exists g, r. split; [assumption|]. split; [reflexivity|]. split; [intros ->; discriminate|auto]. }
  assert (AH : forall e v, any_holds (concat gss) e v <-> any_holds (mgroups M) e v /\ in_boxes v s).
  { intros e v. split.
    - intros (g' & Hg' & (He & Hv)). destruct (P g' Hg') as (g & r & Hg & -> & _ & _ & Sr). cbn in He, Hv.
      destruct (proj1 (Sr e v) (conj He Hv)) as (H1 & H2). split; [exists g; auto|assumption].
    - intros ((g & Hg & Hh) & Hs). destruct (GF g Hg) as (r & Er & Br & Sr). destruct (Forall2_in2 _ _ _ _ _ _ FF Hg) as (l & Hl & El).
      rewrite Er in El. injection El as <-. destruct (proj2 (Sr e v) (conj Hh Hs)) as (He & Hv).
      exists (g_withKeys g r). split; [|split; assumption]. apply in_concat. eexists. split; [exact Hl|].
      destruct He as (b & Hb & _). destruct r; [contradiction|]. now left. }
  rewrite NP. cbn [points_in flat_map].
  eexists. split; [reflexivity|]. cbn [meqs mvars mgroups mpoints]. split; [|split; [reflexivity|split; [reflexivity|split]]].
  - destruct X as [x1 x2 x3 x4 x5 x6 x7 x8 x9]. constructor; cbn; auto.
    + intros g' Hg'. destruct (P g' Hg') as (g & r & Hg & -> & _ & Br & _). destruct (x5 g Hg) as (G & C & _). split; [assumption|]. split; assumption.
    + intros g' Hg'. destruct (P g' Hg') as (g & r & _ & -> & N & _). exact N.
    + intros g' e v Hg' Hh. assert (H : any_holds (concat gss) e v) by (exists g'; auto). apply AH in H as ((g & Hg & H) & Hs).
      split; [|assumption]. apply (x7 g e v Hg H).
    + constructor.
    + intros e v L (b & [] & _).
  - intros g' Hg'. destruct (P g' Hg') as (g & r & Hg & -> & _). exists g. auto.
  - intros e v L. unfold stored. cbn [mpoints mgroups]. rewrite NP, AH. split; [|intros ([(b & [] & _)|H] & Hs); auto].
    intros [(b & [] & _)|H]; tauto.
Qed.

Lemma withSpace_spec : forall n k M es vs, mx n k M -> bs_of n es -> es <> [] -> bs_of k vs -> vs <> [] -> mpoints M = [] ->
  (forall g, In g (mgroups M) -> one_use (gfun g)) ->
  (bs_contains (mvars M) vs = false \/ forall e v, entry M e v -> in_boxes v vs) ->
  (forall g, In g (mgroups M) -> regular (gfun g) (gkeys g)) ->
  exists R, mc_withSpace m M es vs = Ok R /\ mx n k R /\
    (forall e, in_boxes e (meqs R) <-> in_boxes e es) /\ (forall v, in_boxes v (mvars R) <-> in_boxes v vs) /\
    forall e v, entry R e v <-> entry M e v /\ in_boxes e es /\ in_boxes v vs.
Proof.
  intros n k M es vs X E Ne V Nv NP OU Cd Reg. pose proof (x_n _ _ _ X) as Hn. pose proof (x_k _ _ _ X) as Hk. unfold mc_withSpace.
  assert (NewOk : (forall e v, ~ (entry M e v /\ in_boxes e es /\ in_boxes v vs)) ->
    exists R, Ok (mc_new es vs) = Ok R /\ mx n k R /\ (forall e, in_boxes e (meqs R) <-> in_boxes e es) /\ (forall v, in_boxes v (mvars R) <-> in_boxes v vs) /\
    forall e v, entry R e v <-> entry M e v /\ in_boxes e es /\ in_boxes v vs).
  { intros N. exists (mc_new es vs). pose proof (new_mx n k es vs Hn Hk E Ne V Nv) as XN. split; [reflexivity|]. split; [assumption|].
    split; [reflexivity|]. split; [reflexivity|]. intros e v. split.
    - intros H. apply (entry_stored n k _ e v XN) in H as (_ & [(b & [] & _)|(g & [] & _)]).
    - intros H. destruct (N e v H). }
  destruct (mc_empty M) eqn:EM; cbn [orb].
  { apply NewOk. intros e v (H & _). apply (entry_stored n k M e v X) in H as (_ & H). unfold mc_empty in EM. unfold stored in H.
    destruct (mgroups M); [|discriminate]. rewrite NP in H. destruct H as [(b & [] & _)|(g & [] & _)]. }
  destruct (bs_overlaps (meqs M) es) eqn:O1; cbn [negb orb].
  2:{ apply NewOk. intros e v (H & He & Hv). assert (bs_overlaps (meqs M) es = true); [|congruence]. apply bs_overlaps_spec. exists e.
      split; [|assumption]. apply (get_cell M e v true H). }
  destruct (bs_overlaps (mvars M) vs) eqn:O2; cbn [negb orb].
  2:{ apply NewOk. intros e v (H & He & Hv). assert (bs_overlaps (mvars M) vs = true); [|congruence]. apply bs_overlaps_spec. exists v.
      split; [|assumption]. apply (get_cell M e v true H). }
  destruct (bs_eq es (meqs M) && bs_eq vs (mvars M)) eqn:EQ.
  { apply andb_true_iff in EQ as (Q1 & Q2). pose proof (proj1 (bs_eq_spec _ _) Q1) as S1. pose proof (proj1 (bs_eq_spec _ _) Q2) as S2.
    exists M. split; [reflexivity|]. split; [assumption|]. split; [intros; now rewrite S1|]. split; [intros; now rewrite S2|].
    intros e v. split; [|tauto]. intros H. split; [assumption|]. pose proof (get_cell M e v true H) as (C1 & C2). split; [now apply S1|now apply S2]. }
  clear EQ.
  set (FK := fun g => keys <- (if negb (bs_contains (mvars M) vs) then g' <- g_filterValues m g vs ;; Ok (bs_intersect (gkeys g') es)
                               else Ok (bs_intersect (gkeys g) es)) ;; Ok (g_addKeys (g_build (gfun g)) keys)).
  assert (GF : forall g, In g (mgroups M) -> exists r, FK g = Ok (g_addKeys (g_build (gfun g)) r) /\ bs_of n r /\
     (forall e v, in_boxes e r /\ maps_to (gfun g) e v <-> holds g e v /\ in_boxes e es /\ in_boxes v vs) /\
     (if negb (bs_contains (mvars M) vs) then g' <- g_filterValues m g vs ;; Ok (bs_intersect (gkeys g') es)
                               else Ok (bs_intersect (gkeys g) es)) = Ok r).
  { intros g Hg. pose proof (x_ok _ _ _ X g Hg) as OK. pose proof OK as (G & _ & K). unfold FK.
    destruct (bs_contains (mvars M) vs) eqn:BC; cbn [negb].
    - cbn [bind]. destruct (bs_intersect_spec n (gkeys g) es K E) as (Bi & Si). exists (bs_intersect (gkeys g) es). split; [reflexivity|].
      split; [assumption|]. split; [|reflexivity]. intros e v. rewrite Si. unfold holds. split; [|tauto]. intros ((H1 & H2) & H3).
      split; [tauto|]. split; [assumption|]. destruct Cd as [Cd|Cd]; [congruence|]. apply (Cd e v). apply (entry_stored n k M e v X).
      assert (Hh : holds g e v) by (split; assumption). split; [exact (x_in _ _ _ X g e v Hg Hh)|]. right. exists g. auto.
    - destruct (filterValues_spec m Mok n k g vs OK (x_ne _ _ _ X g Hg) Hn V (Reg g Hg)) as (g' & -> & OK' & Fg & Hh). cbn [bind].
      destruct (bs_intersect_spec n (gkeys g') es (proj2 (proj2 OK')) E) as (Bi & Si). exists (bs_intersect (gkeys g') es). split; [reflexivity|].
      split; [assumption|]. split; [|reflexivity]. intros e v. rewrite Si. specialize (Hh e v). unfold holds in Hh at 1. rewrite Fg in Hh. tauto. }
  assert (EXT : fold_res (fun A g => keys <- (if negb (bs_contains (mvars M) vs)
                    then g' <- g_filterValues m g vs ;; Ok (bs_intersect (gkeys g') es)
                    else Ok (bs_intersect (gkeys g) es)) ;;
           if bs_empty keys then Ok A else mc_addGroup A (g_addKeys (g_build (gfun g)) keys)) (mgroups M) (mc_new es vs) =
        fold_res (fun A g => g' <- FK g ;; if bs_empty (gkeys g') then Ok A else mc_addGroup A g') (mgroups M) (mc_new es vs)).
  { apply fold_res_ext. intros A g Hg. destruct (GF g Hg) as (r & -> & _ & _ & ->). cbn [bind].
    assert (gkeys (g_addKeys (g_build (gfun g)) r) = r) as -> by (destruct (gfun g); reflexivity). reflexivity. }
  rewrite EXT. clear EXT.
  assert (HB : forall f r e v, holds (g_addKeys (g_build f) r) e v <-> in_boxes e r /\ maps_to f e v).
  { intros f r e v. unfold holds. destruct f; reflexivity. }
  destruct (fold_add n k FK (mgroups M) (mc_new es vs) Hn) as (R & ER & E1 & E2 & E3 & S1 & S2).
  { intros g Hg. destruct (GF g Hg) as (r & Er & Br & Sr & _). eexists. split; [exact Er|]. destruct (x_ok _ _ _ X g Hg) as (G & _ & _).
    destruct (build_ok n k (gfun g) G) as (Bok & Bf & Bk). split; [now apply addKeys_ok|]. split; [cbn; rewrite Bf; auto|].
    intros e v Hh. apply HB, Sr in Hh. split; cbn; tauto. }
  rewrite ER. cbn [bind mc_new meqs mvars mpoints mgroups] in *. rewrite E3. cbn [bs_empty].
  assert (XR : mx n k R).
  { apply (mx_rebuild n k (mc_new es vs) R (new_mx n k es vs Hn Hk E Ne V Nv)); cbn; auto.
    - intros g' Hg'. destruct (S1 g' Hg') as [[]|(N & g & Hg & Eg)]. destruct (GF g Hg) as (r & Er & Br & Sr & _). rewrite Er in Eg. injection Eg as <-.
      destruct (x_ok _ _ _ X g Hg) as (G & _ & _). destruct (build_ok n k (gfun g) G) as (Bok & Bf & Bk). split; [now apply addKeys_ok|].
      split; [assumption|]. intros e v Hh. apply HB, Sr in Hh. split; cbn; tauto.
    - rewrite E3. constructor.
    - rewrite E3. intros e v _ (b & [] & _). }
  exists R. split; [reflexivity|]. split; [assumption|]. split; [now rewrite E1|]. split; [now rewrite E2|].
  intros e v. rewrite (entry_stored n k R e v XR), (entry_stored n k M e v X). unfold stored. rewrite E3, NP, S2. split.
  - intros (C & [(b & [] & _)|[(g & [] & _)|(g & g' & Hg & Eg & Hh)]]). destruct (GF g Hg) as (r & Er & Br & Sr & _). rewrite Er in Eg. injection Eg as <-.
    apply HB, Sr in Hh as (Hh & H1 & H2). split; [|auto]. split; [exact (x_in _ _ _ X g e v Hg Hh)|]. right. exists g. auto.
  - intros ((C & [(b & [] & _)|(g & Hg & Hh)]) & H1 & H2). split; [split; rewrite ?E1, ?E2; assumption|]. right. right.
    destruct (GF g Hg) as (r & Er & Br & Sr & _). eexists. eexists. split; [exact Hg|]. split; [exact Er|]. apply HB, Sr. auto.
Qed.
End M.
