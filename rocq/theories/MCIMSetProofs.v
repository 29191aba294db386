(** Setting and clearing single entries of incidence matrices; histories. *)
From Coq Require Import ZArith List Bool Lia ZifyBool.
From Verif Require Import RangeModel MDRangeModel Result BoxSetModel AccessModel Spec AccessSpec
  RangeProofs MDRangeProofs BoxListProofs BoxSetProofs AccessProofs AccessImageProofs
  AccessInverseProofs AccessPreimageProofs AccessInverseExactProofs AccessCombineProofs ListTac
  MCIMModel MCIMSpec MCIMProofs.
Import ListNotations.
Open Scope Z_scope.

Section M.
Variable m : mlir.
Variable Mok : mlir_ok m.

Lemma point_of : forall rk (p : point), length p = rk -> (1 <= rk)%nat -> bs_of rk (bs_point p).
Proof. intros rk p L H. constructor; [|constructor]. now apply of_point_box. Qed.

Lemma regular_point : forall f p, regular f (bs_point p).
Proof. intros [] p; cbn; auto. left. unfold bs_point. eauto. Qed.

(** The preimage of one element in one equation. *)
Lemma inverse_point : forall n k f e v, good n k f -> (1 <= n)%nat -> length e = n -> length v = k -> agrees f e v ->
  exists r, inverse_map m f (bs_point v) (bs_point e) = Ok r /\ bs_of n r /\
    (forall p, in_boxes p r <-> p = e /\ maps_to f e v).
Proof.
  intros n k f e v G Hn Le Lv A. assert (Hk : (1 <= k)%nat) by apply G.
  assert (Be : bs_of n (bs_point e)) by now apply point_of.
  assert (Bv : bs_of k (bs_point v)) by now apply point_of.
  destruct (good_image n k f (bs_point e) G Hn Be) as (t & Ht & Bt & I1 & I2).
  destruct (good_maps n k f e G Le) as (q & Lq & Hq).
  assert (EX : (forall x, in_boxes x (bs_point v) -> in_boxes x t) ->
    exists r, inverse_map m f (bs_point v) (bs_point e) = Ok r /\ bs_of n r /\ (forall p, in_boxes p r <-> p = e /\ maps_to f e v)).
  { intros Sub. destruct (good_inverse m Mok n k f (bs_point e) t (bs_point v) G Hn Be) as (r & Hr & Br & Sr); auto.
    - discriminate.
    - apply regular_point.
    - exists r. split; [assumption|]. split; [assumption|]. intros p. rewrite Sr. unfold bs_point. rewrite in_boxes_point. split.
      + intros (-> & x & Hx & Hv). apply (in_boxes_point _ v) in Hv as ->. auto.
      + intros (-> & H). split; [reflexivity|]. exists v. split; [assumption|]. now apply in_boxes_point. }
  destruct (list_eq_dec Z.eq_dec v q) as [->|Nv].
  { apply EX. intros x Hx. apply (in_boxes_point _ q) in Hx as ->. apply (I1 e q); [now apply in_boxes_point|assumption]. }
  assert (Nm : ~ maps_to f e v) by (intros H; apply Nv; exact (maps_to_inj f e v q H Hq)).
  destruct f as [|n' rs|n' rs|n' rs|n' rs].
  - destruct (af_wf_good _ _ _ G). lia.
  - unfold inverse_map. cbn [af_inverseMap]. unfold const_inverseMap. rewrite Ht. cbn [bind bs_empty bs_point andb]. change (bs_empty (bs_point v)) with false. cbn [andb]. unfold bs_point at 1.
    assert (bs_contains t [mdrange_of_point v] = false) as ->.
    { destruct (bs_contains t [mdrange_of_point v]) eqn:C; [|reflexivity]. exfalso.
      apply (bs_contains_spec t) with (p := v) in C; [|now apply in_boxes_point]. apply (I2 I) in C as (p & Hp & Hm).
      apply (in_boxes_point _ e) in Hp as ->. contradiction. }
    exists []. split; [reflexivity|]. split; [constructor|]. intros p. split; [intros (b & [] & _)|tauto].
  - destruct G as (_ & []).
  - contradiction.
  - unfold inverse_map. cbn [af_inverseMap].
    destruct (base_inverse_spec (AFGeneric n' rs) (bs_point v) (bs_point e)) as (r & Hr & Sr).
    { intros p Hp. apply (in_boxes_point _ e) in Hp as ->. destruct Hq as (s & Es & _). eauto. }
    rewrite Hr.
    assert (S2 : forall p, in_boxes p r <-> p = e /\ maps_to (AFGeneric n' rs) e v).
    { intros p. rewrite Sr. unfold bs_point. rewrite in_boxes_point. split; [|tauto]. intros (-> & s & Es & Hs). exfalso.
      apply Nv. assert (in_boxes q s) by (apply (maps_point _ e q s Hq Es); reflexivity). apply Hs in H. apply (in_boxes_point _ v) in H. congruence. }
    exists r. split; [reflexivity|]. split; [|assumption].
    unfold base_inverseMap in Hr. apply bind_ok in Hr as (l & Hl & Hr). injection Hr as <-.
    destruct l as [|p l]; [constructor|]. exfalso. apply Nm. apply (S2 p). apply of_points_in. now left.
Qed.

(** What setting (clearing) a pair does to one group. *)
Lemma g_set_spec : forall n k g e v, group_ok n k g -> (1 <= n)%nat -> length e = n -> length v = k -> agrees (gfun g) e v ->
  exists g' b, g_set m g e v = Ok (g', b) /\ gfun g' = gfun g /\ gclass g' = gclass g /\ bs_of n (gkeys g') /\
    (b = true <-> maps_to (gfun g) e v) /\
    forall p, in_boxes p (gkeys g') <-> in_boxes p (gkeys g) \/ (p = e /\ maps_to (gfun g) e v).
Proof.
  intros n k g e v OK Hn Le Lv A. pose proof OK as (G & _ & K). assert (Hk : (1 <= k)%nat) by apply G. unfold g_set.
  destruct (class_cases n k g OK Hn) as [Ec|(Ec & rs & F)]; rewrite Ec.
  - destruct (inverse_point n k (gfun g) e v G Hn Le Lv A) as (r & -> & Br & Sr). cbn [bind]. eexists. eexists. split; [reflexivity|].
    cbn. split; [reflexivity|]. split; [exact Ec|]. split; [unfold bs_union; now apply Forall_app|]. split.
    + destruct (bs_empty r) eqn:E; cbn [negb].
      * split; [discriminate|]. intros H. exfalso. assert (in_boxes e r) by (apply Sr; auto). destruct H0 as (b & Hb & _). destruct r; [contradiction|discriminate].
      * split; [|reflexivity]. intros _. destruct (bs_nonempty n r Br) as (p & Hp); [intros ->; discriminate|]. now apply Sr in Hp.
    + intros p. rewrite bs_union_spec, Sr. reflexivity.
  - rewrite F in G |- *. destruct (mapped_spec n k rs G) as (c & -> & Lc & Hm). cbn [bind]. pose proof (Hm e v Le) as Hv.
    destruct (bs_mem (bs_point c) v) eqn:B.
    + apply bs_mem_spec, (in_boxes_point _ c) in B as ->. eexists. eexists. split; [reflexivity|]. cbn. split; [auto|]. split; [auto|].
      split; [unfold bs_union; apply Forall_app; split; [assumption|now apply point_of]|]. split; [tauto|].
      intros p. rewrite bs_union_spec. unfold bs_point. rewrite in_boxes_point. tauto.
    + apply bs_mem_false in B. assert (v <> c) by (intros ->; apply B; now apply in_boxes_point).
      eexists. eexists. split; [reflexivity|]. split; [auto|]. split; [auto|]. split; [assumption|]. split.
      * split; [discriminate|]. tauto.
      * intros p. tauto.
Qed.

Lemma g_unset_spec : forall n k g e v, group_ok n k g -> (1 <= n)%nat -> length e = n -> length v = k -> maps_to (gfun g) e v ->
  exists g', g_unset m g e v = Ok (g', true) /\ gfun g' = gfun g /\ gclass g' = gclass g /\ bs_of n (gkeys g') /\
    forall p, in_boxes p (gkeys g') <-> in_boxes p (gkeys g) /\ p <> e.
Proof.
  intros n k g e v OK Hn Le Lv A. pose proof OK as (G & _ & K). assert (Hk : (1 <= k)%nat) by apply G. unfold g_unset.
  destruct (class_cases n k g OK Hn) as [Ec|(Ec & rs & F)]; rewrite Ec.
  - destruct (inverse_point n k (gfun g) e v G Hn Le Lv) as (r & -> & Br & Sr); [destruct (gfun g); cbn; auto|]. cbn [bind].
    assert (bs_empty r = false) as ->.
    { assert (in_boxes e r) by (apply Sr; auto). destruct H as (b & Hb & _). destruct r; [contradiction|reflexivity]. }
    destruct (bs_diff_spec n r (gkeys g) K Br) as (Bd & Sd).
    eexists. split; [reflexivity|]. cbn. split; [reflexivity|]. split; [exact Ec|]. split; [assumption|].
    intros p. rewrite Sd, Sr. tauto.
  - rewrite F in G, A |- *. destruct (mapped_spec n k rs G) as (c & -> & Lc & Hm). cbn [bind]. apply (Hm e v Le) in A as ->.
    assert (bs_mem (bs_point c) c = true) as -> by (apply bs_mem_spec; now apply in_boxes_point).
    destruct (bs_diff_spec n (bs_point e) (gkeys g) K (point_of n e Le Hn)) as (Bd & Sd).
    eexists. split; [reflexivity|]. cbn. split; [auto|]. split; [auto|]. split; [assumption|].
    intros p. rewrite Sd. unfold bs_point. rewrite in_boxes_point. tauto.
Qed.

Lemma map_res_exists : forall A B (f : A -> res B) l, (forall x, In x l -> exists y, f x = Ok y) ->
  exists r, map_res f l = Ok r /\ Forall2 (fun x y => f x = Ok y) l r.
Proof.
  intros A B f l H. destruct (map_res_total A B f l H) as (r & Hr). exists r. split; [assumption|]. now apply map_res_ok.
Qed.

Lemma Forall2_in : forall A B (R : A -> B -> Prop) l r y, Forall2 R l r -> In y r -> exists x, In x l /\ R x y.
Proof.
  intros A B R l r y F. induction F as [|x y' l r H F IH]; intros I; [contradiction|]. destruct I as [<-|I].
  - exists x. split; [now left|assumption].
  - destruct (IH I) as (x' & Hx & Hr). exists x'. split; [now right|assumption].
Qed.
Lemma Forall2_in2 : forall A B (R : A -> B -> Prop) l r x, Forall2 R l r -> In x l -> exists y, In y r /\ R x y.
Proof.
  intros A B R l r x F. induction F as [|x' y l r H F IH]; intros I; [contradiction|]. destruct I as [<-|I].
  - exists y. split; [now left|assumption].
  - destruct (IH I) as (y' & Hy & Hr). exists y'. split; [now right|assumption].
Qed.

Lemma app_inj_len : forall (e e' v v' : point), length e = length e' -> e ++ v = e' ++ v' -> e = e' /\ v = v'.
Proof.
  induction e as [|x e IH]; intros [|y e'] v v' L H; cbn in *; try discriminate; [auto|].
  injection H as -> H. destruct (IH e' v v') as (-> & ->); auto.
Qed.

Lemma set_spec : forall n k M e v, mx n k M -> cell M e v -> (forall g, In g (mgroups M) -> agrees (gfun g) e v) ->
  exists M', mc_set m M e v = Ok M' /\ mx n k M' /\ meqs M' = meqs M /\ mvars M' = mvars M /\
    (forall g, In g (mgroups M') -> exists g0, In g0 (mgroups M) /\ gfun g = gfun g0) /\
    forall e' v', length e' = n -> (stored M' e' v' <-> stored M e' v' \/ (e' = e /\ v' = v)).
Proof.
  intros n k M e v X C A. pose proof (x_n _ _ _ X) as Hn. pose proof (x_k _ _ _ X) as Hk.
  destruct (cell_length n k M e v X C) as (Le & Lv). unfold mc_set. destruct C as (He & Hv).
  rewrite (proj2 (bs_mem_spec _ _) He), (proj2 (bs_mem_spec _ _) Hv). cbn [assert_ok bind].
  pose proof (x_ok _ _ _ X) as OK.
  destruct (map_res_exists _ _ (fun g => g_set m g e v) (mgroups M)) as (l & -> & F).
  { intros g Hg. destruct (g_set_spec n k g e v (OK g Hg) Hn Le Lv (A g Hg)) as (g' & b & E & _). eauto. }
  cbn [bind].
  assert (P : forall g', In g' (map fst l) -> exists g, In g (mgroups M) /\ gfun g' = gfun g /\ gclass g' = gclass g /\ bs_of n (gkeys g') /\
     forall p, in_boxes p (gkeys g') <-> in_boxes p (gkeys g) \/ (p = e /\ maps_to (gfun g) e v)).
  { intros g' Hg'. apply in_map_iff in Hg' as ((g1 & b) & <- & Hl). cbn. destruct (Forall2_in _ _ _ _ _ _ F Hl) as (g & Hg & E).
    exists g. split; [assumption|]. destruct (g_set_spec n k g e v (OK g Hg) Hn Le Lv (A g Hg)) as (g2 & b2 & E2 & R). rewrite E in E2.
    injection E2 as <- <-. tauto. }
  assert (Q : forall g, In g (mgroups M) -> exists g', In g' (map fst l) /\ gfun g' = gfun g /\
     forall p, in_boxes p (gkeys g') <-> in_boxes p (gkeys g) \/ (p = e /\ maps_to (gfun g) e v)).
  { intros g Hg. destruct (Forall2_in2 _ _ _ _ _ _ F Hg) as ((g1 & b) & Hl & E). exists g1. split; [apply in_map_iff; exists (g1, b); auto|].
    destruct (g_set_spec n k g e v (OK g Hg) Hn Le Lv (A g Hg)) as (g2 & b2 & E2 & R). rewrite E in E2.
    injection E2 as <- <-. tauto. }
  assert (B : existsb snd l = true <-> exists g, In g (mgroups M) /\ maps_to (gfun g) e v).
  { rewrite existsb_exists. split.
    - intros ((g1 & b) & Hl & Hb). cbn in Hb. subst b. destruct (Forall2_in _ _ _ _ _ _ F Hl) as (g & Hg & E). exists g. split; [assumption|].
      destruct (g_set_spec n k g e v (OK g Hg) Hn Le Lv (A g Hg)) as (g2 & b2 & E2 & _ & _ & _ & R & _). rewrite E in E2.
      injection E2 as <- <-. now apply R.
    - intros (g & Hg & Hm). destruct (Forall2_in2 _ _ _ _ _ _ F Hg) as ((g1 & b) & Hl & E). exists (g1, b). split; [assumption|].
      destruct (g_set_spec n k g e v (OK g Hg) Hn Le Lv (A g Hg)) as (g2 & b2 & E2 & _ & _ & _ & R & _). rewrite E in E2.
      injection E2 as <- <-. cbn. now apply R. }
  set (M' := if existsb snd l then mc_withGroups M (map fst l)
             else mc_withPoints (mc_withGroups M (map fst l)) (bs_union (mpoints M) (bs_point (e ++ v)))).
  assert (G' : mgroups M' = map fst l) by (unfold M'; destruct (existsb snd l); reflexivity).
  assert (E' : meqs M' = meqs M) by (unfold M'; destruct (existsb snd l); reflexivity).
  assert (V' : mvars M' = mvars M) by (unfold M'; destruct (existsb snd l); reflexivity).
  assert (P' : (existsb snd l = true /\ mpoints M' = mpoints M) \/ (existsb snd l = false /\ mpoints M' = bs_union (mpoints M) (bs_point (e ++ v)))).
  { unfold M'. destruct (existsb snd l); [left|right]; auto. }
  assert (AH : forall e' v', any_holds (map fst l) e' v' <->
     any_holds (mgroups M) e' v' \/ (e' = e /\ v' = v /\ exists g, In g (mgroups M) /\ maps_to (gfun g) e v)).
  { intros e' v'. unfold any_holds, holds. split.
    - intros (g' & Hg' & Hk' & Hm). destruct (P g' Hg') as (g & Hg & Ef & _ & _ & Kg). rewrite Ef in Hm. destruct (proj1 (Kg e') Hk') as [Hk2|(-> & H2)].
      + left. eauto.
      + right. split; [reflexivity|]. split; [exact (maps_to_inj _ e v' v Hm H2)|eauto].
    - intros [(g & Hg & Hk' & Hm)|(-> & -> & g & Hg & Hm)]; destruct (Q g Hg) as (g' & Hg' & Ef & Kg); exists g'; (split; [assumption|]); rewrite Ef; split; auto; apply Kg; auto. }
  exists M'. split; [reflexivity|].
  assert (ST : forall e' v', length e' = n -> (stored M' e' v' <-> stored M e' v' \/ (e' = e /\ v' = v))).
  { intros e' v' L'. unfold stored. rewrite G', AH. destruct P' as [(B1 & ->)|(B1 & ->)].
    - apply B in B1. tauto.
    - rewrite bs_union_spec. unfold bs_point at 1. rewrite in_boxes_point.
      assert (N : ~ exists g, In g (mgroups M) /\ maps_to (gfun g) e v) by (rewrite <- B; congruence).
      split.
      + intros [[H|H]|[H|(_ & _ & H)]]; try tauto. right. apply app_inj_len in H; [assumption|lia].
      + intros [[H|H]|(-> & ->)]; tauto. }
  split; [|split; [assumption|split; [assumption|split; [|assumption]]]].
  - assert (CE : forall a b, cell M' a b <-> cell M a b) by (intros; unfold cell; now rewrite E', V').
    destruct X as [x_n0 x_k0 x_eqs0 x_vars0 x_ok0 x_ne0 x_in0 x_points0 x_pin0]. constructor; rewrite ?E', ?V', ?G'; auto.
    + intros g' Hg'. destruct (P g' Hg') as (g & Hg & Ef & Ec & Bk & _). destruct (x_ok0 g Hg) as (Gg & Cg & _).
      split; [now rewrite Ef|]. split; [now rewrite Ef, Ec|assumption].
    + intros g' Hg'. destruct (P g' Hg') as (g & Hg & _ & _ & _ & Kg). destruct (bs_nonempty n (gkeys g)) as (p & Hp); [apply OK; assumption|auto|].
      assert (in_boxes p (gkeys g')) by (apply Kg; now left). intros N. rewrite N in H. destruct H as (b & [] & _).
    + intros g' e' v' Hg' Hh. apply CE. assert (any_holds (map fst l) e' v') by (exists g'; auto). apply AH in H as [(g & Hg & H)|(-> & -> & _)].
      * now apply (x_in0 g).
      * split; assumption.
    + destruct P' as [(_ & ->)|(_ & ->)]; [assumption|]. unfold bs_union. apply Forall_app. split; [assumption|]. apply point_of; [|lia].
      rewrite app_length. lia.
    + intros e' v' L' H'. apply CE. destruct P' as [(_ & EP)|(_ & EP)]; rewrite EP in H'; [now apply x_pin0|].
      apply bs_union_spec in H' as [H'|H']; [now apply x_pin0|]. apply (in_boxes_point _ (e ++ v)) in H'. apply app_inj_len in H' as (-> & ->); [|lia].
      split; assumption.
  - rewrite G'. intros g' Hg'. destruct (P g' Hg') as (g & Hg & Ef & _). eauto.
Qed.

Lemma unset_spec : forall n k M e v, mx n k M -> cell M e v -> (forall g, In g (mgroups M) -> maps_to (gfun g) e v) ->
  exists M', mc_unset m M e v = Ok M' /\ mx n k M' /\ meqs M' = meqs M /\ mvars M' = mvars M /\
    (forall g, In g (mgroups M') -> exists g0, In g0 (mgroups M) /\ gfun g = gfun g0) /\
    forall e' v', length e' = n -> (stored M' e' v' <-> stored M e' v' /\ ~ (e' = e /\ v' = v)).
Proof.
  intros n k M e v X C A. pose proof (x_n _ _ _ X) as Hn. pose proof (x_k _ _ _ X) as Hk.
  destruct (cell_length n k M e v X C) as (Le & Lv). unfold mc_unset. destruct C as (He & Hv).
  rewrite (proj2 (bs_mem_spec _ _) He), (proj2 (bs_mem_spec _ _) Hv). cbn [assert_ok bind].
  pose proof (x_ok _ _ _ X) as OK.
  destruct (map_res_exists _ _ (fun g => g_unset m g e v) (mgroups M)) as (l & -> & F).
  { intros g Hg. destruct (g_unset_spec n k g e v (OK g Hg) Hn Le Lv (A g Hg)) as (g' & E & _). eauto. }
  cbn [bind].
  set (gs := map fst (filter (fun q => snd q && negb (bs_empty (gkeys (fst q)))) l)).
  assert (P : forall g', In g' gs -> exists g, In g (mgroups M) /\ gfun g' = gfun g /\ gclass g' = gclass g /\ bs_of n (gkeys g') /\
     gkeys g' <> [] /\ forall p, in_boxes p (gkeys g') <-> in_boxes p (gkeys g) /\ p <> e).
  { intros g' Hg'. apply in_map_iff in Hg' as ((g1 & b) & <- & Hl). cbn. apply filter_In in Hl as (Hl & Hb). cbn in Hb.
    destruct (Forall2_in _ _ _ _ _ _ F Hl) as (g & Hg & E).
    exists g. split; [assumption|]. destruct (g_unset_spec n k g e v (OK g Hg) Hn Le Lv (A g Hg)) as (g2 & E2 & R). rewrite E in E2.
    injection E2 as <- ->. split; [tauto|]. split; [tauto|]. split; [tauto|]. split; [|tauto]. intros N. rewrite N in Hb. discriminate. }
  assert (Q : forall g p, In g (mgroups M) -> in_boxes p (gkeys g) -> p <> e -> exists g', In g' gs /\ gfun g' = gfun g /\ in_boxes p (gkeys g')).
  { intros g p Hg Hp Np. destruct (Forall2_in2 _ _ _ _ _ _ F Hg) as ((g1 & b) & Hl & E).
    destruct (g_unset_spec n k g e v (OK g Hg) Hn Le Lv (A g Hg)) as (g2 & E2 & Ef & _ & _ & R). rewrite E in E2.
    injection E2 as <- ->. assert (Hp' : in_boxes p (gkeys g1)) by (apply R; auto). exists g1. split; [|auto].
    apply in_map_iff. exists (g1, true). split; [reflexivity|]. apply filter_In. split; [assumption|]. cbn.
    destruct Hp' as (b & Hb & _). destruct (gkeys g1); [contradiction|reflexivity]. }
  assert (AH : forall e' v', any_holds gs e' v' <-> any_holds (mgroups M) e' v' /\ e' <> e).
  { intros e' v'. unfold any_holds, holds. split.
    - intros (g' & Hg' & Hk' & Hm). destruct (P g' Hg') as (g & Hg & Ef & _ & _ & _ & Kg). rewrite Ef in Hm. destruct (proj1 (Kg e') Hk') as (Hk2 & Ne). split; [|assumption]. eauto.
    - intros ((g & Hg & Hk' & Hm) & Ne). destruct (Q g e' Hg Hk' Ne) as (g' & Hg' & Ef & Kg). exists g'. rewrite Ef. auto. }
  destruct (bs_diff_spec (n + k) (bs_point (e ++ v)) (mpoints M)) as (Bd & Sd).
  { apply (x_points _ _ _ X). } { apply point_of; [rewrite app_length; lia|lia]. }
  exists (mkMcim (meqs M) (mvars M) gs (bs_diff (mpoints M) (bs_point (e ++ v)))). split; [reflexivity|].
  split; [|split; [reflexivity|split; [reflexivity|split]]].
  - destruct X as [x_n0 x_k0 x_eqs0 x_vars0 x_ok0 x_ne0 x_in0 x_points0 x_pin0]. constructor; cbn; auto.
    + intros g' Hg'. destruct (P g' Hg') as (g & Hg & Ef & Ec & Bk & _). destruct (x_ok0 g Hg) as (Gg & Cg & _).
      split; [now rewrite Ef|]. split; [now rewrite Ef, Ec|assumption].
    + intros g' Hg'. now destruct (P g' Hg') as (g & _ & _ & _ & _ & N & _).
    + intros g' e' v' Hg' Hh. assert (any_holds gs e' v') by (exists g'; auto). apply AH in H as ((g & Hg & H) & _).
      exact (x_in0 g e' v' Hg H).
    + intros e' v' L' H'. apply Sd in H' as (H' & _). exact (x_pin0 e' v' L' H').
  - cbn. intros g' Hg'. destruct (P g' Hg') as (g & Hg & Ef & _). eauto.
  - intros e' v' L'. unfold stored. cbn. rewrite AH, Sd. unfold bs_point at 1. rewrite in_boxes_point.
    assert (Y : e' ++ v' = e ++ v <-> e' = e /\ v' = v).
    { split; [|intros (-> & ->); reflexivity]. apply app_inj_len. lia. }
    rewrite Y. split.
    + intros [(H1 & H2)|(H1 & H2)]; [tauto|]. split; [now right|]. tauto.
    + intros ([H1|H1] & H2); [tauto|]. right. split; [assumption|]. intros ->. apply H2. split; [reflexivity|].
      destruct H1 as (g & Hg & _ & Hm). exact (maps_to_inj _ e v' v Hm (A g Hg)).
Qed.

(** *** Histories. *)
Lemma new_mx : forall n k eqs vars, (1 <= n)%nat -> (1 <= k)%nat -> bs_of n eqs -> eqs <> [] -> bs_of k vars -> vars <> [] ->
  mx n k (mc_new eqs vars).
Proof.
  intros n k eqs vars Hn Hk E Ne V Nv. constructor; cbn; auto; try contradiction.
  - constructor.
  - intros e v _ (b & [] & _).
Qed.

Lemma op_spec : forall n k M fs o, mx n k M -> (forall g, In g (mgroups M) -> In (gfun g) fs) ->
  permitted m n k (meqs M) (mvars M) fs o ->
  exists M', run_op m M o = Ok M' /\ mx n k M' /\ meqs M' = meqs M /\ mvars M' = mvars M /\
    (forall g, In g (mgroups M') -> In (gfun g) (fs ++ op_functions o)) /\
    forall e v, entry M' e v <-> effect (mvars M) o (entry M) e v.
Proof.
  intros n k M fs o X Hfs Pm. destruct o as [s f|e v|e v]; cbn [run_op permitted op_functions effect] in *.
  - destruct Pm as (A & Bs & Ns & Reg & Sub). destruct (apply_spec m Mok n k M s f X (affine_good m Mok n k f A) Bs Ns Reg Sub)
      as (M' & E & X' & E1 & E2 & _ & Fs & S). exists M'. split; [assumption|]. split; [assumption|]. split; [assumption|]. split; [assumption|]. split.
    + intros g Hg. apply in_or_app. destruct (Fs g Hg) as [<-|(g0 & H0 & ->)]; [right; now left|left; auto].
    + intros e v. rewrite (entry_stored n k M' e v X'), (entry_stored n k M e v X), S. unfold cell. rewrite E1, E2. split.
      * tauto.
      * intros [H|(H1 & H2 & H3)]; [tauto|]. split; [|tauto]. split; auto.
  - destruct Pm as (He & Hv & Ag). destruct (set_spec n k M e v X (conj He Hv)) as (M' & E & X' & E1 & E2 & Fs & S).
    { intros g Hg. apply Ag. auto. }
    exists M'. split; [assumption|]. split; [assumption|]. split; [assumption|]. split; [assumption|]. split.
    + intros g Hg. rewrite app_nil_r. destruct (Fs g Hg) as (g0 & H0 & ->). auto.
    + intros e' v'. rewrite (entry_stored n k M' e' v' X'), (entry_stored n k M e' v' X). unfold cell. rewrite E1, E2. split.
      * intros (C & H). apply S in H; [tauto|]. now apply (cell_length n k M e' v' X).
      * intros [(C & H)|(-> & ->)].
        -- split; [assumption|]. apply S; [now apply (cell_length n k M e' v' X)|now left].
        -- split; [split; assumption|]. apply S; [now apply (cell_length n k M e v X (conj He Hv))|now right].
  - destruct Pm as (He & Hv & Ag). destruct (unset_spec n k M e v X (conj He Hv)) as (M' & E & X' & E1 & E2 & Fs & S).
    { intros g Hg. apply Ag. auto. }
    exists M'. split; [assumption|]. split; [assumption|]. split; [assumption|]. split; [assumption|]. split.
    + intros g Hg. rewrite app_nil_r. destruct (Fs g Hg) as (g0 & H0 & ->). auto.
    + intros e' v'. rewrite (entry_stored n k M' e' v' X'), (entry_stored n k M e' v' X). unfold cell. rewrite E1, E2. split.
      * intros (C & H). apply S in H; [tauto|]. now apply (cell_length n k M e' v' X).
      * intros ((C & H) & N). split; [assumption|]. apply S; [now apply (cell_length n k M e' v' X)|tauto].
Qed.

Lemma effect_ext : forall vars o R R', (forall e v, R e v <-> R' e v) -> forall e v, effect vars o R e v <-> effect vars o R' e v.
Proof. intros vars [] R R' H e' v'; cbn; rewrite (H e' v'); reflexivity. Qed.
Lemma effects_ext : forall vars l R R', (forall e v, R e v <-> R' e v) -> forall e v, effects vars l R e v <-> effects vars l R' e v.
Proof.
  intros vars l. induction l as [|o l IH]; intros R R' H e v; cbn; [apply H|]. apply IH. now apply effect_ext.
Qed.

Lemma history_spec : forall n k l M fs, mx n k M -> (forall g, In g (mgroups M) -> In (gfun g) fs) ->
  all_permitted m n k (meqs M) (mvars M) fs l ->
  exists M', fold_res (run_op m) l M = Ok M' /\ mx n k M' /\ meqs M' = meqs M /\ mvars M' = mvars M /\
    forall e v, entry M' e v <-> effects (mvars M) l (entry M) e v.
Proof.
  intros n k l. induction l as [|o l IH]; intros M fs X Hfs Pm.
  - exists M. cbn. split; [reflexivity|]. split; [assumption|]. repeat (split; [reflexivity|]). reflexivity.
  - cbn [all_permitted] in Pm. destruct Pm as (Po & Pl). destruct (op_spec n k M fs o X Hfs Po) as (M1 & E1 & X1 & Eq1 & V1 & F1 & S1).
    destruct (IH M1 (fs ++ op_functions o) X1 F1) as (M2 & E2 & X2 & Eq2 & V2 & S2).
    { now rewrite Eq1, V1. }
    exists M2. cbn [fold_res]. rewrite E1. cbn [bind]. split; [assumption|]. split; [assumption|]. split; [congruence|]. split; [congruence|].
    intros e v. rewrite S2. cbn [effects]. rewrite V1. apply effects_ext. exact S1.
Qed.
End M.
