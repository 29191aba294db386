(** Proofs about the incidence matrices. *)
From Coq Require Import ZArith List Bool Lia ZifyBool.
From Verif Require Import RangeModel MDRangeModel Result BoxSetModel AccessModel Spec AccessSpec
  RangeProofs MDRangeProofs BoxListProofs BoxSetProofs AccessProofs AccessImageProofs
  AccessInverseProofs AccessPreimageProofs AccessInverseExactProofs AccessCombineProofs ListTac
  MCIMModel MCIMSpec.
Import ListNotations.
Open Scope Z_scope.

Section M.
Variable m : mlir.
Variable Mok : mlir_ok m.

(** A rotation-translation has a result that is not constant. *)
Definition good (n k : nat) (f : afun) : Prop :=
  plain_af n k f /\ match f with AFRoto _ rs => filter moving rs <> [] | AFConstant _ _ => False | _ => True end.

Lemma build0_moving : forall n rs f, Forall (plain n) rs -> rs <> [] -> af_build0 m n rs = Ok f ->
  match f with AFRoto _ es => filter moving es <> [] | AFConstant _ _ => False | _ => True end.
Proof.
  intros n rs f P N E. unfold af_build0 in E.
  destruct (Nat.eqb n 0 && match rs with [] => true | _ => false end); [injection E as <-; exact I|].
  destruct (forallb is_DConst rs) eqn:C.
  { apply bind_ok in E as (es & _ & E). injection E as <-. exact I. }
  destruct (forallb is_constant_access rs) eqn:C2.
  { exfalso. assert (forallb is_DConst rs = true); [|congruence]. rewrite forallb_forall in C2 |- *.
    intros a Ha. rewrite Forall_forall in P. eapply plain_constant; eauto. }
  destruct (roto_canBeBuilt n rs) eqn:R; [|injection E as <-; exact I].
  apply bind_ok in E as (es & Hes & E). apply bind_ok in E as (ds & _ & E). apply bind_ok in E as (u & _ & E).
  injection E as <-. intros F.
  assert (X : exists a, In a rs /\ is_DConst a = false).
  { clear - C. induction rs as [|a rs IH]; [discriminate|]. cbn in C. destruct (is_DConst a) eqn:D.
    - destruct (IH C) as (b & Hb & Db). exists b. split; [now right|assumption].
    - exists a. split; [now left|assumption]. }
  destruct X as (a & Ha & Da).
  destruct (map_res_in2 _ _ _ _ _ a Hes Ha) as (e & He & Hae).
  assert (moving e = false).
  { destruct (moving e) eqn:Me; [|reflexivity]. exfalso.
    assert (In e (filter moving es)) by (apply filter_In; auto). rewrite F in H. contradiction. }
  unfold roto_canBeBuilt in R. apply andb_true_iff in R as (_ & R). rewrite forallb_forall in R. specialize (R a Ha).
  rewrite Forall_forall in P. pose proof (P a Ha) as Pa.
  destruct (roto_affine m Mok n a R (plain_below n a Pa)) as (e' & E1 & _). rewrite Hae in E1. injection E1 as <-.
  destruct a; cbn in Da; try discriminate; cbn in R; try discriminate.
  - cbn in Hae. injection Hae as <-. discriminate.
  - destruct a1, a2; cbn in R; try discriminate; cbn in Hae; injection Hae as <-; unfold mkAdd in H;
      rewrite ?(canon_dc m Mok), ?(canon_cd m Mok) in H; destruct (_ =? 0); discriminate.
Qed.

Lemma affine_good : forall n k f, affine_access m n k f -> good n k f.
Proof.
  intros n k f A. split; [now apply affine_access_plain with m|].
  inversion A as [n0 es f0 D N E B|n0 rs f0 P E B]; subst.
  - unfold af_build_map in B. apply bind_ok in B as (rs & Hrs & B).
    destruct (das_of_plain n (map (simp m n) es)) as (rs' & Hrs' & Prs & Lrs & _).
    + now apply simps_nodiv.
    + now apply simps_dims.
    + rewrite Hrs in Hrs'. injection Hrs' as <-. eapply build0_moving; eauto.
      intros ->. destruct es; [congruence|]. cbn in Lrs. discriminate.
  - unfold af_build in B. destruct (das_extended_plain m n n rs P) as (es & Hx & Hda). rewrite Hx in B.
    cbn [length] in B. rewrite Nat.add_0_r in B. unfold af_fromExtended in B. apply bind_ok in B as (ds & Hds & B).
    cbn [length] in B. rewrite Nat.sub_0_r in B.
    destruct (das_affine_plain m Mok n rs P) as (es' & Hes' & Nd & Db & Le & _). rewrite Hda in Hes'. injection Hes' as <-.
    destruct (das_of_plain n (map (simp m n) (map (simp m n) es))) as (ds' & Hds' & Pds & Lds & _).
    + apply simps_nodiv; [assumption|]. now apply simps_nodiv.
    + apply simps_dims; [assumption|]. now apply simps_dims.
    + assert (Ex : map_res (da_of n []) (map (simp m n) (map (simp m n) es)) =
                   map_res (da_of 0 []) (map (simp m n) (map (simp m n) es))).
      { generalize (map (simp m n) (map (simp m n) es)). intros l. induction l as [|x l IH]; [reflexivity|].
        cbn [map_res]. rewrite da_of_nofake, IH. reflexivity. }
      rewrite Ex in Hds. rewrite Hds in Hds'. injection Hds' as <-. eapply build0_moving; eauto.
      intros ->. rewrite !map_length in Lds. destruct rs; [congruence|]. cbn in Lds, Le. lia.
Qed.

Lemma good_maps : forall n k f p, good n k f -> length p = n -> exists q, length q = k /\ maps_to f p q.
Proof.
  intros n k f p (G & _) L. destruct (plain_maps n k f p G) as (q & Lq & _ & Hq); [lia|]. eauto.
Qed.

Lemma maps_point : forall f p q s, maps_to f p q -> af_map_point f p = Ok s -> forall x, in_boxes x s <-> x = q.
Proof. intros f p q s (s' & E & H) E'. rewrite E in E'. injection E' as <-. exact H. Qed.

Lemma maps_fval : forall n k f p q, good n k f -> length p = n -> maps_to f p q -> fval f p = Some q.
Proof.
  intros n k f p q (G & _) L H. destruct (plain_maps n k f p G) as (q' & Lq & E & H'); [lia|].
  now rewrite (maps_to_inj f p q q' H H').
Qed.

(** What an affine function accesses is the one element it maps to. *)
Lemma accesses_maps : forall n k f p q, good n k f -> length p = n -> (accesses f p q <-> maps_to f p q).
Proof.
  intros n k f p q G L. destruct (good_maps n k f p G L) as (q' & _ & s & E & H). split.
  - intros (s' & E' & Hq). rewrite E in E'. injection E' as <-. apply H in Hq as ->. exists s. auto.
  - intros (s' & E' & Hq). exists s'. split; [assumption|]. now apply Hq.
Qed.

Lemma af_wf_good : forall n k f, good n k f -> af_wf n k f.
Proof. intros n k f ((W & _) & _). exact W. Qed.

(** The image of a non-empty set. *)
Lemma good_image : forall n k f s, good n k f -> (1 <= n)%nat -> bs_of n s ->
  exists t, af_map_set f s = Ok t /\ bs_of k t /\
    (forall p q, in_boxes p s -> maps_to f p q -> in_boxes q t) /\
    (one_use f -> forall q, in_boxes q t -> exists p, in_boxes p s /\ maps_to f p q).
Proof.
  intros n k f s G Hn S. pose proof (af_wf_good n k f G) as W. assert (Hk : (1 <= k)%nat) by apply G.
  assert (D : forall p, in_boxes p s -> exists u, af_map_point f p = Ok u).
  { intros p Hp. destruct (good_maps n k f p G (bs_of_length n s p S Hp)) as (q & _ & u & E & _). eauto. }
  destruct (image_defined n k f s W Hn S D) as (t & Ht). exists t. split; [assumption|]. split; [|split].
  - destruct G as ((_ & _ & P) & G'). destruct f as [|n' rs|n' rs|n' rs|n' rs]; try contradiction.
    + cbn in Ht, W. destruct W as (-> & Lr & C & _). destruct (bs_empty s && _); [injection Ht as <-; constructor|].
      destruct rs as [|r rs]; [injection Ht as <-; constructor|].
      destruct (consts_values (r :: rs) C) as (q & Hq & Lq & _). rewrite Hq in Ht. cbn [bind] in Ht. injection Ht as <-.
      constructor; [|constructor]. apply of_point_box; lia.
    + cbn in Ht, W. destruct W as (-> & Lr & _ & _ & F). apply Forall_forall. intros b Hb.
      destruct (map_res_in _ _ _ _ _ b Ht Hb) as (c & Hc & E). unfold bs_of in S. rewrite Forall_forall in S.
      rewrite (roto_map_box_eq n rs c F (S c Hc)) in E. injection E as <-. destruct (S c Hc) as ((_ & Rc) & Lc).
      split; [|rewrite map_length; assumption]. split; [destruct rs; [cbn in Lr; lia|discriminate]|].
      apply Forall_forall. intros r Hr. apply in_map_iff in Hr as (e & <- & He).
      rewrite Forall_forall in F, Rc. assert (N : forall d, (d < n)%nat -> range_ok (nth d c (mkRange 0 1))).
      { intros d Hd. apply Rc. apply nth_In. lia. }
      destruct (F e He) as [d Hd|c0|d c0 Hd Hc0]; cbn; [now apply N|unfold range_ok; cbn; lia|].
      specialize (N d Hd). unfold range_ok in *. cbn. lia.
    + cbn in Ht. destruct W as (-> & Lr & _ & F).
      assert (X : forall l acc t, (forall p, In p l -> length p = n) -> bs_of k acc ->
        fold_res (fun acc p => q <- gen_map_point rs p ;; Ok (bs_union acc q)) l acc = Ok t -> bs_of k t).
      { induction l as [|p l IH]; intros acc t' Hl Ha E; cbn in E; [injection E as <-; assumption|].
        apply bind_ok in E as (a' & E1 & E). apply bind_ok in E1 as (q & E1 & E2). injection E2 as <-.
        eapply IH; [intros; apply Hl; now right| |exact E].
        unfold bs_union. apply Forall_app. split; [assumption|].
        destruct (plain_maps n k (AFGeneric n rs) p) as (v & Lv & Fv & _).
        { split; [cbn; auto|]. auto. } { rewrite (Hl p); [lia|now left]. }
        assert (Y : af_map_point (AFGeneric n rs) p = Ok [mdrange_of_point v]).
        { eapply (fval_point n k); [split; [cbn; auto|auto]|rewrite (Hl p); [lia|now left]|assumption]. }
        cbn in Y. rewrite Y in E1. injection E1 as <-. constructor; [|constructor]. apply of_point_box; lia. }
      eapply X; [|constructor|exact Ht]. intros p Hp. apply in_bs_points in Hp. now apply bs_of_length with s.
  - intros p q Hp Hq. eapply (image_sub n k f s t W Hn Hk S Ht p q Hp).
    apply (accesses_maps n k); auto. now apply bs_of_length with s.
  - intros O q Hq. apply (image_exact n k f s t W Hn Hk S O Ht) in Hq as (p & Hp & Ha). exists p. split; [assumption|].
    apply (accesses_maps n k) in Ha; auto. now apply bs_of_length with s.
Qed.

(** The iterations that access the elements of a part of the image. *)
Lemma good_inverse : forall n k f par t acc, good n k f -> (1 <= n)%nat -> bs_of n par -> par <> [] ->
  regular f par -> af_map_set f par = Ok t -> bs_of k acc ->
  (forall q, in_boxes q acc -> in_boxes q t) ->
  exists r, inverse_map m f acc par = Ok r /\ bs_of n r /\
    forall p, in_boxes p r <-> in_boxes p par /\ exists q, maps_to f p q /\ in_boxes q acc.
Proof.
  intros n k f par t acc G Hn P Np Reg Ht A Sub. pose proof (af_wf_good n k f G) as W.
  assert (Hk : (1 <= k)%nat) by apply G.
  destruct (good_image n k f par G Hn P) as (t' & Ht' & Bt & I1 & I2). rewrite Ht in Ht'. injection Ht' as <-.
  assert (Np' : bs_empty par = false) by (destruct par; [congruence|reflexivity]).
  assert (BI : (forall p, in_boxes p par -> exists s, af_map_point f p = Ok s) ->
    exists r, base_inverseMap f acc par = Ok r /\ bs_of n r /\
    forall p, in_boxes p r <-> in_boxes p par /\ exists q, maps_to f p q /\ in_boxes q acc).
  { intros D. destruct (base_inverse_spec f acc par D) as (r & Hr & Sr). exists r. split; [assumption|].
    assert (S2 : forall p, in_boxes p r <-> in_boxes p par /\ exists q, maps_to f p q /\ in_boxes q acc).
    { intros p. rewrite Sr. split.
      - intros (Hp & s & Es & Hs). split; [assumption|]. destruct (good_maps n k f p G (bs_of_length n par p P Hp)) as (q & _ & Hq).
        exists q. split; [assumption|]. apply Hs. now apply (maps_point f p q s Hq Es).
      - intros (Hp & q & Hq & Hqa). split; [assumption|]. destruct Hq as (s & Es & Hs). exists s. split; [assumption|].
        intros x Hx. apply Hs in Hx as ->. assumption. }
    split; [|assumption]. apply Forall_forall. intros b Hb.
    unfold base_inverseMap in Hr. apply bind_ok in Hr as (l & Hl & Hr). injection Hr as <-.
    unfold bs_of_points in Hb. apply in_map_iff in Hb as (p & <- & Hp). apply of_point_box; [|assumption].
    assert (Hpr : in_boxes p (bs_of_points l)) by now apply of_points_in.
    apply Sr in Hpr as (Hpr & _). now apply bs_of_length with par. }
  unfold inverse_map.
  destruct f as [|n' rs|n' rs|n' rs|n' rs].
  - destruct W. lia.
  - cbn [af_inverseMap]. unfold const_inverseMap. rewrite Ht. cbn [bind].
    cbn in W. destruct W as (-> & Lr & C & _). destruct (consts_values rs C) as (c & Hc & Lc & Hv).
    assert (MT : forall p q, maps_to (AFAffineConstant n rs) p q -> length p = n -> q = c).
    { intros p q H L. pose proof (maps_fval n k _ p q G L H) as F. cbn in F. rewrite Hv in F. congruence. }
    assert (MT2 : forall p, length p = n -> maps_to (AFAffineConstant n rs) p c).
    { intros p L. destruct (good_maps n k _ p G L) as (q & _ & Hq). now rewrite <- (MT p q Hq L). }
    assert (Et : bs_empty t = false).
    { destruct (bs_nonempty n par P Np) as (p & Hp). pose proof (I1 p c Hp (MT2 p (bs_of_length n par p P Hp))) as (b & Hb & _).
      destruct t; [contradiction|reflexivity]. }
    rewrite Et. destruct (bs_empty acc) eqn:Ea; cbn [andb negb].
    + exists []. split; [reflexivity|]. split; [constructor|]. intros p. split; [intros (b & [] & _)|].
      intros (_ & q & _ & b & Hb & _). destruct acc; [contradiction|discriminate].
    + assert (bs_contains t acc = true) as -> by (apply bs_contains_spec; assumption).
      exists par. split; [reflexivity|]. split; [assumption|]. intros p. split; [|tauto]. intros Hp. split; [assumption|].
      assert (Na : acc <> []) by (intros ->; discriminate).
      destruct (bs_nonempty k acc A Na) as (q & Hq). pose proof (Sub q Hq) as Hqt. apply (I2 I) in Hqt as (p' & Hp' & Hm).
      apply MT in Hm; [|now apply bs_of_length with par]. subst q. exists c. split; [|assumption]. apply MT2.
      now apply bs_of_length with par.
  - destruct G as (_ & []).
  - destruct (bs_empty acc) eqn:Ea.
    + cbn [af_inverseMap]. rewrite Ea, Np'. cbn in W. destruct W as (_ & Lr & _).
      assert (Nat.eqb (length rs) 0 = false) as -> by lia. cbn [andb negb].
      exists []. split; [reflexivity|]. split; [constructor|]. intros p. split; [intros (b & [] & _)|].
      intros (_ & q & _ & b & Hb & _). destruct acc; [contradiction|discriminate].
    + cbn in W. destruct W as (-> & Lr & _ & _ & F).
      assert (VM : forall p q, length p = n -> (maps_to (AFRoto n rs) p q <-> affine_values p rs = Some q)).
      { intros p q L. apply maps_to_values_iff; [lia|assumption]. }
      destruct (roto_exact m Mok n k rs 1 acc par) as (r & Hr & Br & Ex); auto.
      * apply G.
      * intros ->. discriminate.
      * intros q Hq. pose proof (Sub q Hq) as Hqt. cbn in Ht. destruct Hqt as (b & Hb & Hqb).
        destruct (map_res_in _ _ _ _ _ b Ht Hb) as (c & Hc & E). unfold bs_of in P. rewrite Forall_forall in P.
        rewrite (roto_map_box_eq n rs c F (P c Hc)) in E. injection E as <-.
        clear - Hqb. unfold const_right. unfold in_box in Hqb. revert q Hqb.
        induction rs as [|e rs IH]; intros q Hqb; cbn [map] in Hqb; inversion Hqb; subst; constructor; auto.
        destruct e; auto. cbn in *. unfold in_range in *. cbn in *. lia.
      * intros ND q Hq. destruct (I2 ND q (Sub q Hq)) as (p & Hp & Hm). exists p. split; [assumption|].
        apply VM; [now apply bs_of_length with par|assumption].
      * exists r. split; [assumption|]. split; [assumption|]. intros p. rewrite (Ex p). split.
        -- intros (Hp & q & Hv & Hq). split; [assumption|]. exists q. split; [|assumption]. apply VM; [|assumption].
           now apply bs_of_length with par.
        -- intros (Hp & q & Hv & Hq). split; [assumption|]. exists q. split; [|assumption]. apply VM; [|assumption].
           now apply bs_of_length with par.
  - apply BI. intros p Hp. destruct (good_maps n k _ p G (bs_of_length n par p P Hp)) as (q & _ & s & E & _). eauto.
Qed.

(** *** Groups. *)
Definition group_ok (n k : nat) (g : group) : Prop :=
  good n k (gfun g) /\ (gclass g = KGeneric \/ gclass g = gclass (g_build (gfun g))) /\ bs_of n (gkeys g).

Lemma mapped_spec : forall n k rs, good n k (AFAffineConstant n rs) ->
  exists c, g_mapped (AFAffineConstant n rs) = Ok (bs_point c) /\ length c = k /\
    forall p q, length p = n -> (maps_to (AFAffineConstant n rs) p q <-> q = c).
Proof.
  intros n k rs G. pose proof (af_wf_good n k _ G) as W. assert (Hk : (1 <= k)%nat) by apply G.
  cbn in W. destruct W as (_ & Lr & C & _). destruct (consts_values rs C) as (c & Hc & Lc & Hv). exists c.
  split; [|split; [lia|]].
  - unfold g_mapped. destruct rs as [|r rs]; [cbn in Lr; lia|]. rewrite Hc. reflexivity.
  - intros p q L. assert (X : forall q, maps_to (AFAffineConstant n rs) p q -> q = c).
    { intros q' H. pose proof (maps_fval n k _ p q' G L H) as F. cbn in F. rewrite Hv in F. congruence. }
    split; [apply X|]. intros ->. destruct (good_maps n k _ p G L) as (q & _ & Hq). now rewrite <- (X q Hq).
Qed.

Lemma class_cases : forall n k g, group_ok n k g -> (1 <= n)%nat ->
  gclass g = KGeneric \/ (gclass g = KAffineConstant /\ exists rs, gfun g = AFAffineConstant n rs).
Proof.
  intros n k g (G & C & _) Hn. destruct C as [C|C]; [now left|]. pose proof (af_wf_good n k _ G) as W.
  destruct (gfun g) as [|n' rs|n' rs|n' rs|n' rs] eqn:F; cbn in C; auto.
  - destruct W. lia.
  - right. split; [assumption|]. cbn in W. destruct W as (-> & _). eauto.
Qed.

Lemma has_spec : forall n k g e v, group_ok n k g -> (1 <= n)%nat ->
  length e = n -> exists b, g_has g e v = Ok b /\ (b = true <-> holds g e v).
Proof.
  intros n k g e v OK Hn Le. pose proof OK as (G & _ & K). unfold g_has, holds.
  destruct (class_cases n k g OK Hn) as [->|(-> & rs & F)].
  - destruct (bs_mem (gkeys g) e) eqn:M.
    + apply bs_mem_spec in M. destruct (good_maps n k _ e G Le) as (q & _ & s & Es & Hs). rewrite Es. cbn [bind].
      eexists. split; [reflexivity|]. rewrite bs_mem_spec, Hs. split.
      * intros ->. split; [assumption|]. exists s. auto.
      * intros (_ & Hv). symmetry. apply (maps_to_inj (gfun g) e); [exists s; auto|assumption].
    + apply bs_mem_false in M. eexists. split; [reflexivity|]. split; [discriminate|]. intros (H & _). tauto.
  - rewrite F in G |- *. destruct (mapped_spec n k rs G) as (c & Hc & _ & Hm). rewrite Hc. cbn [bind]. eexists. split; [reflexivity|].
    rewrite andb_true_iff, !bs_mem_spec, (Hm e v Le). unfold bs_point. rewrite in_boxes_point. tauto.
Qed.

Lemma values_spec : forall n k g, group_ok n k g -> (1 <= n)%nat ->
  exists t, g_values g = Ok t /\ af_map_set (gfun g) (gkeys g) = Ok t /\ bs_of k t /\
    (forall e v, holds g e v -> in_boxes v t) /\
    (one_use (gfun g) -> forall v, in_boxes v t -> exists e, holds g e v).
Proof.
  intros n k g OK Hn. pose proof OK as (G & _ & K). unfold g_values, holds.
  destruct (good_image n k _ _ G Hn K) as (t & Ht & Bt & I1 & I2). exists t. split; [|split; [assumption|split; [assumption|split; [|assumption]]]].
  - destruct (class_cases n k g OK Hn) as [->|(-> & _)]; assumption.
  - intros e v (He & Hv). eauto.
Qed.

(** The pairs of a list of groups. *)
Definition any_holds (gs : list group) (e v : point) : Prop := exists g, In g gs /\ holds g e v.
Lemma any_has_spec : forall n k gs e v, (forall g, In g gs -> group_ok n k g) -> (1 <= n)%nat -> length e = n ->
  exists b, any_has gs e v = Ok b /\ (b = true <-> any_holds gs e v).
Proof.
  intros n k gs e v H Hn Le. induction gs as [|g gs IH]; cbn [any_has].
  - exists false. split; [reflexivity|]. split; [discriminate|]. intros (g & [] & _).
  - destruct (has_spec n k g e v (H g (or_introl eq_refl)) Hn Le) as (b & -> & Hb). cbn [bind]. destruct b.
    + exists true. split; [reflexivity|]. split; [|reflexivity]. intros _. exists g. split; [now left|]. now apply Hb.
    + destruct IH as (b' & E & Hb'); [intros; apply H; now right|]. exists b'. split; [assumption|]. rewrite Hb'. split.
      * intros (g' & Hg' & Hh). exists g'. split; [now right|assumption].
      * intros (g' & [<-|Hg'] & Hh); [apply Hb in Hh; discriminate|]. exists g'. auto.
Qed.

Definition stored (M : mcim) (e v : point) : Prop := in_boxes (e ++ v) (mpoints M) \/ any_holds (mgroups M) e v.

(** The invariant in terms of [good] functions. *)
Record mx (n k : nat) (M : mcim) : Prop := {
  x_n : (1 <= n)%nat;
  x_k : (1 <= k)%nat;
  x_eqs : bs_of n (meqs M) /\ meqs M <> [];
  x_vars : bs_of k (mvars M) /\ mvars M <> [];
  x_ok : forall g, In g (mgroups M) -> group_ok n k g;
  x_ne : forall g, In g (mgroups M) -> gkeys g <> [];
  x_in : forall g e v, In g (mgroups M) -> holds g e v -> cell M e v;
  x_points : bs_of (n + k) (mpoints M);
  x_pin : forall e v, length e = n -> in_boxes (e ++ v) (mpoints M) -> cell M e v }.

Lemma holds_total : forall n k g e, group_ok n k g -> in_boxes e (gkeys g) ->
  exists v, length v = k /\ holds g e v.
Proof.
  intros n k g e (G & _ & K) He. destruct (good_maps n k _ e G (bs_of_length n _ e K He)) as (v & Lv & Hv).
  exists v. split; [assumption|]. split; assumption.
Qed.

Lemma matrix_mx : forall n k M, matrix m n k M <->
  mx n k M /\ forall g, In g (mgroups M) -> affine_access m n k (gfun g).
Proof.
  intros n k M. split.
  - intros [Hn Hk E V G (P & PI)]. split; [constructor; auto|].
    + intros g Hg. destruct (G g Hg) as (A & C & K & _). split; [now apply affine_good|]. auto.
    + intros g Hg. apply (G g Hg).
    + intros g e v Hg (He & Hv). destruct (G g Hg) as (_ & _ & _ & _ & I). destruct (I e He) as (I1 & I2). split; auto.
    + intros g Hg. apply (G g Hg).
  - intros ([Hn Hk E V OK NE IN P PI] & A). constructor; auto. intros g Hg. pose proof (OK g Hg) as O. split; [auto|].
    split; [apply O|]. split; [apply O|]. split; [auto|]. intros e He. destruct (holds_total n k g e O He) as (v & _ & Hv).
    split; [apply (IN g e v Hg Hv)|]. intros w Hw. apply (IN g e w Hg). split; assumption.
Qed.

Lemma get_spec : forall n k M e v, mx n k M -> cell M e v ->
  exists b, mc_get M e v = Ok b /\ (b = true <-> stored M e v).
Proof.
  intros n k M e v X (He & Hv). unfold mc_get, stored. rewrite (proj2 (bs_mem_spec _ _) He), (proj2 (bs_mem_spec _ _) Hv).
  cbn [assert_ok bind]. destruct (bs_mem (mpoints M) (e ++ v)) eqn:B.
  - apply bs_mem_spec in B. exists true. split; [reflexivity|]. tauto.
  - apply bs_mem_false in B. destruct (any_has_spec n k (mgroups M) e v) as (b & -> & Hb).
    + apply (x_ok _ _ _ X).
    + apply (x_n _ _ _ X).
    + apply (bs_of_length n (meqs M) e); [apply (x_eqs _ _ _ X)|assumption].
    + exists b. split; [reflexivity|]. rewrite Hb. tauto.
Qed.

Lemma get_cell : forall M e v b, mc_get M e v = Ok b -> cell M e v.
Proof.
  intros M e v b H. unfold mc_get in H. apply bind_ok in H as (u & H1 & H). apply bind_ok in H as (u' & H2 & _).
  apply assert_ok_inv in H1, H2. split; now apply bs_mem_spec.
Qed.

Lemma entry_stored : forall n k M e v, mx n k M -> (entry M e v <-> cell M e v /\ stored M e v).
Proof.
  intros n k M e v X. unfold entry. split.
  - intros H. pose proof (get_cell M e v true H) as C. split; [assumption|].
    destruct (get_spec n k M e v X C) as (b & E & Hb). rewrite E in H. injection H as ->. now apply Hb.
  - intros (C & S). destruct (get_spec n k M e v X C) as (b & E & Hb). rewrite E. f_equal. now apply Hb.
Qed.

Lemma cell_length : forall n k M e v, mx n k M -> cell M e v -> length e = n /\ length v = k.
Proof.
  intros n k M e v X (He & Hv). split.
  - apply (bs_of_length n (meqs M)); [apply (x_eqs _ _ _ X)|assumption].
  - apply (bs_of_length k (mvars M)); [apply (x_vars _ _ _ X)|assumption].
Qed.

(** Anything stored with an equation index of the right rank is an entry. *)
Lemma stored_cell : forall n k M e v, mx n k M -> length e = n -> stored M e v -> cell M e v.
Proof.
  intros n k M e v X L [H|(g & Hg & H)]; [now apply (x_pin _ _ _ X)|]. now apply (x_in _ _ _ X g).
Qed.

(** *** apply. *)
Lemma addKeys_holds : forall g k e v, holds (g_addKeys g k) e v <->
  holds g e v \/ (in_boxes e k /\ maps_to (gfun g) e v).
Proof. intros g k e v. unfold holds, g_addKeys, g_withKeys. cbn. rewrite bs_union_spec. tauto. Qed.

Lemma addKeys_ok : forall n k g s, group_ok n k g -> bs_of n s -> group_ok n k (g_addKeys g s).
Proof.
  intros n k g s (G & C & K) S. split; [assumption|]. split; [assumption|]. cbn. unfold bs_union. now apply Forall_app.
Qed.

Lemma build_ok : forall n k f, good n k f -> group_ok n k (g_build f) /\ gfun (g_build f) = f /\ gkeys (g_build f) = [].
Proof.
  intros n k f G. assert (F : gfun (g_build f) = f) by (destruct f; reflexivity).
  assert (K : gkeys (g_build f) = []) by (destruct f; reflexivity).
  split; [|auto]. split; [now rewrite F|]. split; [right; now rewrite F|]. rewrite K. constructor.
Qed.

Lemma buildGeneric_ok : forall n k f s, good n k f -> bs_of n s -> group_ok n k (g_addKeys (g_buildGeneric f) s).
Proof. intros n k f s G S. split; [assumption|]. split; [now left|]. exact S. Qed.

(** Functions that are equal in the code map the same points to the same
    elements. *)
Lemma af_eq_maps : forall n k f g e v, good n k f -> good n k g -> length e = n -> af_eq f g = true ->
  (maps_to f e v <-> maps_to g e v).
Proof.
  intros n k f g e v Gf Gg L E.
  assert (X : fval f e = fval g e).
  { destruct f as [|nf fs|nf fs|nf fs|nf fs], g as [|ng gs|ng gs|ng gs|ng gs]; cbn in E; try discriminate; try reflexivity;
      apply andb_true_iff in E as (_ & E); cbn [fval].
    1,4: f_equal; clear - E; revert gs E; induction fs as [|x fs IH]; intros [|y gs] E; cbn in E; try discriminate; [reflexivity|];
      apply andb_true_iff in E as (E1 & E2); rewrite (IH gs E2); f_equal; clear - E1;
      revert y E1; induction x; intros []; cbn; intros E1; try discriminate;
      repeat match goal with H : (_ && _)%bool = true |- _ => apply andb_true_iff in H as (? & ?) end;
      f_equal; auto; lia.
    all: pose proof (af_wf_good n k _ Gf) as Wf; pose proof (af_wf_good n k _ Gg) as Wg; cbn in Wf, Wg;
      destruct Gf as ((_ & _ & Pf) & Nf); destruct Gg as ((_ & _ & Pg) & Ng); try contradiction; f_equal.
    destruct Wf as (_ & Lf & _). destruct Wg as (_ & Lg & _). assert (LL : length fs = length gs) by lia.
    clear - E Pf Pg LL. revert gs E Pg LL. induction fs as [|x fs IH]; intros [|y gs] E Pg LL; try discriminate; [reflexivity|].
    cbn in E. apply andb_true_iff in E as (E1 & E2). inversion Pf; inversion Pg; subst. rewrite (IH H2 gs); auto.
    f_equal. clear - E1 H1 H5. revert y E1 H5. induction x; intros []; cbn; intros E1 H5; try discriminate; try contradiction;
      repeat match goal with H : (_ && _)%bool = true |- _ => apply andb_true_iff in H as (? & ?) end;
      cbn in H1; f_equal; try tauto; try lia; (apply IHx1 || apply IHx2); tauto. }
  destruct (good_maps n k f e Gf L) as (q & _ & Hq). destruct (good_maps n k g e Gg L) as (q' & _ & Hq').
  pose proof (maps_fval n k f e q Gf L Hq) as F1. pose proof (maps_fval n k g e q' Gg L Hq') as F2.
  assert (q = q') as <- by congruence. split; intros H.
  - now rewrite (maps_to_inj f e v q H Hq).
  - now rewrite (maps_to_inj g e v q H Hq').
Qed.

Lemma add_to_first_spec : forall n k f s gs, good n k f -> bs_of n s -> (forall g, In g gs -> group_ok n k g) ->
  match add_to_first gs f s with
  | None => True
  | Some gs' => (forall g', In g' gs' -> exists g, In g gs /\ (g' = g \/ g' = g_addKeys g s) /\ (g' = g \/ af_eq (gfun g) f = true)) /\
      forall e v, length e = n ->
        (any_holds gs' e v <-> any_holds gs e v \/ (in_boxes e s /\ maps_to f e v))
  end.
Proof.
  intros n k f s gs G S OK. induction gs as [|g gs IH]; cbn [add_to_first]; [exact I|].
  destruct (af_eq (gfun g) f) eqn:E.
  - split.
    + intros g' [<-|H]; [exists g; split; [now left|auto]|]. exists g'. split; [now right|auto].
    + intros e v L. unfold any_holds. split.
      * intros (g' & [<-|Hg] & H).
        -- apply addKeys_holds in H as [H|(H1 & H2)]; [left; exists g; split; [now left|assumption]|]. right. split; [assumption|].
           apply (af_eq_maps n k (gfun g) f e v) in H2; auto. apply OK. now left.
        -- left. exists g'. split; [now right|assumption].
      * intros [(g' & [<-|Hg] & H)|(H1 & H2)].
        -- exists (g_addKeys g s). split; [now left|]. apply addKeys_holds. now left.
        -- exists g'. split; [now right|assumption].
        -- exists (g_addKeys g s). split; [now left|]. apply addKeys_holds. right. split; [assumption|].
           apply (af_eq_maps n k (gfun g) f e v); auto. apply OK. now left.
  - destruct (add_to_first gs f s) as [gs'|]; [|exact I]. destruct IH as (IH1 & IH2); [intros; apply OK; now right|]. split.
    + intros g' [<-|H]; [exists g; split; [now left|auto]|]. destruct (IH1 g' H) as (g0 & H0 & H1). exists g0. split; [now right|assumption].
    + intros e v L. assert (C : forall l, any_holds (g :: l) e v <-> holds g e v \/ any_holds l e v).
      { intros l. unfold any_holds. split.
        - intros (x & [<-|Hx] & H); [now left|]. right. eauto.
        - intros [H|(x & Hx & H)]; [exists g; split; [now left|assumption]|]. exists x. split; [now right|assumption]. }
      rewrite !C, (IH2 e v L). tauto.
Qed.

Lemma apply_spec : forall n k M s f, mx n k M -> good n k f -> bs_of n s -> s <> [] -> regular f s ->
  (forall e, in_boxes e s -> in_boxes e (meqs M)) ->
  exists M', mc_apply m M s f = Ok M' /\ mx n k M' /\ meqs M' = meqs M /\ mvars M' = mvars M /\
    mpoints M' = mpoints M /\
    (forall g, In g (mgroups M') -> gfun g = f \/ exists g0, In g0 (mgroups M) /\ gfun g = gfun g0) /\
    forall e v, stored M' e v <-> stored M e v \/ (in_boxes e s /\ maps_to f e v /\ in_boxes v (mvars M)).
Proof.
  intros n k M s f X G S Ns Reg Sub. pose proof (x_n _ _ _ X) as Hn. unfold mc_apply.
  rewrite (proj2 (bs_contains_spec _ _) Sub). cbn [assert_ok bind].
  destruct (good_image n k f s G Hn S) as (t & Ht & Bt & I1 & I2). rewrite Ht. cbn [bind].
  destruct (bs_intersect_spec k t (mvars M) Bt (proj1 (x_vars _ _ _ X))) as (Bi & Si).
  destruct (good_inverse n k f s t (bs_intersect t (mvars M)) G Hn S Ns Reg Ht Bi) as (r & Hr & Br & Sr).
  { intros q Hq. now apply Si in Hq as (Hq & _). }
  rewrite Hr. cbn [bind].
  assert (R : forall e, in_boxes e r <-> in_boxes e s /\ exists v, maps_to f e v /\ in_boxes v (mvars M)).
  { intros e. rewrite (Sr e). split.
    - intros (He & q & Hq & Hi). split; [assumption|]. exists q. apply Si in Hi. tauto.
    - intros (He & q & Hq & Hi). split; [assumption|]. exists q. split; [assumption|]. apply Si. split; [|assumption]. eauto. }
  assert (R2 : forall e v, in_boxes e r /\ maps_to f e v <-> in_boxes e s /\ maps_to f e v /\ in_boxes v (mvars M)).
  { intros e v. rewrite R. split.
    - intros ((He & w & Hw & Hi) & Hv). rewrite (maps_to_inj f e v w Hv Hw) at 2. auto.
    - intros (He & Hv & Hi). split; [split; [assumption|eauto]|assumption]. }
  destruct (bs_empty r) eqn:Er.
  { exists M. split; [reflexivity|]. split; [assumption|]. repeat (split; [reflexivity|]). split; [eauto|].
    intros e v. rewrite <- R2. assert (~ in_boxes e r) by (intros (b & Hb & _); destruct r; [contradiction|discriminate]). tauto. }
  assert (Gen : forall gs',
    (forall g, In g gs' -> (In g (mgroups M) \/ (exists g0, In g0 (mgroups M) /\ g = g_addKeys g0 r /\ af_eq (gfun g0) f = true))
                            \/ g = g_addKeys (g_build f) r) ->
    (forall e v, length e = n -> (any_holds gs' e v <-> any_holds (mgroups M) e v \/ (in_boxes e r /\ maps_to f e v))) ->
    mx n k (mc_withGroups M gs') /\
    (forall g, In g gs' -> gfun g = f \/ exists g0, In g0 (mgroups M) /\ gfun g = gfun g0) /\
    forall e v, stored (mc_withGroups M gs') e v <-> stored M e v \/ (in_boxes e s /\ maps_to f e v /\ in_boxes v (mvars M))).
  { intros gs' C H.
    assert (OK' : forall g, In g gs' -> group_ok n k g /\ gkeys g <> []).
    { intros g Hg. destruct (build_ok n k f G) as (Bok & _ & Bk). destruct (C g Hg) as [[H0|(g0 & H0 & -> & _)]| ->].
      - split; [now apply (x_ok _ _ _ X)|now apply (x_ne _ _ _ X)].
      - split; [apply addKeys_ok; [now apply (x_ok _ _ _ X)|assumption]|]. cbn. unfold bs_union. intros E.
        apply app_eq_nil in E as (E & _). now apply (x_ne _ _ _ X g0 H0).
      - split; [now apply addKeys_ok|]. cbn. rewrite Bk. cbn. destruct r; [discriminate|]. discriminate. }
    assert (LH : forall g e v, In g gs' -> holds g e v -> length e = n).
    { intros g e v Hg (He & _). apply (bs_of_length n (gkeys g)); [apply (OK' g Hg)|assumption]. }
    assert (H' : forall e v, any_holds gs' e v <-> any_holds (mgroups M) e v \/ (in_boxes e s /\ maps_to f e v /\ in_boxes v (mvars M))).
    { intros e v. rewrite <- R2. split.
      - intros (g & Hg & Hh). apply H; [now apply (LH g e v)|]. exists g. auto.
      - intros D. apply H; [|assumption]. destruct D as [(g & Hg & (Hh & _))|(Hr' & _)].
        + apply (bs_of_length n (gkeys g)); [apply (x_ok _ _ _ X g Hg)|assumption].
        + now apply (bs_of_length n r). }
    split; [|split].
    - destruct X. constructor; cbn; auto.
      + intros g Hg. apply OK'; assumption.
      + intros g Hg. apply OK'; assumption.
      + intros g e v Hg Hh. assert (A : any_holds gs' e v) by (exists g; auto). apply H' in A as [(g0 & Hg0 & Hh0)|(A1 & A2 & A3)].
        * exact (x_in0 g0 e v Hg0 Hh0).
        * split; cbn; auto.
    - intros g Hg. destruct (build_ok n k f G) as (_ & Bf & _). destruct (C g Hg) as [[H0|(g0 & H0 & -> & _)]| ->]; [right; eauto|right; eauto|].
      left. cbn. assumption.
    - intros e v. unfold stored. cbn. rewrite H'. tauto. }
  pose proof (add_to_first_spec n k f r (mgroups M) G Br (x_ok _ _ _ X)) as AF.
  destruct (add_to_first (mgroups M) f r) as [gs'|].
  - destruct AF as (A1 & A2). destruct (Gen gs') as (Y1 & Y2 & Y3).
    + intros g Hg. left. destruct (A1 g Hg) as (g0 & H0 & [->| ->] & D); [now left|].
      right. exists g0. split; [assumption|]. split; [reflexivity|]. destruct D as [D|D]; [|assumption].
      exfalso. unfold g_addKeys, g_withKeys in D. apply (f_equal gkeys) in D. cbn in D. unfold bs_union in D.
      assert (length (gkeys g0 ++ r) = length (gkeys g0)) by now rewrite D. rewrite app_length in H. destruct r; [discriminate|cbn in H; lia].
    + assumption.
    + exists (mc_withGroups M gs'). split; [reflexivity|]. auto 10.
  - clear AF. destruct (build_ok n k f G) as (Bok & Bf & Bk). unfold mc_addGroup.
    rewrite Bk. cbn [bs_contains bs_points flat_map forallb assert_ok bind].
    destruct (values_spec n k (g_build f) Bok Hn) as (t0 & Ht0 & Hs0 & _ & _ & _). rewrite Ht0. cbn [bind].
    assert (E0 : bs_contains (mvars M) t0 = true).
    { rewrite Bf, Bk in Hs0. apply bs_contains_spec. intros p Hp. exfalso.
      assert (t0 = []) as ->; [|destruct Hp as (b & [] & _)].
      pose proof (af_wf_good n k f G) as W. clear - Hs0 W Hn G.
      destruct f; cbn in Hs0, W; try congruence.
      - destruct W as (-> & _). assert (Nat.eqb n 0 = false) as E by lia. rewrite E in Hs0. cbn in Hs0. congruence.
      - destruct G as (_ & []). }
    rewrite E0. cbn [assert_ok bind]. cbn [mc_withGroups mgroups].
    rewrite removelast_app by discriminate. cbn [removelast]. rewrite app_nil_r.
    destruct (Gen (mgroups M ++ [g_addKeys (g_build f) r])) as (Y1 & Y2 & Y3).
    + intros g Hg. apply in_app_iff in Hg as [Hg|[<-|[]]]; auto.
    + intros e v L. unfold any_holds. split.
      * intros (g & Hg & Hh). apply in_app_iff in Hg as [Hg|[<-|[]]]; [left; eauto|]. right.
        apply addKeys_holds in Hh as [(Hh & _)|Hh]; [rewrite Bk in Hh; destruct Hh as (b & [] & _)|]. now rewrite Bf in Hh.
      * intros [(g & Hg & Hh)|Hh]; [exists g; split; [apply in_or_app; now left|assumption]|].
        exists (g_addKeys (g_build f) r). split; [apply in_or_app; right; now left|]. apply addKeys_holds. right. now rewrite Bf.
    + eexists. split; [reflexivity|]. cbn [mc_withGroups meqs mvars mpoints]. auto 10.
Qed.
End M.
