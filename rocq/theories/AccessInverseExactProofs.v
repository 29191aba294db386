(** Exact inverse images of sets within the image of the parent. *)
From Coq Require Import ZArith List Bool Lia ZifyBool.
From Verif Require Import RangeModel MDRangeModel Result BoxSetModel AccessModel Spec AccessSpec
  RangeProofs MDRangeProofs BoxListProofs BoxSetProofs AccessProofs AccessImageProofs
  AccessInverseProofs AccessPreimageProofs IndexSetSpec IndexSetProjProofs ListTac.
Import ListNotations.
Open Scope Z_scope.

Definition moving (e : aexpr) : bool := match e with AConst _ => false | _ => true end.
Definition const_right (rs : list aexpr) (q : point) : Prop :=
  Forall2 (fun e v => match e with AConst c => v = c | _ => True end) rs q.

Lemma adims_moving : forall rs, flat_map adims (filter moving rs) = flat_map adims rs.
Proof. induction rs as [|e rs IH]; [reflexivity|]. destruct e; cbn; now rewrite IH. Qed.

Lemma usedDims_moving : forall n rs, usedDims n (filter moving rs) = usedDims n rs.
Proof.
  intros n rs. unfold usedDims. generalize (repeat false n) as u.
  induction rs as [|e rs IH]; intros u; [reflexivity|]. destruct e; cbn; now rewrite IH.
Qed.

Lemma newDim_moving : forall rs d, newDim (filter moving rs) d = newDim rs d.
Proof. intros rs d. unfold newDim, used_in. now rewrite adims_moving. Qed.

Lemma moving_rename : forall g rs, filter moving (map (arename g) rs) = map (arename g) (filter moving rs).
Proof. intros g. induction rs as [|e rs IH]; [reflexivity|]. destruct e; cbn; now rewrite IH. Qed.

Lemma usedResults_moving : forall n rs, Forall (roto_expr n) rs -> usedResults rs = map moving rs.
Proof.
  intros n rs H. induction H as [|e rs He H IH]; [reflexivity|]. unfold usedResults in *. cbn [map]. rewrite IH. f_equal. destruct He; reflexivity.
Qed.

Lemma ones_moving : forall rs, ones (map moving rs) = length (filter moving rs).
Proof. induction rs as [|e rs IH]; [reflexivity|]. destruct e; cbn; now rewrite IH. Qed.

Lemma values_moving : forall p rs q, affine_values p rs = Some q ->
  affine_values p (filter moving rs) = Some (select (map moving rs) q) /\ const_right rs q.
Proof.
  intros p. induction rs as [|e rs IH]; intros q H; cbn [affine_values] in H.
  - injection H as <-. split; [reflexivity|constructor].
  - destruct (aeval p e) as [v|] eqn:Ev; [|discriminate].
    destruct (affine_values p rs) as [q'|] eqn:Eq; [|discriminate]. injection H as <-.
    destruct (IH q' eq_refl) as (I1 & I2). split.
    + destruct e; cbn [filter moving map select affine_values]; rewrite ?Ev, ?I1; reflexivity.
    + constructor; [|assumption]. destruct e; auto. cbn in Ev. congruence.
Qed.

Lemma values_back : forall p rs q, const_right rs q ->
  affine_values p (filter moving rs) = Some (select (map moving rs) q) -> affine_values p rs = Some q.
Proof.
  intros p rs q H. induction H as [|e v rs q He H IH]; intros E; [reflexivity|].
  destruct e as [d|c|a b|a b|a b|a b|a b]; cbn [filter moving map select] in E.
  2:{ cbn [affine_values aeval]. rewrite (IH E). now subst. }
  all: cbn [affine_values] in E |- *;
    lazymatch goal with E : context [aeval ?p0 ?x] |- _ => destruct (aeval p0 x) as [w|]; [|discriminate] end;
    match goal with E : context [affine_values ?p0 (filter moving ?l)] |- _ => destruct (affine_values p0 (filter moving l)) as [q'|]; [|discriminate] end;
    injection E as -> ->; now rewrite (IH eq_refl).
Qed.

Lemma shifts_inj : forall n rs dcs p p' q, Forall2 (shift_of n) rs dcs ->
  (forall x, (x < n)%nat -> In x (map fst dcs)) -> length p = n -> length p' = n ->
  affine_values p rs = Some q -> affine_values p' rs = Some q -> p = p'.
Proof.
  intros n rs dcs p p' q D A L L' E E'.
  rewrite (shifts_values n rs dcs p D) in E by lia. rewrite (shifts_values n rs dcs p' D) in E' by lia.
  rewrite <- E' in E. injection E as E. apply (nth_ext p p' 0 0); [lia|]. intros x Hx.
  rewrite L in Hx. apply A, in_map_iff in Hx as ((d & c) & <- & Hd). cbn [fst]. clear - E Hd.
  induction dcs as [|dc dcs IH]; [destruct Hd|]. cbn in E. injection E as E0 E. destruct Hd as [->|Hd]; auto.
  cbn in E0. lia.
Qed.

Lemma nodup_map_inv : forall A B (f : A -> B) l, NoDup (map f l) -> NoDup l.
Proof. intros. eapply NoDup_map_inv; eauto. Qed.

Lemma adims_rename : forall n g rs dcs, Forall2 (shift_of n) rs dcs ->
  flat_map adims (map (arename g) rs) = map g (flat_map adims rs).
Proof.
  intros n g rs dcs H. induction H as [|e dc rs dcs He H IH]; [reflexivity|]. cbn. rewrite IH, map_app. f_equal.
  destruct He as (_ & _ & _ & _ & He & _). destruct He; reflexivity.
Qed.

Lemma slice_set : forall n bits s, bs_of n s -> length bits = n -> (1 <= ones bits)%nat ->
  bs_of (ones bits) (bs_slice s bits) /\
  forall q, in_boxes q (bs_slice s bits) <-> exists p, in_boxes p s /\ q = select bits p.
Proof.
  intros n bits s P Lu Hn'. unfold bs_slice, bs_of in *. rewrite Forall_forall in P. split.
  - apply Forall_forall. intros b Hb. apply in_map_iff in Hb as (b0 & <- & Hb). apply (slice_box n); auto.
  - intros q. split.
    + intros (b & Hb & Hq). apply in_map_iff in Hb as (b0 & <- & Hb).
      apply (slice_box n) in Hq as (p & Hp & ->); auto. exists p. split; [exists b0; auto|reflexivity].
    + intros (p & (b & Hb & Hp) & ->). exists (mdrange_slice b bits).
      split; [apply in_map_iff; eauto|]. apply (slice_box n); eauto.
Qed.

Lemma all_used : forall bits, forallb (fun b : bool => b) bits = true -> bits = repeat true (length bits).
Proof. induction bits as [|[] bits IH]; cbn; intros H; try discriminate; [reflexivity|]. f_equal. auto. Qed.
Lemma select_all : forall n (p : point), length p = n -> select (repeat true n) p = p.
Proof. induction n; intros [|x p] H; try discriminate; cbn; [reflexivity|]. f_equal. apply IHn. cbn in H. lia. Qed.
Lemma slice_select : forall bits (b : mdrange), mdrange_slice b bits = select bits b.
Proof.
  induction bits as [|u bits IH]; intros [|r b]; cbn; try reflexivity; try (destruct u; reflexivity).
  destruct u; now rewrite IH.
Qed.

Section Mlir.
Variable m : mlir.
Hypothesis M : mlir_ok m.

Definition exact (par : bset) (rs : list aexpr) (acc r : bset) : Prop :=
  forall p, in_boxes p r <-> in_boxes p par /\ exists q, affine_values p rs = Some q /\ in_boxes q acc.

Lemma roto_exact : forall n k rs fuel acc par, (1 <= n)%nat -> (1 <= k)%nat -> length rs = k ->
  Forall (roto_expr n) rs -> filter moving rs <> [] ->
  bs_of k acc -> bs_of n par -> acc <> [] -> par <> [] ->
  regular (AFRoto n rs) par ->
  (forall q, in_boxes q acc -> const_right rs q) ->
  (NoDup (flat_map adims rs) -> forall q, in_boxes q acc -> exists p, in_boxes p par /\ affine_values p rs = Some q) ->
  exists r, af_inverseMap m (S fuel) (AFRoto n rs) acc par = Ok r /\ bs_of n r /\ exact par rs acc r.
Proof.
  intros n k rs fuel acc par Hn Hk Lk F Hmv A P Na Np Reg CR Im.
  set (rs1 := filter moving rs).
  assert (F1 : Forall (roto_expr n) rs1).
  { apply Forall_forall. intros e He. apply filter_In in He as (He & _). rewrite Forall_forall in F. auto. }
  destruct (rotos_shift n rs1 F1) as (dcs & D).
  { apply Forall_forall. intros e He. apply filter_In in He as (_ & He). destruct e; try reflexivity. discriminate. }
  destruct (usedDims_spec n rs1 dcs D) as (Lu & Us).
  pose proof (usedDims_moving n rs) as UM. fold rs1 in UM.
  set (ud := usedDims n rs) in *. rewrite UM in Lu, Us.
  pose proof (usedResults_moving n rs F) as UR.
  assert (E0 : bs_empty acc = false) by (destruct acc; [congruence|reflexivity]).
  assert (E1 : bs_empty par = false) by (destruct par; [congruence|reflexivity]).
  assert (Dlt : forall d, In d (map fst dcs) -> (d < n)%nat).
  { intros d Hd. apply Us in Hd. rewrite <- Lu. apply nth_error_Some. congruence. }
  (* the reduced function *)
  set (n' := ones ud).
  set (k1 := length rs1).
  assert (Hk1 : (1 <= k1)%nat) by (unfold k1; fold rs1 in Hmv; destruct rs1; [congruence|cbn; lia]).
  assert (Hn' : (1 <= n')%nat).
  { destruct dcs as [|(d & c) dcs']; [inversion D as [E|]; unfold k1 in Hk1; rewrite <- E in Hk1; cbn in Hk1; lia|].
    assert (Y : nth_error ud d = Some true) by (apply Us; now left).
    pose proof (ones_lt _ _ Y). unfold n'. lia. }
  set (rs' := map (arename (newDim rs)) rs1).
  set (dcs' := map (fun dc => (newDim rs (fst dc), snd dc)) dcs).
  assert (ND : forall d, (d <= n)%nat -> newDim rs d = ones (firstn d ud)).
  { intros d Hd. rewrite <- newDim_moving. fold rs1. rewrite (newDim_ones n rs1 dcs D) by assumption. now rewrite UM. }
  assert (D' : Forall2 (shift_of n') rs' dcs').
  { apply (rename_shifts n); [assumption|]. intros d Hd. rewrite ND; [|apply Dlt in Hd; lia].
    apply ones_lt. now apply Us. }
  destruct (usedDims_spec n' rs' dcs' D') as (Lu' & Us').
  assert (Cover : forall x, (x < n')%nat -> In x (map fst dcs')).
  { intros x Hx. destruct (ones_onto ud x Hx) as (d & Hd & E). apply Us in Hd.
    pose proof (Dlt d Hd). apply in_map_iff in Hd as ((d' & c) & Hdd & Hd). cbn in Hdd. subst d'.
    unfold dcs'. rewrite map_map. cbn [fst]. apply in_map_iff. exists (d, c). cbn [fst].
    split; [|assumption]. rewrite ND; [assumption|lia]. }
  assert (U' : forallb (fun b => b) (usedDims n' rs') = true).
  { apply forallb_id. rewrite Lu'. intros x Hx. apply Us'. auto. }
  destruct (slice_set n ud par P Lu Hn') as (P' & S'). fold n' in P'. set (par' := bs_slice par ud) in *.
  assert (Hur : length (map moving rs) = k) by now rewrite map_length.
  assert (Hk1' : ones (map moving rs) = k1) by apply ones_moving.
  destruct (slice_set k (map moving rs) acc A Hur) as (A1 & SA); [lia|]. rewrite Hk1' in A1.
  set (acc1 := bs_slice acc (map moving rs)) in *.
  destruct (full_preimage m M n' k1 rs' dcs' fuel acc1 par') as (r & Hr & Br & X & X'); auto.
  { unfold rs', k1. now rewrite map_length. }
  { unfold acc1, bs_slice. destruct acc; [congruence|discriminate]. }
  { unfold par', bs_slice. destruct par; [congruence|discriminate]. }
  assert (Hb : af_build_map m n' rs' = Ok (AFRoto n' rs')).
  { apply build_roto; auto; [eapply shifts_roto; eauto|].
    pose proof (shifts_noconst n' rs' dcs' D') as NC.
    assert (Lr : length rs' = k1) by (unfold rs', k1; now rewrite map_length).
    clear - NC Lr Hk1. destruct rs' as [|e0 rs0]; [cbn in Lr; lia|]. inversion NC; subst. cbn. now rewrite H1. }
  assert (SL : forall p : point, length p = n -> length (select ud p) = n').
  { intros p Lp. unfold n'. assert (G : forall (bits : list bool) (l : point), length l = length bits -> length (select bits l) = ones bits).
    { clear. induction bits as [|[] bits IH]; intros [|x l] H; cbn in *; try discriminate; auto. }
    apply G. lia. }
  assert (Vals : forall p, length p = n -> affine_values (select ud p) rs' = affine_values p rs1).
  { intros p Lp. rewrite (shifts_values n rs1 dcs p D) by lia.
    rewrite (shifts_values n' rs' dcs' _ D') by (rewrite (SL p Lp); lia). f_equal. unfold dcs'. rewrite map_map. apply map_ext_in.
    intros (d & c) Hd. cbn [fst snd]. f_equal.
    assert (Hd' : In d (map fst dcs)) by (apply in_map_iff; exists (d, c); auto).
    rewrite ND; [|apply Dlt in Hd'; lia].
    assert (Y : nth_error (select ud p) (ones (firstn d ud)) = nth_error p d)
      by (apply select_nth; [lia|now apply Us]).
    destruct (nth_error_some _ p d) as (v & Hv); [apply Dlt in Hd'; lia|].
    rewrite Hv in Y. now rewrite (nth_error_nth _ _ _ Y), (nth_error_nth _ _ _ Hv). }
  (* values and accessed sets *)
  assert (VA : forall p, (exists q, affine_values p rs1 = Some q /\ in_boxes q acc1) <->
                         exists q, affine_values p rs = Some q /\ in_boxes q acc).
  { intros p. split.
    - intros (q1 & V1 & Hq1). apply SA in Hq1 as (q & Hq & ->). exists q. split; [|assumption].
      apply values_back; auto.
    - intros (q & V & Hq). destruct (values_moving p rs q V) as (V1 & _). exists (select (map moving rs) q).
      split; [exact V1|]. apply SA. eauto. }
  (* the reduced inverse image is exact *)
  assert (Ex : forall p', in_boxes p' r <-> in_boxes p' par' /\ exists q, affine_values p' rs' = Some q /\ in_boxes q acc1).
  { intros p'. split; [|intros (Hp & Hq); now apply X].
    intros Hp. destruct (X' p' Hp) as (Hq & Hor). split; [|assumption]. destruct Hor as [Hor|Hor]; [assumption|].
    destruct Hq as (q1 & V1 & Hq1). apply SA in Hq1 as (q & Hq & ->).
    unfold rs' in Hor. rewrite (adims_rename n _ rs1 dcs D) in Hor. apply nodup_map_inv in Hor.
    unfold rs1 in Hor. rewrite adims_moving in Hor. destruct (Im Hor q Hq) as (p & Hpp & Vp).
    destruct (values_moving p rs q Vp) as (Vm & _). fold rs1 in Vm.
    pose proof (bs_of_length n par p P Hpp) as Lp. rewrite <- (Vals p Lp) in Vm.
    assert (p' = select ud p) as ->.
    { apply (shifts_inj n' rs' dcs' p' (select ud p) (select (map moving rs) q)); auto.
      exact (bs_of_length n' r p' Br Hp). }
    apply S'. eauto. }
  assert (Full : forallb (fun b => b) ud = true -> par' = par /\ n' = n /\ forall p : point, length p = n -> select ud p = p).
  { intros U. apply all_used in U. rewrite Lu in U. unfold par', n'. rewrite U. split; [now apply bs_slice_all|].
    split; [clear; induction n as [|x IH]; cbn; auto|]. intros p Lp. now apply select_all. }
  destruct (forallb (fun b => b) ud && forallb (fun b => b) (map moving rs)) eqn:All.
  - (* nothing to reduce *)
    apply andb_prop in All as (U & V). destruct (Full U) as (Ep & En & Sel).
    assert (Ers : rs1 = rs).
    { unfold rs1. clear - V. induction rs as [|e rs IH]; [reflexivity|]. cbn in V. apply andb_prop in V as (V1 & V2).
      cbn. rewrite V1. now rewrite IH. }
    rewrite Ers in D.
    destruct (full_preimage m M n k rs dcs (S fuel) acc par) as (t & Ht & Bt & Y & Y'); auto.
    exists t. split; [exact Ht|]. split; [assumption|]. intros p. split; [|intros (Hp & Hq); now apply Y].
    intros Hp. destruct (Y' p Hp) as (Hq & Hor). split; [|assumption]. destruct Hor as [Hor|Hor]; [assumption|].
    destruct Hq as (q & Vq & Hq). destruct (Im Hor q Hq) as (p0 & Hp0 & V0).
    assert (p = p0) as ->; [|assumption].
    apply (shifts_inj n rs dcs p p0 q); auto.
    + intros x Hx. apply Us. rewrite (proj1 (forallb_id ud) U x); [reflexivity|lia].
    + exact (bs_of_length n t p Bt Hp).
    + exact (bs_of_length n par p0 P Hp0).
  - (* the reduced function *)
    assert (Hinv : roto_inverse m n rs = Ok None).
    { apply inverse_null. destruct (isInvertible_spec n rs F) as (b & Hb' & B). rewrite Hb'. f_equal.
      destruct b; [|reflexivity]. exfalso. destruct (proj1 B eq_refl) as (_ & dcs2 & D2 & _ & I).
      rewrite andb_false_iff in All. destruct All as [All|All].
      - assert (forallb (fun b => b) ud = true); [|congruence].
        apply forallb_id. rewrite Lu. intros x Hx. apply Us.
        rewrite <- (shifts_dims n rs1 dcs D). unfold rs1. rewrite adims_moving, (shifts_dims n rs dcs2 D2). auto.
      - assert (forallb (fun b => b) (map moving rs) = true); [|congruence].
        clear - D2. induction D2 as [|e dc rs dcs He H IH]; [reflexivity|]. cbn. rewrite IH.
        destruct He as (_ & Hi & _). destruct e; try reflexivity. discriminate. }
    assert (Red : af_inverseMap m (S fuel) (AFRoto n rs) acc par =
      if forallb (fun b => b) ud then Ok r
      else map_res (fun q => merge_dims ud (snd q) (fst q)) (list_prod par r)).
    { cbn [af_inverseMap]. rewrite E0, Hinv. cbn [andb bind]. fold ud. rewrite UR, <- negb_andb, All. cbn [negb].
      change (fun e => match e with AConst _ => false | _ => true end) with moving.
      rewrite moving_rename. fold rs1. fold rs'.
      replace (newDim rs n) with n' by (rewrite ND by lia; unfold n'; rewrite <- Lu; now rewrite firstn_all).
      rewrite Hb. cbn [bind]. fold acc1. fold par'. rewrite Hr. reflexivity. }
    rewrite Red. destruct (forallb (fun b => b) ud) eqn:U.
    + destruct (Full eq_refl) as (Ep & En & Sel). exists r. split; [reflexivity|]. rewrite En in Br. split; [assumption|].
      intros p. rewrite Ex, Ep. split.
      * intros (Hp & Hq). split; [assumption|]. apply VA. pose proof (bs_of_length n par p P Hp) as Lp.
        rewrite <- (Vals p Lp), (Sel p Lp). assumption.
      * intros (Hp & Hq). split; [assumption|]. apply VA in Hq. pose proof (bs_of_length n par p P Hp) as Lp.
        rewrite <- (Vals p Lp), (Sel p Lp) in Hq. assumption.
    + (* one box *)
      destruct Reg as [(b & ->)|Reg].
      2:{ exfalso. assert (forallb (fun b => b) ud = true); [|congruence]. apply forallb_id. rewrite Lu. intros x Hx.
          apply Us. rewrite <- (shifts_dims n rs1 dcs D). unfold rs1. rewrite adims_moving. auto. }
      assert (Pb : box_of n b) by (inversion P; assumption).
      assert (LP : list_prod [b] r = map (fun b' => (b, b')) r) by (cbn; now rewrite app_nil_r). rewrite LP.
      unfold bs_of in Br. pose proof Br as Br'. rewrite Forall_forall in Br'.
      assert (MS : forall b', In b' r -> exists z, merge_dims ud b' b = Ok z /\ length z = n /\ Forall range_ok z /\
        (forall p, in_box p z <-> in_box p b /\ in_box (select ud p) b')).
      { intros b' B2. destruct (Br' b' B2) as ((_ & Ro) & Lb'). destruct Pb as ((_ & Rb) & Lb).
        destruct (merge_dims_spec ud b' b) as (z & Hz & Lz & Okz & S1 & S2 & S3); [lia|exact Lb'|].
        exists z. split; [assumption|]. split; [lia|]. split; [auto|]. intros p. split; [|intros (H1 & H2); auto].
        intros Hp. pose proof (S1 p Hp) as Hs. split; [|assumption]. apply S3; [assumption|].
        assert (Hsr : in_boxes (select ud p) r) by (exists b'; auto).
        apply Ex in Hsr as (Hsr & _). destruct Hsr as (c & [<-|[]] & Hc). now rewrite <- slice_select. }
      assert (Merge : exists t, map_res (fun q => merge_dims ud (snd q) (fst q)) (map (fun b' => (b, b')) r) = Ok t).
      { apply map_res_total. intros (c & b') Hbb. apply in_map_iff in Hbb as (b'' & Eb & B2). injection Eb as <- <-.
        cbn [fst snd]. destruct (MS b'' B2) as (z & Hz & _). eauto. }
      destruct Merge as (t & Ht). exists t. split; [exact Ht|]. split.
      * apply Forall_forall. intros z Hz. destruct (map_res_in _ _ _ _ _ z Ht Hz) as ((c & b') & Hbb & Hm).
        apply in_map_iff in Hbb as (b'' & Eb & B2). injection Eb as <- <-. cbn [fst snd] in Hm.
        destruct (MS b'' B2) as (z' & Hz' & Lz & Rz & _). rewrite Hm in Hz'. injection Hz' as <-.
        split; [|assumption]. split; [destruct z; [cbn in Lz; lia|discriminate]|assumption].
      * intros p. split.
        -- intros (z & Hz & Hpz). destruct (map_res_in _ _ _ _ _ z Ht Hz) as ((c & b') & Hbb & Hm).
           apply in_map_iff in Hbb as (b'' & Eb & B2). injection Eb as <- <-. cbn [fst snd] in Hm.
           destruct (MS b'' B2) as (z' & Hz' & _ & _ & Sz). rewrite Hm in Hz'. injection Hz' as <-.
           destruct (proj1 (Sz p) Hpz) as (Hpb & Hps). split; [exists b; split; [now left|assumption]|].
           assert (Lp : length p = n) by (rewrite (in_box_length _ _ Hpb); apply Pb).
           apply VA. rewrite <- (Vals p Lp). apply Ex. exists b''. auto.
        -- intros (Hp & Hq). assert (Hpb : in_box p b) by (destruct Hp as (c & [<-|[]] & Hc); assumption).
           pose proof (bs_of_length n [b] p P Hp) as Lp. apply VA in Hq. rewrite <- (Vals p Lp) in Hq.
           assert (Hsr : in_boxes (select ud p) r) by (apply Ex; split; [apply S'; eauto|assumption]).
           destruct Hsr as (b' & B2 & Hs).
           destruct (map_res_in2 _ _ _ _ _ (b, b') Ht) as (z & Hz & Hm); [apply in_map_iff; eauto|].
           cbn [fst snd] in Hm. destruct (MS b' B2) as (z' & Hz' & _ & _ & Sz). rewrite Hm in Hz'. injection Hz' as <-.
           exists z. split; [assumption|]. apply Sz. auto.
Qed.
End Mlir.
