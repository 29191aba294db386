(** Properties C20 to C24 and C52: access functions.

    All the theorems hold for every simplifier [m] of affine expressions (the
    MLIR library) with the properties of [mlir_ok]; [mlir0] is one. *)
From Coq Require Import ZArith List Bool Lia.
From Verif Require Import RangeModel MDRangeModel Result BoxSetModel AccessModel Spec AccessSpec
  RangeProofs MDRangeProofs BoxListProofs BoxSetProofs AccessProofs AccessImageProofs
  AccessInverseProofs AccessPreimageProofs AccessCombineProofs AccessReadProofs ListTac.
Import ListNotations.
Open Scope Z_scope.

(** The assumptions about the simplifier can be met. *)
Example simplifier_exists : mlir_ok mlir0.
Proof. exact mlir0_ok. Qed.

Definition rg (a b : Z) : range := mkRange a b.

(** ** C20. Mapping an index set gives the image.

    For every access function without a dimension used by two results of a
    rotation-translation. Missing: the other rotation-translations
    ([C20_image_refuted]). *)
Theorem C20_image_partial : forall m n k f s, mlir_ok m -> built_access m n k f ->
  (1 <= n)%nat -> (1 <= k)%nat -> bs_of n s -> one_use f ->
  (forall p, in_boxes p s -> exists u, af_map_point f p = Ok u) ->
  exists t, af_map_set f s = Ok t /\ image_of f s t.
Proof.
  intros m n k f s M B Hn Hk S O D. pose proof (built_access_wf m M n k f B) as W.
  destruct (image_defined n k f s W Hn S D) as (t & Ht). exists t. split; [assumption|].
  exact (image_exact n k f s t W Hn Hk S O Ht).
Qed.
Print Assumptions C20_image_partial.

(** No accessed element is lost, whatever the function. *)
Theorem C20_image_superset_partial : forall m n k f s t, mlir_ok m -> built_access m n k f ->
  (1 <= n)%nat -> (1 <= k)%nat -> bs_of n s -> af_map_set f s = Ok t ->
  forall p q, in_boxes p s -> accesses f p q -> in_boxes q t.
Proof.
  intros m n k f s t M B Hn Hk S E.
  exact (image_sub n k f s t (built_access_wf m M n k f B) Hn Hk S E).
Qed.
Print Assumptions C20_image_superset_partial.

(** (d0) -> (d0, d0) on [0,3): (0,1) is in the result but no point maps to it. *)
Theorem C20_image_refuted : exists f s t q, affine_access mlir0 1 2 f /\ bs_of 1 s /\
  af_map_set f s = Ok t /\ in_boxes q t /\ ~ exists p, in_boxes p s /\ accesses f p q.
Proof.
  exists (AFRoto 1 [ADim 0; ADim 0]), [[rg 0 3]], [[rg 0 3; rg 0 3]], [0; 1].
  split; [|split; [|split; [|split]]].
  - apply (affine_from_map mlir0 1 [ADim 0; ADim 0]); [repeat constructor|repeat constructor|discriminate|reflexivity].
  - repeat constructor. discriminate.
  - reflexivity.
  - eexists. split; [now left|]. unfold rg. repeat constructor; cbn; lia.
  - intros (p & Hp & s & Hs & Hq). destruct Hp as (b & [<-|[]] & Hp).
    inversion Hp as [|v r p' b' Hv Hp']; subst. inversion Hp'; subst. cbn in Hs. injection Hs as <-.
    apply (in_boxes_point _ [v; v]) in Hq. injection Hq as <- E. discriminate.
Qed.
Print Assumptions C20_image_refuted.

Example C20_image_example :
  exists f t, built_access mlir0 2 2 f /\ one_use f /\
    af_map_set f [[rg 0 3; rg 5 7]; [rg 8 9; rg 1 2]] = Ok t /\
    bs_points t = [[6;0];[6;1];[6;2];[7;0];[7;1];[7;2];[2;8]].
Proof.
  exists (AFRoto 2 [AAdd (ADim 1) (AConst 1); ADim 0]). eexists. split; [|split; [|split]].
  - eapply (built_from_map mlir0 2 [AAdd (ADim 1) (AConst 1); ADim 0]); [repeat constructor|reflexivity].
  - cbn. repeat constructor; cbn; intros []; lia.
  - reflexivity.
  - reflexivity.
Qed.

(** ** C21. Inverting an access function round-trips. *)
Theorem C21_inverse : forall m n k f, mlir_ok m -> built_access m n k f -> (1 <= n)%nat ->
  (exists b, af_isInvertible f = Ok b /\ (b = true -> exists g, af_inverse m f = Ok (Some g))) /\
  (exists o, af_inverse m f = Ok o) /\
  forall g, af_inverse m f = Ok (Some g) ->
    af_dims g = n /\ af_results g = n /\ k = n /\
    forall p q, length p = n -> length q = n ->
      (maps_to f p q <-> maps_to g q p).
Proof.
  intros m n k f M B Hn. pose proof (built_access_wf m M n k f B) as W.
  destruct f as [|n' rs|n' rs|n' rs|n' rs]; cbn [af_isInvertible af_inverse].
  - destruct W. lia.
  - split; [exists false; split; [reflexivity|discriminate]|]. split; [eauto|]. discriminate.
  - split; [exists false; split; [reflexivity|discriminate]|]. split; [eauto|]. discriminate.
  - cbn in W. destruct W as (-> & Hk & _ & _ & F). destruct (isInvertible_spec n rs F) as (b & Hb & Hs).
    destruct b.
    + destruct (roto_inverse_spec m M n rs Hn F Hb) as (inv & Hi & Li & Fi & _ & R).
      split; [exists true; eauto|]. split; [eauto|]. intros g Hg. rewrite Hi in Hg. injection Hg as <-.
      cbn [af_dims af_results]. destruct (proj1 Hs eq_refl) as (Lr & _). split; [reflexivity|]. split; [assumption|].
      split; [lia|]. intros p q Lp Lq. rewrite (maps_to_values_iff n rs p q), (maps_to_values_iff n inv q p); auto; lia.
    + rewrite (inverse_null m n rs Hb). split; [exists false; split; [assumption|discriminate]|]. split; [eauto|]. discriminate.
  - split; [exists false; split; [reflexivity|discriminate]|]. split; [eauto|]. discriminate.
Qed.
Print Assumptions C21_inverse.

(** Mapping a point and then the result through the inverse gives the point
    back; mapping is total. *)
Theorem C21_round_trip : forall m n k f g, mlir_ok m -> built_access m n k f -> (1 <= n)%nat ->
  af_inverse m f = Ok (Some g) -> forall p, length p = n ->
  (exists q, length q = n /\ maps_to f p q /\ maps_to g q p) /\
  (exists q, length q = n /\ maps_to g p q /\ maps_to f q p).
Proof.
  intros m n k f g M B Hn Hg p Lp. destruct (C21_inverse m n k f M B Hn) as (_ & _ & R).
  destruct (R g Hg) as (Dg & Rg & -> & RT). pose proof (built_access_wf m M _ _ f B) as W.
  destruct f as [|n' rs|n' rs|n' rs|n' rs]; cbn [af_inverse] in Hg; try discriminate.
  { destruct W. lia. }
  cbn in W. destruct W as (-> & Lr & _ & _ & F). destruct (isInvertible_spec n rs F) as ([|] & Hb & Hs).
  2:{ rewrite (inverse_null m n rs Hb) in Hg. discriminate. }
  destruct (roto_inverse_spec m M n rs Hn F Hb) as (inv & Hi & Li & Fi & _ & _). rewrite Hi in Hg. injection Hg as <-.
  assert (PR : forall rs, length rs = n -> Forall (roto_expr n) rs -> exists q, length q = n /\ maps_to (AFRoto n rs) p q).
  { intros l Hl Fl. destruct (plain_maps n n (AFRoto n l) p) as (q & Lq & _ & Mq).
    - split; [|split; [assumption|exact I]]. cbn. auto.
    - lia.
    - eauto. }
  split.
  - destruct (PR rs Lr F) as (q & Lq & Mq). exists q. split; [assumption|]. split; [assumption|]. now apply RT.
  - destruct (PR inv Li Fi) as (q & Lq & Mq). exists q. split; [assumption|]. split; [assumption|]. now apply RT.
Qed.
Print Assumptions C21_round_trip.

Example C21_example : exists f g, built_access mlir0 2 2 f /\ af_inverse mlir0 f = Ok (Some g) /\
  maps_to f [3; 5] [6; 1] /\ maps_to g [6; 1] [3; 5].
Proof.
  exists (AFRoto 2 [AAdd (ADim 1) (AConst 1); AAdd (ADim 0) (AConst (-2))]). eexists.
  split; [|split; [vm_compute; reflexivity|]].
  - eapply (built_from_map mlir0 2 [AAdd (ADim 1) (AConst 1); AAdd (ADim 0) (AConst (-2))]); [repeat constructor|reflexivity].
  - split; apply singleton_maps; reflexivity.
Qed.

(** ** C22. The iterations that access given elements.

    For the affine functions without constant results and without divisions, as
    far as the iterations of [parent] are concerned. Missing: functions with
    constant results ([C22_constant_refuted], [C22_constant_result_refuted]) and
    iterations outside [parent] ([C22_outside_refuted]). *)
Theorem C22_preimage_partial : forall m n k f accessed parent, mlir_ok m -> affine_access m n k f ->
  (1 <= n)%nat -> no_constant_result f -> bs_of k accessed -> bs_of n parent -> parent <> [] ->
  exists r, af_inverseMap m 2 f accessed parent = Ok r /\
    forall p, in_boxes p parent ->
      (in_boxes p r <-> exists q, accesses f p q /\ in_boxes q accessed).
Proof.
  intros m n k f acc par M A Hn NC Ba Bp Np. pose proof (affine_access_plain m M n k f A) as P.
  assert (Hk : (1 <= k)%nat) by apply P.
  assert (Lp : forall p, in_boxes p par -> length p = n).
  { intros p (b & Hb & Hp). unfold bs_of in Bp. rewrite Forall_forall in Bp. destruct (Bp b Hb) as (_ & L).
    rewrite (in_box_length _ _ Hp). assumption. }
  destruct f as [|n' rs|n' rs|n' rs|n' rs]; cbn [no_constant_result] in NC; try tauto.
  - destruct P as ((-> & Lk & _ & _ & F) & _ & _).
    assert (X : forall r, preimage_on par rs acc r -> forall p, in_boxes p par ->
      (in_boxes p r <-> exists q, accesses (AFRoto n rs) p q /\ in_boxes q acc)).
    { intros r R p Hp. rewrite (R p Hp). split.
      - intros (q & Hq & Ha). exists q. split; [|assumption]. destruct (maps_to_values n rs p q) as (s & Hs & Q).
        + rewrite (Lp p Hp). lia.
        + assumption.
        + exists s. split; [assumption|]. now apply Q.
      - intros (q & (s & Hs & Hq) & Ha). exists q. split; [|assumption].
        destruct (plain_maps n k (AFRoto n rs) p) as (q' & _ & Hv & (s' & Hs' & Q)).
        + split; [|split; [assumption|exact I]]. cbn. auto.
        + rewrite (Lp p Hp). lia.
        + rewrite Hs in Hs'. injection Hs' as <-. apply Q in Hq as ->. exact Hv. }
    destruct (rotos_shift n rs F) as (dcs & Hd).
    { apply Forall_forall. intros e He. destruct e; try reflexivity. now apply NC in He. }
    destruct acc as [|b acc'].
    + exists []. split.
      * cbn [af_inverseMap bs_empty]. destruct par; [congruence|]. cbn [bs_empty negb andb].
        destruct rs; [cbn in Lk; lia|]. reflexivity.
      * apply X. intros p _. split; [intros (b & [] & _)|]. intros (q & _ & (b & [] & _)).
    + destruct (roto_preimage m M n k rs dcs 1 (b :: acc') par) as (r & Hr & R); auto; [discriminate|].
      exists r. split; [exact Hr|]. now apply X.
  - destruct P as ((-> & Lk & _ & F) & _ & PR). cbn [af_inverseMap].
    assert (T : forall p, in_boxes p par -> exists q, af_map_point (AFGeneric n rs) p = Ok [mdrange_of_point q]).
    { intros p Hp. destruct (fval_total n k (AFGeneric n rs) p) as (q & Hq & _).
      - split; [|split; [assumption|exact PR]]. cbn. auto.
      - rewrite (Lp p Hp). lia.
      - exists q. apply (fval_point n k); [|rewrite (Lp p Hp); lia|assumption].
        split; [|split; [assumption|exact PR]]. cbn. auto. }
    destruct (base_inverse_spec (AFGeneric n rs) acc par) as (r & Hr & R).
    { intros p Hp. destruct (T p Hp) as (q & Hq). eauto. }
    exists r. split; [exact Hr|]. intros p Hp. rewrite R. destruct (T p Hp) as (q & Hq). unfold accesses. rewrite Hq. split.
    + intros (_ & s & E & Q). injection E as <-. exists q. split; [|apply Q; now apply in_boxes_point].
      eexists. split; [reflexivity|]. now apply in_boxes_point.
    + intros (q' & (s & E & Q) & Ha). injection E as <-. split; [assumption|]. eexists. split; [reflexivity|].
      intros x Hx. apply in_boxes_point in Hx, Q. subst. assumption.
Qed.
Print Assumptions C22_preimage_partial.

(** f(i) = 5, accessed {5,6}, parent [0,3): every iteration accesses 5, the
    result is empty. *)
Theorem C22_constant_refuted : exists f accessed parent r, affine_access mlir0 1 1 f /\
  bs_of 1 accessed /\ bs_of 1 parent /\ af_inverseMap mlir0 2 f accessed parent = Ok r /\
  r = [] /\ exists p q, in_boxes p parent /\ accesses f p q /\ in_boxes q accessed.
Proof.
  exists (AFAffineConstant 1 [AConst 5]), [[rg 5 7]], [[rg 0 3]], [].
  split; [|split; [|split; [|split; [|split]]]].
  - apply (affine_from_map mlir0 1 [AConst 5]); [repeat constructor|repeat constructor|discriminate|reflexivity].
  - repeat constructor; discriminate.
  - repeat constructor; discriminate.
  - reflexivity.
  - reflexivity.
  - exists [0], [5]. split; [|split].
    + eexists. split; [now left|]. repeat constructor; cbn; lia.
    + eexists. split; [reflexivity|]. now apply (in_boxes_point _ [5]).
    + eexists. split; [now left|]. repeat constructor; cbn; lia.
Qed.
Print Assumptions C22_constant_refuted.

(** f(i) = (i, 5), accessed {(0,7)}, parent [0,3): iteration 0 is reported, but
    it accesses (0,5) only. *)
Theorem C22_constant_result_refuted : exists f accessed parent r p, affine_access mlir0 1 2 f /\
  bs_of 2 accessed /\ bs_of 1 parent /\ af_inverseMap mlir0 2 f accessed parent = Ok r /\
  in_boxes p r /\ in_boxes p parent /\ ~ exists q, accesses f p q /\ in_boxes q accessed.
Proof.
  exists (AFRoto 1 [ADim 0; AConst 5]), [[rg 0 1; rg 7 8]], [[rg 0 3]], [[rg 0 1]], [0].
  split; [|split; [|split; [|split; [|split; [|split]]]]].
  - apply (affine_from_map mlir0 1 [ADim 0; AConst 5]); [repeat constructor|repeat constructor|discriminate|reflexivity].
  - repeat constructor; discriminate.
  - repeat constructor; discriminate.
  - reflexivity.
  - eexists. split; [now left|]. repeat constructor; cbn; lia.
  - eexists. split; [now left|]. repeat constructor; cbn; lia.
  - intros (q & (s & E & Hq) & (b & [<-|[]] & Hb)). cbn in E. injection E as <-.
    apply (in_boxes_point _ [0; 5]) in Hq as ->. inversion Hb as [|v r p' b' Hv Hp']; subst.
    inversion Hp' as [|v r p' b' Hv' _]; subst. unfold in_range in Hv'. cbn in Hv'. lia.
Qed.
Print Assumptions C22_constant_result_refuted.

(** f(i) = i, accessed {9}, parent [0,3): iteration 9 is reported. *)
Theorem C22_outside_refuted : exists f accessed parent r p, affine_access mlir0 1 1 f /\
  bs_of 1 accessed /\ bs_of 1 parent /\ af_inverseMap mlir0 2 f accessed parent = Ok r /\
  in_boxes p r /\ ~ in_boxes p parent.
Proof.
  exists (AFRoto 1 [ADim 0]), [[rg 9 10]], [[rg 0 3]], [[rg 9 10]], [9].
  split; [|split; [|split; [|split; [|split]]]].
  - apply (affine_from_map mlir0 1 [ADim 0]); [repeat constructor|repeat constructor|discriminate|reflexivity].
  - repeat constructor; discriminate.
  - repeat constructor; discriminate.
  - reflexivity.
  - eexists. split; [now left|]. repeat constructor; cbn; lia.
  - intros (b & [<-|[]] & Hb). inversion Hb as [|v r p' b' Hv Hp']; subst. unfold in_range in Hv. cbn in Hv. lia.
Qed.
Print Assumptions C22_outside_refuted.

Example C22_example : exists f r, affine_access mlir0 2 1 f /\ no_constant_result f /\
  af_inverseMap mlir0 2 f [[rg 4 6]] [[rg 0 4; rg 0 2]] = Ok r /\
  bs_points r = [[3; 0]; [3; 1]; [4; 0]; [4; 1]].
Proof.
  exists (AFRoto 2 [AAdd (ADim 0) (AConst 1)]). eexists. split; [|split; [|split; [vm_compute; reflexivity|reflexivity]]].
  - apply (affine_from_map mlir0 2 [AAdd (ADim 0) (AConst 1)]); [repeat constructor; cbn; lia|repeat constructor|discriminate|reflexivity].
  - cbn. intros c [E|[]]. discriminate.
Qed.

(** ** C23. Combining access functions is composition.

    For affine functions without divisions, the second one having at most as
    many dimensions as the first one has results. Missing: functions that access
    several elements ([C23_combine_refuted]) and divisions
    ([C52_division_refuted]). *)
Theorem C23_combine_partial : forall m n k n' k' f g, mlir_ok m ->
  affine_access m n k f -> affine_access m n' k' g -> (n' <= k)%nat ->
  exists h, af_combine m f g = Ok h /\ af_dims h = n /\ af_results h = k' /\
    forall p, length p = n -> exists q r, maps_to f p q /\ maps_to g q r /\ maps_to h p r.
Proof.
  intros m n k n' k' f g M A A' Hk. pose proof (affine_access_plain m M _ _ f A) as P.
  pose proof (affine_access_plain m M _ _ g A') as P'.
  destruct (combine_plain m M n k n' k' f g P P' Hk) as (h & Hh & Ph & V). exists h. split; [assumption|].
  split; [exact (wf_dims n k' h (proj1 Ph))|]. split; [exact (wf_results n k' h (proj1 Ph))|].
  intros p Lp. destruct (plain_maps n k f p P) as (q & Lq & Fq & Mq); [lia|].
  destruct (plain_maps n' k' g q P') as (r & Lr & Fr & Mr); [lia|].
  destruct (plain_maps n k' h p Ph) as (r' & _ & Fr' & Mr'); [lia|].
  exists q, r. rewrite (V p q r Fq Fr) in Fr'. injection Fr' as <-. auto.
Qed.
Print Assumptions C23_combine_partial.

(** f(i) = [0,3), g(i) = i + 1: the combination has two dimensions, and mapping
    a point of the single dimension of f fails. *)
Theorem C23_combine_refuted : exists f g h, built_access mlir0 1 1 f /\ affine_access mlir0 1 1 g /\
  accesses f [0] [2] /\ maps_to g [2] [3] /\
  af_combine mlir0 f g = Ok h /\ af_dims h = 2%nat /\ af_map_point h [0] = Bad.
Proof.
  exists (AFConstant 1 [DRange (rg 0 3)]), (AFRoto 1 [AAdd (ADim 0) (AConst 1)]). eexists.
  split; [|split; [|split; [|split; [|split; [vm_compute; reflexivity|split; reflexivity]]]]].
  - eapply (built_from_accesses mlir0 1 [DRange (rg 0 3)]); [repeat constructor|reflexivity].
  - apply (affine_from_map mlir0 1 [AAdd (ADim 0) (AConst 1)]); [repeat constructor; cbn; lia|repeat constructor|discriminate|reflexivity].
  - eexists. split; [reflexivity|]. eexists. split; [now left|]. repeat constructor; cbn; lia.
  - apply singleton_maps. reflexivity.
Qed.
Print Assumptions C23_combine_refuted.

Example C23_example : exists f g h, affine_access mlir0 2 2 f /\ affine_access mlir0 1 1 g /\
  af_combine mlir0 f g = Ok h /\ maps_to f [3; 4] [7; 4] /\ maps_to g [7; 4] [14] /\ maps_to h [3; 4] [14].
Proof.
  exists (AFGeneric 2 [DAdd (DDim 0) (DDim 1); DDim 1]), (AFGeneric 1 [DMul (DDim 0) (DConst 2)]). eexists.
  split; [|split; [|split; [vm_compute; reflexivity|split; [|split]]]].
  - apply (affine_from_map mlir0 2 [AAdd (ADim 0) (ADim 1); ADim 1]); [repeat constructor; cbn; lia|repeat constructor|discriminate|reflexivity].
  - apply (affine_from_map mlir0 1 [AMul (ADim 0) (AConst 2)]); [repeat constructor; cbn; lia|repeat constructor|discriminate|reflexivity].
  - apply singleton_maps; reflexivity.
  - apply singleton_maps; reflexivity.
  - apply singleton_maps; reflexivity.
Qed.

(** ** C24. Access functions that compare equal behave equally.

    When they have the same number of results and an address denotes one
    iteration space. Missing: different numbers of results
    ([C24_equal_refuted]). *)
Theorem C24_equal_partial : forall f g, af_results f = af_results g -> same_objects f g ->
  af_eq f g = true ->
  af_dims f = af_dims g /\ forall p, af_map_point f p = af_map_point g p.
Proof. exact eq_same. Qed.
Print Assumptions C24_equal_partial.

(** (i,j) -> (i+j) and (i,j) -> (i+j, i) compare equal. *)
Theorem C24_equal_refuted : exists f g p q r, affine_access mlir0 2 1 f /\ affine_access mlir0 2 2 g /\
  af_eq f g = true /\ af_results f <> af_results g /\ maps_to f p q /\ maps_to g p r /\ q <> r.
Proof.
  exists (AFGeneric 2 [DAdd (DDim 0) (DDim 1)]), (AFGeneric 2 [DAdd (DDim 0) (DDim 1); DDim 0]), [3; 4], [7], [7; 3].
  split; [|split; [|split; [reflexivity|split; [discriminate|split; [|split]]]]].
  - apply (affine_from_map mlir0 2 [AAdd (ADim 0) (ADim 1)]); [repeat constructor; cbn; lia|repeat constructor|discriminate|reflexivity].
  - apply (affine_from_map mlir0 2 [AAdd (ADim 0) (ADim 1); ADim 0]); [repeat constructor; cbn; lia|repeat constructor|discriminate|reflexivity].
  - apply singleton_maps; reflexivity.
  - apply singleton_maps; reflexivity.
  - discriminate.
Qed.
Print Assumptions C24_equal_refuted.

Example C24_example : exists f g, af_results f = af_results g /\ same_objects f g /\ af_eq f g = true /\
  f <> g /\ accesses f [1; 2] [4].
Proof.
  exists (AFConstant 2 [DIndices 1 [[rg 4 6]] 0 []]), (AFGeneric 2 [DIndices 1 [[rg 4 6]] 0 []]).
  split; [reflexivity|]. split; [|split; [reflexivity|split; [discriminate|]]].
  - intros i s d deps s' deps' [E|[]] [E'|[]]. injection E as <- <- <- <-. injection E' as <- <-. auto.
  - eexists. split; [reflexivity|]. eexists. split; [now left|]. repeat constructor; cbn; lia.
Qed.

(** ** C52. Building an access function keeps the meaning of the accesses.

    Affine maps without divisions. Missing: divisions ([C52_division_refuted]). *)
Theorem C52_affine_map_partial : forall m n es, mlir_ok m ->
  Forall no_div es -> Forall (dims_below n) es -> es <> [] ->
  exists f, af_build_map m n es = Ok f /\ af_dims f = n /\ af_results f = length es /\
    forall p, length p = n -> exists q, affine_values p es = Some q /\ maps_to f p q.
Proof.
  intros m n es M N D Hne. destruct (build_map_plain m M n es N D Hne) as (f & Hf & P & V). exists f.
  split; [assumption|]. split; [exact (wf_dims _ _ _ (proj1 P))|]. split; [exact (wf_results _ _ _ (proj1 P))|].
  intros p Lp. destruct (affine_values_some n p es N D) as (q & Hq & _); [lia|]. exists q. split; [assumption|].
  destruct (plain_maps n _ f p P) as (q' & _ & Fq & Mq); [lia|]. rewrite (V p q Hq) in Fq. injection Fq as <-. exact Mq.
Qed.
Print Assumptions C52_affine_map_partial.

(** Dimension accesses: arithmetic on dimensions, ranges and independent
    iteration spaces. Missing: divisions, iteration spaces that depend on each
    other ([C52_dependent_refuted]) and arithmetic on ranges. *)
Theorem C52_accesses_partial : forall m n rs p, mlir_ok m ->
  Forall (single_access n) rs -> rs <> [] -> length p = n ->
  exists f s, af_build m n rs = Ok f /\ af_map_point f p = Ok s /\
    forall q, in_boxes q s <-> Forall2 (reads p) rs q.
Proof. intros m n rs p M. exact (build_reads m M n rs p). Qed.
Print Assumptions C52_accesses_partial.

(** Arithmetic on ranges and independent iteration spaces too, for a generic
    access function. *)
Theorem C52_generic_partial : forall n rs p,
  Forall (independent n) rs -> rs <> [] -> length p = n ->
  exists s, af_map_point (AFGeneric n rs) p = Ok s /\
    forall q, in_boxes q s <-> Forall2 (reads p) rs q.
Proof. intros n rs p H Hne L. apply (gen_map_reads n p rs H Hne). lia. Qed.
Print Assumptions C52_generic_partial.

(** i floordiv 2 at -3 is -2; the access function gives -1. *)
Theorem C52_division_refuted : exists e f p v w, dims_below 1 e /\
  af_build_map mlir0 1 [e] = Ok f /\ length p = 1%nat /\
  aeval p e = Some v /\ maps_to f p [w] /\ v <> w.
Proof.
  exists (AFloorDiv (ADim 0) (AConst 2)), (AFGeneric 1 [DDiv (DDim 0) (DConst 2)]), [-3], (-2), (-1).
  split; [cbn; lia|]. split; [reflexivity|]. split; [reflexivity|]. split; [reflexivity|].
  split; [apply singleton_maps; reflexivity|discriminate].
Qed.
Print Assumptions C52_division_refuted.

(** Two results that read the two coordinates of the points of one iteration
    space {(0,1), (2,3)}: the mapped set holds points of rank 4. *)
Theorem C52_dependent_refuted : exists rs f s q, af_build mlir0 1 rs = Ok f /\ length rs = 2%nat /\
  af_map_point f [0] = Ok s /\ in_boxes q s /\ length q = 4%nat.
Proof.
  exists [DIndices 1 [[rg 0 1; rg 1 2]; [rg 2 3; rg 3 4]] 0 [1%nat]; DIndices 1 [[rg 0 1; rg 1 2]; [rg 2 3; rg 3 4]] 1 [1%nat]].
  eexists. eexists. exists [0; 1; 2; 3].
  split; [vm_compute; reflexivity|]. split; [reflexivity|]. split; [vm_compute; reflexivity|]. split; [|reflexivity].
  eexists. split; [now left|]. repeat constructor; cbn; lia.
Qed.
Print Assumptions C52_dependent_refuted.

Example C52_example : exists f s, 
  af_build mlir0 1 [DAdd (DDim 0) (DConst 1); DRange (rg 3 5)] = Ok f /\
  Forall (single_access 1) [DAdd (DDim 0) (DConst 1); DRange (rg 3 5)] /\
  af_map_point f [7] = Ok s /\ bs_points s = [[8; 3]; [8; 4]].
Proof.
  eexists. eexists. split; [vm_compute; reflexivity|]. split; [|split; reflexivity].
  constructor; [left; cbn; lia|]. constructor; [right; cbn; unfold range_ok; cbn; lia|constructor].
Qed.
