(** Proofs about the scheduling directions. *)
From Coq Require Import ZArith List Bool Arith Lia Permutation Relations.
From Verif Require Import RangeModel MDRangeModel Spec MDRangeProofs Result BoxSetModel BoxSetProofs ListTac AccessModel AccessSpec AccessProofs
  AccessImageProofs AccessInverseProofs AccessPreimageProofs AccessCombineProofs WritesMapModel WritesMapProofs LoopModel SchedModel SchedSpec SchedProofs.
Import ListNotations.
Local Open Scope nat_scope.

(** What a direction says of the coordinate [x] of an iteration and of the
    coordinate [y] of the iteration it depends on. *)
Definition allows (k : possibility) (x y : Z) : Prop :=
  match k with
  | PAny => y = x
  | PForward => (y <= x)%Z
  | PBackward => (x <= y)%Z
  | PScalar => True
  end.
Definition allowed (ds : list possibility) (i j : point) : Prop :=
  forall d k x y, nth_error ds d = Some k -> nth_error i d = Some x -> nth_error j d = Some y -> allows k x y.

Lemma merge_allows : forall a b x y, (allows a x y -> allows (merge_possibility a b) x y) /\ (allows b x y -> allows (merge_possibility a b) x y).
Proof. intros [] [] x y; cbn; lia || tauto. Qed.

Lemma merge_allowed : forall a b c i j, merge_possibilities a b = Ok c ->
  (allowed a i j -> allowed c i j) /\ (allowed b i j -> allowed c i j).
Proof.
  intros a b c i j H. unfold merge_possibilities in H. destruct (Nat.eqb_spec (length a) (length b)) as [L|]; [|discriminate]. injection H as <-.
  split; intros A d k x y Hk Hx Hy; rewrite nth_error_map in Hk; destruct (nth_error (combine a b) d) as [[ka kb]|] eqn:Ec; try discriminate; injection Hk as <-; cbn [fst snd].
  - apply (proj1 (merge_allows ka kb x y)). apply (A d); auto. clear - Ec. revert b d Ec. induction a as [|u a IH]; intros [|w b] [|d] E; cbn in *; try discriminate; [congruence|eauto].
  - apply (proj2 (merge_allows ka kb x y)). apply (A d); auto. clear - Ec. revert b d Ec. induction a as [|u a IH]; intros [|w b] [|d] E; cbn in *; try discriminate; [congruence|eauto].
Qed.
Lemma merge_length : forall a b c, merge_possibilities a b = Ok c -> length c = length a.
Proof.
  intros a b c H. unfold merge_possibilities in H. destruct (Nat.eqb_spec (length a) (length b)) as [L|]; [|discriminate]. injection H as <-.
  rewrite map_length, combine_length. lia.
Qed.

Section Directions.
Variable m : mlir.
Hypothesis M : mlir_ok m.
Variable vrank : nat -> nat.

Lemma shift_values : forall n rs p q d e c x y, Forall (roto_expr n) rs -> affine_values p rs = Some q ->
  nth_error rs d = Some e -> forall i, inductionVar e = Some i -> offset_of e = Ok c -> nth_error p i = Some x -> nth_error q d = Some y -> y = (x + c)%Z.
Proof.
  intros n rs p q d e c x y F V He i Hi Hc Hx Hy. apply values_nth in V as (L & V). destruct (V d e He) as (v & Hv & Ev).
  rewrite Hy in Hv. injection Hv as <-. rewrite Forall_forall in F. specialize (F e (nth_error_In _ _ He)).
  destruct F as [k Hk|k|k c' Hk Hc']; cbn in *.
  - injection Hi as <-. injection Hc as <-. rewrite Hx in Ev. injection Ev as <-. lia.
  - discriminate.
  - injection Hi as <-. injection Hc as <-. rewrite Hx in Ev. cbn in Ev. injection Ev as <-. reflexivity.
Qed.

Lemma rotate_nth : forall ds inv l, rotate_directions ds inv = Ok (Some l) -> length l = length inv /\
  forall d e, nth_error inv d = Some e -> exists i k, inductionVar e = Some i /\ nth_error ds i = Some k /\ nth_error l d = Some k.
Proof.
  intros ds. induction inv as [|e inv IH]; intros l H; cbn in H.
  - injection H as <-. split; [reflexivity|]. intros [] e; discriminate.
  - destruct (inductionVar e) as [i|] eqn:Ei; [|discriminate]. destruct (nth_error ds i) as [k|] eqn:Ek; [|discriminate]. cbn in H.
    apply bind_ok in H as (o & Ho & H). destruct o as [l'|]; [|discriminate]. injection H as <-. destruct (IH l' Ho) as (L & N). cbn. split; [congruence|].
    intros [|d] e' He'; cbn in He'; [injection He' as <-; exists i, k; auto|]. now apply N.
Qed.
Lemma rotate_total : forall n ds inv, length ds = n -> Forall (roto_expr n) inv -> exists o, rotate_directions ds inv = Ok o.
Proof.
  intros n ds inv L F. induction F as [|e inv He F IH]; cbn; [eauto|]. destruct (inductionVar e) as [i|] eqn:Ei; [|eauto].
  assert (i < length ds) by (destruct He as [d Hd|c|d c Hd Hc]; cbn in Ei; try discriminate; injection Ei as <-; lia).
  destruct (nth_error ds i) as [k|] eqn:Ek; [|apply nth_error_None in Ek; lia]. cbn. destruct IH as (o & Ho). rewrite Ho. cbn. destruct o; eauto.
Qed.

Lemma identity_like : forall rs, isIdentityLike rs = true -> forall d e, nth_error rs d = Some e -> inductionVar e = Some d.
Proof.
  intros rs H d e He. unfold isIdentityLike in H. rewrite forallb_forall in H. specialize (H (d, e)). cbn in H.
  assert (X : In (d, e) (combine (seq 0 (length rs)) rs)).
  { apply (nth_error_In _ d). clear - He. assert (G : forall k, nth_error (combine (seq k (length rs)) rs) d = Some (k + d, e)).
    { revert d He. induction rs as [|x rs IH]; intros [|d] He k; cbn in *; try discriminate; [rewrite Nat.add_0_r; congruence|].
      rewrite (IH d He (S k)). do 2 f_equal. lia. }
    now rewrite (G 0). }
  specialize (H X). destruct (inductionVar e) as [i|]; [|discriminate]. apply Nat.eqb_eq in H. congruence.
Qed.

Lemma offset_total : forall n rs, Forall (roto_expr n) rs -> isIdentityLike rs = true -> exists ds, map_res offset_direction rs = Ok ds /\ length ds = length rs.
Proof.
  intros n rs F I. destruct (map_res_total _ _ offset_direction rs) as (ds & H).
  - intros e He. apply In_nth_error in He as (d & He). pose proof (identity_like rs I d e He) as Hi. rewrite Forall_forall in F.
    specialize (F e (nth_error_In _ _ He)). unfold offset_direction. destruct F; cbn in *; try discriminate; eauto.
  - exists ds. split; [assumption|]. now apply map_res_length in H.
Qed.

(** One read. *)
Lemma read_directions_ok : forall n w rs inv r, AFRoto n rs = w -> 1 <= n -> af_wf n n w ->
  roto_inverse m n rs = Ok (Some (AFRoto n inv)) -> length inv = n -> Forall (roto_expr n) inv ->
  (forall p q, length p = n -> length q = n -> (affine_values p rs = Some q <-> affine_values q inv = Some p)) ->
  plain_af n n r ->
  exists o, read_directions m n (AFRoto n inv) inv r = Ok o /\
    forall ds, o = Some ds -> length ds = n /\
      forall i j q, length i = n -> length j = n -> maps_to r i q -> maps_to w j q -> allowed ds i j.
Proof.
  intros n w rs inv r <- Hn W Hinv Li Fi Inv P. unfold read_directions.
  assert (Pi : plain_af n n (AFRoto n inv)) by (split; [repeat split; assumption|split; [assumption|exact I]]).
  destruct (combine_plain m M n n n n _ r Pi P (le_n n)) as (rel & Hrel & Prel & Vrel). rewrite Hrel. cbn [bind].
  destruct rel as [|? ?|? ?|n' rrs|? ?]; try (eexists; split; [reflexivity|]; discriminate).
  destruct Prel as (Wr & _ & _). destruct Wr as (-> & Lr & _ & _ & Fr).
  destruct (isIdentityLike rrs) eqn:Id; [|eexists; split; [reflexivity|]; discriminate].
  destruct (offset_total n rrs Fr Id) as (ds & Hds & Lds). rewrite Hds. cbn [bind].
  destruct (rotate_total n ds inv) as (o & Ho); [congruence|assumption|]. rewrite Ho. cbn [bind].
  destruct o as [l|]; [|eexists; split; [reflexivity|]; discriminate].
  destruct (rotate_nth ds inv l Ho) as (Ll & Nl). unfold assert_ok. rewrite Ll, Li, Nat.leb_refl. cbn [bind]. rewrite Nat.sub_diag. cbn [repeat]. rewrite app_nil_r.
  eexists. split; [reflexivity|]. intros ds' Eds. injection Eds as <-. split; [congruence|].
  intros i j q Hi Hj Hr Hw d k x y Hk Hx Hy.
  destruct W as (_ & Lrs & _ & _ & Frs).
  (* The values. *)
  apply maps_to_values_iff in Hw; [|lia|assumption]. assert (Lq : length q = n) by (apply values_nth in Hw as (L & _); congruence).
  destruct (plain_maps n n r i P) as (q' & Lq' & Vr & Hq'); [lia|]. assert (q' = q) by (eapply maps_to_inj; eauto). subst q'. clear Hq'.
  destruct (fval_total n n (AFRoto n rs) i) as (wi & Hwi & Lwi); [|lia|].
  { split; [repeat split; assumption|split; [assumption|exact I]]. }
  cbn [fval] in Hwi. pose proof (proj1 (Inv i wi Hi Lwi) Hwi) as Ii. pose proof (proj1 (Inv j q Hj Lq) Hw) as Ij.
  pose proof (Vrel wi i q Ii Vr) as Vq. cbn [fval] in Vq.
  (* The dimension. *)
  assert (Hd : d < length inv) by (rewrite <- Ll; apply nth_error_Some; congruence). destruct (nth_error inv d) as [e|] eqn:Ee; [|apply nth_error_None in Ee; lia].
  destruct (Nl d e Ee) as (v & k' & Hv & Hk' & Hl). rewrite Hk in Hl. injection Hl as <-.
  assert (Hv2 : v < n) by (rewrite <- Lr, <- Lds; apply nth_error_Some; congruence).
  destruct (nth_error rrs v) as [er|] eqn:Er; [|apply nth_error_None in Er; lia].
  destruct (nth_error wi v) as [a|] eqn:Ea; [|apply nth_error_None in Ea; lia]. destruct (nth_error q v) as [b|] eqn:Eb; [|apply nth_error_None in Eb; lia].
  assert (Off : exists c, offset_of e = Ok c).
  { rewrite Forall_forall in Fi. specialize (Fi e (nth_error_In _ _ Ee)). destruct Fi; cbn in *; try discriminate; eauto. }
  destruct Off as (c & Hc).
  pose proof (shift_values n inv wi i d e c a x Fi Ii Ee v Hv Hc Ea Hx) as X1.
  pose proof (shift_values n inv q j d e c b y Fi Ij Ee v Hv Hc Eb Hy) as X2.
  apply map_res_ok in Hds. assert (Ok_d : offset_direction er = Ok k).
  { clear - Hds Er Hk'. revert v Er Hk'. induction Hds as [|u w rrs ds H Hds IH]; intros [|v] E1 E2; cbn in *; try discriminate; [congruence|eauto]. }
  unfold offset_direction in Ok_d. apply bind_ok in Ok_d as (c' & Hc' & Hk2). injection Hk2 as Hk2.
  pose proof (shift_values n rrs wi q v er c' a b Fr Vq Er v (identity_like rrs Id v er Er) Hc' Ea Eb) as X3.
  destruct (Z.eqb_spec c' 0); [subst k; cbn; lia|]. destruct (Z.ltb_spec 0 c'); subst k; cbn; lia.
Qed.

Lemma directions_loop_ok : forall n w rs inv, AFRoto n rs = w -> 1 <= n -> af_wf n n w ->
  roto_inverse m n rs = Ok (Some (AFRoto n inv)) -> length inv = n -> Forall (roto_expr n) inv ->
  (forall p q, length p = n -> length q = n -> (affine_values p rs = Some q <-> affine_values q inv = Some p)) ->
  forall reads ds0, Forall (plain_af n n) reads -> (ds0 = [] \/ length ds0 = n) ->
  exists o, directions_loop m n (AFRoto n inv) inv reads ds0 = Ok o /\
    forall ds, o = Some ds -> (reads = [] -> ds = ds0) /\ (reads <> [] -> length ds = n) /\
      forall i j, length i = n -> length j = n ->
        (ds0 <> [] -> allowed ds0 i j -> allowed ds i j) /\
        (forall r q, In r reads -> maps_to r i q -> maps_to w j q -> allowed ds i j).
Proof.
  intros n w rs inv Ew Hn W Hinv Li Fi Inv reads. induction reads as [|r reads IH]; intros ds0 P L0; cbn.
  - eexists. split; [reflexivity|]. intros ds E. injection E as <-. split; [reflexivity|]. split; [congruence|]. intros i j _ _. split; [auto|]. intros r q [].
  - inversion P as [|? ? Pr Ps]; subst x l. destruct (read_directions_ok n w rs inv r Ew Hn W Hinv Li Fi Inv Pr) as (o & Ho & Hr). rewrite Ho. cbn [bind].
    destruct o as [l|]; [|eexists; split; [reflexivity|]; discriminate]. destruct (Hr l eq_refl) as (Ll & Al).
    assert (X : exists ds', match ds0 with [] => Ok l | _ :: _ => merge_possibilities ds0 l end = Ok ds' /\ length ds' = n /\
      forall i j, (ds0 <> [] -> allowed ds0 i j -> allowed ds' i j) /\ (allowed l i j -> allowed ds' i j)).
    { destruct ds0 as [|k0 ds0].
      - exists l. split; [reflexivity|]. split; [assumption|]. intros i j. split; [congruence|auto].
      - destruct L0 as [L0|L0]; [discriminate|]. destruct (merge_possibilities (k0 :: ds0) l) as [c| |] eqn:Em.
        + exists c. split; [reflexivity|]. split; [rewrite (merge_length _ _ _ Em); exact L0|]. intros i j. destruct (merge_allowed _ _ _ i j Em). auto.
        + unfold merge_possibilities in Em. rewrite L0, Ll, Nat.eqb_refl in Em. discriminate.
        + unfold merge_possibilities in Em. rewrite L0, Ll, Nat.eqb_refl in Em. discriminate. }
    destruct X as (ds' & Hds' & Lds' & A). rewrite Hds'. cbn [bind]. destruct (all_scalar ds'); [eexists; split; [reflexivity|]; discriminate|].
    destruct (IH ds' Ps (or_intror Lds')) as (o & Ho' & R). rewrite Ho'. exists o. split; [reflexivity|]. intros ds E. destruct (R ds E) as (R1 & R2 & R3).
    split; [discriminate|]. split.
    + intros _. destruct reads as [|r' reads]; [now rewrite R1|apply R2; discriminate].
    + intros i j Hi Hj. destruct (R3 i j Hi Hj) as (R4 & R5). assert (Nds : ds' <> []) by (intros ->; cbn in Lds'; lia). split.
      * intros N0 A0. apply R4; [assumption|]. apply (proj1 (A i j)); assumption.
      * intros r' q [<-|Hin] Hm Hw; [|now apply (R5 r' q)]. apply R4; [assumption|]. apply (proj2 (A i j)). now apply (Al i j q).
Qed.

Lemma access_directions_ok : forall n k w reads, 1 <= n -> af_wf n k w -> reads <> [] -> Forall (plain_af n k) reads ->
  exists ds, access_directions m w reads = Ok ds /\ length ds = n /\
    forall i j r q, length i = n -> length j = n -> In r reads -> maps_to r i q -> maps_to w j q -> allowed ds i j.
Proof.
  intros n k w reads Hn W Nr P.
  assert (Sc : length (repeat PScalar (af_dims w)) = n /\ forall i j, allowed (repeat PScalar (af_dims w)) i j).
  { split; [rewrite repeat_length; eapply wf_dims; eassumption|]. intros i j d x y z Hx _ _. apply nth_error_In, repeat_spec in Hx. subst x. exact I. }
  destruct Sc as (Sc1 & Sc2). unfold access_directions.
  assert (D : forall X, X = Ok (@None (list possibility)) -> exists ds, (o <- X;; Ok match o with Some ds => ds | None => repeat PScalar (af_dims w) end) = Ok ds /\ length ds = n /\
    forall i j r q, length i = n -> length j = n -> In r reads -> maps_to r i q -> maps_to w j q -> allowed ds i j).
  { intros X ->. cbn [bind]. eexists. split; [reflexivity|]. auto. }
  destruct w as [|n' rs|n' rs|n' rs|n' rs]; try (apply D; reflexivity). pose proof W as (-> & Lr & _ & Hk & F). cbn [af_inverse].
  destruct (isInvertible_spec n rs F) as (b & Hb & Sb). destruct b.
  - destruct (roto_inverse_spec m M n rs Hn F Hb) as (inv & Hinv & Li & Fi & _ & Inv). rewrite Hinv. cbn [bind].
    assert (Ek : k = n) by (rewrite <- Lr; apply Sb; reflexivity). subst k.
    rewrite Ek in *. destruct (directions_loop_ok n (AFRoto n rs) rs inv eq_refl Hn W Hinv Li Fi Inv reads [] P (or_introl eq_refl)) as (o & Ho & R). rewrite Ho.
    destruct o as [ds|]; [|now apply D]. cbn [bind]. destruct (R ds eq_refl) as (_ & R2 & R3). exists ds. split; [reflexivity|]. split; [auto|].
    intros i j r q Hi Hj Hr Hm Hw. destruct (R3 i j Hi Hj) as (_ & R5). now apply (R5 r q).
  - rewrite (inverse_null m n rs Hb). apply D. reflexivity.
Qed.

(** * The whole function *)

Lemma inBoxes_length : forall n s p, bs_of n s -> in_boxes p s -> length p = n.
Proof. intros n s p S H. exact (bs_of_length n s p S H). Qed.

Lemma directions_ok : forall e, equation_ok m vrank e -> same_writes e -> affine_self_reads m vrank e ->
  exists ds, getSchedulingDirections m e = Ok ds /\ length ds = eq_rank e /\
    forall i j, iteration_depends e i j -> allowed ds i j.
Proof.
  intros e E SW AS. unfold getSchedulingDirections. pose proof (rank_positive m vrank e E) as Hn. pose proof (space_boxes m vrank e E) as Sp.
  destruct (eq_writes e) as [|w0 ws] eqn:Ew.
  - eexists. split; [reflexivity|]. split; [apply repeat_length|]. intros i j (_ & _ & _ & v & q & _ & (f & Hf & _)). rewrite Ew in Hf. destruct Hf.
  - rewrite <- Ew.
    destruct (access_with_property (fun a => af_isInvertible (snd a)) (eq_writes e)) as ([v f] & Hw & Hin); [rewrite Ew; discriminate| |].
    { intros [u g] Hg. destruct (accesses_built m vrank e E u g (in_or_app _ _ _ (or_introl Hg))) as (_ & B). apply (built_access_wf m M) in B. cbn [snd].
      destruct g as [|? ?|? ?|n' rs|? ?]; cbn; eauto. destruct B as (-> & _ & _ & _ & F). destruct (isInvertible_spec _ rs F) as (b & Hb & _). eauto. }
    rewrite Hw. cbn [bind fst snd]. pose proof (in_or_app _ (eq_reads e) _ (or_introl Hin)) as Hin'.
    destruct (access_image m M vrank e v f E Hin') as (wr & Hwr & Bwr & Swr & _). rewrite Hwr. cbn [bind].
    unfold overlapping_reads.
    set (g := fun r : nat * afun => if negb (Nat.eqb (fst r) v) then Ok false else s <- af_map_set (snd r) (eq_space e) ;; Ok (bs_overlaps s wr)).
    destruct (filter_res_spec _ g (eq_reads e)) as (reads & Hreads & FS).
    { intros [u r] Hr. unfold g. cbn [fst snd]. destruct (Nat.eqb_spec u v) as [->|]; cbn [negb]; [|eauto].
      destruct (access_image m M vrank e v r E (in_or_app _ _ _ (or_intror Hr))) as (s & Hs & _). rewrite Hs. cbn. eauto. }
    rewrite Hreads. cbn [bind].
    assert (Dep : forall i j, iteration_depends e i j -> exists r q, In (v, r) reads /\ accesses r i q /\ accesses f j q).
    { intros i j (_ & Hi & Hj & u & q & (r & Hr & Ar) & (f' & Hf' & Af')). destruct (SW u f' v f j q Hf' Hin Hj) as (-> & Eq). apply Eq in Af'. exists r, q.
      split; [|auto]. apply FS. split; [assumption|]. unfold g. cbn [fst snd]. rewrite Nat.eqb_refl. cbn [negb].
      destruct (access_image m M vrank e v r E (in_or_app _ _ _ (or_intror Hr))) as (s & Hs & Bs & Ss & _). rewrite Hs. cbn. f_equal.
      apply bs_overlaps_spec. exists q. split; [now apply (Ss i)|now apply (Swr j)]. }
    assert (Sub : forall x, In x reads -> In x (eq_reads e) /\ fst x = v).
    { intros [u r] Hx. apply FS in Hx as (Hx & Hg). split; [assumption|]. unfold g in Hg. cbn [fst snd] in *.
      destruct (Nat.eqb_spec u v) as [->|]; [reflexivity|discriminate]. }
    destruct (accesses_built m vrank e E v f Hin') as (Hk & Bf). pose proof (built_access_wf m M _ _ f Bf) as Wf.
    destruct reads as [|r0 reads1] eqn:Er.
    + eexists. split; [reflexivity|]. split; [apply repeat_length|]. intros i j Hd. destruct (Dep i j Hd) as (r & q & [] & _).
    + rewrite <- Er in *.
      assert (Pl : forall r, In (v, r) reads -> plain_af (eq_rank e) (vrank v) r).
      { intros r Hr. destruct (Sub _ Hr) as (Hr' & _). apply (affine_access_plain m M). exact (AS v f r Hin Hr'). }
      destruct (access_directions_ok (eq_rank e) (vrank v) f (map snd reads) Hn Wf) as (ds & Hds & Lds & A).
      { rewrite Er. discriminate. }
      { apply Forall_forall. intros r Hr. apply in_map_iff in Hr as ([u r'] & <- & Hr). destruct (Sub _ Hr) as (_ & Eu). cbn in Eu. subst u. now apply Pl. }
      exists ds. split; [assumption|]. split; [assumption|]. intros i j Hd. destruct (Dep i j Hd) as (r & q & Hr & Ar & Af). destruct Hd as (_ & Hi & Hj & _).
      pose proof (inBoxes_length _ _ _ Sp Hi) as Li. pose proof (inBoxes_length _ _ _ Sp Hj) as Lj.
      destruct (plain_maps (eq_rank e) (vrank v) r i (Pl r Hr)) as (q' & _ & _ & Mr); [lia|].
      assert (q' = q). { destruct Mr as (s & Hs & Qs). destruct Ar as (s' & Hs' & Hq). rewrite Hs in Hs'. injection Hs' as <-. symmetry. now apply Qs. } subst q'.
      destruct f as [|n' rs|n' rs|n' rs|n' rs].
      { cbn in Wf. lia. }
      1,2,4: (unfold access_directions in Hds; cbn [bind] in Hds; injection Hds as <-; intros d k x y Hk' _ _; apply nth_error_In, repeat_spec in Hk'; subst k; exact I).
      apply (A i j r q Li Lj); [apply in_map_iff; exists (v, r); auto|assumption|].
      destruct Wf as (-> & Lrs & _ & _ & Frs). destruct (plain_maps (eq_rank e) (vrank v) (AFRoto (eq_rank e) rs) j) as (q' & _ & _ & Mf); [split; [repeat split; assumption|split; [assumption|exact I]]|lia|].
      assert (q' = q). { destruct Mf as (s & Hs & Qs). destruct Af as (s' & Hs' & Hq). rewrite Hs in Hs'. injection Hs' as <-. symmetry. now apply Qs. } subst q'. assumption.
Qed.

(** Executing in the directions respects the dependencies. *)
Lemma allowed_before : forall any ds i j d, length i = length ds -> length j = length ds -> i <> j -> Forall (fun k => k <> PScalar) ds -> allowed ds i j ->
  executed_before any d (map direction_of ds) j i.
Proof.
  intros any. induction ds as [|k ds IH]; intros i j d Li Lj N F A.
  - destruct i, j; cbn in *; try discriminate. congruence.
  - destruct i as [|x i], j as [|y j]; cbn in Li, Lj; try lia. inversion F as [|? ? Hk F']; subst. cbn [map].
    assert (A0 : allows k x y) by (apply (A 0); reflexivity).
    assert (A' : allowed ds i j) by (intros d' k' x' y' H1 H2 H3; apply (A (S d')); assumption).
    destruct (Z.eq_dec x y) as [->|D].
    + apply executed_next. apply IH; try lia; auto. intros ->. congruence.
    + apply executed_here. destruct k; cbn in *; try lia; congruence.
Qed.

End Directions.
