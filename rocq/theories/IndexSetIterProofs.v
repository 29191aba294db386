(** Compact ranges and point iteration of index sets. *)
From Coq Require Import ZArith List Bool Lia ZifyBool Permutation Sorted.
From Verif Require Import RangeModel MDRangeModel Spec RangeProofs MDRangeProofs
  Result RTreeModel IndexSetModel IndexSetIterModel RTreeSplitProofs RTreeQueryProofs RTreeProofs
  BoxListProofs ListTac IndexSetProofs IndexSetQueryProofs.
Import ListNotations.
Local Open Scope nat_scope.

(** ** Splitting along one dimension *)

Lemma set_dim_length : forall b d r, length (set_dim b d r) = length b.
Proof. induction b as [|x b IH]; intros [|d] r; cbn; auto. Qed.

Lemma set_dim_box : forall rk b d r, box_of rk b -> range_ok r -> box_of rk (set_dim b d r).
Proof.
  intros rk b d r [[Hn Hb] Hl] Hr. split; [|rewrite set_dim_length; auto]. split.
  - intros E. apply (f_equal (@length _)) in E. rewrite set_dim_length in E. destruct b; cbn in E; congruence.
  - clear Hl Hn. revert d. induction Hb as [|x b Hx Hb IH]; intros [|d]; cbn; constructor; auto.
Qed.

Lemma dim_of_ok : forall rk b d, box_of rk b -> d < rk -> range_ok (dim_of b d).
Proof.
  intros rk b d [[_ Hb] Hl] Hd. rewrite Forall_forall in Hb. apply Hb. apply nth_In. lia.
Qed.

Lemma set_dims_in : forall rs b d p, d < length b ->
  (forall v, in_range v (dim_of b d) <-> exists r, In r rs /\ in_range v r) ->
  (in_boxes p (map (set_dim b d) rs) <-> in_box p b).
Proof.
  intros rs. induction b as [|x b IH]; intros d p Hd H; cbn in Hd; [lia|].
  rewrite in_boxes_map. destruct d as [|d].
  - cbn in *. split.
    + intros (r & Hr & Hp). destruct p as [|v p]; [inversion Hp|]. apply in_box_cons in Hp as [A B].
      apply in_box_cons. split; auto. apply H. eauto.
    + intros Hp. destruct p as [|v p]; [inversion Hp|]. apply in_box_cons in Hp as [A B].
      apply H in A as (r & Hr & A). exists r. split; auto. apply in_box_cons. auto.
  - assert (Hd' : d < length b) by lia.
    destruct p as [|v p].
    + split; [intros (r & _ & Hp); inversion Hp | intros Hp; inversion Hp].
    + specialize (IH d p Hd' H). rewrite in_boxes_map in IH. cbn. split.
      * intros (r & Hr & Hp). apply in_box_cons in Hp as [A B]. apply in_box_cons. split; auto.
        apply IH. eauto.
      * intros Hp. apply in_box_cons in Hp as [A B]. apply IH in B as (r & Hr & B).
        exists r. split; auto. apply in_box_cons. auto.
Qed.

Lemma set_dim_disjoint : forall b d r s, d < length b ->
  (forall v, in_range v r -> in_range v s -> False) ->
  disjoint_boxes (set_dim b d r) (set_dim b d s).
Proof.
  induction b as [|x b IH]; intros d r s Hd H p [A B]; cbn in Hd; [lia|].
  destruct d as [|d]; cbn in A, B; (destruct p as [|v p]; [inversion A|]);
    apply in_box_cons in A as [A1 A2]; apply in_box_cons in B as [B1 B2].
  - eauto.
  - apply (IH d r s) with (p := p); auto. lia.
Qed.

Lemma set_dim_self : forall b d, set_dim b d (dim_of b d) = b.
Proof. induction b as [|x b IH]; intros [|d]; cbn; auto. f_equal. apply IH. Qed.

Section Iter.
Variable rk : nat.
Local Notation box := (box_of rk).

Lemma split_same : forall r g d, box g -> d < rk -> shouldSplitRange r g d = true ->
  same rk [r] (splitRange r g d).
Proof.
  intros r g d Hg Hd Hs F. pose proof (Forall_inv F) as Hr.
  pose proof (dim_of_ok rk r d Hr Hd) as Rr. pose proof (dim_of_ok rk g d Hg Hd) as Rg.
  unfold shouldSplitRange in Hs.
  assert (Ho : range_overlaps (dim_of r d) (dim_of g d) = true).
  { unfold range_overlaps in *. lia. }
  assert (Hl : d < length r) by (destruct Hr; lia).
  unfold splitRange. split; [|split].
  - apply Forall_forall. intros b Hb. apply in_map_iff in Hb as (s & <- & [<-|Hs']);
      apply set_dim_box; auto.
    + apply range_intersect_ok; auto.
    + eapply range_subtract_ok; [| |exact Hs']; auto.
  - intros p. rewrite in_boxes_single, set_dims_in; auto; [tauto|].
    intros v. pose proof (range_intersect_spec (dim_of r d) (dim_of g d) v Ho) as HI.
    pose proof (range_subtract_in (dim_of r d) (dim_of g d) v Rr Rg) as HS. split.
    + intros Hv. destruct (Z_lt_ge_dec v (rbegin (dim_of g d))) as [L|L];
        [|destruct (Z_lt_ge_dec v (rend (dim_of g d))) as [L2|L2]].
      * destruct HS as [_ HS]. destruct HS as (s & A & B); [split; auto; unfold in_range; lia|].
        exists s. cbn. auto.
      * exists (range_intersect (dim_of r d) (dim_of g d)). split; [cbn; auto|]. apply HI; auto.
        split; auto. unfold in_range; lia.
      * destruct HS as [_ HS]. destruct HS as (s & A & B); [split; auto; unfold in_range; lia|].
        exists s. cbn. auto.
    + intros (s & [<-|A] & B); [apply HI in B; tauto|]. apply HS. eauto.
  - intros _. cbn [map]. constructor.
    + apply Forall_forall. intros b Hb. apply in_map_iff in Hb as (s & <- & A).
      apply set_dim_disjoint; auto. intros v V1 V2. apply range_intersect_spec in V1; auto.
      assert (in_range v (dim_of r d) /\ ~ in_range v (dim_of g d)) by
        (apply (range_subtract_in _ _ _ Rr Rg); eauto). tauto.
    + pose proof (range_subtract_ordered (dim_of r d) (dim_of g d) Rg) as HO.
      induction HO as [|s l A HO IH]; cbn; constructor; auto.
      apply Forall_forall. intros b Hb. apply in_map_iff in Hb as (s' & <- & B).
      rewrite Forall_forall in A. apply set_dim_disjoint; auto.
      intros v V1 V2. specialize (A _ B). unfold in_range in *. lia.
Qed.

Lemma split_by_same : forall g d l, box g -> d < rk -> same rk l (split_by g d l).
Proof.
  intros g d l Hg Hd. induction l as [|r l IH]; cbn; [apply same_refl|].
  eapply same_trans; [apply same_cons; exact IH|].
  change (same rk ([r] ++ split_by g d l)
            ((if shouldSplitRange r g d then splitRange r g d else [r]) ++ split_by g d l)).
  apply same_app. destruct (shouldSplitRange r g d) eqn:E; [apply split_same; auto|apply same_refl].
Qed.

Lemma same_app2 : forall a b c e, same rk a b -> same rk c e -> same rk (a ++ c) (b ++ e).
Proof.
  intros a b c e H1 H2. eapply same_trans; [apply same_app; exact H1|].
  eapply same_trans; [apply same_perm, Permutation_app_comm|].
  eapply same_trans; [apply same_app; exact H2|]. apply same_perm, Permutation_app_comm.
Qed.

Fixpoint extent (d : nat) (l : list mdrange) : nat :=
  match l with [] => 0 | b :: l' => Z.to_nat (range_size (dim_of b d)) + extent d l' end.

Lemma grid_fuel_extent : forall d l, grid_fuel d l = extent d l.
Proof. induction l as [|x l IH]; cbn; auto. Qed.

Lemma extent_app : forall d a b, extent d (a ++ b) = extent d a + extent d b.
Proof. induction a as [|x a IH]; intros b; cbn; auto. rewrite IH. lia. Qed.

Lemma dim_set_dim : forall b d r, d < length b -> dim_of (set_dim b d r) d = r.
Proof.
  induction b as [|x b IH]; intros [|d] r Hd; cbn in *; try lia; auto.
  unfold dim_of in *; cbn. apply IH. lia.
Qed.

Lemma split_extent : forall r g d, box r -> box g -> d < rk -> shouldSplitRange r g d = true ->
  extent d (splitRange r g d) = extent d [r].
Proof.
  intros r g d Hr Hg Hd Hs.
  pose proof (dim_of_ok rk r d Hr Hd) as Rr. pose proof (dim_of_ok rk g d Hg Hd) as Rg.
  assert (Hl : d < length r) by (destruct Hr; lia).
  assert (E : forall l, extent d (map (set_dim r d) l)
              = fold_right (fun s a => Z.to_nat (range_size s) + a) 0 l).
  { induction l as [|s l IH]; cbn; auto. rewrite IH, dim_set_dim; auto. }
  unfold splitRange. rewrite E. cbn [extent]. unfold shouldSplitRange in Hs.
  revert Hs Rr Rg. generalize (dim_of r d) (dim_of g d). intros [a b] [a' b'].
  unfold range_intersect, range_subtract, range_overlaps, range_contains, range_size, range_ok; cbn [rbegin rend].
  intros Hs Rr Rg.
  repeat (match goal with |- context [if ?c then _ else _] => destruct c eqn:? end; cbn in * );
    try lia.
Qed.

Lemma split_by_extent : forall g d l, Forall box l -> box g -> d < rk ->
  extent d (split_by g d l) = extent d l.
Proof.
  intros g d l H Hg Hd. induction H as [|r l Hr Hl IH]; auto.
  unfold split_by. cbn [flat_map extent]. change (flat_map _ l) with (split_by g d l).
  rewrite extent_app, IH.
  destruct (shouldSplitRange r g d) eqn:E; [rewrite split_extent; auto|]; cbn [extent]; lia.
Qed.

Lemma grid_loop_spec : forall fuel d before after, d < rk -> Forall box (before ++ after) ->
  extent d after <= fuel ->
  exists l, grid_loop fuel d before after = Ok l /\ same rk (before ++ after) l.
Proof.
  induction fuel as [|f IH]; intros d before [|g after] Hd H Hf; cbn [grid_loop].
  - exists before. split; auto. rewrite app_nil_r. apply same_refl.
  - exfalso. cbn in Hf. apply Forall_app in H as [_ H]. pose proof (Forall_inv H) as Hg.
    pose proof (dim_of_ok rk g d Hg Hd) as R. unfold range_ok, range_size in *. lia.
  - exists before. split; auto. rewrite app_nil_r. apply same_refl.
  - pose proof H as H'. apply Forall_app in H' as [H1 H2]. pose proof (Forall_inv H2) as Hg.
    apply Forall_inv_tail in H2.
    assert (S1 : same rk (before ++ g :: after) ((split_by g d before ++ [g]) ++ split_by g d after)).
    { rewrite <- app_assoc. cbn. apply same_app2; [apply split_by_same; auto|].
      apply same_cons. apply split_by_same; auto. }
    destruct (IH d (split_by g d before ++ [g]) (split_by g d after)) as (l & E & S2); auto.
    + apply (S1 H).
    + rewrite split_by_extent; auto. cbn in Hf. pose proof (dim_of_ok rk g d Hg Hd) as R.
      unfold range_ok, range_size in *. lia.
    + exists l. split; auto. eapply same_trans; eauto.
Qed.

Lemma minGrid_spec : forall l, Forall box l ->
  exists l', splitRangesToMinGrid l = Ok l' /\ same rk l l'.
Proof.
  intros [|b l] H; [exists []; split; auto; apply same_refl|].
  unfold splitRangesToMinGrid. pose proof (Forall_inv H) as [[Hn _] Hb]. rewrite Hb.
  assert (G : forall ds l, Forall (fun d => d < rk) ds -> Forall box l ->
    exists l', fold_res (fun l d => grid_loop (grid_fuel d l) d [] l) ds l = Ok l' /\ same rk l l').
  { induction ds as [|d ds IH]; intros l0 Hds Hl0; cbn [fold_res].
    - exists l0. split; auto. apply same_refl.
    - destruct (grid_loop_spec (grid_fuel d l0) d [] l0) as (l1 & E & S1); auto.
      { apply (Forall_inv Hds). }
      { rewrite grid_fuel_extent. auto. }
      rewrite E. cbn [bind]. destruct (IH l1) as (l2 & E2 & S2).
      { eapply Forall_inv_tail; eauto. } { apply (S1 Hl0). }
      exists l2. split; auto. eapply same_trans; eauto. }
  apply G; auto. apply Forall_forall. intros d Hd. apply in_seq in Hd. lia.
Qed.

Lemma dedup_same : forall l, same rk l (removeDuplicateRanges l).
Proof.
  induction l as [|x l IH]; cbn; [apply same_refl|].
  eapply same_trans; [apply same_cons; exact IH|].
  destruct (removeDuplicateRanges l) as [|y l']; [apply same_refl|].
  destruct (mdrange_eq y x) eqn:E; [|apply same_refl].
  apply mdrange_eq_spec in E. subst y. intros F. split; [|split].
  - apply Forall_inv_tail in F. auto.
  - intros p. rewrite !in_boxes_cons. tauto.
  - intros D. apply FOP_inv in D as [_ D]. auto.
Qed.

Lemma compact_spec : forall t, wset rk t ->
  exists l, is_getCompactRanges t = Ok l /\ same rk (is_ranges t) l.
Proof.
  intros t Ht. unfold is_getCompactRanges.
  destruct (minGrid_spec (is_ranges t)) as (l & E & S).
  { eapply wset_boxes; eauto. }
  rewrite E. cbn [bind]. eexists. split; [reflexivity|].
  eapply same_trans; [exact S|]. eapply same_trans; [apply same_perm, sort_boxes_perm|].
  eapply same_trans; [apply dedup_same|]. apply merge_loop_same.
Qed.

(** ** Point iteration *)

Lemma begin_in : forall b, box b -> in_box (begins b) b.
Proof. intros b H. apply box_inhabited. eapply box_of_ranges; eauto. Qed.

Lemma pit_fetch_begin : forall r rs, box r ->
  pit_fetch (r :: rs) (Some (mdrange_begin r)) (Some (mdrange_end r))
  = mkPointIt (r :: rs) (Some (it_at r (begins r))) (Some (mdrange_end r)).
Proof.
  intros r rs Hr. cbn [pit_fetch optIt_eq]. rewrite begin_is_at, it_at_ne_end; auto using begin_in.
  destruct Hr as [[H _] _]; auto.
Qed.

Lemma pit_run_from : forall n fuel rs r p, Forall box (r :: rs) -> in_box p r ->
  length (enum_from r p ++ flat_map pts rs) = n -> n <= fuel ->
  pit_run fuel (mkPointIt (r :: rs) (Some (it_at r p)) (Some (mdrange_end r)))
  = Ok (enum_from r p ++ flat_map pts rs).
Proof.
  induction n as [|n IH]; intros fuel rs r p Hb Hp Hn Hf;
    pose proof (Forall_inv Hb) as Hr; pose proof (in_box_length _ _ Hp) as HL;
    pose proof (box_of_ranges _ _ Hr) as Hok.
  - rewrite enum_from_unfold in Hn by auto. cbn in Hn. lia.
  - destruct fuel as [|f]; [lia|]. cbn [pit_run]. unfold pit_eq at 1. cbn [pit_ranges pit_endIt length].
    cbn [Nat.eqb andb]. unfold pit_deref, pit_incr. cbn [pit_current pit_ranges pit_end bind].
    change (mdIt_deref (it_at r p)) with p.
    assert (Hnil : r <> []) by (destruct Hr as [[H _] _]; auto).
    rewrite enum_from_unfold in Hn |- * by auto. cbn in Hn.
    pose proof (fetchNext_at r p Hp) as HF. destruct (next_point r p) as [q|] eqn:E.
    + assert (Hq : in_box q r) by (eapply next_point_in; eauto).
      rewrite HF. cbn [pit_fetch]. cbn [optIt_eq]. rewrite it_at_ne_end; auto.
      rewrite IH; auto; lia.
    + assert (HE : mdIt_eq (mdIt_fetchNext (it_at r p)) (mdrange_end r) = true).
      { unfold mdIt_eq. rewrite HF. apply rangeIts_eq_refl. }
      cbn [pit_fetch optIt_eq]. rewrite HE. destruct rs as [|r2 rs].
      * destruct f; reflexivity.
      * pose proof (Forall_inv_tail Hb) as Hb2. pose proof (Forall_inv Hb2) as Hr2.
        rewrite pit_fetch_begin; auto. cbn [flat_map app] in *.
        change (pts r2) with (enum_from r2 (begins r2)) in *.
        rewrite IH; auto using begin_in; lia.
Qed.

Lemma iterate_spec : forall t fuel, wset rk t ->
  (Z.to_nat (is_size t) <= fuel) ->
  is_iterate fuel t = Ok (flat_map pts (is_ranges t)).
Proof.
  intros t fuel Ht Hf. unfold is_iterate, pit_begin.
  pose proof (wset_boxes rk t Ht) as Hb. rewrite is_size_sum in Hf.
  pose proof (allpts_size rk _ Hb) as HS.
  destruct (is_ranges t) as [|r rs] eqn:E.
  - destruct fuel; reflexivity.
  - rewrite pit_fetch_begin by (apply (Forall_inv Hb)). cbn [flat_map].
    apply pit_run_from with (n := length (flat_map pts (r :: rs))); auto.
    + apply begin_in. apply (Forall_inv Hb).
    + lia.
Qed.
End Iter.
