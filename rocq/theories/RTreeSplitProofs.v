(** Lemmas on bounding boxes and on the distribution of entries in a split. *)
From Coq Require Import ZArith List Bool Lia ZifyBool Permutation.
From Verif Require Import RangeModel MDRangeModel Spec RangeProofs MDRangeProofs
  Result RTreeModel.
Import ListNotations.
Open Scope Z_scope.

Lemma getMBR2_length : forall a b, length a = length b -> length (getMBR2 a b) = length a.
Proof.
  induction a as [|r a IH]; intros [|s b] H; cbn in *; try lia.
  rewrite IH; lia.
Qed.

Lemma getMBR2_ranges_ok : forall a b, Forall range_ok a -> Forall range_ok b ->
  Forall range_ok (getMBR2 a b).
Proof.
  induction a as [|r a IH]; intros [|s b] Ha Hb; cbn; auto.
  inversion Ha; inversion Hb; subst. constructor; auto.
  unfold range_ok in *; cbn; lia.
Qed.

Lemma getMBR2_ok : forall rk a b, box_of rk a -> box_of rk b -> box_of rk (getMBR2 a b).
Proof.
  intros rk a b [[Na Fa] La] [[Nb Fb] Lb]. repeat split.
  - destruct a, b; cbn in *; try congruence.
  - apply getMBR2_ranges_ok; auto.
  - rewrite getMBR2_length; lia.
Qed.

Lemma getMBR2_left : forall a b p, length a = length b -> in_box p a -> in_box p (getMBR2 a b).
Proof.
  induction a as [|r a IH]; intros [|s b] p H Hp; cbn in *; try lia; auto.
  destruct p as [|v p]; [inversion Hp|]. apply in_box_cons in Hp. apply in_box_cons.
  destruct Hp as [Hv Hp]. split; [unfold in_range in *; cbn; lia | apply IH; auto].
Qed.

Lemma getMBR2_sym : forall a b, getMBR2 a b = getMBR2 b a.
Proof.
  induction a as [|r a IH]; intros [|s b]; cbn; auto.
  rewrite IH, Z.min_comm, Z.max_comm; auto.
Qed.

Lemma getMBR2_right : forall a b p, length a = length b -> in_box p b -> in_box p (getMBR2 a b).
Proof. intros. rewrite getMBR2_sym. apply getMBR2_left; auto. Qed.

Lemma getMBR2_least : forall a b c,
  length a = length b -> Forall range_ok a -> Forall range_ok b ->
  (forall p, in_box p a -> in_box p c) -> (forall p, in_box p b -> in_box p c) ->
  forall p, in_box p (getMBR2 a b) -> in_box p c.
Proof.
  induction a as [|r a IH]; intros b c Hl Fa Fb Ha Hb p Hp.
  - destruct b; cbn in *; auto; lia.
  - destruct b as [|s b]; [cbn in *; lia|].
    inversion Fa as [|? ? Or Oa]; inversion Fb as [|? ? Os Ob]; subst.
    assert (Hc : exists t c', c = t :: c').
    { pose proof (Ha _ (box_inhabited (r :: a) Fa)) as Hx.
      apply in_box_length in Hx. cbn in Hx. destruct c; cbn in *; eauto; lia. }
    destruct Hc as (t & c' & ->).
    cbn in Hp. destruct p as [|v p]; [inversion Hp|].
    apply in_box_cons in Hp as [Hv Hp]. apply in_box_cons. split.
    + assert (A1 : forall x, in_range x r -> in_range x t).
      { intros x Hx. assert (in_box (x :: map rbegin a) (r :: a)).
        { apply in_box_cons; split; auto. apply box_inhabited; auto. }
        apply Ha in H. apply in_box_cons in H. tauto. }
      assert (A2 : forall x, in_range x s -> in_range x t).
      { intros x Hx. assert (in_box (x :: map rbegin b) (s :: b)).
        { apply in_box_cons; split; auto. apply box_inhabited; auto. }
        apply Hb in H. apply in_box_cons in H. tauto. }
      unfold in_range, range_ok in *; cbn in Hv.
      pose proof (A1 (rbegin r)). pose proof (A1 (rend r - 1)).
      pose proof (A2 (rbegin s)). pose proof (A2 (rend s - 1)). lia.
    + cbn in Hl. apply (IH b c'); auto.
      * intros q Hq. assert (in_box (rbegin r :: q) (r :: a)).
        { apply in_box_cons; split; auto. unfold in_range, range_ok in *; lia. }
        apply Ha in H. apply in_box_cons in H. tauto.
      * intros q Hq. assert (in_box (rbegin s :: q) (s :: b)).
        { apply in_box_cons; split; auto. unfold in_range, range_ok in *; lia. }
        apply Hb in H. apply in_box_cons in H. tauto.
Qed.

Lemma fold_MBR_props : forall rk l x, box_of rk x -> Forall (box_of rk) l ->
  box_of rk (fold_left getMBR2 l x) /\ is_mbr (fold_left getMBR2 l x) (x :: l).
Proof.
  induction l as [|y l IH]; intros x Hx Hl; cbn.
  - split; auto. split; intros; cbn in *; intuition (subst; eauto).
  - inversion Hl; subst.
    destruct (IH (getMBR2 x y)) as [A [B C]]; auto using getMBR2_ok.
    assert (L : length x = length y) by (destruct Hx, H1; lia).
    split; auto. split.
    + intros b p [->|[->|Hb]] Hp.
      * eapply B; [left; reflexivity|]. apply getMBR2_left; auto.
      * eapply B; [left; reflexivity|]. apply getMBR2_right; auto.
      * eapply B; [right; eauto|]; auto.
    + intros c Hc p Hp. eapply C; [|exact Hp].
      intros b q [<-|Hb] Hq.
      * assert (forall b, box_of rk b -> Forall range_ok b) by (intros ? [[]]; auto).
        eapply getMBR2_least with (a := x) (b := y); eauto.
        -- intros; eapply Hc; [left; reflexivity|]; auto.
        -- intros; eapply Hc; [right; left; reflexivity|]; auto.
      * eapply Hc; [right; right; eauto|]; auto.
Qed.

Lemma getMBR_props : forall rk l m, Forall (box_of rk) l -> getMBR l = Some m ->
  box_of rk m /\ is_mbr m l.
Proof.
  intros rk [|x l] m Hl H; cbn in H; [discriminate|].
  injection H as <-. inversion Hl; subst. apply fold_MBR_props; auto.
Qed.

Lemma getMBR_some : forall l, l <> [] -> exists m, getMBR l = Some m.
Proof. intros [|x l] H; [congruence | eexists; reflexivity]. Qed.

Lemma getMBR_none : forall l, getMBR l = None -> l = [].
Proof. intros [|x l] H; [auto | discriminate]. Qed.

(** first_best *)
Lemma first_best_loop_lt : forall A (better : A -> A -> bool) l i best bi,
  (bi < i)%nat -> (first_best_loop better l i best bi < i + length l)%nat.
Proof.
  induction l as [|x l IH]; intros i best bi H; cbn; [lia|].
  destruct (better x best).
  - specialize (IH (S i) x i). lia.
  - specialize (IH (S i) best bi). lia.
Qed.

Lemma first_best_lt : forall A (better : A -> A -> bool) l k,
  first_best better l = Some k -> (k < length l)%nat.
Proof.
  intros A better [|x l] k H; cbn in *; [discriminate|].
  injection H as <-. pose proof (first_best_loop_lt A better l 1 x 0). lia.
Qed.

Lemma first_best_some : forall A (better : A -> A -> bool) l, l <> [] ->
  exists k, first_best better l = Some k.
Proof. intros A better [|x l] H; [congruence | eexists; reflexivity]. Qed.

(** take_nth *)
Lemma take_nth_perm : forall A n (l : list A) x r,
  take_nth n l = Some (x, r) -> Permutation l (x :: r).
Proof.
  induction n as [|n IH]; intros [|y l] x r H; cbn in H; try discriminate.
  - injection H as <- <-. reflexivity.
  - destruct (take_nth n l) as [[z r']|] eqn:E; [|discriminate].
    injection H as <- <-. apply IH in E. rewrite E. apply perm_swap.
Qed.

Lemma take_nth_some : forall A n (l : list A), (n < length l)%nat ->
  exists x r, take_nth n l = Some (x, r).
Proof.
  induction n as [|n IH]; intros [|y l] H; cbn in *; try lia; eauto.
  destruct (IH l) as (x & r & ->); [lia|]. eauto.
Qed.

Section SplitProofs.
Variable U : Type.
Variable shp : U -> mdrange.

Lemma splitLoop_perm : forall fuel minE b1 b2 l1 l2 rem r1 r2,
  splitLoop shp fuel minE b1 b2 l1 l2 rem = Ok (r1, r2) ->
  Permutation (l1 ++ l2 ++ rem) (r1 ++ r2)
  /\ (exists m, r1 = l1 ++ m) /\ (exists m, r2 = l2 ++ m).
Proof.
  induction fuel as [|f IH]; intros minE b1 b2 l1 l2 rem r1 r2 H.
  - cbn in H. destruct rem as [|x rem].
    + injection H as <- <-. rewrite app_nil_r. split; [reflexivity|].
      split; exists []; rewrite app_nil_r; auto.
    + destruct (Nat.eqb _ _).
      { injection H as <- <-. split; [|split; [eexists; eauto | exists []; rewrite app_nil_r; auto]].
        rewrite <- app_assoc. apply Permutation_app_head, Permutation_app_comm. }
      destruct (Nat.eqb _ _); [|discriminate].
      injection H as <- <-. split; [reflexivity|].
      split; [exists []; rewrite app_nil_r; auto | eexists; eauto].
  - cbn in H. destruct rem as [|x rem].
    + injection H as <- <-. rewrite app_nil_r. split; [reflexivity|].
      split; exists []; rewrite app_nil_r; auto.
    + destruct (Nat.eqb _ _).
      { injection H as <- <-. split; [|split; [eexists; eauto | exists []; rewrite app_nil_r; auto]].
        rewrite <- app_assoc. apply Permutation_app_head, Permutation_app_comm. }
      destruct (Nat.eqb _ _).
      { injection H as <- <-. split; [reflexivity|].
        split; [exists []; rewrite app_nil_r; auto | eexists; eauto]. }
      apply bind_ok in H as (k & Hk & H). apply bind_ok in H as ([y rest] & Hy & H).
      apply of_option_inv in Hy. apply take_nth_perm in Hy.
      destruct (goesToFirst _ _ _ _ _ _).
      * apply IH in H as (P & (m & ->) & (m' & ->)).
        split; [|split; eexists; rewrite <- ?app_assoc; eauto].
        rewrite <- P, Hy. rewrite <- app_assoc. apply Permutation_app_head. cbn.
        symmetry. apply Permutation_middle.
      * apply IH in H as (P & (m & ->) & (m' & ->)).
        split; [|split; eexists; rewrite <- ?app_assoc; eauto].
        rewrite <- P, Hy. rewrite <- !app_assoc. reflexivity.
Qed.

Lemma splitEntries_spec : forall minE entries l1 l2, (1 <= minE)%nat ->
  splitEntries shp minE entries = Ok (l1, l2) ->
  Permutation entries (l1 ++ l2) /\ (minE <= length l1)%nat /\ (minE <= length l2)%nat
  /\ l1 <> [] /\ l2 <> [].
Proof.
  intros minE entries l1 l2 Hm H. unfold splitEntries in H.
  apply bind_ok in H as ([i j] & Hij & H). apply bind_ok in H as ([y rest1] & Hy & H).
  apply bind_ok in H as ([x rest] & Hx & H). apply bind_ok in H as ([r1 r2] & Hr & H).
  apply bind_ok in H as (u & Ha & H). apply bind_ok in H as (u' & Hb & H).
  injection H as <- <-. apply assert_ok_inv in Ha, Hb.
  apply of_option_inv in Hy, Hx. apply take_nth_perm in Hy, Hx.
  apply splitLoop_perm in Hr as (P & _ & _).
  split; [|repeat split].
  - rewrite Hy, Hx, <- P. cbn. apply perm_swap.
  - apply Nat.leb_le in Ha; lia.
  - apply Nat.leb_le in Hb; lia.
  - intros ->. apply Nat.leb_le in Ha. cbn in Ha; lia.
  - intros ->. apply Nat.leb_le in Hb. cbn in Hb; lia.
Qed.

(** Totality of the split. *)
Lemma seedCandidates_inner_in : forall l i j x c, In c (seedCandidates_inner shp i j x l) ->
  fst (fst c) = i /\ (j <= snd (fst c) < j + length l)%nat.
Proof.
  induction l as [|y l IH]; intros i j x c H; cbn in H; [tauto|].
  destruct H as [<-|H]; cbn; [lia|]. apply IH in H. cbn in *; lia.
Qed.

Lemma seedCandidates_in : forall l i c, In c (seedCandidates shp i l) ->
  (i <= fst (fst c) < snd (fst c))%nat /\ (snd (fst c) < i + length l)%nat.
Proof.
  induction l as [|x l IH]; intros i c H; cbn in H; [tauto|].
  apply in_app_or in H as [H|H].
  - apply seedCandidates_inner_in in H. cbn; lia.
  - apply IH in H. cbn; lia.
Qed.

Lemma pickSeeds_some : forall l, (2 <= length l)%nat ->
  exists i j, pickSeeds shp l = Some (i, j) /\ (i < j < length l)%nat.
Proof.
  intros l H. unfold pickSeeds.
  set (c := seedCandidates shp 0 l).
  assert (Hc : c <> []).
  { subst c. destruct l as [|x [|y l]]; cbn in *; try lia. discriminate. }
  destruct (first_best_some _ (fun x y => snd y <? snd x) c Hc) as (k & Hk).
  rewrite Hk. apply first_best_lt in Hk.
  destruct (nth_error c k) as [[[i j] d]|] eqn:E.
  - apply nth_error_In in E. apply seedCandidates_in in E. cbn in E.
    exists i, j. split; auto; lia.
  - apply nth_error_None in E. lia.
Qed.

Lemma pickNext_some : forall b1 b2 l, l <> [] ->
  exists k, pickNext shp b1 b2 l = Some k /\ (k < length l)%nat.
Proof.
  intros b1 b2 l H. unfold pickNext.
  destruct (first_best_some _ (fun x y : Z => y <? x) (map (nextCost shp b1 b2) l)) as (k & Hk).
  - destruct l; cbn; congruence.
  - exists k. split; auto. apply first_best_lt in Hk. rewrite map_length in Hk; auto.
Qed.

(** The code's two early exits give all the remaining entries to one node: the
    other one keeps what it has, so the minimum holds for it only if it has
    already reached it. The loop maintains it because both are checked each
    time one entry is moved, provided that there are at least twice as many
    entries. *)
Lemma splitLoop_total : forall fuel minE b1 b2 l1 l2 rem,
  (1 <= minE)%nat -> (length rem <= fuel)%nat ->
  (2 * minE <= length l1 + length l2 + length rem)%nat ->
  (minE <= length l1 + length rem)%nat -> (minE <= length l2 + length rem)%nat ->
  exists r1 r2, splitLoop shp fuel minE b1 b2 l1 l2 rem = Ok (r1, r2)
    /\ (minE <= length r1)%nat /\ (minE <= length r2)%nat.
Proof.
  induction fuel as [|f IH]; intros minE b1 b2 l1 l2 rem Hm Hf H0 H1 H2.
  - destruct rem; [|cbn in Hf; lia]. cbn in *. exists l1, l2. split; auto; lia.
  - cbn [splitLoop]. destruct rem as [|x rem].
    + exists l1, l2. cbn in *. split; auto; lia.
    + destruct (Nat.eqb_spec (length l1 + length (x :: rem)) minE).
      { exists (l1 ++ x :: rem), l2. split; auto. rewrite app_length. lia. }
      destruct (Nat.eqb_spec (length l2 + length (x :: rem)) minE).
      { exists l1, (l2 ++ x :: rem). split; auto. rewrite app_length. lia. }
      destruct (pickNext_some b1 b2 (x :: rem)) as (k & Hk & Hlt); [discriminate|].
      rewrite Hk. cbn [of_option bind].
      destruct (take_nth_some _ k (x :: rem) Hlt) as (y & r & Ht).
      rewrite Ht. cbn [of_option bind].
      apply take_nth_perm in Ht. apply Permutation_length in Ht. cbn in Ht.
      destruct (goesToFirst _ _ _ _ _ _); apply IH; rewrite ?app_length; cbn in *; lia.
Qed.

Lemma splitEntries_total : forall minE entries, (1 <= minE)%nat ->
  (2 * minE <= length entries)%nat ->
  exists l1 l2, splitEntries shp minE entries = Ok (l1, l2).
Proof.
  intros minE entries Hm Hl. unfold splitEntries.
  destruct (pickSeeds_some entries) as (i & j & Hs & Hij); [lia|].
  rewrite Hs. cbn [of_option bind].
  destruct (take_nth_some _ j entries) as (y & r1 & Hy); [lia|].
  rewrite Hy. cbn [of_option bind].
  assert (L1 : length entries = S (length r1)).
  { apply take_nth_perm in Hy. apply Permutation_length in Hy; auto. }
  destruct (take_nth_some _ i r1) as (x & r & Hx); [lia|].
  rewrite Hx. cbn [of_option bind].
  assert (L2 : length r1 = S (length r)).
  { apply take_nth_perm in Hx. apply Permutation_length in Hx; auto. }
  destruct (splitLoop_total (length r) minE (shp x) (shp y) [x] [y] r)
    as (a & b & E & Ha & Hb); cbn [length] in *; try lia.
  rewrite E. cbn [bind]. apply Nat.leb_le in Ha, Hb. rewrite Ha, Hb. cbn. eauto.
Qed.
End SplitProofs.
