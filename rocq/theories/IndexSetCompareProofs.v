(** The order of index sets. *)
From Coq Require Import ZArith List Bool Lia.
From Verif Require Import RangeModel MDRangeModel Spec RangeProofs MDRangeProofs
  Result RTreeModel IndexSetModel.
Import ListNotations.
Open Scope Z_scope.

Lemma compare_ranges_0 : forall a b, compare_ranges a b = 0 <-> a = b.
Proof.
  induction a as [|x a IH]; intros [|y b]; cbn; try (split; [lia|discriminate]); [tauto|].
  destruct (Z.eqb_spec (mdrange_compare x y) 0) as [E|E]; cbn [negb].
  - apply mdrange_compare_0 in E as ->. rewrite IH. split; congruence.
  - split; [lia|]. intros H. injection H as -> ->. exfalso. apply E. now apply mdrange_compare_0.
Qed.

Lemma compare_ranges_antisym : forall a b, compare_ranges b a = - compare_ranges a b.
Proof.
  induction a as [|x a IH]; intros [|y b]; cbn; try reflexivity.
  rewrite (mdrange_compare_antisym x y).
  destruct (Z.eqb_spec (mdrange_compare x y) 0) as [E|E]; cbn [negb].
  - rewrite E. cbn. apply IH.
  - destruct (Z.eqb_spec (- mdrange_compare x y) 0); [lia|]. reflexivity.
Qed.

Lemma compare_ranges_trans : forall a b c,
  compare_ranges a b <= 0 -> compare_ranges b c <= 0 -> compare_ranges a c <= 0.
Proof.
  induction a as [|x a IH]; intros [|y b] [|z c]; cbn; try lia.
  pose proof (mdrange_compare_0 x y). pose proof (mdrange_compare_0 y z). pose proof (mdrange_compare_0 x z).
  pose proof (mdrange_compare_trans x y z). pose proof (mdrange_compare_antisym x y).
  pose proof (mdrange_compare_antisym x z). pose proof (mdrange_compare_antisym y z).
  pose proof (mdrange_compare_trans z x y). pose proof (mdrange_compare_trans y z x).
  specialize (IH b c).
  destruct (Z.eqb_spec (mdrange_compare x y) 0) as [E|E]; cbn [negb].
  - assert (x = y) by tauto. subst y.
    destruct (Z.eqb_spec (mdrange_compare x z) 0); cbn [negb]; auto.
  - destruct (Z.eqb_spec (mdrange_compare y z) 0) as [E'|E']; cbn [negb].
    + assert (y = z) by tauto. subst z.
      destruct (Z.eqb_spec (mdrange_compare x y) 0); cbn [negb]; [lia|]. auto.
    + intros H8 H9. destruct (Z.eqb_spec (mdrange_compare x z) 0) as [E''|E'']; cbn [negb]; [|auto].
      assert (x = z) by tauto. subst z. lia.
Qed.

Lemma compare_ranges_lt : forall a b, compare_ranges a b < 0 <->
  exists common a1 b1, a = common ++ a1 /\ b = common ++ b1 /\
    ((a1 = [] /\ b1 <> []) \/
     exists x a' y b', a1 = x :: a' /\ b1 = y :: b' /\ mdrange_compare x y < 0).
Proof.
  intros a b. split.
  - revert b. induction a as [|x a IH]; intros [|y b] H; cbn in H; try lia.
    + exists [], [], (y :: b). split; [reflexivity|]. split; [reflexivity|]. left. split; [reflexivity|discriminate].
    + destruct (Z.eqb_spec (mdrange_compare x y) 0) as [E|E]; cbn [negb] in H.
      * apply mdrange_compare_0 in E as ->. destruct (IH b H) as (cm & a1 & b1 & -> & -> & X).
        exists (y :: cm), a1, b1. auto.
      * exists [], (x :: a), (y :: b). split; [reflexivity|]. split; [reflexivity|]. right.
        exists x, a, y, b. auto.
  - intros (cm & a1 & b1 & -> & -> & X). induction cm as [|z cm IH]; cbn.
    + destruct X as [(-> & X)|(x & a' & y & b' & -> & -> & X)].
      * destruct b1; [congruence|]. cbn. lia.
      * cbn. destruct (Z.eqb_spec (mdrange_compare x y) 0); cbn [negb]; lia.
    + rewrite (proj2 (mdrange_compare_0 z z) eq_refl). exact IH.
Qed.

Lemma compare_total :
  (forall t u, is_compare t u = 0 <-> is_ranges t = is_ranges u) /\
  (forall t u, is_compare u t = - is_compare t u) /\
  (forall t u v, is_compare t u <= 0 -> is_compare u v <= 0 -> is_compare t v <= 0) /\
  (forall t u, is_compare t u < 0 <->
     exists common a b, is_ranges t = common ++ a /\ is_ranges u = common ++ b /\
       ((a = [] /\ b <> []) \/
        exists x a' y b', a = x :: a' /\ b = y :: b' /\ mdrange_compare x y < 0)).
Proof.
  unfold is_compare. split; [|split; [|split]].
  - intros. apply compare_ranges_0.
  - intros. apply compare_ranges_antisym.
  - intros t u v. apply compare_ranges_trans.
  - intros. apply compare_ranges_lt.
Qed.
