From Coq Require Import List Arith Bool ZArith Lia Permutation.
Import ListNotations.
From Verif Require Import ParRunModel ParRunSpec.

(** ** before *)
Lemma before_cons {A} (x y z : A) m : before x y (z :: m) <-> (x = z /\ In y m) \/ before x y m.
Proof.
  split.
  - intros (l1 & l2 & l3 & E). destruct l1 as [|w l1]; cbn [app] in E.
    + injection E as -> E. left. split; [reflexivity|]. rewrite E. apply in_or_app. right. now left.
    + injection E as -> E. right. exists l1, l2, l3. exact E.
  - intros [[-> H]|(l1 & l2 & l3 & ->)].
    + apply in_split in H. destruct H as (l2 & l3 & ->). exists [], l2, l3. reflexivity.
    + exists (z :: l1), l2, l3. reflexivity.
Qed.

Lemma before_nil {A} (x y : A) : ~ before x y [].
Proof. intros (l1 & l2 & l3 & E). destruct l1; discriminate. Qed.

Lemma before_in {A} (x y : A) m : before x y m -> In x m /\ In y m.
Proof.
  intros (l1 & l2 & l3 & ->). split; apply in_or_app; right; [now left|]. right. apply in_or_app. right. now left.
Qed.

Lemma before_app {A} (x y : A) a b :
  before x y (a ++ b) <-> before x y a \/ (In x a /\ In y b) \/ before x y b.
Proof.
  induction a as [|z a IH]; cbn [app].
  - split; [tauto|]. intros [H|[[[] _]|H]]; [now apply before_nil in H | exact H].
  - rewrite !before_cons, IH, in_app_iff. cbn [In]. intuition (subst; auto).
Qed.

Lemma before_flat_map {A B} (f : A -> list B) x y l : before x y (flat_map f l) ->
  (exists b, In b l /\ before x y (f b)) \/
  (exists b b' l1 l2 l3, l = l1 ++ b :: l2 ++ b' :: l3 /\ In x (f b) /\ In y (f b')).
Proof.
  induction l as [|c l IH]; cbn [flat_map]; intros H; [now apply before_nil in H|].
  apply before_app in H. destruct H as [H|[[Hx Hy]|H]].
  - left. exists c. split; [now left | exact H].
  - right. apply in_flat_map in Hy. destruct Hy as (b' & Hin & Hy).
    apply in_split in Hin. destruct Hin as (l2 & l3 & ->). exists c, b', [], l2, l3. auto.
  - destruct (IH H) as [(b & Hin & Hb)|(b & b' & l1 & l2 & l3 & -> & Hx & Hy)].
    + left. exists b. split; [now right | exact Hb].
    + right. exists b, b', (c :: l1), l2, l3. auto.
Qed.

Lemma before_in_flat_map {A B} (f : A -> list B) x y b l :
  In b l -> before x y (f b) -> before x y (flat_map f l).
Proof.
  intros H Hb. induction l as [|c l IH]; [destruct H|]. cbn [flat_map]. apply before_app.
  destruct H as [->|H]; [now left | right; right; auto].
Qed.

(** ** Steps that are apart can be exchanged *)
Definition same (a b : store) : Prop := forall c, a c = b c.

Lemma run1_same a b s : same a b -> same (run1 a s) (run1 b s).
Proof.
  intros H c. unfold run1. destruct (c =? s_write s); [|apply H].
  f_equal. apply map_ext. exact H.
Qed.
Lemma run_same ss : forall a b, same a b -> same (run a ss) (run b ss).
Proof. induction ss as [|s ss IH]; intros a b H; [exact H|]. cbn [run fold_left]. apply IH, run1_same, H. Qed.

Lemma swap st x y : s_write x <> s_write y -> apart x y -> same (run1 (run1 st x) y) (run1 (run1 st y) x).
Proof.
  intros N [A1 A2] c.
  assert (Ex : map (run1 st x) (s_reads y) = map st (s_reads y)).
  { apply map_ext_in. intros r Hr. unfold run1. destruct (r =? s_write x) eqn:E; [|reflexivity].
    apply Nat.eqb_eq in E. subst r. contradiction. }
  assert (Ey : map (run1 st y) (s_reads x) = map st (s_reads x)).
  { apply map_ext_in. intros r Hr. unfold run1. destruct (r =? s_write y) eqn:E; [|reflexivity].
    apply Nat.eqb_eq in E. subst r. contradiction. }
  unfold run1 at 1 3. rewrite Ex, Ey. unfold run1.
  destruct (c =? s_write y) eqn:E1, (c =? s_write x) eqn:E2; try reflexivity.
  apply Nat.eqb_eq in E1, E2. congruence.
Qed.

Lemma run_app st a b : run st (a ++ b) = run (run st a) b.
Proof. apply fold_left_app. Qed.

Lemma move_front a l2 : forall l1 st,
  (forall b, In b l1 -> s_write b <> s_write a /\ apart b a) ->
  same (run st (l1 ++ a :: l2)) (run st (a :: l1 ++ l2)).
Proof.
  induction l1 as [|b l1 IH]; intros st H; [intros c; reflexivity|].
  intros c. cbn [app run fold_left].
  change (run (run1 st b) (l1 ++ a :: l2) c = run (run1 (run1 st a) b) (l1 ++ l2) c).
  rewrite (IH (run1 st b) (fun b' Hb => H b' (or_intror Hb)) c).
  change (run (run1 (run1 st b) a) (l1 ++ l2) c = run (run1 (run1 st a) b) (l1 ++ l2) c).
  apply run_same. destruct (H b (or_introl eq_refl)). apply swap; assumption.
Qed.

Lemma apart_dec x y : {apart x y} + {~ apart x y}.
Proof.
  unfold apart. destruct (in_dec Nat.eq_dec (s_write x) (s_reads y)), (in_dec Nat.eq_dec (s_write y) (s_reads x)); tauto.
Qed.

Lemma nodup_steps l : NoDup (map s_write l) -> NoDup l.
Proof. apply NoDup_map_inv. Qed.

Lemma reorder : forall l' l st,
  Permutation l' l -> NoDup (map s_write l) ->
  (forall x y, before x y l -> ~ apart x y -> before x y l') ->
  same (run st l') (run st l).
Proof.
  induction l' as [|a t IH]; intros l st P ND O.
  - apply Permutation_nil in P. subst l. intros c; reflexivity.
  - assert (Ha : In a l) by (eapply Permutation_in; [exact P | now left]).
    apply in_split in Ha. destruct Ha as (l1 & l2 & ->).
    pose proof (nodup_steps _ ND) as NDl.
    assert (NDt : NoDup (a :: t)) by (eapply Permutation_NoDup; [apply Permutation_sym; exact P | exact NDl]).
    inversion NDt as [|? ? Na _]; subst.
    assert (F : forall b, In b l1 -> s_write b <> s_write a /\ apart b a).
    { intros b Hb. split.
      - rewrite map_app in ND. cbn [map] in ND. apply NoDup_remove_2 in ND.
        intros E. apply ND. apply in_or_app. left. rewrite <- E. apply in_map. exact Hb.
      - destruct (apart_dec b a) as [|NA]; [assumption|]. exfalso.
        assert (B : before b a (l1 ++ a :: l2)) by (apply before_app; right; left; split; [exact Hb | now left]).
        apply (O _ _ B) in NA. apply before_cons in NA. destruct NA as [[-> H]|H]; [contradiction|].
        apply before_in in H. tauto. }
    assert (P' : Permutation t (l1 ++ l2)) by (apply Permutation_cons_app_inv in P; exact P).
    intros c. rewrite (move_front _ _ _ st F c). cbn [run fold_left].
    apply (IH (l1 ++ l2) (run1 st a) P').
    + rewrite map_app in *. cbn [map] in ND. apply NoDup_remove_1 in ND. exact ND.
    + intros x y B NA.
      assert (Hx : In x (l1 ++ l2)) by (apply before_in in B; tauto).
      assert (B' : before x y (l1 ++ a :: l2)).
      { apply before_app in B. apply before_app. rewrite before_cons. cbn [In]. tauto. }
      apply (O _ _ B') in NA. apply before_cons in NA. destruct NA as [[-> _]|H]; [|exact H].
      apply NoDup_remove_2 in NDl. contradiction.
Qed.

(** ** The group *)
Lemma calls_entries bs : (forall b, In b bs -> is_call_block b = true) ->
  concat (map fst (flat_map block_entries bs)) = serial bs.
Proof.
  induction bs as [|b bs IH]; intros H; [reflexivity|].
  cbn [flat_map serial]. rewrite map_app, concat_app. change (flat_map block_steps bs) with (serial bs).
  f_equal; [|apply IH; intros; apply H; now right].
  pose proof (H b (or_introl eq_refl)) as C. destruct b as [|[c|ss] [|o b]]; try discriminate.
  unfold block_entries, block_steps. cbn [flat_map bop_steps]. rewrite !app_nil_r.
  destruct c as [s i|boxes i]; cbn [call_entries call_steps map concat fst app]; [reflexivity|].
  f_equal. clear H C. induction boxes as [|x l IHl]; cbn [map fst]; [reflexivity|]. f_equal. exact IHl.
Qed.

Lemma filter_split bs :
  Permutation (serial (filter (fun x => negb (is_call_block x)) bs) ++ serial (filter is_call_block bs)) (serial bs).
Proof.
  induction bs as [|b bs IH]; cbn [filter]; [constructor|].
  destruct (is_call_block b); cbn [negb serial flat_map].
  - change (flat_map block_steps) with serial. rewrite Permutation_app_comm, <- app_assoc.
    apply Permutation_app_head. rewrite Permutation_app_comm. exact IH.
  - change (flat_map block_steps) with serial. rewrite <- app_assoc. apply Permutation_app_head. exact IH.
Qed.

Lemma instantiate_cases bs rem es : instantiate bs = (rem, es) ->
  (rem = bs /\ es = []) \/
  (rem = filter (fun x => negb (is_call_block x)) bs /\ es = flat_map block_entries (filter is_call_block bs)).
Proof.
  unfold instantiate. destruct (filter is_call_block bs) as [|b [|b' l]] eqn:F.
  - intros E; injection E as <- <-. right; auto.
  - destruct (single_scalar b); intros E; injection E as <- <-; [left; auto|].
    right. split; [reflexivity|]. cbn [flat_map]. now rewrite app_nil_r.
  - intros E; injection E as <- <-. right; auto.
Qed.

Lemma group_once bs rem es ss : instantiate bs = (rem, es) -> scheduled es ss ->
  Permutation (serial rem ++ ss) (serial bs).
Proof.
  intros E [P _]. destruct (instantiate_cases _ _ _ E) as [[-> ->]|[-> ->]].
  - cbn in P. apply Permutation_sym, Permutation_nil in P. subst. now rewrite app_nil_r.
  - rewrite calls_entries in P by (intros b Hb; apply filter_In in Hb; tauto).
    rewrite P. apply filter_split.
Qed.

Lemma group_values bs rem es ss st :
  instantiate bs = (rem, es) -> scheduled es ss ->
  written_once bs -> blocks_apart bs -> flags_right bs -> one_box bs ->
  same (run st (serial rem ++ ss)) (run st (serial bs)).
Proof.
  intros E Sc W BA FR OB. apply reorder; [eapply group_once; eauto | exact W|].
  intros x y B NA. apply before_flat_map in B.
  destruct B as [(b & Hb & B)|(b & b' & l1 & l2 & l3 & Eq & Hx & Hy)].
  2:{ exfalso. apply NA. eapply BA; eauto. }
  apply before_app. destruct (instantiate_cases _ _ _ E) as [[-> ->]|[-> ->]].
  - left. eapply before_in_flat_map; eauto.
  - destruct (is_call_block b) eqn:C.
    + right; right. destruct b as [|[c|s0] [|o b]]; try discriminate.
      unfold block_steps in B. cbn [flat_map bop_steps] in B. rewrite app_nil_r in B.
      destruct c as [s i|boxes [|]].
      * cbn [call_steps] in B. apply before_cons in B. destruct B as [[_ []]|B]. now apply before_nil in B.
      * exfalso. apply NA. eapply (FR _ _ Hb (or_introl eq_refl)); [reflexivity | exact B].
      * pose proof (OB _ _ Hb (or_introl eq_refl)) as L.
        cbn [call_steps] in B. destruct boxes as [|bx [|bx' boxes]]; [now apply before_nil in B | | cbn in L; lia].
        cbn [concat] in B. rewrite app_nil_r in B. destruct Sc as [_ Sc]. apply (Sc bx); [|exact B].
        apply in_flat_map. exists [BCall (CBoxes [bx] false)].
        split; [apply filter_In; auto | now left].
    + left. eapply before_in_flat_map; [|exact B]. apply filter_In. rewrite C. auto.
Qed.
