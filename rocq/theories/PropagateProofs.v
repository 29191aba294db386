(** Proofs about the propagation of read-only variables. *)
From Coq Require Import List Bool Arith Lia.
From Verif Require Import PropagateModel PropagateSpec.
Import ListNotations.

Lemma memb_in : forall x l, memb x l = true <-> In x l.
Proof.
  intros x l. unfold memb. rewrite existsb_exists. split.
  - intros (y & H & E). apply Nat.eqb_eq in E as ->. exact H.
  - intros H. exists x. split; [exact H|apply Nat.eqb_refl].
Qed.
Lemma target_bound : forall m v b, target m v = Some b -> bound m v b.
Proof.
  intros m v b E. unfold target in E. destruct (memb v (rm_ignored m)) eqn:Ig; [discriminate|].
  destruct (find _ _) as [[w c]|] eqn:F; [|discriminate]. destruct (memb v (rm_readonly m)) eqn:R; [|discriminate].
  injection E as <-. apply find_some in F as (F & Ew). cbn [fst snd] in *. apply Nat.eqb_eq in Ew as ->.
  split; [apply memb_in; exact R|]. split; [|exact F]. intros H. apply memb_in in H. congruence.
Qed.
Lemma bound_target : forall m v b, NoDup (map fst (rm_bindings m)) -> bound m v b -> target m v = Some b.
Proof.
  intros m v b N (R & Ig & Hb). unfold target. replace (memb v (rm_ignored m)) with false.
  - replace (memb v (rm_readonly m)) with true by (symmetry; apply memb_in; exact R).
    destruct (find _ _) as [[w c]|] eqn:F.
    + apply find_some in F as (F & Ew). cbn [fst snd] in *. apply Nat.eqb_eq in Ew as ->. f_equal.
      revert N F Hb. clear. induction (rm_bindings m) as [|[w d] l IH]; intros N F Hb; [destruct F|]. cbn in N. inversion N as [|? ? Nw N']; subst.
      destruct F as [F|F]; destruct Hb as [Hb|Hb]; try congruence.
      * injection F as -> ->. destruct Nw. apply in_map_iff. exists (v, b). auto.
      * injection Hb as -> ->. destruct Nw. apply in_map_iff. exists (v, c). auto.
      * auto.
    + pose proof (find_none _ _ F (v, b) Hb) as H. cbn [fst] in H. rewrite Nat.eqb_refl in H. discriminate.
  - symmetry. apply not_true_is_false. intros H. apply Ig, memb_in, H.
Qed.

Lemma lookup_cons : forall A (l : list (nat * A)) k a x, lookup ((k, a) :: l) x = if Nat.eqb k x then Some a else lookup l x.
Proof. intros. unfold lookup. cbn. now destruct (Nat.eqb k x). Qed.
Lemma lookup_in : forall A (l : list (nat * A)) x a, lookup l x = Some a -> In (x, a) l.
Proof.
  intros A l x a. induction l as [|[k b] l IH]; [discriminate|]. rewrite lookup_cons. destruct (Nat.eqb k x) eqn:E.
  - intros H. injection H as ->. apply Nat.eqb_eq in E. subst. now left.
  - intros H. right. auto.
Qed.
Lemma lookup_key : forall A (l : list (nat * A)) x, In x (map fst l) -> exists a, lookup l x = Some a.
Proof.
  intros A l x. induction l as [|[k b] l IH]; [intros []|]. rewrite lookup_cons. intros H. destruct (Nat.eqb k x) eqn:E; [eauto|].
  apply IH. destruct H as [H|H]; [|exact H]. cbn in H. apply Nat.eqb_neq in E. contradiction.
Qed.
Lemma lookup_nodup : forall A (l : list (nat * A)) x a, NoDup (map fst l) -> In (x, a) l -> lookup l x = Some a.
Proof.
  intros A l x a N H. induction l as [|[k b] l IH]; [destruct H|]. rewrite lookup_cons. cbn in N. apply NoDup_cons_iff in N as (Nk & N).
  destruct H as [H|H].
  - injection H as -> ->. now rewrite Nat.eqb_refl.
  - destruct (Nat.eqb k x) eqn:E; [|auto]. apply Nat.eqb_eq in E. subst. destruct Nk. exact (in_map fst _ _ H).
Qed.
Lemma insert_spec : forall g x A i B, ~ In g (map fst A) -> insert_before g x (A ++ (g, i) :: B) = A ++ x :: (g, i) :: B.
Proof.
  intros g x A i B. induction A as [|[k j] A IH]; cbn; intros N.
  - now rewrite Nat.eqb_refl.
  - destruct (Nat.eqb k g) eqn:E; [apply Nat.eqb_eq in E; tauto|]. rewrite IH; tauto.
Qed.
Lemma after_spec : forall x A i B, ~ In x (map fst A) -> after x (A ++ (x, i) :: B) = option_map fst (hd_error B).
Proof.
  intros x A i B. induction A as [|[k j] A IH]; cbn; intros N.
  - now rewrite Nat.eqb_refl.
  - destruct (Nat.eqb k x) eqn:E; [apply Nat.eqb_eq in E; tauto|]. apply IH. tauto.
Qed.
Lemma split_at : forall (l : list (nat * instr)) g i, In (g, i) l -> exists A B, l = A ++ (g, i) :: B.
Proof. intros. now apply in_split. Qed.
Lemma mid_nodup : forall (A : list (nat * instr)) x B, NoDup (map fst (A ++ x :: B)) -> ~ In (fst x) (map fst A) /\ ~ In (fst x) (map fst B) /\ NoDup (map fst (A ++ B)).
Proof.
  intros A x B N. rewrite map_app in *. cbn in N. apply NoDup_remove in N as (N & I). rewrite in_app_iff in I. tauto.
Qed.

Section Values.
Variables (V : Type) (op : nat -> list V -> V).
Notation results := (results V op).
Notation value := (value V op).

Lemma all_of_ext : forall {A B} (f g : A -> option B) l, (forall a, In a l -> f a = g a) -> all_of f l = all_of g l.
Proof. induction l as [|a l IH]; intros H; cbn; [reflexivity|]. rewrite H by now left. rewrite IH; [reflexivity|]. intros; apply H; now right. Qed.
Lemma all_of_map : forall {A B C} (h : C -> A) (f : A -> option B) l, all_of f (map h l) = all_of (fun c => f (h c)) l.
Proof. induction l as [|a l IH]; cbn; [reflexivity|]. now rewrite IH. Qed.
Lemma all_of_some : forall {A B} (f : A -> option B) l, (forall a, In a l -> f a <> None) -> all_of f l <> None.
Proof.
  induction l as [|a l IH]; intros H; cbn; [discriminate|]. destruct (f a) eqn:E; [|now apply (H a (or_introl eq_refl)) in E].
  destruct (all_of f l) eqn:E2; [discriminate|]. exfalso. refine (IH _ eq_refl). intros; apply H; now right.
Qed.
Lemma all_of_in : forall {A B} (f : A -> option B) l bs a, all_of f l = Some bs -> In a l -> exists b, f a = Some b.
Proof.
  induction l as [|c l IH]; intros bs a H Ha; [destruct Ha|]. cbn in H. destruct (f c) eqn:E; [|discriminate].
  destruct (all_of f l) eqn:E2; [|discriminate]. destruct Ha as [->|Ha]; [eauto|eapply IH; eauto].
Qed.

Lemma results_app : forall x A B e, results x (A ++ B) e = match results x A e with Some e' => results x B e' | None => None end.
Proof.
  intros x A B. induction A as [|[n i] A IH]; intros e; [reflexivity|]. cbn. destruct i as [v|o args]; [apply IH|].
  destruct (all_of (lookup e) args); [apply IH|reflexivity].
Qed.
Lemma results_keys : forall x A e e', results x A e = Some e' -> forall k, In k (map fst e') <-> In k (map fst A) \/ In k (map fst e).
Proof.
  intros x A. induction A as [|[n i] A IH]; intros e e' H k; cbn in H.
  - injection H as ->. cbn. tauto.
  - destruct i as [v|o args]; [|destruct (all_of (lookup e) args); [|discriminate]]; rewrite (IH _ _ H k); cbn; tauto.
Qed.
Definition args_of (i : instr) : list nat := match i with IGet _ => [] | IOp _ args => args end.
Lemma results_args : forall x A e e' n i a, results x A e = Some e' -> In (n, i) A -> In a (args_of i) -> In a (map fst A) \/ In a (map fst e).
Proof.
  intros x A. induction A as [|[n' i'] A IH]; intros e e' n i a H Hi Ha; [destruct Hi|]. cbn in H.
  assert (G : forall w, results x A ((n', w) :: e) = Some e' -> In (n, i) A -> In a (map fst ((n', i') :: A)) \/ In a (map fst e)).
  { intros w Hw Hin. destruct (IH _ _ n i a Hw Hin Ha) as [K|K]; cbn in *; tauto. }
  destruct Hi as [Hi|Hi].
  - injection Hi as -> ->. destruct i as [v|o args]; [destruct Ha|]. destruct (all_of (lookup e) args) as [vs|] eqn:E; [|discriminate].
    destruct (all_of_in _ _ _ a E Ha) as (b & Hb). right. apply lookup_in in Hb. exact (in_map fst _ _ Hb).
  - destruct i' as [v|o args]; [eauto|]. destruct (all_of (lookup e) args); [eauto|discriminate].
Qed.
Definition agree (P : nat -> Prop) (e e' : list (nat * V)) : Prop := forall k, P k -> lookup e k = lookup e' k.
Lemma agree_cons : forall P e e' n w, agree P e e' -> agree P ((n, w) :: e) ((n, w) :: e').
Proof. intros P e e' n w H k Hk. rewrite !lookup_cons. destruct (Nat.eqb n k); [reflexivity|auto]. Qed.
Lemma results_agree : forall (P : nat -> Prop) x B e e', (forall n i a, In (n, i) B -> In a (args_of i) -> P a) -> agree P e e' ->
  match results x B e, results x B e' with Some f, Some f' => agree P f f' | None, None => True | _, _ => False end.
Proof.
  intros P x B. induction B as [|[n i] B IH]; intros e e' H A; cbn; [exact A|]. destruct i as [v|o args].
  - apply IH; [intros; eapply H; [right; eauto|eauto]|]. now apply agree_cons.
  - rewrite (all_of_ext (lookup e) (lookup e') args) by (intros a Ha; apply A; exact (H n (IOp o args) a (or_introl eq_refl) Ha)).
    destruct (all_of (lookup e') args); [|exact Logic.I]. apply IH; [intros; eapply H; [right; eauto|eauto]|]. now apply agree_cons.
Qed.
(** A read replaced by another result with the same value. *)
Definition twin (g y : nat) (w : V) (e e' : list (nat * V)) : Prop :=
  (forall k, k <> g -> lookup e k = lookup e' k) /\ lookup e g = Some w /\ lookup e' y = Some w.
Lemma twin_lookup : forall g y w e e' k, twin g y w e e' -> lookup e' (subst_id g y k) = lookup e k.
Proof.
  intros g y w e e' k (A & G & Y). unfold subst_id. destruct (Nat.eqb k g) eqn:E.
  - apply Nat.eqb_eq in E. subst. congruence.
  - apply Nat.eqb_neq in E. symmetry. now apply A.
Qed.
Lemma twin_cons : forall g y w e e' n z, n <> g -> n <> y -> twin g y w e e' -> twin g y w ((n, z) :: e) ((n, z) :: e').
Proof.
  intros g y w e e' n z Ng Ny (A & G & Y). split; [|split].
  - intros k Hk. rewrite !lookup_cons. destruct (Nat.eqb n k); [reflexivity|auto].
  - rewrite lookup_cons. apply Nat.eqb_neq in Ng. now rewrite Ng.
  - rewrite lookup_cons. apply Nat.eqb_neq in Ny. now rewrite Ny.
Qed.
Definition subst_op (g y : nat) (x : nat * instr) := (fst x, subst_instr g y (snd x)).
Lemma results_subst : forall g y w x B e e' f, ~ In g (map fst B) -> ~ In y (map fst B) -> twin g y w e e' -> results x B e = Some f ->
  exists f', results x (map (subst_op g y) B) e' = Some f' /\ twin g y w f f'.
Proof.
  intros g y w x B. induction B as [|[n i] B IH]; intros e e' f Ng Ny T H; cbn in *.
  - injection H as <-. eauto.
  - destruct i as [v|o args]; cbn.
    + eapply IH; [tauto|tauto| |exact H]. apply twin_cons; [intros ->; tauto|intros ->; tauto|exact T].
    + rewrite all_of_map, (all_of_ext _ (lookup e)) by (intros a _; exact (twin_lookup g y w e e' a T)).
      destruct (all_of (lookup e) args) as [vs|]; [|discriminate].
      eapply IH; [tauto|tauto| |exact H]. apply twin_cons; [intros ->; tauto|intros ->; tauto|exact T].
Qed.
Lemma subst_op_same : forall g y A, (forall n i a, In (n, i) A -> In a (args_of i) -> a <> g) -> map (subst_op g y) A = A.
Proof.
  intros g y A H. rewrite <- (map_id A) at 2. apply map_ext_in. intros [n i] Hi. unfold subst_op. cbn. f_equal.
  destruct i as [v|o args]; [reflexivity|]. cbn. f_equal. rewrite <- (map_id args) at 2. apply map_ext_in. intros a Ha. unfold subst_id.
  specialize (H n (IOp o args) a Hi Ha). apply Nat.eqb_neq in H. now rewrite H.
Qed.

(** ** What a step does to the region of its task *)
Definition below (n : nat) (r : region) : Prop := forall k, In k (region_ids r) -> k < n.
Lemma ids_fst : forall ops k, In k (map fst ops) -> In k (flat_map instr_ids ops).
Proof. intros ops k H. apply in_map_iff in H as (x & <- & H). apply in_flat_map. exists x. split; [exact H|now left]. Qed.
Lemma ids_arg : forall ops n i a, In (n, i) ops -> In a (args_of i) -> In a (flat_map instr_ids ops).
Proof. intros ops n i a H Ha. apply in_flat_map. exists (n, i). split; [exact H|]. right. exact Ha. Qed.

Lemma insert_value : forall x A n i g v B ys e w, results x A [] = Some e -> results x [(n, i)] e = Some ((n, w) :: e) ->
  below n (mkRegion (A ++ (g, IGet v) :: B) ys) ->
  value x (mkRegion (A ++ (n, i) :: (g, IGet v) :: B) ys) = value x (mkRegion (A ++ (g, IGet v) :: B) ys).
Proof.
  intros x A n i g v B ys e w HA Hn Hb. unfold PropagateSpec.value. cbn [r_ops r_yields].
  change (A ++ (n, i) :: (g, IGet v) :: B) with (A ++ ([(n, i)] ++ (g, IGet v) :: B)).
  rewrite !results_app, HA, results_app, Hn.
  pose proof (results_agree (fun k => k <> n) x ((g, IGet v) :: B) ((n, w) :: e) e) as R.
  match type of R with _ -> _ -> ?X => assert (G : X) end.
  { apply R.
    - intros n' i' a Hi Ha ->. assert (L : n < n); [|lia]. apply Hb. unfold region_ids. cbn [r_ops]. apply in_or_app. left.
      apply (ids_arg _ n' i'); [|exact Ha]. apply in_or_app. now right.
    - intros k Hk. rewrite lookup_cons. destruct (Nat.eqb n k) eqn:E; [apply Nat.eqb_eq in E; subst; contradiction|reflexivity]. }
  destruct (results x ((g, IGet v) :: B) ((n, w) :: e)) as [f|], (results x ((g, IGet v) :: B) e) as [f'|]; try contradiction; [|reflexivity].
  apply all_of_ext. intros a Ha. apply G. intros ->. assert (L : n < n); [|lia]. apply Hb. unfold region_ids. apply in_or_app. now right.
Qed.
Lemma replace_value : forall x A g v B ys e y w, results x A [] = Some e -> lookup e y = Some (x v) ->
  NoDup (map fst (A ++ (g, IGet v) :: B)) -> value x (mkRegion (A ++ (g, IGet v) :: B) ys) = Some w ->
  value x (replace_read g y (mkRegion (A ++ (g, IGet v) :: B) ys)) = Some w.
Proof.
  intros x A g v B ys e y w HA Hy N Hw. destruct (mid_nodup _ _ _ N) as (NA & NB & N'). cbn [fst] in NA, NB.
  unfold PropagateSpec.value, replace_read in *. cbn [r_ops r_yields] in *.
  assert (F : filter (fun x => negb (Nat.eqb (fst x) g)) (A ++ (g, IGet v) :: B) = A ++ B).
  { rewrite filter_app. cbn. rewrite Nat.eqb_refl. cbn.
    assert (G : forall l : list (nat * instr), ~ In g (map fst l) -> filter (fun x => negb (Nat.eqb (fst x) g)) l = l).
    { induction l as [|[k j] l IH]; cbn; intros H; [reflexivity|]. destruct (Nat.eqb k g) eqn:E; [apply Nat.eqb_eq in E; tauto|]. cbn. rewrite IH; tauto. }
    now rewrite !G. }
  rewrite F. fold (subst_op g y). rewrite map_app, results_app.
  rewrite (subst_op_same g y A), HA.
  2:{ intros n i a Hi Ha ->. destruct (results_args x A [] e n i g HA Hi Ha) as [K|[]]. contradiction. }
  rewrite results_app, HA in Hw. cbn [PropagateSpec.results] in Hw. destruct (results x B ((g, x v) :: e)) as [f|] eqn:Ef; [|discriminate].
  destruct (results_subst g y (x v) x B ((g, x v) :: e) e f NB) as (f' & Hf' & T); [| |exact Ef|].
  - assert (In y (map fst A)) as HyA.
    { apply lookup_in, (in_map fst) in Hy. apply (results_keys _ _ _ _ HA) in Hy as [Hy|[]]. exact Hy. }
    intros HyB. rewrite map_app in N'. revert N' HyA HyB. clear. induction (map fst A) as [|a l IH]; [intros _ []|].
    cbn. intros N [->|Ha] Hb; apply NoDup_cons_iff in N as (Na & N); [apply Na, in_or_app; now right|auto].
  - split; [|split].
    + intros k Hk. rewrite lookup_cons. destruct (Nat.eqb g k) eqn:E; [apply Nat.eqb_eq in E; congruence|reflexivity].
    + rewrite lookup_cons, Nat.eqb_refl. reflexivity.
    + exact Hy.
  - match goal with |- match ?t with _ => _ end = _ => change t with (results x (map (subst_op g y) B) e) end.
    rewrite Hf', all_of_map, (all_of_ext _ (lookup f)); [exact Hw|]. intros a _. exact (twin_lookup g y (x v) f f' a T).
Qed.

(** ** The invariant *)
Variables (m : rmodel) (x : nat -> V).

Definition reads_left (st : rstate) (t : nat) (l : list nat) : Prop :=
  NoDup l /\ forall g, In g l -> exists v, In (g, IGet v) (r_ops (s_region st t)).
Definition task_ok (st : rstate) (t : nat) : Prop :=
  match s_task st t with
  | TIdle pending => reads_left st t pending
  | TClone g b cur mp pending =>
      reads_left st t (g :: pending) /\
      exists v A B pre post eA eP,
        target m v = Some b /\ r_ops (s_region st t) = A ++ (g, IGet v) :: B /\ r_ops (s_region st b) = pre ++ post /\
        cur = option_map fst (hd_error post) /\ results x A [] = Some eA /\ results x pre [] = Some eP /\
        forall k w, lookup eP k = Some w -> exists k', lookup mp k = Some k' /\ lookup eA k' = Some w
  end.
Record inv (st : rstate) : Prop := {
  i_unique : forall r, NoDup (map fst (r_ops (s_region st r)));
  i_below : forall r, below (s_next st) (s_region st r);
  i_value : forall r, value x (s_region st r) = value x (s_region (start m) r);
  i_task : forall t, task_ok st t }.

Lemma upd_same : forall {A} (f : nat -> A) i a, upd f i a i = a.
Proof. intros. unfold upd. now rewrite Nat.eqb_refl. Qed.
Lemma upd_other : forall {A} (f : nat -> A) i a j, j <> i -> upd f i a j = f j.
Proof. intros A f i a j H. unfold upd. apply Nat.eqb_neq in H. now rewrite H. Qed.

Hypothesis W : well_formed m.
Hypothesis Sat : satisfies V op m (s_region (start m)) x.

Lemma start_region : forall r, In (s_region (start m) r) (rm_regions m) \/ s_region (start m) r = mkRegion [] [].
Proof.
  intros r. cbn. destruct (Nat.lt_ge_cases r (length (rm_regions m))) as [H|H].
  - left. now apply nth_In.
  - right. now apply nth_overflow.
Qed.
Lemma ordered_results : forall ops known e, ordered known ops -> incl known (map fst e) -> exists e', results x ops e = Some e'.
Proof.
  induction ops as [|[n i] ops IH]; intros known e H I; cbn in *; [eauto|]. destruct H as (Ha & H).
  assert (C : forall w, incl (n :: known) (map fst ((n, w) :: e))) by (intros w k [<-|Hk]; [now left|right; auto]).
  destruct i as [v|o args]; [eapply IH; [exact H|apply C]|].
  destruct (all_of (lookup e) args) as [vs|] eqn:E; [eapply IH; [exact H|apply C]|].
  exfalso. refine (all_of_some (lookup e) args _ E). intros a Haa. destruct (lookup_key _ e a (I a (Ha a Haa))) as (w & ->). discriminate.
Qed.
Lemma start_value : forall r, value x (s_region (start m) r) <> None.
Proof.
  intros r. destruct (start_region r) as [H| ->]; [|discriminate]. unfold PropagateSpec.value.
  destruct (ordered_results _ [] [] (wf_ordered m W _ H)) as (e & E); [apply incl_refl|]. rewrite E.
  apply all_of_some. intros a Ha. destruct (lookup_key _ e a) as (w & ->); [|discriminate].
  apply (results_keys _ _ _ _ E). left. exact (wf_yields m W _ H a Ha).
Qed.
Lemma start_inv : inv (start m).
Proof.
  constructor.
  - intros r. destruct (start_region r) as [H| ->]; [exact (wf_unique m W _ H)|constructor].
  - intros r k Hk. cbn [start s_next]. destruct (start_region r) as [H|E].
    + apply Nat.lt_succ_r. assert (L : In k (flat_map region_ids (rm_regions m))) by (apply in_flat_map; eauto).
      pose proof (proj1 (list_max_le (flat_map region_ids (rm_regions m)) _) (Nat.le_refl _)) as F. rewrite Forall_forall in F. auto.
    + rewrite E in Hk. destruct Hk.
  - reflexivity.
  - intros t. unfold task_ok. cbn [start s_task]. split.
    + assert (N : NoDup (map fst (r_ops (s_region (start m) t)))) by (destruct (start_region t) as [H| ->]; [exact (wf_unique m W _ H)|constructor]).
      change (nth t (rm_regions m) (mkRegion [] [])) with (s_region (start m) t). unfold reads_of. revert N.
      induction (r_ops (s_region (start m) t)) as [|[n i] l IH]; cbn; intros N; [constructor|].
      apply NoDup_cons_iff in N as (Nn & N). destruct i as [v|o args]; cbn; [|auto]. constructor; [|auto].
      intros H. apply Nn. apply in_flat_map in H as ([k j] & Hk & H). destruct j; [|destruct H]. destruct H as [<-|[]]. exact (in_map fst _ _ Hk).
    + intros g Hg. change (nth t (rm_regions m) (mkRegion [] [])) with (s_region (start m) t) in *. unfold reads_of in Hg.
      apply in_flat_map in Hg as ([k j] & Hk & H). destruct j as [v|]; [|destruct H]. destruct H as [<-|[]]. eauto.
Qed.

Lemma binding_value : forall st v b, inv st -> target m v = Some b -> value x (s_region st b) = Some [x v].
Proof. intros st v b I H. rewrite (i_value st I). exact (Sat v b (target_bound m v b H)). Qed.

(** Tasks other than the one of the step. *)
Lemma other_task : forall st st' r t, task_ok st t -> t <> r -> s_task st' t = s_task st t ->
  (forall k, k <> r -> s_region st' k = s_region st k) -> (s_region st' r = s_region st r \/ ~ clones_from st t r) -> task_ok st' t.
Proof.
  intros st st' r t H N Et Er D. unfold task_ok in *. rewrite Et. destruct (s_task st t) as [pending|g b cur mp pending] eqn:E.
  - unfold reads_left. rewrite (Er t N). exact H.
  - destruct H as (R & H). split; [unfold reads_left; rewrite (Er t N); exact R|].
    assert (Eb : s_region st' b = s_region st b).
    { destruct (Nat.eq_dec b r) as [->|Nb]; [|now apply Er]. destruct D as [D|D]; [exact D|]. exfalso. apply D. exists g, cur, mp, pending. exact E. }
    rewrite (Er t N), Eb. exact H.
Qed.

Lemma step_inv : forall st r, inv st ->
  (forall st', step m r st = Some st' -> s_region st' r = s_region st r \/ forall t, ~ clones_from st t r) ->
  exists st', step m r st = Some st' /\ inv st'.
Proof.
  intros st r I D. pose proof (i_task st I r) as T. unfold task_ok in T. unfold step in *.
  destruct (s_task st r) as [[|g pending]|g b cur mp pending] eqn:E.
  - exists st. split; [reflexivity|exact I].
  - (* a read is looked at *)
    destruct T as (N & R). destruct (R g (or_introl eq_refl)) as (v & Hv).
    rewrite (lookup_nodup _ _ _ _ (i_unique st I r) Hv) in *. apply NoDup_cons_iff in N as (Ng & N).
    destruct (target m v) as [b|] eqn:Tv.
    + eexists. split; [reflexivity|]. constructor; cbn [s_region s_next]; try apply I.
      intros t. destruct (Nat.eq_dec t r) as [->|Nt].
      * unfold task_ok. cbn [s_task s_region]. rewrite upd_same. split; [split; [now constructor|exact R]|].
        destruct (split_at _ _ _ Hv) as (A & B & HAB).
        assert (HA : exists eA, results x A [] = Some eA).
        { pose proof (i_value st I r) as Hval. pose proof (start_value r) as Hn. rewrite <- Hval in Hn. unfold PropagateSpec.value in Hn.
          rewrite HAB, results_app in Hn. destruct (results x A []) as [eA|]; [eauto|contradiction]. }
        destruct HA as (eA & HA). exists v, A, B, [], (r_ops (s_region st b)), eA, []. repeat (split; [first [exact Tv|exact HAB|reflexivity|exact HA]|]). intros k w; discriminate.
      * apply (other_task st _ r t (i_task st I t) Nt); cbn [s_task s_region]; auto. now apply upd_other.
    + eexists. split; [reflexivity|]. constructor; cbn [s_region s_next]; try apply I.
      intros t. destruct (Nat.eq_dec t r) as [->|Nt].
      * unfold task_ok. cbn [s_task s_region]. rewrite upd_same. split; [exact N|]. intros k Hk. apply R. now right.
      * apply (other_task st _ r t (i_task st I t) Nt); cbn [s_task s_region]; auto. now apply upd_other.
  - destruct T as (R & v & A & B & pre & post & eA & eP & Tv & HAB & Hb & Hcur & HA & HP & HM).
    pose proof (binding_value st v b I Tv) as Hval. pose proof (i_unique st I r) as Nr. rewrite HAB in Nr.
    destruct (mid_nodup _ _ _ Nr) as (NA & NB & NAB). cbn [fst] in NA, NB.
    destruct (s_region st r) as [ops ys] eqn:Er. cbn [r_ops r_yields] in *. subst ops.
    destruct cur as [k|].
    + (* an operation is cloned *)
      destruct post as [|[k' i] post]; [discriminate|]. injection Hcur as ->.
      pose proof (i_unique st I b) as Nb. rewrite Hb in Nb. destruct (mid_nodup _ _ _ Nb) as (Npre & _ & _). cbn [fst] in Npre.
      assert (Hi : In (k', i) (r_ops (s_region st b))) by (rewrite Hb; apply in_or_app; right; now left).
      rewrite (lookup_nodup _ _ _ _ (i_unique st I b) Hi) in *. cbn zeta in D. specialize (D _ eq_refl). cbn [s_region] in D. rewrite upd_same in D.
      assert (Dn : forall t, ~ clones_from st t r).
      { destruct D as [D|D]; [|exact D]. exfalso. try rewrite Er in D. apply (f_equal (fun z => length (r_ops z))) in D. cbn [r_ops] in D.
        rewrite insert_spec in D by exact NA. rewrite !app_length in D. cbn in D. lia. }
      assert (Nbr : b <> r) by (intros ->; apply (Dn r); exists g, (Some k'), mp, pending; exact E).
      cbn [r_ops r_yields]. rewrite insert_spec by exact NA.
      set (n := s_next st) in *.
      assert (Bn : below n (mkRegion (A ++ (g, IGet v) :: B) ys)) by (rewrite <- Er; apply I).
      (* the value of the operation and of its clone *)
      assert (Hw : exists w, results x [(k', i)] eP = Some ((k', w) :: eP) /\ results x [(n, clone_instr mp i)] eA = Some ((n, w) :: eA)).
      { unfold PropagateSpec.value in Hval. rewrite Hb in Hval. change (pre ++ (k', i) :: post) with (pre ++ ([(k', i)] ++ post)) in Hval.
        rewrite results_app, HP, results_app in Hval. destruct i as [u|o args]; cbn [PropagateSpec.results clone_instr] in *; [exists (x u); auto|].
        destruct (all_of (lookup eP) args) as [vs|] eqn:Ev; [|discriminate]. exists (op o vs). split; [reflexivity|].
        rewrite all_of_map, (all_of_ext _ (lookup eP)); [now rewrite Ev|]. intros a Ha. destruct (all_of_in _ _ _ a Ev Ha) as (w & Hw). rewrite Hw.
        destruct (HM a w Hw) as (a' & Ha' & Hl). unfold mapped. now rewrite Ha'. }
      destruct Hw as (w & Hw1 & Hw2).
      assert (Nn : ~ In n (map fst (A ++ (g, IGet v) :: B))).
      { intros H. assert (L : n < n); [|lia]. apply Bn. unfold region_ids. apply in_or_app. left. now apply ids_fst. }
      eexists. split; [reflexivity|]. constructor; cbn [s_region s_next].
      * intros q. destruct (Nat.eq_dec q r) as [->|Nq]; [rewrite upd_same|rewrite upd_other by exact Nq; apply I]. cbn [r_ops].
        rewrite map_app. cbn [map fst]. apply (NoDup_Add (a := n) (l := map fst (A ++ (g, IGet v) :: B))); [|split; assumption].
        rewrite map_app. apply Add_app.
      * intros q. destruct (Nat.eq_dec q r) as [->|Nq].
        -- rewrite upd_same. intros z Hz. unfold region_ids in Hz. cbn [r_ops r_yields] in Hz. rewrite !flat_map_app in Hz. cbn [flat_map] in Hz.
           rewrite !in_app_iff in Hz.
           assert (Old : In z (region_ids (mkRegion (A ++ (g, IGet v) :: B) ys)) -> z < S n) by (intros H; specialize (Bn z H); lia).
           unfold region_ids in Old. cbn [r_ops r_yields] in Old. rewrite !flat_map_app in Old. cbn [flat_map] in Old. rewrite !in_app_iff in Old.
           destruct Hz as [[Hz|[Hz|[Hz|Hz]]]|Hz]; try (apply Old; tauto).
           unfold instr_ids in Hz. destruct Hz as [<-|Hz]; [cbn [fst]; apply Nat.lt_succ_diag_r|]. cbn [snd] in Hz. destruct i as [u|o args]; [destruct Hz|]. cbn [clone_instr] in Hz.
           apply in_map_iff in Hz as (a & <- & Ha). cbn [PropagateSpec.results] in Hw1. destruct (all_of (lookup eP) args) as [vs|] eqn:Ev; [|discriminate].
           destruct (all_of_in _ _ _ a Ev Ha) as (wa & Hwa). destruct (HM a wa Hwa) as (a' & Ha' & Hl). unfold mapped in Old |- *. rewrite Ha' in Old |- *.
           apply Old. left. left. apply ids_fst. apply lookup_in, (in_map fst) in Hl. apply (results_keys _ _ _ _ HA) in Hl as [Hl|[]]. exact Hl.
        -- rewrite upd_other by exact Nq. intros z Hz. pose proof (i_below st I q z Hz). fold n in H. lia.
      * intros q. destruct (Nat.eq_dec q r) as [->|Nq]; [rewrite upd_same|rewrite upd_other by exact Nq; apply I].
        rewrite (insert_value x A n _ g v B ys eA w HA Hw2 Bn), <- Er. apply I.
      * intros t. destruct (Nat.eq_dec t r) as [->|Nt].
        -- unfold task_ok. cbn [s_task s_region]. rewrite upd_same. unfold reads_left. cbn [s_region]. rewrite !upd_same, upd_other by exact Nbr. cbn [r_ops]. split.
           ++ destruct R as (Rn & R). split; [exact Rn|]. intros z Hz. destruct (R z Hz) as (u & Hu). exists u. try rewrite Er in Hu. cbn [r_ops] in Hu.
              apply in_app_or in Hu as [Hu|Hu]; apply in_or_app; [now left|right; now right].
           ++ exists v, (A ++ [(n, clone_instr mp i)]), B, (pre ++ [(k', i)]), post, ((n, w) :: eA), ((k', w) :: eP).
              split; [exact Tv|]. split; [rewrite <- app_assoc; reflexivity|]. split; [rewrite <- app_assoc; exact Hb|].
              split; [rewrite Hb; now apply after_spec|]. split; [rewrite results_app, HA; exact Hw2|]. split; [rewrite results_app, HP; exact Hw1|].
              intros z wz. rewrite !lookup_cons. destruct (Nat.eqb k' z) eqn:Ez.
              ** intros H. injection H as <-. exists n. rewrite lookup_cons, Nat.eqb_refl. auto.
              ** intros H. destruct (HM z wz H) as (z' & Hz & Hl). exists z'. split; [exact Hz|]. rewrite lookup_cons.
                 destruct (Nat.eqb n z') eqn:En; [|exact Hl]. apply Nat.eqb_eq in En. subst z'. exfalso. apply Nn. rewrite map_app. apply in_or_app. left.
                 apply lookup_in, (in_map fst) in Hl. apply (results_keys _ _ _ _ HA) in Hl as [Hl|[]]. exact Hl.
        -- apply (other_task st _ r t (i_task st I t) Nt); cbn [s_task s_region]; [now apply upd_other|intros; now apply upd_other|right; apply Dn].
    + (* the read is replaced *)
      assert (post = []) as -> by (destruct post as [|[k i] post]; [reflexivity|discriminate]). rewrite app_nil_r in Hb.
      assert (Hy : exists y, r_yields (s_region st b) = [y] /\ lookup eP y = Some (x v)).
      { unfold PropagateSpec.value in Hval. rewrite Hb, HP in Hval. destruct (r_yields (s_region st b)) as [|y [|y' l]]; cbn in Hval; [discriminate| |].
        - exists y. split; [reflexivity|]. destruct (lookup eP y); [|discriminate]. now injection Hval as ->.
        - destruct (lookup eP y); [|discriminate]. destruct (lookup eP y'); [|discriminate]. destruct (all_of (lookup eP) l); discriminate. }
      destruct Hy as (y & Hy & Hly). rewrite Hy in *. destruct (HM y (x v) Hly) as (y' & Hy' & Hl'). rewrite Hy' in *.
      specialize (D _ eq_refl). cbn [s_region] in D. rewrite upd_same in D.
      assert (F : filter (fun x => negb (Nat.eqb (fst x) g)) (A ++ (g, IGet v) :: B) = A ++ B).
      { rewrite filter_app. cbn. rewrite Nat.eqb_refl. cbn.
        assert (G : forall l : list (nat * instr), ~ In g (map fst l) -> filter (fun x => negb (Nat.eqb (fst x) g)) l = l).
        { induction l as [|[k j] l IH]; cbn; intros H; [reflexivity|]. destruct (Nat.eqb k g) eqn:Eg; [apply Nat.eqb_eq in Eg; tauto|]. cbn. rewrite IH; tauto. }
        now rewrite !G. }
      assert (Dn : forall t, ~ clones_from st t r).
      { destruct D as [D|D]; [|exact D]. exfalso. try rewrite Er in D. apply (f_equal (fun z => length (r_ops z))) in D. unfold replace_read in D. cbn [r_ops] in D.
        rewrite map_length, F, !app_length in D. cbn in D. lia. }
      eexists. split; [reflexivity|].
      assert (Keys : map fst (r_ops (replace_read g y' (mkRegion (A ++ (g, IGet v) :: B) ys))) = map fst (A ++ B)).
      { unfold replace_read. cbn [r_ops]. rewrite F, map_map. reflexivity. }
      assert (HyA : In y' (map fst A)) by (apply lookup_in, (in_map fst) in Hl'; apply (results_keys _ _ _ _ HA) in Hl' as [Hl'|[]]; exact Hl').
      constructor; cbn [s_region s_next].
      * intros q. destruct (Nat.eq_dec q r) as [->|Nq]; [rewrite upd_same|rewrite upd_other by exact Nq; apply I]. now rewrite Keys.
      * intros q. destruct (Nat.eq_dec q r) as [->|Nq]; [rewrite upd_same|rewrite upd_other by exact Nq; apply I].
        pose proof (i_below st I r) as Bl. rewrite Er in Bl.
        assert (Ly : y' < s_next st) by (apply Bl; unfold region_ids; apply in_or_app; left; apply ids_fst; cbn [r_ops]; rewrite map_app; apply in_or_app; now left).
        assert (Ls : forall a, In a (region_ids (mkRegion (A ++ (g, IGet v) :: B) ys)) -> subst_id g y' a < s_next st).
        { intros a Ha. unfold subst_id. destruct (Nat.eqb a g); [exact Ly|exact (Bl a Ha)]. }
        intros z Hz. unfold region_ids, replace_read in Hz. cbn [r_ops r_yields] in Hz. rewrite F in Hz. apply in_app_or in Hz as [Hz|Hz].
        -- apply in_flat_map in Hz as (q & Hq & Hz). apply in_map_iff in Hq as ([k i] & <- & Hq).
           assert (Hq' : In (k, i) (A ++ (g, IGet v) :: B)) by (apply in_app_or in Hq as [Hq|Hq]; apply in_or_app; [now left|right; now right]).
           destruct Hz as [<-|Hz]; [cbn; apply Bl; unfold region_ids; apply in_or_app; left; apply ids_fst; exact (in_map fst _ _ Hq')|].
           cbn in Hz. destruct i as [u|o args]; [destruct Hz|]. cbn in Hz. apply in_map_iff in Hz as (a & <- & Ha). apply Ls.
           unfold region_ids. apply in_or_app. left. exact (ids_arg _ k (IOp o args) a Hq' Ha).
        -- apply in_map_iff in Hz as (a & <- & Ha). apply Ls. unfold region_ids. apply in_or_app. now right.
      * intros q. destruct (Nat.eq_dec q r) as [->|Nq]; [rewrite upd_same|rewrite upd_other by exact Nq; apply I].
        pose proof (i_value st I r) as Hv. rewrite Er in Hv. pose proof (start_value r) as Hn. rewrite <- Hv in *.
        destruct (value x (mkRegion (A ++ (g, IGet v) :: B) ys)) as [w|] eqn:Ew; [|contradiction].
        exact (replace_value x A g v B ys eA y' w HA Hl' Nr Ew).
      * intros t. destruct (Nat.eq_dec t r) as [->|Nt].
        -- unfold task_ok. cbn [s_task s_region]. rewrite upd_same. unfold reads_left. cbn [s_region]. rewrite upd_same.
           destruct R as (Rn & R). apply NoDup_cons_iff in Rn as (Rg & Rn). split; [exact Rn|]. intros z Hz. destruct (R z (or_intror Hz)) as (u & Hu).
           exists u. try rewrite Er in Hu. cbn [r_ops] in Hu. unfold replace_read. cbn [r_ops]. rewrite F. apply in_map_iff. exists (z, IGet u). split; [reflexivity|].
           apply in_app_or in Hu as [Hu|[Hu|Hu]]; apply in_or_app; [now left| |now right]. injection Hu as <- <-. contradiction.
        -- apply (other_task st _ r t (i_task st I t) Nt); cbn [s_task s_region]; [now apply upd_other|intros; now apply upd_other|right; apply Dn].
Qed.

Lemma run_inv : forall schedule st, inv st -> undisturbed m schedule st -> exists st', run m schedule st = Some st' /\ inv st'.
Proof.
  induction schedule as [|r s IH]; intros st I U; cbn in *; [eauto|].
  destruct (step_inv st r I) as (st' & E & I').
  - intros st' E. rewrite E in U. apply U.
  - rewrite E in *. apply IH; [exact I'|apply U].
Qed.
End Values.

(** ** The values need not be known *)
Section Schedules.
Variable m : rmodel.
Hypothesis W : well_formed m.

Definition ones (v : nat) : unit := tt.
Definition uop (o : nat) (l : list unit) : unit := tt.
Notation uinv := (inv unit uop m ones).
Lemma unit_sat : satisfies unit uop m (s_region (start m)) ones.
Proof.
  intros v b T. destruct (wf_binding m W v b T) as (r & y & Hr & Hy). pose proof (start_value unit uop m ones W b) as N.
  assert (E : s_region (start m) b = r) by (cbn; now apply nth_error_nth).
  rewrite E in *. unfold PropagateSpec.value in *. rewrite Hy in *. destruct (results unit uop ones (r_ops r) []) as [e|]; [|contradiction].
  cbn in *. destruct (lookup e y) as [[]|]; [reflexivity|contradiction].
Qed.

Definition at_start (st : rstate) (t g v : nat) : Prop := In (g, IGet v) (r_ops (s_region (start m) t)).
(** The reads a task has to look at are the ones the region had at the start. *)
Definition origin (st : rstate) : Prop := forall t,
  match s_task st t with
  | TIdle pending => NoDup pending /\ forall g, In g pending -> exists v, In (g, IGet v) (r_ops (s_region st t)) /\ at_start st t g v
  | TClone g b cur mp pending =>
      NoDup (g :: pending) /\ (exists v, target m v = Some b /\ at_start st t g v) /\
      forall g', In g' pending -> exists v, In (g', IGet v) (r_ops (s_region st t)) /\ at_start st t g' v
  end.
Lemma start_origin : origin (start m).
Proof.
  intros t. pose proof (i_task _ _ _ _ _ (start_inv unit uop m ones W) t) as T. unfold task_ok in T. cbn [start s_task] in *.
  destruct T as (N & T). split; [exact N|]. intros g Hg. destruct (T g Hg) as (v & Hv). exists v. split; exact Hv.
Qed.
Lemma insert_in : forall g y l z, In z (insert_before g y l) -> z = y \/ In z l.
Proof.
  intros g y l z. induction l as [|a l IH]; cbn; [intros []|]. destruct (Nat.eqb (fst a) g); cbn; intros H; [intuition|].
  destruct H as [H|H]; [auto|]. destruct (IH H); auto.
Qed.
Lemma insert_keeps : forall g y l z, In z l -> In z (insert_before g y l).
Proof.
  intros g y l z. induction l as [|a l IH]; cbn; [intros []|]. destruct (Nat.eqb (fst a) g); cbn; intros H; [intuition|].
  destruct H as [H|H]; auto.
Qed.
Lemma replace_in : forall g y r n v, In (n, IGet v) (r_ops (replace_read g y r)) <-> In (n, IGet v) (r_ops r) /\ n <> g.
Proof.
  intros g y r n v. unfold replace_read. cbn [r_ops]. rewrite in_map_iff. split.
  - intros ([k i] & E & H). apply filter_In in H as (H & Hg). cbn in *. injection E as -> E. destruct i as [u|]; [|discriminate]. cbn in E. injection E as ->.
    split; [exact H|]. apply negb_true_iff, Nat.eqb_neq in Hg. exact Hg.
  - intros (H & N). exists (n, IGet v). split; [reflexivity|]. apply filter_In. split; [exact H|]. apply Nat.eqb_neq in N. cbn. now rewrite N.
Qed.

Lemma step_origin : forall st r st', uinv st -> origin st -> step m r st = Some st' -> origin st'.
Proof.
  intros st r st' I O E t. pose proof (O t) as Ot. pose proof (O r) as Or. unfold step in E.
  destruct (s_task st r) as [[|g pending]|g b cur mp pending] eqn:Er.
  - injection E as <-. exact Ot.
  - destruct Or as (N & Or). destruct (Or g (or_introl eq_refl)) as (v & Hv & Hs).
    rewrite (lookup_nodup _ _ _ _ (i_unique _ _ _ _ _ I r) Hv) in E. pose proof (proj1 (NoDup_cons_iff _ _) N) as (Ng & Np).
    destruct (target m v) as [b|] eqn:Tv; injection E as <-; cbn [s_task s_region]; (destruct (Nat.eq_dec t r) as [->|Nt]; [rewrite upd_same|rewrite upd_other by exact Nt; exact Ot]).
    + split; [exact N|]. split; [exists v; split; assumption|]. intros g' Hg. apply Or. now right.
    + split; [exact Np|]. intros g' Hg. apply Or. now right.
  - destruct Or as (N & (v & Tv & Hs) & Or). destruct cur as [k|].
    + destruct (lookup (r_ops (s_region st b)) k) as [i|]; [|discriminate]. injection E as <-. cbn [s_task s_region].
      destruct (Nat.eq_dec t r) as [->|Nt]; [rewrite !upd_same|rewrite !upd_other by exact Nt; exact Ot]. cbn [r_ops].
      split; [exact N|]. split; [eauto|]. intros g' Hg. destruct (Or g' Hg) as (u & Hu & Hus). exists u. split; [now apply insert_keeps|exact Hus].
    + destruct (r_yields (s_region st b)) as [|y l]; [discriminate|]. destruct (lookup mp y) as [y'|]; [|discriminate]. injection E as <-. cbn [s_task s_region].
      destruct (Nat.eq_dec t r) as [->|Nt]; [rewrite !upd_same|rewrite !upd_other by exact Nt; exact Ot]. apply NoDup_cons_iff in N as (Ng & N).
      split; [exact N|]. intros g' Hg. destruct (Or g' Hg) as (u & Hu & Hus). exists u. split; [|exact Hus]. apply replace_in. split; [exact Hu|].
      intros ->. contradiction.
Qed.
(** A step that changes a region is one of a task that replaces a read. *)
Lemma step_same : forall st r st' p, step m r st = Some st' -> s_task st r = TIdle p -> s_region st' = s_region st.
Proof.
  intros st r st' p E Er. unfold step in E. rewrite Er in E. destruct p as [|g p]; [now injection E as <-|].
  destruct (lookup _ g) as [[v|]|]; try discriminate. destruct (target m v); now injection E as <-.
Qed.
Lemma step_region : forall st r st' t, step m r st = Some st' -> t <> r -> s_region st' t = s_region st t.
Proof.
  intros st r st' t E N. destruct (s_task st r) as [p|g b cur mp p] eqn:Er; [now rewrite (step_same st r st' p E Er)|].
  unfold step in E. rewrite Er in E. destruct cur as [k|].
  - destruct (lookup _ k); [|discriminate]. injection E as <-. cbn [s_region]. now apply upd_other.
  - destruct (r_yields _); [discriminate|]. destruct (lookup mp _); [|discriminate]. injection E as <-. cbn [s_region]. now apply upd_other.
Qed.

Lemma alone_undisturbed : not_of_itself m -> forall schedule st, uinv st -> origin st -> alone m schedule st -> undisturbed m schedule st.
Proof.
  intros Self. induction schedule as [|r s IH]; intros st I O Al; cbn in *; [exact Logic.I|]. destruct Al as (Idle & Al).
  assert (D : forall st', step m r st = Some st' -> s_region st' r = s_region st r \/ forall t, ~ clones_from st t r).
  { intros st' _. right. intros t (g & cur & mp & p & E). destruct (Nat.eq_dec t r) as [->|Nt].
    - pose proof (O r) as Or. rewrite E in Or. destruct Or as (_ & (v & Tv & Hs) & _). apply (Self v r (target_bound m v r Tv)). exists g. split; [exact Hs|exists r; exact (target_bound m v r Tv)].
    - destruct (Idle t Nt) as (p' & E'). congruence. }
  destruct (step_inv unit uop m ones W unit_sat st r I D) as (st' & E & I'). rewrite E in *. split; [now apply D|]. apply IH; auto. exact (step_origin st r st' I O E).
Qed.
Lemma independent_disturbs_not : independent m -> forall st r st', origin st -> step m r st = Some st' ->
  s_region st' r = s_region st r \/ forall t, ~ clones_from st t r.
Proof.
  intros Ind st r st' O E. destruct (s_task st r) as [p|g b cur mp p] eqn:Er; [left; now rewrite (step_same st r st' p E Er)|right].
  intros t (g' & cur' & mp' & p' & Et). pose proof (O t) as Ot. rewrite Et in Ot. destruct Ot as (_ & (v & Tv & _) & _).
  pose proof (O r) as Or. rewrite Er in Or. destruct Or as (_ & (u & Tu & Hs) & _). apply (Ind v r (target_bound m v r Tv) u). exists g. split; [exact Hs|exists b; exact (target_bound m u b Tu)].
Qed.
Lemma independent_undisturbed : independent m -> forall schedule st, uinv st -> origin st -> undisturbed m schedule st.
Proof.
  intros Ind. induction schedule as [|r s IH]; intros st I O; cbn; [exact Logic.I|].
  destruct (step_inv unit uop m ones W unit_sat st r I (fun st' => independent_disturbs_not Ind st r st' O)) as (st' & E & I').
  rewrite E. split; [exact (independent_disturbs_not Ind st r st' O E)|]. apply IH; [exact I'|]. exact (step_origin st r st' I O E).
Qed.

(** ** Nothing is left to replace *)
Definition todo (k : task) : list nat := match k with TIdle p => p | TClone g _ _ _ p => g :: p end.
Record tidy (st : rstate) : Prop := {
  t_binding : forall v b, target m v = Some b -> s_region st b = s_region (start m) b;
  t_left : forall t n v, In (n, IGet v) (r_ops (s_region st t)) -> target m v <> None -> In n (todo (s_task st t)) }.
Lemma start_tidy : tidy (start m).
Proof.
  constructor; [reflexivity|]. intros t n v H _. cbn [start s_task todo]. unfold reads_of. apply in_flat_map. exists (n, IGet v). split; [exact H|now left].
Qed.
Lemma step_tidy : independent m -> forall st r st', uinv st -> origin st -> tidy st -> step m r st = Some st' -> tidy st'.
Proof.
  intros Ind st r st' I O [Tb Tl] E. pose proof (O r) as Or.
  assert (Keep : forall v b, target m v = Some b -> s_region st' b = s_region st b).
  { intros v b Tv. destruct (Nat.eq_dec b r) as [->|N]; [|exact (step_region st r st' b E N)].
    destruct (s_task st r) as [p|g b' cur mp p] eqn:Er; [now rewrite (step_same st r st' p E Er)|].
    destruct Or as (_ & (u & Tu & Hs) & _). destruct (Ind v r (target_bound m v r Tv) u). exists g. split; [exact Hs|exists b'; exact (target_bound m u b' Tu)]. }
  constructor.
  - intros v b Tv. rewrite (Keep v b Tv). exact (Tb v b Tv).
  - intros t n v Hn Ht. destruct (Nat.eq_dec t r) as [->|Nt].
    + unfold step in E. destruct (s_task st r) as [[|g pending]|g b cur mp pending] eqn:Er.
      * injection E as <-. exact (Tl r n v Hn Ht).
      * destruct Or as (N & Or). destruct (Or g (or_introl eq_refl)) as (u & Hu & _).
        rewrite (lookup_nodup _ _ _ _ (i_unique _ _ _ _ _ I r) Hu) in E.
        destruct (target m u) as [b|] eqn:Tu; injection E as <-; cbn [s_task s_region] in *; rewrite upd_same; pose proof (Tl r n v Hn Ht) as L; rewrite Er in L; cbn [todo] in *; [exact L|].
        destruct L as [<-|L]; [|exact L]. exfalso. pose proof (lookup_nodup _ _ _ _ (i_unique _ _ _ _ _ I r) Hn) as L1.
        rewrite (lookup_nodup _ _ _ _ (i_unique _ _ _ _ _ I r) Hu) in L1. congruence.
      * destruct Or as (_ & (u & Tu & _) & _). destruct cur as [k|].
        -- destruct (lookup (r_ops (s_region st b)) k) as [i|] eqn:El; [|discriminate]. injection E as <-. cbn [s_task s_region] in *. rewrite upd_same in Hn. rewrite upd_same. cbn [r_ops todo] in *.
           apply insert_in in Hn as [Hn|Hn]; [|pose proof (Tl r n v Hn Ht) as L; rewrite Er in L; exact L].
           exfalso. injection Hn as -> Hn. destruct i as [w|]; [|discriminate]. cbn in Hn. injection Hn as <-.
           apply lookup_in in El. rewrite (Tb u b Tu) in El. apply (Ind u b (target_bound m u b Tu) v). exists k. split; [exact El|].
           destruct (target m v) as [c|] eqn:Tv; [exists c; exact (target_bound m v c Tv)|congruence].
        -- destruct (r_yields (s_region st b)) as [|y l]; [discriminate|]. destruct (lookup mp y) as [y'|]; [|discriminate]. injection E as <-. cbn [s_task s_region] in *.
           rewrite upd_same in Hn. rewrite upd_same. cbn [todo]. apply replace_in in Hn as (Hn & Ng). pose proof (Tl r n v Hn Ht) as L. rewrite Er in L. cbn [todo] in L.
           destruct L as [L|L]; [congruence|exact L].
    + rewrite (step_region st r st' t E Nt) in Hn. pose proof (Tl t n v Hn Ht) as L.
      assert (Et : s_task st' t = s_task st t).
      { unfold step in E. destruct (s_task st r) as [[|g pending]|g b [k|] mp pending].
        - now injection E as <-.
        - destruct (lookup _ g) as [[w|]|]; try discriminate. destruct (target m w); injection E as <-; cbn; now apply upd_other.
        - destruct (lookup _ k); [|discriminate]. injection E as <-. cbn. now apply upd_other.
        - destruct (r_yields _); [discriminate|]. destruct (lookup mp _); [|discriminate]. injection E as <-. cbn. now apply upd_other. }
      now rewrite Et.
Qed.
Lemma run_tidy : independent m -> forall schedule st st', uinv st -> origin st -> tidy st -> run m schedule st = Some st' -> tidy st'.
Proof.
  intros Ind. induction schedule as [|r s IH]; intros st st' I O Ti E; cbn in E; [now injection E as <-|].
  destruct (step_inv unit uop m ones W unit_sat st r I (fun st' => independent_disturbs_not Ind st r st' O)) as (st1 & E1 & I1). rewrite E1 in E.
  apply (IH st1 st' I1); [exact (step_origin st r st1 I O E1)|exact (step_tidy Ind st r st1 I O Ti E1)|exact E].
Qed.
End Schedules.
